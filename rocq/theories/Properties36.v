(** Theorem C100: what hyrax's proofs show of the witness: nothing when all layers are equally wide, a combination of inner values when the last layer is narrower than the one below. *)
From Verif Require Import Field Zp Poly Module ModelTranscript ModelMle SpecMle ModelLibra SpecLibra ModelSigma ModelSpartan ModelHyrax SpecHyrax SpecHyrax3 SpecSigmaZk SpecHyraxZk.
From Verif Require Import ProofsLibra3 ProofsHyraxZk7 ExMarlin Properties20 Properties22 Properties23 Properties24 Properties33 Properties34 Properties35.
From Coq Require Import String List Lia ZArith.
Import ListNotations.
Local Open Scope string_scope.
Local Open Scope list_scope.
Local Open Scope fld_scope.

(** ** C100 *)
Theorem C100_even : forall (K : Fld) (G : Grp K) (ch : oracle K G) num r1 g r3 r4 ni na s k inputs ch_hash p_hash, let p := hparams_new K G num r1 g r3 r4 in
  (1 + 1 : K) <> 0 -> (1 + 1 + 1 : K) <> 0 -> pow2_above (Nat.max ni na) (2 ^ s) ->
  forall raw c, circuit_new ni na raw = Ok c -> raw <> [] -> even_layers (2 ^ s) raw -> spans (mc_h K G (hp_1 K G p)) -> spans (mc_h K G (hp_3 K G p)) -> spans (mc_h K G (hp_4 K G p)) ->
  let n := (2 ^ k)%nat in let prove w x := hx_prover K G ch p w inputs c ch_hash p_hash n (hc_w x) (hc_z x) (hc_0 x) (hc_1 x) in
  forall w w' x pf os, provable (2 ^ s) raw num n inputs w -> provable (2 ^ s) raw num n inputs w' -> paired n inputs w -> paired n inputs w' -> outputs_of (2 ^ s) raw n inputs w = outputs_of (2 ^ s) raw n inputs w' -> prove w x = Ok (pf, os) ->
  exists x', prove w' x' = Ok (pf, os) /\ forall y o, prove w' y = Ok (pf, o) -> hc_same (length raw) k s y x'.
Proof. exact hyrax_witnesses. Qed.
Print Assumptions C100_even.
Theorem C100_narrow : forall (K : Fld) (G : Grp K) (ch : oracle K G) num r1 g r3 r4 ni na s k inputs ch_hash p_hash, let p := hparams_new K G num r1 g r3 r4 in
  (1 + 1 : K) <> 0 -> (1 + 1 + 1 : K) <> 0 -> pow2_above (Nat.max ni na) (2 ^ s) ->
  forall low top c a b, circuit_new ni na (low ++ [top]) = Ok c -> length top = (2 ^ a)%nat -> width_after (2 ^ s) low = (2 ^ b)%nat -> (a <= b)%nat ->
  let n := (2 ^ k)%nat in forall w x pf os, provable (2 ^ s) (low ++ [top]) num n inputs w -> paired n inputs w -> hx_prover K G ch p w inputs c ch_hash p_hash n (hc_w x) (hc_z x) (hc_0 x) (hc_1 x) = Ok (pf, os) ->
  exists u qa q t pf1 rest all t', eval_outputs K G ch os (MGs "comm_witness" (hx_witness K G pf) :: hx_init K G ch_hash p_hash (firstn n inputs) os) = Ok (u, qa, q, t) /\ hx_proofs K G pf = pf1 :: rest /\
    let C := poly_commit_vec K G (mc_gens K G (hp_1 K G p)) [u] (mc_h K G (hp_1 K G p)) 0 in
    zk_challenges K G ch (k + 2 * b) (zk_polys K G pf1) (zk_evals K G pf1) C (MG "comm_claim_a0" C :: t) = Ok (all, t') /\
    forall j, (a + j < b)%nat -> exists A B, nth_error (zk_evals K G pf1) (k + a + j) = Some A /\ nth_error (zk_evals K G pf1) (k + b + j) = Some B /\
      A = gadd B (gsm (revealed k b (outputs_of (2 ^ s) low n inputs w) qa q q 1 0 (gates_of top) all j) g).
Proof. exact hyrax_leak. Qed.
Print Assumptions C100_narrow.
Theorem C100_narrow_two : forall (K : Fld) (G : Grp K) (ch : oracle K G) num r1 g r3 r4 ni na s k inputs ch_hash p_hash, let p := hparams_new K G num r1 g r3 r4 in
  (1 + 1 : K) <> 0 -> (1 + 1 + 1 : K) <> 0 -> pow2_above (Nat.max ni na) (2 ^ s) ->
  forall low top c a b, circuit_new ni na (low ++ [top]) = Ok c -> length top = (2 ^ a)%nat -> width_after (2 ^ s) low = (2 ^ b)%nat -> (a <= b)%nat -> (forall e, gsm e g = g0 -> e = 0) ->
  let n := (2 ^ k)%nat in let prove w x := hx_prover K G ch p w inputs c ch_hash p_hash n (hc_w x) (hc_z x) (hc_0 x) (hc_1 x) in
  forall w w' x x' pf os, provable (2 ^ s) (low ++ [top]) num n inputs w -> paired n inputs w -> provable (2 ^ s) (low ++ [top]) num n inputs w' -> paired n inputs w' -> prove w x = Ok (pf, os) -> prove w' x' = Ok (pf, os) ->
  exists u qa q t pf1 rest all t', eval_outputs K G ch os (MGs "comm_witness" (hx_witness K G pf) :: hx_init K G ch_hash p_hash (firstn n inputs) os) = Ok (u, qa, q, t) /\ hx_proofs K G pf = pf1 :: rest /\
    let C := poly_commit_vec K G (mc_gens K G (hp_1 K G p)) [u] (mc_h K G (hp_1 K G p)) 0 in
    zk_challenges K G ch (k + 2 * b) (zk_polys K G pf1) (zk_evals K G pf1) C (MG "comm_claim_a0" C :: t) = Ok (all, t') /\
    forall j, (a + j < b)%nat -> revealed k b (outputs_of (2 ^ s) low n inputs w) qa q q 1 0 (gates_of top) all j = revealed k b (outputs_of (2 ^ s) low n inputs w') qa q q 1 0 (gates_of top) all j.
Proof. exact hyrax_leak_two. Qed.
Print Assumptions C100_narrow_two.

(** ** With all challenges equal *)
Lemma draws_const (K : Fld) (G : Grp K) (e : K) l n t : fst (draws K G (fun _ _ => e) l n t) = repeat e n.
Proof.
  revert t. induction n as [|n IH]; intro t; [reflexivity|]. cbn [draws repeat]. unfold draw. cbv beta iota zeta. specialize (IH (MCh l :: t)). destruct (draws K G (fun _ _ => e) l n (MCh l :: t)) as [xs t']. cbn [fst] in *. rewrite IH. reflexivity.
Qed.
Lemma challenges_const (K : Fld) (G : Grp K) (e : K) n : forall cps ces cc t all t', zk_challenges K G (fun _ _ => e) n cps ces cc t = Ok (all, t') -> all = repeat e n.
Proof.
  induction n as [|n IH]; intros cps ces cc t all t' E; [destruct cps, ces; injection E as <- _; reflexivity|]. destruct cps as [|cp cps]; [discriminate|]. destruct ces as [|ce ces]; [discriminate|]. cbn [zk_challenges] in E. unfold draw in E. cbv beta iota zeta in E.
  match type of E with rmap _ ?X = _ => destruct X as [[rs t2]| |] eqn:R; cbn [rmap] in E; try discriminate end. injection E as <- _. rewrite (IH _ _ _ _ _ _ R). reflexivity.
Qed.
Lemma points_const (K : Fld) (G : Grp K) (e : K) o1 o2 t u qa q t' : length o1 = 1%nat -> eval_outputs K G (fun _ _ => e) [o1; o2] t = Ok (u, qa, q, t') -> qa = [e] /\ q = [].
Proof.
  intros L E. unfold eval_outputs in E. rewrite L in E. change (log2c (next_pow2 1)) with 0%nat in E. change (log2c (next_pow2 (length [o1; o2]))) with 1%nat in E. cbn [draws draw] in E. cbv beta iota zeta in E. destruct (existsb _ _) in E; [discriminate|]. injection E as _ <- <- _. split; reflexivity.
Qed.
Lemma gens97 (x e : F97) : x <> 0 -> gsm (g := S97') e x = g0 -> e = 0.
Proof. intros N E. change (e * x = 0) in E. destruct (f_integral F97 _ _ E); [assumption|contradiction]. Qed.
(** ** The witnesses (7, 8), (9, 10) and (26, 4), (33, 5) have the same outputs, and never the same proof *)
Definition ws100 : list (list F97) := [[z97 26; z97 4]; [z97 33; z97 5]].
Lemma ok100 : provable 2 raw86 2 2 ins87 ws100.
Proof.
  destruct ok87 as (A & B & C & D & E & F). split; [exact A|]. split; [cbn; lia|]. split; [exact C|]. split; [exact D|]. split; [|exact F]. repeat (constructor; [exact (Forall_inv E)|]). constructor.
Qed.
Lemma above100 : pow2_above (Nat.max 2 2) (2 ^ 1).
Proof. exists 1%nat. split; [reflexivity|]. split; [cbn; lia|]. intros j H. exact H. Qed.
Definition prove100 (w : list (list F97)) (x : @hcoins F97) := hx_prover F97 S97' ch84 hp87 w ins87 (built 2 2 raw86) (z97 9) (z97 10) 2 (hc_w x) (hc_z x) (hc_0 x) (hc_1 x).
Example ex_C100_narrow : outputs_of 2 raw86 2 ins87 ws87 = outputs_of 2 raw86 2 ins87 ws100 /\ (forall x, exists pf os, prove100 ws87 x = Ok (pf, os)) /\ (forall x, exists pf os, prove100 ws100 x = Ok (pf, os)) /\
  forall x x' pf os os', prove100 ws87 x = Ok (pf, os) -> prove100 ws100 x' <> Ok (pf, os').
Proof.
  destruct two97 as (T2 & T3 & _). assert (NZ : forall l t, ch84 l t <> 0) by (intros l t Q; apply (f_equal (fun y : F97 => zv _ y)) in Q; vm_compute in Q; discriminate).
  assert (EC : circuit_new 2 2 raw86 = Ok (built 2 2 raw86)) by reflexivity.
  assert (Pa : forall w : list (list F97), map (@length F97) w = [2; 2]%nat -> paired 2 ins87 w). { intros [|w1 [|w2 [|w3 w]]] L; try discriminate. injection L as L1 L2. intros i v [Q|[Q|[]]]; apply pair_equal_spec in Q as [<- <-]; symmetry; assumption. }
  assert (EO : outputs_of 2 raw86 2 ins87 ws87 = outputs_of 2 raw86 2 ins87 ws100) by (vm_compute; reflexivity).
  unfold prove100. split; [exact EO|]. split; [|split].
  - intro x. destruct (C87_total F97 S97' ch84 2 (fun j => z97 (Z.of_nat j)) (z97 5) (fun j => z97 (2 + Z.of_nat j)) (fun j => z97 (3 + Z.of_nat j)) 2 2 raw86 _ 2 ins87 ws87 2 (z97 9) (z97 10) (hc_w x) (hc_z x) (hc_0 x) (hc_1 x) T2 T3 above100 EC ltac:(discriminate) NZ ok87) as [pf H]. exists pf. eexists. exact H.
  - intro x. destruct (C87_total F97 S97' ch84 2 (fun j => z97 (Z.of_nat j)) (z97 5) (fun j => z97 (2 + Z.of_nat j)) (fun j => z97 (3 + Z.of_nat j)) 2 2 raw86 _ 2 ins87 ws100 2 (z97 9) (z97 10) (hc_w x) (hc_z x) (hc_0 x) (hc_1 x) T2 T3 above100 EC ltac:(discriminate) NZ ok100) as [pf H]. exists pf. eexists. exact H.
  - intros x x' pf os os' E E'.
    pose proof (Pa ws87 eq_refl) as P1. pose proof (Pa ws100 eq_refl) as P2.
    destruct (C87_complete F97 S97' ch84 2 (fun j => z97 (Z.of_nat j)) (z97 5) (fun j => z97 (2 + Z.of_nat j)) (fun j => z97 (3 + Z.of_nat j)) 2 2 raw86 (built 2 2 raw86) 2 ins87 ws87 2 (z97 9) (z97 10) (hc_w x) (hc_z x) (hc_0 x) (hc_1 x) T2 T3 above100 EC ltac:(discriminate) pf os E P1) as [Eo _].
    destruct (C87_complete F97 S97' ch84 2 (fun j => z97 (Z.of_nat j)) (z97 5) (fun j => z97 (2 + Z.of_nat j)) (fun j => z97 (3 + Z.of_nat j)) 2 2 raw86 (built 2 2 raw86) 2 ins87 ws100 2 (z97 9) (z97 10) (hc_w x') (hc_z x') (hc_0 x') (hc_1 x') T2 T3 above100 EC ltac:(discriminate) pf os' E' P2) as [Eo' _].
    assert (os' = os) as ->. { rewrite Eo, Eo'. transitivity (outputs_of 2 raw86 2 ins87 ws100); [apply map_ext; intros [? ?]; reflexivity|]. rewrite <- EO. apply map_ext. intros [? ?]. reflexivity. }
    destruct (C100_narrow_two F97 S97' ch84 2 (fun j => z97 (Z.of_nat j)) (z97 5) (fun j => z97 (2 + Z.of_nat j)) (fun j => z97 (3 + Z.of_nat j)) 2 2 1 1 ins87 (z97 9) (z97 10) T2 T3 above100 [[(0, 0, 1); (1, 1, 2)]]%nat [(1, 0, 1)]%nat _ 0 1 EC eq_refl eq_refl (le_S _ _ (le_n 0)) (fun e => gens97 (z97 5) e ltac:(apply val_neq; vm_compute; discriminate)) ws87 ws100 x x' pf os ok87 P1 ok100 P2 E E')
      as (u & qa & q & t & pf1 & rest & all & t' & E1 & _ & E2 & H). clear E E'.
    specialize (H 0%nat (le_n 1)). apply challenges_const in E2. rewrite Eo in E1. cbn [ins87 ws87 firstn combine map fst snd] in E1. apply points_const in E1; [|reflexivity]. destruct E1 as [-> ->]. subst all. revert H. apply val_neq. vm_compute. discriminate.
Qed.
(** ** With layers of four gates, a witness and its negative: every proof for one is a proof for the other *)
Definition raw100 : list raw_layer := [[(1, 0, 0); (1, 1, 1); (1, 0, 1); (0, 2, 3)]; [(0, 0, 1); (1, 2, 3); (0, 3, 3); (1, 0, 2)]]%nat.
Definition neg100 : list (list F97) := map (map (fun x => - x)) ws87.
Lemma even100 : even_layers 2 raw100.
Proof. repeat constructor. Qed.
Lemma shape100 (w : list (list F97)) : map (@length F97) w = [2; 2]%nat -> provable 2 raw100 2 2 ins87 w.
Proof.
  intro L. destruct ok87 as (A & B & C & D & E & F). destruct w as [|w1 [|w2 [|w3 w]]]; try discriminate. injection L as L1 L2. split; [exact A|]. split; [cbn; lia|]. split; [|split; [exact D|split; [|exact F]]].
  - cbn [shape raw100 length]. split; [exists 2%nat; reflexivity|]. split; [right; lia|]. split; [exists 2%nat; reflexivity|]. split; [right; lia|exact I].
  - pose proof (Forall_inv E) as P. constructor; [exact (eq_ind_r (fun m => pow2_above m 2) P L1)|]. constructor; [exact (eq_ind_r (fun m => pow2_above m 2) P L2)|]. constructor.
Qed.
Lemma paired100 (w : list (list F97)) : map (@length F97) w = [2; 2]%nat -> paired 2 ins87 w.
Proof. intro L. destruct w as [|w1 [|w2 [|w3 w]]]; try discriminate. injection L as L1 L2. intros i v [Q|[Q|[]]]; apply pair_equal_spec in Q as [<- <-]; symmetry; assumption. Qed.
Lemma span100 : spans (mc_h F97 S97' (hp_1 F97 S97' hp87)) /\ spans (mc_h F97 S97' (hp_3 F97 S97' hp87)) /\ spans (mc_h F97 S97' (hp_4 F97 S97' hp87)).
Proof. split; [|split]; apply spans97; vm_compute; discriminate. Qed.
Example ex_C100_even : let prove w x := hx_prover F97 S97' ch84 hp87 w ins87 (built 2 2 raw100) (z97 9) (z97 10) 2 (hc_w x) (hc_z x) (hc_0 x) (hc_1 x) in
  neg100 <> ws87 /\ (forall x, exists pf os, prove ws87 x = Ok (pf, os)) /\ forall x pf os, prove ws87 x = Ok (pf, os) -> exists x', prove neg100 x' = Ok (pf, os) /\ forall y o, prove neg100 y = Ok (pf, o) -> hc_same 2 1 1 y x'.
Proof.
  cbv zeta. destruct two97 as (T2 & T3 & _). assert (NZ : forall l t, ch84 l t <> 0) by (intros l t Q; apply (f_equal (fun y : F97 => zv _ y)) in Q; vm_compute in Q; discriminate).
  assert (EC : circuit_new 2 2 raw100 = Ok (built 2 2 raw100)) by reflexivity. split; [|split].
  - intro Q. apply (f_equal (fun l => nth 0 (nth 0 l []) 0)) in Q. revert Q. apply val_neq. vm_compute. discriminate.
  - intro x. destruct (C87_total F97 S97' ch84 2 (fun j => z97 (Z.of_nat j)) (z97 5) (fun j => z97 (2 + Z.of_nat j)) (fun j => z97 (3 + Z.of_nat j)) 2 2 raw100 _ 2 ins87 ws87 2 (z97 9) (z97 10) (hc_w x) (hc_z x) (hc_0 x) (hc_1 x) T2 T3 above100 EC ltac:(discriminate) NZ (shape100 ws87 eq_refl)) as [pf H]. exists pf. eexists. exact H.
  - intros x pf os E.
    destruct span100 as (S1 & S3 & S4). assert (EO : outputs_of 2 raw100 2 ins87 ws87 = outputs_of 2 raw100 2 ins87 neg100) by (vm_compute; reflexivity).
    apply (C100_even F97 S97' ch84 2 (fun j => z97 (Z.of_nat j)) (z97 5) (fun j => z97 (2 + Z.of_nat j)) (fun j => z97 (3 + Z.of_nat j)) 2 2 1 1 ins87 (z97 9) (z97 10) T2 T3 above100 raw100 (built 2 2 raw100) EC ltac:(discriminate) even100 S1 S3 S4 ws87 neg100 x pf os (shape100 ws87 eq_refl) (shape100 neg100 eq_refl) (paired100 ws87 eq_refl) (paired100 neg100 eq_refl) EO E).
Qed.
