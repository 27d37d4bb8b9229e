(** Statements about the vector commitment. *)
From Verif Require Import Field Poly Module ModTac ModelPC SpecPC ProofsPC ModelAsvc SpecAsvc ProofsAsvc ProofsAsvc2.
Local Open Scope fld_scope.
Section P.
Variable K : Fld.
Variable PR : Pairing K.
Add Field Kf : (f_laws K).
Lemma gsm_nz_inj {G : Grp K} (e : G) x y : e <> g0 -> gsm x e = gsm y e -> x = y.
Proof.
  intros H E. destruct (feq_dec K x y) as [|D]; [assumption|exfalso]. apply H.
  assert (Z : x - y <> 0). { intro Z. apply D. transitivity (y + (x - y)); [ring|]. rewrite Z. ring. }
  transitivity (gsm (finv (x - y)) (gadd (gsm x e) (gopp (gsm y e)))).
  - gmod. field. exact Z.
  - rewrite E. gmod. ring.
Qed.
Variable dnew : nat -> option (dom K).
Variables (n : nat) (d : dom K).
Hypothesis DN : dnew n = Some d.
Hypothesis DD : dnew (dsize d) = Some d.
Hypothesis V : valid_dom d.
Notation N := (dsize d).
Notation w := (dgen d).
Variables (tau : K) (g1 : G1 PR) (g2 : G2 PR) (pk : svc_pk K PR) (vk : svc_vk K PR).
Hypothesis KG : key_gen dnew n tau g1 g2 = Ok (pk, vk).
Lemma T : forall i, (i < N)%nat -> tau - w ^ i <> 0.
Proof. apply (key_gen_inv K PR dnew d V tau g1 g2 n pk vk DN KG). Qed.
Lemma pkE : pk = pk0 K PR d tau g1. Proof. apply (key_gen_inv K PR dnew d V tau g1 g2 n pk vk DN KG). Qed.
Lemma vkE : vk = vk0 K PR d tau g1 g2. Proof. apply (key_gen_inv K PR dnew d V tau g1 g2 n pk vk DN KG). Qed.
Notation pws := (map (fun i : nat => w ^ i)).
Lemma nodup_len points : NoDup points -> (forall i, In i points -> (i < N)%nat) -> (length points <= N)%nat.
Proof. intros ND B. rewrite <- (seq_length N 0). apply NoDup_incl_length; [exact ND|]. intros i I. apply in_seq. specialize (B i I). lia. Qed.

(** Honest openings verify. *)
Lemma open_verifies values points : (1 <= length values <= N)%nat -> NoDup points -> (forall i, In i points -> (i < N)%nat) ->
  exists c p, svc_commit pk values = Ok c /\ prove_pos dnew pk values points = Ok p /\ verify_pos vk c (map (entry values) points) points p w = Ok true.
Proof.
  intros L ND B. rewrite pkE, vkE. rewrite (commit_ok0 K PR d V tau g1 T values L).
  destruct (prove_ok0 K PR dnew d V tau g1 DD values points ND B) as (Q & -> & E). exists (gsm (phi K d tau values) g1), (gsm Q g1).
  split; [reflexivity|]. split; [reflexivity|]. rewrite (verify_ok0 K PR d tau g1 g2) by (try apply (pws_nodup K d V points ND B); apply nodup_len; assumption).
  f_equal. apply geqb_eq. rewrite pair_sm_l, pair_sm_r.
  transitivity (gsm (phi K d tau values - interp_at (pws points) (map (entry values) points) tau) (pair_e g1 g2)); [rewrite pair_add_l, pair_sm_l, gopp_sm, pair_sm_l, pair_sm_l; gmod; ring|].
  rewrite <- E. gmod. ring.
Qed.
(** What verification decides, for an arbitrary commitment, opening and root. *)
Lemma verify_equation c values points p omega : NoDup (map (fun i => omega ^ i) points) -> (length points <= N)%nat ->
  exists b, verify_pos vk c values points p omega = Ok b /\
  (b = true <-> pair_e c g2 = gadd (gsm (van (map (fun i => omega ^ i) points) tau) (pair_e p g2)) (gsm (interp_at (map (fun i => omega ^ i) points) values tau) (pair_e g1 g2))).
Proof.
  intros NX L. rewrite vkE, (verify_ok0 K PR d tau g1 g2) by assumption. eexists. split; [reflexivity|]. rewrite geqb_eq, pair_sm_r, pair_add_l, gopp_sm, pair_sm_l, pair_sm_l.
  set (X := pair_e c g2). set (Y := gsm (van _ tau) (pair_e p g2)). set (I := interp_at _ _ _). set (e := pair_e g1 g2). split; intro H.
  - rewrite <- H. gmod; ring.
  - rewrite H. gmod; ring.
Qed.
Lemma van1 (x t : K) : van [x] t = t - x. Proof. cbn. ring. Qed.
Lemma interp1 (x v t : K) : interp_at [x] [v] t = v.
Proof.
  unfold interp_at, lag. cbn [combine map]. unfold others. cbn [filter]. rewrite feqb_refl. cbn [negb]. unfold van. cbn. rewrite (Fdiv_def (f_laws K)). 
  assert (H : (1 : K) <> 0) by apply f_1_neq_0. field. exact H.
Qed.
Lemma single_exact values i u c p : pair_e g1 g2 <> g0 -> (1 <= length values <= N)%nat -> (i < N)%nat -> svc_commit pk values = Ok c -> prove_pos dnew pk values [i] = Ok p ->
  (verify_pos vk c [u] [i] p w = Ok true <-> u = entry values i) /\ exists b, verify_pos vk c [u] [i] p w = Ok b.
Proof.
  intros ND L Hi. rewrite pkE, (commit_ok0 K PR d V tau g1 T values L). intros EC EP. inversion EC; subst c.
  destruct (prove_ok0 K PR dnew d V tau g1 DD values [i]) as (Q & EQ & E); [constructor; [tauto|constructor]|intros j [<-|[]]; exact Hi|].
  rewrite EQ in EP. inversion EP; subst p. cbn [map] in E. rewrite van1, interp1 in E.
  destruct (verify_equation (gsm (phi K d tau values) g1) [u] [i] (gsm Q g1) w) as (b & EB & IFF); [cbn; constructor; [tauto|constructor]|cbn; lia|].
  rewrite EB. split; [|exists b; reflexivity]. transitivity (b = true); [split; [congruence|intros ->; reflexivity]|]. rewrite IFF. cbn [map]. rewrite van1, interp1, !pair_sm_l.
  assert (P : phi K d tau values = (tau - w ^ i) * Q + entry values i). { transitivity (phi K d tau values - entry values i + entry values i); [ring|]. rewrite <- E. ring. }
  split; intro H.
  - symmetry. assert (H2 : gsm (phi K d tau values) (pair_e g1 g2) = gsm ((tau - w ^ i) * Q + u) (pair_e g1 g2)). { rewrite H. gmod. ring. }
    apply (gsm_nz_inj _ _ _ ND) in H2. rewrite P in H2. transitivity ((tau - w ^ i) * Q + entry values i - (tau - w ^ i) * Q); [ring|]. rewrite H2. ring.
  - rewrite P, H. gmod. ring.
Qed.
(** ** length mismatches and repeated positions *)
Lemma interp_pad_gen (zs xs vs : list K) t :
  fsum (map (fun '(x, v) => v * lag zs x t) (combine xs vs)) = fsum (map (fun '(x, v) => v * lag zs x t) (combine xs (firstn (length xs) vs ++ repeat 0 (length xs - length vs)))).
Proof.
  revert vs. induction xs as [|x xs IH]; intros [|v vs]; cbn [length firstn Nat.sub repeat app combine map]; try reflexivity.
  - rewrite fsum_cons, <- (Nat.sub_0_r (length xs)). specialize (IH []). rewrite firstn_nil in IH. cbn [app length] in IH. rewrite <- IH. destruct xs; cbn; ring.
  - rewrite !fsum_cons, <- IH. reflexivity.
Qed.
Lemma interp_pad (xs vs : list K) t : interp_at xs vs t = interp_at xs (firstn (length xs) vs ++ repeat 0 (length xs - length vs)) t.
Proof. apply interp_pad_gen. Qed.
Lemma missing_values c values points p omega : NoDup (map (fun i => omega ^ i) points) -> (length points <= N)%nat ->
  verify_pos vk c values points p omega = verify_pos vk c (firstn (length points) values ++ repeat 0 (length points - length values)) points p omega.
Proof.
  intros NX L. rewrite vkE, !(verify_ok0 K PR d tau g1 g2) by assumption. rewrite (interp_pad _ values), map_length. reflexivity.
Qed.
Lemma repeated_verify c values points p omega : ~ NoDup (map (fun i => omega ^ i) points) -> (length points <= length values)%nat ->
  verify_pos vk c values points p omega = Panic.
Proof.
  intros H L. destruct (not_nodup_split K omega points H) as (l1 & pt & l2 & E & D).
  destruct (in_combine_ex points values pt) as [v I]; [rewrite E; apply in_elt|exact L|].
  unfold verify_pos. rewrite (dup_r_loop K omega points pt v (combine points values)); [reflexivity|exact I|apply in_combine_fst|exists l1, l2; split; assumption].
Qed.
Lemma repeated_aggregate points (proofs : list (G1 PR)) omega : ~ NoDup (map (fun i => omega ^ i) points) -> (length points <= length proofs)%nat ->
  aggregate_proofs points proofs omega = Panic.
Proof.
  intros H L. destruct (not_nodup_split K omega points H) as (l1 & pt & l2 & E & D).
  destruct (in_combine_ex points proofs pt) as [v I]; [rewrite E; apply in_elt|exact L|].
  unfold aggregate_proofs. apply (dup_agg K PR omega points pt v (combine points proofs)); [exact I|apply in_combine_fst|exists l1, l2; split; assumption].
Qed.
(** ** updates *)
Lemma phi_update v v' pt (x : K) : (pt < N)%nat -> (forall k, (k < N)%nat -> entry v' k = entry v k + (if Nat.eqb k pt then x else 0)) ->
  phi K d tau v' = phi K d tau v + LL K d tau pt * x.
Proof.
  intros Hp H. rewrite !(phi_sum K d V tau T).
  transitivity (sumn N (fun i => LL K d tau i * nth i v 0 + (if Nat.eqb i pt then LL K d tau i * x else 0))).
  - apply sumn_ext. intros i Hi. specialize (H i Hi). unfold entry in H. rewrite H. destruct (Nat.eqb i pt); ring.
  - rewrite sumn_add. f_equal. rewrite (sumn_one K N _ pt Hp); [rewrite Nat.eqb_refl; ring|]. intros i _ Hn. apply Nat.eqb_neq in Hn. rewrite Hn. reflexivity.
Qed.
Lemma upk_at pt u : nth_error (pk_upk pk) pt = Some u -> (pt < N)%nat /\ u = mkUpk (gsm (AI K d tau pt) g1) (gsm (UI K d tau pt) g1).
Proof.
  rewrite pkE. cbn [pk_upk pk0]. intro H. rewrite nth_error_map in H. destruct (nth_error (seq 0 N) pt) as [k|] eqn:E; [|discriminate].
  assert (L : (pt < N)%nat) by (rewrite <- (seq_length N 0); apply nth_error_Some; congruence). split; [exact L|].
  rewrite (nth_error_nth' _ 0%nat) in E by (rewrite seq_length; exact L). rewrite seq_nth in E by exact L. cbn in E. inversion E; subst k. cbn in H. inversion H. reflexivity.
Qed.
Lemma update_commit_gen v v' c delta pt u m : (1 <= length v <= N)%nat -> (1 <= length v' <= N)%nat -> nth_error (pk_upk pk) pt = Some u -> @of_nat K m <> 0 ->
  (forall k, (k < N)%nat -> entry v' k = entry v k + (if Nat.eqb k pt then delta * (of_nat N / of_nat m) else 0)) ->
  svc_commit pk v = Ok c -> update_commit c delta pt u w m = svc_commit pk v'.
Proof.
  intros L L' U Hm H. destruct (upk_at pt u U) as [Hp ->]. rewrite pkE, !(commit_ok0 K PR d V tau g1 T) by assumption. intro E. inversion E; subst c.
  unfold update_commit. rewrite rdiv_ok by exact Hm. cbn [rbind u_ai]. f_equal. rewrite (phi_update v v' pt _ Hp H). unfold LL.
  assert (Hn : @of_nat K N <> 0) by apply V. gmod; field; auto.
Qed.
Lemma update_proof_ok v v' p delta i j ui uj : (1 <= length v <= N)%nat -> nth_error (pk_upk pk) i = Some ui -> nth_error (pk_upk pk) j = Some uj ->
  (forall k, (k < N)%nat -> entry v' k = entry v k + (if Nat.eqb k j then delta else 0)) ->
  prove_pos dnew pk v [i] = Ok p -> update_proof p delta i j ui uj w N = prove_pos dnew pk v' [i].
Proof.
  intros L Ui Uj H EP. destruct (upk_at i ui Ui) as [Hi ->]. destruct (upk_at j uj Uj) as [Hj ->]. rewrite pkE in *.
  assert (S1 : NoDup [i]) by (constructor; [tauto|constructor]). assert (S2 : forall k, In k [i] -> (k < N)%nat) by (intros k [<-|[]]; exact Hi).
  destruct (prove_ok0 K PR dnew d V tau g1 DD v [i] S1 S2) as (Q & EQ & E). rewrite EQ in EP. inversion EP; subst p.
  destruct (prove_ok0 K PR dnew d V tau g1 DD v' [i] S1 S2) as (Q' & EQ' & E'). rewrite EQ'. cbn [map] in E, E'. rewrite van1, interp1 in E, E'.
  rewrite (phi_update v v' j delta Hj H), (H i Hi) in E'. pose proof (T i Hi) as Zi. pose proof (T j Hj) as Zj.
  assert (Hn : @of_nat K N <> 0) by apply V.
  assert (EQ2 : Q = (phi K d tau v - entry v i) / (tau - w ^ i)) by (rewrite <- E; field; exact Zi).
  assert (EQ3 : Q' = (phi K d tau v + LL K d tau j * delta - (entry v i + (if Nat.eqb i j then delta else 0))) / (tau - w ^ i)) by (rewrite <- E'; field; exact Zi).
  unfold update_proof. destruct (Nat.eqb_spec i j) as [->|D].
  - cbn [u_ui]. f_equal. rewrite EQ3, EQ2. unfold UI. gmod; field; auto.
  - assert (Z1 : w ^ j - w ^ i <> 0). { intro Z. apply D. apply (pow_inj K d V); auto. transitivity (w ^ j - (w ^ j - w ^ i)); [ring|]. rewrite Z. ring. }
    assert (Z2 : w ^ i - w ^ j <> 0). { intro Z. apply Z1. transitivity (- (w ^ i - w ^ j)); [ring|]. rewrite Z. ring. }
    rewrite (rdiv_ok K 1 _ Z1), (rdiv_ok K 1 _ Z2). cbn [rbind]. rewrite (rdiv_ok K _ _ Hn). cbn [rbind u_ai]. f_equal. rewrite EQ3, EQ2. unfold LL, AI. gmod; field; auto.
Qed.
(** ** aggregation *)
Lemma agg_sum (points : list nat) (xs : list nat -> list K) (l : list (nat * G1 PR)) (Qf : nat -> K) acc a0 : (forall pt p, In (pt, p) l -> p = gsm (Qf pt) g1) -> acc = gsm a0 g1 ->
  fold_left (fun a '(pt, q) => gadd a (gsm (1 / van (others (w ^ pt) (xs points)) (w ^ pt)) q)) l acc =
  gsm (a0 + fsum (map (fun pt => 1 / van (others (w ^ pt) (xs points)) (w ^ pt) * Qf pt) (map fst l))) g1.
Proof.
  revert acc a0. induction l as [|[pt q] l IH]; intros acc a0 H ->; cbn [fold_left map fst].
  - f_equal. cbn. ring.
  - rewrite (IH _ (a0 + 1 / van (others (w ^ pt) (xs points)) (w ^ pt) * Qf pt)).
    + rewrite fsum_cons. f_equal. ring.
    + intros; apply H; right; assumption.
    + rewrite (H pt q (or_introl eq_refl)). gmod. ring.
Qed.
Lemma map_fst_combine {A B} (l : list A) : forall m : list B, length m = length l -> map fst (combine l m) = l.
Proof. induction l as [|a l IH]; intros [|b m] E; cbn in *; try discriminate; [reflexivity|]. f_equal. apply IH. lia. Qed.
Lemma aggregate_ok v points proofs : points <> [] -> NoDup points -> (forall i, In i points -> (i < N)%nat) ->
  mapR (fun i => prove_pos dnew pk v [i]) points = Ok proofs -> aggregate_proofs points proofs w = prove_pos dnew pk v points.
Proof.
  intros NE ND B M. rewrite pkE in *. pose proof (pws_nodup K d V points ND B) as NX. pose proof (van_tau K d tau T points B) as VT.
  set (Qf := fun i => (phi K d tau v - entry v i) / (tau - w ^ i)).
  assert (P1 : forall i, In i points -> prove_pos dnew (pk0 K PR d tau g1) v [i] = Ok (gsm (Qf i) g1)).
  { intros i I. destruct (prove_ok0 K PR dnew d V tau g1 DD v [i]) as (Q & -> & E); [constructor; [tauto|constructor]|intros j [<-|[]]; apply B, I|].
    cbn [map] in E. rewrite van1, interp1 in E. do 2 f_equal. unfold Qf. rewrite <- E. pose proof (T i (B i I)). field. assumption. }
  destruct (mapR_inv _ (fun i => gsm (Qf i) g1) points proofs M) as [-> _]. { intros i y I F. rewrite (P1 i I) in F. inversion F. reflexivity. }
  unfold aggregate_proofs. rewrite (agg_ok K PR w points NX) by (apply in_combine_fst).
  rewrite (agg_sum points pws _ Qf _ 0); [| |gmod; ring].
  2:{ intros pt p I. rewrite combine_self in I. apply in_map_iff in I. destruct I as (x & E & _). inversion E. reflexivity. }
  rewrite map_fst_combine by apply map_length.
  destruct (prove_ok0 K PR dnew d V tau g1 DD v points ND B) as (Q & -> & E). do 2 f_equal.
  assert (EQ : Q = (phi K d tau v - interp_at (pws points) (map (entry v) points) tau) / van (pws points) tau) by (rewrite <- E; field; exact VT).
  rewrite EQ. clear EQ E. set (W := van (pws points) tau) in *.
  (* multiply by the vanishing value *)
  assert (S : W * fsum (map (fun pt => 1 / van (others (w ^ pt) (pws points)) (w ^ pt) * Qf pt) points) = phi K d tau v - interp_at (pws points) (map (entry v) points) tau).
  { rewrite <- fsum_map_mul_l.
    transitivity (fsum (map (fun pt => phi K d tau v * lag (pws points) (w ^ pt) tau - entry v pt * lag (pws points) (w ^ pt) tau) points)).
    - apply fsum_map_ext. intros pt I. unfold lag, Qf. assert (Hx : In (w ^ pt) (pws points)) by (apply in_map_iff; exists pt; split; [reflexivity|exact I]).
      apply in_split in I. destruct I as (l1 & l2 & El). assert (Ex : pws points = pws l1 ++ w ^ pt :: pws l2) by (rewrite El, map_app; reflexivity).
      unfold W. rewrite Ex in *. rewrite others_split by exact NX. rewrite !van_app, van_cons.
      assert (Zx : van (pws l1) (w ^ pt) * van (pws l2) (w ^ pt) <> 0). { rewrite <- van_app. apply van_nz. apply NoDup_remove in NX. apply NX. }
      assert (Zt : tau - w ^ pt <> 0). { apply T, B. rewrite El. apply in_elt. }
      revert Zx. generalize (van (pws l1) (w ^ pt) * van (pws l2) (w ^ pt)). intros D Zx. field. auto.
    - rewrite fsum_map_sub. f_equal.
      + rewrite fsum_map_mul_l. assert (LG : fsum (map (fun x => lag (pws points) (w ^ x) tau) points) = 1); [|rewrite LG; ring].
        assert (NL : (length [@f1 K] <= length (pws points))%nat) by (rewrite map_length; destruct points; [congruence|cbn; lia]).
        transitivity (peval [1] tau); [|cbn; ring]. rewrite (lagrange K (pws points) [1] tau NX NL), map_map. apply fsum_map_ext. intros x _. cbn. ring.
      + unfold interp_at. f_equal. generalize (pws points) at 1 2 as zs. intro zs. clear. induction points as [|p l IH]; cbn; [reflexivity|]. rewrite IH. reflexivity. }
  rewrite <- S. field. exact VT.
Qed.
Lemma aggregate_empty v proofs : (1 <= length v <= N)%nat -> aggregate_proofs [] proofs w = Ok (g0 : G1 PR) /\ prove_pos dnew pk v [] = svc_commit pk v.
Proof.
  intro L. split; [reflexivity|]. rewrite pkE, (commit_ok0 K PR d V tau g1 T v L). destruct (prove_ok0 K PR dnew d V tau g1 DD v []) as (Q & -> & E); [constructor|intros i []|].
  do 2 f_equal. cbn in E. transitivity (Q * 1); [ring|]. rewrite E. ring.
Qed.
(** ** update keys *)
Lemma upk_exact pt u : (forall a : G1 PR, pair_e a g2 = g0 -> a = g0) -> (pt < N)%nat ->
  (verify_upk vk pt u w = Ok true <-> nth_error (pk_upk pk) pt = Some u) /\ exists b, verify_upk vk pt u w = Ok b.
Proof.
  clear DD. intros INJ Hp. assert (Hn : @of_nat K N <> 0) by apply V. pose proof (T pt Hp) as Zt. assert (N1 : (1 <= N)%nat) by lia.
  assert (U : nth_error (pk_upk pk) pt = Some (mkUpk (gsm (AI K d tau pt) g1) (gsm (UI K d tau pt) g1))).
  { rewrite pkE. cbn [pk_upk pk0]. rewrite nth_error_map, nth_error_nth' with (d := 0%nat) by (rewrite seq_length; exact Hp). rewrite seq_nth by exact Hp. reflexivity. }
  rewrite U, vkE. unfold verify_upk. cbn [vk_g1 vk_g2 vk0 vk_a]. cbn [seq map]. destruct N as [|N'] eqn:EN; [lia|]. cbn [seq map].
  cbn [length]. rewrite map_length, seq_length. rewrite rdiv_ok by exact Hn. cbn [rbind].
  split; [|eexists; reflexivity].
  set (e1 := gsm (tau ^ 0) g2). set (e2 := gsm (tau ^ 1) g2). set (gg := gsm (tau ^ 0) g1).
  assert (E1 : e1 = g2) by (unfold e1; cbn [fpow]; gmod; ring). assert (EG : gg = g1) by (unfold gg; cbn [fpow]; gmod; ring).
  assert (EI : gadd e2 (gopp (gsm (w ^ pt) e1)) = gsm (tau - w ^ pt) g2) by (rewrite E1; unfold e2; cbn [fpow]; gmod; ring).
  rewrite EI, E1, EG.
  assert (INJ2 : forall a b : G1 PR, pair_e a g2 = pair_e b g2 -> a = b).
  { intros a b E. apply gsub_0. apply INJ. rewrite pair_add_l, gopp_sm, pair_sm_l, E. gmod. ring. }
  destruct u as [ai ui]. cbn [u_ai u_ui]. rewrite !pair_sm_r, <- !pair_sm_l. rewrite <- EN in *.
  split; intro H.
  - assert (HH : geqb (pair_e (gsm (tau - w ^ pt) ai) g2) (pair_e (gsm (tau ^ N - 1) g1) g2) && geqb (pair_e (gadd (gsm (w ^ pt / of_nat N) ai) (gopp g1)) g2) (pair_e (gsm (tau - w ^ pt) ui) g2) = true) by congruence.
    apply andb_true_iff in HH. destruct HH as [H1 H2]. apply geqb_eq, INJ2 in H1. apply geqb_eq, INJ2 in H2.
    assert (A1 : ai = gsm (AI K d tau pt) g1). { transitivity (gsm (finv (tau - w ^ pt)) (gsm (tau - w ^ pt) ai)); [gmod; field; exact Zt|]. rewrite H1. unfold AI. gmod; field; exact Zt. }
    assert (A2 : ui = gsm (UI K d tau pt) g1). { transitivity (gsm (finv (tau - w ^ pt)) (gsm (tau - w ^ pt) ui)); [gmod; field; exact Zt|]. rewrite <- H2, A1. unfold UI, LL, AI. gmod; field; auto. }
    congruence.
  - inversion H. f_equal. apply andb_true_iff. split; apply geqb_eq; f_equal; unfold UI, LL, AI; gmod; field; auto.
Qed.
End P.
(** ** binding *)
Section B.
Variable K : Fld.
Variable PR : Pairing K.
Add Field Kf2 : (f_laws K).
Lemma combine_app {A B} (l1 l2 : list A) (m1 m2 : list B) : length l1 = length m1 -> combine (l1 ++ l2) (m1 ++ m2) = combine l1 m1 ++ combine l2 m2.
Proof. revert m1. induction l1 as [|x l IH]; intros [|y m] E; cbn in *; try discriminate; [reflexivity|]. f_equal. apply IH. lia. Qed.
Lemma interp_hit (xs vs : list K) k x v : NoDup xs -> nth_error xs k = Some x -> nth_error vs k = Some v -> interp_at xs vs x = v.
Proof.
  intros N Hx Hv. apply nth_error_split in Hx. destruct Hx as (l1 & l2 & -> & L1). apply nth_error_split in Hv. destruct Hv as (m1 & m2 & -> & L2).
  assert (Z : forall (a b : list K), (forall y, In y a -> In y (l1 ++ x :: l2) /\ y <> x) -> fsum (map (fun '(y, u) => u * lag (l1 ++ x :: l2) y x) (combine a b)) = 0).
  { intros a. induction a as [|y a IH]; intros [|u b] H; cbn [combine map]; try reflexivity. rewrite fsum_cons, (IH b) by (intros; apply H; right; assumption).
    destruct (H y (or_introl eq_refl)) as [I D]. rewrite (lag_other K _ y x N) by (auto using in_elt). ring. }
  unfold interp_at. rewrite combine_app by lia. rewrite map_app, fsum_app. cbn [combine map]. rewrite fsum_cons, (lag_self K _ x N (in_elt x l1 l2)), (Z l2), (Z l1).
  - ring.
  - intros y I. split; [apply in_or_app; left; exact I|]. intros ->. apply NoDup_remove in N. apply (proj2 N). apply in_or_app. left. exact I.
  - intros y I. split; [apply in_or_app; right; right; exact I|]. intros ->. apply NoDup_remove in N. apply (proj2 N). apply in_or_app. right. exact I.
Qed.
Lemma interp_poly (xs vs : list K) : NoDup xs -> exists p, (length p <= length xs)%nat /\ forall t, peval p t = interp_at xs vs t.
Proof.
  intro N. exists (ipoly K xs (combine xs vs)). split; [|intro t; apply ipoly_eval]. apply ipoly_length; [exact N|]. intros x I.
  apply in_map_iff in I. destruct I as ([y u] & <- & I). apply in_combine_l in I. exact I.
Qed.
Lemma van_poly omega (points : list nat) k i : nth_error points k = Some i -> exists p : list K, (length p <= length points)%nat /\ forall t, (t - omega ^ i) * peval p t = van (map (fun j => omega ^ j) points) t.
Proof.
  intro H. apply nth_error_split in H. destruct H as (l1 & l2 & -> & _). exists (root_poly omega (l1 ++ l2)). split; [rewrite root_length, !app_length; cbn; lia|].
  intro t. rewrite root_eval, !map_app, !van_app. cbn [map]. rewrite van_cons. ring.
Qed.
Lemma binding (omega : K) I vs J us i k l a b : NoDup (map (fun j => omega ^ j) I) -> NoDup (map (fun j => omega ^ j) J) ->
  nth_error I k = Some i -> nth_error vs k = Some a -> nth_error J l = Some i -> nth_error us l = Some b -> a <> b ->
  exists p1 p2 p3 : list K, (length p1 <= length I /\ length p2 <= length J /\ length p3 <= length I + length J)%nat /\
  forall dnew n d tau (g1 : G1 PR) (g2 : G2 PR) pk vk, dnew n = Some d -> valid_dom d -> (length I + length J <= dsize d)%nat -> key_gen dnew n tau g1 g2 = Ok (pk, vk) ->
  forall c w1 w2, verify_pos vk c vs I w1 omega = Ok true -> verify_pos vk c us J w2 omega = Ok true ->
  gsm (tau - omega ^ i) (gadd (gadd (pair_e w1 (msm (vk_g2 vk) p1)) (pair_e w2 (msm (vk_g2 vk) p2))) (pair_e (msm (vk_g1 vk) p3) g2)) = pair_e g1 g2.
Proof.
  intros NI NJ HI Hv HJ Hu D.
  destruct (van_poly omega I k i HI) as (A & LA & EA). destruct (van_poly omega J l i HJ) as (B & LB & EB).
  destruct (interp_poly _ vs NI) as (P & LP & EP). destruct (interp_poly _ us NJ) as (R & LR & ER).
  rewrite map_length in LP, LR.
  assert (XI : interp_at (map (fun j => omega ^ j) I) vs (omega ^ i) = a). { apply (interp_hit _ _ k); [exact NI| |exact Hv]. rewrite nth_error_map, HI. reflexivity. }
  assert (XJ : interp_at (map (fun j => omega ^ j) J) us (omega ^ i) = b). { apply (interp_hit _ _ l); [exact NJ| |exact Hu]. rewrite nth_error_map, HJ. reflexivity. }
  pose proof (pdivx_ok K (omega ^ i) (padd P (pscale (- (1)) R))) as PD. destruct (pdivx (omega ^ i) (padd P (pscale (- (1)) R))) as [C v]. destruct PD as (LC & Ev & EC).
  rewrite length_padd, length_pscale in LC.
  assert (S : b - a <> 0). { intro Z. apply D. transitivity (b - (b - a)); [ring|]. rewrite Z. ring. }
  set (s := finv (b - a)).
  exists (pscale s A), (pscale (- s) B), (pscale s C). rewrite !length_pscale. split; [lia|].
  intros dnew n d tau g1 g2 pk vk DN V L KG c w1 w2 V1 V2.
  destruct (verify_equation K PR dnew n d DN V tau g1 g2 pk vk KG c vs I w1 omega NI) as (b1 & E1 & F1); [lia|].
  destruct (verify_equation K PR dnew n d DN V tau g1 g2 pk vk KG c us J w2 omega NJ) as (b2 & E2 & F2); [lia|].
  assert (b1 = true) as T1 by congruence. assert (b2 = true) as T2 by congruence. apply F1 in T1. apply F2 in T2. rewrite T1 in T2.
  rewrite (vkE K PR dnew n d DN V tau g1 g2 pk vk KG). cbn [vk_g1 vk_g2 vk0].
  rewrite !(msm_powers_le2 K PR) by (rewrite length_pscale; lia). rewrite (msm_powers_le K PR) by (rewrite length_pscale; lia).
  rewrite !peval_pscale, !pair_sm_r, pair_sm_l.
  rewrite <- (EA tau), <- (EB tau), <- (EP tau), <- (ER tau) in T2.
  specialize (EC tau). rewrite peval_padd, peval_pscale in EC. rewrite peval_padd, peval_pscale, (EP (omega ^ i)), (ER (omega ^ i)), XI, XJ in Ev. rewrite Ev in EC.
  set (W1 := pair_e w1 g2) in *. set (W2 := pair_e w2 g2) in *. set (e := pair_e g1 g2) in *.
  transitivity (gadd (gsm s (gadd (gadd (gsm ((tau - omega ^ i) * peval A tau) W1) (gsm (peval P tau) e)) (gopp (gadd (gsm ((tau - omega ^ i) * peval B tau) W2) (gsm (peval R tau) e))))) (gsm (s * (peval R tau - peval P tau + (tau - omega ^ i) * peval C tau)) e)).
  - gmod; ring.
  - rewrite T2. transitivity (gsm (s * (peval R tau - peval P tau + (tau - omega ^ i) * peval C tau)) e); [gmod; ring|].
    assert (X : s * (peval R tau - peval P tau + (tau - omega ^ i) * peval C tau) = 1).
    { transitivity (s * (- (peval P tau + - (1) * peval R tau) + (tau - omega ^ i) * peval C tau)); [ring|]. rewrite EC. unfold s. field. exact S. }
    rewrite X. gmod; ring.
Qed.
End B.
Lemma gsub_field (K : Fld) (x y : K) : x - y = 0 -> x = y.
Proof. intro E. apply (proj1 (fsub_0 K x y)). exact E. Qed.
Lemma key_gen_cases (K : Fld) (PR : Pairing K) dnew (d : dom K) : valid_dom d -> forall tau (g1 : G1 PR) (g2 : G2 PR) n, dnew n = Some d ->
  (In tau (dpts d) -> key_gen dnew n tau g1 g2 = Panic) /\ (~ In tau (dpts d) -> exists k, key_gen dnew n tau g1 g2 = Ok k).
Proof.
  intros V tau g1 g2 n DN. split; intro H.
  - unfold dpts in H. apply in_map_iff in H. destruct H as (i & <- & I). apply in_seq in I. apply (key_gen_panic K PR dnew d _ g1 g2 n i DN); [lia|reflexivity].
  - eexists. apply (key_gen_ok K PR dnew d V); [exact DN|]. intros i Hi Z. apply H. apply in_map_iff. exists i. split; [|apply in_seq; lia].
    rewrite <- (gsub_field K tau _ Z). reflexivity.
Qed.
