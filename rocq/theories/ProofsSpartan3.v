(** Completeness of the committed sum-check rounds. *)
From Verif Require Import Field Poly Module ModTac ProofsPC ModelTranscript ModelMle SpecMle ProofsMle ModelLibra ProofsLibra ModelSigma ProofsSigma ProofsSigma2 ModelSpartan.
From Coq Require Import String List Lia.
Local Open Scope string_scope.
Local Open Scope list_scope.
Local Open Scope fld_scope.
Section S.
Variable K : Fld.
Variable G : Grp K.
Variable ch : oracle K G.
Add Field Kf : (f_laws K).
Notation tr := (transcript K G).
Notation com p x b := (poly_commit_vec K G (mc_gens K G p) x (mc_h K G p) b).

(** ** Cubic functions *)
Definition cubicf (f : K -> K) : Prop := exists a b c d, forall X, f X = d + c * X + b * X * X + a * X * X * X.
Definition cubicT (T : list K -> K) : Prop := forall u w, cubicf (fun X => T (interp K X u w)).
Lemma cubic_sum {A} (l : list A) (f : A -> K -> K) : (forall x, In x l -> cubicf (f x)) -> cubicf (fun X => fsum (map (fun x => f x X) l)).
Proof.
  induction l as [|x l IH]; intro H; [exists 0, 0, 0, 0; intro X; cbn; ring|]. destruct (H x (or_introl eq_refl)) as (a & b & c & d & E). destruct IH as (a' & b' & c' & d' & E'); [intros y Hy; apply H; right; exact Hy|].
  exists (a + a'), (b + b'), (c + c'), (d + d'). intro X. cbn [map fsum]. rewrite E, E'. ring.
Qed.
Lemma cubic_poly_ok f : cubicf f -> (1 + 1 : K) <> 0 -> (1 + 1 + 1 : K) <> 0 -> exists p, cubic_poly K (f 0) (f 1) (f (1 + 1)) (f (1 + 1 + 1)) = Ok p /\ (length p <= 4)%nat /\ forall X, peval p X = f X.
Proof.
  intros (a & b & c & d & H) T2 T3. unfold cubic_poly.
  assert (T6 : (1 + 1) * (1 + 1 + 1) <> (0 : K)) by (intro E; apply f_integral in E; destruct E; contradiction).
  destruct (feqb_spec K ((1 + 1) * (1 + 1 + 1)) 0) as [E|_]; [contradiction|]. destruct (feqb_spec K (1 + 1) 0) as [E|_]; [contradiction|]. eexists. split; [reflexivity|]. split; [apply (length_ptrim K)|].
  intro X. rewrite peval_ptrim. cbn [peval]. rewrite !H. field. repeat split; try assumption; intro E; first [change (1 + (1 + 1) = (0:K)) in E; apply T3; rewrite <- E; ring | change (1 + 1 + 1 = (0:K)) in E; contradiction | change ((1 + 1) * (1 + (1 + 1)) = (0:K)) in E; apply T6; rewrite <- E; ring].
Qed.
Lemma term_r1cs_cubic : cubicT (term_r1cs K).
Proof.
  intros u w. unfold term_r1cs. destruct (interp_nth K u w 0) as (b0 & c0 & H0). destruct (interp_nth K u w 1) as (b1 & c1 & H1). destruct (interp_nth K u w 2) as (b2 & c2 & H2). destruct (interp_nth K u w 3) as (b3 & c3 & H3).
  exists (b3 * b0 * b1), (b3 * (b0 * c1 + c0 * b1 - b2) + c3 * b0 * b1), (b3 * (c0 * c1 - c2) + c3 * (b0 * c1 + c0 * b1 - b2)), (c3 * (c0 * c1 - c2)). intro X. rewrite H0, H1, H2, H3. ring.
Qed.
Lemma term_abc_quad : quadT K (term_abc K).
Proof. intros u w. unfold term_abc. apply (aff_mul K (fun X => nth 1 (interp K X u w) 0)); apply interp_nth. Qed.

(** A round polynomial is the sum over the remaining variables. *)
Definition good (rp : nat -> list (list K) -> K -> res (list K)) (T : list K -> K) (size : nat) : Prop :=
  forall n ts claim, Forall (fun v => length v = (2 ^ S n)%nat) ts -> claim = total K T ts (S n) ->
    exists p, rp (2 ^ n)%nat ts claim = Ok p /\ (length p <= size)%nat /\ (claim = peval p 0 + peval p 1) /\ forall X, peval p X = total K T (map (comb K X) ts) n.
Section Round.
Variable T : list K -> K.
Variable n : nat.
Variable ts : list (list K).
Variable claim : K.
Hypothesis L : Forall (fun v => length v = (2 ^ S n)%nat) ts.
Hypothesis E : claim = total K T ts (S n).
Definition rf (X : K) : K := fsum (map (fun j => T (interp K X (at_j K ts j) (at_j K ts (j + 2 ^ n)))) (seq 0 (2 ^ n))).
Lemma rf_comb X : at_sum K T (map (comb K X) ts) (2 ^ n) = rf X.
Proof. apply fsum_map_ext. intros j J. apply in_seq in J. rewrite (at_comb K n) by (try assumption; lia). reflexivity. Qed.
Lemma rf_0 : at_sum K T ts (2 ^ n) = rf 0.
Proof. apply fsum_map_ext. intros j _. rewrite interp_0 by (rewrite !at_j_length; reflexivity). reflexivity. Qed.
Lemma rf_1 : claim - rf 0 = rf 1.
Proof.
  rewrite E, total_split, <- rf_0. unfold at_sum. assert (fsum (map (fun j => T (at_j K ts (j + 2 ^ n))) (seq 0 (2 ^ n))) = rf 1) as ->; [|ring].
  apply fsum_map_ext. intros j _. rewrite interp_1 by (rewrite !at_j_length; reflexivity). reflexivity.
Qed.
End Round.
Lemma good_cubic T : cubicT T -> (1 + 1 : K) <> 0 -> (1 + 1 + 1 : K) <> 0 -> good (round_cubic K T) T 4.
Proof.
  intros HT T2 T3 n ts claim L E. set (f := rf T n ts).
  assert (Q : cubicf f) by (apply (cubic_sum _ (fun j X => T (interp K X (at_j K ts j) (at_j K ts (j + 2 ^ n))))); intros j _; apply HT).
  destruct (cubic_poly_ok f Q T2 T3) as (p & Hp & Lp & Ep). pose proof (rf_1 T n ts claim E) as R1. fold f in R1. unfold round_cubic. cbv zeta. rewrite (rf_0 T n ts). fold f. rewrite R1.
  rewrite !(combine_all_ok K n) by exact L. cbn [rbind]. rewrite !(rf_comb T n ts L). fold f. exists p. split; [exact Hp|]. split; [exact Lp|]. split.
  - rewrite !Ep, <- R1. ring.
  - intro X. rewrite Ep. symmetry. apply (rf_comb T n ts L).
Qed.
Lemma good_quad T : quadT K T -> (1 + 1 : K) <> 0 -> good (round_quad K T) T 3.
Proof.
  intros HT T2 n ts claim L E. set (f := rf T n ts).
  assert (Q : quadf K f) by (apply (quad_sum K _ (fun j X => T (interp K X (at_j K ts j) (at_j K ts (j + 2 ^ n))))); intros j _; apply HT).
  destruct (quad_poly_ok K f Q T2) as (p & Hp & Ep). pose proof (rf_1 T n ts claim E) as R1. fold f in R1. unfold round_quad. cbv zeta. rewrite (rf_0 T n ts). fold f. rewrite R1.
  rewrite !(combine_all_ok K n) by exact L. cbn [rbind]. rewrite !(rf_comb T n ts L). fold f. exists p. split; [exact Hp|]. split; [|split].
  - unfold quad_poly in Hp. destruct (feqb _ _); [discriminate|]. match type of Hp with Ok ?q = _ => assert (Eq : q = p) by congruence end. rewrite <- Eq. apply (length_ptrim K).
  - rewrite !Ep, <- R1. ring.
  - intro X. rewrite Ep. symmetry. apply (rf_comb T n ts L).
Qed.

Theorem zk_rounds_ok rp T size g1 gn : good rp T size -> (0 < size)%nat -> forall n ts claim bclaim rnds (t : tr),
  Forall (fun v => length v = (2 ^ n)%nat) ts -> claim = total K T ts n -> (n <= length rnds)%nat -> Forall (fun rr => length (rr_d K rr) = size) rnds ->
  exists sc rs ts' b t', zk_rounds K G ch rp g1 gn size n ts claim bclaim (com g1 [claim] bclaim) rnds t = Ok (sc, rs, ts', b, t') /\ length rs = n /\
    ts' = map (fun v => [mle v rs]) ts /\
    sc_verify K G ch g1 gn (scp_polys K G sc) (scp_evals K G sc) (scp_proofs K G sc) (com g1 [claim] bclaim) size n t = Ok (rs, com g1 [T (map (fun v => mle v rs) ts)] b, t').
Proof.
  intros Hg Hs. induction n as [|n IH]; intros ts claim bclaim rnds t L E Lr Hd.
  - cbn [zk_rounds]. exists (mkScP K G [] [] []), [], ts, bclaim, t. split; [destruct rnds; reflexivity|]. split; [reflexivity|]. split.
    + rewrite <- (map_id ts) at 1. apply map_ext_in. intros v Hv. rewrite Forall_forall in L. specialize (L v Hv). cbn in L. destruct v as [|x [|? ?]]; cbn in L; try lia. rewrite mle_nil. reflexivity.
    + assert (claim = T (map (fun v => mle v []) ts)) as <-; [|reflexivity]. rewrite E. unfold total. cbn [Nat.pow seq map fsum]. rewrite (map_ext (fun v => mle v []) (fun v => nth 0 v 0)) by (intro v; apply mle_nil). unfold at_j. ring.
  - destruct rnds as [|rr rnds]; [cbn in Lr; lia|]. pose proof (Forall_inv Hd) as Hd1. pose proof (Forall_inv_tail Hd) as Hd2. cbv beta in Hd1. cbn [zk_rounds].
    destruct (Hg n ts claim L E) as (p & Hp & Lp & H01 & Ep). rewrite Hp. cbn [rbind]. unfold draw. cbv beta iota zeta.
    set (cp := com gn p (rr_poly K rr)). set (r := ch "challenge_nextround" (MG "comm_poly" cp :: t)). rewrite (combine_all_ok K n) by exact L. cbn [rbind].
    match goal with |- context [sum_check_eval_prover K G ch ?a1 ?a2 ?a3 ?a4 ?a5 ?a6 ?a7 ?a8 ?a9 ?b1 ?b2 ?b3 ?b4 ?b5 ?t] => destruct (sum_check_eval_total K G ch a1 a2 a3 a4 a5 a6 a7 a8 a9 b1 b2 b3 b4 b5 t Lp) as (pf & t1 & Epf) end. rewrite Epf. cbn [rbind].
    destruct (IH (map (comb K r) ts) (peval p r) (rr_eval K rr) rnds t1) as (sc & rs & ts' & b & t' & R & Lrs & A & C); [apply comb_lengths, L|apply Ep|cbn in Lr; lia|exact Hd2|].
    rewrite R. cbn [rbind]. do 5 eexists. split; [reflexivity|]. cbn [scp_polys scp_evals scp_proofs].
    assert (M : forall v, In v ts -> mle (comb K r v) rs = mle v (r :: rs)) by (intros v Hv; apply comb_mle; rewrite Lrs; rewrite Forall_forall in L; apply L, Hv).
    split; [cbn; lia|]. split.
    + rewrite A, map_map. apply map_ext_in. intros v Hv. rewrite M by exact Hv. reflexivity.
    + cbn [sc_verify]. unfold draw. cbv beta iota zeta. fold r.
      apply sum_check_eval_complete in Epf; [|exact Hs|exact Hd1|exact H01|reflexivity]. fold cp in Epf. rewrite Epf. cbn [rbind negb]. rewrite C. cbn [rmap rbind]. rewrite map_map, (map_ext_in _ (fun v => mle v (r :: rs)) ts M). reflexivity.
Qed.
End S.
