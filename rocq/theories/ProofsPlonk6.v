(** The quotient rounds and the verifier's equation. *)
From Coq Require Import Permutation.
From Verif Require Import ModelPlonk SpecPlonk ProofsPC ProofsPlonk1 ProofsPlonk2 ProofsPlonk3 ProofsPlonk4 ProofsPlonk5.
Local Open Scope fld_scope.
Section P.
Variable K : Fld.
Add Field Kf : (f_laws K).
Lemma first_lagrange_on (d : dom K) i : valid_dom d -> (i < dsize d)%nat -> peval (first_lagrange_poly d) (dgen d ^ i) = if Nat.eqb i 0 then 1 else 0.
Proof. intros V H. unfold first_lagrange_poly. rewrite peval_interp by assumption. destruct i; [reflexivity|]. cbn [nth Nat.eqb]. apply nth_repeat. Qed.
Lemma l1_at_ok (d : dom K) zeta : valid_dom d -> zeta <> 1 -> l1_at d zeta = Ok (peval (first_lagrange_poly d) zeta).
Proof.
  intros V Z. destruct (V) as (Hn & _ & _ & NN & _). unfold l1_at. assert (D : of_nat (dsize d) * (zeta - 1) <> 0). { apply f_mul_nz; [exact NN|]. intro E. apply (proj1 (fsub_0 K _ _)) in E. tauto. }
  rewrite (proj2 (feqb_neq K _ _) D). f_equal. destruct (feq_dec K (zeta ^ dsize d) 1) as [E|E].
  - pose proof (proj2 (dpts_iff K d V zeta) E) as I. unfold dpts in I. apply in_map_iff in I. destruct I as (i & Ei & I). apply in_seq in I. rewrite <- Ei at 3. rewrite first_lagrange_on by (try exact V; lia). rewrite E.
    destruct i; [exfalso; apply Z; rewrite <- Ei; reflexivity|]. cbn [Nat.eqb]. ring.
  - unfold first_lagrange_poly, interp. rewrite peval_ptrim, (lagrange_eval K d V _ _ E), (sumn_one K _ _ 0%nat Hn).
    + cbn [nth fpow]. rewrite fdiv_def. ring.
    + intros i Hi D0. destruct i; [lia|]. cbn [nth]. rewrite nth_repeat. ring.
Qed.
Lemma l1_at_one (d : dom K) : l1_at d 1 = Panic.
Proof. unfold l1_at. replace (of_nat (dsize d) * (1 - 1)) with (@f0 K) by ring. rewrite feqb_refl. reflexivity. Qed.
Lemma vi_nth (vs vi : list K) : mapR (fun v => if feqb v 0 then Panic else Ok (finv v)) vs = Ok vi -> forall i, (i < length vs)%nat -> nth i vi 0 = finv (nth i vs 0) /\ nth i vs 0 <> 0.
Proof.
  revert vi. induction vs as [|v vs IH]; intros vi E i Hi; [cbn in Hi; lia|]. cbn [mapR] in E. destruct (feqb v 0) eqn:E0; [discriminate|]. cbn [rbind] in E. destruct (mapR _ vs) as [r| |]; try discriminate. cbn [rbind] in E. inversion E; subst vi.
  destruct i as [|i]; cbn [nth]; [split; [reflexivity|apply feqb_neq; exact E0]|]. apply IH; [reflexivity|]. cbn in Hi. lia.
Qed.
Section R.
Variable dnew : nat -> option (dom K).
Variables (c : composer K) (ks : list K) (d d4 : dom K) (p : list (list wire)) (x : index K).
Hypothesis V : valid_dom d.
Hypothesis V4 : valid_dom d4.
Hypothesis S4 : dsize d4 = (4 * dsize d)%nat.
Hypothesis G4 : dgen d4 ^ 4 = dgen d.
Hypothesis G : good_index K dnew c ks d d4 p x.
Notation n := (dsize d).
(** The identity at a point, from the polynomials. *)
Definition iev (wp : list (list K)) (zp pip : list K) (alpha beta gamma y : K) : K :=
  ident K ks alpha beta gamma (peval (nth 0 wp []) y) (peval (nth 1 wp []) y) (peval (nth 2 wp []) y) (peval (nth 3 wp []) y)
    (peval (t_poly (x_q0 x)) y) (peval (t_poly (x_q1 x)) y) (peval (t_poly (x_q2 x)) y) (peval (t_poly (x_q3 x)) y) (peval (t_poly (x_qm x)) y) (peval (t_poly (x_qc x)) y) (peval (t_poly (x_qa x)) y) (peval pip y)
    (peval (t_poly (x_s0 x)) y) (peval (t_poly (x_s1 x)) y) (peval (t_poly (x_s2 x)) y) (peval (t_poly (x_s3 x)) y) (peval zp y) (peval zp (y * dgen d)) (peval (first_lagrange_poly d) y) y.
Lemma tri_length v : (length (t_poly (mk_tri d d4 v)) <= n)%nat. Proof. apply length_interp. Qed.
Lemma quotient_at_eq wp zp pip alpha beta gamma i : (i < dsize d4)%nat ->
  quotient_at x (fun k => coset_dft d4 (nth k wp [])) (coset_dft d4 zp) (coset_dft d4 pip) alpha beta gamma i = iev wp zp pip alpha beta gamma (dshift d4 * dgen d4 ^ i) * finv ((dshift d4 * dgen d4 ^ i) ^ n - 1).
Proof.
  intro Hi. unfold quotient_at, iev. rewrite (gi_d4 _ _ _ _ _ _ _ _ G), (gi_info _ _ _ _ _ _ _ _ G). cbn [i_ks]. cbv zeta.
  destruct (next4_ok K d d4 i V4 S4 G4 Hi) as [Hn En]. rewrite !(nth_coset_dft K d4 _ i Hi), (nth_coset_dft K d4 zp _ Hn), En.
  rewrite (gi_q0 _ _ _ _ _ _ _ _ G), (gi_q1 _ _ _ _ _ _ _ _ G), (gi_q2 _ _ _ _ _ _ _ _ G), (gi_q3 _ _ _ _ _ _ _ _ G), (gi_qm _ _ _ _ _ _ _ _ G), (gi_qc _ _ _ _ _ _ _ _ G), (gi_qa _ _ _ _ _ _ _ _ G),
    (gi_s0 _ _ _ _ _ _ _ _ G), (gi_s1 _ _ _ _ _ _ _ _ G), (gi_s2 _ _ _ _ _ _ _ _ G), (gi_s3 _ _ _ _ _ _ _ _ G), (gi_l1 _ _ _ _ _ _ _ _ G). unfold mk_tri. cbn [t_poly t_4n]. rewrite !(nth_coset_dft K d4 _ i Hi).
  destruct (vi_nth _ _ (gi_vi _ _ _ _ _ _ _ _ G) i) as [-> _]; [unfold coset_dft; rewrite length_dft; exact Hi|]. rewrite (nth_coset_dft K d4 _ i Hi), peval_vanishing by apply V.
  set (y := dshift d4 * dgen d4 ^ i). replace (dshift d4 * (dgen d4 ^ i * dgen d)) with (y * dgen d) by (unfold y; ring). unfold ident. f_equal. f_equal.
  - unfold arith_eval. destruct (feqb _ 0) eqn:E; [apply feqb_eq in E; rewrite E; ring|reflexivity].
  - cbn [peval]. replace (0 + y * (1 + y * 0)) with y by ring. reflexivity.
Qed.
Lemma third_ok wp zp pip alpha beta gamma : (forall k, (k < 4)%nat -> (length (nth k wp []) <= n)%nat) -> (length zp <= n)%nat -> (length pip <= n)%nat ->
  (forall i, (i < n)%nat -> iev wp zp pip alpha beta gamma (dgen d ^ i) = 0) ->
  forall y, let t k := peval (nth k (third_round x wp zp pip alpha beta gamma) []) y in let yn := y ^ n in
  (t 0%nat + yn * t 1%nat + yn * yn * t 2%nat + yn * (yn * yn) * t 3%nat) * (yn - 1) = iev wp zp pip alpha beta gamma y.
Proof.
  intros LW LZ LP IZ y. unfold third_round. rewrite (gi_info _ _ _ _ _ _ _ _ G), (gi_d4 _ _ _ _ _ _ _ _ G). cbn [i_dn]. 
  pose proof (quotient_ok K d d4 ks alpha beta gamma (nth 0 wp []) (nth 1 wp []) (nth 2 wp []) (nth 3 wp []) (t_poly (x_q0 x)) (t_poly (x_q1 x)) (t_poly (x_q2 x)) (t_poly (x_q3 x)) (t_poly (x_qm x)) (t_poly (x_qc x)) (t_poly (x_qa x)) pip
    (t_poly (x_s0 x)) (t_poly (x_s1 x)) (t_poly (x_s2 x)) (t_poly (x_s3 x)) zp (first_lagrange_poly d) V V4 S4) as Q.
  match type of Q with ?A -> _ => assert (QA : A) by (repeat split; apply LW; lia); specialize (Q QA); clear QA end.
  match type of Q with ?A -> _ => assert (QA : A) by (rewrite (gi_q0 _ _ _ _ _ _ _ _ G), (gi_q1 _ _ _ _ _ _ _ _ G), (gi_q2 _ _ _ _ _ _ _ _ G), (gi_q3 _ _ _ _ _ _ _ _ G), (gi_qm _ _ _ _ _ _ _ _ G), (gi_qc _ _ _ _ _ _ _ _ G), (gi_qa _ _ _ _ _ _ _ _ G); repeat split; try apply tri_length; exact LP); specialize (Q QA); clear QA end.
  match type of Q with ?A -> _ => assert (QA : A) by (rewrite (gi_s0 _ _ _ _ _ _ _ _ G), (gi_s1 _ _ _ _ _ _ _ _ G), (gi_s2 _ _ _ _ _ _ _ _ G), (gi_s3 _ _ _ _ _ _ _ _ G); repeat split; apply tri_length); specialize (Q QA); clear QA end.
  match type of Q with ?A -> _ => assert (QA : A) by (split; [exact LZ|unfold first_lagrange_poly; apply length_interp]); specialize (Q QA); clear QA end.
  specialize (Q IZ _ (fun i Hi => quotient_at_eq wp zp pip alpha beta gamma i Hi)). cbv zeta in Q. destruct Q as [QL QE].
  pose proof (quad_exact K n (ptrim K (coset_idft d4 (map (quotient_at x (fun k => coset_dft d4 (nth k wp [])) (coset_dft d4 zp) (coset_dft d4 pip) alpha beta gamma) (seq 0 (dsize d4))))) y) as E. cbv zeta in E. rewrite skipn_all2 in E by exact QL.
  change (peval [] y) with (@f0 K) in E. unfold iev. rewrite (QE y), E. cbv zeta. ring.
Qed.
End R.
Section HH.
Variable dnew : nat -> option (dom K).
Variables (c : composer K) (order : list nat) (ks : list K) (d d4 : dom K) (p : list (list wire)) (x : index K).
Hypothesis W : pwf K c.
Hypothesis L : (c_n c <= dsize d)%nat.
Hypothesis V : valid_dom d.
Hypothesis G : good_index K dnew c ks d d4 p x.
Notation n := (dsize d).
Lemma peval_tri v i : (i < n)%nat -> peval (t_poly (mk_tri d d4 v)) (dgen d ^ i) = nth i v 0.
Proof. intro H. unfold mk_tri. cbn [t_poly]. apply peval_interp; assumption. Qed.
Lemma nth_q (v : list K) i : nth i (pad K n (c_n c) v) 0 = nth i v 0. Proof. apply nth_pad0. Qed.
Lemma nth_qa i : nth i (c_qa c) 0 = if Nat.ltb i (c_n c) then 1 else 0.
Proof. rewrite (wf_qa K c W). destruct (Nat.ltb_spec i (c_n c)) as [H|H]; [|apply nth_overflow; rewrite repeat_length; exact H]. rewrite (nth_indep _ _ 1) by (rewrite repeat_length; exact H). apply nth_repeat. Qed.
Lemma pow_next i : (i < n)%nat -> dgen d ^ i * dgen d = dgen d ^ Nat.modulo (S i) n.
Proof.
  intro H. destruct V as (_ & E & _). destruct (Nat.eq_dec (S i) n) as [En|En]; [rewrite En, Nat.mod_same by lia; transitivity (dgen d ^ S i); [cbn [fpow]; ring|rewrite En, E; reflexivity]|].
  rewrite Nat.mod_small by lia. cbn [fpow]. ring.
Qed.
Lemma in_mod i : (i < n)%nat -> (Nat.modulo (S i) n < n)%nat. Proof. intro. apply Nat.mod_upper_bound. lia. Qed.
(** Values of the identity on the domain. *)
Lemma iev_dom (w : list (list K)) (z pub : list K) alpha beta gamma i : length w = 4%nat -> (i < n)%nat ->
  iev ks d x (map (interp d) w) (interp d z) (interp d pub) alpha beta gamma (dgen d ^ i) =
  row (nth i (c_q0 c) 0) (nth i (c_q1 c) 0) (nth i (c_q2 c) 0) (nth i (c_q3 c) 0) (nth i (c_qm c) 0) (nth i (c_qc c) 0) (nth i pub 0) (nth i (nth 0 w []) 0) (nth i (nth 1 w []) 0) (nth i (nth 2 w []) 0) (nth i (nth 3 w []) 0) * (if Nat.ltb i (c_n c) then 1 else 0) +
  ((pnum K x w beta gamma i * nth i z 0 - pden K x w beta gamma i * nth (Nat.modulo (S i) n) z 0) * alpha + (nth i z 0 - 1) * (if Nat.eqb i 0 then 1 else 0) * (alpha * alpha)).
Proof.
  intros LW Hi. unfold iev. destruct w as [|w0 [|w1 [|w2 [|w3 [|? ?]]]]]; cbn in LW; try lia. cbn [map nth].
  rewrite pow_next by exact Hi. rewrite !(peval_interp K d _ _ V) by (try exact Hi; apply in_mod; exact Hi). rewrite first_lagrange_on by assumption.
  rewrite (gi_q0 _ _ _ _ _ _ _ _ G), (gi_q1 _ _ _ _ _ _ _ _ G), (gi_q2 _ _ _ _ _ _ _ _ G), (gi_q3 _ _ _ _ _ _ _ _ G), (gi_qm _ _ _ _ _ _ _ _ G), (gi_qc _ _ _ _ _ _ _ _ G), (gi_qa _ _ _ _ _ _ _ _ G),
    (gi_s0 _ _ _ _ _ _ _ _ G), (gi_s1 _ _ _ _ _ _ _ _ G), (gi_s2 _ _ _ _ _ _ _ _ G), (gi_s3 _ _ _ _ _ _ _ _ G). rewrite !peval_tri, !nth_q, nth_qa by exact Hi.
  unfold ident, pnum, pden. rewrite (gi_info _ _ _ _ _ _ _ _ G), (gi_s0 _ _ _ _ _ _ _ _ G), (gi_s1 _ _ _ _ _ _ _ _ G), (gi_s2 _ _ _ _ _ _ _ _ G), (gi_s3 _ _ _ _ _ _ _ _ G). unfold mk_tri. cbn [i_ks i_dn t_val nth]. unfold row. ring.
Qed.
Lemma honest_iev pub z alpha beta gamma : rows_ok c (asg c) -> pub = pad K n (c_n c) (c_pi c) -> compute_z x (wit K c d) beta gamma = Ok z ->
  forall i, (i < n)%nat -> iev ks d x (map (interp d) (wit K c d)) (interp d z) (interp d pub) alpha beta gamma (dgen d ^ i) = 0.
Proof.
  intros R -> Z i Hi. rewrite iev_dom by (try reflexivity; exact Hi). rewrite nth_q. pose proof (compute_z_inv K x (wit K c d) beta gamma z Z) as I. rewrite (gi_info _ _ _ _ _ _ _ _ G) in I. cbn [i_dn] in I. destruct I as (LZ & Z0 & _ & ZR); [apply V|].
  specialize (ZR i Hi). match goal with |- ?r * ?q + ((?a - ?b) * alpha + ?e * _ * _) = 0 => assert (A : r * q = 0); [|assert (B : a - b = 0); [|assert (C : e * (if Nat.eqb i 0 then 1 else 0) = 0)]] end.
  - destruct (Nat.ltb_spec i (c_n c)) as [Hc|Hc]; [|ring]. specialize (R i Hc). rewrite !(nth_wit K c d W) by lia. unfold wval, slot_var. cbn [fst snd]. unfold col. cbn [nth].
    destruct (wf_w K c W) as (W0 & W1 & W2 & W3). rewrite !(nth_error_nth' _ 0%nat) by lia. rewrite R. ring.
  - apply (proj2 (fsub_0 K _ _)). transitivity (nth i z 0 * pnum K x (wit K c d) beta gamma i); [ring|]. rewrite <- ZR. ring.
  - destruct (Nat.eqb_spec i 0) as [->|]; [rewrite Z0; ring|ring].
  - rewrite A, B, C. ring.
Qed.
End HH.
End P.
