(** Marlin: soundness of the two sumcheck equations. *)
From Verif Require Import ModelMarlin SpecLC SpecCS SpecMarlin SpecPC ProofsPC ProofsMarlinCS ProofsMarlin ProofsMarlin2 ProofsMarlin4.
From Verif Require Import ModelCS.
Local Open Scope fld_scope.
Section P.
Variable K : Fld.
Add Field Kfm8 : (f_laws K).
(** Two polynomial expressions agreeing on enough points agree everywhere. *)
Lemma agree_all (xs p q : list K) : NoDup xs -> (length p <= length xs)%nat -> (length q <= length xs)%nat -> (forall x, In x xs -> peval p x = peval q x) -> forall y, peval p y = peval q y.
Proof. intros N L1 L2 H. apply nth_eq_peval. apply (agree_eq K xs); assumption. Qed.
Definition xpow1 (n : nat) : list K := - (1) :: repeat 0 (n - 1) ++ [1].
Lemma peval_xpow1 n y : (0 < n)%nat -> peval (xpow1 n) y = y ^ n - 1.
Proof. intro H. unfold xpow1. cbn [peval]. rewrite peval_app, peval_repeat0, repeat_length. cbn [peval]. replace n with (S (n - 1)) at 2 by lia. cbn [fpow]. ring. Qed.
Lemma len_xpow1 n : (0 < n)%nat -> length (xpow1 n) = S n.
Proof. intro H. unfold xpow1. cbn [length]. rewrite app_length, repeat_length. cbn [length]. lia. Qed.
(** A polynomial without constant term sums to zero over a domain that is larger than its degree. *)
Lemma sum_shift (d : dom K) (g : list K) : valid_dom d -> (length g <= dsize d - 1)%nat -> sumn (dsize d) (fun i => dgen d ^ i * peval g (dgen d ^ i)) = 0.
Proof.
  intros V L. pose proof (const_coeff K d V (0 :: g)) as C. destruct V as (H & _ & _ & N & _). cbn [length nth] in C. specialize (C ltac:(lia)).
  rewrite (sumn_ext K (dsize d) _ (fun i => dgen d ^ i * peval g (dgen d ^ i))) in C by (intros i _; cbn [peval]; ring).
  transitivity (of_nat (dsize d) * (finv (of_nat (dsize d)) * sumn (dsize d) (fun i => dgen d ^ i * peval g (dgen d ^ i)))); [field; exact N|]. rewrite <- C. ring.
Qed.
(** The kernel r(x, y) is symmetric, and on the domain it is diagonal. *)
Lemma biv_sym (d : dom K) x y : valid_dom d -> bivariate_eval K d x y = bivariate_eval K d y x.
Proof.
  intro V. destruct (feq_dec K x y) as [->|N]; [reflexivity|]. rewrite <- !(rpoly_bivariate K d). pose proof (rpoly_eq K d x y) as E1. pose proof (rpoly_eq K d y x) as E2.
  assert (x - y <> 0) as N1 by (intro E; apply N; apply (proj1 (fsub_0 K _ _) E)). apply (f_mul_cancel_l K (x - y)); [exact N1|]. rewrite E1. transitivity (- ((y - x) * peval (rpoly K d y) x)); [rewrite E2; ring|ring].
Qed.
Lemma dpts_inj (d : dom K) i j : valid_dom d -> (i < dsize d)%nat -> (j < dsize d)%nat -> dgen d ^ i = dgen d ^ j -> i = j.
Proof.
  intros V Hi Hj E. destruct V as (_ & _ & ND & _). apply (proj1 (NoDup_nth (dpts d) 0) ND i j); rewrite ?length_dpts; try assumption. rewrite !nth_dpts by assumption. exact E.
Qed.
Lemma biv_dom (d : dom K) i j : valid_dom d -> (i < dsize d)%nat -> (j < dsize d)%nat -> bivariate_eval K d (dgen d ^ i) (dgen d ^ j) = if Nat.eqb i j then of_nat (dsize d) * (dgen d ^ j) ^ (dsize d - 1) else 0.
Proof.
  intros V Hi Hj. unfold bivariate_eval. destruct (Nat.eqb_spec i j) as [->|N].
  - rewrite feqb_refl. reflexivity.
  - destruct (feqb_spec K (dgen d ^ i) (dgen d ^ j)) as [E|NE]; [apply (dpts_inj d) in E; try assumption; contradiction|]. unfold vh. rewrite !(w_pow K d V). assert (dgen d ^ i - dgen d ^ j <> 0) as N1 by (intro Z; apply NE; apply (proj1 (fsub_0 K _ _) Z)). field. exact N1.
Qed.
Definition sump (d : dom K) (s0 : K) (c : nat -> K) (l : list nat) : list K := fold_right (fun i acc => padd (pscale (c i) (rpoly K d (dgen d ^ i))) acc) [s0] l.
Lemma peval_sump (d : dom K) s0 c l y : valid_dom d -> peval (sump d s0 c l) y = s0 + fsum (map (fun i => c i * bivariate_eval K d y (dgen d ^ i)) l).
Proof.
  intro V. induction l as [|i l IH]; cbn [sump fold_right map fsum]; [cbn [peval]; ring|]. rewrite peval_padd, peval_pscale. unfold sump in IH. rewrite IH, (rpoly_bivariate K d), (biv_sym d _ y V). ring.
Qed.
Lemma len_sump (d : dom K) s0 c l : valid_dom d -> (length (sump d s0 c l) <= dsize d)%nat.
Proof.
  intros (H & _). unfold sump. induction l as [|i l IH]; cbn [fold_right]; [cbn [length]; lia|]. rewrite length_padd, length_pscale. assert (length (rpoly K d (dgen d ^ i)) = dsize d) as E by (unfold rpoly; rewrite map_length, seq_length; reflexivity). rewrite E. apply Nat.max_lub; [apply Nat.le_refl|exact IH].
Qed.
(** Vanishing for enough alpha separates the domain points. *)
Lemma separate (d : dom K) s0 c (als : list K) : valid_dom d -> NoDup als -> (dsize d <= length als)%nat -> (forall al, In al als -> s0 + sumn (dsize d) (fun i => bivariate_eval K d al (dgen d ^ i) * c i) = 0) ->
  forall j, (j < dsize d)%nat -> s0 + (of_nat (dsize d) * (dgen d ^ j) ^ (dsize d - 1)) * c j = 0.
Proof.
  intros V ND L H j Hj. pose proof (agree_all als (sump d s0 c (seq 0 (dsize d))) []) as A. specialize (A ND ltac:(pose proof (len_sump d s0 c (seq 0 (dsize d)) V); lia) ltac:(cbn; lia)).
  assert (forall y, peval (sump d s0 c (seq 0 (dsize d))) y = s0 + sumn (dsize d) (fun i => bivariate_eval K d y (dgen d ^ i) * c i)) as E.
  { intro y. rewrite (peval_sump d s0 c _ y V), sumn_fsum. f_equal. f_equal. apply map_ext. intro i. ring. }
  specialize (A ltac:(intros al Ia; rewrite E, H by exact Ia; reflexivity) (dgen d ^ j)). rewrite E in A. cbn [peval] in A. rewrite <- A. f_equal.
  rewrite (sumn_one K _ _ j Hj); [rewrite (biv_dom d j j V Hj Hj), Nat.eqb_refl; reflexivity|]. intros i Hi N. rewrite (biv_dom d j i V Hj Hi), (proj2 (Nat.eqb_neq j i)) by lia. ring.
Qed.
(** Affine in the three eta, zero for two values of each: all coefficients are zero. *)
Lemma separate3 (s0 u a b c e1 e2 : K) : u <> 0 -> e1 <> e2 -> (forall x y z, In x [e1; e2] -> In y [e1; e2] -> In z [e1; e2] -> s0 + u * (x * a + y * b + z * c) = 0) -> a = 0 /\ b = 0 /\ c = 0.
Proof.
  intros U N H. assert (e1 - e2 <> 0) as N1 by (intro E; apply N; apply (proj1 (fsub_0 K _ _) E)).
  assert (forall q, u * ((e1 - e2) * q) = 0 -> q = 0) as C. { intros q E. apply f_integral in E. destruct E as [E|E]; [contradiction|]. apply f_integral in E. destruct E as [E|E]; [contradiction|exact E]. }
  pose proof (H e1 e1 e1 ltac:(cbn; auto) ltac:(cbn; auto) ltac:(cbn; auto)) as H0.
  repeat apply conj; apply C.
  - pose proof (H e2 e1 e1 ltac:(cbn; auto) ltac:(cbn; auto) ltac:(cbn; auto)) as H1. transitivity ((s0 + u * (e1 * a + e1 * b + e1 * c)) - (s0 + u * (e2 * a + e1 * b + e1 * c))); [ring|]. rewrite H0, H1. ring.
  - pose proof (H e1 e2 e1 ltac:(cbn; auto) ltac:(cbn; auto) ltac:(cbn; auto)) as H1. transitivity ((s0 + u * (e1 * a + e1 * b + e1 * c)) - (s0 + u * (e1 * a + e2 * b + e1 * c))); [ring|]. rewrite H0, H1. ring.
  - pose proof (H e1 e1 e2 ltac:(cbn; auto) ltac:(cbn; auto) ltac:(cbn; auto)) as H1. transitivity ((s0 + u * (e1 * a + e1 * b + e1 * c)) - (s0 + u * (e1 * a + e1 * b + e2 * c))); [ring|]. rewrite H0, H1. ring.
Qed.
Section Ix.
Variable dnew : nat -> option (dom K).
Hypothesis R2 : radix2 dnew.
Variables (s1 : cs K) (ix : index K) (dx dh dk db : dom K) (p : nat).
Hypothesis X : ix_ok K dnew s1 ix dx dh dk db p.
Notation x := (dsize dx). Notation h := (dsize dh). Notation k := (dsize dk). Notation w := (dgen dh).
Lemma vdx : valid_dom dx. Proof. apply (proj1 R2 _ _ (xo_dx _ _ _ _ _ _ _ _ _ X)). Qed.
Lemma vdh : valid_dom dh. Proof. apply (proj1 R2 _ _ (xo_dh _ _ _ _ _ _ _ _ _ X)). Qed.
Lemma vdk : valid_dom dk. Proof. apply (proj1 R2 _ _ (xo_dk _ _ _ _ _ _ _ _ _ X)). Qed.
Definition ps0 : pstate K := mkPS K ix [] [] [] [] dx dh dk.
Notation A := (ix_a K ix). Notation B := (ix_b K ix). Notation C := (ix_c K ix).
Notation Sa := (xo_sa _ _ _ _ _ _ _ _ _ X). Notation Sb := (xo_sb _ _ _ _ _ _ _ _ _ X). Notation Sc := (xo_sc _ _ _ _ _ _ _ _ _ X).
Section Inner.
Variable v : vmsg K.
Variables be tb : K.
Notation al := (v_alpha K v).
Hypothesis Hal : al ^ h <> 1.
Hypothesis Hbe : be ^ h <> 1.
Lemma inner_sound (g2 h2 gs : list K) D : NoDup gs -> (D + k + 1 <= length gs)%nat -> (4 * k <= length gs)%nat -> (length h2 <= D)%nat -> (length g2 <= k - 1)%nat ->
  (forall y, In y gs -> peval h2 y * (y ^ k - 1) = a_at K dh ps0 v al be y - b_at K ps0 al be y * (y * peval g2 y + tb / of_nat k)) -> tb = tval K dx dh ps0 v al be.
Proof.
  intros ND LG LG4 LH LG2 H. pose proof vdk as Vk. pose proof vdh as Vh. pose proof (proj1 Vk) as Hk.
  pose proof (val_poly K dx dh dk db _ _ Sa) as (pva & Lva & Eva). pose proof (val_poly K dx dh dk db _ _ Sb) as (pvb & Lvb & Evb). pose proof (val_poly K dx dh dk db _ _ Sc) as (pvc & Lvc & Evc).
  pose proof (dn_poly K dx dh dk db Vk (xo_lb _ _ _ _ _ _ _ _ _ X) al be _ _ Sa) as (pda & Lda & Eda). pose proof (dn_poly K dx dh dk db Vk (xo_lb _ _ _ _ _ _ _ _ _ X) al be _ _ Sb) as (pdb & Ldb & Edb). pose proof (dn_poly K dx dh dk db Vk (xo_lb _ _ _ _ _ _ _ _ _ X) al be _ _ Sc) as (pdc & Ldc & Edc).
  set (pa := pscale (vh K dh al * vh K dh be) (padd (padd (pscale (v_a K v) (pmul (pmul pva pdb) pdc)) (pscale (v_b K v) (pmul (pmul pvb pdc) pda))) (pscale (v_c K v) (pmul (pmul pvc pda) pdb)))).
  set (pb := pmul (pmul pda pdb) pdc).
  assert (P3 : forall q1 q2 q3 : list K, length q1 = k -> length q2 = k -> length q3 = k -> (length (pmul (pmul q1 q2) q3) <= 3 * k)%nat) by (intros q1 q2 q3 L1 L2 L3; pose proof (length_pmul K (pmul q1 q2) q3); pose proof (length_pmul K q1 q2); lia).
  assert (Lpa : (length pa <= 3 * k)%nat) by (unfold pa; rewrite length_pscale, !length_padd, !length_pscale; pose proof (P3 pva pdb pdc Lva Ldb Ldc); pose proof (P3 pvb pdc pda Lvb Ldc Lda); pose proof (P3 pvc pda pdb Lvc Lda Ldb); lia).
  assert (Lpb : (length pb <= 3 * k)%nat) by (apply P3; assumption).
  assert (Epa : forall y, peval pa y = a_at K dh ps0 v al be y) by (intro y; unfold pa; rewrite !peval_pscale, !peval_padd, !peval_pscale, !peval_pmul, Eva, Evb, Evc, Eda, Edb, Edc; unfold a_at, ps0; cbn [ps_ix]; ring).
  assert (Epb : forall y, peval pb y = b_at K ps0 al be y) by (intro y; unfold pb; rewrite !peval_pmul, Eda, Edb, Edc; unfold b_at, ps0; cbn [ps_ix]; reflexivity).
  pose proof (agree_all gs (pmul h2 (xpow1 k)) (psub pa (pmul pb ((tb / of_nat k) :: g2))) ND) as AG.
  assert (ALL : forall y, peval h2 y * (y ^ k - 1) = a_at K dh ps0 v al be y - b_at K ps0 al be y * (y * peval g2 y + tb / of_nat k)).
  { intro y. transitivity (peval (pmul h2 (xpow1 k)) y); [rewrite peval_pmul, peval_xpow1 by exact Hk; reflexivity|]. rewrite AG.
    - rewrite peval_psub, peval_pmul, Epa, Epb. cbn [peval]. ring.
    - pose proof (length_pmul K h2 (xpow1 k)). rewrite len_xpow1 in H0 by exact Hk. lia.
    - rewrite length_psub. pose proof (length_pmul K pb ((tb / of_nat k) :: g2)). cbn [length] in H0. lia.
    - intros z Iz. rewrite peval_psub, !peval_pmul, peval_xpow1 by exact Hk. rewrite H by exact Iz. rewrite Epa, Epb. cbn [peval]. ring. }
  assert (TK : forall i, (i < k)%nat -> dgen dk ^ i * peval g2 (dgen dk ^ i) + tb / of_nat k = tk K dh ps0 v al be i).
  { intros i Hi. specialize (ALL (dgen dk ^ i)). rewrite (w_pow K dk Vk) in ALL.
    set (f := dgen dk ^ i * peval g2 (dgen dk ^ i) + tb / of_nat k) in *. unfold a_at, b_at, ps0 in ALL. cbn [ps_ix] in ALL. unfold tk, ps0. cbn [ps_ix].
    pose proof (dn_dom K dx dh dk db Vk al be Hal Hbe _ _ Sa i Hi) as (Da & A1 & A2). pose proof (dn_dom K dx dh dk db Vk al be Hal Hbe _ _ Sb i Hi) as (Db & B1 & B2). pose proof (dn_dom K dx dh dk db Vk al be Hal Hbe _ _ Sc i Hi) as (Dc & C1 & C2).
    rewrite Da, Db, Dc in ALL. rewrite (val_dom K dx dh dk db Vk _ _ Sa), (val_dom K dx dh dk db Vk _ _ Sb), (val_dom K dx dh dk db Vk _ _ Sc) in ALL by exact Hi.
    match type of ALL with _ = ?a - ?b * f => assert (Q : b * f = a) by (transitivity (a - (a - b * f)); [ring|rewrite <- ALL; ring]); assert (NB : b <> 0) by (repeat apply f_mul_nz; assumption); apply (f_mul_cancel_l K b _ _ NB); rewrite Q end.
    field. repeat apply conj; assumption. }
  rewrite <- (tk_sum K dx dh dk db Vh Vk ps0 Sa Sb Sc v al be Hal Hbe). rewrite <- (sumn_ext K k _ _ TK). rewrite sumn_add, (sum_shift dk g2 Vk LG2), sumn_const. field. apply Vk.
Qed.
End Inner.
(** The assignment the first-round polynomials encode. *)
Variables (fi wp za zb mask : list K) (D : nat).
Hypothesis Efi : dnew (length fi) = Some dx.
Hypothesis LD : (length wp <= D /\ length za <= D /\ length zb <= D /\ length mask <= D)%nat.
Definition zh (y : K) : K := (y ^ x - 1) * peval wp y + peval (interp K dx fi) y.
Definition zc (j : nat) : K := zh (w ^ pos h x j).
Lemma fpos : (0 < x)%nat /\ (0 < p)%nat.
Proof using R2 X. clear LD. split; [apply vdx|]. pose proof (proj1 vdh) as H. rewrite (xo_s _ _ _ _ _ _ _ _ _ X) in H. destruct p; lia. Qed.
Lemma zc_input j : (j < x)%nat -> zc j = nth j fi 0.
Proof using R2 X.
  clear LD. intro Hj. destruct fpos as (Hx & Hp). unfold zc, zh, pos. rewrite (xo_s _ _ _ _ _ _ _ _ _ X). rewrite (Nat.mul_comm x p), Nat.div_mul by lia. rewrite (proj2 (Nat.ltb_lt _ _) Hj).
  rewrite (Nat.mul_comm j p), fpow_mul, <- (xo_g _ _ _ _ _ _ _ _ _ X). rewrite (w_pow K dx vdx), (interp_dom K dx vdx) by exact Hj. ring.
Qed.
Lemma cA : Forall (cols_lt K h) A. Proof. apply (cols_weak K _ _ _ (xo_lh _ _ _ _ _ _ _ _ _ X) (xo_ca _ _ _ _ _ _ _ _ _ X)). Qed.
Lemma cB : Forall (cols_lt K h) B. Proof. apply (cols_weak K _ _ _ (xo_lh _ _ _ _ _ _ _ _ _ X) (xo_cb _ _ _ _ _ _ _ _ _ X)). Qed.
Lemma cC : Forall (cols_lt K h) C. Proof. apply (cols_weak K _ _ _ (xo_lh _ _ _ _ _ _ _ _ _ X) (xo_cc _ _ _ _ _ _ _ _ _ X)). Qed.
Definition mrow (m : list (list (K * nat))) (i : nat) : K := row_val zc (nth i m []).
Lemma mform_pad (m : list (list (K * nat))) u : (length m <= h)%nat -> mform K m u zc = sumn h (fun i => u i * mrow m i).
Proof using K.
  clear LD.
  intro L. unfold mform, mrow. symmetry. apply (sumn_trunc K); [exact L|]. intros i Hi. rewrite nth_overflow by lia. unfold row_val. cbn [map fsum]. ring.
Qed.
Definition cdiff (v : vmsg K) (i : nat) : K := v_a K v * (peval za (w ^ i) - mrow A i) + v_b K v * (peval zb (w ^ i) - mrow B i) + v_c K v * (peval za (w ^ i) * peval zb (w ^ i) - mrow C i).
Lemma outer_sound (v : vmsg K) (t g1 h1 bs : list K) : v_alpha K v ^ h <> 1 -> NoDup bs -> (2 * D + h + 1 <= length bs)%nat -> (forall be, In be bs -> be ^ h <> 1) ->
  (length t <= D)%nat -> (length h1 <= D)%nat -> (length g1 <= h - 1)%nat ->
  (forall be, In be bs -> peval t be = tval K dx dh ps0 v (v_alpha K v) be) ->
  (forall y, In y bs -> peval mask y + bivariate_eval K dh (v_alpha K v) y * (v_a K v * peval za y + v_b K v * peval zb y + v_c K v * peval za y * peval zb y) - peval t y * zh y = peval h1 y * (y ^ h - 1) + y * peval g1 y) ->
  sumn h (fun i => peval mask (w ^ i)) + sumn h (fun i => bivariate_eval K dh (v_alpha K v) (w ^ i) * cdiff v i) = 0.
Proof.
  intros Hal ND LB OUT Lt Lh1 Lg1 HT H. pose proof vdh as Vh. pose proof vdx as Vx. destruct fpos as (Hx & Hp). pose proof (proj1 Vh) as Hh. destruct LD as (Lw & Lza & Lzb & Lm).
  pose proof (xo_lh _ _ _ _ _ _ _ _ _ X) as Lh. pose proof (xo_la _ _ _ _ _ _ _ _ _ X) as La. pose proof (xo_lbm _ _ _ _ _ _ _ _ _ X) as Lbm. pose proof (xo_lc _ _ _ _ _ _ _ _ _ X) as Lc.
  set (bat := batch_evals K dh (v_alpha K v)). assert (length bat = h) as Lbat by (unfold bat, batch_evals; rewrite map_length, length_dpts; reflexivity).
  pose proof (t_evals_ok K x p Hx Hp ix v bat) as T. rewrite <- (xo_s _ _ _ _ _ _ _ _ _ X) in T. destruct (T cA cB cC ltac:(lia) ltac:(lia) ltac:(lia)) as (te & _ & Lte & W). clear T.
  assert (Nb : forall l, (l < h)%nat -> nth l bat 0 = vh K dh (v_alpha K v) * finv (v_alpha K v - w ^ l)) by (intros l Hl; unfold bat; rewrite (nth_batch K dh) by exact Hl; ring).
  assert (Rb : forall i, (i < h)%nat -> bivariate_eval K dh (v_alpha K v) (w ^ i) = nth i bat 0) by (intros i Hi; rewrite <- (r_alpha_eval K dh Vh) by exact Hal; apply (interp_dom K dh Vh), Hi).
  assert (Et : forall y, peval t y = peval (interp K dh te) y).
  { apply (agree_all bs); [exact ND|lia|pose proof (length_interp K dh te); lia|]. intros be Ib. rewrite HT by exact Ib. pose proof (OUT be Ib) as Hbe. unfold interp. rewrite peval_trim, (lagrange_eval K dh Vh te be Hbe). symmetry. transitivity (wsum K te (lag K dh be)).
    - unfold wsum. rewrite Lte. apply sumn_ext. intros i Hi. unfold lag. reflexivity.
    - rewrite W. unfold tval, ps0. cbn [ps_ix]. f_equal; [f_equal|]; f_equal; apply mform_ext; try reflexivity; intros l Hl; apply Nb; lia. }
  assert (ST : sumn h (fun i => peval t (w ^ i) * zh (w ^ i)) = v_a K v * sumn h (fun i => nth i bat 0 * mrow A i) + v_b K v * sumn h (fun i => nth i bat 0 * mrow B i) + v_c K v * sumn h (fun i => nth i bat 0 * mrow C i)).
  { rewrite <- !mform_pad by lia. transitivity (wsum K te (fun i => zh (w ^ i))); [|exact (W (fun i => zh (w ^ i)))]. unfold wsum. rewrite Lte. apply sumn_ext. intros i Hi. rewrite Et, (interp_dom K dh Vh) by exact Hi. reflexivity. }
  assert (Er : forall y, peval (rpoly K dh (v_alpha K v)) y = bivariate_eval K dh (v_alpha K v) y) by (intro y; apply (rpoly_bivariate K dh)).
  assert (length (rpoly K dh (v_alpha K v)) = h) as Lr by (unfold rpoly; rewrite map_length, seq_length; reflexivity).
  set (mp := padd (padd (pscale (v_a K v) za) (pscale (v_b K v) zb)) (pscale (v_c K v) (pmul za zb))).
  set (zp := padd (pmul (xpow1 x) wp) (interp K dx fi)).
  set (lp := psub (padd mask (pmul (rpoly K dh (v_alpha K v)) mp)) (pmul t zp)). set (rp := padd (pmul h1 (xpow1 h)) (0 :: g1)).
  assert (Lx : (x <= h)%nat) by (rewrite (xo_s _ _ _ _ _ _ _ _ _ X); nia).
  assert (E1 : forall y, peval lp y = peval mask y + bivariate_eval K dh (v_alpha K v) y * (v_a K v * peval za y + v_b K v * peval zb y + v_c K v * peval za y * peval zb y) - peval t y * zh y).
  { intro y. unfold lp, mp, zp. rewrite peval_psub, !peval_padd, !peval_pmul, !peval_padd, !peval_pscale, !peval_pmul, peval_xpow1 by exact Hx. rewrite Er. unfold zh. ring. }
  assert (E2 : forall y, peval rp y = peval h1 y * (y ^ h - 1) + y * peval g1 y) by (intro y; unfold rp; rewrite peval_padd, peval_pmul, peval_xpow1 by exact Hh; cbn [peval]; ring).
  assert (ALL : forall y, peval lp y = peval rp y).
  { apply (agree_all bs); [exact ND| | |intros y Iy; rewrite E1, E2; apply H; exact Iy].
    - unfold lp. rewrite length_psub, length_padd. pose proof (length_pmul K (rpoly K dh (v_alpha K v)) mp). pose proof (length_pmul K t zp). assert (length mp <= 2 * D)%nat by (unfold mp; rewrite !length_padd, !length_pscale; pose proof (length_pmul K za zb); lia).
      assert (length zp <= S h + D)%nat by (unfold zp; rewrite length_padd; pose proof (length_pmul K (xpow1 x) wp) as Q; rewrite len_xpow1 in Q by exact Hx; pose proof (length_interp K dx fi); lia). lia.
    - unfold rp. rewrite length_padd. pose proof (length_pmul K h1 (xpow1 h)) as Q. rewrite len_xpow1 in Q by exact Hh. cbn [length]. lia. }
  assert (SUM : sumn h (fun i => peval lp (w ^ i)) = 0).
  { rewrite <- (sum_shift dh g1 Vh Lg1). apply sumn_ext. intros i Hi. rewrite ALL, E2, (w_pow K dh Vh). ring. }
  rewrite <- SUM. rewrite (sumn_ext K h (fun i => peval lp (w ^ i)) (fun i => peval mask (w ^ i) + nth i bat 0 * (v_a K v * peval za (w ^ i) + v_b K v * peval zb (w ^ i) + v_c K v * peval za (w ^ i) * peval zb (w ^ i)) - peval t (w ^ i) * zh (w ^ i))) by (intros i Hi; rewrite E1, Rb by exact Hi; reflexivity).
  rewrite sumn_sub, sumn_add, ST. rewrite <- !sumn_mul_l, <- !sumn_add.
  rewrite <- sumn_sub. apply sumn_ext. intros i Hi. rewrite Rb by exact Hi. unfold cdiff. ring.
Qed.
End Ix.
End P.
