(** Marlin: every satisfying assignment wins the oracle protocol when the public inputs fill their domain. *)
From Verif Require Import ModelMarlin SpecLC SpecCS SpecMarlin SpecMarlin2 SpecPC ProofsPC ProofsMarlinCS ProofsMarlin ProofsMarlin2 ProofsMarlin4 ProofsMarlin8 ProofsMarlin9.
From Verif Require Import ModelCS.
Local Open Scope fld_scope.
Section P.
Variable K : Fld.
Add Field Kfm10 : (f_laws K).
Variable dnew : nat -> option (dom K).
Hypothesis R2 : radix2 dnew.
Variables (s1 : cs K) (ix : index K) (dx dh dk db : dom K) (p : nat).
Hypothesis X : ix_ok K dnew s1 ix dx dh dk db p.
Notation x := (dsize dx). Notation h := (dsize dh). Notation k := (dsize dk). Notation w := (dgen dh).
Notation Sa := (xo_sa _ _ _ _ _ _ _ _ _ X). Notation Sb := (xo_sb _ _ _ _ _ _ _ _ _ X). Notation Sc := (xo_sc _ _ _ _ _ _ _ _ _ X).
Lemma inner_complete (v : vmsg K) be : v_alpha K v ^ h <> 1 -> be ^ h <> 1 -> exists g2 h2 : list K, (length h2 <= 3 * k)%nat /\ (length g2 <= k - 1)%nat /\
  forall y, peval h2 y * (y ^ k - 1) = a_at K dh (ps0 K ix dx dh dk) v (v_alpha K v) be y - b_at K (ps0 K ix dx dh dk) (v_alpha K v) be y * (y * peval g2 y + tval K dx dh (ps0 K ix dx dh dk) v (v_alpha K v) be / of_nat k).
Proof.
  intros Hal Hbe. pose proof (vdh K dnew R2 _ _ _ _ _ _ _ X) as Vh. pose proof (vdk K dnew R2 _ _ _ _ _ _ _ X) as Vk. pose proof (proj1 Vk) as Hk. set (al := v_alpha K v) in *. set (ps := ps0 K ix dx dh dk).
  pose proof (val_poly K dx dh dk db _ _ Sa) as (pva & Lva & Eva). pose proof (val_poly K dx dh dk db _ _ Sb) as (pvb & Lvb & Evb). pose proof (val_poly K dx dh dk db _ _ Sc) as (pvc & Lvc & Evc).
  pose proof (dn_poly K dx dh dk db Vk (xo_lb _ _ _ _ _ _ _ _ _ X) al be _ _ Sa) as (pda & Lda & Eda). pose proof (dn_poly K dx dh dk db Vk (xo_lb _ _ _ _ _ _ _ _ _ X) al be _ _ Sb) as (pdb & Ldb & Edb). pose proof (dn_poly K dx dh dk db Vk (xo_lb _ _ _ _ _ _ _ _ _ X) al be _ _ Sc) as (pdc & Ldc & Edc).
  set (pa := pscale (vh K dh al * vh K dh be) (padd (padd (pscale (v_a K v) (pmul (pmul pva pdb) pdc)) (pscale (v_b K v) (pmul (pmul pvb pdc) pda))) (pscale (v_c K v) (pmul (pmul pvc pda) pdb)))).
  set (pb := pmul (pmul pda pdb) pdc).
  assert (P3 : forall q1 q2 q3 : list K, length q1 = k -> length q2 = k -> length q3 = k -> (length (pmul (pmul q1 q2) q3) <= 3 * k)%nat) by (intros q1 q2 q3 L1 L2 L3; pose proof (length_pmul K (pmul q1 q2) q3); pose proof (length_pmul K q1 q2); lia).
  assert (Lpa : (length pa <= 3 * k)%nat) by (unfold pa; rewrite length_pscale, !length_padd, !length_pscale; pose proof (P3 pva pdb pdc Lva Ldb Ldc); pose proof (P3 pvb pdc pda Lvb Ldc Lda); pose proof (P3 pvc pda pdb Lvc Lda Ldb); lia).
  assert (Lpb : (length pb <= 3 * k)%nat) by (apply P3; assumption).
  assert (Epa : forall y, peval pa y = a_at K dh ps v al be y) by (intro y; unfold pa; rewrite !peval_pscale, !peval_padd, !peval_pscale, !peval_pmul, Eva, Evb, Evc, Eda, Edb, Edc; unfold a_at, ps, ps0; cbn [ps_ix]; ring).
  assert (Epb : forall y, peval pb y = b_at K ps al be y) by (intro y; unfold pb; rewrite !peval_pmul, Eda, Edb, Edc; unfold b_at, ps, ps0; cbn [ps_ix]; reflexivity).
  set (tp := interp K dk (map (tk K dh ps v al be) (seq 0 k))). set (N := psub pa (pmul pb tp)).
  pose proof (inner_core K dx dh dk db Vh Vk ps Sa Sb Sc v al be Hal Hbe N) as IC. fold tp in IC. cbv zeta in IC. destruct IC as (_ & IC); [intro y; unfold N; rewrite peval_psub, peval_pmul, Epa, Epb; reflexivity|].
  assert (Ltp : (length tp <= k)%nat) by apply length_interp.
  pose proof (pdivv_ok K k N Hk) as Q. exists (tl tp), (fst (pdivv K k N)). destruct (pdivv K k N) as (q, r). cbn [fst] in *. destruct Q as (_ & _ & _ & Lq & _). split; [|split; [|exact IC]].
  - unfold N in Lq. rewrite length_psub in Lq. pose proof (length_pmul K pb tp). lia.
  - destruct tp; cbn [tl length] in *; lia.
Qed.
Variable a : var -> K.
Variable pub : list K.
Notation ni := (length (inps s1)).
Hypothesis Lp : length (1 :: pub) = ni.
Hypothesis Full : x = ni.
Hypothesis Ha : forall i, (i < ni)%nat -> a (Input i) = nth i (1 :: pub) 0.
Hypothesis Hs : Forall (holds a) (cons s1).
Notation nc := (length (cons s1)).
Definition hws : list K := map (fun i => a (Aux i)) (seq 0 (nc - ni)).
Definition hza (m : list (list (K * nat))) : list K := interp K dh (map (row_val (columns ni a)) m).
Lemma hza_dom (m : list (list (K * nat))) i : (i < h)%nat -> peval (hza m) (w ^ i) = row_val (columns ni a) (nth i m []).
Proof.
  intro Hi. unfold hza. rewrite (interp_dom K dh (vdh K dnew R2 _ _ _ _ _ _ _ X)) by exact Hi. change (0 : K) with (row_val (columns ni a) []). apply map_nth.
Qed.
Theorem wins_complete (als es bs gs : list K) : (forall al, In al als -> al ^ h <> 1) -> (forall be, In be bs -> be ^ h <> 1) -> ahp_wins K dnew ix dh dk pub (2 * h + 2) (3 * k) als es bs gs.
Proof.
  intros OA OB. pose proof (vdx K dnew R2 _ _ _ _ _ _ _ X) as Vx. pose proof (vdh K dnew R2 _ _ _ _ _ _ _ X) as Vh. pose proof (vdk K dnew R2 _ _ _ _ _ _ _ X) as Vk. pose proof (proj1 Vk) as Hk. pose proof (proj1 Vh) as Hh.
  destruct (fpos K dnew R2 _ _ _ _ _ _ _ X) as (Hx & Hp). set (fi := 1 :: pub) in *.
  assert (Ex : dnew (length fi) = Some dx) by (rewrite Lp; apply X).
  assert (Lx : (x <= h)%nat) by (rewrite (xo_s _ _ _ _ _ _ _ _ _ X); nia).
  pose proof (xo_lh _ _ _ _ _ _ _ _ _ X) as Lh. pose proof (xo_la _ _ _ _ _ _ _ _ _ X) as La. pose proof (xo_lbm _ _ _ _ _ _ _ _ _ X) as Lbm. pose proof (xo_lc _ _ _ _ _ _ _ _ _ X) as Lc.
  destruct (first_w K dx dh p Vx Vh (xo_s _ _ _ _ _ _ _ _ _ X) (xo_g _ _ _ _ _ _ _ _ _ X) fi hws 0) as (we & _ & F); [unfold hws; rewrite map_length, seq_length; lia|].
  destruct (pdivv K x (blind K dh we 0)) as (wp, r). destruct F as (_ & _ & _ & Lwp & Hz).
  assert (ZC : forall j, (j < nc)%nat -> zc K dx dh fi wp j = columns ni a j).
  { intros j Hj. unfold zc, zh. assert (Hpos : (pos h x j < h)%nat). { destruct (reidx_ok p x j Hx Hp) as (_ & Q); rewrite <- (xo_s _ _ _ _ _ _ _ _ _ X) in *; [lia|exact Q]. }
    rewrite Hz by exact Hpos. rewrite (zvec_pos K dx dh p Vx Vh (xo_s _ _ _ _ _ _ _ _ _ X) (xo_g _ _ _ _ _ _ _ _ _ X)) by (fold fi in Lp; lia). unfold columns. rewrite Full. destruct (Nat.ltb_spec j ni) as [H|H]; [symmetry; apply Ha; exact H|].
    unfold hws. rewrite (nth_map_seq (fun i => a (Aux i))) by lia. reflexivity. }
  assert (RV : forall r, cols_in K nc r -> row_val (zc K dx dh fi wp) r = row_val (columns ni a) r).
  { intros r0 C. unfold row_val. f_equal. apply map_ext_in. intros e He. rewrite ZC; [reflexivity|]. apply (proj1 (Forall_forall _ _) C e He). }
  assert (MR : forall m i, Forall (cols_in K nc) m -> mrow K dx dh fi wp m i = row_val (columns ni a) (nth i m [])).
  { intros m i C. unfold mrow. destruct (Nat.lt_ge_cases i (length m)) as [H|H]; [apply RV, (proj1 (Forall_forall _ _) C), nth_In, H|]. rewrite nth_overflow by exact H. reflexivity. }
  set (za := hza (ix_a K ix)). set (zb := hza (ix_b K ix)). assert (Lza : (length za <= h)%nat) by apply length_interp. assert (Lzb : (length zb <= h)%nat) by apply length_interp.
  assert (CD : forall v i, (i < h)%nat -> cdiff K ix dx dh fi wp za zb v i = 0).
  { intros v i Hi. unfold cdiff. rewrite (MR _ i (xo_ca _ _ _ _ _ _ _ _ _ X)), (MR _ i (xo_cb _ _ _ _ _ _ _ _ _ X)), (MR _ i (xo_cc _ _ _ _ _ _ _ _ _ X)). unfold za, zb. rewrite !hza_dom by exact Hi.
    apply (proj2 (xo_sat _ _ _ _ _ _ _ _ _ X a)) in Hs. destruct Hs as (H1 & H2 & H3). destruct (Nat.lt_ge_cases i (length (ix_c K ix))) as [H|H].
    - rewrite H3 by exact H. ring.
    - rewrite !(nth_overflow _ _ H). rewrite !nth_overflow by lia. unfold row_val. cbn [map fsum]. ring. }
  exists (mkO1 K wp za zb []). cbn [o_w o_za o_zb o_mask length]. split; [lia|]. intros al ea eb ec Ia _ _ _. set (v := mkVM K al ea eb ec). assert (Hal : v_alpha K v ^ h <> 1) by (apply OA; exact Ia).
  set (bat := batch_evals K dh al). assert (length bat = h) as Lbat by (unfold bat, batch_evals; rewrite map_length, length_dpts; reflexivity).
  pose proof (t_evals_ok K x p Hx Hp ix v bat) as T. rewrite <- (xo_s _ _ _ _ _ _ _ _ _ X) in T.
  destruct (T (cA K dnew _ _ _ _ _ _ _ X) (cB K dnew _ _ _ _ _ _ _ X) (cC K dnew _ _ _ _ _ _ _ X) ltac:(lia) ltac:(lia) ltac:(lia)) as (te & _ & Lte & W). clear T.
  assert (Nb : forall l, (l < h)%nat -> nth l bat 0 = vh K dh al * finv (al - w ^ l)) by (intros l Hl; unfold bat; rewrite (nth_batch K dh) by exact Hl; ring).
  assert (Rb : forall i, (i < h)%nat -> bivariate_eval K dh al (w ^ i) = nth i bat 0) by (intros i Hi; rewrite <- (r_alpha_eval K dh Vh) by exact Hal; apply (interp_dom K dh Vh), Hi).
  set (t := interp K dh te). assert (Lt : (length t <= h)%nat) by apply length_interp.
  assert (ET : forall be, be ^ h <> 1 -> peval t be = tval K dx dh (ps0 K ix dx dh dk) v al be).
  { intros be Hbe. unfold t, interp. rewrite peval_trim, (lagrange_eval K dh Vh te be Hbe). transitivity (wsum K te (lag K dh be)).
    - unfold wsum. rewrite Lte. apply sumn_ext. intros i Hi. unfold lag. reflexivity.
    - rewrite W. unfold tval, ps0. cbn [ps_ix]. f_equal; [f_equal|]; f_equal; apply mform_ext; try reflexivity; intros l Hl; apply Nb; lia. }
  assert (ST : sumn h (fun i => peval t (w ^ i) * zh K dx fi wp (w ^ i)) = v_a K v * sumn h (fun i => nth i bat 0 * mrow K dx dh fi wp (ix_a K ix) i) + v_b K v * sumn h (fun i => nth i bat 0 * mrow K dx dh fi wp (ix_b K ix) i) + v_c K v * sumn h (fun i => nth i bat 0 * mrow K dx dh fi wp (ix_c K ix) i)).
  { rewrite <- !(mform_pad K dx dh) by lia. transitivity (wsum K te (fun i => zh K dx fi wp (w ^ i))); [|exact (W (fun i => zh K dx fi wp (w ^ i)))]. unfold wsum. rewrite Lte. apply sumn_ext. intros i Hi. unfold t. rewrite (interp_dom K dh Vh) by exact Hi. reflexivity. }
  set (mp := padd (padd (pscale (v_a K v) za) (pscale (v_b K v) zb)) (pscale (v_c K v) (pmul za zb))).
  set (zp := padd (pmul (xpow1 K x) wp) (interp K dx fi)).
  set (lp := psub (pmul (rpoly K dh al) mp) (pmul t zp)).
  assert (E1 : forall y, peval lp y = peval [] y + bivariate_eval K dh al y * (v_a K v * peval za y + v_b K v * peval zb y + v_c K v * peval za y * peval zb y) - peval t y * zh K dx fi wp y).
  { intro y. unfold lp, mp, zp. rewrite peval_psub, !peval_pmul, !peval_padd, !peval_pscale, !peval_pmul, peval_xpow1 by exact Hx. rewrite (rpoly_bivariate K dh). unfold zh. cbn [peval]. ring. }
  assert (SUM : sumn h (fun i => peval lp (w ^ i)) = 0).
  { rewrite (sumn_ext K h _ (fun i => nth i bat 0 * (v_a K v * peval za (w ^ i) + v_b K v * peval zb (w ^ i) + v_c K v * peval za (w ^ i) * peval zb (w ^ i)) - peval t (w ^ i) * zh K dx fi wp (w ^ i))) by (intros i Hi; rewrite E1, Rb by exact Hi; cbn [peval]; ring).
    rewrite sumn_sub, ST. rewrite <- !sumn_mul_l, <- !sumn_add, <- sumn_sub. apply (sumn_0 K). intros i Hi. transitivity (nth i bat 0 * cdiff K ix dx dh fi wp za zb v i); [unfold cdiff; ring|]. rewrite CD by exact Hi. ring. }
  assert (Llp : (length lp <= 3 * h + 2)%nat).
  { unfold lp. rewrite length_psub. pose proof (length_pmul K (rpoly K dh al) mp) as Q1. pose proof (length_pmul K t zp) as Q2. assert (length (rpoly K dh al) = h) as Lr by (unfold rpoly; rewrite map_length, seq_length; reflexivity).
    assert (length mp <= 2 * h)%nat by (unfold mp; rewrite !length_padd, !length_pscale; pose proof (length_pmul K za zb); lia).
    assert (length zp <= 2 * h + 2)%nat by (unfold zp; rewrite length_padd; pose proof (length_pmul K (xpow1 K x) wp) as Q; rewrite len_xpow1 in Q by exact Hx; pose proof (length_interp K dx fi); lia). lia. }
  pose proof (rem_const K dh Vh lp) as RC. rewrite SUM in RC. pose proof (pdivv_ok K h lp Hh) as Q. destruct (pdivv K h lp) as (h1, xg1) eqn:Ed. cbn [snd] in RC. destruct Q as (_ & _ & Lr & Lq & Q).
  exists (mkO2 K t (tl xg1) h1). cbn [o_t o_g1 o_h1]. split; [split; [lia|split; [lia|destruct xg1; cbn [tl length] in *; lia]]|].
  intros be Ib. destruct (inner_complete v be Hal (OB be Ib)) as (g2 & h2 & Lh2 & Lg2 & I2). exists (mkO3 K g2 h2). cbn [o_g2 o_h2]. split; [lia|]. intros ga _.
  apply (check_iff K dnew ix dx dh dk pub v _ _ _ Ex Vk be ga). split.
  - unfold eq1. cbn [o_w o_za o_zb o_mask o_t o_g1 o_h1]. fold fi. change (v_alpha K v) with al. rewrite <- E1, Q. assert (peval xg1 be = be * peval (tl xg1) be) as ->; [|ring]. destruct xg1 as [|c0 g1]; cbn [peval tl nth] in *; [ring|]. rewrite RC. ring.
  - unfold eq2. cbn [o_t o_g2 o_h2]. rewrite (ET be (OB be Ib)). apply I2.
Qed.
End P.
