(** Marlin: balancing preserves the relation; where the assignment ends up in the interpolated polynomial. *)
From Verif Require Import SpecLC SpecCS SpecMarlin SpecPC ProofsMarlinCS ProofsMarlin ProofsMarlin2 ProofsMarlin3 ProofsMarlin4.
From Verif Require Import ModelMarlin ModelCS.
Local Open Scope fld_scope.
Section P.
Variable K : Fld.
Add Field Kfm8 : (f_laws K).
Theorem balance_relation checks (a b c : list (list (K * nat))) a' b' : length a = length b -> (Z.of_nat (density a + density b) < 2 ^ 64)%Z -> balance checks a b = Ok (a', b') ->
  forall z, msat z a' b' c <-> msat z a b c.
Proof.
  intros L B E z. destruct (balance_any K checks a b a' b' L B E) as (La & Lb & Sw & _). unfold msat. rewrite La, Lb. split; intros (H1 & H2 & H); (split; [exact H1|]; split; [exact H2|]); intros i Hi; rewrite <- (H i Hi).
  - destruct (Sw i ltac:(lia)) as [(-> & ->)|(-> & ->)]; ring.
  - destruct (Sw i ltac:(lia)) as [(-> & ->)|(-> & ->)]; ring.
Qed.
Theorem balance_total (a b : list (list (K * nat))) : length a = length b -> (Z.of_nat (density a + density b) < 2 ^ 64)%Z -> exists a' b', balance false a b = Ok (a', b').
Proof. intros L B. destruct (balance_ok K a b L B) as (a' & b' & E & _). eauto. Qed.
Theorem reidx_inj p x i j k : (0 < x)%nat -> (0 < p)%nat -> (i < x * p)%nat -> (j < x * p)%nat -> reidx (x * p) x i = Ok k -> reidx (x * p) x j = Ok k -> i = j.
Proof.
  intros Hx Hp Hi Hj E1 E2. destruct (reidx_ok p x i Hx Hp Hi) as (F1 & _). destruct (reidx_ok p x j Hx Hp Hj) as (F2 & _). apply (pos_inj p x i j Hx Hp Hi Hj). congruence.
Qed.
Section T.
Variable dnew : nat -> option (dom K).
Hypothesis R2 : radix2 dnew.
Theorem placement ix circ u s s' ps rw ra rb coeffs o1 : circ (cs_new Prove) = Ok (u, s) -> make_square s = Ok (tt, s') -> prover_init K dnew ix circ = Ok ps ->
  rw <> 0 -> first_round K ps rw ra rb coeffs = Ok o1 ->
  exists dx dh, dnew (length (inps s')) = Some dx /\ dnew (length (cons s')) = Some dh /\
  (forall i j k, (i < dsize dh)%nat -> (j < dsize dh)%nat -> reidx (dsize dh) (dsize dx) i = Ok k -> reidx (dsize dh) (dsize dx) j = Ok k -> i = j) /\
  forall j, (j < dsize dh)%nat -> exists k, reidx (dsize dh) (dsize dx) j = Ok k /\ (k < dsize dh)%nat /\
    vh K dx (dgen dh ^ k) * peval (o_w K o1) (dgen dh ^ k) + peval (interp K dx (inps s')) (dgen dh ^ k) = if Nat.ltb j (dsize dx) then nth j (inps s') 0 else nth (j - dsize dx) (auxs s') 0.
Proof.
  intros Ec Eq EP Nw EF. unfold prover_init in EP. rewrite Ec in EP. cbn [rbind] in EP. rewrite Eq in EP. cbn [rbind] in EP. destruct (negb _ || negb _)%bool eqn:EN; [discriminate|].
  apply Bool.orb_false_elim in EN. destruct EN as (N1 & N2). apply Bool.negb_false_iff, Nat.eqb_eq in N1, N2.
  destruct (mapR _ (ix_a K ix)) as [za| |]; try discriminate. cbn [rbind] in EP. destruct (mapR _ (ix_b K ix)) as [zb| |]; try discriminate. cbn [rbind] in EP.
  unfold dom_or in EP. destruct (dnew (length (inps s'))) as [dx|] eqn:Edx; try discriminate. cbn [rbind] in EP. destruct (dnew (length (cons s'))) as [dh|] eqn:Edh; try discriminate. cbn [rbind] in EP. destruct (dnew (i_nnz _)) as [dk|]; try discriminate. cbn [rbind] in EP. injection EP as <-.
  destruct R2 as (R & Nst). destruct (R _ _ Edx) as (Vx & Lx & _). destruct (R _ _ Edh) as (Vh & _ & _). destruct (Nst _ _ _ _ Edx Edh ltac:(lia)) as (p & Hs & Hg).
  exists dx, dh. split; [reflexivity|]. split; [reflexivity|]. assert (0 < dsize dx)%nat as Px by apply Vx. assert (0 < p)%nat as Pp by (destruct Vh as (H & _); rewrite Hs in H; destruct p; lia). split.
  - intros i j k. rewrite Hs. apply reidx_inj; assumption.
  - intros j Hj. exists (pos (dsize dh) (dsize dx) j). rewrite Hs in Hj |- * at 1. destruct (reidx_ok p (dsize dx) j Px Pp Hj) as (E & L). rewrite <- Hs in *. split; [exact E|]. split; [exact L|].
    match type of EF with first_round K ?ps _ _ _ _ = _ => pose proof (first_ok K dx dh p Vx Vh Hs Hg ps eq_refl eq_refl rw ra rb Nw coeffs o1 EF) as O end.
    pose proof (o1_z _ _ _ _ _ _ _ _ O _ L) as Z. cbn [ps_x ps_w] in Z. unfold vh. rewrite Z. apply (zvec_pos K dx dh p Vx Vh Hs Hg); [exact Lx|exact Hj].
Qed.
(** With exactly as many inputs as the input domain holds, position j holds the variable that the matrices call column j. *)
Theorem placement_exact ix circ u s s' ps rw ra rb coeffs o1 dx dh : circ (cs_new Prove) = Ok (u, s) -> make_square s = Ok (tt, s') -> prover_init K dnew ix circ = Ok ps ->
  rw <> 0 -> first_round K ps rw ra rb coeffs = Ok o1 -> dnew (length (inps s')) = Some dx -> dnew (length (cons s')) = Some dh -> dsize dx = length (inps s') ->
  forall j, (j < dsize dh)%nat -> exists k, reidx (dsize dh) (dsize dx) j = Ok k /\
    vh K dx (dgen dh ^ k) * peval (o_w K o1) (dgen dh ^ k) + peval (interp K dx (inps s')) (dgen dh ^ k) = columns (length (inps s')) (wit s') j.
Proof.
  intros Ec Eq EP Nw EF E1 E2 F j Hj. destruct (placement ix circ u s s' ps rw ra rb coeffs o1 Ec Eq EP Nw EF) as (dx' & dh' & E1' & E2' & _ & P). assert (dx' = dx) by congruence. assert (dh' = dh) by congruence. subst. destruct (P j Hj) as (k & Ek & _ & V). exists k. split; [exact Ek|]. rewrite V, F. unfold columns, wit. reflexivity.
Qed.
(** Otherwise auxiliary variables are displaced by the number of missing inputs, and the first ones are read as zero. *)
Theorem placement_shifted ix circ u s s' ps rw ra rb coeffs o1 dx dh : circ (cs_new Prove) = Ok (u, s) -> make_square s = Ok (tt, s') -> prover_init K dnew ix circ = Ok ps ->
  rw <> 0 -> first_round K ps rw ra rb coeffs = Ok o1 -> dnew (length (inps s')) = Some dx -> dnew (length (cons s')) = Some dh -> (length (inps s') < dsize dx)%nat ->
  forall i, (length (inps s') + i < dsize dh)%nat -> exists k, reidx (dsize dh) (dsize dx) (length (inps s') + i) = Ok k /\
    columns (length (inps s')) (wit s') (length (inps s') + i) = nth i (auxs s') 0 /\
    vh K dx (dgen dh ^ k) * peval (o_w K o1) (dgen dh ^ k) + peval (interp K dx (inps s')) (dgen dh ^ k) = if Nat.ltb i (dsize dx - length (inps s')) then 0 else nth (i - (dsize dx - length (inps s'))) (auxs s') 0.
Proof.
  intros Ec Eq EP Nw EF E1 E2 F i Hi. destruct (placement ix circ u s s' ps rw ra rb coeffs o1 Ec Eq EP Nw EF) as (dx' & dh' & E1' & E2' & _ & P). assert (dx' = dx) by congruence. assert (dh' = dh) by congruence. subst. destruct (P _ Hi) as (k & Ek & _ & V). exists k. split; [exact Ek|]. split.
  - unfold columns. rewrite (proj2 (Nat.ltb_ge _ _)) by lia. unfold wit. f_equal. lia.
  - rewrite V. destruct (Nat.ltb_spec i (dsize dx - length (inps s'))); [rewrite (proj2 (Nat.ltb_lt _ _)) by lia; apply nth_overflow; lia|rewrite (proj2 (Nat.ltb_ge _ _)) by lia; f_equal; lia].
Qed.
(** If the displaced variables do not fit, the prover panics. *)
Theorem prover_panics PR ro checks circ u1 u2 s1 s2 srs ipk ivk co dx dh : circ (cs_new Setup) = Ok (u1, s1) -> circ (cs_new Prove) = Ok (u2, s2) -> same_shape s1 s2 -> wf s1 -> (Z.of_nat (terms (cons s1)) < 2 ^ 64)%Z ->
  marlin_index K PR dnew checks srs circ = Ok (ipk, ivk) ->
  let m := Nat.max (length (inps s2) + length (auxs s2)) (length (cons s2)) in
  dnew (length (inps s2)) = Some dx -> dnew m = Some dh -> (dsize dh < dsize dx + (m - length (inps s2)))%nat ->
  create_proof K PR dnew ro ipk circ co = Panic.
Proof.
  intros Ec1 Ec2 (Sc & Si & Sa) W Bd EI m E1 E2 Lt. unfold marlin_index in EI. destruct (ahp_index K dnew checks circ) as [ix| |] eqn:Eix; try discriminate. cbn [rbind] in EI.
  destruct (max_degree K dnew (ix_info K ix)) as [md| |]; try discriminate. cbn [rbind] in EI. destruct (Nat.ltb _ md) in EI; [discriminate|]. destruct (kzg_trim _ _ _ _) as [(ck, vk)| |]; try discriminate. cbn [rbind] in EI. destruct (pc_commit _ _ _ _) as [(c0, r0)| |]; try discriminate. cbn [rbind] in EI. injection EI as <- <-.
  destruct (make_square_ok K s1) as (q1 & Eq1 & _ & I1 & (a1 & A1) & C1 & L1). destruct (make_square_ok K s2) as (q2 & Eq2 & _ & I2 & (a2 & A2) & C2 & L2).
  assert (length (cons q2) = m) as Lm. { rewrite C2, app_length, repeat_length. unfold m. lia. }
  assert (length (auxs q2) = (m - length (inps s2))%nat) as La by (rewrite I2 in L2; lia).
  destruct (index_ok K dnew R2 checks circ u1 s1 q1 ix Ec1 W Bd Eq1 Eix) as (dx' & dh' & dk & db & p & X).
  assert (length (cons q1) = length (cons q2)) as Lc by (rewrite C1, C2, !app_length, !repeat_length, Sc, Si, Sa; reflexivity).
  assert (dx' = dx) by (pose proof (xo_dx _ _ _ _ _ _ _ _ _ X) as HH; rewrite I1, Si, E1 in HH; congruence). assert (dh' = dh) by (pose proof (xo_dh _ _ _ _ _ _ _ _ _ X) as HH; rewrite Lc, Lm, E2 in HH; congruence). subst dx' dh'.
  unfold create_proof. cbn [ip_ix]. unfold prover_init. rewrite Ec2. cbn [rbind]. rewrite Eq2. cbn [rbind]. rewrite (xo_nc _ _ _ _ _ _ _ _ _ X), Lc, <- L2, Nat.eqb_refl. cbn [negb orb].
  pose proof (xo_ca _ _ _ _ _ _ _ _ _ X) as Ca. pose proof (xo_cb _ _ _ _ _ _ _ _ _ X) as Cb. rewrite Lc, L2 in Ca, Cb. rewrite (mapR_inner K q2 _ Ca), (mapR_inner K q2 _ Cb). cbn [rbind].
  unfold dom_or at 1. rewrite I2, E1. cbn [rbind]. unfold dom_or at 1. rewrite Lm, E2. cbn [rbind]. unfold dom_or at 1. rewrite (xo_dk _ _ _ _ _ _ _ _ _ X). cbn [rbind].
  unfold first_round at 1. cbn [ps_dh ps_dx ps_w ps_x]. rewrite La, (proj2 (Nat.ltb_lt _ _)) by exact Lt. reflexivity.
Qed.
End T.
End P.
