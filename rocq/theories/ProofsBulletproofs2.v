(** Completeness of the Bulletproofs circuit protocol. *)
From Verif Require Import Field Poly Module ModTac ModelTranscript ModelLC SpecLC ModelCS SpecCS ModelBulletproofs SpecBulletproofs ProofsIPP ProofsBulletproofs.
Local Open Scope fld_scope.
Section P.
Variable K : Fld.
Variable G : Grp K.
Variable ch : oracle K G.
Hypothesis NZ : forall l t, ch l t <> 0.
Add Field Kf : (f_laws K).
Notation tab := (tab K).
Notation tr_y := (tr_y K G). Notation tr_x := (tr_x K G). Notation tr_ipp := (tr_ipp K G).
Lemma next_pow2_ge n : (n <= next_pow2 n)%nat.
Proof. unfold next_pow2. destruct n as [|[|n]]; [cbn; lia|cbn; lia|]. apply Nat.log2_up_spec. lia. Qed.
Lemma fold_vp5 N (p0 p1 p2 p3 p4 p5 : nat -> K) x :
  vp5_eval K N (fun i => nth i [tab N p0; tab N p1; tab N p2; tab N p3; tab N p4; tab N p5] []) x =
  tab N (fun i => p0 i + x * (p1 i + x * (p2 i + x * (p3 i + x * (p4 i + x * p5 i))))).
Proof. unfold vp5_eval. apply tab_ext. intros i Hi. cbn [nth]. rewrite !nth_tab by exact Hi. reflexivity. Qed.
Lemma repeat_tab n : repeat (0 : K) n = tab n (fun _ => 0).
Proof. induction n; [reflexivity|]. rewrite tab_S. cbn. f_equal. exact IHn. Qed.
Lemma map_fopp_tab n f : map fopp (tab n f) = tab n (fun i => - f i).
Proof. apply map_tab. Qed.

Section C.
Variables (gs : gens K G) (c : r1cs K) (inp : assignment K) (rd : brand K).
Variables n k n_w N : nat.
Hypothesis LL : length (aL K inp) = n. Hypothesis Lk : length (as_s K inp) = k. Hypothesis Lw : length (as_w K inp) = n_w. Hypothesis LN : N = next_pow2 (Nat.max n n_w).
Hypothesis Hn : (0 < n)%nat.
Hypothesis LR : length (aR K inp) = n.
Hypothesis LO : length (aO K inp) = n.
Hypothesis Gn : gn K G gs = n. Hypothesis GN : gN K G gs = N. Hypothesis Gk : gk K G gs = k. Hypothesis Gw : gn_w K G gs = n_w.
Hypothesis Lg : length (g_vec_N K G gs) = N. Hypothesis Lh : length (h_vec_N K G gs) = N.
Hypothesis LsL : (length (r_sL K rd) <= N)%nat. Hypothesis LsR : (length (r_sR K rd) <= N)%nat.
Hypothesis LsL' : (length (r_sL K rd) <= Nat.max n n_w)%nat. Hypothesis LsR' : (length (r_sR K rd) <= Nat.max n n_w)%nat.
Definition dims (m : list (list K)) : Prop := length m = n /\ Forall (fun row => length row = (k + n_w)%nat) m.
Hypothesis DL : dims (CL K c). Hypothesis DR : dims (CR K c). Hypothesis DO : dims (CO K c).
Let f := as_s K inp ++ as_w K inp.
Hypothesis VL : forall i, (i < n)%nat -> nth i (aL K inp) 0 = row_val (CL K c) f i.
Hypothesis VR : forall i, (i < n)%nat -> nth i (aR K inp) 0 = row_val (CR K c) f i.
Hypothesis VO : forall i, (i < n)%nat -> nth i (aO K inp) 0 = row_val (CO K c) f i.
Hypothesis SAT : forall i, (i < n)%nat -> nth i (aL K inp) 0 * nth i (aR K inp) 0 = nth i (aO K inp) 0.
Variable pubs : list K.
Hypothesis Es : as_s K inp = 1 :: pubs.
Let c' := matrix_to_map K c.

Let vaL i := nth i (aL K inp) 0. Let vaR i := nth i (aR K inp) 0. Let vaO i := nth i (aO K inp) 0. Let vw i := nth i (as_w K inp) 0.
Let vsL i := nth i (r_sL K rd) 0. Let vsR i := nth i (r_sR K rd) 0.
Lemma n_le : (n <= N)%nat. Proof. rewrite LN. pose proof (next_pow2_ge (Nat.max n n_w)). lia. Qed.
Lemma nw_le : (n_w <= N)%nat. Proof. rewrite LN. pose proof (next_pow2_ge (Nat.max n n_w)). lia. Qed.
Lemma mat_get m i j : dims m -> map_get K (map_of K m) i j = mat_at K m i j.
Proof. intros [_ F]. apply (map_of_get K m i j _ F). Qed.
Lemma ent_eq z i j : ent K G gs c' z i j = comb3 K (zn K G gs z) (zn K G gs z * zn K G gs z) (mat_at K (CL K c) i j) (mat_at K (CR K c) i j) (mat_at K (CO K c) i j).
Proof. unfold ent, c', matrix_to_map. cbn [CL_T CR_T CO_T]. rewrite !mat_get by assumption. reflexivity. Qed.
Lemma row_sum m i : dims m -> (i < n)%nat -> row_val m f i = sumn k (fun j => mat_at K m i j * nth j (as_s K inp) 0) + sumn n_w (fun j => mat_at K m i (k + j) * vw j).
Proof.
  intros [Lm F] Hi. unfold row_val. rewrite dot_sumn. rewrite Forall_forall in F. rewrite (F (nth i m [])) by (apply nth_In; lia).
  rewrite sumn_app. f_equal; apply sumn_ext; intros j Hj; unfold mat_at, f.
  - rewrite app_nth1 by lia. reflexivity.
  - rewrite app_nth2 by lia. rewrite Lk. replace (k + j - k)%nat with j by lia. reflexivity.
Qed.
(** The public part of the linear constraints is what the witness part leaves. *)
Lemma lin_part z : sumn N (fun i => vaL i * f_WL K G gs z i + (f_WR K G gs z i * vaR i + (vaO i * f_WO K G gs z i - vw i * f_WV K G gs c' z i))) = zQc K G gs c' z (1 :: pubs).
Proof.
  rewrite <- Es. rewrite !sumn_add, sumn_sub.
  assert (T : forall v cst, (forall i, (n <= i)%nat -> v i = 0) -> sumn N (fun i => v i * (if Nat.ltb i (gn K G gs) then z ^ S i * cst else 0)) = sumn n (fun i => z ^ S i * (cst * v i))).
  { intros v cst Hv. rewrite (sumn_trunc K n N) by (try exact n_le; intros i Hi; rewrite Hv by lia; ring). apply sumn_ext. intros i Hi. rewrite Gn.
    destruct (Nat.ltb_spec i n); [ring|lia]. }
  assert (WL : sumn N (fun i => vaL i * f_WL K G gs z i) = sumn n (fun i => z ^ S i * (1 * vaL i))) by (apply T; intros; apply nth_overflow; lia).
  assert (WR : sumn N (fun i => f_WR K G gs z i * vaR i) = sumn n (fun i => z ^ S i * (zn K G gs z * vaR i))).
  { rewrite (sumn_ext K N _ (fun i => vaR i * f_WR K G gs z i)) by (intros; ring). apply T; intros; apply nth_overflow; lia. }
  assert (WO : sumn N (fun i => vaO i * f_WO K G gs z i) = sumn n (fun i => z ^ S i * (zn K G gs z * zn K G gs z * vaO i))) by (apply T; intros; apply nth_overflow; lia).
  assert (WV : sumn N (fun j => vw j * f_WV K G gs c' z j) = sumn n (fun i => z ^ S i * sumn n_w (fun j => ent K G gs c' z i (k + j) * vw j))).
  { rewrite (sumn_trunc K n_w N) by (try exact nw_le; intros j Hj; unfold vw; rewrite nth_overflow by lia; ring).
    rewrite (sumn_ext K n_w _ (fun j => sumn n (fun i => z ^ S i * (ent K G gs c' z i (k + j) * vw j)))).
    - rewrite sumn_swap. apply sumn_ext. intros i Hi. apply sumn_mul_l.
    - intros j Hj. unfold f_WV. rewrite Gw, Gk, Gn. destruct (Nat.ltb_spec j n_w); [|lia]. rewrite <- sumn_mul_l. apply sumn_ext. intros; ring. }
  rewrite WL, WR, WO, WV. unfold zQc. rewrite Gn, Gk. rewrite <- sumn_sub, <- !sumn_add. apply sumn_ext. intros i Hi.
  unfold vaL, vaR, vaO. rewrite VL, VR, VO by exact Hi. rewrite !row_sum by assumption.
  rewrite (sumn_ext K k (fun j => ent K G gs c' z i j * nth j (as_s K inp) 0)
    (fun j => mat_at K (CL K c) i j * nth j (as_s K inp) 0 + (zn K G gs z * (mat_at K (CR K c) i j * nth j (as_s K inp) 0) + zn K G gs z * zn K G gs z * (mat_at K (CO K c) i j * nth j (as_s K inp) 0))))
    by (intros j Hj; rewrite ent_eq; unfold comb3; ring).
  rewrite (sumn_ext K n_w (fun j => ent K G gs c' z i (k + j) * vw j)
    (fun j => mat_at K (CL K c) i (k + j) * vw j + (zn K G gs z * (mat_at K (CR K c) i (k + j) * vw j) + zn K G gs z * zn K G gs z * (mat_at K (CO K c) i (k + j) * vw j))))
    by (intros j Hj; rewrite ent_eq; unfold comb3; ring).
  rewrite !sumn_add, !sumn_mul_l. ring.
Qed.
Lemma t4_ok y z : y <> 0 ->
  sumn N (fun i => (vaL i + yi K y i * f_WR K G gs z i) * (y ^ i * vaR i + f_WL K G gs z i) + (vaO i * (- y ^ i + f_WO K G gs z i) + vw i * - f_WV K G gs c' z i)) =
  delta_ K G gs y z + zQc K G gs c' z (1 :: pubs).
Proof.
  intro Hy. rewrite <- lin_part. unfold delta_. rewrite GN, <- sumn_add. apply sumn_ext. intros i Hi.
  assert (Y : yi K y i * y ^ i = 1) by (unfold yi; apply finv_l, fpow_nz, Hy).
  assert (S0 : vaL i * vaR i = vaO i).
  { destruct (Nat.lt_ge_cases i n) as [H|H]; [apply SAT, H|]. unfold vaL, vaR, vaO. rewrite !nth_overflow by lia. ring. }
  transitivity (yi K y i * f_WR K G gs z i * f_WL K G gs z i + y ^ i * (vaL i * vaR i - vaO i) + (vaL i * f_WL K G gs z i + (f_WR K G gs z i * vaR i * (yi K y i * y ^ i) + (vaO i * f_WO K G gs z i - vw i * f_WV K G gs c' z i)))); [ring|].
  rewrite Y, S0. ring.
Qed.
Lemma WV_prover z : vector_matrix_product K (powers K z z n)
   (map (fun i => map (fun j => if Nat.ltb j n_w then comb3 K (zn K G gs z) (zn K G gs z * zn K G gs z) (mat_at K (CL K c) i (k + j)) (mat_at K (CR K c) i (k + j)) (mat_at K (CO K c) i (k + j)) else 0) (seq 0 N)) (seq 0 n))
  = Ok (tab N (f_WV K G gs c' z)).
Proof.
  rewrite zQ_tab.
  change (map (fun i => map (fun j => if Nat.ltb j n_w then comb3 K (zn K G gs z) (zn K G gs z * zn K G gs z) (mat_at K (CL K c) i (k + j)) (mat_at K (CR K c) i (k + j)) (mat_at K (CO K c) i (k + j)) else 0) (seq 0 N)) (seq 0 n))
   with (map (fun i => tab N ((fun i j => if Nat.ltb j n_w then comb3 K (zn K G gs z) (zn K G gs z * zn K G gs z) (mat_at K (CL K c) i (k + j)) (mat_at K (CR K c) i (k + j)) (mat_at K (CO K c) i (k + j)) else 0) i)) (seq 0 n)).
  rewrite vmp_tab by exact Hn. f_equal. apply tab_ext. intros j Hj. unfold f_WV. rewrite Gw, Gk, Gn.
  destruct (Nat.ltb_spec j n_w).
  - apply sumn_ext. intros i Hi. rewrite ent_eq. reflexivity.
  - apply sumn_0. intros; ring.
Qed.
Lemma reads_ok : forallb (fun m => Nat.leb n (length m) && forallb (fun row : list K => Nat.leb (k + n_w) (length row)) (firstn n m)) [CL K c; CR K c; CO K c] = true.
Proof.
  assert (D : forall m, dims m -> Nat.leb n (length m) && forallb (fun row : list K => Nat.leb (k + n_w) (length row)) (firstn n m) = true).
  { intros m [Lm F]. rewrite Lm, Nat.leb_refl. cbn [andb]. rewrite firstn_all2 by lia. apply forallb_forall. intros row I. rewrite Forall_forall in F. rewrite (F row I). apply Nat.leb_refl. }
  cbn [forallb]. rewrite !D by assumption. reflexivity.
Qed.
Lemma quick1 (a : K) (h : G) : quick_multiexp K G [a] [h] = gsm a h.
Proof. unfold quick_multiexp. cbn [msm]. gmod; ring. Qed.
Lemma quick2 (a b : K) (g h : G) : quick_multiexp K G [a; b] [g; h] = gadd (gsm a g) (gsm b h).
Proof. unfold quick_multiexp. cbn [msm]. gmod; ring. Qed.
Definition pol y z : polys K := mkPolys K (tab N (fun i => vaL i + yi K y i * f_WR K G gs z i)) (tab N vaO) (tab N vw) (tab N vsL)
  (tab N (fun i => - f_WV K G gs c' z i)) (tab N (fun i => - y ^ i + f_WO K G gs z i)) (tab N (fun i => y ^ i * vaR i + f_WL K G gs z i)) (tab N (fun i => y ^ i * vsR i)).
Lemma vectors_ok y z : y <> 0 -> bp_vectors K n N k n_w c inp rd y z = Ok (pol y z).
Proof.
  intro Hy. unfold bp_vectors. cbv zeta. pose proof n_le as Hle. pose proof nw_le as Hwle.
  rewrite !pad_tab by lia. rewrite !powers_tab, inv_all_tab by (intros i _ E; apply (fpow_nz K y i Hy); etransitivity; [|exact E]; ring). cbn [rbind].
  rewrite <- (powers_tab K z z n). rewrite reads_ok. cbn [negb].
  pose proof (WV_prover z) as EWV. pose proof Hn as Hn'. 
  assert (DG : forall cst, vector_matrix_product K (powers K z z n) (diag_mat K n N cst) = Ok (wvec K n N z cst)) by (intro; apply diag_w, Hn).
  assert (Ez : nth (n - 1) (powers K z z n) 0 = zn K G gs z).
  { rewrite zQ_tab, nth_tab by lia. unfold zn. rewrite Gn. f_equal. lia. }
  assert (W : wvec K n N z 1 = tab N (f_WL K G gs z)) by (unfold wvec, f_WL; rewrite Gn; reflexivity).
  assert (W1 : wvec K n N z (zn K G gs z) = tab N (f_WR K G gs z)) by (unfold wvec, f_WR; rewrite Gn; reflexivity).
  assert (W2 : wvec K n N z (zn K G gs z * zn K G gs z) = tab N (f_WO K G gs z)) by (unfold wvec, f_WO; rewrite Gn; reflexivity).
  destruct n as [|n1] eqn:En; [lia|]. replace (S n1 - 1)%nat with n1 in Ez by lia. rewrite Ez, !DG. cbn [rbind]. rewrite EWV. cbn [rbind].
  rewrite W, W1, W2, !hadamard_tab. cbn [rbind]. f_equal. unfold pol, zipadd. rewrite !map_fopp_tab, !map_combine_tab. 
  f_equal; apply tab_ext; intros i _; unfold yi; replace (1 * y ^ i) with (y ^ i) by ring; reflexivity.
Qed.
Definition cAI : G := gadd (gadd (gsm (r_aI K rd) (gh K G gs)) (msm (g_vec_N K G gs) (tab N vaL))) (msm (h_vec_N K G gs) (tab N vaR)).
Definition cAO : G := gadd (gsm (r_aO K rd) (gh K G gs)) (msm (g_vec_N K G gs) (tab N vaO)).
Definition cAW : G := gadd (gsm (r_gamma K rd) (gh K G gs)) (msm (g_vec_N K G gs) (tab N vw)).
Definition cS : G := gadd (gadd (gsm (r_s K rd) (gh K G gs)) (msm (g_vec_N K G gs) (tab N vsL))) (msm (h_vec_N K G gs) (tab N vsR)).
Definition lfun y z x i : K := 0 + x * (0 + x * ((vaL i + yi K y i * f_WR K G gs z i) + x * (vaO i + x * (vw i + x * vsL i)))).
Definition rfun y z x i : K := - f_WV K G gs c' z i + x * ((- y ^ i + f_WO K G gs z i) + x * ((y ^ i * vaR i + f_WL K G gs z i) + x * (0 + x * (0 + x * (y ^ i * vsR i))))).
Lemma P_check y z x : y <> 0 ->
  P_lhs K G gs c' y z x cAI cAO cAW cS =
  gadd (gadd (gsm (r_aI K rd * (x * x) + r_aO K rd * (x * x * x) + r_gamma K rd * (x * x * (x * x)) + r_s K rd * (x * x * (x * x) * x)) (gh K G gs)) (msm (g_vec_N K G gs) (tab N (lfun y z x))))
       (msm (map (fun '(v, p) => gsm v p) (combine (tab (gN K G gs) (yi K y)) (h_vec_N K G gs))) (tab N (rfun y z x))).
Proof.
  intro Hy. rewrite GN. rewrite msm_scaled by lia. unfold P_lhs. rewrite GN. cbn [fold_left].
  set (gv := g_vec_N K G gs). set (hv := h_vec_N K G gs). set (h := gh K G gs).
  rewrite (tab_ext K N (lfun y z x) (fun i => x * x * vaL i + (x * x * (yi K y i * f_WR K G gs z i) + (x * x * x * vaO i + (x * x * (x * x) * vw i + x * x * (x * x) * x * vsL i))))) by (intros; unfold lfun; ring).
  rewrite (tab_ext K N (fun i => yi K y i * rfun y z x i) (fun i => yi K y i * - f_WV K G gs c' z i + (x * (yi K y i * (- (1) * (1 * y ^ i))) + (x * (yi K y i * f_WO K G gs z i)
     + (x * x * vaR i + (x * x * (yi K y i * f_WL K G gs z i) + x * x * (x * x) * x * vsR i)))))).
  2:{ intros i Hi. assert (Y : yi K y i * y ^ i = 1) by (unfold yi; apply finv_l, fpow_nz, Hy). unfold rfun.
      transitivity (yi K y i * - f_WV K G gs c' z i + (x * (yi K y i * (- (1) * (1 * y ^ i))) + (x * (yi K y i * f_WO K G gs z i)
     + (x * x * (vaR i * (yi K y i * y ^ i)) + (x * x * (yi K y i * f_WL K G gs z i) + x * x * (x * x) * x * (vsR i * (yi K y i * y ^ i))))))); [ring|]. rewrite Y. ring. }
  rewrite (msm_tab_add K G N gv (fun i => x * x * vaL i)), (msm_tab_add K G N gv (fun i => x * x * (yi K y i * f_WR K G gs z i))), (msm_tab_add K G N gv (fun i => x * x * x * vaO i)),
    (msm_tab_add K G N gv (fun i => x * x * (x * x) * vw i)).
  rewrite (msm_tab_add K G N hv (fun i => yi K y i * - f_WV K G gs c' z i)), (msm_tab_add K G N hv (fun i => x * (yi K y i * (- (1) * (1 * y ^ i))))), (msm_tab_add K G N hv (fun i => x * (yi K y i * f_WO K G gs z i))),
    (msm_tab_add K G N hv (fun i => x * x * vaR i)), (msm_tab_add K G N hv (fun i => x * x * (yi K y i * f_WL K G gs z i))).
  rewrite !msm_tab_mul. unfold cAI, cAO, cAW, cS. fold gv hv h.
  change (tab N (fun i => vaL i)) with (tab N vaL). change (tab N (fun i => vaO i)) with (tab N vaO). change (tab N (fun i => vw i)) with (tab N vw). change (tab N (fun i => vsL i)) with (tab N vsL).
  change (tab N (fun i => vaR i)) with (tab N vaR). change (tab N (fun i => vsR i)) with (tab N vsR).
  gmod; ring.
Qed.
Lemma tx_expand y z x : y <> 0 -> sumn N (fun i => lfun y z x i * rfun y z x i) =
  let p := pol y z in
  let xx := x * x in let xxxx := xx * xx in
  xxxx * (delta_ K G gs y z + zQc K G gs c' z (1 :: pubs)) + xx * dot (lp2 K p) (rp0 K p) + xx * x * (dot (lp2 K p) (rp1 K p) + dot (lp3 K p) (rp0 K p))
  + xxxx * x * (dot (lp3 K p) (rp2 K p) + dot (lp4 K p) (rp1 K p) + dot (lp5 K p) (rp0 K p)) + xxxx * xx * (dot (lp4 K p) (rp2 K p) + dot (lp5 K p) (rp1 K p))
  + xxxx * (xx * x) * (dot (lp2 K p) (rp5 K p) + dot (lp5 K p) (rp2 K p)) + xxxx * xxxx * dot (lp3 K p) (rp5 K p) + xxxx * (xxxx * x) * dot (lp4 K p) (rp5 K p)
  + xxxx * (xxxx * xx) * dot (lp5 K p) (rp5 K p).
Proof.
  intro Hy. cbv zeta. rewrite <- t4_ok by exact Hy. unfold pol. cbn [lp2 lp3 lp4 lp5 rp0 rp1 rp2 rp5]. rewrite !dot_tab.
  rewrite <- !sumn_add. rewrite <- !sumn_mul_l, <- !sumn_add. apply sumn_ext. intros i Hi. unfold lfun, rfun. ring.
Qed.
Lemma respond_ok : let t := tr_y gs c' pubs cAI cAO cAW cS in
  let y := ch "y"%string t in let z := ch "z"%string (MCh "y" :: t) in
  exists pf, bp_respond K G ch gs rd N (pol y z) (MCh "z" :: MCh "y" :: t) cAI cAO cAW cS = Ok pf /\ bp_verify K G ch gs pf c' pubs = Ok true.
Proof.
  intros t y z. assert (Hy : y <> 0) by apply NZ. pose proof n_le as Hle.
  unfold bp_respond.
  set (T2 := quick_multiexp K G [dot _ _; r_2 K rd] _). set (T3 := quick_multiexp K G [_; r_3 K rd] _). set (T5 := quick_multiexp K G [_; r_5 K rd] _). set (T6 := quick_multiexp K G [_; r_6 K rd] _).
  set (T7 := quick_multiexp K G [_; r_7 K rd] _). set (T8 := quick_multiexp K G [_; r_8 K rd] _). set (T9 := quick_multiexp K G [_; r_9 K rd] _). set (T10 := quick_multiexp K G [_; r_10 K rd] _).
  cbv zeta. fold (tr_x t T2 T3 T5 T6 T7 T8 T9 T10). set (t' := tr_x t T2 T3 T5 T6 T7 T8 T9 T10). set (x := ch "x"%string t').
  unfold bp_finish.
  set (lx := vp5_eval _ _ _ x). set (rx := vp5_eval _ _ (fun i => nth i [rp0 K _; _; _; _; _; _] []) x).
  assert (El : lx = tab N (lfun y z x)) by (unfold lx, pol; cbn [lp2 lp3 lp4 lp5]; rewrite repeat_tab; apply fold_vp5).
  assert (Er : rx = tab N (rfun y z x)) by (unfold rx, pol; cbn [rp0 rp1 rp2 rp5]; rewrite repeat_tab; apply fold_vp5).
  cbv zeta. assert (Ei : inner_product K lx rx = Ok (sumn N (fun i => lfun y z x i * rfun y z x i))) by (rewrite El, Er; apply inner_tab).
  rewrite Ei. cbn [rbind]. set (tx := sumn N _). set (taux := r_2 K rd * (x * x) + _ + _ + _ + _ + _ + _ + _). set (m := r_aI K rd * (x * x) + _ + _ + _).
  match goal with |- context [MFs "r_x" rx :: ?a] => change (MFs "r_x" rx :: a) with (tr_ipp t' tx taux m lx rx) end.
  set (t'' := tr_ipp t' tx taux m lx rx). set (ux := gsm (ch "x_1"%string t'') (gu K G gs)).
  set (gv := g_vec_N K G gs) in *. set (hv := h_vec_N K G gs) in *.
  set (PP := gadd (gadd (quick_multiexp K G lx gv) (quick_multiexp K G rx hv)) (gsm tx ux)).
  assert (Llx : length lx = N) by (rewrite El; apply length_tab). assert (Lrx : length rx = N) by (rewrite Er; apply length_tab).
  destruct (ipp_prove_total K G ch (MCh "x_1" :: t'') gv hv ux PP lx rx (Nat.log2_up (Nat.max n n_w)) NZ) as [ip Eip]; [rewrite Llx, LN; reflexivity|lia|lia|lia|].
  rewrite Eip. cbn [rbind]. eexists. split; [reflexivity|].
  rewrite bp_verify_shape; cbn [A_I A_O A_W S_ T_2 T_3 T_5 T_6 T_7 T_8 T_9 T_10 mu tau_x l_x r_x t_x IPP IPP_P];
    [|lia|fold hv; lia|rewrite Gk, <- Lk, Es; reflexivity|exact Hy].
  fold t. fold y z. fold t'. fold x. fold t''. fold ux. fold gv hv.
  assert (Ldot : dot lx rx = tx) by (rewrite El, Er; apply dot_tab).
  rewrite (ipp_exact K G ch (MCh "x_1" :: t'') gv hv ux PP lx rx ip) by (try lia; exact Eip).
  assert (EP : geqb PP (ip_commit gv hv ux lx rx) = true) by (apply geqb_eq; unfold ip_commit; rewrite Ldot; reflexivity). rewrite EP. cbn [rbind negb].
  assert (CT : msm [gg K G gs; gh K G gs] [tx; taux] = T_rhs K G (gg K G gs) x (delta_ K G gs y z + zQc K G gs c' z (1 :: pubs)) T2 T3 T5 T6 T7 T8 T9 T10).
  { unfold tx. rewrite tx_expand by exact Hy. unfold T_rhs. cbv zeta. cbn [msm fold_left].
    unfold T2, T3, T5, T6, T7, T8, T9, T10. rewrite !quick2. unfold taux. clear. 
    set (p := pol y z). generalize (delta_ K G gs y z + zQc K G gs c' z (1 :: pubs)); intro D.
    set (d1 := dot (lp2 K p) (rp0 K p)). set (d2 := dot (lp2 K p) (rp1 K p)). set (d3 := dot (lp3 K p) (rp0 K p)). set (d4 := dot (lp3 K p) (rp2 K p)).
    set (d5 := dot (lp4 K p) (rp1 K p)). set (d6 := dot (lp5 K p) (rp0 K p)). set (d7 := dot (lp4 K p) (rp2 K p)). set (d8 := dot (lp5 K p) (rp1 K p)).
    set (d9 := dot (lp2 K p) (rp5 K p)). set (d10 := dot (lp5 K p) (rp2 K p)). set (d11 := dot (lp3 K p) (rp5 K p)). set (d12 := dot (lp4 K p) (rp5 K p)). set (d13 := dot (lp5 K p) (rp5 K p)).
    clearbody d1 d2 d3 d4 d5 d6 d7 d8 d9 d10 d11 d12 d13. clearbody x. gmod; ring. }
  rewrite CT, geqb_refl. cbn [negb]. f_equal. apply geqb_eq. rewrite El, Er. unfold m, gv, hv. apply P_check. exact Hy.
Qed.
Theorem bp_complete_core : exists pf, bp_prove K G ch gs c inp rd = Ok pf /\ bp_verify K G ch gs pf c' pubs = Ok true.
Proof.
  pose proof n_le as Hle. pose proof nw_le as Hwle. pose proof (next_pow2_ge (Nat.max n n_w)) as HNm. rewrite <- LN in HNm.
  unfold bp_prove. rewrite LL, Lk, Lw, <- LN, LR, LO, Nat.eqb_refl. cbn [negb orb].
  rewrite Lg, Lh. destruct (Nat.ltb_spec N (Nat.max n n_w)) as [?|_]; [lia|]. cbn [orb]. 
  set (AI := gadd (gadd (quick_multiexp K G [r_aI K rd] _) _) _). set (AO := gadd (quick_multiexp K G [r_aO K rd] _) _).
  set (AW := gadd (quick_multiexp K G [r_gamma K rd] _) _). set (SS := gadd (gadd (quick_multiexp K G [r_s K rd] _) _) _).
  assert (MA : forall (l : list K) (v : list G) m, (length l <= m)%nat -> (m <= N)%nat -> quick_multiexp K G l (firstn m v) = msm v (tab N (fun i => nth i l 0))).
  { intros l v m H1 H2. unfold quick_multiexp. rewrite msm_firstn by exact H1. apply msm_pad. lia. }
  assert (E1 : AI = cAI) by (unfold AI; rewrite quick1, !MA by lia; reflexivity).
  assert (E2 : AO = cAO) by (unfold AO; rewrite quick1, !MA by lia; reflexivity).
  assert (E3 : AW = cAW) by (unfold AW; rewrite quick1, !MA by lia; reflexivity).
  assert (E4 : SS = cS) by (unfold SS; rewrite quick1, !MA by lia; reflexivity).
  rewrite E1, E2, E3, E4. clear AI AO AW SS E1 E2 E3 E4.
  assert (ET : MG "S" cS :: MG "A_W" cAW :: MG "A_O" cAO :: MG "A_I" cAI :: bp_header K G gs n N c (as_s K inp) = tr_y gs c' pubs cAI cAO cAW cS).
  { unfold ProofsBulletproofs.tr_y. rewrite Gn, GN, Es. reflexivity. }
  rewrite ET. cbv zeta. rewrite vectors_ok by apply NZ. cbn [rbind]. apply respond_ok.
Qed.
End C.
End P.
