(** Bulletproofs: every proof of one satisfying assignment is a proof of every other one, for exactly one choice of the prover's coins. *)
From Verif Require Import Field Poly Module ModTac ModelTranscript ModelLC SpecLC ModelCS SpecCS ModelBulletproofs SpecBulletproofs SpecSigmaZk ProofsIPP ProofsBulletproofs ProofsBulletproofs2 ProofsBulletproofs3.
Local Open Scope fld_scope.
Section Z.
Variable K : Fld.
Variable G : Grp K.
Variable ch : oracle K G.
Hypothesis NZ : forall l t, ch l t <> 0.
Add Field Kf : (f_laws K).
Variables (gs : gens K G) (c : r1cs K) (n k n_w N : nat) (pubs : list K).
Hypothesis LN : N = next_pow2 (Nat.max n n_w).
Hypothesis Hn : (0 < n)%nat.
Hypothesis Gn : gn K G gs = n. Hypothesis GN : gN K G gs = N. Hypothesis Gk : gk K G gs = k. Hypothesis Gw : gn_w K G gs = n_w.
Hypothesis Lg : length (g_vec_N K G gs) = N. Hypothesis Lh : length (h_vec_N K G gs) = N.
Hypothesis DL : dims K n k n_w (CL K c). Hypothesis DR : dims K n k n_w (CR K c). Hypothesis DO : dims K n k n_w (CO K c).
Let c' := matrix_to_map K c.
Notation tab := (tab K).
Notation nm := (Nat.max n n_w).
Record good (inp : assignment K) : Prop := {
  LL : length (aL K inp) = n; LR : length (aR K inp) = n; LO : length (aO K inp) = n;
  Lk : length (as_s K inp) = k; Lw : length (as_w K inp) = n_w; Es : as_s K inp = 1 :: pubs;
  VL : forall i, (i < n)%nat -> nth i (aL K inp) 0 = row_val (CL K c) (as_s K inp ++ as_w K inp) i;
  VR : forall i, (i < n)%nat -> nth i (aR K inp) 0 = row_val (CR K c) (as_s K inp ++ as_w K inp) i;
  VO : forall i, (i < n)%nat -> nth i (aO K inp) 0 = row_val (CO K c) (as_s K inp ++ as_w K inp) i;
  SAT : forall i, (i < n)%nat -> nth i (aL K inp) 0 * nth i (aR K inp) 0 = nth i (aO K inp) 0 }.
Definition coins (rd : brand K) : Prop := length (r_sL K rd) = nm /\ length (r_sR K rd) = nm.
Lemma nm_le : (nm <= N)%nat. Proof. rewrite LN. apply next_pow2_ge. Qed.
Definition k2 p := dot (lp2 K p) (rp0 K p).
Definition k3 p := dot (lp2 K p) (rp1 K p) + dot (lp3 K p) (rp0 K p).
Definition k5 p := dot (lp3 K p) (rp2 K p) + dot (lp4 K p) (rp1 K p) + dot (lp5 K p) (rp0 K p).
Definition k6 p := dot (lp4 K p) (rp2 K p) + dot (lp5 K p) (rp1 K p).
Definition k7 p := dot (lp2 K p) (rp5 K p) + dot (lp5 K p) (rp2 K p).
Definition k8 p := dot (lp3 K p) (rp5 K p).
Definition k9 p := dot (lp4 K p) (rp5 K p).
Definition k10 p := dot (lp5 K p) (rp5 K p).
Definition com (a b : K) : G := gadd (gsm a (gg K G gs)) (gsm b (gh K G gs)).
Definition y_of (pf : bproof K G) : K := ch "y"%string (tr_y K G gs c' pubs (A_I K G pf) (A_O K G pf) (A_W K G pf) (S_ K G pf)).
Definition z_of (pf : bproof K G) : K := ch "z"%string (MCh "y" :: tr_y K G gs c' pubs (A_I K G pf) (A_O K G pf) (A_W K G pf) (S_ K G pf)).
Definition trx_of (pf : bproof K G) := tr_x K G (tr_y K G gs c' pubs (A_I K G pf) (A_O K G pf) (A_W K G pf) (S_ K G pf)) (T_2 K G pf) (T_3 K G pf) (T_5 K G pf) (T_6 K G pf) (T_7 K G pf) (T_8 K G pf) (T_9 K G pf) (T_10 K G pf).
Definition x_of (pf : bproof K G) : K := ch "x"%string (trx_of pf).
Definition tri_of (pf : bproof K G) := tr_ipp K G (trx_of pf) (t_x K G pf) (tau_x K G pf) (mu K G pf) (l_x K G pf) (r_x K G pf).
Definition pp_of pf := gadd (gadd (quick_multiexp K G (l_x K G pf) (g_vec_N K G gs)) (quick_multiexp K G (r_x K G pf) (h_vec_N K G gs))) (gsm (t_x K G pf) (gsm (ch "x_1"%string (tri_of pf)) (gu K G gs))).
(** What the prover's messages are. *)
Record shape (inp : assignment K) (rd : brand K) (pf : bproof K G) : Prop := {
  sh_ai : A_I K G pf = cAI K G gs inp rd N; sh_ao : A_O K G pf = cAO K G gs inp rd N; sh_aw : A_W K G pf = cAW K G gs inp rd N; sh_s : S_ K G pf = cS K G gs rd N;
  sh_t2 : T_2 K G pf = com (k2 (pol K G gs c inp rd N (y_of pf) (z_of pf))) (r_2 K rd);
  sh_t3 : T_3 K G pf = com (k3 (pol K G gs c inp rd N (y_of pf) (z_of pf))) (r_3 K rd);
  sh_t5 : T_5 K G pf = com (k5 (pol K G gs c inp rd N (y_of pf) (z_of pf))) (r_5 K rd);
  sh_t6 : T_6 K G pf = com (k6 (pol K G gs c inp rd N (y_of pf) (z_of pf))) (r_6 K rd);
  sh_t7 : T_7 K G pf = com (k7 (pol K G gs c inp rd N (y_of pf) (z_of pf))) (r_7 K rd);
  sh_t8 : T_8 K G pf = com (k8 (pol K G gs c inp rd N (y_of pf) (z_of pf))) (r_8 K rd);
  sh_t9 : T_9 K G pf = com (k9 (pol K G gs c inp rd N (y_of pf) (z_of pf))) (r_9 K rd);
  sh_t10 : T_10 K G pf = com (k10 (pol K G gs c inp rd N (y_of pf) (z_of pf))) (r_10 K rd);
  sh_l : l_x K G pf = tab N (lfun K G gs inp rd (y_of pf) (z_of pf) (x_of pf));
  sh_r : r_x K G pf = tab N (rfun K G gs c inp rd (y_of pf) (z_of pf) (x_of pf));
  sh_tx : t_x K G pf = dot (l_x K G pf) (r_x K G pf);
  sh_pp : IPP_P K G pf = pp_of pf;
  sh_ipp : ipp_prove K G ch (MCh "x_1" :: tri_of pf) (g_vec_N K G gs) (h_vec_N K G gs) (gsm (ch "x_1"%string (tri_of pf)) (gu K G gs)) (IPP_P K G pf) (l_x K G pf) (r_x K G pf) = Ok (IPP K G pf) }.
Lemma prove_shape inp rd : good inp -> coins rd -> exists pf, bp_prove K G ch gs c inp rd = Ok pf /\ bp_verify K G ch gs pf c' pubs = Ok true /\ shape inp rd pf.
Proof.
  intros Gd [C1 C2]. pose proof nm_le as HNm.
  destruct (bp_complete_core K G ch NZ gs c inp rd n k n_w N) with (pubs := pubs) as (pf & E1 & E2); try (destruct Gd; assumption); try lia.
  exists pf. split; [exact E1|]. split; [exact E2|]. clear E2. destruct Gd as [LL0 LR0 LO0 Lk0 Lw0 Es0 VL0 VR0 VO0 SAT0].
  revert E1. unfold bp_prove. rewrite LL0, Lk0, Lw0, <- LN, LR0, LO0, Nat.eqb_refl. cbn [negb orb].
  rewrite Lg, Lh. destruct (Nat.ltb_spec N nm) as [?|_]; [lia|]. cbn [orb].
  set (AI := gadd (gadd (quick_multiexp K G [r_aI K rd] _) _) _). set (AO := gadd (quick_multiexp K G [r_aO K rd] _) _).
  set (AW := gadd (quick_multiexp K G [r_gamma K rd] _) _). set (SS := gadd (gadd (quick_multiexp K G [r_s K rd] _) _) _).
  assert (MA : forall (l : list K) (v : list G) m, (length l <= m)%nat -> (m <= N)%nat -> quick_multiexp K G l (firstn m v) = msm v (tab N (fun i => nth i l 0))).
  { intros l v m H1 H2. unfold quick_multiexp. rewrite msm_firstn by exact H1. apply msm_pad. lia. }
  assert (E1 : AI = cAI K G gs inp rd N) by (unfold AI; rewrite quick1, !MA by lia; reflexivity).
  assert (E2 : AO = cAO K G gs inp rd N) by (unfold AO; rewrite quick1, !MA by lia; reflexivity).
  assert (E3 : AW = cAW K G gs inp rd N) by (unfold AW; rewrite quick1, !MA by lia; reflexivity).
  assert (E4 : SS = cS K G gs rd N) by (unfold SS; rewrite quick1, !MA by lia; reflexivity).
  rewrite E1, E2, E3, E4. clear AI AO AW SS E1 E2 E3 E4.
  set (AI := cAI K G gs inp rd N). set (AO := cAO K G gs inp rd N). set (AW := cAW K G gs inp rd N). set (SS := cS K G gs rd N).
  assert (ET : MG "S" SS :: MG "A_W" AW :: MG "A_O" AO :: MG "A_I" AI :: bp_header K G gs n N c (as_s K inp) = tr_y K G gs c' pubs AI AO AW SS).
  { unfold tr_y. rewrite Gn, GN, Es0. reflexivity. }
  rewrite ET. cbv zeta. set (t := tr_y K G gs c' pubs AI AO AW SS). set (y := ch "y"%string t). set (z := ch "z"%string (MCh "y" :: t)).
  rewrite (vectors_ok K G gs c inp rd n k n_w N) by (assumption || lia || apply NZ). cbn [rbind].
  set (p := pol K G gs c inp rd N y z). unfold bp_respond. rewrite !quick2.
  fold (k2 p) (k3 p) (k5 p) (k6 p) (k7 p) (k8 p) (k9 p) (k10 p).
  fold (com (k2 p) (r_2 K rd)) (com (k3 p) (r_3 K rd)) (com (k5 p) (r_5 K rd)) (com (k6 p) (r_6 K rd)) (com (k7 p) (r_7 K rd)) (com (k8 p) (r_8 K rd)) (com (k9 p) (r_9 K rd)) (com (k10 p) (r_10 K rd)).
  set (T2 := com (k2 p) _). set (T3 := com (k3 p) _). set (T5 := com (k5 p) _). set (T6 := com (k6 p) _). set (T7 := com (k7 p) _). set (T8 := com (k8 p) _). set (T9 := com (k9 p) _). set (T10 := com (k10 p) _).
  cbv zeta. fold (tr_x K G t T2 T3 T5 T6 T7 T8 T9 T10). set (t' := tr_x K G t T2 T3 T5 T6 T7 T8 T9 T10). set (x := ch "x"%string t').
  unfold bp_finish.
  set (lx := vp5_eval _ _ _ x). set (rx := vp5_eval _ _ (fun i => nth i [rp0 K _; _; _; _; _; _] []) x).
  assert (El : lx = tab N (lfun K G gs inp rd y z x)) by (unfold lx, p, pol; cbn [lp2 lp3 lp4 lp5]; rewrite repeat_tab; apply fold_vp5).
  assert (Er : rx = tab N (rfun K G gs c inp rd y z x)) by (unfold rx, p, pol; cbn [rp0 rp1 rp2 rp5]; rewrite repeat_tab; apply fold_vp5).
  cbv zeta. assert (Ei : inner_product K lx rx = Ok (dot lx rx)) by (rewrite El, Er, inner_tab, dot_tab; reflexivity).
  rewrite Ei. cbn [rbind]. set (tx := dot lx rx). set (taux := r_2 K rd * (x * x) + _ + _ + _ + _ + _ + _ + _). set (m := r_aI K rd * (x * x) + _ + _ + _).
  match goal with |- context [MFs "r_x" rx :: ?a] => change (MFs "r_x" rx :: a) with (tr_ipp K G t' tx taux m lx rx) end.
  set (t'' := tr_ipp K G t' tx taux m lx rx). set (ux := gsm (ch "x_1"%string t'') (gu K G gs)).
  set (PP := gadd (gadd (quick_multiexp K G lx (g_vec_N K G gs)) (quick_multiexp K G rx (h_vec_N K G gs))) (gsm tx ux)).
  intro E. match type of E with rbind ?a _ = _ => destruct a as [ip| |] eqn:Eip; cbn [rbind] in E; [|discriminate E|discriminate E] end.
  apply (f_equal (fun r => match r with Ok a => a | _ => pf end)) in E. subst pf.
  constructor; try reflexivity.
  - exact El.
  - exact Er.
  - exact Eip.
Qed.
Hypothesis SP : spans (gh K G gs).
Lemma gh_inj a b : gsm a (gh K G gs) = gsm b (gh K G gs) -> a = b.
Proof. intro E. destruct (SP (gsm b (gh K G gs))) as (k0 & H & U). rewrite <- (U a (eq_sym E)). apply U. reflexivity. Qed.
Lemma gadd_cancel_l (P Q R : G) : gadd P Q = gadd P R -> Q = R.
Proof. intro E. apply (f_equal (gadd (gsm (- (1)) P))) in E. revert E. rewrite !gadd_assoc. replace (gadd (gsm (- (1)) P) P) with (@g0 K G) by (gmod; ring). intro E. etransitivity; [|etransitivity; [exact E|]]; gmod; ring. Qed.
Lemma gadd_cancel_r (P Q R : G) : gadd Q P = gadd R P -> Q = R.
Proof. rewrite (gadd_comm K G Q P), (gadd_comm K G R P). apply gadd_cancel_l. Qed.
Lemma same_proof i1 d1 p1 i2 d2 p2 : shape i1 d1 p1 -> shape i2 d2 p2 -> bp_verify K G ch gs p1 c' pubs = Ok true -> bp_verify K G ch gs p2 c' pubs = Ok true ->
  S (length pubs) = k ->
  A_I K G p1 = A_I K G p2 -> A_O K G p1 = A_O K G p2 -> A_W K G p1 = A_W K G p2 -> S_ K G p1 = S_ K G p2 ->
  T_2 K G p1 = T_2 K G p2 -> T_3 K G p1 = T_3 K G p2 -> T_5 K G p1 = T_5 K G p2 -> T_6 K G p1 = T_6 K G p2 ->
  T_7 K G p1 = T_7 K G p2 -> T_8 K G p1 = T_8 K G p2 -> T_9 K G p1 = T_9 K G p2 -> T_10 K G p1 = T_10 K G p2 ->
  l_x K G p1 = l_x K G p2 -> r_x K G p1 = r_x K G p2 -> p1 = p2.
Proof.
  intros S1 S2 V1 V2 Hk. pose proof (sh_tx _ _ _ S1) as X1. pose proof (sh_tx _ _ _ S2) as X2. pose proof (sh_pp _ _ _ S1) as P1. pose proof (sh_pp _ _ _ S2) as P2.
  pose proof (sh_ipp _ _ _ S1) as I1. pose proof (sh_ipp _ _ _ S2) as I2. clear S1 S2.
  assert (Q : forall pf, bp_verify K G ch gs pf c' pubs = Ok true ->
     msm [gg K G gs; gh K G gs] [t_x K G pf; tau_x K G pf] = T_rhs K G (gg K G gs) (x_of pf) (delta_ K G gs (y_of pf) (z_of pf) + zQc K G gs c' (z_of pf) (1 :: pubs)) (T_2 K G pf) (T_3 K G pf) (T_5 K G pf) (T_6 K G pf) (T_7 K G pf) (T_8 K G pf) (T_9 K G pf) (T_10 K G pf)
     /\ P_lhs K G gs c' (y_of pf) (z_of pf) (x_of pf) (A_I K G pf) (A_O K G pf) (A_W K G pf) (S_ K G pf) =
       gadd (gadd (gsm (mu K G pf) (gh K G gs)) (msm (g_vec_N K G gs) (l_x K G pf))) (msm (map (fun '(v, p) => gsm v p) (combine (tab (gN K G gs) (yi K (y_of pf))) (h_vec_N K G gs))) (r_x K G pf))).
  { intros pf V. rewrite bp_verify_shape in V; [|lia|lia|lia|apply NZ]. fold (y_of pf) (z_of pf) (trx_of pf) in V. fold (x_of pf) in V. fold (tri_of pf) in V.
    match type of V with rbind ?a _ = _ => destruct a as [[|]| |]; cbn [rbind negb] in V; try discriminate V end.
    match type of V with (if negb (geqb ?a ?b) then _ else _) = _ => destruct (geqb a b) eqn:E; cbn [negb] in V; [|discriminate V] end.
    split; [apply geqb_eq; exact E|]. apply geqb_eq. congruence. }
  destruct (Q p1 V1) as [T1 M1]. destruct (Q p2 V2) as [T2 M2]. clear Q V1 V2. revert T1 M1 T2 M2 X1 X2 P1 P2 I1 I2.
  destruct p1 as [ai1 ao1 aw1 s1 t21 t31 t51 t61 t71 t81 t91 t101 mu1 tau1 l1 r1 tx1 ip1 pp1]. destruct p2 as [ai2 ao2 aw2 s2 t22 t32 t52 t62 t72 t82 t92 t102 mu2 tau2 l2 r2 tx2 ip2 pp2].
  unfold pp_of, tri_of, x_of, trx_of, y_of, z_of. cbn [A_I A_O A_W S_ T_2 T_3 T_5 T_6 T_7 T_8 T_9 T_10 mu tau_x l_x r_x t_x IPP IPP_P].
  intros T1 M1 T2 M2 X1 X2 P1 P2 I1 I2 <- <- <- <- <- <- <- <- <- <- <- <- <- <-.
  assert (Ex : tx1 = tx2) by congruence. clear X1 X2. subst tx2.
  assert (Em : mu1 = mu2).
  { apply gh_inj. rewrite M1 in M2. apply gadd_cancel_r in M2. apply gadd_cancel_r in M2. exact M2. }
  assert (Et : tau1 = tau2).
  { apply gh_inj. rewrite <- T1 in T2. cbn [msm] in T2. apply (gadd_cancel_l (gsm tx1 (gg K G gs))). match type of T2 with ?a = ?b => transitivity b; [gmod; ring|transitivity a; [exact (eq_sym T2)|gmod; ring]] end. }
  subst mu2 tau2. assert (Ep : pp1 = pp2) by (rewrite P1, P2; reflexivity). clear P1 P2. subst pp2. assert (Ei : ip1 = ip2) by (rewrite I1 in I2; congruence). subst ip2. reflexivity.
Qed.

Lemma tab_inj m f g : tab m f = tab m g -> forall i, (i < m)%nat -> f i = g i.
Proof. intros E i Hi. apply (f_equal (fun l => nth i l 0)) in E. rewrite !nth_tab in E by exact Hi. exact E. Qed.
Lemma nth_tab_over m f i : (m <= i)%nat -> nth i (tab m f) 0 = 0.
Proof. intro H. apply nth_overflow. rewrite length_tab. exact H. Qed.
Lemma fmul_cancel (a b d : K) : a <> 0 -> a * b = a * d -> b = d.
Proof. intros H E. apply (f_equal (fmul (finv a))) in E. transitivity (finv a * a * b); [rewrite (finv_l K a H); ring|]. transitivity (finv a * a * d); [|rewrite (finv_l K a H); ring].
  etransitivity; [|etransitivity; [exact E|]]; ring. Qed.
Lemma same_list (a b : list K) m : length a = m -> length b = m -> (forall i, (i < m)%nat -> nth i a 0 = nth i b 0) -> a = b.
Proof. intros La Lb E. apply (nth_ext _ _ 0 0); [lia|]. intros i Hi. apply E. lia. Qed.
Lemma com_r a b b' : com a b = com a b' -> b = b'.
Proof. intro E. apply gadd_cancel_l in E. apply gh_inj. exact E. Qed.
Lemma shape_coins i d d' p : coins d -> coins d' -> shape i d p -> shape i d' p -> d = d'.
Proof.
  intros [C1 C2] [C1' C2'] S1 S2. pose proof nm_le as HN.
  assert (Hx : x_of p <> 0) by apply NZ. assert (Hy : y_of p <> 0) by apply NZ.
  assert (EL : r_sL K d = r_sL K d').
  { apply (same_list _ _ nm C1 C1'). intros j Hj. pose proof (sh_l _ _ _ S1) as A. rewrite (sh_l _ _ _ S2) in A. pose proof (tab_inj _ _ _ A j ltac:(lia)) as E. unfold lfun in E.
    apply (fmul_cancel (x_of p ^ 5)); [apply fpow_nz; exact Hx|]. cbn [fpow]. symmetry. 
    match type of E with ?l = ?r => assert (E0 : l - r = 0) by (rewrite E; ring); transitivity (x_of p * (x_of p * (x_of p * (x_of p * (x_of p * 1)))) * nth j (r_sL K d) 0 + (l - r)); [ring|rewrite E0; ring] end. }
  assert (ER : r_sR K d = r_sR K d').
  { apply (same_list _ _ nm C2 C2'). intros j Hj. pose proof (sh_r _ _ _ S1) as A. rewrite (sh_r _ _ _ S2) in A. pose proof (tab_inj _ _ _ A j ltac:(lia)) as E. unfold rfun in E.
    apply (fmul_cancel (x_of p ^ 5 * y_of p ^ j)); [apply f_mul_nz; apply fpow_nz; assumption|]. set (yj := y_of p ^ j) in *. cbn [fpow]. symmetry.
    match type of E with ?l = ?r => assert (E0 : l - r = 0) by (rewrite E; ring); transitivity (x_of p * (x_of p * (x_of p * (x_of p * (x_of p * 1)))) * yj * nth j (r_sR K d) 0 + (l - r)); [ring|rewrite E0; ring] end. }
  pose proof (sh_ai _ _ _ S1) as A1. rewrite (sh_ai _ _ _ S2) in A1. pose proof (sh_ao _ _ _ S1) as A2. rewrite (sh_ao _ _ _ S2) in A2.
  pose proof (sh_aw _ _ _ S1) as A3. rewrite (sh_aw _ _ _ S2) in A3. pose proof (sh_s _ _ _ S1) as A4. rewrite (sh_s _ _ _ S2) in A4.
  pose proof (sh_t2 _ _ _ S1) as B2. rewrite (sh_t2 _ _ _ S2) in B2. pose proof (sh_t3 _ _ _ S1) as B3. rewrite (sh_t3 _ _ _ S2) in B3.
  pose proof (sh_t5 _ _ _ S1) as B5. rewrite (sh_t5 _ _ _ S2) in B5. pose proof (sh_t6 _ _ _ S1) as B6. rewrite (sh_t6 _ _ _ S2) in B6.
  pose proof (sh_t7 _ _ _ S1) as B7. rewrite (sh_t7 _ _ _ S2) in B7. pose proof (sh_t8 _ _ _ S1) as B8. rewrite (sh_t8 _ _ _ S2) in B8.
  pose proof (sh_t9 _ _ _ S1) as B9. rewrite (sh_t9 _ _ _ S2) in B9. pose proof (sh_t10 _ _ _ S1) as B10. rewrite (sh_t10 _ _ _ S2) in B10.
  clear S1 S2. revert A1 A2 A3 A4 B2 B3 B5 B6 B7 B8 B9 B10 EL ER. clear C1 C2 C1' C2'.
  destruct d as [a1 a2 a3 a4 a5 a6 a7 a8 a9 a10 a11 a12 a13 a14]. destruct d' as [b1 b2 b3 b4 b5 b6 b7 b8 b9 b10 b11 b12 b13 b14].
  unfold cAI, cAO, cAW, cS, pol. cbn [r_sL r_sR r_aI r_aO r_s r_gamma r_2 r_3 r_5 r_6 r_7 r_8 r_9 r_10].
  intros A1 A2 A3 A4 B2 B3 B5 B6 B7 B8 B9 B10 <- <-.
  apply com_r in B2, B3, B5, B6, B7, B8, B9, B10. apply gadd_cancel_r, gadd_cancel_r, gh_inj in A1. apply gadd_cancel_r, gh_inj in A2. apply gadd_cancel_r, gh_inj in A3. apply gadd_cancel_r, gadd_cancel_r, gh_inj in A4.
  congruence.
Qed.
Lemma com_reach (a : K) (P : G) : exists b, com a b = P.
Proof. destruct (SP (gadd P (gsm (- a) (gg K G gs)))) as (b & E & _). exists b. unfold com. rewrite <- E. gmod; ring. Qed.
Lemma h_reach (Q P : G) : exists b, gadd (gsm b (gh K G gs)) Q = P.
Proof. destruct (SP (gadd P (gsm (- (1)) Q))) as (b & E & _). exists b. rewrite <- E. gmod; ring. Qed.
Theorem bp_zk_core i1 i2 d1 : good i1 -> good i2 -> coins d1 ->
  exists pf, bp_prove K G ch gs c i1 d1 = Ok pf /\ exists! d2, coins d2 /\ bp_prove K G ch gs c i2 d2 = Ok pf.
Proof.
  intros G1 G2 C1. pose proof nm_le as HN. destruct (prove_shape i1 d1 G1 C1) as (p & E1 & V1 & S1). exists p. split; [exact E1|].
  set (y := y_of p). set (z := z_of p). set (x := x_of p). assert (Hx : x <> 0) by apply NZ. assert (Hy : y <> 0) by apply NZ.
  set (sL2 := tab nm (fun i => nth i (r_sL K d1) 0 + finv (x * x * x) * ((nth i (aL K i1) 0 - nth i (aL K i2) 0) + x * ((nth i (aO K i1) 0 - nth i (aO K i2) 0) + x * (nth i (as_w K i1) 0 - nth i (as_w K i2) 0))))).
  set (sR2 := tab nm (fun i => nth i (r_sR K d1) 0 + finv (x * x * x) * (nth i (aR K i1) 0 - nth i (aR K i2) 0))).
  set (d0 := mkRand K sL2 sR2 0 0 0 0 0 0 0 0 0 0 0 0). set (pl := pol K G gs c i2 d0 N y z).
  destruct (h_reach (gadd (msm (g_vec_N K G gs) (tab N (fun i => nth i (aL K i2) 0))) (msm (h_vec_N K G gs) (tab N (fun i => nth i (aR K i2) 0)))) (A_I K G p)) as [a1 H1].
  destruct (h_reach (msm (g_vec_N K G gs) (tab N (fun i => nth i (aO K i2) 0))) (A_O K G p)) as [a2 H2].
  destruct (h_reach (msm (g_vec_N K G gs) (tab N (fun i => nth i (as_w K i2) 0))) (A_W K G p)) as [a3 H3].
  destruct (h_reach (gadd (msm (g_vec_N K G gs) (tab N (fun i => nth i sL2 0))) (msm (h_vec_N K G gs) (tab N (fun i => nth i sR2 0)))) (S_ K G p)) as [a4 H4].
  destruct (com_reach (k2 pl) (T_2 K G p)) as [b2 J2]. destruct (com_reach (k3 pl) (T_3 K G p)) as [b3 J3]. destruct (com_reach (k5 pl) (T_5 K G p)) as [b5 J5]. destruct (com_reach (k6 pl) (T_6 K G p)) as [b6 J6].
  destruct (com_reach (k7 pl) (T_7 K G p)) as [b7 J7]. destruct (com_reach (k8 pl) (T_8 K G p)) as [b8 J8]. destruct (com_reach (k9 pl) (T_9 K G p)) as [b9 J9]. destruct (com_reach (k10 pl) (T_10 K G p)) as [b10 J10].
  set (d2 := mkRand K sL2 sR2 a1 a2 a4 a3 b2 b3 b5 b6 b7 b8 b9 b10).
  assert (C2 : coins d2) by (split; apply length_tab).
  destruct (prove_shape i2 d2 G2 C2) as (q & E2 & V2 & S2).
  assert (Pl : forall u v, pol K G gs c i2 d2 N u v = pol K G gs c i2 d0 N u v) by reflexivity.
  assert (A1 : A_I K G q = A_I K G p) by (rewrite (sh_ai _ _ _ S2), <- H1, gadd_assoc; reflexivity).
  assert (A2 : A_O K G q = A_O K G p) by (rewrite (sh_ao _ _ _ S2), <- H2; reflexivity).
  assert (A3 : A_W K G q = A_W K G p) by (rewrite (sh_aw _ _ _ S2), <- H3; reflexivity).
  assert (A4 : S_ K G q = S_ K G p) by (rewrite (sh_s _ _ _ S2), <- H4, gadd_assoc; reflexivity).
  assert (Ey : y_of q = y) by (unfold y, y_of; rewrite A1, A2, A3, A4; reflexivity).
  assert (Ez : z_of q = z) by (unfold z, z_of; rewrite A1, A2, A3, A4; reflexivity).
  pose proof (sh_t2 _ _ _ S2) as B2. pose proof (sh_t3 _ _ _ S2) as B3. pose proof (sh_t5 _ _ _ S2) as B5. pose proof (sh_t6 _ _ _ S2) as B6.
  pose proof (sh_t7 _ _ _ S2) as B7. pose proof (sh_t8 _ _ _ S2) as B8. pose proof (sh_t9 _ _ _ S2) as B9. pose proof (sh_t10 _ _ _ S2) as B10.
  rewrite Ey, Ez, Pl in B2, B3, B5, B6, B7, B8, B9, B10. fold pl in B2, B3, B5, B6, B7, B8, B9, B10. cbn [d2 r_2 r_3 r_5 r_6 r_7 r_8 r_9 r_10] in B2, B3, B5, B6, B7, B8, B9, B10.
  rewrite J2 in B2. rewrite J3 in B3. rewrite J5 in B5. rewrite J6 in B6. rewrite J7 in B7. rewrite J8 in B8. rewrite J9 in B9. rewrite J10 in B10.
  assert (Ex : x_of q = x) by (unfold x, x_of, trx_of; rewrite A1, A2, A3, A4, B2, B3, B5, B6, B7, B8, B9, B10; reflexivity).
  assert (Xi : finv (x * x * x) * (x * x * x) = 1) by (apply finv_l; repeat apply f_mul_nz; exact Hx).
  assert (Z0 : forall (l : list K) m i, length l = m -> (m <= i)%nat -> nth i l 0 = 0) by (intros; apply nth_overflow; lia).
  assert (El : l_x K G q = l_x K G p).
  { rewrite (sh_l _ _ _ S2), (sh_l _ _ _ S1), Ey, Ez, Ex. fold y z x. apply tab_ext. intros i Hi. unfold lfun. cbn [d2 r_sL]. unfold sL2.
    destruct (Nat.lt_ge_cases i nm) as [Hlt|Hge].
    - rewrite nth_tab by exact Hlt. set (xi := finv (x * x * x)) in *.
      match goal with |- context [xi * ?e] => set (D := e) end.
      match goal with |- ?l = _ => transitivity (l - x * x * D * (xi * (x * x * x)) + x * x * D); [rewrite Xi; ring|unfold D; ring] end.
    - rewrite nth_tab_over by exact Hge. destruct C1 as [C1 _]. 
      rewrite (Z0 (r_sL K d1) nm i C1 Hge), (Z0 (aL K i1) n i (LL _ G1)), (Z0 (aL K i2) n i (LL _ G2)), (Z0 (aO K i1) n i (LO _ G1)), (Z0 (aO K i2) n i (LO _ G2)), (Z0 (as_w K i1) n_w i (Lw _ G1)), (Z0 (as_w K i2) n_w i (Lw _ G2)) by lia. reflexivity. }
  assert (Er : r_x K G q = r_x K G p).
  { rewrite (sh_r _ _ _ S2), (sh_r _ _ _ S1), Ey, Ez, Ex. fold y z x. apply tab_ext. intros i Hi. unfold rfun. cbn [d2 r_sR]. unfold sR2.
    destruct (Nat.lt_ge_cases i nm) as [Hlt|Hge].
    - rewrite nth_tab by exact Hlt. set (xi := finv (x * x * x)) in *. set (yj := y ^ i).
      match goal with |- context [xi * ?e] => set (D := e) end.
      match goal with |- ?l = _ => transitivity (l - x * x * yj * D * (xi * (x * x * x)) + x * x * yj * D); [rewrite Xi; ring|unfold D; ring] end.
    - rewrite nth_tab_over by exact Hge. destruct C1 as [_ C1]. rewrite (Z0 (r_sR K d1) nm i C1 Hge), (Z0 (aR K i1) n i (LR _ G1)), (Z0 (aR K i2) n i (LR _ G2)) by lia. reflexivity. }
  assert (Epq : q = p).
  { apply (same_proof i2 d2 q i1 d1 p S2 S1 V2 V1); try assumption. rewrite <- (Lk _ G1), (Es _ G1). reflexivity. }
  subst q. exists d2. split; [split; assumption|]. intros d' [C' E']. destruct (prove_shape i2 d' G2 C') as (p' & Ep' & _ & S').
  assert (p' = p) by congruence. subst p'. exact (shape_coins i2 d2 d' p C2 C' S2 S').
Qed.
End Z.
Section Top.
Variable K : Fld.
Variable G : Grp K.
Variable ch : oracle K G.
Add Field Kf2 : (f_laws K).
Lemma run_proof (circuit : M K unit) s c mk rd : circuit (cs_new Prove) = Ok (tt, s) -> circuit_matrices K s = Ok c -> wf s ->
  let f := inps s ++ auxs s in let m := Nat.max (length (cons s)) (length (auxs s)) in
  let gs := let '(gv, hv, g, h, u) := mk (next_pow2 m) in mkGens K G gv hv g h u (length (cons s)) (next_pow2 m) (length (inps s)) (length (auxs s)) in
  create_random_proof K G ch circuit mk rd =
  rbind (bp_prove K G ch gs c (mkAsg K (map (fun row => dot row f) (CL K c)) (map (fun row => dot row f) (CR K c)) (map (fun row => dot row f) (CO K c)) (inps s) (auxs s)) rd) (fun pf => Ok (gs, matrix_to_map K c, pf)).
Proof.
  intros E Ec W f m gs. destruct (matrices_ok K s W) as (c0 & Ec0 & D & _). rewrite Ec in Ec0. injection Ec0 as <-.
  unfold create_random_proof. rewrite E. cbn [rbind]. rewrite Ec. cbn [rbind].
  assert (Lf : length (inps s ++ auxs s) = (length (inps s) + length (auxs s))%nat) by apply app_length.
  destruct (D (CL K c)) as [L1 F1]; [left; reflexivity|]. destruct (D (CR K c)) as [L2 F2]; [right; left; reflexivity|]. destruct (D (CO K c)) as [L3 F3]; [right; right; left; reflexivity|].
  rewrite !vmt_rows by (rewrite Lf; assumption). cbn [rbind]. rewrite map_length, L1. fold m. subst gs. destruct (mk (next_pow2 m)) as [[[[gv hv] g] h] u]. reflexivity.
Qed.
Lemma run_good s c pubs : wf s -> circuit_matrices K s = Ok c -> inps s = 1 :: pubs -> mat_sat (CL K c) (CR K c) (CO K c) (inps s ++ auxs s) ->
  let f := inps s ++ auxs s in
  good K c (length (cons s)) (length (inps s)) (length (auxs s)) pubs (mkAsg K (map (fun row => dot row f) (CL K c)) (map (fun row => dot row f) (CR K c)) (map (fun row => dot row f) (CO K c)) (inps s) (auxs s)).
Proof.
  intros W Ec Er MS f. destruct (matrices_ok K s W) as (c0 & Ec0 & D & _). rewrite Ec in Ec0. injection Ec0 as <-.
  destruct (D (CL K c)) as [L1 F1]; [left; reflexivity|]. destruct (D (CR K c)) as [L2 F2]; [right; left; reflexivity|]. destruct (D (CO K c)) as [L3 F3]; [right; right; left; reflexivity|].
  assert (NR : forall (mt : list (list K)) i, (i < length (cons s))%nat -> length mt = length (cons s) -> nth i (map (fun row => dot row f) mt) 0 = row_val mt f i).
  { intros mt i Hi Lm. unfold row_val. rewrite (nth_indep _ 0 (dot [] f)) by (rewrite map_length; lia). rewrite (map_nth (fun row => dot row f)). reflexivity. }
  constructor; cbn [aL aR aO as_s as_w]; rewrite ?map_length; try assumption; try reflexivity.
  - intros i Hi. apply NR; assumption.
  - intros i Hi. apply NR; assumption.
  - intros i Hi. apply NR; assumption.
  - intros i Hi. rewrite !NR by assumption. apply MS. lia.
Qed.
Theorem bp_zk (circuit1 circuit2 : M K unit) s1 s2 c mk rd : (forall l t, ch l t <> 0) ->
  circuit1 (cs_new Prove) = Ok (tt, s1) -> circuit2 (cs_new Prove) = Ok (tt, s2) -> wf s1 -> wf s2 ->
  cons s1 = cons s2 -> inps s1 = inps s2 -> length (auxs s1) = length (auxs s2) -> cons s1 <> [] -> circuit_matrices K s1 = Ok c ->
  mat_sat (CL K c) (CR K c) (CO K c) (inps s1 ++ auxs s1) -> mat_sat (CL K c) (CR K c) (CO K c) (inps s2 ++ auxs s2) ->
  let m := Nat.max (length (cons s1)) (length (auxs s1)) in
  (forall N, length (fst (fst (fst (fst (mk N))))) = N /\ length (snd (fst (fst (fst (mk N))))) = N) ->
  (forall N, spans (snd (fst (mk N)))) ->
  length (r_sL K rd) = m -> length (r_sR K rd) = m ->
  exists out, create_random_proof K G ch circuit1 mk rd = Ok out /\
    exists! rd', (length (r_sL K rd') = m /\ length (r_sR K rd') = m) /\ create_random_proof K G ch circuit2 mk rd' = Ok out.
Proof.
  intros NZ E1 E2 W1 W2 Ecs Ein Eax Hc Ec M1 M2 m Hmk Hsp R1 R2.
  assert (Ec2 : circuit_matrices K s2 = Ok c) by (unfold circuit_matrices in *; rewrite <- Ecs, <- Ein, <- Eax; exact Ec).
  destruct (proj1 W1) as [pubs Ep].
  pose proof (run_good s1 c pubs W1 Ec Ep M1) as G1. pose proof (run_good s2 c pubs W2 Ec2 (eq_trans (eq_sym Ein) Ep) M2) as G2.
  rewrite <- Ecs, <- Eax, <- Ein in G2. cbv zeta in G1, G2.
  pose proof (run_proof circuit1 s1 c mk) as P1. pose proof (run_proof circuit2 s2 c mk) as P2. cbv zeta in P1, P2. rewrite <- Ecs, <- Eax, <- Ein in P2. fold m in P1, P2.
  destruct (matrices_ok K s1 W1) as (c0 & Ec0 & D & _). rewrite Ec in Ec0. injection Ec0 as <-.
  specialize (Hmk (next_pow2 m)). specialize (Hsp (next_pow2 m)). destruct (mk (next_pow2 m)) as [[[[gv hv] g] h] u]. cbn [fst snd] in Hmk, Hsp. destruct Hmk as [Lg Lh].
  set (gs := mkGens K G gv hv g h u (length (cons s1)) (next_pow2 m) (length (inps s1)) (length (auxs s1))) in *.
  assert (Hn : (0 < length (cons s1))%nat) by (destruct (cons s1); [congruence|cbn; lia]).
  destruct (bp_zk_core K G ch NZ gs c (length (cons s1)) (length (inps s1)) (length (auxs s1)) (next_pow2 m) pubs eq_refl Hn eq_refl eq_refl eq_refl eq_refl Lg Lh
    (D (CL K c) (or_introl eq_refl)) (D (CR K c) (or_intror (or_introl eq_refl))) (D (CO K c) (or_intror (or_intror (or_introl eq_refl)))) Hsp _ _ rd G1 G2 (conj R1 R2)) as (pf & F1 & d2 & [C2 F2] & U).
  exists (gs, matrix_to_map K c, pf). rewrite (P1 rd E1 Ec W1), F1. split; [reflexivity|].
  exists d2. split; [split; [exact C2|]; rewrite (P2 d2 E2 Ec2 W2), F2; reflexivity|].
  intros d' [C' F']. rewrite (P2 d' E2 Ec2 W2) in F'. apply U. split; [exact C'|].
  match type of F' with rbind ?a _ = _ => destruct a as [p'| |]; cbn [rbind] in F'; [|discriminate F'|discriminate F'] end.
  f_equal. apply (f_equal (fun r => match r with Ok (_, q) => q | _ => pf end)) in F'. exact F'.
Qed.
Theorem bp_zk_sat (circuit1 circuit2 : M K unit) s1 s2 mk rd : (forall l t, ch l t <> 0) ->
  circuit1 (cs_new Prove) = Ok (tt, s1) -> circuit2 (cs_new Prove) = Ok (tt, s2) -> wf s1 -> wf s2 ->
  cons s1 = cons s2 -> inps s1 = inps s2 -> length (auxs s1) = length (auxs s2) -> cons s1 <> [] -> self_sat s1 -> self_sat s2 -> no_dups s1 ->
  let m := Nat.max (length (cons s1)) (length (auxs s1)) in
  (forall N, length (fst (fst (fst (fst (mk N))))) = N /\ length (snd (fst (fst (fst (mk N))))) = N) ->
  (forall N, spans (snd (fst (mk N)))) ->
  length (r_sL K rd) = m -> length (r_sR K rd) = m ->
  exists out, create_random_proof K G ch circuit1 mk rd = Ok out /\
    exists! rd', (length (r_sL K rd') = m /\ length (r_sR K rd') = m) /\ create_random_proof K G ch circuit2 mk rd' = Ok out.
Proof.
  intros NZ E1 E2 W1 W2 Ecs Ein Eax Hc S1 S2 ND m Hmk Hsp R1 R2. destruct (matrices_ok K s1 W1) as (c & Ec & _).
  assert (Ec2 : circuit_matrices K s2 = Ok c) by (unfold circuit_matrices in *; rewrite <- Ecs, <- Ein, <- Eax; exact Ec).
  apply (bp_zk circuit1 circuit2 s1 s2 c); try assumption.
  - apply no_dups_mat_sat; assumption.
  - apply no_dups_mat_sat; try assumption. unfold no_dups. rewrite <- Ecs. exact ND.
Qed.
End Top.
