(** Hyrax as a whole: every proof made for one witness is made for any other with the same outputs, by exactly one choice of the random values. *)
From Verif Require Import Field Poly Module ModTac ProofsPC ModelTranscript ModelMle SpecMle ProofsMle ModelLibra SpecLibra ProofsLibra ProofsLibra2 ProofsLibra3 ProofsLibra4 ModelSigma ProofsSigma ProofsSigma3 ProofsSigma4 ModelSpartan ProofsSpartan3 ModelSnark ModelSpark ProofsSpark ModelHyrax SpecHyrax AttackHyrax ProofsHyrax3 ProofsHyrax4 ProofsHyrax6 ProofsHyrax7 ProofsHyrax8 ModelLibraZk SpecSigmaZk SpecLibraCoins ProofsLibraCoins2 ProofsLibraCoins3 SpecHyraxZk ProofsHyraxZk4.
From Coq Require Import String List Lia.
Import ListNotations.
Local Open Scope string_scope.
Local Open Scope list_scope.
Local Open Scope fld_scope.
Section S.
Variable K : Fld.
Variable G : Grp K.
Variable ch : oracle K G.
Add Field Kf : (f_laws K).
Notation tr := (transcript K G).
Notation com p x b := (poly_commit_vec K G (mc_gens K G p) x (mc_h K G p) b).
Notation V := (V K).
Notation padded := (padded K).
Notation lgn m := (log2c (next_pow2 m)).
Section Main.
Variables (num : nat) (r1 : nat -> G) (g : G) (r3 r4 : nat -> G) (ni na : nat) (raw : list raw_layer) (s k : nat) (inputs : list (list K)) (ch_hash p_hash : K).
Notation SS := (2 ^ s)%nat.
Notation n := (2 ^ k)%nat.
Notation p := (hparams_new K G num r1 g r3 r4).
Notation c := (built ni na raw).
Hypothesis two : (1 + 1 : K) <> 0.
Hypothesis three : (1 + 1 + 1 : K) <> 0.
Hypothesis HS : pow2_above (Nat.max ni na) SS.
Hypothesis HL : legal (2 * SS) raw.
Hypothesis Hraw : raw <> [].
Hypothesis Hev : even_layers SS raw.
Hypothesis S1 : spans (mc_h K G (hp_1 K G p)).
Hypothesis S3 : spans (mc_h K G (hp_3 K G p)).
Hypothesis S4 : spans (mc_h K G (hp_4 K G p)).
Notation ins := (firstn n inputs).
Notation xs w := (combine ins (firstn n w)).
Notation full := (full K raw s).
Notation outs := (outs K raw s).
Notation prove w x := (hx_prover K G ch p w inputs c ch_hash p_hash n (hc_w x) (hc_z x) (hc_0 x) (hc_1 x)).
Lemma widths_even d l : nth_error (c_layers c) d = Some l -> l_count l = (2 ^ S s)%nat.
Proof.
  intro E. destruct d as [|d]; [exact (count0 ni na raw s HS l E)|]. cbn [c_layers built nth_error] in E. rewrite nth_error_map in E. destruct (nth_error raw d) as [l'|] eqn:El; [|discriminate]. injection E as <-. cbn [mid l_count].
  unfold even_layers in Hev. rewrite Forall_forall in Hev. exact (Hev l' (nth_error_In _ _ El)).
Qed.
Lemma counts_even : forall d hi, nth_error (c_layers c) (S d) = Some hi -> l_count hi = length (l_gates hi).
Proof. intros d' hi' E. cbn [c_layers built nth_error] in E. rewrite nth_error_map in E. destruct (nth_error raw d'); [|discriminate]. injection E as <-. cbn [mid l_count l_gates]. rewrite mk_length. reflexivity. Qed.
Lemma last_even : length (last raw []) = (2 ^ S s)%nat.
Proof. unfold even_layers in Hev. rewrite Forall_forall in Hev. apply Hev. destruct raw as [|a l]; [congruence|]. clear. revert a. induction l as [|b l IH]; intro a; [left; reflexivity|right; apply IH]. Qed.
Lemma lgn_pow m : lgn (2 ^ m) = m.
Proof. rewrite (proj2 (np_iff (2 ^ m)) (ex_intro _ m eq_refl)). unfold log2c. apply Nat.log2_up_pow2. lia. Qed.
Section W.
Variable w : list (list K).
Hypothesis HP : provable SS raw num n inputs w.
Hypothesis Hl : paired n inputs w.
Lemma sizes : (1 <= k)%nat /\ (k + s - (k + s) / 2 <= num - num / 2)%nat /\ length (firstn n w) = n /\ length ins = n /\ Forall (fun v => next_pow2 (length v) = SS) (firstn n w) /\ Forall (fun v => next_pow2 (length v) = SS) ins.
Proof.
  destruct HP as (Li & Lw & _ & Wi & Ww & k' & s' & E1 & E2 & E3 & E4). apply Nat.pow_inj_r in E1; [|lia]. apply Nat.pow_inj_r in E3; [|lia]. subst k' s'.
  assert (Ww' : Forall (fun v => next_pow2 (length v) = SS) (firstn n w)) by (revert Ww; apply Forall_impl; intros a Q; symmetry; exact (pow2_above_unique _ _ _ Q (next_pow2_above _))).
  assert (L1 : length (firstn n w) = n) by (rewrite firstn_length; lia). assert (L2 : length ins = n) by (rewrite firstn_length; lia). do 5 (split; [assumption|]).
  apply Forall_forall. intros x I. apply (In_nth _ _ []) in I. destruct I as (j & Hj & <-). rewrite Forall_forall in Ww'. rewrite (Hl (nth j ins []) (nth j (firstn n w) [])).
  - apply Ww', nth_In. lia.
  - rewrite <- combine_nth by congruence. apply nth_In. rewrite combine_length. lia.
Qed.
Lemma pad_length : length (padded (firstn n w)) = (2 ^ (k + s))%nat.
Proof. destruct sizes as (_ & _ & L1 & _ & Ww & _). rewrite (padded_length K SS) by exact Ww. rewrite L1, Nat.pow_add_r. reflexivity. Qed.
Lemma smalls : forallb (small K s) (xs w) = true.
Proof.
  destruct sizes as (_ & _ & _ & _ & Ww & Wi). rewrite Forall_forall in Ww, Wi. apply forallb_forall. intros [i v] I. unfold small. cbn [fst snd]. apply Bool.andb_true_iff. split; apply Nat.leb_le.
  - rewrite <- (Wi i (in_combine_l _ _ _ _ I)). apply np_le.
  - rewrite <- (Ww v (in_combine_r _ _ _ _ I)). apply np_le.
Qed.
Lemma good_full : good_run K c k (map full (xs w)).
Proof. destruct sizes as (_ & _ & L1 & L2 & _). split; [apply runs_full; [assumption..|exact smalls]|]. rewrite map_length, combine_length. lia. Qed.
Lemma key rs q0 qt : length rs = k -> length qt = s -> (length (padded ins) <= 2 ^ length (rs ++ qt))%nat /\ V (lay K (map full (xs w)) 0) rs (q0 :: qt) = (1 - q0) * mle (padded (firstn n w)) (rs ++ qt) + q0 * mle (padded ins) (rs ++ qt).
Proof.
  intros Lr Lt. destruct sizes as (_ & _ & L1 & L2 & Ww & Wi).
  assert (Lay : lay K (map full (xs w)) 0 = map (fun '(i, w) => intended_layer SS i w) (xs w)). { unfold lay. rewrite map_map. apply map_ext_in. intros [i v] I. unfold ProofsHyrax8.full. cbn [fst snd nth]. apply layer_same, Hl, I. }
  split; [rewrite (padded_length K SS) by exact Wi; rewrite L2, app_length, Lr, Lt, Nat.pow_add_r; lia|].
  rewrite Lay, (V_split K s) by (try assumption; try (rewrite L1, ?L2, ?Lr; lia); try (revert Ww; apply Forall_impl; intros a Q; rewrite <- Q; apply np_le); revert Wi; apply Forall_impl; intros a Q; rewrite <- Q; apply np_le).
  rewrite !(padded_mle K s) by (try assumption; rewrite ?L1, ?L2, Lr; lia). reflexivity.
Qed.
Lemma outs_intended : outs (xs w) = outputs_of SS raw n inputs w.
Proof. unfold ProofsHyrax8.outs, outputs_of. apply map_ext_in. intros [i v] I. cbn [fst snd]. rewrite layer_same; [reflexivity|apply Hl, I]. Qed.
Lemma unroll x : prove w x = rbind (packing_poly_commit K G (mc_gens K G (pc_gen_n K G (hp_pc K G p))) (padded (firstn n w)) (mc_h K G (pc_gen_n K G (hp_pc K G p))) (hc_w x) true) (fun '(cw, wb) =>
  rbind (eval_outputs K G ch (outs (xs w)) (MGs "comm_witness" cw :: hx_init K G ch_hash p_hash ins (outs (xs w)))) (fun '(u, qa, q, t) =>
  rbind (hx_layers K G ch p c (map full (xs w)) n (length raw) (hc_z x) u (com (hp_1 K G p) [u] 0) 0 1 0 qa q q 0 0 0 0 (MG "comm_claim_a0" (com (hp_1 K G p) [u] 0) :: t)) (fun '(pfs, (qa, ql, qr, x', y, rx, ry), t) =>
  rbind (hx_open K G ch p (padded (firstn n w)) wb qa ql x' rx (hc_0 x) t) (fun '(pf0, y0, eq0, t) =>
  rmap (fun '(pf1, y1, eq1, t) => (mkHx K G cw pfs pf0 y0 eq0 pf1 y1 eq1, outs (xs w))) (hx_open K G ch p (padded (firstn n w)) wb qa qr y ry (hc_1 x) t))))).
Proof.
  destruct HP as (Li & Lw & _). unfold hx_prover. change (c_depth c) with (S (length raw)). cbn [Nat.eqb]. destruct (Nat.ltb_spec (length inputs) n); [lia|]. destruct (Nat.ltb_spec (length w) n); [lia|]. cbn [orb].
  rewrite (mapr_if _ full (small K s)) by (intros [i v]; apply eval_full; assumption). rewrite smalls. cbn [rbind]. rewrite (proj1 (outs_lay K raw s (xs w))). rewrite (proj2 (np_iff n) (ex_intro _ k eq_refl)), Nat.eqb_refl. cbn [negb]. replace (S (length raw) - 1)%nat with (length raw) by lia. reflexivity.
Qed.
End W.
Theorem remake w0 w x0 pf os : provable SS raw num n inputs w0 -> provable SS raw num n inputs w -> paired n inputs w0 -> paired n inputs w -> outputs_of SS raw n inputs w0 = outputs_of SS raw n inputs w ->
  prove w0 x0 = Ok (pf, os) -> exists x, prove w x = Ok (pf, os) /\ forall x' o, prove w x' = Ok (pf, o) -> hc_same (length raw) k s x' x.
Proof.
  intros P0 P Hl0 Hl Eo E. rewrite <- !outs_intended in Eo by assumption. destruct (sizes w P Hl) as (Hk & Hnum & Lw & Li & Ww & Wi).
  rewrite (unroll w0 P0 Hl0) in E.
  match type of E with rbind ?X _ = _ => destruct X as [[cw wb0]| |] eqn:Epk0; cbn [rbind] in E; try discriminate end. rewrite Eo in E. set (t0 := MGs "comm_witness" cw :: _) in *.
  assert (Lxs : length (xs w) = n) by (rewrite combine_length, Lw, Li; lia).
  destruct (outputs_ok K G ch raw s Hraw (xs w) k t0 Lxs) as (qa & q & t1 & EO & Lqa & Lq). rewrite EO in E. cbn [rbind] in E. set (u := V (outs (xs w)) qa q) in *. rewrite last_even, lgn_pow in Lq.
  match type of E with rbind ?X _ = _ => destruct X as [[[pfs st0] t2]| |] eqn:PL0; cbn [rbind] in E; try discriminate end.
  destruct (length raw) as [|d] eqn:Ed; [destruct raw; [congruence|discriminate]|].
  assert (Hhi : exists hi, nth_error (c_layers c) (S d) = Some hi). { cbn [c_layers built nth_error]. rewrite nth_error_map. destruct (nth_error raw d) as [l|] eqn:El; [eexists; reflexivity|apply nth_error_None in El; lia]. }
  destruct Hhi as (hi & Hhi).
  assert (Cl0 : u = V (lay K (map full (xs w0)) (S d)) qa q * 1 + V (lay K (map full (xs w0)) (S d)) qa q * 0) by (rewrite <- Ed, (proj2 (outs_lay K raw s (xs w0))), Eo; unfold u; ring).
  assert (Cl : u = V (lay K (map full (xs w)) (S d)) qa q * 1 + V (lay K (map full (xs w)) (S d)) qa q * 0) by (rewrite <- Ed, (proj2 (outs_lay K raw s (xs w))); unfold u; ring).
  destruct (layers_exact K G ch p c k (S s) two three Hk S1 S3 S4 counts_even widths_even (map full (xs w0)) (map full (xs w)) (good_full w0 P0 Hl0) (good_full w P Hl) d hi u 0 u 0 (com (hp_1 K G p) [u] 0) 1 0 qa q q 0 0 0 0 0 0 0 0 _ (hc_z x0) pfs st0 t2 Hhi Lqa Lq Lq Cl0 Cl eq_refl eq_refl PL0)
    as (zs & qa' & ql' & qr' & rx0 & ry0 & rx & ry & -> & L1 & L2 & L3 & PL & Fx & Fy & UL).
  destruct ql' as [|q0 qt]; [discriminate|]. destruct qr' as [|q1 qt1]; [discriminate|]. injection L2 as L2. injection L3 as L3.
  assert (Lp0 : length (qa' ++ qt) = (k + s)%nat) by (rewrite app_length; lia). assert (Lp1 : length (qa' ++ qt1) = (k + s)%nat) by (rewrite app_length; lia).
  match type of E with rbind ?X _ = _ => destruct X as [[[[pf0 y0] eq0] t3]| |] eqn:O0; cbn [rbind] in E; try discriminate end.
  match type of E with rmap _ ?X = _ => destruct X as [[[[pf1 y1] eq1] t4]| |] eqn:O1; cbn [rmap] in E; try discriminate end. injection E as <- <-.
  assert (E1 : hp_1 K G p = pc_gen_1 K G (hp_pc K G p)) by reflexivity. assert (Eh : mc_h K G (pc_gen_n K G (hp_pc K G p)) = mc_h K G (pc_gen_1 K G (hp_pc K G p))) by reflexivity.
  assert (Eg : length (mc_gens K G (pc_gen_n K G (hp_pc K G p))) = pc_n K G (hp_pc K G p)) by (cbn [hp_pc pc_gen_n mc_gens hparams_new mc_new pc_n]; rewrite map_length, seq_length; reflexivity).
  pose proof (open_complete K G ch p E1 Eh Eg _ _ _ _ ins _ _ _ _ _ _ _ _ _ _ Epk0 O0 ltac:(intros a b Q; injection Q as <- <-; apply key; assumption)) as V0.
  pose proof (open_complete K G ch p E1 Eh Eg _ _ _ _ ins _ _ _ _ _ _ _ _ _ _ Epk0 O1 ltac:(intros a b Q; injection Q as <- <-; apply key; assumption)) as V1.
  rewrite <- Fx in V0. rewrite <- Fy in V1.
  change (hx_open K G ch p (padded (firstn n w0)) wb0 qa' (q0 :: qt)) with (z_open K G ch p (padded (firstn n w0)) wb0 (q0 :: qa' ++ qt)) in O0.
  change (hx_open K G ch p (padded (firstn n w0)) wb0 qa' (q1 :: qt1)) with (z_open K G ch p (padded (firstn n w0)) wb0 (q1 :: qa' ++ qt1)) in O1.
  change (hx_opened K G ch p ins cw qa' (q0 :: qt)) with (z_opened K G ch p (padded ins) cw (q0 :: qa' ++ qt)) in V0. change (hx_opened K G ch p ins cw qa' (q1 :: qt1)) with (z_opened K G ch p (padded ins) cw (q1 :: qa' ++ qt1)) in V1.
  pose proof (open_shape K G ch p _ _ _ _ _ _ _ _ _ _ _ _ (k + s) Eg Lp0 O0) as Sh0. pose proof (open_shape K G ch p _ _ _ _ _ _ _ _ _ _ _ _ (k + s) Eg Lp1 O1) as Sh1.
  pose proof (pad_length w P Hl) as Lpw. pose proof (pad_length w0 P0 Hl0) as Lpw0.
  assert (Lc : length cw = (2 ^ ((k + s) / 2))%nat). { unfold packing_poly_commit, log2c in Epk0. rewrite Lpw0, Nat.log2_up_pow2 in Epk0 by lia. destruct (negb _) in Epk0; [discriminate|]. injection Epk0 as <- _. rewrite map_length, seq_length. reflexivity. }
  destruct (packing_coins K G (mc_gens K G (pc_gen_n K G (hp_pc K G p))) (mc_h K G (pc_gen_n K G (hp_pc K G p))) (padded (firstn n w)) (k + s) cw S1 Lpw Lc) as (wr & (wb & Epk) & Uw).
  assert (Lf : (2 ^ (k + s - (k + s) / 2) <= pc_n K G (hp_pc K G p))%nat) by (cbn [hp_pc pc_n hparams_new]; apply Nat.pow_le_mono_r; [lia|exact Hnum]).
  destruct (open_coins K G ch p Eh Eg S1 (padded (firstn n w)) wr cw wb (padded ins) q0 (qa' ++ qt) _ rx t2 pf0 y0 eq0 t3 g [] (k + s) eq_refl Lp0 Lpw Lf Epk (proj2 (key w P Hl qa' q0 qt L1 L2)) Sh0 V0) as (e0 & Q0 & U0).
  destruct (open_coins K G ch p Eh Eg S1 (padded (firstn n w)) wr cw wb (padded ins) q1 (qa' ++ qt1) _ ry t3 pf1 y1 eq1 t4 g [] (k + s) eq_refl Lp1 Lpw Lf Epk (proj2 (key w P Hl qa' q1 qt1 L1 L3)) Sh1 V1) as (e1 & Q1 & U1).
  exists (mkHC K wr zs e0 e1). split.
  - rewrite (unroll w P Hl). cbn [hc_w hc_z hc_0 hc_1]. rewrite Epk. cbn [rbind]. fold t0. rewrite EO. cbn [rbind]. rewrite Ed. fold u. rewrite PL. cbn [rbind].
    change (hx_open K G ch p (padded (firstn n w)) wb qa' (q0 :: qt)) with (z_open K G ch p (padded (firstn n w)) wb (q0 :: qa' ++ qt)). change (hx_open K G ch p (padded (firstn n w)) wb qa' (q1 :: qt1)) with (z_open K G ch p (padded (firstn n w)) wb (q1 :: qa' ++ qt1)).
    rewrite Q0. cbn [rbind]. rewrite Q1. reflexivity.
  - intros [wr' zs' e0' e1'] o E. rewrite (unroll w P Hl) in E. cbn [hc_w hc_z hc_0 hc_1] in *.
    match type of E with rbind ?X _ = _ => destruct X as [[cw' wb']| |] eqn:Epk'; cbn [rbind] in E; try discriminate end.
    match type of E with rbind ?X _ = _ => destruct X as [[[[u' qa2] q2] t1']| |] eqn:EO'; cbn [rbind] in E; try discriminate end.
    match type of E with rbind ?X _ = _ => destruct X as [[[pfs' [[[[[[a1 a2] a3] a4] a5] a6] a7]] t2']| |] eqn:PL'; cbn [rbind] in E; try discriminate end.
    match type of E with rbind ?X _ = _ => destruct X as [[[[b0 b1] b2] t3']| |] eqn:P0'; cbn [rbind] in E; try discriminate end.
    match type of E with rmap _ ?X = _ => destruct X as [[[[b3 b4] b5] t4']| |] eqn:P1'; cbn [rmap] in E; try discriminate end. injection E as -> -> -> -> -> -> -> -> _.
    pose proof (Uw _ _ Epk') as Qw.
    assert (wb' = wb) as ->.
    { unfold packing_poly_commit, log2c in Epk, Epk'. rewrite Lpw, Nat.log2_up_pow2 in Epk, Epk' by lia. destruct (negb _); [discriminate|]. injection Epk as _ <-. injection Epk' as _ <-. apply map_ext_in. intros i Hi. apply in_seq in Hi. apply Qw. exact (proj2 Hi). }
    fold t0 in EO'. rewrite EO in EO'. injection EO' as <- <- <- <-. fold u in PL'. rewrite Ed in PL'. destruct (UL _ _ _ PL') as (QL & Qs & ->). injection Qs as -> -> -> -> -> -> ->.
    destruct (U0 _ _ P0') as [Q0' ->]. destruct (U1 _ _ P1') as [Q1' ->]. split; [exact Qw|]. split; [|split; [exact Q0'|exact Q1']]. intros i Hi. apply QL. lia.
Qed.
End Main.
End S.
