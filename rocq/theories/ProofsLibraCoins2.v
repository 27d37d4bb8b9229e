(** All layers of libra's zero-knowledge protocol, and the openings of the witness: coins correspond one to one to the accepted proofs. *)
From Verif Require Import Field Poly Module ModTac ModelTranscript ModelMle ModelLibra ModelSigma SpecSigma ModelSpartan ModelSnark ModelHyrax ModelLibraZk SpecMle SpecLibra ProofsPC ProofsMle ModelBulletproofs ProofsIPP ProofsBulletproofs ProofsLibra ProofsLibra2 ProofsLibra3 ProofsLibra4 ProofsSigma ProofsSigma3 ProofsSigma4 ProofsSpartan2 ProofsSpartan3 ProofsSpartan4 ProofsHyrax7 ProofsHyrax8 ProofsLibraZk ProofsLibraZk2 ProofsLibraZk3 SpecSigmaZk SpecLibraCoins ProofsSigmaZk ProofsSigmaZk2 ProofsSigmaZk3 ProofsLibraCoins.
From Coq Require Import String List Lia PeanoNat.
Import ListNotations.
Local Open Scope string_scope.
Local Open Scope list_scope.
Local Open Scope fld_scope.
Section P.
Variable K : Fld.
Variable G : Grp K.
Variable ch : oracle K G.
Add Field Kflc2 : (f_laws K).
Notation tr := (transcript K G).
Notation com p x b := (poly_commit_vec K G (mc_gens K G p) x (mc_h K G p) b).
Variable p : hparams K G.
Hypothesis two : (1 + 1 : K) <> 0.
Notation g1 := (hp_1 K G p).
Hypothesis S1 : spans (mc_h K G g1).
Hypothesis S3 : spans (mc_h K G (hp_3 K G p)).
Lemma z_layers_ext c evals lrs lrs' : forall d al be gu gv x y b t, (forall i, (i < d)%nat -> lrs i = lrs' i) -> z_layers K G ch p c evals d lrs al be gu gv x y b t = z_layers K G ch p c evals d lrs' al be gu gv x y b t.
Proof.
  induction d as [|d IH]; intros al be gu gv x y b t H; [reflexivity|]. cbn [z_layers]. rewrite (H d) by lia. destruct (z_layer _ _ _ _ _ _ _ _ _ _ _ _ _ _ _ _) as [[[[[[[pf ru] rv] x'] y'] fu] t1]| |]; try reflexivity. cbn [rbind].
  destruct d as [|d']; [reflexivity|]. unfold draw. cbv beta iota zeta. rewrite (IH _ _ _ _ _ _ _ _ (fun i Hi => H i (Nat.lt_lt_succ_r _ _ Hi))). reflexivity.
Qed.
Lemma z_layers_SS c evals d lrs al be gu gv x y b (t : tr) : z_layers K G ch p c evals (S (S d)) lrs al be gu gv x y b t =
  rbind (z_layer K G ch p c evals (S d) (lrs (S d)) al be gu gv x y b t) (fun '(pf, ru, rv, _, y, fu, t) =>
    let al := ch "challenge_alpha" t in let be := ch "challenge_beta" (MCh "challenge_alpha" :: t) in
    rmap (fun '(pfs, s, t) => (pf :: pfs, s, t)) (z_layers K G ch p c evals (S d) lrs al be ru rv fu y (al * lr_x K (lrs (S d)) + be * lr_y K (lrs (S d))) (MCh "challenge_beta" :: MCh "challenge_alpha" :: t))).
Proof. reflexivity. Qed.
Lemma layers_coins c evals : run K c evals -> length evals = length (c_layers c) ->
  forall d al be gu gv gv' ru_ rv_ bclaim (t : tr) hi out v0 l0 pfs ru rv cx cy t',
  (1 <= d)%nat -> nth_error (c_layers c) d = Some hi -> nth_error evals d = Some out -> nth_error evals 0 = Some v0 -> nth_error (c_layers c) 0 = Some l0 ->
  length gu = l_bits hi -> length gv = l_bits hi -> length gv' = l_bits hi -> (be = 0 \/ gv' = gv) -> al * ru_ + be * rv_ = al * mle out gu + be * mle out gv -> sized K c evals d -> zls_shape K G c d pfs ->
  z_check K G ch p c pfs d (com g1 [al * ru_ + be * rv_] bclaim) al be gu gv' t = Ok (ru, rv, cx, cy, t') ->
  length ru = l_bits l0 /\ length rv = l_bits l0 /\ exists lrs, (forall i, lr_ok K (lrs i)) /\ cx = com g1 [mle v0 ru] (lr_x K (lrs 0%nat)) /\ cy = com g1 [mle v0 rv] (lr_y K (lrs 0%nat)) /\
    z_layers K G ch p c evals d lrs al be gu gv ru_ rv_ bclaim t = Ok (pfs, (ru, rv, mle v0 ru, mle v0 rv, lr_x K (lrs 0%nat), lr_y K (lrs 0%nat)), t') /\
    forall lrs' st t2, (forall i, lr_ok K (lrs' i)) -> z_layers K G ch p c evals d lrs' al be gu gv ru_ rv_ bclaim t = Ok (pfs, st, t2) ->
      (forall i lo, (i < d)%nat -> nth_error (c_layers c) i = Some lo -> lr_same K (l_bits lo) (lrs' i) (lrs i)) /\
      st = (ru, rv, mle v0 ru, mle v0 rv, lr_x K (lrs 0%nat), lr_y K (lrs 0%nat)) /\ t2 = t'.
Proof.
  intros Hrun Hlen. induction d as [|d IH]; intros al be gu gv gv' ru_ rv_ bclaim t hi out v0 l0 pfs ru rv cx cy t' Hd Hhi Hout Hv0 Hl0 Lgu Lgv Lgv' Hbe E Hs Sh V; [lia|].
  destruct pfs as [|pf pfs]; [contradiction|]. cbn [zls_shape] in Sh. destruct Sh as [(lo & Elo & Shl) Sh].
  assert (d < length (c_layers c))%nat as Ld by (assert (S d < length (c_layers c))%nat by (apply nth_error_Some; congruence); lia).
  destruct (nth_error evals d) as [v|] eqn:Ev; [|apply nth_error_None in Ev; lia].
  destruct (Hrun d lo hi v Elo Hhi Ev) as (Hg & Hi & Hb & Ho). rewrite Hout in Ho. injection Ho as ->.
  destruct (Hs d lo v (Nat.lt_succ_diag_r d) Elo Ev) as [Lv Nb]. destruct (l_bits lo) as [|b] eqn:Eb; [contradiction|].
  cbn [z_check] in V. match type of V with rbind ?X _ = _ => destruct X as [[[ru1 rv1] t1]| |] eqn:V1; cbn [rbind] in V; try discriminate end.
  assert (Lg : (length (l_gates hi) <= 2 ^ length gu)%nat) by congruence.
  destruct (layer_coins K G ch p two S1 S3 c evals d pf al be gu gv gv' ru_ rv_ bclaim t lo hi v b ru1 rv1 t1 Elo Hhi Ev Eb Lv (eq_trans Lgu (eq_sym Lgv)) (eq_trans Lgv' (eq_sym Lgu)) Hbe Lg Hg Hi E Shl V1) as (Lru & Lrv & lr & Olr & Ex & Ey & Pz & U).
  destruct d as [|d'].
  - injection V as <- <- <- <- <-. destruct pfs; [|contradiction]. rewrite Hv0 in Ev. injection Ev as <-. rewrite Hl0 in Elo. injection Elo as <-. split; [congruence|]. split; [congruence|].
    exists (fun _ => lr). split; [intro; exact Olr|]. split; [exact Ex|]. split; [exact Ey|]. cbn [z_layers]. rewrite Pz. cbn [rbind]. split; [reflexivity|].
    intros lrs' st t2 Olr' Z. match type of Z with rbind ?X _ = _ => destruct X as [[[[[[[pf' ru'] rv'] x'] y'] f'] u]| |] eqn:Z1; cbn [rbind] in Z; try discriminate end. injection Z as -> <- <-.
    destruct (U _ _ _ _ _ _ _ (Olr' 0%nat) Z1) as [Sm Q]. injection Q as -> -> -> -> -> ->. assert (Sm2 := Sm). destruct Sm2 as (_ & _ & Q). injection Q as Q1 Q2 _ _ _ _ _ _ _. rewrite Q1, Q2.
    split; [|split; reflexivity]. intros i lo' Hi' Elo'. assert (i = 0)%nat as -> by lia. rewrite Hl0 in Elo'. injection Elo' as <-. rewrite Eb. exact Sm.
  - unfold draw in V. cbv beta iota zeta in V. set (al' := ch "challenge_alpha" t1) in *. set (be' := ch "challenge_beta" (MCh "challenge_alpha" :: t1)) in *.
    rewrite Ex, Ey, com_pair in V.
    destruct (IH al' be' ru1 rv1 rv1 (mle v ru1) (mle v rv1) (al' * lr_x K lr + be' * lr_y K lr) (MCh "challenge_beta" :: MCh "challenge_alpha" :: t1) lo v v0 l0 pfs ru rv cx cy t') as (L1 & L2 & lrs & Ols & Ecx & Ecy & Pr & Ur);
      try assumption; try lia; try congruence; [right; reflexivity|intros i lo2 v2 Hi2; apply Hs; lia|].
    split; [exact L1|]. split; [exact L2|]. exists (fun i => if Nat.eqb i (S d') then lr else lrs i). cbv beta.
    split; [intro i; destruct (Nat.eqb i (S d')); [exact Olr|apply Ols]|]. change (Nat.eqb 0 (S d')) with false. cbv iota. split; [exact Ecx|]. split; [exact Ecy|]. split.
    + rewrite z_layers_SS, Nat.eqb_refl, Pz. cbn [rbind]. cbv zeta. fold al' be'. rewrite (z_layers_ext c evals (fun i => if Nat.eqb i (S d') then lr else lrs i) lrs (S d')) by (intros i Hi'; destruct (Nat.eqb_spec i (S d')); [lia|reflexivity]). rewrite Pr. reflexivity.
    + intros lrs' st t2 Olr' Z. rewrite z_layers_SS in Z. match type of Z with rbind ?X _ = _ => destruct X as [[[[[[[pf' ru'] rv'] x'] y'] f'] u]| |] eqn:Z1; cbn [rbind] in Z; try discriminate end. cbv zeta in Z.
      match type of Z with rmap _ ?X = _ => destruct X as [[[pfs' st'] u']| |] eqn:Z2; cbn [rmap rbind] in Z; try discriminate end. injection Z as -> -> -> ->.
      destruct (U _ _ _ _ _ _ _ (Olr' (S d')) Z1) as [Sm Q]. injection Q as -> -> -> -> -> ->. assert (Sm2 := Sm). destruct Sm2 as (_ & _ & Q). injection Q as Q1 Q2 _ _ _ _ _ _ _.
      fold al' be' in Z2. rewrite Q1, Q2 in Z2. destruct (Ur _ _ _ Olr' Z2) as (Sms & -> & ->). split; [|split; reflexivity].
      intros i lo' Hi' Elo'. destruct (Nat.eqb_spec i (S d')) as [->|Ni]; [|apply Sms; [lia|exact Elo']]. rewrite Elo in Elo'. injection Elo' as <-. rewrite Eb. exact Sm.
Qed.
End P.
Section O.
Variable K : Fld.
Variable G : Grp K.
Variable ch : oracle K G.
Add Field Kflc3 : (f_laws K).
Notation tr := (transcript K G).
Notation com p x b := (poly_commit_vec K G (mc_gens K G p) x (mc_h K G p) b).
Lemma finite_choice (A : Type) (a : A) (P : nat -> A -> Prop) : forall n, (forall i, (i < n)%nat -> exists x, P i x) -> exists f, forall i, (i < n)%nat -> P i (f i).
Proof.
  induction n as [|n IH]; intro H; [exists (fun _ => a); intros i Hi; lia|]. destruct IH as (f & Hf); [intros i Hi; apply H; lia|]. destruct (H n) as (x & Hx); [lia|].
  exists (fun i => if Nat.eqb i n then x else f i). intros i Hi. destruct (Nat.eqb_spec i n) as [->|N]; [exact Hx|apply Hf; lia].
Qed.
Lemma nth_map_seq (w : nat -> K) n i : (i < n)%nat -> nth i (map w (seq 0 n)) 0 = w i.
Proof. intro H. rewrite (nth_indep _ 0 (w 0%nat)) by (rewrite map_length, seq_length; exact H). rewrite map_nth, seq_nth by exact H. reflexivity. Qed.
Lemma nth_map_seq_g (w : nat -> G) n i : (i < n)%nat -> nth i (map w (seq 0 n)) g0 = w i.
Proof. intro H. rewrite (nth_indep _ g0 (w 0%nat)) by (rewrite map_length, seq_length; exact H). rewrite map_nth, seq_nth by exact H. reflexivity. Qed.
Lemma packing_coins (gn : list G) h (wv : list K) k cw : spans h -> length wv = (2 ^ k)%nat -> length cw = (2 ^ (k / 2))%nat ->
  exists wr, (exists wb, packing_poly_commit K G gn wv h wr true = Ok (cw, wb)) /\ forall wr' wb', packing_poly_commit K G gn wv h wr' true = Ok (cw, wb') -> forall i, (i < 2 ^ (k / 2))%nat -> wr' i = wr i.
Proof.
  intros Sp Lw Lc. assert (Hk : (k / 2 <= k)%nat) by apply half_le.
  set (row := fun i => firstn (2 ^ (k - k / 2)) (skipn (i * 2 ^ (k - k / 2)) wv)).
  destruct (finite_choice K 0 (fun i b => poly_commit_vec K G gn (row i) h b = nth i cw g0) (2 ^ (k / 2))) as (wr & Hw).
  { intros i Hi. destruct (spans_sub K G h (msm gn (row i)) (nth i cw g0) Sp) as (b & E & _). exists b. exact E. }
  assert (Q : forall w, packing_poly_commit K G gn wv h w true = Ok (map (fun i => poly_commit_vec K G gn (row i) h (w i)) (seq 0 (2 ^ (k / 2))), map w (seq 0 (2 ^ (k / 2))))).
  { intro w. unfold packing_poly_commit, log2c. rewrite Lw, Nat.log2_up_pow2 by lia. rewrite <- Nat.pow_add_r. replace (k / 2 + (k - k / 2))%nat with k by lia. rewrite Nat.eqb_refl. cbn [negb]. f_equal. f_equal.
    apply map_ext_in. intros i Hi. apply in_seq in Hi. fold (row i). f_equal. apply nth_map_seq. lia. }
  exists wr. split.
  - eexists. rewrite Q. f_equal. f_equal. apply (nth_ext _ _ g0 g0); [rewrite map_length, seq_length; congruence|]. intros i Hi. rewrite map_length, seq_length in Hi.
    rewrite nth_map_seq_g by exact Hi. apply Hw. exact Hi.
  - intros wr' wb' E i Hi. rewrite Q in E. injection E as E _. specialize (Hw i Hi). rewrite <- E in Hw. rewrite nth_map_seq_g in Hw by exact Hi.
    destruct (spans_sub K G h (msm gn (row i)) (poly_commit_vec K G gn (row i) h (wr' i)) Sp) as (b & _ & U). rewrite (U (wr i) Hw), (U (wr' i) eq_refl). reflexivity.
Qed.
Variable p : hparams K G.
Hypothesis E1 : hp_1 K G p = pc_gen_1 K G (hp_pc K G p).
Hypothesis Eh : mc_h K G (pc_gen_n K G (hp_pc K G p)) = mc_h K G (pc_gen_1 K G (hp_pc K G p)).
Hypothesis En : length (mc_gens K G (pc_gen_n K G (hp_pc K G p))) = pc_n K G (hp_pc K G p).
Hypothesis S1 : spans (mc_h K G (pc_gen_1 K G (hp_pc K G p))).
Notation gn := (mc_gens K G (pc_gen_n K G (hp_pc K G p))).
Notation hn := (mc_h K G (pc_gen_n K G (hp_pc K G p))).
Notation g1 := (pc_gen_1 K G (hp_pc K G p)).
Lemma log_dot_cy lbl (q : pcp K G) lz r lzb ryb ev d rd rb bl (t : tr) pf C D t' : log_dot_prove K G ch lbl q lz r lzb ryb ev d rd rb bl t = Ok (pf, C, D, t') ->
  C = com (pc_gen_n K G q) lz lzb /\ D = com (pc_gen_1 K G q) [ev] ryb.
Proof.
  unfold log_dot_prove, draw. intro E. destruct (mc_gens K G (pc_gen_1 K G q)) eqn:Eq; [discriminate|]. match type of E with rbind ?X _ = _ => destruct X as [[[[[[[? ?] ?] ?] ?] ?] ?]| |]; cbn [rbind] in E; try discriminate end.
  injection E as _ <- <- _. split; reflexivity.
Qed.
Lemma open_coins wv wr cw wb inp q0 ry v bv (t : tr) pf cy eq t' g gs k : mc_gens K G g1 = g :: gs -> length ry = k -> length wv = (2 ^ k)%nat -> (2 ^ (k - k / 2) <= pc_n K G (hp_pc K G p))%nat ->
  packing_poly_commit K G gn wv hn wr true = Ok (cw, wb) -> v = (1 - q0) * mle wv ry + q0 * mle inp ry -> length (dp_l K G pf) = (k - k / 2)%nat ->
  z_opened K G ch p inp cw (q0 :: ry) (com g1 [v] bv) pf cy eq t = Ok t' ->
  exists e, z_open K G ch p wv wb (q0 :: ry) v bv e t = Ok (pf, cy, eq, t') /\
    forall e' t2, z_open K G ch p wv wb (q0 :: ry) v bv e' t = Ok (pf, cy, eq, t2) -> er_same K (k - k / 2) e' e /\ t2 = t'.
Proof.
  intros Eg Lr Lw Ln Ec Ev Ls V. assert (Hk : (k / 2 <= k)%nat) by apply half_le. unfold z_opened in V.
  match type of V with rbind ?X _ = _ => destruct X as [[ok t1]| |] eqn:V1; cbn [rbind] in V; try discriminate end. destruct ok; [|discriminate]. cbn [negb] in V.
  rewrite eval_value_ok in V. destruct (Nat.leb (length inp) (2 ^ length ry)); [|discriminate]. cbn [rbind] in V.
  match type of V with (let '(_, _) := ?X in _) = _ => destruct X as [ok t3] eqn:V2 end. destruct ok; [|discriminate]. cbn [negb] in V. injection V as ->.
  destruct (spans_sub K G _ (msm (mc_gens K G g1) [mle wv ry]) cy S1) as (b & Eb & Ub). change (com g1 [mle wv ry] b = cy) in Eb.
  set (a := firstn (k / 2) ry) in *. set (z := skipn (k / 2) ry) in *.
  assert (La : length a = (k / 2)%nat) by (unfold a; rewrite firstn_length; lia). assert (Lz : length z = (k - k / 2)%nat) by (unfold z; rewrite skipn_length; lia).
  destruct (packing_ok K G _ _ _ _ _ k _ _ Lw Ec a z La Lz) as [Lbl EC].
  assert (EB : match wb with [] => repeat 0 (2 ^ (k / 2)) | _ => wb end = wb). { destruct wb; [|reflexivity]. cbn [length] in Lbl. exfalso. symmetry in Lbl. revert Lbl. apply Nat.pow_nonzero. lia. }
  unfold reduce_verifier in V1. rewrite Lr in V1. fold a z in V1. rewrite <- Eh, EC, <- Eb in V1.
  assert (Edot : mle wv ry = dot (row_comb K (eval_eq K a) wv (2 ^ length z)) (eval_eq K z)) by (rewrite row_comb_dot; unfold a, z; rewrite firstn_skipn; reflexivity).
  apply (conj Ls) in V1. apply (log_dot_coins K G ch "c" (hp_pc K G p) g gs _ _ _ _ _ _ _ _ (k - k / 2) Eg Eh S1) in V1.
  2:{ rewrite row_comb_tab, length_tab, Lz. reflexivity. }
  2:{ rewrite eval_eq_length, Lz. reflexivity. }
  2:{ rewrite En. exact Ln. }
  2:{ exact Edot. }
  destruct V1 as ([[[bl d] rd] rb] & (Lb & P) & U).
  rewrite <- Eb in V2. rewrite com_mix in V2. rewrite <- Ev in V2. apply eq_coins in V2. destruct V2 as (re & Pe & Ue).
  assert (Zo : forall e u, z_open K G ch p wv wb (q0 :: ry) v bv e u = rmap (fun '(pf, cy, t) => let '(eq, t) := eq_proof K G ch g1 v bv v ((1 - q0) * er_blind K e) (er_eq K e) t in (pf, cy, eq, t))
    (rmap (fun '(pf, _, cy, t) => (pf, cy, t)) (log_dot_prove K G ch "c" (hp_pc K G p) (row_comb K (eval_eq K a) wv (2 ^ length z)) (eval_eq K z) (dot (eval_eq K a) wb) (er_blind K e) (mle wv ry) (er_d K e) (er_delta K e) (er_beta K e) (map (er_bv K e) (seq 0 (k - k / 2))) u))).
  { intros e u. unfold z_open. rewrite eval_value_ok, Lr, Lw, Nat.leb_refl. cbn [rbind]. unfold reduce_prover, log2c. rewrite Lw, Nat.log2_up_pow2, Lr, Nat.eqb_refl by lia. cbn [negb]. rewrite EB, Lbl, Nat.eqb_refl. cbn [negb]. fold a z.
    rewrite <- Nat.pow_add_r. replace (k / 2 + (k - k / 2))%nat with k by lia. rewrite Nat.ltb_irrefl. rewrite eval_eq_length, Lz. rewrite (proj2 (Nat.ltb_ge _ _) Ln), Nat.log2_up_pow2 by lia. reflexivity. }
  set (e := mkEr K b d rb rd (fun i => nth i bl (0, 0)) re).
  assert (Em : map (er_bv K e) (seq 0 (k - k / 2)) = bl).
  { unfold e. cbn [er_bv]. rewrite <- Lb. clear. induction bl as [|x l IH]; [reflexivity|]. cbn [length seq map nth]. f_equal. rewrite <- seq_shift, map_map. exact IH. }
  exists e. split.
  - rewrite Zo, Em. cbn [e er_blind er_d er_delta er_beta er_eq]. rewrite P. cbn [rmap]. rewrite Pe, Eb. reflexivity.
  - intros e' t2 Z. rewrite Zo in Z. match type of Z with context [log_dot_prove ?a1 ?a2 ?a3 ?a4 ?a5 ?a6 ?a7 ?a8 ?a9 ?b1 ?b2 ?b3 ?b4 ?b5 ?b6] => destruct (log_dot_prove a1 a2 a3 a4 a5 a6 a7 a8 a9 b1 b2 b3 b4 b5 b6) as [[[[pf0 Cl] Cr] t0]| |] eqn:P'; cbn [rmap] in Z; try discriminate end.
    match type of Z with context [eq_proof ?a1 ?a2 ?a3 ?a4 ?a5 ?a6 ?a7 ?a8 ?a9 ?b1] => destruct (eq_proof a1 a2 a3 a4 a5 a6 a7 a8 a9 b1) as [eq' t4] eqn:Pe' end. injection Z as -> -> -> ->.
    pose proof (log_dot_cy _ _ _ _ _ _ _ _ _ _ _ _ _ _ _ _ P') as [-> ECy]. pose proof (Ub _ (eq_sym ECy)) as Q. rewrite Q in P', Pe'.
    assert (Lrow : (length (row_comb K (eval_eq K a) wv (2 ^ length z)) <= length gn)%nat) by (rewrite row_comb_tab, length_tab, Lz, En; exact Ln).
    destruct (log_dot_exact K G ch _ _ g gs _ _ _ _ _ _ _ _ _ _ _ _ _ _ Eg Eh Lrow P) as (? & ? & ? & ? & _ & X1). destruct (log_dot_exact K G ch _ _ g gs _ _ _ _ _ _ _ _ _ _ _ _ _ _ Eg Eh Lrow P') as (? & ? & ? & ? & _ & X2).
    rewrite Eb in X1. rewrite X1 in X2. injection X2 as _ ->.
    assert (Q2 : (bl, d, rd, rb) = (map (er_bv K e') (seq 0 (k - k / 2)), er_d K e', er_delta K e', er_beta K e')). { apply U. split; [rewrite map_length, seq_length; reflexivity|]. rewrite Eb. exact P'. }
    injection Q2 as Q3 -> -> ->. pose proof (eq_same K G ch _ _ _ _ _ _ _ _ _ _ _ Pe Pe') as <-. pose proof (Ue _ Pe') as ->. split; [|reflexivity]. split; [|cbn [e er_blind er_d er_delta er_beta er_eq]; rewrite Q; reflexivity].
    intros i Hi. cbn [e er_bv]. rewrite Q3. rewrite (nth_indep _ (0, 0) (er_bv K e' 0%nat)) by (rewrite map_length, seq_length; exact Hi). rewrite map_nth, seq_nth by exact Hi. reflexivity.
Qed.
End O.
