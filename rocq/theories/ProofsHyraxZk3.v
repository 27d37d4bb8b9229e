(** Hyrax: one layer, with the random values as the unknowns. *)
From Verif Require Import Field Poly Module ModTac ProofsPC ModelTranscript ModelMle SpecMle ProofsMle ModelLibra ProofsLibra ProofsLibra2 ModelSigma ProofsSigma ModelSpartan ProofsSpartan3 ModelSnark ModelHyrax ProofsHyrax ProofsHyrax2 ProofsHyrax3 ProofsHyrax4 ProofsHyrax5 SpecSigmaZk ProofsSigmaZk2 SpecHyraxZk ProofsHyraxZk ProofsHyraxZk2.
From Coq Require Import String List Lia.
Import ListNotations.
Local Open Scope string_scope.
Local Open Scope list_scope.
Local Open Scope fld_scope.
Section S.
Variable K : Fld.
Variable G : Grp K.
Variable ch : oracle K G.
Add Field Kf : (f_laws K).
Notation tr := (transcript K G).
Notation com p x b := (poly_commit_vec K G (mc_gens K G p) x (mc_h K G p) b).
Notation eval_eq := (eval_eq K).
Notation V := (V K).
Notation gop := (gop K).
Lemma hx_lengths rp g1 gn size : forall n ra re j ts claim ccom (t : tr) polys cps ces rs ts' claim' ccom' t', hx_rounds K G ch rp g1 gn size n ra re j ts claim ccom t = Ok (polys, cps, ces, rs, ts', claim', ccom', t') -> length cps = n /\ length ces = n.
Proof.
  induction n as [|n IH]; intros ra re j ts claim ccom t polys cps ces rs ts' claim' ccom' t' R; cbn [hx_rounds] in R; [injection R as <- <- <- _ _ _ _ _; split; reflexivity|].
  destruct (rp (2 ^ n)%nat ts claim) as [q| |]; cbn [rbind] in R; try discriminate. unfold draw in R. cbv beta iota zeta in R. match type of R with rbind ?X _ = _ => destruct X as [ts2| |]; cbn [rbind] in R; try discriminate end. destruct (re j) as [b| |]; cbn [rbind] in R; try discriminate.
  match type of R with rbind ?X _ = _ => destruct X as [[[[[[[[polys2 cps2] ces2] rs2] ts3] cl2] cc2] t2]| |] eqn:R2; cbn [rbind] in R; try discriminate end. injection R as _ <- <- _ _ _ _ _. apply IH in R2. cbn [length]. lia.
Qed.
Lemma three_parts {A} (l : list A) a b c : length l = (a + b + c)%nat -> exists l1 l2 l3, l = l1 ++ l2 ++ l3 /\ length l1 = a /\ length l2 = b /\ length l3 = c.
Proof.
  intro L. exists (firstn a l), (firstn b (skipn a l)), (skipn b (skipn a l)). rewrite !firstn_skipn. split; [reflexivity|]. rewrite !firstn_length, !skipn_length. lia.
Qed.
Lemma app_inj_len {A} : forall a a' b b' : list A, length a = length a' -> a ++ b = a' ++ b' -> a = a' /\ b = b'.
Proof. induction a as [|x a IH]; intros [|y a'] b b' L E; try discriminate; [split; [reflexivity|exact E]|]. injection E as -> E. injection L as L. destruct (IH _ _ _ L E) as [-> ->]. split; reflexivity. Qed.
Lemma app3_inj {A} (a b c a' b' c' : list A) : length a = length a' -> length b = length b' -> a ++ b ++ c = a' ++ b' ++ c' -> a = a' /\ b = b' /\ c = c'.
Proof. intros L1 L2 E. apply app_inj_len in E; [|exact L1]. destruct E as [-> E]. apply app_inj_len in E; [|exact L2]. destruct E as [-> ->]. repeat split. Qed.
Lemma nth_three (a b c : list K) i : nth i (a ++ b ++ c) 0 = if Nat.ltb i (length a) then nth i a 0 else if Nat.ltb (i - length a) (length b) then nth (i - length a) b 0 else nth (i - length a - length b) c 0.
Proof. destruct (Nat.ltb_spec i (length a)); [apply app_nth1; lia|]. rewrite app_nth2 by lia. destruct (Nat.ltb_spec (i - length a) (length b)); [apply app_nth1; lia|apply app_nth2; lia]. Qed.
Lemma lgp k : log2c (2 ^ k) = k.
Proof. unfold log2c. apply Nat.log2_up_pow2. lia. Qed.
Section Layer.
Variables (p : hparams K G) (vs : list (list K)) (gates : list gate) (log_n log_ng : nat) (u0 u1 : K) (qa ql qr : list K).
Hypothesis two : (1 + 1 : K) <> 0.
Hypothesis three : (1 + 1 + 1 : K) <> 0.
Hypothesis Hg : map gt_g gates = seq 0 (length gates).
Hypothesis Hop : Forall (fun g => gt_op g = 0 \/ gt_op g = 1)%nat gates.
Hypothesis Hlr : forall g, In g gates -> (gt_l g < 2 ^ log_ng /\ gt_r g < 2 ^ log_ng)%nat.
Hypothesis Lvs : length vs = (2 ^ log_n)%nat.
Hypothesis Lqa : length qa = log_n.
Hypothesis Lq : length ql = length qr.
Hypothesis Lg : length gates = (2 ^ length ql)%nat.
Hypothesis Hn : (1 <= log_n)%nat.
Hypothesis Sp1 : spans (mc_h K G (hp_1 K G p)).
Hypothesis Sp3 : spans (mc_h K G (hp_3 K G p)).
Hypothesis Sp4 : spans (mc_h K G (hp_4 K G p)).
(** The layer above is as wide as the layer below. *)
Hypothesis Heq : length ql = log_ng.
Notation cols := (cols K vs log_ng).
Notation his := (his K vs gates).
Notation temp := (temp K u0 u1 qa ql qr).
Notation vv := (vv K vs log_ng).
Notation pxg := (pxg K u0 u1 qa ql qr).
Notation sel := (sel K gates log_ng).
Theorem layer_exact claim rc0 (t : tr) pf cx cy rs0 r00 r10 t' : claim = V his qa ql * u0 + V his qa qr * u1 -> let ca := com (hp_1 K G p) [claim] rc0 in
  zk_shaped K G log_n log_ng ca pf -> zk_verify K G ch p pf ca u0 u1 qa ql qr gates (2 ^ log_n) (2 ^ log_ng) t = Ok (cx, cy, rs0, r00, r10, t') ->
  exists z, zk_prover K G ch p claim ca rc0 u0 u1 qa ql qr gates cols (2 ^ log_n) (2 ^ log_ng) z t = Ok (pf, rs0, r00, r10, V vs rs0 r00, V vs rs0 r10, t') /\
    forall z' o, zk_prover K G ch p claim ca rc0 u0 u1 qa ql qr gates cols (2 ^ log_n) (2 ^ log_ng) z' t = Ok o -> fst (fst (fst (fst (fst (fst o))))) = pf -> zr_same log_n log_ng z' z.
Proof.
  intros Hc ca Hs Hv. pose proof Hs as (Ha & L5 & Lp & Le & Ld & Lzd & Lzs).
  destruct (three_parts (zk_polys K G pf) log_n log_ng log_ng ltac:(lia)) as (cps1 & cps2 & cps3 & Ecps & Lc1 & Lc2 & Lc3). destruct (three_parts (zk_evals K G pf) log_n log_ng log_ng ltac:(lia)) as (ces1 & ces2 & ces3 & Eces & Le1 & Le2 & Le3).
  destruct (rounds_exact K G ch _ _ 4 (hp_1 K G p) (hp_4 K G p) (good_cubic K (term_1 K gates) (term_1_cubic K gates) two three) Sp1 Sp4 log_n (temp ++ cols) claim ca t cps1 ces1)
    as (polys1 & rs & cc1 & t1 & bp1 & be1 & Lb1 & Lbe1 & Lrs & Ch1 & W1 & Lp1 & N1 & Z1 & Run1 & Un1); [apply tables_1; assumption|rewrite Hc; symmetry; apply total_1; assumption|assumption|assumption|].
  set (claim1 := term_1 K gates (map (fun v => mle v rs) (temp ++ cols))) in *. assert (C1 : claim1 = _) by (apply (claim_1 K vs gates log_n log_ng u0 u1 qa ql qr); assumption).
  destruct (rounds_exact K G ch _ _ 3 (hp_1 K G p) (hp_3 K G p) (good_quad K _ (term_2_quad K gates (pxg rs) (map (fun g => nth (gt_r g) (vv rs) 0) gates)) two) Sp1 Sp3 log_ng (sel gt_l ++ [vv rs]) claim1 cc1 t1 cps2 ces2)
    as (polys2 & r0 & cc2 & t2 & bp2 & be2 & Lb2 & Lbe2 & Lr0 & Ch2 & W2 & Lp2 & N2 & Z2 & Run2 & Un2).
  { apply tables_2. } { rewrite C1, (total_2 K vs gates log_ng) by (try assumption; intros g Hin; apply Hlr, Hin). apply fsum_map_ext. intros g Hin. rewrite (nth_idx K gates Hg (fun g => nth (gt_r g) (vv rs) 0) g Hin). reflexivity. } { exact Lc2. } { exact Le2. }
  set (claim2 := term_2 K gates (pxg rs) _ (map (fun v => mle v r0) _)) in *. assert (C2 : claim2 = _) by (apply (claim_2 K vs gates log_ng); try assumption; intros g Hin; apply Hlr, Hin).
  set (pxg2 := map (fun '(a, b) => a * b) (combine (map (fun g => nth (gt_l g) (eval_eq r0) 0) gates ++ [mle (vv rs) r0]) (pxg rs))) in *.
  destruct (rounds_exact K G ch _ _ 3 (hp_1 K G p) (hp_3 K G p) (good_quad K _ (term_2_quad K gates pxg2 (map (fun _ => mle (vv rs) r0) gates)) two) Sp1 Sp3 log_ng (sel gt_r ++ [vv rs]) claim2 cc2 t2 cps3 ces3)
    as (polys3 & r1 & cc3 & t3 & bp3 & be3 & Lb3 & Lbe3 & Lr1 & Ch3 & W3 & Lp3 & N3 & Z3 & Run3 & Un3).
  { apply tables_2. } { rewrite C2, (total_2 K vs gates log_ng) by (try assumption; intros g Hin; apply Hlr, Hin). apply fsum_map_ext. intros g Hin. unfold pxg2. rewrite (nth_idx K gates Hg (fun _ => mle (vv rs) r0) g Hin), (nth_idx K gates Hg (fun g => nth (gt_r g) (vv rs) 0) g Hin), (pxg'_nth K gates log_ng) by assumption. rewrite (gop_comm K g). reflexivity. } { exact Lc3. } { exact Le3. }
  set (claim3 := term_2 K gates pxg2 _ (map (fun v => mle v r1) _)) in *. assert (C3 : claim3 = _) by (apply (claim_2 K vs gates log_ng); try assumption; intros g Hin; apply Hlr, Hin).
  set (x := mle (vv rs) r0) in *. set (y := mle (vv rs) r1) in *.
  destruct (gate_evals_ok K vs gates log_n log_ng u0 u1 qa ql qr Hg Hop Hlr Lvs Lqa Lq Lg rs Lrs r0 r1 gates Lr0 Lr1 (fun g H => H) 0 0) as (add & mul & Ea & Em).
  assert (Cm : construct_matrix K rs r0 r1 qa ql qr gates u0 u1 log_n log_ng = Ok (map (widen K (4 * log_n + 6 * log_ng + 3)) (ends K 4 :: mat_rows K 0 (widths log_n log_ng) (rs ++ r0 ++ r1) [add; add; mul]))).
  { unfold construct_matrix. destruct (Nat.eqb_spec log_n 0); [lia|]. rewrite (e0_ok K log_n qa Lqa rs Lrs). cbn [rbind]. unfold gate_evals. rewrite Ea. reflexivity. }
  assert (Fin : claim3 = add * x + add * y + mul * (x * y)).
  { specialize (Em x y). rewrite C3. transitivity (add * (x + y) + mul * (x * y)); [|ring]. rewrite Em. transitivity (fsum (map (fun g => nth (gt_r g) (eval_eq r1) 0 * (nth (gt_l g) (eval_eq r0) 0 * nth (gt_g g) (pxg rs) 0) * gop g y x) gates)); [|ring].
    apply fsum_map_ext. intros g Hin. unfold pxg2. rewrite (nth_idx K gates Hg (fun _ => x) g Hin), (pxg'_nth K gates log_ng) by assumption. reflexivity. }
  assert (Chn : chain K claim (polys1 ++ polys2 ++ polys3) (rs ++ r0 ++ r1) (add * x + add * y + mul * (x * y))) by (rewrite <- Fin; apply (chain_app K) with (b := claim1); [exact Ch1|]; apply (chain_app K) with (b := claim2); assumption).
  assert (Wd : map (@length K) (polys1 ++ polys2 ++ polys3) = widths log_n log_ng).
  { assert (Q : forall w n ps, Forall (fun q : list K => length q = w) ps -> length ps = n -> map (@length K) ps = repeat w n) by (clear; intros w n ps F <-; induction F as [|q ps Hq _ IH]; [reflexivity|]; cbn [map length repeat]; rewrite Hq, IH; reflexivity).
    rewrite !map_app, (Q 4%nat log_n polys1 W1 Lp1), (Q 3%nat log_ng polys2 W2 Lp2), (Q 3%nat log_ng polys3 W3 Lp3). unfold widths. cbn [Nat.mul]. rewrite Nat.add_0_r, repeat_app. reflexivity. }
  set (bp := fun j => nth j (bp1 ++ bp2 ++ bp3) 0). set (be := fun j => nth j (be1 ++ be2 ++ be3) 0).
  assert (B1 : forall i, (i < log_n)%nat -> bp i = nth i bp1 0 /\ be i = nth i be1 0).
  { intros i Hi. unfold bp, be. rewrite !nth_three, Lb1, Lbe1. destruct (Nat.ltb_spec i log_n); [split; reflexivity|lia]. }
  assert (B2 : forall i, (i < log_ng)%nat -> bp (log_n + i)%nat = nth i bp2 0 /\ be (log_n + i)%nat = nth i be2 0).
  { intros i Hi. unfold bp, be. rewrite !nth_three, Lb1, Lbe1, Lb2, Lbe2. destruct (Nat.ltb_spec (log_n + i) log_n); [lia|]. replace (log_n + i - log_n)%nat with i by lia. destruct (Nat.ltb_spec i log_ng); [split; reflexivity|lia]. }
  assert (B3 : forall i, bp (log_n + log_ng + i)%nat = nth i bp3 0 /\ be (log_n + log_ng + i)%nat = nth i be3 0).
  { intros i. unfold bp, be. rewrite !nth_three, Lb1, Lbe1, Lb2, Lbe2. destruct (Nat.ltb_spec (log_n + log_ng + i) log_n); [lia|]. replace (log_n + log_ng + i - log_n)%nat with (log_ng + i)%nat by lia. destruct (Nat.ltb_spec (log_ng + i) log_ng); [lia|]. replace (log_ng + i - log_ng)%nat with i by lia. split; reflexivity. }
  assert (Cp : forall j, (j < log_n + 2 * log_ng)%nat -> nth_error (zk_polys K G pf) j = Some (com (if Nat.ltb j log_n then hp_4 K G p else hp_3 K G p) (nth j (polys1 ++ polys2 ++ polys3) []) (bp j))).
  { intros j Hj. rewrite Ecps. destruct (Nat.ltb_spec j log_n) as [A|A]; [rewrite nth_error_app1, app_nth1 by lia; rewrite N1 by exact A; rewrite (proj1 (B1 j A)); reflexivity|]. rewrite nth_error_app2, app_nth2 by lia. rewrite Lc1, Lp1. destruct (Nat.ltb_spec (j - log_n) log_ng) as [B|B].
    - rewrite nth_error_app1, app_nth1 by lia. rewrite N2 by lia. destruct (B2 (j - log_n)%nat B) as [Q _]. replace (log_n + (j - log_n))%nat with j in Q by lia. rewrite Q. reflexivity.
    - rewrite nth_error_app2, app_nth2 by lia. rewrite Lc2, Lp2, N3 by lia. destruct (B3 (j - log_n - log_ng)%nat) as [Q _]. replace (log_n + log_ng + (j - log_n - log_ng))%nat with j in Q by lia. rewrite Q. reflexivity. }
  unfold zk_verify in Hv. cbv zeta in Hv. rewrite !lgp in Hv. rewrite Ecps, Eces in Hv. replace (log_n + 2 * log_ng)%nat with (log_n + (log_ng + log_ng))%nat in Hv by lia. rewrite Z1, Z2 in Hv. specialize (Z3 0%nat [] []). rewrite !app_nil_r, Nat.add_0_r in Z3. rewrite Z3 in Hv. cbn [zk_challenges rmap rbind] in Hv. rewrite app_nil_r in Hv.
  rewrite (firstn_app_exact rs), (skipn_app_exact rs) in Hv by exact Lrs. rewrite (firstn_app_exact r0) in Hv by exact Lr0. rewrite app_assoc, (skipn_app_exact (rs ++ r0)) in Hv by (rewrite app_length; lia). rewrite Cm in Hv. cbn [rbind] in Hv.
  destruct (sumcheck_verify _ _ _ _ _ _ _ _ _) as [[ok t4]| |] eqn:Hsv; cbn [rbind] in Hv; try discriminate. destruct ok; [|discriminate]. cbn [negb] in Hv. injection Hv as <- <- <- <- <- <-.
  destruct (final_exact K G ch p x y claim rc0 add mul log_n log_ng (polys1 ++ polys2 ++ polys3) (rs ++ r0 ++ r1) bp be pf Hn Wd Chn Cp Hs Sp1 t3 t4 Hsv) as (z & Ep & Ee & Es & Ex & Ey & Us).
  assert (Rv : forall z' i, (i < log_n + 2 * log_ng)%nat -> kget K (map (zr_eval K z') (seq 0 (log_n + 2 * log_ng))) i = Ok (zr_eval K z' i)).
  { intros z' i Hi. rewrite (kget_ok K) by (rewrite map_length, seq_length; exact Hi). f_equal. rewrite (ProofsMle.nth_map_seq K). destruct (Nat.ltb_spec i (log_n + 2 * log_ng)); [reflexivity|lia]. }
  (* the prover, as far as the first run of rounds *)
  assert (Start : forall z', zk_prover K G ch p claim ca rc0 u0 u1 qa ql qr gates cols (2 ^ log_n) (2 ^ log_ng) z' t =
    let revs := map (zr_eval K z') (seq 0 (log_n + 2 * log_ng)) in
    rbind (hx_rounds K G ch (round_cubic K (term_1 K gates)) (hp_1 K G p) (hp_4 K G p) 4 log_n (zr_poly K z') (fun j => kget K revs j) 0 (temp ++ cols) claim ca t)
    (fun '(polys1, cps1, ces1, rs, ts, claim, ccom, t) =>
    let heads := map (fun v => nth 0 v 0) ts in let pxg := firstn (length gates) heads in let v := skipn (length gates) heads in
    rbind (hx_rounds K G ch (round_quad K (term_2 K gates pxg (map (fun g => nth (gt_r g) v 0) gates))) (hp_1 K G p) (hp_3 K G p) 3 log_ng (fun j => zr_poly K z' (log_n + j)) (fun j => kget K revs (log_n + j)) 0 (sel gt_l ++ [v]) claim ccom t)
    (fun '(polys2, cps2, ces2, r0, ts, claim, ccom, t) =>
    let heads := map (fun v => nth 0 v 0) ts in let pxg := map (fun '(a, b) => a * b) (combine heads pxg) in let x := nth (length gates) heads 0 in
    rbind (hx_rounds K G ch (round_quad K (term_2 K gates pxg (map (fun _ => x) gates))) (hp_1 K G p) (hp_3 K G p) 3 log_ng (fun j => zr_poly K z' (log_n + log_ng + j)) (fun j => kget K revs (log_n + log_ng + j)) 0 (sel gt_r ++ [v]) claim ccom t)
    (fun '(polys3, cps3, ces3, r1, ts, claim, ccom, t) =>
    let y := nth (length gates) (map (fun v => nth 0 v 0) ts) 0 in
    rbind (construct_matrix K rs r0 r1 qa ql qr gates u0 u1 log_n log_ng) (fun mm =>
    let pie := concat (polys1 ++ polys2 ++ polys3) ++ [x; y; x * y] in
    let '(pp, cx, cy, cz, deltas, cc, zs, zds, zc, t) := sumcheck_prover K G ch p x y log_ng log_n mm pie rc0 z' t in
    Ok (mkZk K G pp ca cc cx cy cz (cps1 ++ cps2 ++ cps3) (ces1 ++ ces2 ++ ces3) deltas zs zds zc, rs, r0, r1, x, y, t)))))).
  { intro z'. unfold zk_prover. cbv zeta. rewrite !lgp, Lqa, Nat.eqb_refl. rewrite Lq at 1. rewrite Nat.eqb_refl. cbn [negb]. fold (xg K u0 u1 ql qr). fold temp. rewrite (temp_length K gates u0 u1 qa ql qr Lq Lg), Nat.eqb_refl. cbn [negb]. rewrite (no_range K vs gates log_n log_ng qa ql qr Hlr Lvs Lqa Lq). rewrite Heq.
    rewrite (selectors_ok K gt_l log_ng gates) by (intros g Hin; apply Hlr, Hin). rewrite (selectors_ok K gt_r log_ng gates) by (intros g Hin; apply Hlr, Hin). fold (sel gt_l). fold (sel gt_r). reflexivity. }
  assert (H1 : map (fun v => nth 0 v 0) (map (fun v => [mle v rs]) (temp ++ cols)) = pxg rs ++ vv rs) by (rewrite heads_of; apply (heads_1 K vs log_n log_ng u0 u1 qa ql qr Lqa rs Lrs)).
  assert (H2 : map (fun v => nth 0 v 0) (map (fun v => [mle v r0]) (sel gt_l ++ [vv rs])) = map (fun g => nth (gt_l g) (eval_eq r0) 0) gates ++ [x]) by (rewrite heads_of; apply (heads_2 K vs gates log_ng rs gt_l); [intros g Hin; apply Hlr, Hin|exact Lr0]).
  assert (H3 : map (fun v => nth 0 v 0) (map (fun v => [mle v r1]) (sel gt_r ++ [vv rs])) = map (fun g => nth (gt_r g) (eval_eq r1) 0) gates ++ [y]) by (rewrite heads_of; apply (heads_2 K vs gates log_ng rs gt_r); [intros g Hin; apply Hlr, Hin|exact Lr1]).
  assert (X0 : nth (length gates) (map (fun g => nth (gt_l g) (eval_eq r0) 0) gates ++ [x]) 0 = x) by (rewrite app_nth2 by (rewrite map_length; lia); rewrite map_length, Nat.sub_diag; reflexivity).
  assert (Y0 : nth (length gates) (map (fun g => nth (gt_r g) (eval_eq r1) 0) gates ++ [y]) 0 = y) by (rewrite app_nth2 by (rewrite map_length; lia); rewrite map_length, Nat.sub_diag; reflexivity).
  assert (F1 : firstn (length gates) (pxg rs ++ vv rs) = pxg rs) by (apply firstn_app_exact, pxg_length; assumption). assert (F2 : skipn (length gates) (pxg rs ++ vv rs) = vv rs) by (apply skipn_app_exact, pxg_length; assumption).
  exists z. split.
  - rewrite Start. cbv zeta. rewrite (Run1 (zr_poly K z) _ 0%nat) by (intros i Hi; cbn [Nat.add]; rewrite Rv by lia; rewrite Ep, Ee; destruct (B1 i Hi) as [-> ->]; split; reflexivity). cbn [rbind]. rewrite H1, F1, F2.
    rewrite (Run2 (fun j => zr_poly K z (log_n + j)) _ 0%nat) by (intros i Hi; cbn [Nat.add]; rewrite Rv by lia; rewrite Ep, Ee; destruct (B2 i Hi) as [-> ->]; split; reflexivity). cbn [rbind]. rewrite H2, X0. fold pxg2.
    rewrite (Run3 (fun j => zr_poly K z (log_n + log_ng + j)) _ 0%nat) by (intros i Hi; cbn [Nat.add]; rewrite Rv by lia; rewrite Ep, Ee; destruct (B3 i) as [-> ->]; split; reflexivity). cbn [rbind]. rewrite H3, Y0, Cm. cbn [rbind]. rewrite Es.
    rewrite <- (mle_vv K vs log_ng rs r0 Lr0), <- (mle_vv K vs log_ng rs r1 Lr1). fold x y. rewrite <- Ecps, <- Eces, <- Ha. destruct pf. reflexivity.
  - intros z' o P' E'. rewrite Start in P'. cbv zeta in P'.
    match type of P' with rbind ?X _ = _ => destruct X as [[[[[[[[q1 c1] e1] rs'] ts1] cl1] cc1'] t1']| |] eqn:R1; cbn [rbind] in P'; try discriminate end.
    match type of P' with rbind ?X _ = _ => destruct X as [[[[[[[[q2 c2] e2] r0'] ts2] cl2] cc2'] t2']| |] eqn:R2; cbn [rbind] in P'; try discriminate end.
    match type of P' with rbind ?X _ = _ => destruct X as [[[[[[[[q3 c3] e3] r1'] ts3] cl3] cc3'] t3']| |] eqn:R3; cbn [rbind] in P'; try discriminate end.
    destruct (construct_matrix K rs' r0' r1' qa ql qr gates u0 u1 log_n log_ng) as [mm| |] eqn:Em'; cbn [rbind] in P'; try discriminate.
    match type of P' with (let '(_, _) := ?X in _) = _ => destruct X as [[[[[[[[[pp x1] x2] x3] dd] x4] zs] zds] zc] t4'] eqn:Es' end. injection P' as <-. cbn [fst] in E'.
    pose proof (hx_lengths _ _ _ _ _ _ _ _ _ _ _ _ _ _ _ _ _ _ _ _ R1) as [A1 A2]. pose proof (hx_lengths _ _ _ _ _ _ _ _ _ _ _ _ _ _ _ _ _ _ _ _ R2) as [A3 A4].
    assert (Ep' : c1 ++ c2 ++ c3 = cps1 ++ cps2 ++ cps3) by (rewrite <- Ecps, <- E'; reflexivity). assert (Ee' : e1 ++ e2 ++ e3 = ces1 ++ ces2 ++ ces3) by (rewrite <- Eces, <- E'; reflexivity).
    apply app3_inj in Ep'; [|congruence|congruence]. apply app3_inj in Ee'; [|congruence|congruence]. destruct Ep' as (-> & -> & ->). destruct Ee' as (-> & -> & ->).
    pose proof (Un1 _ _ _ _ _ _ _ _ _ R1) as U1. rewrite (Run1 _ _ _ U1) in R1. injection R1 as <- <- <- <- <- <-. rewrite H1, F1, F2 in *.
    pose proof (Un2 _ _ _ _ _ _ _ _ _ R2) as U2. rewrite (Run2 _ _ _ U2) in R2. injection R2 as <- <- <- <- <- <-. rewrite H2, X0 in *. fold pxg2 in R3.
    pose proof (Un3 _ _ _ _ _ _ _ _ _ R3) as U3. rewrite (Run3 _ _ _ U3) in R3. injection R3 as <- <- <- <- <- <-. rewrite H3, Y0 in *. rewrite Cm in Em'. injection Em' as <-.
    apply (Us z' t4').
    + intros j Hj. cbn [Nat.add] in U1, U2, U3. destruct (Nat.ltb_spec j log_n) as [A|A]; [|destruct (Nat.ltb_spec (j - log_n) log_ng) as [B|B]].
      * destruct (U1 j A) as [Q1 Q2]. rewrite Rv in Q2 by lia. injection Q2 as Q2. destruct (B1 j A) as [-> ->]. split; assumption.
      * destruct (U2 _ B) as [Q1 Q2]. destruct (B2 _ B) as [Q3 Q4]. replace (log_n + (j - log_n))%nat with j in * by lia. rewrite Rv in Q2 by lia. injection Q2 as Q2. rewrite Q3, Q4. split; assumption.
      * destruct (U3 (j - log_n - log_ng)%nat ltac:(lia)) as [Q1 Q2]. destruct (B3 (j - log_n - log_ng)%nat) as [Q3 Q4]. replace (log_n + log_ng + (j - log_n - log_ng))%nat with j in * by lia. rewrite Rv in Q2 by lia. injection Q2 as Q2. rewrite Q3, Q4. split; assumption.
    + etransitivity; [exact Es'|]. rewrite <- E'. reflexivity.
Qed.
End Layer.
End S.
