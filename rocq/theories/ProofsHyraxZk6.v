(** What the value commitments of a layer of hyrax hold, and two of them with one blind. *)
From Verif Require Import Field Poly Module ModTac ProofsPC ModelTranscript ModelMle SpecMle ProofsMle ModelLibra SpecLibra ProofsLibra ProofsLibra2 ProofsLibra3 ProofsLibra4 ModelSigma ProofsSigma ModelSpartan ProofsSpartan3 SpecSumcheck ModelHyrax SpecHyrax2 SpecHyrax3 ProofsHyrax ProofsHyrax2 ProofsHyrax3 ProofsHyrax4 ProofsHyrax5 ProofsHyrax9 ProofsHyrax11 ProofsHyraxZk3.
From Coq Require Import String List Lia.
Import ListNotations.
Local Open Scope string_scope.
Local Open Scope list_scope.
Local Open Scope fld_scope.
Section S.
Variable K : Fld.
Variable G : Grp K.
Variable ch : oracle K G.
Add Field Kf : (f_laws K).
Notation tr := (transcript K G).
Notation com p x b := (poly_commit_vec K G (mc_gens K G p) x (mc_h K G p) b).
Notation eval_eq := (eval_eq K).
Notation V := (V K).
Notation gop := (gop K).
Lemma total_csum T ts n : total K T ts n = csum n (fun p => T (map (fun v => mle v p) ts)) [].
Proof.
  unfold total, csum. rewrite <- cube_vals, map_map. apply fsum_map_ext. intros bs _. cbn [app]. f_equal. unfold at_j. apply map_ext. intro v. symmetry. apply mle_bits.
Qed.
Lemma csum_cons n (F : list K -> K) x pre : csum n F (x :: pre) = csum n (fun p => F (x :: p)) pre.
Proof. reflexivity. Qed.
Lemma csum_ext n (F F' : list K -> K) pre : (forall bs, length bs = n -> F (pre ++ map bit bs) = F' (pre ++ map bit bs)) -> csum n F pre = csum n F' pre.
Proof. intro H. apply fsum_map_ext. intros bs Hb. apply cube_in in Hb. apply H, Hb. Qed.
Section R.
Variables (rp : nat -> list (list K) -> K -> res (list K)) (T : list K -> K) (size : nat) (g1 gn : mcp K G) (ra : nat -> K) (re : nat -> res K).
Hypothesis Hg : good K rp T size.
(** Round i commits to the sum over what is left after i + 1 challenges. *)
Lemma rounds_vals : forall n j ts claim ccom (t : tr) polys cps ces rs ts' cl cc t', Forall (fun v => length v = (2 ^ n)%nat) ts -> claim = total K T ts n ->
  hx_rounds K G ch rp g1 gn size n ra re j ts claim ccom t = Ok (polys, cps, ces, rs, ts', cl, cc, t') ->
  length rs = n /\ forall i, (i < n)%nat -> exists b, re (j + i)%nat = Ok b /\ nth_error ces i = Some (com g1 [csum (n - S i) (fun p => T (map (fun v => mle v p) ts)) (firstn (S i) rs)] b).
Proof.
  induction n as [|n IH]; intros j ts claim ccom t polys cps ces rs ts' cl cc t' L E R.
  { cbn [hx_rounds] in R. injection R as <- <- <- <- _ _ _ _. split; [reflexivity|]. intros i Hi. lia. }
  destruct (Hg n ts claim L E) as (p & Hp & Lp & H01 & Ep). cbn [hx_rounds] in R. rewrite Hp in R. cbn [rbind] in R. unfold draw in R. cbv beta iota zeta in R. rewrite (combine_all_ok K n) in R by exact L. cbn [rbind] in R.
  destruct (re j) as [be0| |] eqn:Er; cbn [rbind] in R; try discriminate. set (r := ch "challenge_nextround" _) in *.
  match type of R with rbind ?X _ = _ => destruct X as [[[[[[[[polys2 cps2] ces2] rs2] ts2] cl2] cc2] t2]| |] eqn:R2; cbn [rbind] in R; try discriminate end.
  injection R as _ _ <- <- _ _ _ _.
  destruct (IH _ _ _ _ _ _ _ _ _ _ _ _ _ (comb_lengths K n ts r L) (Ep r) R2) as [Lrs Hv]. split; [cbn [length]; lia|].
  assert (M : forall m pre, (length pre + m = n)%nat -> csum m (fun p => T (map (fun v => mle v p) (map (comb K r) ts))) pre = csum m (fun p => T (map (fun v => mle v p) ts)) (r :: pre)).
  { intros m pre Hl. apply fsum_map_ext. intros bs Hb. apply cube_in in Hb. f_equal. rewrite map_map. apply map_ext_in. intros v I. apply comb_mle. rewrite app_length, map_length, Hb, Hl. rewrite Forall_forall in L. apply L, I. }
  intros [|i] Hi.
  - exists be0. rewrite Nat.add_0_r. split; [exact Er|]. cbn [nth_error firstn]. rewrite Ep, total_csum, M by (cbn [length]; lia). replace (S n - 1)%nat with n by lia. reflexivity.
  - destruct (Hv i ltac:(lia)) as (b & Eb & Ec). exists b. split; [rewrite <- Eb; f_equal; lia|]. cbn [nth_error]. rewrite Ec, M by (rewrite firstn_length; lia). reflexivity.
Qed.
End R.
Section Layer.
Variables (p : hparams K G) (vs : list (list K)) (gates : list gate) (log_n log_ng : nat) (u0 u1 : K) (qa ql qr : list K).
Hypothesis two : (1 + 1 : K) <> 0.
Hypothesis three : (1 + 1 + 1 : K) <> 0.
Hypothesis Hleg : layer_legal log_ng gates.
Hypothesis Lvs : length vs = (2 ^ log_n)%nat.
Hypothesis Lqa : length qa = log_n.
Hypothesis Lq : length ql = length qr.
Hypothesis Lg : length gates = (2 ^ length ql)%nat.
Notation his := (his K vs gates).
Notation temp := (temp K u0 u1 qa ql qr).
Notation cols := (cols K vs log_ng).
Notation vv := (vv K vs log_ng).
Notation pxg := (pxg K u0 u1 qa ql qr).
Notation sel := (sel K gates log_ng).
Notation poly := (layer_poly log_n log_ng vs qa ql qr u0 u1 gates).
Lemma Hg : map gt_g gates = seq 0 (length gates). Proof. exact (proj1 Hleg). Qed.
Lemma Hop : Forall (fun g => gt_op g = 0 \/ gt_op g = 1)%nat gates. Proof. generalize (proj2 Hleg). apply Forall_impl. tauto. Qed.
Lemma Hlr : forall g, In g gates -> (gt_l g < 2 ^ log_ng /\ gt_r g < 2 ^ log_ng)%nat. Proof. pose proof (proj2 Hleg) as H. rewrite Forall_forall in H. intros g I. destruct (H g I). tauto. Qed.
(** The summand, gate by gate. *)
Lemma phi_gates rs p2 p3 : length rs = log_n -> phi K vs qa ql qr u0 u1 gates rs p2 p3 =
  fsum (map (fun g => nth (gt_l g) (eval_eq p2) 0 * nth (gt_r g) (eval_eq p3) 0 * nth (gt_g g) (pxg rs) 0 * gop g (V vs rs p2) (V vs rs p3)) gates).
Proof.
  intro Lrs. unfold phi, wiring. change (batch_mle vs rs) with (V vs rs). set (x := V vs rs p2). set (y := V vs rs p3).
  assert (E : fsum (map (fun bs => chi bs qa * chi bs rs) (cube (length qa))) = e0 K qa rs).
  { unfold e0, mle. rewrite Lqa, Lrs. apply fsum_map_ext. intros bs Hb. apply cube_in in Hb. rewrite eval_eq_nth by congruence. reflexivity. }
  rewrite E. transitivity (fsum (map (fun g => nth (gt_l g) (eval_eq p2) 0 * nth (gt_r g) (eval_eq p3) 0 * (e0 K qa rs * (nth (gt_g g) (eval_eq ql) 0 * u0 + nth (gt_g g) (eval_eq qr) 0 * u1)) * gop g x y) gates)).
  2:{ apply fsum_map_ext. intros g I. rewrite (pxg_nth K vs gates log_n) by (try assumption; exact Hg). reflexivity. }
  generalize Hop. generalize gates as gs. induction gs as [|g gs IH]; intro Ho; [cbn [map fsum]; ring|]. cbn [map fsum]. rewrite <- IH by exact (Forall_inv_tail Ho). rewrite !pick_eval_eq. unfold ProofsHyrax3.gop.
  destruct (Forall_inv Ho) as [-> | ->]; cbn [Nat.eqb]; ring.
Qed.
(** Summed over the third point. *)
Lemma phi_third rs p2 : length rs = log_n -> length p2 = log_ng -> csum log_ng (fun p3 => phi K vs qa ql qr u0 u1 gates rs p2 p3) [] =
  fsum (map (fun g => nth (gt_l g) (eval_eq p2) 0 * nth (gt_g g) (pxg rs) 0 * gop g (mle (vv rs) p2) (nth (gt_r g) (vv rs) 0)) gates).
Proof.
  intros Lrs L2. unfold csum. cbn [app].
  transitivity (fsum (map (fun b => fsum (map (fun g => nth (gt_l g) (eval_eq p2) 0 * nth (gt_r g) (eval_eq (map (@bit K) b)) 0 * nth (gt_g g) (pxg rs) 0 * gop g (V vs rs p2) (V vs rs (map bit b))) gates)) (cube log_ng))); [apply fsum_map_ext; intros b _; apply phi_gates, Lrs|].
  rewrite (fsum_swap K (fun b g => nth (gt_l g) (eval_eq p2) 0 * nth (gt_r g) (eval_eq (map (@bit K) b)) 0 * nth (gt_g g) (pxg rs) 0 * gop g (V vs rs p2) (V vs rs (map bit b)))).
  apply fsum_map_ext. intros g I. rewrite <- (mle_vv K vs log_ng rs p2 L2). pose (F := fun s => nth (gt_l g) (eval_eq p2) 0 * nth (gt_g g) (pxg rs) 0 * gop g (mle (vv rs) p2) (nth s (vv rs) 0)).
  change (fsum (map (fun b => nth (gt_l g) (eval_eq p2) 0 * nth (gt_r g) (eval_eq (map (@bit K) b)) 0 * nth (gt_g g) (pxg rs) 0 * gop g (mle (vv rs) p2) (V vs rs (map bit b))) (cube log_ng)) = F (gt_r g)).
  rewrite <- (sum_at K log_ng (gt_r g) (fun b => F (bits_val b)) F (proj2 (Hlr g I)) (fun b => eq_refl)).
  apply fsum_map_ext. intros b Hb. apply cube_in in Hb. rewrite <- (pick_eval_eq K (map bit b)), pick_bits. rewrite <- (mle_vv K vs log_ng rs (map bit b)) by (rewrite map_length; exact Hb). rewrite mle_bits. unfold F. ring.
Qed.
Notation T2 rs := (term_2 K gates (pxg rs) (map (fun g => nth (gt_r g) (vv rs) 0) gates)).
Notation T3 rs r0 := (term_2 K gates (map (fun '(a, b) => a * b) (combine (map (fun g => nth (gt_l g) (eval_eq r0) 0) gates ++ [mle (vv rs) r0]) (pxg rs))) (map (fun _ => mle (vv rs) r0) gates)).
Lemma sums_2 rs pre m : length rs = log_n -> (length pre + m = log_ng)%nat -> csum m (fun q => T2 rs (map (fun v => mle v q) (sel gt_l ++ [vv rs]))) pre = csum (m + log_ng) poly (rs ++ pre).
Proof.
  intros Lrs Lp. unfold csum at 2. rewrite cube_app_sum. apply fsum_map_ext. intros b Hb. apply cube_in in Hb.
  assert (L2 : length (pre ++ map (@bit K) b) = log_ng) by (rewrite app_length, map_length; lia).
  rewrite (claim_2 K vs gates log_ng Hg Hop rs gt_l _ _ (fun g I => proj1 (Hlr g I)) _ L2).
  transitivity (csum log_ng (fun p3 => phi K vs qa ql qr u0 u1 gates rs (pre ++ map bit b) p3) []).
  - rewrite phi_third by assumption. apply fsum_map_ext. intros g I. rewrite (nth_idx K gates Hg (fun g => nth (gt_r g) (vv rs) 0) g I). reflexivity.
  - apply fsum_map_ext. intros b3 _. cbn [app]. rewrite <- (layer_poly_phi K log_n log_ng) by assumption. rewrite map_app, <- !app_assoc. reflexivity.
Qed.
Lemma sums_3 rs r0 pre m : length rs = log_n -> length r0 = log_ng -> (length pre + m = log_ng)%nat -> csum m (fun q => T3 rs r0 (map (fun v => mle v q) (sel gt_r ++ [vv rs]))) pre = csum m poly (rs ++ r0 ++ pre).
Proof.
  intros Lrs L0 Lp. apply fsum_map_ext. intros b Hb. apply cube_in in Hb.
  assert (L2 : length (pre ++ map (@bit K) b) = log_ng) by (rewrite app_length, map_length; lia).
  rewrite (claim_2 K vs gates log_ng Hg Hop rs gt_r _ _ (fun g I => proj2 (Hlr g I)) _ L2).
  rewrite <- !app_assoc, (layer_poly_phi K log_n log_ng) by assumption. rewrite phi_gates by exact Lrs. rewrite <- !(mle_vv K vs log_ng) by assumption.
  apply fsum_map_ext. intros g I. rewrite (nth_idx K gates Hg (fun _ => mle (vv rs) r0) g I), (pxg'_nth K gates log_ng) by (try assumption; exact Hg). rewrite (gop_comm K g (mle (vv rs) r0)). ring.
Qed.
Section Run.
Variables (z : zrand K) (claim rc0 : K) (ca : G) (t : tr).
Hypothesis Hc : claim = V his qa ql * u0 + V his qa qr * u1.
Hypothesis Hb : (length ql <= log_ng)%nat.
Theorem values_held pf rs r0 r1 x y t' : zk_prover K G ch p claim ca rc0 u0 u1 qa ql qr gates cols (2 ^ log_n) (2 ^ log_ng) z t = Ok (pf, rs, r0, r1, x, y, t') ->
  length rs = log_n /\ length r0 = log_ng /\ length r1 = log_ng /\ forall i, (i < log_ng)%nat ->
  nth_error (zk_evals K G pf) (log_n + i) = Some (com (hp_1 K G p) [csum (log_ng - S i + log_ng) poly (rs ++ firstn (S i) r0)] (zr_eval K z (log_n + i))) /\
  nth_error (zk_evals K G pf) (log_n + log_ng + i) = Some (com (hp_1 K G p) [csum (log_ng - S i) poly (rs ++ r0 ++ firstn (S i) r1)] (zr_eval K z (log_n + length ql + i))).
Proof.
  intro E. set (revs := map (zr_eval K z) (seq 0 (log_n + 2 * log_ng))).
  assert (RV : forall i, (i < log_n + 2 * log_ng)%nat -> kget K revs i = Ok (zr_eval K z i)). { intros i Hi. unfold revs. rewrite (kget_ok K) by (rewrite map_length, seq_length; exact Hi). f_equal. rewrite (ProofsMle.nth_map_seq K). destruct (Nat.ltb_spec i (log_n + 2 * log_ng)); [reflexivity|lia]. }
  assert (RO : forall i, (i < log_n + 2 * log_ng)%nat -> exists b, kget K revs i = Ok b) by (intros i Hi; eexists; apply RV, Hi).
  destruct (hx_rounds_ok K G ch _ _ 4 (hp_1 K G p) (hp_4 K G p) (zr_poly K z) (fun j => kget K revs j) (good_cubic K (term_1 K gates) (term_1_cubic K gates) two three) log_n 0 (temp ++ cols) claim ca t)
    as (polys1 & cps1 & ces1 & rs' & ts1 & claim1 & cc1 & t1 & R1 & Lrs & T1 & C1 & _ & _ & _ & Le1 & _).
  { apply tables_1; assumption. } { rewrite Hc. symmetry. apply total_1; try assumption; [exact Hg|exact Hlr]. } { intros i Hi. apply RO. lia. }
  rewrite (claim_1 K vs gates log_n log_ng) in C1 by (try assumption; exact Hg).
  assert (Tot2 : claim1 = total K (T2 rs') (sel gt_l ++ [vv rs']) log_ng). { rewrite C1, (total_2 K vs gates log_ng Hg Hop) by (intros g Hin; apply Hlr, Hin). apply fsum_map_ext. intros g Hin. rewrite (nth_idx K gates Hg (fun g => nth (gt_r g) (vv rs') 0) g Hin). reflexivity. }
  pose proof (good_quad K _ (term_2_quad K gates (pxg rs') (map (fun g => nth (gt_r g) (vv rs') 0) gates)) two) as G2.
  destruct (hx_rounds_ok K G ch _ _ 3 (hp_1 K G p) (hp_3 K G p) (fun j => zr_poly K z (log_n + j)) (fun j => kget K revs (log_n + j)) G2 log_ng 0 (sel gt_l ++ [vv rs']) claim1 cc1 t1 (tables_2 K vs gates log_ng rs' gt_l) Tot2 ltac:(intros i Hi; apply RO; lia))
    as (polys2 & cps2 & ces2 & r0' & ts2 & claim2 & cc2 & t2 & R2 & Lr0 & E2 & C2 & _ & _ & _ & Le2 & _).
  rewrite (claim_2 K vs gates log_ng Hg Hop rs' gt_l _ _ (fun g I => proj1 (Hlr g I)) _ Lr0) in C2.
  assert (Tot3 : claim2 = total K (T3 rs' r0') (sel gt_r ++ [vv rs']) log_ng).
  { rewrite C2, (total_2 K vs gates log_ng Hg Hop) by (intros g Hin; apply Hlr, Hin). apply fsum_map_ext. intros g Hin. rewrite (nth_idx K gates Hg (fun _ => mle (vv rs') r0') g Hin), (nth_idx K gates Hg (fun g => nth (gt_r g) (vv rs') 0) g Hin), (pxg'_nth K gates log_ng) by (try assumption; exact Hg). rewrite (gop_comm K g). reflexivity. }
  pose proof (good_quad K _ (term_2_quad K gates (map (fun '(a, b) => a * b) (combine (map (fun g => nth (gt_l g) (eval_eq r0') 0) gates ++ [mle (vv rs') r0']) (pxg rs'))) (map (fun _ => mle (vv rs') r0') gates)) two) as G3.
  destruct (hx_rounds_ok K G ch _ _ 3 (hp_1 K G p) (hp_3 K G p) (fun j => zr_poly K z (log_n + log_ng + j)) (fun j => kget K revs (log_n + length ql + j)) G3 log_ng 0 (sel gt_r ++ [vv rs']) claim2 cc2 t2 (tables_2 K vs gates log_ng rs' gt_r) Tot3 ltac:(intros i Hi; apply RO; lia))
    as (polys3 & cps3 & ces3 & r1' & ts3 & claim3 & cc3 & t3 & R3 & Lr1 & E3 & C3 & _ & _ & _ & Le3 & _).
  unfold zk_prover in E. cbv zeta in E. rewrite !lgp, Lqa, Nat.eqb_refl in E. rewrite Lq in E at 1. rewrite Nat.eqb_refl in E. cbn [negb] in E. fold (xg K u0 u1 ql qr) in E. fold temp in E. rewrite (temp_length K gates u0 u1 qa ql qr Lq Lg), Nat.eqb_refl in E. cbn [negb] in E.
  match type of E with (if ?b then _ else _) = _ => destruct b; [discriminate|] end. fold revs in E.
  rewrite R1 in E. cbn [rbind] in E. rewrite T1, heads_of, (heads_1 K vs log_n log_ng u0 u1 qa ql qr Lqa rs' Lrs) in E. rewrite (firstn_app_exact (pxg rs')), (skipn_app_exact (pxg rs')) in E by (apply pxg_length; assumption).
  rewrite (selectors_ok K gt_l log_ng gates) in E by (intros g Hin; apply Hlr, Hin). cbn [rbind] in E. rewrite (selectors_ok K gt_r log_ng gates) in E by (intros g Hin; apply Hlr, Hin). cbn [rbind] in E. fold (sel gt_l) in E. fold (sel gt_r) in E. rewrite R2 in E. cbn [rbind] in E.
  rewrite E2, heads_of, (heads_2 K vs gates log_ng rs' gt_l) in E by (try exact Lr0; intros g Hin; apply Hlr, Hin). rewrite app_nth2 in E by (rewrite map_length; lia). rewrite map_length, Nat.sub_diag in E. cbn [nth] in E. rewrite R3 in E. cbn [rbind] in E.
  match type of E with rbind ?X _ = _ => destruct X as [mm| |]; cbn [rbind] in E; try discriminate end.
  match type of E with context [sumcheck_prover ?a1 ?a2 ?a3 ?a4 ?a5 ?a6 ?a7 ?a8 ?a9 ?b1 ?b2 ?b3 ?b4] => destruct (sumcheck_prover a1 a2 a3 a4 a5 a6 a7 a8 a9 b1 b2 b3 b4) as [[[[[[[[[pp cx] cy] cz] deltas] cc] zs] zds] zc] t4] end.
  injection E as <- <- <- <- _ _ _. cbn [zk_evals]. split; [exact Lrs|]. split; [exact Lr0|]. split; [exact Lr1|]. intros i Hi.
  destruct (rounds_vals _ _ _ _ _ _ _ G2 _ _ _ _ _ _ _ _ _ _ _ _ _ _ (tables_2 K vs gates log_ng rs' gt_l) Tot2 R2) as [_ V2]. destruct (rounds_vals _ _ _ _ _ _ _ G3 _ _ _ _ _ _ _ _ _ _ _ _ _ _ (tables_2 K vs gates log_ng rs' gt_r) Tot3 R3) as [_ V3].
  destruct (V2 i Hi) as (b2 & B2 & N2). destruct (V3 i Hi) as (b3 & B3 & N3). cbn [Nat.add] in B2, B3. rewrite RV in B2, B3 by lia. injection B2 as <-. injection B3 as <-. split.
  - rewrite nth_error_app2 by lia. replace (log_n + i - length ces1)%nat with i by lia. rewrite nth_error_app1 by lia. rewrite N2, sums_2 by (try assumption; rewrite firstn_length; lia). reflexivity.
  - rewrite nth_error_app2 by lia. rewrite nth_error_app2 by lia. replace (log_n + log_ng + i - length ces1 - length ces2)%nat with i by lia. rewrite N3, sums_3 by (try assumption; rewrite firstn_length; lia). reflexivity.
Qed.
End Run.
End Layer.
End S.
