(** Hyrax: completeness, totality and panics of one layer. *)
From Verif Require Import Field Poly Module ModTac ProofsPC ModelTranscript ModelMle SpecMle ProofsMle ModelLibra ProofsLibra ProofsLibra2 ModelSigma ProofsSigma ModelSpartan ProofsSpartan3 ModelSnark ModelHyrax ProofsHyrax ProofsHyrax2 ProofsHyrax3 ProofsHyrax4.
From Coq Require Import String List Lia.
Import ListNotations.
Local Open Scope string_scope.
Local Open Scope list_scope.
Local Open Scope fld_scope.
Section S.
Variable K : Fld.
Variable G : Grp K.
Variable ch : oracle K G.
Add Field Kf : (f_laws K).
Notation tr := (transcript K G).
Notation com p x b := (poly_commit_vec K G (mc_gens K G p) x (mc_h K G p) b).
Notation gval := (gval K).
Notation eval_eq := (eval_eq K).
Notation V := (V K).
Notation gop := (gop K).
Section Layer.
Variables (p : hparams K G) (vs : list (list K)) (gates : list gate) (log_n log_ng : nat) (u0 u1 : K) (qa ql qr : list K).
Hypothesis two : (1 + 1 : K) <> 0.
Hypothesis three : (1 + 1 + 1 : K) <> 0.
Hypothesis Hg : map gt_g gates = seq 0 (length gates).
Hypothesis Hop : Forall (fun g => gt_op g = 0 \/ gt_op g = 1)%nat gates.
Hypothesis Hlr : forall g, In g gates -> (gt_l g < 2 ^ log_ng /\ gt_r g < 2 ^ log_ng)%nat.
Hypothesis Lvs : length vs = (2 ^ log_n)%nat.
Hypothesis Lqa : length qa = log_n.
Hypothesis Lq : length ql = length qr.
Notation cols := (cols K vs log_ng).
Notation his := (his K vs gates).
Notation temp := (temp K u0 u1 qa ql qr).
Notation vv := (vv K vs log_ng).
Notation pxg := (pxg K u0 u1 qa ql qr).
Notation sel := (sel K gates log_ng).
Lemma lg k : log2c (2 ^ k) = k.
Proof. unfold log2c. apply Nat.log2_up_pow2. lia. Qed.
Lemma no_range : existsb (fun g => Nat.leb (2 ^ log_ng) (gt_l g) || Nat.leb (2 ^ log_ng) (gt_r g)) gates = false.
Proof.
  destruct (existsb _ gates) eqn:E; [|reflexivity]. apply existsb_exists in E. destruct E as (g & Hin & H). destruct (Hlr g Hin) as [A B]. apply Bool.orb_true_iff in H. destruct H as [H|H]; apply Nat.leb_le in H; lia.
Qed.
Lemma heads_of (ts : list (list K)) rs : map (fun v => nth 0 v 0) (map (fun v => [mle v rs]) ts) = map (fun v => mle v rs) ts.
Proof. rewrite map_map. reflexivity. Qed.
Lemma firstn_app_exact {A} (a b : list A) n : length a = n -> firstn n (a ++ b) = a.
Proof. intros <-. rewrite firstn_app, Nat.sub_diag, firstn_all. apply app_nil_r. Qed.
Lemma skipn_app_exact {A} (a b : list A) n : length a = n -> skipn n (a ++ b) = b.
Proof. intros <-. rewrite skipn_app, Nat.sub_diag, skipn_all. reflexivity. Qed.
Lemma wrong_count z claim ca rc0 evals (t : tr) : length gates <> (2 ^ length ql)%nat -> zk_prover K G ch p claim ca rc0 u0 u1 qa ql qr gates evals (2 ^ log_n) (2 ^ log_ng) z t = Panic.
Proof.
  intro N. unfold zk_prover. rewrite lg, Lqa, Nat.eqb_refl, Lq, Nat.eqb_refl. cbn [negb]. destruct (Nat.eqb_spec (length (map (fun x => map (fun e => e * x) (eval_eq qa)) (map (fun '(a, b) => a * u0 + b * u1) (combine (eval_eq ql) (eval_eq qr))))) (length gates)) as [E|_]; [|reflexivity].
  exfalso. apply N. rewrite <- E, !map_length, combine_length, !eval_eq_length, Lq. apply Nat.min_id.
Qed.
Hypothesis Lg : length gates = (2 ^ length ql)%nat.
Section Run.
Variables (z : zrand K) (claim rc0 : K) (t : tr).
Hypothesis Hc : claim = V his qa ql * u0 + V his qa qr * u1.
Let ca : G := com (hp_1 K G p) [claim] rc0.
Let revs : list K := map (zr_eval K z) (seq 0 (log_n + 2 * log_ng)).
Lemma revs_ok i : (i < log_n + 2 * log_ng)%nat -> exists b, kget K revs i = Ok b.
Proof. intro H. unfold revs. rewrite (kget_ok K) by (rewrite map_length, seq_length; exact H). eexists; reflexivity. Qed.
Lemma revs_out i : (log_n + 2 * log_ng <= i)%nat -> kget K revs i = Panic.
Proof. intro H. unfold kget. destruct (nth_error revs i) as [x|] eqn:E; [|reflexivity]. exfalso. assert (nth_error revs i <> None) as Q by (rewrite E; discriminate). apply nth_error_Some in Q. unfold revs in Q. rewrite map_length, seq_length in Q. lia. Qed.
(** Up to the third sum-check. *)
Lemma two_phases : exists polys1 cps1 ces1 rs claim1 polys2 cps2 ces2 r0 claim2 cc2 t2,
  length rs = log_n /\ length r0 = log_ng /\ chain K claim polys1 rs claim1 /\ chain K claim1 polys2 r0 claim2 /\
  (claim2 = fsum (map (fun g => nth (gt_l g) (eval_eq r0) 0 * nth (gt_g g) (pxg rs) 0 * gop g (mle (vv rs) r0) (nth (gt_r g) (vv rs) 0)) gates)) /\
  Forall (fun q => length q = 4%nat) polys1 /\ length polys1 = log_n /\ length ces1 = log_n /\ length cps1 = log_n /\ Forall (fun q => length q = 3%nat) polys2 /\ length polys2 = log_ng /\ length ces2 = log_ng /\ length cps2 = log_ng /\
  (forall i, (i < log_n)%nat -> nth_error cps1 i = Some (com (hp_4 K G p) (nth i polys1 []) (zr_poly K z i))) /\
  (forall i, (i < log_ng)%nat -> nth_error cps2 i = Some (com (hp_3 K G p) (nth i polys2 []) (zr_poly K z (log_n + i)))) /\
  (forall m cps ces, zk_challenges K G ch (log_n + log_ng + m) ((cps1 ++ cps2) ++ cps) ((ces1 ++ ces2) ++ ces) ca t = rmap (fun '(rs', t) => ((rs ++ r0) ++ rs', t)) (zk_challenges K G ch m cps ces cc2 t2)) /\
  zk_prover K G ch p claim ca rc0 u0 u1 qa ql qr gates cols (2 ^ log_n) (2 ^ log_ng) z t =
    rbind (hx_rounds K G ch (round_quad K (term_2 K gates (map (fun '(a, b) => a * b) (combine (map (fun g => nth (gt_l g) (eval_eq r0) 0) gates ++ [mle (vv rs) r0]) (pxg rs))) (map (fun _ => mle (vv rs) r0) gates))) (hp_1 K G p) (hp_3 K G p) 3 log_ng (fun j => zr_poly K z (log_n + log_ng + j)) (fun j => kget K revs (log_n + length ql + j)) 0 (sel gt_r ++ [vv rs]) claim2 cc2 t2)
    (fun '(polys3, cps3, ces3, r1, ts, claim, ccom, t) =>
     let y := nth (length gates) (map (fun v => nth 0 v 0) ts) 0 in
     rbind (construct_matrix K rs r0 r1 qa ql qr gates u0 u1 log_n log_ng) (fun mm =>
     let pie := concat (polys1 ++ polys2 ++ polys3) ++ [mle (vv rs) r0; y; mle (vv rs) r0 * y] in
     let '(pp, cx, cy, cz, deltas, cc, zs, zds, zc, t) := sumcheck_prover K G ch p (mle (vv rs) r0) y log_ng log_n mm pie rc0 z t in
     Ok (mkZk K G pp ca cc cx cy cz (cps1 ++ cps2 ++ cps3) (ces1 ++ ces2 ++ ces3) deltas zs zds zc, rs, r0, r1, mle (vv rs) r0, y, t))).
Proof.
  destruct (hx_rounds_ok K G ch _ _ 4 (hp_1 K G p) (hp_4 K G p) (zr_poly K z) (fun j => kget K revs j) (good_cubic K (term_1 K gates) (term_1_cubic K gates) two three) log_n 0 (temp ++ cols) claim ca t)
    as (polys1 & cps1 & ces1 & rs & ts1 & claim1 & cc1 & t1 & R1 & Lrs & T1 & C1 & Ch1 & W1 & Lp1 & Le1 & Lc1 & N1 & Z1).
  { apply tables_1; assumption. } { rewrite Hc. symmetry. apply total_1; assumption. } { intros i Hi. apply revs_ok. lia. }
  rewrite (claim_1 K vs gates log_n log_ng) in C1 by assumption.
  destruct (hx_rounds_ok K G ch _ _ 3 (hp_1 K G p) (hp_3 K G p) (fun j => zr_poly K z (log_n + j)) (fun j => kget K revs (log_n + j)) (good_quad K _ (term_2_quad K gates (pxg rs) (map (fun g => nth (gt_r g) (vv rs) 0) gates)) two) log_ng 0 (sel gt_l ++ [vv rs]) claim1 cc1 t1)
    as (polys2 & cps2 & ces2 & r0 & ts2 & claim2 & cc2 & t2 & R2 & Lr0 & T2 & C2 & Ch2 & W2 & Lp2 & Le2 & Lc2 & N2 & Z2).
  { apply tables_2. } { rewrite C1, (total_2 K vs gates log_ng) by (try assumption; intros g Hin; apply Hlr, Hin). apply fsum_map_ext. intros g Hin. rewrite (nth_idx K gates Hg (fun g => nth (gt_r g) (vv rs) 0) g Hin). reflexivity. } { intros i Hi. apply revs_ok. lia. }
  rewrite (claim_2 K vs gates log_ng) in C2 by (try assumption; intros g Hin; apply Hlr, Hin).
  exists polys1, cps1, ces1, rs, claim1, polys2, cps2, ces2, r0, claim2, cc2, t2. split; [exact Lrs|]. split; [exact Lr0|]. split; [exact Ch1|]. split; [exact Ch2|]. split.
  { rewrite C2. apply fsum_map_ext. intros g Hin. rewrite (nth_idx K gates Hg (fun g => nth (gt_r g) (vv rs) 0) g Hin). reflexivity. }
  do 8 (split; [assumption|]). split; [exact N1|]. split; [exact N2|]. split.
  { intros m cps ces. rewrite <- !app_assoc, <- Nat.add_assoc. rewrite Z1, Z2. destruct (zk_challenges K G ch m _ _ _ _) as [[rs' t']| |]; cbn [rmap rbind]; [rewrite <- app_assoc|..]; reflexivity. }
  unfold zk_prover. cbv zeta. rewrite !lg, Lqa, Nat.eqb_refl. rewrite Lq at 1. rewrite Nat.eqb_refl. cbn [negb]. fold (xg K u0 u1 ql qr). fold temp. rewrite (temp_length K gates u0 u1 qa ql qr Lq Lg), Nat.eqb_refl. cbn [negb]. rewrite no_range. fold revs.
  rewrite R1. cbn [rbind]. rewrite T1, heads_of, (heads_1 K vs log_n log_ng u0 u1 qa ql qr Lqa rs Lrs). rewrite (firstn_app_exact (pxg rs)), (skipn_app_exact (pxg rs)) by (apply pxg_length; assumption).
  rewrite (selectors_ok K gt_l log_ng gates) by (intros g Hin; apply Hlr, Hin). cbn [rbind]. rewrite (selectors_ok K gt_r log_ng gates) by (intros g Hin; apply Hlr, Hin). cbn [rbind]. fold (sel gt_l). fold (sel gt_r). rewrite R2. cbn [rbind].
  rewrite T2, heads_of, (heads_2 K vs gates log_ng rs gt_l) by (try exact Lr0; intros g Hin; apply Hlr, Hin). rewrite app_nth2 by (rewrite map_length; lia). rewrite map_length, Nat.sub_diag. cbn [nth]. reflexivity.
Qed.
Theorem layer_panics : (1 <= log_ng)%nat -> (log_ng < length ql)%nat -> zk_prover K G ch p claim ca rc0 u0 u1 qa ql qr gates cols (2 ^ log_n) (2 ^ log_ng) z t = Panic.
Proof.
  intros H1 H2. destruct two_phases as (polys1 & cps1 & ces1 & rs & claim1 & polys2 & cps2 & ces2 & r0 & claim2 & cc2 & t2 & Lrs & Lr0 & Ch1 & Ch2 & C2 & W1 & Lp1 & Le1 & Lc1 & W2 & Lp2 & Le2 & Lc2 & N1 & N2 & Z & ->).
  set (i := if Nat.leb (2 * log_ng) (length ql) then 0%nat else (2 * log_ng - length ql)%nat).
  rewrite (hx_rounds_panic K G ch _ _ 3 (hp_1 K G p) (hp_3 K G p) (fun j => zr_poly K z (log_n + log_ng + j)) (fun j => kget K revs (log_n + length ql + j)) (good_quad K _ (term_2_quad K gates _ _) two) log_ng 0 _ _ _ _ i); [reflexivity|apply tables_2| | | |].
  - rewrite C2, (total_2 K vs gates log_ng) by (try assumption; intros g Hin; apply Hlr, Hin). apply fsum_map_ext. intros g Hin. rewrite (nth_idx K gates Hg (fun _ => mle (vv rs) r0) g Hin). rewrite (pxg'_nth K gates log_ng) by assumption. rewrite (gop_comm K g). reflexivity.
  - unfold i. destruct (Nat.leb_spec (2 * log_ng) (length ql)); lia.
  - apply revs_out. unfold i. destruct (Nat.leb_spec (2 * log_ng) (length ql)); lia.
  - intros i' Hi'. apply revs_ok. unfold i in Hi'. destruct (Nat.leb_spec (2 * log_ng) (length ql)); lia.
Qed.
(** With one instance the matrix cannot be built. *)
Theorem single_panics : log_n = 0%nat -> zk_prover K G ch p claim ca rc0 u0 u1 qa ql qr gates cols (2 ^ log_n) (2 ^ log_ng) z t = Panic.
Proof.
  intro H0. destruct (Nat.leb_spec (length ql) log_ng) as [H1|H1]; [|destruct (Nat.eq_dec log_ng 0) as [H2|H2]; [|apply layer_panics; lia]].
  1,2: destruct two_phases as (polys1 & cps1 & ces1 & rs & claim1 & polys2 & cps2 & ces2 & r0 & claim2 & cc2 & t2 & Lrs & Lr0 & Ch1 & Ch2 & C2 & W1 & Lp1 & Le1 & Lc1 & W2 & Lp2 & Le2 & Lc2 & N1 & N2 & Z & ->);
    match goal with |- context [hx_rounds K G ch ?rp ?g1 ?gn ?sz ?n ?ra ?re ?j ?ts ?cl ?cc ?tt] => destruct (hx_rounds_ok K G ch _ _ sz g1 gn ra re (good_quad K _ (term_2_quad K gates (map (fun '(a, b) => a * b) (combine (map (fun g => nth (gt_l g) (eval_eq r0) 0) gates ++ [mle (vv rs) r0]) (pxg rs))) (map (fun _ => mle (vv rs) r0) gates)) two) n j ts cl cc tt)
      as (polys3 & cps3 & ces3 & r1 & ts3 & claim3 & cc3 & t3 & R3 & _) end;
    [apply tables_2|rewrite C2, (total_2 K vs gates log_ng) by (try assumption; intros g Hin; apply Hlr, Hin); apply fsum_map_ext; intros g Hin; rewrite (nth_idx K gates Hg (fun _ => mle (vv rs) r0) g Hin), (pxg'_nth K gates log_ng) by assumption; rewrite (gop_comm K g); reflexivity|intros i Hi; apply revs_ok; lia|];
    rewrite R3; cbn [rbind]; unfold construct_matrix; rewrite H0; reflexivity.
Qed.
Theorem layer_ok : (1 <= log_n)%nat -> (log_ng = 0 \/ length ql <= log_ng)%nat ->
  exists pf rs r0 r1 t', zk_prover K G ch p claim ca rc0 u0 u1 qa ql qr gates cols (2 ^ log_n) (2 ^ log_ng) z t = Ok (pf, rs, r0, r1, V vs rs r0, V vs rs r1, t') /\
    zk_x K G pf = com (hp_1 K G p) [V vs rs r0] (zr_x K z) /\ zk_y K G pf = com (hp_1 K G p) [V vs rs r1] (zr_y K z) /\ length rs = log_n /\ length r0 = log_ng /\ length r1 = log_ng /\
    zk_verify K G ch p pf ca u0 u1 qa ql qr gates (2 ^ log_n) (2 ^ log_ng) t = Ok (zk_x K G pf, zk_y K G pf, rs, r0, r1, t').
Proof.
  intros Hn Hb. destruct two_phases as (polys1 & cps1 & ces1 & rs & claim1 & polys2 & cps2 & ces2 & r0 & claim2 & cc2 & t2 & Lrs & Lr0 & Ch1 & Ch2 & C2 & W1 & Lp1 & Le1 & Lc1 & W2 & Lp2 & Le2 & Lc2 & N1 & N2 & Z & ->).
  match goal with |- context [hx_rounds K G ch ?rp ?g1 ?gn ?sz ?n ?ra ?re ?j ?ts ?cl ?cc ?tt] => destruct (hx_rounds_ok K G ch _ _ sz g1 gn ra re (good_quad K _ (term_2_quad K gates (map (fun '(a, b) => a * b) (combine (map (fun g => nth (gt_l g) (eval_eq r0) 0) gates ++ [mle (vv rs) r0]) (pxg rs))) (map (fun _ => mle (vv rs) r0) gates)) two) n j ts cl cc tt)
    as (polys3 & cps3 & ces3 & r1 & ts3 & claim3 & cc3 & t3 & R3 & Lr1 & T3 & C3 & Ch3 & W3 & Lp3 & Le3 & Lc3 & N3 & Z3) end.
  { apply tables_2. } { rewrite C2, (total_2 K vs gates log_ng) by (try assumption; intros g Hin; apply Hlr, Hin). apply fsum_map_ext. intros g Hin. rewrite (nth_idx K gates Hg (fun _ => mle (vv rs) r0) g Hin), (pxg'_nth K gates log_ng) by assumption. rewrite (gop_comm K g). reflexivity. } { intros i Hi. apply revs_ok. lia. }
  rewrite (claim_2 K vs gates log_ng) in C3 by (try assumption; intros g Hin; apply Hlr, Hin).
  rewrite R3. cbn [rbind]. rewrite T3, heads_of, (heads_2 K vs gates log_ng rs gt_r) by (try exact Lr1; intros g Hin; apply Hlr, Hin). rewrite app_nth2 by (rewrite map_length; lia). rewrite map_length, Nat.sub_diag. cbn [nth].
  set (x := mle (vv rs) r0) in *. set (y := mle (vv rs) r1) in *.
  destruct (gate_evals_ok K vs gates log_n log_ng u0 u1 qa ql qr Hg Hop Hlr Lvs Lqa Lq Lg rs Lrs r0 r1 gates Lr0 Lr1 (fun g H => H) 0 0) as (add & mul & Ea & Em).
  assert (Cm : construct_matrix K rs r0 r1 qa ql qr gates u0 u1 log_n log_ng = Ok (map (widen K (4 * log_n + 6 * log_ng + 3)) (ends K 4 :: mat_rows K 0 (widths log_n log_ng) (rs ++ r0 ++ r1) [add; add; mul]))).
  { unfold construct_matrix. destruct (Nat.eqb_spec log_n 0); [lia|]. rewrite (e0_ok K log_n qa Lqa rs Lrs). cbn [rbind]. unfold gate_evals. rewrite Ea. reflexivity. }
  rewrite Cm. cbn [rbind].
  assert (Fin : claim3 = add * x + add * y + mul * (x * y)).
  { specialize (Em x y). rewrite C3. transitivity (add * (x + y) + mul * (x * y)); [|ring]. rewrite Em. transitivity (fsum (map (fun g => nth (gt_r g) (eval_eq r1) 0 * (nth (gt_l g) (eval_eq r0) 0 * nth (gt_g g) (pxg rs) 0) * gop g y x) gates)); [|ring].
    apply fsum_map_ext. intros g Hin. rewrite (nth_idx K gates Hg (fun _ => x) g Hin), (pxg'_nth K gates log_ng) by assumption. reflexivity. }
  assert (Chn : chain K claim (polys1 ++ polys2 ++ polys3) (rs ++ r0 ++ r1) (add * x + add * y + mul * (x * y))) by (rewrite <- Fin; apply (chain_app K) with (b := claim1); [exact Ch1|]; apply (chain_app K) with (b := claim2); assumption).
  assert (Wd : map (@length K) (polys1 ++ polys2 ++ polys3) = widths log_n log_ng).
  { assert (Q : forall w n ps, Forall (fun q : list K => length q = w) ps -> length ps = n -> map (@length K) ps = repeat w n) by (clear; intros w n ps F <-; induction F as [|q ps Hq _ IH]; [reflexivity|]; cbn [map length repeat]; rewrite Hq, IH; reflexivity).
    rewrite !map_app, (Q 4%nat log_n polys1 W1 Lp1), (Q 3%nat log_ng polys2 W2 Lp2), (Q 3%nat log_ng polys3 W3 Lp3). unfold widths. cbn [Nat.mul]. rewrite Nat.add_0_r, repeat_app. reflexivity. }
  assert (Cp : forall j, (j < log_n + 2 * log_ng)%nat -> nth_error (cps1 ++ cps2 ++ cps3) j = Some (com (if Nat.ltb j log_n then hp_4 K G p else hp_3 K G p) (nth j (polys1 ++ polys2 ++ polys3) []) (zr_poly K z j))).
  { intros j Hj. destruct (Nat.ltb_spec j log_n) as [A|A]; [rewrite nth_error_app1, app_nth1 by lia; apply N1, A|]. rewrite nth_error_app2, app_nth2 by lia. rewrite Lc1, Lp1. destruct (Nat.ltb_spec (j - log_n) log_ng) as [B|B].
    - rewrite nth_error_app1, app_nth1 by lia. rewrite N2 by lia. cbn [Nat.add]. do 3 f_equal. lia.
    - rewrite nth_error_app2, app_nth2 by lia. rewrite Lc2, Lp2, N3 by lia. cbn [Nat.add]. do 3 f_equal. lia. }
  destruct (sumcheck_complete K G ch p x y claim rc0 add mul log_n log_ng (polys1 ++ polys2 ++ polys3) (rs ++ r0 ++ r1) z (cps1 ++ cps2 ++ cps3) (ces1 ++ ces2 ++ ces3) Hn Wd Chn Cp t3) as (pp & cz & cc & zc & deltas & zs & zds & t' & Es & Ev).
  cbv zeta in Es, Ev. rewrite Es. do 4 eexists. exists t'. split; [rewrite <- (mle_vv K vs log_ng rs r0 Lr0), <- (mle_vv K vs log_ng rs r1 Lr1); reflexivity|]. cbn [zk_x zk_y].
  split; [rewrite <- (mle_vv K vs log_ng rs r0 Lr0); reflexivity|]. split; [rewrite <- (mle_vv K vs log_ng rs r1 Lr1); reflexivity|]. do 3 (split; [assumption|]). unfold zk_verify. cbv zeta. rewrite !lg. cbn [zk_polys zk_evals].
  specialize (Z log_ng cps3 ces3). specialize (Z3 0%nat [] []). rewrite !app_nil_r, Nat.add_0_r in Z3. rewrite <- !app_assoc in Z. replace (log_n + 2 * log_ng)%nat with (log_n + log_ng + log_ng)%nat by lia. rewrite Z, Z3. cbn [zk_challenges rmap rbind]. rewrite app_nil_r, <- !app_assoc.
  rewrite (firstn_app_exact rs) by exact Lrs. rewrite (skipn_app_exact rs) by exact Lrs. rewrite (firstn_app_exact r0) by exact Lr0. rewrite app_assoc, (skipn_app_exact (rs ++ r0)) by (rewrite app_length; lia). rewrite Cm. cbn [rbind]. fold ca in Ev. rewrite Ev. reflexivity.
Qed.
End Run.
End Layer.
End S.
