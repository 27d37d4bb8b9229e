(** Hyrax: what a proof shows of the layer below the last when the last is narrower. *)
From Verif Require Import Field Poly Module ModTac ProofsPC ModelTranscript ModelMle SpecMle ProofsMle SpecSumcheck ModelLibra SpecLibra ProofsLibra ProofsLibra2 ProofsLibra3 ProofsLibra4 ProofsLibraSound ModelSigma ProofsSigma ModelSpartan ProofsSpartan3 ModelSnark ModelSpark ProofsSpark ModelHyrax SpecHyrax SpecHyrax3 AttackHyrax ProofsHyrax ProofsHyrax3 ProofsHyrax4 ProofsHyrax5 ProofsHyrax6 ProofsHyrax7 ProofsHyrax8 SpecSigmaZk SpecHyraxZk ProofsSigmaZk2 ProofsHyraxZk3 ProofsHyraxZk4 ProofsHyraxZk5 ProofsHyraxZk6.
From Coq Require Import String List Lia.
Import ListNotations.
Local Open Scope string_scope.
Local Open Scope list_scope.
Local Open Scope fld_scope.
Section S.
Variable K : Fld.
Variable G : Grp K.
Variable ch : oracle K G.
Add Field Kf : (f_laws K).
Notation tr := (transcript K G).
Notation com p x b := (poly_commit_vec K G (mc_gens K G p) x (mc_h K G p) b).
Notation V := (V K).
Lemma same_blind (g h : G) a b r : poly_commit_vec K G [g] [a] h r = gadd (poly_commit_vec K G [g] [b] h r) (gsm (a - b) g).
Proof. unfold poly_commit_vec. cbn [msm combine map]. gmod. all: ring. Qed.
Section Layer.
Variables (num : nat) (r1 : nat -> G) (g : G) (r3 r4 : nat -> G).
Notation p := (hparams_new K G num r1 g r3 r4).
Variables (vs : list (list K)) (gates : list gate) (log_n log_ng : nat) (u0 u1 : K) (qa ql qr : list K).
Hypothesis two : (1 + 1 : K) <> 0.
Hypothesis three : (1 + 1 + 1 : K) <> 0.
Hypothesis Hn : (1 <= log_n)%nat.
Hypothesis Hleg : layer_legal log_ng gates.
Hypothesis Lvs : length vs = (2 ^ log_n)%nat.
Hypothesis Lqa : length qa = log_n.
Hypothesis Lq : length ql = length qr.
Hypothesis Lg : length gates = (2 ^ length ql)%nat.
Hypothesis Hb : (length ql <= log_ng)%nat.
Variables (z : zrand K) (claim rc0 : K) (t : tr).
Hypothesis Hc : claim = V (his K vs gates) qa ql * u0 + V (his K vs gates) qa qr * u1.
Notation ca := (com (hp_1 K G p) [claim] rc0).
Theorem layer_leak pf rs r0 r1' x y t' : zk_prover K G ch p claim ca rc0 u0 u1 qa ql qr gates (cols K vs log_ng) (2 ^ log_n) (2 ^ log_ng) z t = Ok (pf, rs, r0, r1', x, y, t') ->
  exists all t2, zk_challenges K G ch (log_n + 2 * log_ng) (zk_polys K G pf) (zk_evals K G pf) ca t = Ok (all, t2) /\
  forall j, (length ql + j < log_ng)%nat -> exists A B, nth_error (zk_evals K G pf) (log_n + length ql + j) = Some A /\ nth_error (zk_evals K G pf) (log_n + log_ng + j) = Some B /\
    A = gadd B (gsm (revealed log_n log_ng vs qa ql qr u0 u1 gates all j) g).
Proof.
  intro E. destruct (values_held K G ch p vs gates log_n log_ng u0 u1 qa ql qr two three Hleg Lvs Lqa Lq Lg z claim rc0 ca t Hc Hb _ _ _ _ _ _ _ E) as (Lrs & Lr0 & Lr1 & Vl).
  destruct (layer_ok K G ch p vs gates log_n log_ng u0 u1 qa ql qr two three (Hg gates log_ng Hleg) (Hop gates log_ng Hleg) (Hlr gates log_ng Hleg) Lvs Lqa Lq Lg z claim rc0 t Hc Hn ltac:(right; exact Hb)) as (pf' & rs' & r0' & r1'' & t'' & E' & _ & _ & _ & _ & _ & EV).
  rewrite E in E'. injection E' as <- <- <- <- _ _ _. unfold zk_verify in EV. cbv zeta in EV. rewrite !lgp in EV.
  match type of EV with rbind ?X _ = _ => destruct X as [[all t2]| |] eqn:EC; cbn [rbind] in EV; try discriminate end. exists all, t2. split; [reflexivity|].
  assert (Ea : all = rs ++ r0 ++ r1').
  { match type of EV with rbind ?X _ = _ => destruct X as [mm| |]; cbn [rbind] in EV; try discriminate end. match type of EV with rbind ?X _ = _ => destruct X as [[[|] t3]| |]; cbn [rbind negb] in EV; try discriminate end. assert (Q1 : rs = firstn log_n all) by congruence. assert (Q2 : r0 = firstn log_ng (skipn log_n all)) by congruence. assert (Q3 : r1' = skipn (log_n + log_ng) all) by congruence. rewrite Q1, Q2, Q3.
    rewrite <- (firstn_skipn log_n all) at 1. f_equal. rewrite <- (firstn_skipn log_ng (skipn log_n all)) at 1. f_equal. clear. revert all. induction log_n as [|m IH]; intros [|x l]; cbn [skipn Nat.add]; try reflexivity; [apply skipn_nil|apply IH]. }
  subst all. intros j Hj. destruct (Vl (length ql + j)%nat Hj) as [VA _]. destruct (Vl j ltac:(lia)) as [_ VB]. rewrite Nat.add_assoc in VA. eexists. eexists. split; [exact VA|]. split; [exact VB|].
  cbn [hp_1 hparams_new mc_gens mc_h mc_new]. rewrite (same_blind g _ _ (csum (log_ng - S j) (layer_poly log_n log_ng vs qa ql qr u0 u1 gates) (rs ++ r0 ++ firstn (S j) r1'))). f_equal. f_equal.
  unfold revealed, partial_sum. f_equal.
  - f_equal; [lia|]. rewrite firstn_app. replace (log_n + length ql + j + 1 - length rs)%nat with (S (length ql + j)) by lia. rewrite (firstn_all2 rs) by lia. f_equal. rewrite firstn_app. replace (S (length ql + j) - length r0)%nat with 0%nat by lia. cbn [firstn]. symmetry. apply app_nil_r.
  - f_equal; [lia|]. rewrite firstn_app. rewrite (firstn_all2 rs) by lia. f_equal. rewrite firstn_app. rewrite (firstn_all2 r0) by lia. f_equal. f_equal. lia.
Qed.
End Layer.
Section Main.
Variables (num : nat) (r1 : nat -> G) (g : G) (r3 r4 : nat -> G) (ni na : nat) (low : list raw_layer) (top : raw_layer) (s k a b : nat) (inputs : list (list K)) (ch_hash p_hash : K).
Notation SS := (2 ^ s)%nat.
Notation n := (2 ^ k)%nat.
Notation raw := (low ++ [top]).
Notation p := (hparams_new K G num r1 g r3 r4).
Notation c := (built ni na raw).
Hypothesis two : (1 + 1 : K) <> 0.
Hypothesis three : (1 + 1 + 1 : K) <> 0.
Hypothesis HS : pow2_above (Nat.max ni na) SS.
Hypothesis HL : legal (2 * SS) raw.
Hypothesis Ha : length top = (2 ^ a)%nat.
Hypothesis Hbw : width_after SS low = (2 ^ b)%nat.
Hypothesis Hab : (a <= b)%nat.
Notation ins := (firstn n inputs).
Notation xs w := (combine ins (firstn n w)).
Notation full := (full K raw s).
Notation prove w x := (hx_prover K G ch p w inputs c ch_hash p_hash n (hc_w x) (hc_z x) (hc_0 x) (hc_1 x)).
Lemma top_layer : nth_error (c_layers c) (S (length low)) = Some (mid top).
Proof. cbn [c_layers built nth_error]. rewrite map_app, nth_error_app2 by (rewrite map_length; lia). rewrite map_length, Nat.sub_diag. reflexivity. Qed.
Lemma below_layer : exists lo, nth_error (c_layers c) (length low) = Some lo /\ l_count lo = (2 ^ b)%nat.
Proof.
  destruct low as [|l0 lw] eqn:El.
  - eexists. split; [reflexivity|]. rewrite <- Hbw. cbn [width_after]. exact (count0 ni na [top] s HS _ eq_refl).
  - rewrite <- El in *. assert (Hl : exists d, length low = S d) by (rewrite El; eexists; reflexivity). destruct Hl as [d Hd]. rewrite Hd. cbn [c_layers built nth_error]. rewrite map_app, nth_error_app1 by (rewrite map_length; lia). rewrite nth_error_map.
    destruct (nth_error low d) as [l|] eqn:E; [|apply nth_error_None in E; lia]. eexists. split; [reflexivity|]. cbn [mid l_count]. rewrite <- Hbw. unfold width_after. rewrite El, <- El. rewrite (last_nth low [] d) by exact Hd. rewrite (nth_error_nth _ _ [] E). reflexivity.
Qed.
Lemma lay_below w : paired n inputs w -> lay K (map full (xs w)) (length low) = outputs_of SS low n inputs w.
Proof.
  intro Hl. unfold lay, outputs_of. rewrite map_map. apply map_ext_in. intros [i v] I. unfold ProofsHyrax8.full. cbn [fst snd]. rewrite layer_same by (apply Hl, I).
  apply nth_error_nth. rewrite (sems_at K G (hparams_new K G num r1 g r3 r4) eq_refl) by (rewrite app_length; lia). rewrite firstn_app, Nat.sub_diag, firstn_all. cbn [firstn]. rewrite app_nil_r. reflexivity.
Qed.
Theorem top_leak w x pf os : provable SS raw num n inputs w -> paired n inputs w -> prove w x = Ok (pf, os) ->
  exists u qa q t pf1 rest all t', eval_outputs K G ch os (MGs "comm_witness" (hx_witness K G pf) :: hx_init K G ch_hash p_hash ins os) = Ok (u, qa, q, t) /\ hx_proofs K G pf = pf1 :: rest /\
    let C := com (hp_1 K G p) [u] 0 in
    zk_challenges K G ch (k + 2 * b) (zk_polys K G pf1) (zk_evals K G pf1) C (MG "comm_claim_a0" C :: t) = Ok (all, t') /\
    forall j, (a + j < b)%nat -> exists A B, nth_error (zk_evals K G pf1) (k + a + j) = Some A /\ nth_error (zk_evals K G pf1) (k + b + j) = Some B /\
      A = gadd B (gsm (revealed k b (outputs_of SS low n inputs w) qa q q 1 0 (gates_of top) all j) g).
Proof.
  intros P Hl E. destruct (sizes K num raw s k inputs w P Hl) as (Hk & Hnum & Lw & Li & Ww & Wi). rewrite (unroll K G ch num r1 g r3 r4 ni na raw s k inputs ch_hash p_hash HS HL w P Hl x) in E.
  match type of E with rbind ?X _ = _ => destruct X as [[cw wb]| |] eqn:Epk; cbn [rbind] in E; try discriminate end. set (t0 := MGs "comm_witness" cw :: _) in *.
  assert (Lxs : length (xs w) = n) by (rewrite combine_length, Lw, Li; lia).
  assert (Hraw : raw <> []) by (destruct low; discriminate).
  destruct (outputs_ok K G ch raw s Hraw (xs w) k t0 Lxs) as (qa & q & t1 & EO & Lqa & Lqq). rewrite EO in E. cbn [rbind] in E. set (u := V (outs K raw s (xs w)) qa q) in *. rewrite last_last, Ha, lgn_pow in Lqq.
  match type of E with rbind ?X _ = _ => destruct X as [[[pfs st] t2]| |] eqn:PL; cbn [rbind] in E; try discriminate end. rewrite (surjective_pairing st) in E. rewrite (surjective_pairing (fst st)) in E. rewrite (surjective_pairing (fst (fst st))) in E. rewrite (surjective_pairing (fst (fst (fst st)))) in E. rewrite (surjective_pairing (fst (fst (fst (fst st))))) in E. rewrite (surjective_pairing (fst (fst (fst (fst (fst st)))))) in E.
  match type of E with rbind ?X _ = _ => destruct X as [[[[pf0 y0] eq0] t3]| |] eqn:O0; cbn [rbind] in E; try discriminate end.
  match type of E with rmap _ ?X = _ => destruct X as [[[[pf1 y1] eq1] t4]| |] eqn:O1; cbn [rmap] in E; try discriminate end. injection E as <- <-. cbn [hx_witness hx_proofs].
  destruct (good_full K num ni na raw s k inputs HS HL w P Hl) as [HR HLn]. destruct below_layer as (lo & Hlo & Clo). pose proof top_layer as Hhi.
  pose proof (his_lay K c (map full (xs w)) (length low) lo (mid top) HR Hlo Hhi) as Hh.
  pose proof (layer_evals_ok K (map full (xs w)) (length low) (l_count lo) b ltac:(rewrite Clo; apply Nat.le_refl) (fun ev I => proj2 (HR ev I) (length low) lo Hlo)) as LE. rewrite HLn in LE.
  assert (Hleg : layer_legal b (gates_of top)).
  { destruct (map full (xs w)) as [|ev es] eqn:Ee; [exfalso; cbn [length] in HLn; symmetry in HLn; revert HLn; apply Nat.pow_nonzero; lia|]. destruct (HR ev (or_introl eq_refl)) as [A B]. destruct (B _ lo Hlo) as (v & Ev & Lv).
    destruct (A _ lo (mid top) v Hlo Hhi Ev) as (F & Q & _ & _). split; [exact Q|]. revert F. apply Forall_impl. intros h. rewrite <- Clo, <- Lv. cbv beta. intros (X1 & X2 & X3 & X4). repeat split; try assumption. }
  assert (Lt : length raw = S (length low)) by (rewrite app_length; cbn; lia). rewrite Lt in PL. cbn [hx_layers] in PL. unfold lget in PL. rewrite Hlo, Hhi in PL. cbn [rbind] in PL. rewrite Clo, (proj2 (np_iff (2 ^ b)) (ex_intro _ b eq_refl)) in PL. rewrite <- Clo in PL at 1. rewrite LE in PL. cbn [rbind] in PL.
  match type of PL with rbind ?X _ = _ => destruct X as [[[[[[[pz rs] r0] r1'] xx] yy] t5]| |] eqn:EZ; cbn [rbind] in PL; try discriminate end.
  assert (Ep : exists rest, pfs = pz :: rest). { destruct (length low) in PL; unfold draw in PL; cbv beta iota zeta in PL; match type of PL with rmap _ ?X = _ => destruct X as [[[rest s0] t6]| |]; cbn [rmap] in PL; try discriminate end; injection PL as <- _ _; exists rest; reflexivity. }
  destruct Ep as [rest ->]. change (l_gates (mid top)) with (gates_of top) in EZ, Hh.
  assert (Lv : length (lay K (map full (xs w)) (length low)) = n) by (unfold lay; rewrite map_length; exact HLn).
  assert (Lgt : length (gates_of top) = (2 ^ length q)%nat) by (unfold gates_of; rewrite map_length, combine_length, seq_length, Nat.min_id, Lqq; exact Ha).
  assert (Cl : u = V (his K (lay K (map full (xs w)) (length low)) (gates_of top)) qa q * 1 + V (his K (lay K (map full (xs w)) (length low)) (gates_of top)) qa q * 0) by (rewrite Hh, <- Lt, (proj2 (outs_lay K raw s (xs w))); unfold u; ring).
  destruct (layer_leak num r1 g r3 r4 _ (gates_of top) k b 1 0 qa q q two three Hk Hleg Lv Lqa eq_refl Lgt ltac:(lia) _ u 0 _ Cl _ _ _ _ _ _ _ EZ) as (all & t6 & EC & Hj).
  exists u, qa, q, t1, pz, rest, all, t6. split; [exact EO|]. split; [reflexivity|]. split; [exact EC|]. rewrite Lqq in Hj. rewrite <- (lay_below w Hl). exact Hj.
Qed.
(** Two witnesses with one proof agree on what it shows. *)
Theorem same_proof_same_sums w w' x x' pf os : (forall e, gsm e g = g0 -> e = 0) -> provable SS raw num n inputs w -> paired n inputs w -> provable SS raw num n inputs w' -> paired n inputs w' -> prove w x = Ok (pf, os) -> prove w' x' = Ok (pf, os) ->
  exists u qa q t pf1 rest all t', eval_outputs K G ch os (MGs "comm_witness" (hx_witness K G pf) :: hx_init K G ch_hash p_hash ins os) = Ok (u, qa, q, t) /\ hx_proofs K G pf = pf1 :: rest /\
    let C := com (hp_1 K G p) [u] 0 in
    zk_challenges K G ch (k + 2 * b) (zk_polys K G pf1) (zk_evals K G pf1) C (MG "comm_claim_a0" C :: t) = Ok (all, t') /\
    forall j, (a + j < b)%nat -> revealed k b (outputs_of SS low n inputs w) qa q q 1 0 (gates_of top) all j = revealed k b (outputs_of SS low n inputs w') qa q q 1 0 (gates_of top) all j.
Proof.
  intros Hg0 P Hl P' Hl' E E'. destruct (top_leak w x pf os P Hl E) as (u & qa & q & t & pf1 & rest & all & t' & EO & Ep & EC & HJ). destruct (top_leak w' x' pf os P' Hl' E') as (u' & qa' & q' & t2 & pf1' & rest' & all' & t2' & EO' & Ep' & EC' & HJ').
  rewrite EO in EO'. injection EO' as <- <- <- <-. rewrite Ep in Ep'. injection Ep' as <- <-. cbv zeta in EC, EC'. rewrite EC in EC'. injection EC' as <- <-.
  exists u, qa, q, t, pf1, rest, all, t'. split; [exact EO|]. split; [exact Ep|]. split; [exact EC|]. intros j Hj. destruct (HJ j Hj) as (A & B & NA & NB & EA). destruct (HJ' j Hj) as (A' & B' & NA' & NB' & EA').
  rewrite NA in NA'. injection NA' as <-. rewrite NB in NB'. injection NB' as <-. rewrite EA in EA'. apply gadd_cancel in EA'. set (e := revealed _ _ _ _ _ _ _ _ _ _ _) in *. set (e' := revealed _ _ (outputs_of _ _ _ _ w') _ _ _ _ _ _ _ _) in *.
  assert (Q : e - e' = 0). { apply Hg0. transitivity (gadd (gsm e g) (gsm (- (1)) (gsm e' g))); [gmod; ring|]. rewrite <- EA'. gmod. ring. }
  transitivity (e - e' + e'); [ring|]. rewrite Q. ring.
Qed.
End Main.
End S.
Section Final.
Variable K : Fld.
Variable G : Grp K.
Variable ch : oracle K G.
Variables (num : nat) (r1 : nat -> G) (g : G) (r3 r4 : nat -> G) (ni na : nat) (s k : nat) (inputs : list (list K)) (ch_hash p_hash : K).
Notation n := (2 ^ k)%nat.
Notation p := (hparams_new K G num r1 g r3 r4).
Notation com p x b := (poly_commit_vec K G (mc_gens K G p) x (mc_h K G p) b).
Notation prove c w x := (hx_prover K G ch p w inputs c ch_hash p_hash n (hc_w x) (hc_z x) (hc_0 x) (hc_1 x)).
Hypothesis two : (1 + 1 : K) <> 0.
Hypothesis three : (1 + 1 + 1 : K) <> 0.
Hypothesis HS : pow2_above (Nat.max ni na) (2 ^ s).
Theorem hyrax_witnesses raw c : circuit_new ni na raw = Ok c -> raw <> [] -> even_layers (2 ^ s) raw -> spans (mc_h K G (hp_1 K G p)) -> spans (mc_h K G (hp_3 K G p)) -> spans (mc_h K G (hp_4 K G p)) ->
  forall w w' x pf os, provable (2 ^ s) raw num n inputs w -> provable (2 ^ s) raw num n inputs w' -> paired n inputs w -> paired n inputs w' -> outputs_of (2 ^ s) raw n inputs w = outputs_of (2 ^ s) raw n inputs w' -> prove c w x = Ok (pf, os) ->
  exists x', prove c w' x' = Ok (pf, os) /\ forall y o, prove c w' y = Ok (pf, o) -> hc_same (length raw) k s y x'.
Proof. intros Hc Hraw Hev S1 S3 S4. destruct (circuit_new_inv ni na raw c _ HS Hc) as [HL ->]. apply remake; assumption. Qed.
Theorem hyrax_leak low top c a b : circuit_new ni na (low ++ [top]) = Ok c -> length top = (2 ^ a)%nat -> width_after (2 ^ s) low = (2 ^ b)%nat -> (a <= b)%nat ->
  forall w x pf os, provable (2 ^ s) (low ++ [top]) num n inputs w -> paired n inputs w -> prove c w x = Ok (pf, os) ->
  exists u qa q t pf1 rest all t', eval_outputs K G ch os (MGs "comm_witness" (hx_witness K G pf) :: hx_init K G ch_hash p_hash (firstn n inputs) os) = Ok (u, qa, q, t) /\ hx_proofs K G pf = pf1 :: rest /\
    let C := com (hp_1 K G p) [u] 0 in
    zk_challenges K G ch (k + 2 * b) (zk_polys K G pf1) (zk_evals K G pf1) C (MG "comm_claim_a0" C :: t) = Ok (all, t') /\
    forall j, (a + j < b)%nat -> exists A B, nth_error (zk_evals K G pf1) (k + a + j) = Some A /\ nth_error (zk_evals K G pf1) (k + b + j) = Some B /\
      A = gadd B (gsm (revealed k b (outputs_of (2 ^ s) low n inputs w) qa q q 1 0 (gates_of top) all j) g).
Proof. intros Hc Ha Hb Hab w x pf os. destruct (circuit_new_inv ni na _ c _ HS Hc) as [HL ->]. apply top_leak; assumption. Qed.
Theorem hyrax_leak_two low top c a b : circuit_new ni na (low ++ [top]) = Ok c -> length top = (2 ^ a)%nat -> width_after (2 ^ s) low = (2 ^ b)%nat -> (a <= b)%nat -> (forall e, gsm e g = g0 -> e = 0) ->
  forall w w' x x' pf os, provable (2 ^ s) (low ++ [top]) num n inputs w -> paired n inputs w -> provable (2 ^ s) (low ++ [top]) num n inputs w' -> paired n inputs w' -> prove c w x = Ok (pf, os) -> prove c w' x' = Ok (pf, os) ->
  exists u qa q t pf1 rest all t', eval_outputs K G ch os (MGs "comm_witness" (hx_witness K G pf) :: hx_init K G ch_hash p_hash (firstn n inputs) os) = Ok (u, qa, q, t) /\ hx_proofs K G pf = pf1 :: rest /\
    let C := com (hp_1 K G p) [u] 0 in
    zk_challenges K G ch (k + 2 * b) (zk_polys K G pf1) (zk_evals K G pf1) C (MG "comm_claim_a0" C :: t) = Ok (all, t') /\
    forall j, (a + j < b)%nat -> revealed k b (outputs_of (2 ^ s) low n inputs w) qa q q 1 0 (gates_of top) all j = revealed k b (outputs_of (2 ^ s) low n inputs w') qa q q 1 0 (gates_of top) all j.
Proof. intros Hc Ha Hb Hab Hg0 w w' x x' pf os. destruct (circuit_new_inv ni na _ c _ HS Hc) as [HL ->]. apply same_proof_same_sums; assumption. Qed.
End Final.
