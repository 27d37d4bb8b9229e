(** Completeness, totality and the panics of libra's zero-knowledge protocol, assembled. *)
From Verif Require Import Field Poly Module ModTac ModelTranscript ModelMle ModelLibra ModelSigma SpecSigma ModelSpartan ModelSnark ModelHyrax ModelLibraZk SpecMle SpecLibra SpecLibraZk ProofsPC ProofsMle ModelBulletproofs ProofsIPP ProofsBulletproofs ProofsLibra ProofsLibra2 ProofsLibra3 ProofsLibra4 ProofsSigma ProofsSigma3 ProofsSigma4 ProofsSpartan2 ProofsSpartan3 ProofsSpartan4 ProofsHyrax7 ProofsHyrax8 ProofsLibraZk ProofsLibraZk2.
From Coq Require Import String List Lia.
Import ListNotations.
Local Open Scope string_scope.
Local Open Scope list_scope.
Local Open Scope fld_scope.
Section O.
Variable K : Fld.
Variable G : Grp K.
Variable ch : oracle K G.
Add Field Kflz3 : (f_laws K).
Notation tr := (transcript K G).
Notation com p x b := (poly_commit_vec K G (mc_gens K G p) x (mc_h K G p) b).
(** The equality proof when the verifier's second commitment hides y' instead of y. *)
Lemma eq_off2 (p : mcp K G) g gs (x y y' b1 b2 r : K) t pf t1 : mc_gens _ _ p = g :: gs -> x = y -> eq_proof K G ch p x b1 y b2 r t = (pf, t1) ->
  {c : K & {c' : K & {tc : tr & {tv : tr | c' = ch "c" tc /\ eq_verify K G ch p (com p [x] b1) (com p [y'] b2) pf t = (geqb (gsm ((c - c') * (b1 - b2)) (mc_h _ _ p)) (gsm (c' * (x - y')) g), tv) /\ (x = y' -> tv = t1 /\ c = c')}}}}.
Proof.
  intros E Exy H. subst y. unfold eq_proof, draw in H. cbv zeta in H.
  exists (ch "c" (MG "alpha" (gsm r (mc_h K G p)) :: MG "C2" (com p [x] b2) :: MG "C1" (com p [x] b1) :: t)).
  exists (ch "c" (MG "alpha" (gsm r (mc_h K G p)) :: MG "C2" (com p [y'] b2) :: MG "C1" (com p [x] b1) :: t)).
  exists (MG "alpha" (gsm r (mc_h K G p)) :: MG "C2" (com p [y'] b2) :: MG "C1" (com p [x] b1) :: t). eexists.
  match type of H with (mkEP _ _ _ (?c * _ + _), _) = _ => set (c0 := c) in * end.
  injection H as <- <-. split; [reflexivity|]. split.
  - unfold eq_verify, draw. cbv zeta. cbn [ep_alpha ep_z]. f_equal. match goal with |- geqb _ (gadd (gsm ?c _) _) = _ => set (c1 := c) end. clearbody c0 c1.
    rewrite E. unfold poly_commit_vec. rewrite !msm1. cbn [hd]. apply Bool.eq_iff_eq_true. rewrite !geqb_true. split; intro Q.
    + transitivity (gadd (gsm (c0 * (b1 - b2) + r) (mc_h K G p)) (gopp (gsm (c1 * (b1 - b2) + r) (mc_h K G p)))); [gmod; ring|]. rewrite Q. gmod; ring.
    + transitivity (gadd (gsm ((c0 - c1) * (b1 - b2)) (mc_h K G p)) (gsm (c1 * (b1 - b2) + r) (mc_h K G p))); [gmod; ring|]. rewrite Q. gmod; ring.
  - intro X. subst y'. split; reflexivity.
Qed.
Variable p : hparams K G.
Hypothesis E1 : hp_1 K G p = pc_gen_1 K G (hp_pc K G p).
Hypothesis Eh : mc_h K G (pc_gen_n K G (hp_pc K G p)) = mc_h K G (pc_gen_1 K G (hp_pc K G p)).
Hypothesis En : length (mc_gens K G (pc_gen_n K G (hp_pc K G p))) = pc_n K G (hp_pc K G p).
Notation gn := (mc_gens K G (pc_gen_n K G (hp_pc K G p))).
Notation hn := (mc_h K G (pc_gen_n K G (hp_pc K G p))).
Notation g1 := (hp_1 K G p).
(** The opening when the value is not the one the verifier recomputes from the witness and its own inputs. *)
Lemma open_off wv wr cw wb inp q0 ry v bv e (t : tr) pf cy eq t' g gs : mc_gens K G g1 = g :: gs ->
  packing_poly_commit K G gn wv hn wr true = Ok (cw, wb) -> z_open K G ch p wv wb (q0 :: ry) v bv e t = Ok (pf, cy, eq, t') -> (length inp <= 2 ^ length ry)%nat ->
  let v' := (1 - q0) * mle wv ry + q0 * mle inp ry in
  {c : K & {c' : K & {tc : tr & {tv : tr | c' = ch "c" tc /\ z_opened K G ch p inp cw (q0 :: ry) (com g1 [v] bv) pf cy eq t =
    (if geqb (gsm ((c - c') * (bv - (1 - q0) * er_blind K e)) (mc_h K G g1)) (gsm (c' * (v - v')) g) then Ok tv else Panic) /\ (v = v' -> tv = t' /\ c = c')}}}}.
Proof.
  intros Eg' Ec E Lp. cbv zeta. unfold z_open in E. unfold z_opened.
  rewrite eval_value_ok in E. destruct (Nat.leb (length wv) (2 ^ length ry)) eqn:Lw; [|discriminate]. rewrite Nat.leb_le in Lw. cbn [rbind] in E. unfold reduce_prover, log2c in E.
  destruct (Nat.eqb (length ry) (Nat.log2_up (length wv))) eqn:Ls; [|discriminate]. rewrite Nat.eqb_eq in Ls. cbn [negb] in E. rewrite <- Ls in E. set (k := length ry) in *.
  destruct (negb (Nat.eqb (2 ^ (k / 2)) _)) eqn:Eb; [discriminate|].
  destruct (Nat.ltb (length wv) (2 ^ (k / 2) * 2 ^ (k - k / 2))) eqn:Ln; [discriminate|]. rewrite Nat.ltb_ge in Ln.
  assert (Hk : (k / 2 <= k)%nat) by apply half_le.
  assert (Lv : length wv = (2 ^ k)%nat). { apply Nat.le_antisymm; [exact Lw|]. rewrite <- Nat.pow_add_r in Ln. replace (k / 2 + (k - k / 2))%nat with k in Ln by lia. exact Ln. }
  set (a := firstn (k / 2) ry) in *. set (b := skipn (k / 2) ry) in *.
  assert (La : length a = (k / 2)%nat) by (unfold a; rewrite firstn_length; fold k; lia). assert (Lb : length b = (k - k / 2)%nat) by (unfold b; rewrite skipn_length; reflexivity).
  destruct (packing_ok K G _ _ _ _ _ k _ _ Lv Ec a b La Lb) as [Lbl EC].
  assert (EB : match wb with [] => repeat 0 (2 ^ (k / 2)) | _ => wb end = wb). { destruct wb; [|reflexivity]. cbn [length] in Lbl. exfalso. symmetry in Lbl. revert Lbl. apply Nat.pow_nonzero. lia. }
  rewrite EB in E. destruct (Nat.ltb (pc_n K G (hp_pc K G p)) (length (eval_eq K b))) eqn:Lr; [discriminate|]. rewrite Nat.ltb_ge in Lr. rewrite eval_eq_length in Lr. rewrite <- Lb in E.
  match type of E with context [log_dot_prove ?a1 ?a2 ?a3 ?a4 ?a5 ?a6 ?a7 ?a8 ?a9 ?b1 ?b2 ?b3 ?b4 ?b5 ?b6] => destruct (log_dot_prove a1 a2 a3 a4 a5 a6 a7 a8 a9 b1 b2 b3 b4 b5 b6) as [[[[pf0 Cl] Cr] t0]| |] eqn:E0; cbn [rmap] in E; try discriminate end.
  destruct (eq_proof K G ch (pc_gen_1 K G (hp_pc K G p)) v bv v ((1 - q0) * er_blind K e) (er_eq K e) t0) as [eq0 t1] eqn:Eq. injection E as <- <- <- <-.
  rewrite E1 in Eg'.
  assert (ECl : Cl = poly_commit_vec K G gn (row_comb K (eval_eq K a) wv (2 ^ length b)) hn (dot (eval_eq K a) wb) /\ Cr = com (pc_gen_1 K G (hp_pc K G p)) [mle wv ry] (er_blind K e)).
  { unfold log_dot_prove, draw in E0. rewrite Eg' in E0. match type of E0 with rbind ?X _ = _ => destruct X as [[[[[[[? ?] ?] ?] ?] ?] ?]| |]; cbn [rbind] in E0; try discriminate end.
    injection E0 as _ <- <- _. rewrite Eg'. split; reflexivity. }
  destruct ECl as [ECl ECr].
  assert (RV : reduce_verifier K G ch (hp_pc K G p) ry cw Cr pf0 t = Ok (true, t0)).
  { apply log_dot_exact with (q := g) (qs := gs) in E0; [|exact Eg'|exact Eh|rewrite row_comb_tab, length_tab, En; exact Lr].
    destruct E0 as (bs & gh & ga & t2 & _ & EV). rewrite row_comb_dot in EV. replace (a ++ b) with ry in EV by (symmetry; apply firstn_skipn).
    unfold reduce_verifier. fold k a b. rewrite <- Eh, EC, <- ECl, EV. f_equal. f_equal.
    apply geqb_true. match goal with |- gsm (?x * (?y - ?y)) _ = _ => replace (x * (y - y)) with (0 : K) by ring end. apply gsm_0. }
  rewrite RV. cbn [rbind negb]. rewrite eval_value_ok. fold k. rewrite (proj2 (Nat.leb_le _ _) Lp). cbn [rbind].
  rewrite ECr, ?Eh, com_mix, E1.
  destruct (eq_off2 (pc_gen_1 K G (hp_pc K G p)) g gs v v ((1 - q0) * mle wv ry + q0 * mle inp ry) bv ((1 - q0) * er_blind K e) (er_eq K e) t0 eq0 t1 Eg' eq_refl Eq) as (c & c' & tc & tv & Ec' & EQ & ES).
  exists c, c', tc, tv. split; [exact Ec'|]. split; [|exact ES]. rewrite EQ. clear. cbv beta iota. match goal with |- context [if negb ?x then _ else _] => destruct x; reflexivity end.
Qed.
End O.
Section Main.
Variable K : Fld.
Variable G : Grp K.
Variable ch : oracle K G.
Add Field Kflz4 : (f_laws K).
Notation tr := (transcript K G).
Notation com p x b := (poly_commit_vec K G (mc_gens K G p) x (mc_h K G p) b).
Variables (num : nat) (r1 : nat -> G) (g : G) (r3 r4 : nat -> G) (ni na : nat) (raw : list raw_layer) (s : nat).
Notation SS := (2 ^ s)%nat.
Notation p := (hparams_new K G num r1 g r3 r4).
Notation g1 := (hp_1 K G p).
Notation c := (built ni na raw).
Variables (inputs w : list K) (hash p_hash : K) (wr : nat -> K) (lrs : nat -> lrand K) (e0 e1 : erand K).
Notation run_p := (z_prove K G ch p c inputs w hash p_hash wr lrs e0 e1).
Notation inp := (actual_layer SS inputs w).
Notation evals := (inp :: sems K inp raw).
Hypothesis two : (1 + 1 : K) <> 0.
Hypothesis HS : pow2_above (Nat.max ni na) SS.
Hypothesis HL : legal (2 * SS) raw.
Hypothesis Hraw : raw <> [].
Hypothesis Hd3 : forall d i, length (rr_d K (lr_one K (lrs d) i)) = 3%nat /\ length (rr_d K (lr_two K (lrs d) i)) = 3%nat.
Lemma zk_layers_nth : zk_layers raw <-> forall i l, (S i < length raw)%nat -> nth_error raw i = Some l -> exists k, (1 <= k)%nat /\ length l = (2 ^ k)%nat.
Proof.
  clear HL Hraw. induction raw as [|l raw' IH]; [split; [intros _ i l H; inversion H|exact (fun _ => I)]|]. destruct raw' as [|l' raw']; [split; [intros _ i x H; cbn in H; lia|exact (fun _ => I)]|].
  change (zk_layers (l :: l' :: raw')) with ((exists k, (1 <= k)%nat /\ length l = (2 ^ k)%nat) /\ zk_layers (l' :: raw')). rewrite IH. split.
  - intros [A B] [|i] x H E; [injection E as <-; exact A|]. apply (B i x); [cbn [length] in *; lia|exact E].
  - intro H. split; [apply (H 0%nat); [cbn; lia|reflexivity]|]. intros i x Hi E. apply (H (S i) x); [cbn [length] in *; lia|exact E].
Qed.
Lemma bits0 : l_bits (input_new ni na) = S s.
Proof. rewrite input_new_bits. cbn [l_bits]. f_equal. rewrite <- (Nat.log2_up_pow2 s), (pow2_above_unique _ _ _ HS (next_pow2_above _)) by lia. unfold next_pow2. rewrite Nat.log2_up_pow2 by lia. reflexivity. Qed.
Lemma sized_iff : length inp = (2 * SS)%nat -> sized K c evals (length raw) <-> zk_layers raw.
Proof.
  intro Li. rewrite zk_layers_nth. split.
  - intros H i l Hi El. destruct (nth_error (c_layers c) (S i)) as [lo|] eqn:Elo.
    2:{ apply nth_error_None in Elo. rewrite built_length in Elo. cbn [c_depth built] in Elo. lia. }
    destruct (nth_error evals (S i)) as [v|] eqn:Ev; [|apply nth_error_None in Ev; cbn [length] in Ev; rewrite sems_length in Ev; lia].
    destruct (H (S i) lo v Hi Elo Ev) as [A B]. destruct (built_sizes K ni na raw SS inp (S i) lo v HS Li HL Elo Ev) as [[Q _]|(l' & j & Q & El' & X & Y)]; [discriminate|]. injection Q as <-. rewrite El in El'. injection El' as <-. exists (l_bits lo). split; [lia|congruence].
  - intros H i lo v Hi Elo Ev. destruct (built_sizes K ni na raw SS inp i lo v HS Li HL Elo Ev) as [[-> Q]|(l & j & -> & El & X & Y)].
    + split; [exact Q|]. cbn [c_layers built nth_error] in Elo. injection Elo as <-. rewrite bits0. discriminate.
    + destruct (H j l Hi El) as (k & K1 & Ek). rewrite Y, X, Ek, Nat.log2_up_pow2 by lia. split; [reflexivity|lia].
Qed.
Lemma sized_dec : length inp = (2 * SS)%nat -> zk_layers raw \/ ~ zk_layers raw.
Proof.
  intros _. clear. induction raw as [|l raw' IH]; [left; exact I|]. destruct raw' as [|l' raw']; [left; exact I|].
  change (zk_layers (l :: l' :: raw')) with ((exists k, (1 <= k)%nat /\ length l = (2 ^ k)%nat) /\ zk_layers (l' :: raw')). destruct IH as [IH|IH]; [|right; tauto].
  destruct (Nat.eq_dec (length l) (2 ^ Nat.log2_up (length l))) as [E|N]; [|right; intros [(k & _ & Q) _]; apply N; apply (pow_exact _ k Q)].
  destruct (le_dec 1 (Nat.log2_up (length l))) as [L|L]; [left; eauto|]. right. intros [(k & K1 & Q) _]. rewrite Q, Nat.log2_up_pow2 in L by lia. lia.
Qed.
Lemma z_cases : (run_p = Panic /\ ~ zk_provable SS raw num inputs w) \/
  (zk_provable SS raw num inputs w /\ exists cw wb pfs u gu t1 r0 r0t r1 r1t t2,
    length r0t = s /\ length r1t = s /\
    packing_poly_commit K G (mc_gens K G (pc_gen_n K G (hp_pc K G p))) w (mc_h K G (pc_gen_n K G (hp_pc K G p))) wr true = Ok (cw, wb) /\
    run_p = rbind (z_open K G ch p w wb (r0 :: r0t) (mle inp (r0 :: r0t)) (lr_x K (lrs 0%nat)) e0 t2) (fun '(pf0, y0, eq0, t) =>
      rmap (fun '(pf1, y1, eq1, t) => (mkZG K G cw pfs pf0 y0 eq0 pf1 y1 eq1, sem inp raw)) (z_open K G ch p w wb (r1 :: r1t) (mle inp (r1 :: r1t)) (lr_y K (lrs 0%nat)) e1 t)) /\
    (forall top, nth_error (c_layers c) (length raw) = Some top -> eval_output K G ch (sem inp raw) (l_bits top) (z_init K G hash p_hash inputs (sem inp raw) cw) = Ok (u, gu, t1)) /\
    z_check K G ch p c pfs (length raw) (com (pc_gen_1 K G (hp_pc K G p)) [1 * u + 0 * 0] 0) 1 0 gu gu t1 = Ok (r0 :: r0t, r1 :: r1t, com g1 [mle inp (r0 :: r0t)] (lr_x K (lrs 0%nat)), com g1 [mle inp (r1 :: r1t)] (lr_y K (lrs 0%nat)), t2) /\
    forall pf0 y0 eq0 pf1 y1 eq1, z_verify K G ch p c (sem inp raw) inputs hash p_hash (mkZG K G cw pfs pf0 y0 eq0 pf1 y1 eq1) =
      rbind (z_opened K G ch p (inputs ++ repeat 0 (SS - length inputs)) cw (r0 :: r0t) (com g1 [mle inp (r0 :: r0t)] (lr_x K (lrs 0%nat))) pf0 y0 eq0 t2) (fun t =>
      rmap (fun _ => true) (z_opened K G ch p (inputs ++ repeat 0 (SS - length inputs)) cw (r1 :: r1t) (com g1 [mle inp (r1 :: r1t)] (lr_y K (lrs 0%nat))) pf1 y1 eq1 t))).
Proof.
  set (R := run_p) at 2. unfold z_prove. rewrite (evaluate_ok K ni na raw SS) by assumption.
  destruct (Nat.leb_spec (length inputs) SS) as [Li|Li]; [|left; split; [reflexivity|intros (Q & _); lia]].
  destruct (Nat.leb_spec (length w) SS) as [Lw|Lw]; [|left; split; [reflexivity|intros (_ & Q & _); lia]]. cbn [andb unwrap rbind].
  change (c_depth c) with (S (length raw)). cbv iota beta. pose proof (actual_length K SS inputs w Li Lw) as Lin.
  unfold vget at 1. rewrite sems_last. cbn [rbind].
  assert (Le : length evals = length (c_layers c)). { cbn [length c_layers built]. rewrite map_length, sems_length. reflexivity. }
  destruct (nth_error (c_layers c) (length raw)) as [top|] eqn:Et; [|apply nth_error_None in Et; rewrite built_length in Et; cbn [c_depth built] in Et; exact (False_ind _ (Nat.nle_succ_diag_l _ Et))]. unfold lget at 1. rewrite Et. cbn [rbind].
  destruct (packing_poly_commit K G _ w _ wr true) as [[cw wb]| |] eqn:Epk.
  2:{ exfalso. unfold packing_poly_commit in Epk. destruct (negb _); discriminate. }
  2:{ left. split; [reflexivity|]. intros (_ & Q & _). destruct (packing_total K G (mc_gens K G (pc_gen_n K G (hp_pc K G p))) w (mc_h K G (pc_gen_n K G (hp_pc K G p))) wr true _ Q) as [r Er]. congruence. }
  cbn [rbind].
  destruct (eval_output_ok K G ch (sem inp raw) (l_bits top) (z_init K G hash p_hash inputs (sem inp raw) cw)) as (gu & t1 & EO & Lgu).
  { destruct (built_sizes K ni na raw SS inp (length raw) top (sem inp raw) HS Lin HL Et (sems_last K raw inp)) as [[_ E]|(l' & j' & _ & _ & X1 & X2)]; [lia|]. rewrite X1, X2. apply log2_up_le. }
  rewrite EO. cbn [rbind]. set (u := mle (sem inp raw) gu) in *.
  assert (Hu : 1 * u + 0 * 0 = 1 * mle (sem inp raw) gu + 0 * mle (sem inp raw) (repeat 0 (length gu))) by (unfold u; ring).
  pose proof (built_run K ni na raw SS inp HS Lin HL) as Hrun.
  destruct (sized_dec Lin) as [Sz|Sz].
  2:{ left. rewrite (z_layers_bad K G ch p two c evals lrs Hrun Le Hd3 (length raw) 1 0 gu (repeat 0 (length gu)) u 0 0 t1 top (sem inp raw) Et (sems_last K raw inp) Lgu) by (rewrite ?repeat_length; try exact Lgu; try exact Hu; rewrite (sized_iff Lin); exact Sz).
      split; [reflexivity|]. intros (_ & _ & Q & _). contradiction. }
  destruct (z_layers_ok K G ch p two c evals lrs Hrun Le Hd3 (length raw) 1 0 gu (repeat 0 (length gu)) gu u 0 0 t1 top (sem inp raw) inp (input_new ni na)) as (pfs & ru & rv & t2 & EP & Lp & Lru & Lrv & EC);
    [destruct raw; [congruence|cbn; lia]|exact Et|apply sems_last|reflexivity|reflexivity|exact Lgu|rewrite repeat_length; exact Lgu|exact Lgu|left; reflexivity|exact Hu|apply (sized_iff Lin), Sz|].
  rewrite EP. cbn [rbind]. rewrite bits0 in Lru, Lrv. destruct ru as [|r0 r0t]; [discriminate|]. destruct rv as [|r1' r1t]; [discriminate|]. injection Lru as Lru. injection Lrv as Lrv.
  destruct (Nat.eq_dec (length w) SS) as [El|Nl]; [destruct (le_dec (2 ^ (s - s / 2)) (pc_n K G (hp_pc K G p))) as [Ef|Nf]|].
  2:{ left. rewrite z_open_hx, open_bad by (cbn [app]; rewrite Lru; tauto). split; [reflexivity|]. intros (_ & _ & _ & s' & Q2 & Q3). apply Nf. apply Nat.pow_inj_r in Q2; [|lia]. subst s'. cbn [hp_pc pc_n hparams_new]. apply Nat.pow_le_mono_r; lia. }
  2:{ left. rewrite z_open_hx, open_bad by (cbn [app]; rewrite Lru; tauto). split; [reflexivity|]. intros (_ & Q & _). contradiction. }
  right. split. { split; [exact Li|]. split; [exact El|]. split; [exact Sz|]. exists s. split; [reflexivity|]. cbn [hp_pc pc_n hparams_new] in Ef. apply (Nat.pow_le_mono_r_iff 2); [lia|exact Ef]. }
  exists cw, wb, pfs, u, gu, t1, r0, r0t, r1', r1t, t2. split; [exact Lru|]. split; [exact Lrv|]. split; [reflexivity|]. split.
  { unfold R, z_prove. rewrite (evaluate_ok K ni na raw SS) by assumption. rewrite (proj2 (Nat.leb_le _ _) Li), (proj2 (Nat.leb_le _ _) Lw). cbn [andb unwrap rbind]. change (c_depth c) with (S (length raw)). cbv iota beta. unfold vget at 1. rewrite sems_last. cbn [rbind]. unfold lget at 1. rewrite Et. cbn [rbind]. rewrite Epk. cbn [rbind]. rewrite EO. cbn [rbind]. rewrite EP. reflexivity. }
  split; [intros top' Q; injection Q as <-; exact EO|]. split; [exact EC|].
  intros pf0 y0 eq0 pf1 y1 eq1. unfold z_verify. cbn [zg_witness zg_proofs zg_prod0 zg_prod1 zg_y0 zg_y1 zg_eq0 zg_eq1]. change (c_depth c) with (S (length raw)). cbv iota. unfold lget at 1. rewrite Et. cbn [rbind]. rewrite EO. cbn [rbind].
  rewrite Lp, Nat.eqb_refl. cbn [negb]. change (hp_1 K G p) with (pc_gen_1 K G (hp_pc K G p)) in EC. rewrite EC. cbn [rbind]. unfold lget. cbn [c_layers built nth_error rbind]. rewrite bits0. unfold z_inputs. destruct (Nat.ltb_spec SS (length inputs)) as [Q|_]; [lia|]. cbn [rbind]. reflexivity.
Qed.
Theorem z_total : (forall l t, ch l t <> 0) -> zk_provable SS raw num inputs w -> exists pf, run_p = Ok (pf, sem inp raw).
Proof.
  intros NZ P. destruct z_cases as [[_ N]|((_ & Lw & _ & s' & Es & Hs) & cw & wb & pfs & u & gu & t1 & r0 & r0t & r1' & r1t & t2 & L0 & L1 & Epk & ER & _)]; [contradiction|]. rewrite ER.
  apply Nat.pow_inj_r in Es; [|lia]. subst s'.
  assert (Lb : length wb = (2 ^ (s / 2))%nat). { destruct (packing_ok K G _ _ _ _ _ s _ _ Lw Epk (repeat 0 (s / 2)) (repeat 0 (s - s / 2))) as [Q _]; [apply repeat_length|apply repeat_length|exact Q]. }
  assert (N1 : mc_gens K G (pc_gen_1 K G (hp_pc K G p)) <> []) by discriminate.
  assert (Eg : length (mc_gens K G (pc_gen_n K G (hp_pc K G p))) = pc_n K G (hp_pc K G p)) by (cbn [hp_pc pc_gen_n mc_gens hparams_new mc_new pc_n]; rewrite map_length, seq_length; reflexivity).
  assert (Lf : (2 ^ (s - s / 2) <= pc_n K G (hp_pc K G p))%nat) by (cbn [hp_pc pc_n hparams_new]; apply Nat.pow_le_mono_r; lia).
  rewrite z_open_hx. destruct (open_total K G ch p Eg NZ N1 w wb [] r0 r0t (mle inp (r0 :: r0t)) (lr_x K (lrs 0%nat)) e0 t2) as [[[[pf0 y0] eq0] t3] E]; try (cbn [app]; rewrite L0; assumption). rewrite E. cbn [rbind].
  rewrite z_open_hx. destruct (open_total K G ch p Eg NZ N1 w wb [] r1' r1t (mle inp (r1' :: r1t)) (lr_y K (lrs 0%nat)) e1 t3) as [[[[pf1 y1] eq1] t4] E']; try (cbn [app]; rewrite L1; assumption). rewrite E'. cbn [rmap]. eauto.
Qed.
Theorem z_panics : ~ zk_provable SS raw num inputs w -> run_p = Panic.
Proof. intro N. destruct z_cases as [[E _]|[P _]]; [exact E|contradiction]. Qed.
(** What the verifier makes of the honest proof. *)
Notation agrees ru rv := (mle inp ru = mle (intended_layer SS inputs w) ru /\ mle inp rv = mle (intended_layer SS inputs w) rv).
(** The conclusion is in Type: unless the layers agree at the two points, a relation between the generators is computed. *)
Lemma open_both cw wb pf0 y0 eq0 pf1 y1 eq1 r0 r0t r1' r1t t2 t3 t4 :
  length r0t = s -> length r1t = s -> (length inputs <= SS)%nat -> length w = SS ->
  packing_poly_commit K G (mc_gens K G (pc_gen_n K G (hp_pc K G p))) w (mc_h K G (pc_gen_n K G (hp_pc K G p))) wr true = Ok (cw, wb) ->
  z_open K G ch p w wb (r0 :: r0t) (mle inp (r0 :: r0t)) (lr_x K (lrs 0%nat)) e0 t2 = Ok (pf0, y0, eq0, t3) ->
  z_open K G ch p w wb (r1' :: r1t) (mle inp (r1' :: r1t)) (lr_y K (lrs 0%nat)) e1 t3 = Ok (pf1, y1, eq1, t4) ->
  let V := rbind (z_opened K G ch p (inputs ++ repeat 0 (SS - length inputs)) cw (r0 :: r0t) (com g1 [mle inp (r0 :: r0t)] (lr_x K (lrs 0%nat))) pf0 y0 eq0 t2) (fun t =>
      rmap (fun _ => true) (z_opened K G ch p (inputs ++ repeat 0 (SS - length inputs)) cw (r1' :: r1t) (com g1 [mle inp (r1' :: r1t)] (lr_y K (lrs 0%nat))) pf1 y1 eq1 t)) in
  {_ : agrees (r0 :: r0t) (r1' :: r1t) -> V = Ok true &
    (forall l t, ch l t <> 0) -> V = Ok true -> {x : K & {r : K | x <> 0 /\ opens g (mc_h K G g1) g0 x r}} + {agrees (r0 :: r0t) (r1' :: r1t)}}.
Proof.
  intros L0 L1 Li Lw Epk O0 O1. cbv zeta.
  set (pin := inputs ++ repeat 0 (SS - length inputs)). assert (Lpin : length pin = SS) by (unfold pin; rewrite app_length, repeat_length; lia).
  assert (Key : forall q0 qt, length qt = s -> mle (intended_layer SS inputs w) (q0 :: qt) = (1 - q0) * mle w qt + q0 * mle pin qt).
  { intros q0 qt Lt. unfold pin. rewrite mle_pad. apply intended_split; [exact Lt|exact Li|lia]. }
  assert (E1 : hp_1 K G p = pc_gen_1 K G (hp_pc K G p)) by reflexivity. assert (Eh : mc_h K G (pc_gen_n K G (hp_pc K G p)) = mc_h K G (pc_gen_1 K G (hp_pc K G p))) by reflexivity.
  assert (Eg : length (mc_gens K G (pc_gen_n K G (hp_pc K G p))) = pc_n K G (hp_pc K G p)) by (cbn [hp_pc pc_gen_n mc_gens hparams_new mc_new pc_n]; rewrite map_length, seq_length; reflexivity).
  destruct (mc_gens K G g1) as [|g' gs] eqn:Egs; [discriminate|]. assert (g' = g) by (injection Egs as Q _; symmetry; exact Q). subst g'.
  destruct (open_off K G ch p E1 Eh Eg w wr cw wb pin r0 r0t _ _ _ _ _ _ _ _ g gs Egs Epk O0 ltac:(rewrite L0, Lpin; lia)) as (c0 & c0' & tc0 & tv0 & Ec0 & V0 & S0). rewrite <- (Key r0 r0t L0) in V0, S0.
  destruct (open_off K G ch p E1 Eh Eg w wr cw wb pin r1' r1t _ _ _ _ _ _ _ _ g gs Egs Epk O1 ltac:(rewrite L1, Lpin; lia)) as (d0 & d0' & td0 & tw0 & Ed0 & V1 & S1). rewrite <- (Key r1' r1t L1) in V1, S1.
  rewrite Egs in *. rewrite V0. set (x0 := mle inp (r0 :: r0t)) in *. set (x0' := mle (intended_layer SS inputs w) (r0 :: r0t)) in *. set (x1 := mle inp (r1' :: r1t)) in *. set (x1' := mle (intended_layer SS inputs w) (r1' :: r1t)) in *. clearbody x0 x0' x1 x1'.
  assert (Tr : forall (a b c c' d d' : K), c = c' -> d = d' -> geqb (gsm ((c - c') * a) (mc_h K G g1)) (gsm (b * (d - d')) g) = true).
  { intros a b c1 c1' d1 d1' -> ->. apply geqb_true. gmod; ring. }
  assert (Bd : forall (a c' d d' cc : K), c' <> 0 -> d <> d' -> geqb (gsm ((cc - c') * a) (mc_h K G g1)) (gsm (c' * (d - d')) g) = true -> {x : K & {r : K | x <> 0 /\ opens g (mc_h K G g1) g0 x r}}).
  { intros a c1' d1 d1' cc N1 N2 Q. apply geqb_true in Q. exists (c1' * (d1 - d1')), (- ((cc - c1') * a)). split.
    - intro Z. apply N2. transitivity (d1' + (c1' * (d1 - d1')) / c1'); [field; exact N1|rewrite Z; field; exact N1].
    - unfold opens. rewrite <- Q. gmod; ring. }
  unshelve eexists.
  - intros [X0 X1]. destruct (S0 X0) as [-> Y0]. rewrite (Tr _ _ _ _ _ _ Y0 X0). cbn [rbind]. destruct (S1 X1) as [-> Y1]. rewrite V1, (Tr _ _ _ _ _ _ Y1 X1). reflexivity.
  - intros NZ Q. assert (Nc : c0' <> 0) by (rewrite Ec0; apply NZ). assert (Nd : d0' <> 0) by (rewrite Ed0; apply NZ). destruct (geqb (gsm ((c0 - c0') * _) _) _) eqn:Q0; [|discriminate]. cbn [rbind] in Q.
    destruct (feq_dec K x0 x0') as [X0|N0]; [|left; apply (Bd _ _ _ _ _ Nc N0 Q0)]. destruct (S0 X0) as [-> Y0]. rewrite V1 in Q.
    destruct (geqb (gsm ((d0 - d0') * _) _) _) eqn:Q1; [|discriminate].
    destruct (feq_dec K x1 x1') as [X1|N1]; [right; auto|left; apply (Bd _ _ _ _ _ Nd N1 Q1)].
Qed.
Theorem z_exact pf out : run_p = Ok (pf, out) -> out = sem inp raw /\ zk_provable SS raw num inputs w /\ exists u gu t1 ru rv cx cy t2,
  (forall top, nth_error (c_layers c) (length raw) = Some top -> eval_output K G ch out (l_bits top) (z_init K G hash p_hash inputs out (zg_witness K G pf)) = Ok (u, gu, t1)) /\
  z_check K G ch p c (zg_proofs K G pf) (length raw) (com (pc_gen_1 K G (hp_pc K G p)) [1 * u + 0 * 0] 0) 1 0 gu gu t1 = Ok (ru, rv, cx, cy, t2) /\
  (agrees ru rv -> z_verify K G ch p c out inputs hash p_hash pf = Ok true).
Proof.
  intros E. destruct z_cases as [[E' _]|(P & cw & wb & pfs & u & gu & t1 & r0 & r0t & r1' & r1t & t2 & L0 & L1 & Epk & ER & EO & EC & EV)]; [congruence|]. rewrite ER in E.
  destruct (z_open K G ch p w wb (r0 :: r0t) _ _ e0 t2) as [[[[pf0 y0] eq0] t3]| |] eqn:O0; cbn [rbind] in E; try discriminate.
  destruct (z_open K G ch p w wb (r1' :: r1t) _ _ e1 t3) as [[[[pf1 y1] eq1] t4]| |] eqn:O1; cbn [rmap] in E; try discriminate. injection E as <- <-. split; [reflexivity|]. split; [exact P|].
  exists u, gu, t1, (r0 :: r0t), (r1' :: r1t). do 3 eexists. split; [exact EO|]. split; [exact EC|].
  rewrite EV. destruct P as (Li & Lw & _). destruct (open_both cw wb pf0 y0 eq0 pf1 y1 eq1 r0 r0t r1' r1t t2 t3 t4 L0 L1 Li Lw Epk O0 O1) as [H _]. exact H.
Qed.
Theorem z_relation pf out top u gu t1 ru rv cx cy t2 : run_p = Ok (pf, out) -> nth_error (c_layers c) (length raw) = Some top ->
  eval_output K G ch out (l_bits top) (z_init K G hash p_hash inputs out (zg_witness K G pf)) = Ok (u, gu, t1) ->
  z_check K G ch p c (zg_proofs K G pf) (length raw) (com (pc_gen_1 K G (hp_pc K G p)) [1 * u + 0 * 0] 0) 1 0 gu gu t1 = Ok (ru, rv, cx, cy, t2) ->
  (forall l t, ch l t <> 0) -> z_verify K G ch p c out inputs hash p_hash pf = Ok true -> {x : K & {r : K | x <> 0 /\ opens g (mc_h K G g1) g0 x r}} + {agrees ru rv}.
Proof.
  intros E Et EO EC NZ V.
  destruct (packing_poly_commit K G (mc_gens K G (pc_gen_n K G (hp_pc K G p))) w (mc_h K G (pc_gen_n K G (hp_pc K G p))) wr true) as [[cw wb]| |] eqn:Epk.
  2,3: exfalso; destruct z_cases as [[E' _]|(_ & cw & wb & pfs & u' & gu' & t1' & r0 & r0t & r1' & r1t & t2' & _ & _ & Q & _)]; congruence.
  destruct ru as [|r0 r0t]; [|destruct rv as [|r1' r1t]].
  1,2: exfalso; destruct z_cases as [[E' _]|(_ & cw' & wb' & pfs & u' & gu' & t1' & r0' & r0t' & r1'' & r1t' & t2' & _ & _ & _ & ER & EO' & EC' & _)]; [congruence|];
    rewrite ER in E; destruct (z_open K G ch p w wb' (r0' :: r0t') _ _ e0 t2') as [[[[? ?] ?] ?]| |]; cbn [rbind] in E; try discriminate;
    match type of E with rmap _ ?X = _ => destruct X as [[[[? ?] ?] ?]| |]; cbn [rmap] in E; try discriminate end;
    injection E as <- <-; cbn [zg_witness zg_proofs] in *; rewrite (EO' top Et) in EO; injection EO as <- <- <-; rewrite EC' in EC; discriminate.
  set (Q0 := z_open K G ch p w wb (r0 :: r0t) (mle inp (r0 :: r0t)) (lr_x K (lrs 0%nat)) e0 t2).
  set (Q1 := fun t => z_open K G ch p w wb (r1' :: r1t) (mle inp (r1' :: r1t)) (lr_y K (lrs 0%nat)) e1 t).
  assert (H : length r0t = s /\ length r1t = s /\ (length inputs <= SS)%nat /\ length w = SS /\ exists pf0 y0 eq0 t3 pf1 y1 eq1 t4, Q0 = Ok (pf0, y0, eq0, t3) /\ Q1 t3 = Ok (pf1, y1, eq1, t4) /\
    rbind (z_opened K G ch p (inputs ++ repeat 0 (SS - length inputs)) cw (r0 :: r0t) (com g1 [mle inp (r0 :: r0t)] (lr_x K (lrs 0%nat))) pf0 y0 eq0 t2) (fun t =>
      rmap (fun _ => true) (z_opened K G ch p (inputs ++ repeat 0 (SS - length inputs)) cw (r1' :: r1t) (com g1 [mle inp (r1' :: r1t)] (lr_y K (lrs 0%nat))) pf1 y1 eq1 t)) = Ok true).
  { destruct z_cases as [[E' _]|(P & cw' & wb' & pfs & u' & gu' & t1' & r0' & r0t' & r1'' & r1t' & t2' & L0 & L1 & Epk' & ER & EO' & EC' & EV)]; [congruence|]. rewrite Epk in Epk'. injection Epk' as <- <-.
    rewrite ER in E. destruct (z_open K G ch p w wb (r0' :: r0t') _ _ e0 t2') as [[[[pf0 y0] eq0] t3]| |] eqn:O0; cbn [rbind] in E; try discriminate.
    destruct (z_open K G ch p w wb (r1'' :: r1t') _ _ e1 t3) as [[[[pf1 y1] eq1] t4]| |] eqn:O1; cbn [rmap] in E; try discriminate.
    injection E as <- <-; cbn [zg_witness zg_proofs] in *. rewrite (EO' top Et) in EO. injection EO as <- <- <-. rewrite EC' in EC. injection EC as <- <- <- <- _ _ <-.
    destruct P as (Li & Lw & _). split; [exact L0|]. split; [exact L1|]. split; [exact Li|]. split; [exact Lw|]. exists pf0, y0, eq0, t3, pf1, y1, eq1, t4. split; [exact O0|]. split; [exact O1|]. rewrite <- EV. exact V. }
  destruct H as (L0 & L1 & Li & Lw & H). destruct Q0 as [[[[pf0 y0] eq0] t3]| |] eqn:O0. 2,3: exfalso; destruct H as (? & ? & ? & ? & ? & ? & ? & ? & Q & _); discriminate.
  destruct (Q1 t3) as [[[[pf1 y1] eq1] t4]| |] eqn:O1.
  2,3: exfalso; destruct H as (? & ? & ? & ? & ? & ? & ? & ? & Q & Q' & _); injection Q as <- <- <- <-; congruence.
  destruct (open_both cw wb pf0 y0 eq0 pf1 y1 eq1 r0 r0t r1' r1t t2 t3 t4 L0 L1 Li Lw Epk O0 O1) as [_ B]. apply B; [exact NZ|].
  destruct H as (? & ? & ? & ? & ? & ? & ? & ? & Q & Q' & W). injection Q as <- <- <- <-. rewrite O1 in Q'. injection Q' as <- <- <- <-. exact W.
Qed.
End Main.
(** ** As stated in Properties27 *)
Section Final.
Variable K : Fld.
Variable G : Grp K.
Variable ch : oracle K G.
Notation com p x b := (poly_commit_vec K G (mc_gens K G p) x (mc_h K G p) b).
Variables (num : nat) (r1 : nat -> G) (g : G) (r3 r4 : nat -> G) (ni na : nat) (raw : list raw_layer) (c : circuit) (S : nat).
Variables (inputs w : list K) (hash p_hash : K) (wr : nat -> K) (lrs : nat -> lrand K) (e0 e1 : erand K).
Notation p := (hparams_new K G num r1 g r3 r4).
Notation run_p := (z_prove K G ch p c inputs w hash p_hash wr lrs e0 e1).
Hypothesis two : (1 + 1 : K) <> 0.
Hypothesis HS : pow2_above (Nat.max ni na) S.
Hypothesis Hc : circuit_new ni na raw = Ok c.
Hypothesis Hraw : raw <> [].
Hypothesis Hd3 : forall d i, length (rr_d K (lr_one K (lrs d) i)) = 3%nat /\ length (rr_d K (lr_two K (lrs d) i)) = 3%nat.
Theorem libra_zk_total : (forall l t, ch l t <> 0) -> zk_provable S raw num inputs w -> exists pf, run_p = Ok (pf, sem (actual_layer S inputs w) raw).
Proof. destruct (circuit_new_inv ni na raw c S HS Hc) as [HL ->]. destruct HS as (s & Es & HS'). clear HS'. rewrite Es in *. apply z_total; assumption. Qed.
Theorem libra_zk_panics : ~ zk_provable S raw num inputs w -> run_p = Panic.
Proof. destruct (circuit_new_inv ni na raw c S HS Hc) as [HL ->]. destruct HS as (s & Es & HS'). clear HS'. rewrite Es in *. apply z_panics; assumption. Qed.
Theorem libra_zk_complete pf out : run_p = Ok (pf, out) -> length inputs = length w ->
  out = sem (intended_layer S inputs w) raw /\ z_verify K G ch p c out inputs hash p_hash pf = Ok true.
Proof.
  destruct (circuit_new_inv ni na raw c S HS Hc) as [HL ->]. destruct HS as (s & Es & HS'). clear HS'. rewrite Es in *. intros E Hl.
  destruct (z_exact K G ch num r1 g r3 r4 ni na raw s inputs w hash p_hash wr lrs e0 e1 two HS HL Hraw Hd3 pf out E) as (Eo & _ & u & gu & t1 & ru & rv & cx & cy & t2 & _ & _ & V).
  rewrite layer_same in * by exact Hl. split; [exact Eo|]. apply V; split; reflexivity.
Qed.
Theorem libra_zk_short pf out : run_p = Ok (pf, out) -> out = sem (actual_layer S inputs w) raw /\ exists top u gu t1 ru rv cx cy t2,
  nth_error (c_layers c) (length raw) = Some top /\ eval_output K G ch out (l_bits top) (z_init K G hash p_hash inputs out (zg_witness K G pf)) = Ok (u, gu, t1) /\
  z_check K G ch p c (zg_proofs K G pf) (length raw) (com (pc_gen_1 K G (hp_pc K G p)) [1 * u + 0 * 0] 0) 1 0 gu gu t1 = Ok (ru, rv, cx, cy, t2) /\
  let agree := mle (actual_layer S inputs w) ru = mle (intended_layer S inputs w) ru /\ mle (actual_layer S inputs w) rv = mle (intended_layer S inputs w) rv in
  agree -> z_verify K G ch p c out inputs hash p_hash pf = Ok true.
Proof.
  destruct (circuit_new_inv ni na raw c S HS Hc) as [HL ->]. destruct HS as (s & Es & HS'). clear HS'. rewrite Es in *. intros E.
  destruct (z_exact K G ch num r1 g r3 r4 ni na raw s inputs w hash p_hash wr lrs e0 e1 two HS HL Hraw Hd3 pf out E) as (Eo & _ & u & gu & t1 & ru & rv & cx & cy & t2 & A & B & V).
  split; [exact Eo|]. destruct (nth_error (c_layers (built ni na raw)) (length raw)) as [top|] eqn:Et.
  2:{ exfalso. apply nth_error_None in Et. rewrite built_length in Et. cbn [c_depth built] in Et. lia. }
  exists top, u, gu, t1, ru, rv, cx, cy, t2. split; [reflexivity|]. split; [apply A; reflexivity|]. split; [exact B|]. exact V.
Qed.
Theorem libra_zk_relation pf out top u gu t1 ru rv cx cy t2 : run_p = Ok (pf, out) -> nth_error (c_layers c) (length raw) = Some top ->
  eval_output K G ch out (l_bits top) (z_init K G hash p_hash inputs out (zg_witness K G pf)) = Ok (u, gu, t1) ->
  z_check K G ch p c (zg_proofs K G pf) (length raw) (com (pc_gen_1 K G (hp_pc K G p)) [1 * u + 0 * 0] 0) 1 0 gu gu t1 = Ok (ru, rv, cx, cy, t2) ->
  (forall l t, ch l t <> 0) -> z_verify K G ch p c out inputs hash p_hash pf = Ok true -> {x : K & {r : K | x <> 0 /\ opens g (mc_h K G (hp_1 K G p)) g0 x r}} +
    {mle (actual_layer S inputs w) ru = mle (intended_layer S inputs w) ru /\ mle (actual_layer S inputs w) rv = mle (intended_layer S inputs w) rv}.
Proof.
  assert (HS2 : exists s, s = Nat.log2 S /\ S = (2 ^ s)%nat). { destruct HS as (s & Es & _). exists s. rewrite Es. rewrite Nat.log2_pow2 by lia. split; reflexivity. }
  destruct (circuit_new_inv ni na raw c S HS Hc) as [HL ->]. assert (Es : S = (2 ^ Nat.log2 S)%nat) by (destruct HS2 as (s & -> & Q); exact Q). clear HS2. set (s := Nat.log2 S) in *. clearbody s. subst S.
  apply z_relation; assumption.
Qed.
End Final.
(** A circuit of the input layer alone: the verifier panics on every proof. *)
Lemma z_verify_flat (K : Fld) (G : Grp K) (ch : oracle K G) p c outputs inputs hash p_hash pf : c_depth c = 1%nat -> z_verify K G ch p c outputs inputs hash p_hash pf = Panic.
Proof.
  intro E. unfold z_verify. rewrite E. unfold lget. destruct (nth_error (c_layers c) 0) as [top|] eqn:E0; [|reflexivity]. cbn [rbind].
  unfold eval_output. destruct (negb _); [reflexivity|]. destruct (draws _ _ _ _ _ _) as [rs t]. rewrite eval_value_ok. destruct (Nat.leb _ _); [|reflexivity]. cbn [rmap rbind]. destruct (zg_proofs K G pf); [|reflexivity]. cbn [length Nat.eqb negb z_check rbind].
  unfold z_inputs. destruct (l_bits top); [reflexivity|]. destruct (Nat.ltb _ _); reflexivity.
Qed.
