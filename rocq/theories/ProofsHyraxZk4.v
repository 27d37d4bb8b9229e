(** Hyrax: the layers of an honest proof, remade for another witness. *)
From Verif Require Import Field Poly Module ModTac ProofsPC ModelTranscript ModelMle SpecMle ProofsMle ModelLibra ProofsLibra ProofsLibra2 ModelSigma ProofsSigma ModelSpartan ProofsSpartan3 ModelSnark ModelSpark ProofsSpark ModelHyrax AttackHyrax ProofsHyrax ProofsHyrax2 ProofsHyrax3 ProofsHyrax4 ProofsHyrax5 ProofsHyrax6 ProofsHyrax8 SpecSigmaZk ProofsSigmaZk2 SpecHyraxZk ProofsHyraxZk ProofsHyraxZk2 ProofsHyraxZk3.
From Coq Require Import String List Lia.
Import ListNotations.
Local Open Scope string_scope.
Local Open Scope list_scope.
Local Open Scope fld_scope.
Section S.
Variable K : Fld.
Variable G : Grp K.
Variable ch : oracle K G.
Add Field Kf : (f_laws K).
Notation tr := (transcript K G).
Notation com p x b := (poly_commit_vec K G (mc_gens K G p) x (mc_h K G p) b).
Notation V := (V K).
Notation lgn m := (log2c (next_pow2 m)).
Lemma honest_shape p claim ca rc0 u0 u1 qa ql qr gates evals log_n log_ng z (t : tr) pf rs r0 r1 x y t' :
  zk_prover K G ch p claim ca rc0 u0 u1 qa ql qr gates evals (2 ^ log_n) (2 ^ log_ng) z t = Ok (pf, rs, r0, r1, x, y, t') -> zk_shaped K G log_n log_ng ca pf.
Proof.
  intro P. unfold zk_prover in P. cbv zeta in P. rewrite !lgp in P. do 4 (match type of P with (if ?X then _ else _) = _ => destruct X; [discriminate|] end).
  match type of P with rbind ?X _ = _ => destruct X as [[[[[[[[q1 c1] e1] rs'] ts1] cl1] cc1] t1]| |] eqn:R1; cbn [rbind] in P; try discriminate end.
  do 2 (match type of P with rbind ?X _ = _ => destruct X as [?| |]; cbn [rbind] in P; try discriminate end).
  match type of P with rbind ?X _ = _ => destruct X as [[[[[[[[q2 c2] e2] r0'] ts2] cl2] cc2] t2]| |] eqn:R2; cbn [rbind] in P; try discriminate end.
  match type of P with rbind ?X _ = _ => destruct X as [[[[[[[[q3 c3] e3] r1'] ts3] cl3] cc3] t3]| |] eqn:R3; cbn [rbind] in P; try discriminate end.
  match type of P with rbind ?X _ = _ => destruct X as [mm| |]; cbn [rbind] in P; try discriminate end.
  match type of P with (let '(_, _) := ?X in _) = _ => destruct X as [[[[[[[[[pp x1] x2] x3] dd] x4] zs] zds] zc] t4] eqn:Es end. injection P as <- _ _ _ _ _ _.
  apply hx_lengths in R1, R2, R3. unfold zk_shaped. cbn [zk_a0 zk_prod zk_polys zk_evals zk_deltas zk_zdeltas zk_zs]. rewrite !app_length. split; [reflexivity|].
  unfold sumcheck_prover, product_proof, draw in Es. cbv zeta in Es. destruct (draws _ _ _ _ _ _) as [rou t5] in Es. injection Es as <- _ _ _ <- _ <- <- _ _. cbn [pp_z length]. rewrite !map_length, !seq_length. lia.
Qed.
Lemma layers_ext p c evals n zs zs' : forall d claim ca rc0 u0 u1 qa ql qr x y rx ry (t : tr), (forall i, (i < d)%nat -> zs i = zs' i) ->
  hx_layers K G ch p c evals n d zs claim ca rc0 u0 u1 qa ql qr x y rx ry t = hx_layers K G ch p c evals n d zs' claim ca rc0 u0 u1 qa ql qr x y rx ry t.
Proof.
  induction d as [|d IH]; intros claim ca rc0 u0 u1 qa ql qr x y rx ry t H; [reflexivity|]. cbn [hx_layers]. rewrite (H d) by lia. destruct (lget c d) as [lo| |]; cbn [rbind]; try reflexivity. destruct (lget c (S d)) as [hi| |]; cbn [rbind]; try reflexivity.
  match goal with |- rbind ?X _ = _ => destruct X as [le| |]; cbn [rbind]; try reflexivity end. match goal with |- rbind ?X _ = _ => destruct X as [[[[[[[pf rs] r0] r1] x'] y'] t']| |]; cbn [rbind]; try reflexivity end.
  destruct d as [|d']; [reflexivity|]. unfold draw. cbv beta iota zeta. rewrite (IH _ _ _ _ _ _ _ _ _ _ _ _ _ (fun i Hi => H i (Nat.lt_lt_succ_r _ _ Hi))). reflexivity.
Qed.
Section Loop.
Variables (p : hparams K G) (c : circuit) (log_n W : nat).
Hypothesis two : (1 + 1 : K) <> 0.
Hypothesis three : (1 + 1 + 1 : K) <> 0.
Hypothesis Hn : (1 <= log_n)%nat.
Hypothesis Sp1 : spans (mc_h K G (hp_1 K G p)).
Hypothesis Sp3 : spans (mc_h K G (hp_3 K G p)).
Hypothesis Sp4 : spans (mc_h K G (hp_4 K G p)).
Hypothesis Hcnt : forall d hi, nth_error (c_layers c) (S d) = Some hi -> l_count hi = length (l_gates hi).
(** Every layer has the same number of nodes. *)
Hypothesis HW : forall d l, nth_error (c_layers c) d = Some l -> l_count l = (2 ^ W)%nat.
Definition good_run (evals : list (list (list K))) : Prop := runs K c evals /\ length evals = (2 ^ log_n)%nat.
Section E.
Variable evals : list (list (list K)).
Hypothesis HE : good_run evals.
Lemma setting d lo hi (qa ql qr : list K) : nth_error (c_layers c) d = Some lo -> nth_error (c_layers c) (S d) = Some hi -> length qa = log_n -> length ql = W -> length qr = W ->
  his K (lay K evals d) (l_gates hi) = lay K evals (S d) /\ layer_evals K evals d (l_count lo) (2 ^ log_n) (2 ^ W) = Ok (cols K (lay K evals d) W) /\ length (lay K evals d) = (2 ^ log_n)%nat /\
  map gt_g (l_gates hi) = seq 0 (length (l_gates hi)) /\ Forall (fun g => gt_op g = 0 \/ gt_op g = 1)%nat (l_gates hi) /\ (forall g, In g (l_gates hi) -> (gt_l g < 2 ^ W /\ gt_r g < 2 ^ W)%nat) /\ length (l_gates hi) = (2 ^ length ql)%nat.
Proof.
  intros Hlo Hh Lqa Lql Lqr. destruct HE as [Hr Hl]. split; [exact (his_lay K c evals d lo hi Hr Hlo Hh)|]. split; [rewrite <- Hl; apply layer_evals_ok; [rewrite (HW _ _ Hlo); lia|intros ev I; exact (proj2 (Hr ev I) d lo Hlo)]|]. split; [unfold lay; rewrite map_length; exact Hl|].
  destruct evals as [|ev es] eqn:Ee; [exfalso; cbn [length] in Hl; symmetry in Hl; revert Hl; apply Nat.pow_nonzero; lia|]. destruct (Hr ev (or_introl eq_refl)) as [A B]. destruct (B d lo Hlo) as (v & Ev & Lv).
  destruct (A d lo hi v Hlo Hh Ev) as (F & Q & _ & _). split; [exact Q|]. rewrite Forall_forall in F. split; [|split].
  - apply Forall_forall. intros g I. destruct (F g I) as (X1 & X2 & X3 & X4). tauto.
  - intros g I. destruct (F g I) as (X1 & X2 & X3 & X4). pose proof (HW _ _ Hlo) as HWlo. lia.
  - rewrite Lql, <- (Hcnt _ _ Hh). apply (HW _ _ Hh).
Qed.
(** One layer of an honest run: the proof has the right shape, it is accepted, and the claims are the values of the layer below. *)
Lemma honest_step d lo hi claim rc0 u0 u1 qa ql qr (t : tr) z : nth_error (c_layers c) d = Some lo -> nth_error (c_layers c) (S d) = Some hi -> length qa = log_n -> length ql = W -> length qr = W ->
  claim = V (lay K evals (S d)) qa ql * u0 + V (lay K evals (S d)) qa qr * u1 -> let ca := com (hp_1 K G p) [claim] rc0 in
  exists pf rs r0 r1 t', zk_prover K G ch p claim ca rc0 u0 u1 qa ql qr (l_gates hi) (cols K (lay K evals d) W) (2 ^ log_n) (2 ^ W) z t = Ok (pf, rs, r0, r1, V (lay K evals d) rs r0, V (lay K evals d) rs r1, t') /\
    zk_shaped K G log_n W ca pf /\ zk_x K G pf = com (hp_1 K G p) [V (lay K evals d) rs r0] (zr_x K z) /\ zk_y K G pf = com (hp_1 K G p) [V (lay K evals d) rs r1] (zr_y K z) /\ length rs = log_n /\ length r0 = W /\ length r1 = W /\
    zk_verify K G ch p pf ca u0 u1 qa ql qr (l_gates hi) (2 ^ log_n) (2 ^ W) t = Ok (zk_x K G pf, zk_y K G pf, rs, r0, r1, t').
Proof.
  intros Hlo Hh Lqa Lql Lqr Hc ca. destruct (setting d lo hi qa ql qr Hlo Hh Lqa Lql Lqr) as (Eh & LE & Lvs & Wg & Wo & Wl & Lg). rewrite <- Eh in Hc.
  destruct (layer_ok K G ch p (lay K evals d) (l_gates hi) log_n W u0 u1 qa ql qr two three Wg Wo Wl Lvs Lqa ltac:(congruence) Lg z claim rc0 t Hc Hn ltac:(right; lia)) as (pf & rs & r0 & r1 & t' & EP & Ex & Ey & Lrs & Lr0 & Lr1 & EV).
  exists pf, rs, r0, r1, t'. split; [exact EP|]. split; [exact (honest_shape _ _ _ _ _ _ _ _ _ _ _ _ _ _ _ _ _ _ _ _ _ _ EP)|]. repeat (split; [assumption|]). exact EV.
Qed.
Lemma layers_start d lo hi zs claim ca rc0 u0 u1 qa ql qr x y rx ry (t : tr) : nth_error (c_layers c) d = Some lo -> nth_error (c_layers c) (S d) = Some hi -> length qa = log_n -> length ql = W -> length qr = W ->
  hx_layers K G ch p c evals (2 ^ log_n) (S d) zs claim ca rc0 u0 u1 qa ql qr x y rx ry t =
  rbind (zk_prover K G ch p claim ca rc0 u0 u1 qa ql qr (l_gates hi) (cols K (lay K evals d) W) (2 ^ log_n) (2 ^ W) (zs d) t) (fun '(pf, qa, ql, qr, x, y, t) =>
      match d with
      | O => rmap (fun '(pfs, s, t) => (pf :: pfs, s, t)) (hx_layers K G ch p c evals (2 ^ log_n) d zs claim ca rc0 u0 u1 qa ql qr x y (zr_x K (zs d)) (zr_y K (zs d)) t)
      | S _ =>
          let '(u0, t) := draw K G ch "u0" t in let '(u1, t) := draw K G ch "u1" t in
          let comm_claim := gadd (gsm u0 (zk_x K G pf)) (gsm u1 (zk_y K G pf)) in
          let t := MG "comm_a_i" comm_claim :: t in
          rmap (fun '(pfs, s, t) => (pf :: pfs, s, t)) (hx_layers K G ch p c evals (2 ^ log_n) d zs (x * u0 + y * u1) comm_claim (zr_x K (zs d) * u0 + zr_y K (zs d) * u1) u0 u1 qa ql qr x y (zr_x K (zs d)) (zr_y K (zs d)) t)
      end).
Proof.
  intros Hlo Hh Lqa Lql Lqr. destruct (setting d lo hi qa ql qr Hlo Hh Lqa Lql Lqr) as (_ & LE & _). cbn [hx_layers]. unfold lget. rewrite Hlo, Hh. cbn [rbind]. rewrite (HW _ _ Hlo) in LE |- *. assert (next_pow2 (2 ^ W) = 2 ^ W)%nat as -> by (apply np_iff; eauto). rewrite LE. reflexivity.
Qed.
End E.
Variables evals0 evals : list (list (list K)).
Hypothesis H0 : good_run evals0.
Hypothesis H1 : good_run evals.
Notation claims e d qa ql qr u0 u1 claim := (claim = V (lay K e d) qa ql * u0 + V (lay K e d) qa qr * u1).
Theorem layers_exact : forall d hi claim0 rc00 claim rc0 ca u0 u1 qa ql qr x0 y0 rx0 ry0 x y rx ry (t : tr) zs0 pfs st0 t', nth_error (c_layers c) (S d) = Some hi ->
  length qa = log_n -> length ql = W -> length qr = W -> claims evals0 (S d) qa ql qr u0 u1 claim0 -> claims evals (S d) qa ql qr u0 u1 claim -> ca = com (hp_1 K G p) [claim0] rc00 -> ca = com (hp_1 K G p) [claim] rc0 ->
  hx_layers K G ch p c evals0 (2 ^ log_n) (S d) zs0 claim0 ca rc00 u0 u1 qa ql qr x0 y0 rx0 ry0 t = Ok (pfs, st0, t') ->
  exists zs qa' ql' qr' rx0' ry0' rx' ry',
    st0 = (qa', ql', qr', V (lay K evals0 0) qa' ql', V (lay K evals0 0) qa' qr', rx0', ry0') /\ length qa' = log_n /\ length ql' = W /\ length qr' = W /\
    hx_layers K G ch p c evals (2 ^ log_n) (S d) zs claim ca rc0 u0 u1 qa ql qr x y rx ry t = Ok (pfs, (qa', ql', qr', V (lay K evals 0) qa' ql', V (lay K evals 0) qa' qr', rx', ry'), t') /\
    com (hp_1 K G p) [V (lay K evals 0) qa' ql'] rx' = com (hp_1 K G p) [V (lay K evals0 0) qa' ql'] rx0' /\ com (hp_1 K G p) [V (lay K evals 0) qa' qr'] ry' = com (hp_1 K G p) [V (lay K evals0 0) qa' qr'] ry0' /\
    forall zs' st t'', hx_layers K G ch p c evals (2 ^ log_n) (S d) zs' claim ca rc0 u0 u1 qa ql qr x y rx ry t = Ok (pfs, st, t'') ->
      (forall i, (i <= d)%nat -> zr_same log_n W (zs' i) (zs i)) /\ st = (qa', ql', qr', V (lay K evals 0) qa' ql', V (lay K evals 0) qa' qr', rx', ry') /\ t'' = t'.
Proof.
  induction d as [d IH] using lt_wf_ind. intros hi claim0 rc00 claim rc0 ca u0 u1 qa ql qr x0 y0 rx0 ry0 x y rx ry t zs0 pfs st0 t' Hh Lqa Lql Lqr Hc0 Hc Ea0 Ea P0.
  destruct (below K c evals log_n (proj2 H1) d hi Hh) as (lo & Hlo).
  rewrite (layers_start evals0 H0 d lo hi) in P0 by assumption. destruct (honest_step evals0 H0 d lo hi claim0 rc00 u0 u1 qa ql qr t (zs0 d) Hlo Hh Lqa Lql Lqr Hc0) as (pf & rs & r0 & r1 & t1 & EP & Sh & Ex0 & Ey0 & Lrs & Lr0 & Lr1 & EV). rewrite <- Ea0 in EP, Sh, EV.
  rewrite EP in P0. cbn [rbind] in P0.
  destruct (setting evals H1 d lo hi qa ql qr Hlo Hh Lqa Lql Lqr) as (Eh & LE & Lvs & Wg & Wo & Wl & Lg). pose proof Hc as Hc'. rewrite <- Eh in Hc'.
  assert (Lx : exists z, zk_prover K G ch p claim ca rc0 u0 u1 qa ql qr (l_gates hi) (cols K (lay K evals d) W) (2 ^ log_n) (2 ^ W) z t = Ok (pf, rs, r0, r1, V (lay K evals d) rs r0, V (lay K evals d) rs r1, t1) /\
    forall z' o, zk_prover K G ch p claim ca rc0 u0 u1 qa ql qr (l_gates hi) (cols K (lay K evals d) W) (2 ^ log_n) (2 ^ W) z' t = Ok o -> fst (fst (fst (fst (fst (fst o))))) = pf -> zr_same log_n W z' z).
  { rewrite Ea in Sh, EV |- *. exact (layer_exact K G ch p (lay K evals d) (l_gates hi) log_n W u0 u1 qa ql qr two three Wg Wo Wl Lvs Lqa ltac:(congruence) Lg Hn Sp1 Sp3 Sp4 Lql claim rc0 t pf _ _ rs r0 r1 t1 Hc' Sh EV). }
  destruct Lx as (z & Ez & Uz).
  (* the run with any coins whose proof is this one *)
  assert (Det : forall z' pf' q1 q2 q3 v1 v2 t2, zk_prover K G ch p claim ca rc0 u0 u1 qa ql qr (l_gates hi) (cols K (lay K evals d) W) (2 ^ log_n) (2 ^ W) z' t = Ok (pf', q1, q2, q3, v1, v2, t2) -> pf' = pf ->
     (q1, q2, q3, v1, v2, t2) = (rs, r0, r1, V (lay K evals d) rs r0, V (lay K evals d) rs r1, t1) /\ zk_x K G pf = com (hp_1 K G p) [V (lay K evals d) rs r0] (zr_x K z') /\ zk_y K G pf = com (hp_1 K G p) [V (lay K evals d) rs r1] (zr_y K z')).
  { intros z' pf' q1 q2 q3 v1 v2 t2 E' ->. destruct (honest_step evals H1 d lo hi claim rc0 u0 u1 qa ql qr t z' Hlo Hh Lqa Lql Lqr Hc) as (pf2 & s1 & s2 & s3 & t3 & EP' & _ & Ex' & Ey' & _ & _ & _ & EV'). rewrite <- Ea in EP', EV'. rewrite EP' in E'. injection E' as <- <- <- <- <- <- <-.
    rewrite EV in EV'. injection EV' as <- <- <- <-. split; [reflexivity|]. split; assumption. }
  destruct (Det z pf _ _ _ _ _ _ Ez eq_refl) as (_ & Ex & Ey).
  destruct d as [|d'].
  - cbn [hx_layers rmap] in P0. injection P0 as <- <- <-. exists (fun _ => z), rs, r0, r1, (zr_x K (zs0 0%nat)), (zr_y K (zs0 0%nat)), (zr_x K z), (zr_y K z). split; [reflexivity|]. do 3 (split; [assumption|]).
    split; [rewrite (layers_start evals H1 0 lo hi) by assumption; rewrite Ez; reflexivity|]. split; [congruence|]. split; [congruence|].
    intros zs' st t'' P'. rewrite (layers_start evals H1 0 lo hi) in P' by assumption.
    match type of P' with rbind ?X _ = _ => destruct X as [[[[[[[pf' q1] q2] q3] v1] v2] t2]| |] eqn:E'; cbn [rbind] in P'; try discriminate end. cbn [hx_layers rmap] in P'. injection P' as -> <- <-.
    pose proof (Uz _ _ E' eq_refl) as Q. destruct (Det _ _ _ _ _ _ _ _ E' eq_refl) as (D1 & _ & _). injection D1 as -> -> -> -> -> ->. split; [intros i Hi; replace i with 0%nat by lia; exact Q|]. pose proof (same_xyz _ _ _ _ Q) as Qx. injection Qx as -> -> _. split; reflexivity.
  - unfold draw in P0. cbv beta iota zeta in P0. set (a0 := ch "u0" t1) in *. set (a1 := ch "u1" (MCh "u0" :: t1)) in *. set (ca' := gadd (gsm a0 (zk_x K G pf)) (gsm a1 (zk_y K G pf))) in *.
    match type of P0 with rmap _ ?X = _ => destruct X as [[[pfs1 st1] t2]| |] eqn:P1; cbn [rmap] in P0; try discriminate end. injection P0 as <- <- <-.
    assert (Ec0 : ca' = com (hp_1 K G p) [V (lay K evals0 (S d')) rs r0 * a0 + V (lay K evals0 (S d')) rs r1 * a1] (zr_x K (zs0 (S d')) * a0 + zr_y K (zs0 (S d')) * a1)) by (unfold ca'; rewrite Ex0, Ey0; apply com_pair).
    assert (Ec1 : ca' = com (hp_1 K G p) [V (lay K evals (S d')) rs r0 * a0 + V (lay K evals (S d')) rs r1 * a1] (zr_x K z * a0 + zr_y K z * a1)) by (unfold ca'; rewrite Ex, Ey; apply com_pair).
    destruct (IH d' ltac:(lia) lo _ _ (V (lay K evals (S d')) rs r0 * a0 + V (lay K evals (S d')) rs r1 * a1) (zr_x K z * a0 + zr_y K z * a1) ca' a0 a1 rs r0 r1 _ _ _ _ (V (lay K evals (S d')) rs r0) (V (lay K evals (S d')) rs r1) (zr_x K z) (zr_y K z) _ zs0 pfs1 st1 t2 Hlo Lrs Lr0 Lr1 eq_refl eq_refl Ec0 Ec1 P1)
      as (zs & qa' & ql' & qr' & rx0' & ry0' & rx' & ry' & -> & L1 & L2 & L3 & P2 & F1 & F2 & U).
    exists (fun i => if Nat.eqb i (S d') then z else zs i), qa', ql', qr', rx0', ry0', rx', ry'. split; [reflexivity|]. do 3 (split; [assumption|]). split; [|split; [exact F1|split; [exact F2|]]].
    + rewrite (layers_start evals H1 (S d') lo hi) by assumption. rewrite Nat.eqb_refl, Ez. cbn [rbind]. unfold draw. cbv beta iota zeta. fold a0 a1 ca'. rewrite (layers_ext p c evals _ (fun i => if Nat.eqb i (S d') then z else zs i) zs) by (intros i Hi; destruct (Nat.eqb_spec i (S d')); [lia|reflexivity]). rewrite P2. reflexivity.
    + intros zs' st t'' P'. rewrite (layers_start evals H1 (S d') lo hi) in P' by assumption.
      match type of P' with rbind ?X _ = _ => destruct X as [[[[[[[pf' q1] q2] q3] v1] v2] t3]| |] eqn:E'; cbn [rbind] in P'; try discriminate end. unfold draw in P'. cbv beta iota zeta in P'.
      match type of P' with rmap _ ?X = _ => destruct X as [[[pfs2 st2] t4]| |] eqn:P3; cbn [rmap] in P'; try discriminate end. injection P' as -> -> <- <-.
      pose proof (Uz _ _ E' eq_refl) as Q. destruct (Det _ _ _ _ _ _ _ _ E' eq_refl) as (D1 & _ & _). injection D1 as -> -> -> -> -> ->. pose proof (same_xyz _ _ _ _ Q) as Qx. injection Qx as Qx Qy _. rewrite Qx, Qy in P3. fold a0 a1 ca' in P3.
      destruct (U zs' _ _ P3) as (U1 & -> & ->). split; [|split; reflexivity]. intros i Hi. destruct (Nat.eqb_spec i (S d')) as [->|]; [exact Q|apply U1; lia].
Qed.
End Loop.
End S.
