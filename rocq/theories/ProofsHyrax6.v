(** Hyrax: the loop over the layers, prover and verifier side by side. *)
From Verif Require Import Field Poly Module ModTac ProofsPC ModelTranscript ModelMle SpecMle ProofsMle ModelLibra ProofsLibra ProofsLibra2 ModelSigma ProofsSigma ModelSpartan ProofsSpartan3 ModelSnark ModelSpark ProofsSpark ModelHyrax AttackHyrax ProofsHyrax ProofsHyrax2 ProofsHyrax3 ProofsHyrax4 ProofsHyrax5.
From Coq Require Import String List Lia.
Import ListNotations.
Local Open Scope string_scope.
Local Open Scope list_scope.
Local Open Scope fld_scope.
Section S.
Variable K : Fld.
Variable G : Grp K.
Variable ch : oracle K G.
Add Field Kf : (f_laws K).
Notation tr := (transcript K G).
Notation com p x b := (poly_commit_vec K G (mc_gens K G p) x (mc_h K G p) b).
Notation gval := (gval K).
Notation V := (V K).
Notation lgn m := (log2c (next_pow2 m)).
(** The values of layer [d] in all instances. *)
Definition lay (evals : list (list (list K))) (d : nat) : list (list K) := map (fun ev => nth d ev []) evals.
Lemma layer_evals_ok evals d cnt log_ng : (cnt <= 2 ^ log_ng)%nat -> (forall ev, In ev evals -> exists v, nth_error ev d = Some v /\ length v = cnt) ->
  layer_evals K evals d cnt (length evals) (2 ^ log_ng) = Ok (cols K (lay evals d) log_ng).
Proof.
  intros L H. unfold layer_evals. rewrite (mapr_ok _ (fun i => col K (lay evals d) i)).
  - cbn [rmap]. f_equal. unfold cols. replace (2 ^ log_ng)%nat with (cnt + (2 ^ log_ng - cnt))%nat at 2 by lia. rewrite seq_app, map_app. f_equal.
    assert (Z : forall i, (cnt <= i)%nat -> col K (lay evals d) i = repeat 0 (length evals)).
    { intros i Hi. unfold col, lay. rewrite map_map. clear L. induction evals as [|ev evals IH]; [reflexivity|]. cbn [map length repeat]. f_equal.
      - destruct (H ev (or_introl eq_refl)) as (v & E & Lv). rewrite (nth_error_nth _ _ [] E). apply nth_overflow. lia.
      - apply IH. intros ev' I. apply H. right. exact I. }
    change (0 + cnt)%nat with cnt. generalize (2 ^ log_ng - cnt)%nat. intro m. generalize (le_n cnt). generalize cnt at 2 3. revert Z. clear. intros Z j. revert j. induction m as [|m IH]; intros j Hj; [reflexivity|]. cbn [repeat seq map]. rewrite Z by exact Hj. f_equal. apply IH. lia.
  - intros i Hi. apply in_seq in Hi. unfold col, lay. rewrite map_map. apply mapr_ok. intros ev I. destruct (H ev I) as (v & E & Lv). unfold vget. rewrite E. cbn [rbind]. rewrite (nth_error_nth _ _ [] E). apply (kget_ok K). lia.
Qed.
(** What an honest evaluation of all instances is. *)
Definition runs (c : circuit) (evals : list (list (list K))) : Prop :=
  forall ev, In ev evals -> run K c ev /\ forall d lo, nth_error (c_layers c) d = Some lo -> exists v, nth_error ev d = Some v /\ length v = l_count lo.
Lemma his_lay c evals d lo hi : runs c evals -> nth_error (c_layers c) d = Some lo -> nth_error (c_layers c) (S d) = Some hi -> his K (lay evals d) (l_gates hi) = lay evals (S d).
Proof.
  intros R Hl Hh. unfold his, lay. rewrite map_map. apply map_ext_in. intros ev I. destruct (R ev I) as [A B]. destruct (B d lo Hl) as (v & E & _). rewrite (nth_error_nth _ _ [] E).
  destruct (A d lo hi v Hl Hh E) as (_ & _ & _ & Q). symmetry. exact (nth_error_nth _ _ [] Q).
Qed.
Definition step_ok (lo hi : nat) : Prop := next_pow2 hi = hi /\ (lo <= 1 \/ hi <= next_pow2 lo)%nat.
Definition steps_ok (c : circuit) (d : nat) : Prop := forall e lo hi, (e < d)%nat -> nth_error (c_layers c) e = Some lo -> nth_error (c_layers c) (S e) = Some hi -> step_ok (l_count lo) (l_count hi).
Lemma step_dec lo hi : {step_ok lo hi} + {~ step_ok lo hi}.
Proof. unfold step_ok. destruct (Nat.eq_dec (next_pow2 hi) hi); [|right; tauto]. destruct (le_dec lo 1); [left; tauto|]. destruct (le_dec hi (next_pow2 lo)); [left; tauto|right; tauto]. Qed.
Lemma np_one m : (m <= 1)%nat -> next_pow2 m = 1%nat.
Proof. intro H. destruct m as [|[|m]]; [reflexivity|reflexivity|lia]. Qed.
Lemma lgn_zero m : lgn m = 0%nat -> (m <= 1)%nat.
Proof. intro H. pose proof (log2c_np m). rewrite H in H0. cbn in H0. pose proof (np_le m). lia. Qed.
Lemma com_pair (p : mcp K G) x y rx ry u0 u1 : gadd (gsm u0 (com p [x] rx)) (gsm u1 (com p [y] ry)) = com p [x * u0 + y * u1] (rx * u0 + ry * u1).
Proof. unfold poly_commit_vec. destruct (mc_gens K G p) as [|g gs]; [|rewrite !msm1; cbn [hd]]; cbn [msm]; gmod; try ring. Qed.
Section Loop.
Variables (p : hparams K G) (c : circuit) (evals : list (list (list K))) (log_n : nat) (zs : nat -> zrand K) (l0 : layer).
Hypothesis two : (1 + 1 : K) <> 0.
Hypothesis three : (1 + 1 + 1 : K) <> 0.
Hypothesis Hr : runs c evals.
Hypothesis Hn : length evals = (2 ^ log_n)%nat.
Hypothesis Hcnt : forall d hi, nth_error (c_layers c) (S d) = Some hi -> l_count hi = length (l_gates hi).
Hypothesis H0 : nth_error (c_layers c) 0 = Some l0.
Lemma below d hi : nth_error (c_layers c) (S d) = Some hi -> exists lo, nth_error (c_layers c) d = Some lo.
Proof. intro E. destruct (nth_error (c_layers c) d) eqn:X; [eauto|]. apply nth_error_None in X. assert (nth_error (c_layers c) (S d) = None) by (apply nth_error_None; lia). congruence. Qed.
Definition goal_ok d claim rc0 u0 u1 qa ql qr x y rx ry cx cy (t : tr) : Prop :=
  exists pfs qa' ql' qr' rx' ry' t', hx_layers K G ch p c evals (2 ^ log_n) d zs claim (com (hp_1 K G p) [claim] rc0) rc0 u0 u1 qa ql qr x y rx ry t = Ok (pfs, (qa', ql', qr', V (lay evals 0) qa' ql', V (lay evals 0) qa' qr', rx', ry'), t') /\
    hx_check K G ch p c (2 ^ log_n) d pfs (com (hp_1 K G p) [claim] rc0) u0 u1 qa ql qr cx cy t = Ok (qa', ql', qr', com (hp_1 K G p) [V (lay evals 0) qa' ql'] rx', com (hp_1 K G p) [V (lay evals 0) qa' qr'] ry', t') /\
    length qa' = log_n /\ length ql' = lgn (l_count l0) /\ length qr' = lgn (l_count l0).
Lemma layers_ok : forall d hi claim rc0 u0 u1 qa ql qr x y rx ry cx cy (t : tr), nth_error (c_layers c) (S d) = Some hi ->
  length qa = log_n -> length ql = lgn (l_count hi) -> length qr = lgn (l_count hi) -> claim = V (lay evals (S d)) qa ql * u0 + V (lay evals (S d)) qa qr * u1 ->
  ((1 <= log_n)%nat -> steps_ok c (S d) -> goal_ok (S d) claim rc0 u0 u1 qa ql qr x y rx ry cx cy t) /\
  (log_n = 0%nat \/ ~ steps_ok c (S d) -> hx_layers K G ch p c evals (2 ^ log_n) (S d) zs claim (com (hp_1 K G p) [claim] rc0) rc0 u0 u1 qa ql qr x y rx ry t = Panic).
Proof.
  induction d as [d IH] using lt_wf_ind. intros hi claim rc0 u0 u1 qa ql qr x y rx ry cx cy t Hh Lqa Lql Lqr Hc.
  destruct (below d hi Hh) as (lo & Hlo).
  assert (Eh : his K (lay evals d) (l_gates hi) = lay evals (S d)) by exact (his_lay c evals d lo hi Hr Hlo Hh).
  assert (LE : layer_evals K evals d (l_count lo) (2 ^ log_n) (2 ^ lgn (l_count lo)) = Ok (cols K (lay evals d) (lgn (l_count lo)))).
  { rewrite <- Hn. apply layer_evals_ok; [rewrite log2c_np; apply np_le|]. intros ev I. exact (proj2 (Hr ev I) d lo Hlo). }
  assert (Lvs : length (lay evals d) = (2 ^ log_n)%nat) by (unfold lay; rewrite map_length; exact Hn).
  assert (W : map gt_g (l_gates hi) = seq 0 (length (l_gates hi)) /\ Forall (fun g => gt_op g = 0 \/ gt_op g = 1)%nat (l_gates hi) /\ (forall g, In g (l_gates hi) -> (gt_l g < 2 ^ lgn (l_count lo) /\ gt_r g < 2 ^ lgn (l_count lo))%nat)).
  { destruct evals as [|ev es] eqn:Ee; [exfalso; cbn [length] in Hn; symmetry in Hn; revert Hn; apply Nat.pow_nonzero; lia|]. destruct (Hr ev (or_introl eq_refl)) as [A B]. destruct (B d lo Hlo) as (v & Ev & Lv).
    destruct (A d lo hi v Hlo Hh Ev) as (F & Q & _ & _). split; [exact Q|]. rewrite Forall_forall in F. split.
    - apply Forall_forall. intros g I. destruct (F g I) as (X1 & X2 & X3 & X4). tauto.
    - intros g I. destruct (F g I) as (X1 & X2 & X3 & X4). rewrite log2c_np. pose proof (np_le (l_count lo)). lia. }
  destruct W as (Wg & Wo & Wl). assert (Lq : length ql = length qr) by congruence. pose proof (Hcnt d hi Hh) as Cn.
  rewrite <- Eh in Hc. set (z := zs d).
  assert (Hstart : hx_layers K G ch p c evals (2 ^ log_n) (S d) zs claim (com (hp_1 K G p) [claim] rc0) rc0 u0 u1 qa ql qr x y rx ry t =
    rbind (zk_prover K G ch p claim (com (hp_1 K G p) [claim] rc0) rc0 u0 u1 qa ql qr (l_gates hi) (cols K (lay evals d) (lgn (l_count lo))) (2 ^ log_n) (2 ^ lgn (l_count lo)) z t) (fun '(pf, qa, ql, qr, x, y, t) =>
      match d with
      | O => rmap (fun '(pfs, s, t) => (pf :: pfs, s, t)) (hx_layers K G ch p c evals (2 ^ log_n) d zs claim (com (hp_1 K G p) [claim] rc0) rc0 u0 u1 qa ql qr x y (zr_x K z) (zr_y K z) t)
      | S _ =>
          let '(u0, t) := draw K G ch "u0" t in let '(u1, t) := draw K G ch "u1" t in
          let comm_claim := gadd (gsm u0 (zk_x K G pf)) (gsm u1 (zk_y K G pf)) in
          let t := MG "comm_a_i" comm_claim :: t in
          rmap (fun '(pfs, s, t) => (pf :: pfs, s, t)) (hx_layers K G ch p c evals (2 ^ log_n) d zs (x * u0 + y * u1) comm_claim (zr_x K z * u0 + zr_y K z * u1) u0 u1 qa ql qr x y (zr_x K z) (zr_y K z) t)
      end)).
  { cbn [hx_layers]. unfold lget. rewrite Hlo, Hh. cbn [rbind]. rewrite <- (log2c_np (l_count lo)), LE. cbn [rbind]. rewrite lg with (K := K) (vs := lay evals d) (log_n := log_n) (qa := qa) (ql := ql) (qr := qr) by assumption. reflexivity. }
  rewrite Hstart.
  destruct (Nat.eq_dec (next_pow2 (l_count hi)) (l_count hi)) as [Ep|Np].
  2:{ assert (N : length (l_gates hi) <> (2 ^ length ql)%nat) by (rewrite Lql, log2c_np; congruence). split.
      - intros _ St. exfalso. apply Np. exact (proj1 (St d lo hi (le_n _) Hlo Hh)).
      - intros _. rewrite (wrong_count K G ch p (lay evals d)) by assumption. reflexivity. }
  assert (Lg : length (l_gates hi) = (2 ^ length ql)%nat) by (rewrite Lql, log2c_np; congruence).
  destruct (Nat.eq_dec log_n 0) as [Z|NZ].
  { split; [lia|]. intros _. rewrite (single_panics K G ch p (lay evals d)) by assumption. reflexivity. }
  destruct (step_dec (l_count lo) (l_count hi)) as [Sd|Nd].
  2:{ split; [intros _ St; exfalso; apply Nd; exact (St d lo hi (le_n _) Hlo Hh)|]. intros _.
      assert (X : (1 <= lgn (l_count lo) /\ lgn (l_count lo) < length ql)%nat).
      { unfold step_ok in Nd. split.
        - destruct (lgn (l_count lo)) eqn:E; [|lia]. apply lgn_zero in E. exfalso. apply Nd. split; [exact Ep|left; exact E].
        - apply Nat.nle_gt. intro L. apply Nd. split; [exact Ep|right]. rewrite Cn, Lg, <- (log2c_np (l_count lo)). apply Nat.pow_le_mono_r; lia. }
      rewrite (layer_panics K G ch p (lay evals d)) by (try assumption; apply X). reflexivity. }
  assert (Hdim : (lgn (l_count lo) = 0 \/ length ql <= lgn (l_count lo))%nat).
  { destruct Sd as [_ [L|L]]; [left; rewrite (np_one _ L); reflexivity|right]. apply (Nat.pow_le_mono_r_iff 2); [lia|]. rewrite <- Lg, log2c_np, <- Cn. exact L. }
  destruct (layer_ok K G ch p (lay evals d) (l_gates hi) log_n (lgn (l_count lo)) u0 u1 qa ql qr two three Wg Wo Wl Lvs Lqa Lq Lg z claim rc0 t Hc ltac:(lia) Hdim) as (pf & rs & r0 & r1 & t' & EP & Ex & Ey & Lrs & Lr0 & Lr1 & EV).
  rewrite EP. cbn [rbind].
  assert (Cstart : forall pfs, hx_check K G ch p c (2 ^ log_n) (S d) (pf :: pfs) (com (hp_1 K G p) [claim] rc0) u0 u1 qa ql qr cx cy t =
      match d with
      | O => hx_check K G ch p c (2 ^ log_n) d pfs (com (hp_1 K G p) [claim] rc0) u0 u1 rs r0 r1 (zk_x K G pf) (zk_y K G pf) t'
      | S _ =>
          let '(u0, t) := draw K G ch "u0" t' in let '(u1, t) := draw K G ch "u1" t in
          let comm_a := gadd (gsm u0 (zk_x K G pf)) (gsm u1 (zk_y K G pf)) in
          hx_check K G ch p c (2 ^ log_n) d pfs comm_a u0 u1 rs r0 r1 (zk_x K G pf) (zk_y K G pf) (MG "comm_a_i" comm_a :: t)
      end).
  { intro pfs. cbn [hx_check]. unfold lget. rewrite Hlo, Hh. cbn [rbind]. rewrite <- (log2c_np (l_count lo)), EV. cbn [rbind]. reflexivity. }
  unfold goal_ok. rewrite Hstart, EP. cbn [rbind].
  destruct d as [|d'].
  - assert (lo = l0) by congruence. subst lo. split.
    + intros _ _. cbn [hx_layers rmap]. exists [pf], rs, r0, r1, (zr_x K z), (zr_y K z), t'. split; [reflexivity|]. rewrite Cstart. cbn [hx_check]. rewrite Ex, Ey. repeat split; assumption.
    + intros [X|X]; [contradiction|]. exfalso. apply X. intros e a b He Ha Hb. assert (e = 0)%nat by lia. subst e. congruence.
  - unfold draw in *. cbv zeta in *. rewrite Ex, Ey, com_pair in *.
    set (u0' := ch "u0" t') in *. set (u1' := ch "u1" (MCh "u0" :: t')) in *.
    set (cl := V (lay evals (S d')) rs r0 * u0' + V (lay evals (S d')) rs r1 * u1') in *.
    destruct (IH d' ltac:(lia) lo cl (zr_x K z * u0' + zr_y K z * u1') u0' u1' rs r0 r1 (V (lay evals (S d')) rs r0) (V (lay evals (S d')) rs r1) (zr_x K z) (zr_y K z) (zk_x K G pf) (zk_y K G pf)
      (MG "comm_a_i" (com (hp_1 K G p) [cl] (zr_x K z * u0' + zr_y K z * u1')) :: MCh "u1" :: MCh "u0" :: t') Hlo Lrs Lr0 Lr1 eq_refl) as [IH1 IH2].
    split.
    + intros _ St. destruct (IH1 ltac:(lia)) as (pfs & qa' & ql' & qr' & rx' & ry' & t2 & P1 & P2 & P3).
      { intros e a b He. apply St. lia. }
      rewrite P1. cbn [rmap]. exists (pf :: pfs), qa', ql', qr', rx', ry', t2. split; [reflexivity|]. split; [|exact P3]. rewrite Cstart. rewrite <- Ex, <- Ey. exact P2.
    + intros [X|X]; [contradiction|]. rewrite IH2; [reflexivity|]. right. intro Q. apply X. intros e a b He Ha Hb. destruct (Nat.eq_dec e (S d')) as [->|]; [congruence|]. apply (Q e a b); [lia|assumption|assumption].
Qed.
End Loop.
End S.
