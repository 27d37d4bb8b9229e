(** Completeness of libra's zero-knowledge protocol: all layers and the openings of the witness. *)
From Verif Require Import Field Poly Module ModTac ModelTranscript ModelMle ModelLibra ModelSigma SpecSigma ModelSpartan ModelSnark ModelHyrax ModelLibraZk SpecMle SpecLibra ProofsPC ProofsMle ProofsLibra ProofsLibra2 ProofsLibra3 ProofsLibra4 ProofsSigma ProofsSigma3 ProofsSigma4 ProofsSpartan3 ProofsHyrax7 ProofsHyrax8 ProofsLibraZk.
From Coq Require Import String List Lia.
Import ListNotations.
Local Open Scope string_scope.
Local Open Scope list_scope.
Local Open Scope fld_scope.
Section P.
Variable K : Fld.
Variable G : Grp K.
Variable ch : oracle K G.
Add Field Kflz2 : (f_laws K).
Notation tr := (transcript K G).
Notation com p x b := (poly_commit_vec K G (mc_gens K G p) x (mc_h K G p) b).
Notation gval := (gval K).
Variable p : hparams K G.
Hypothesis two : (1 + 1 : K) <> 0.
Notation g1 := (hp_1 K G p).
Definition sized (c : circuit) (evals : list (list K)) (d : nat) : Prop :=
  forall i lo v, (i < d)%nat -> nth_error (c_layers c) i = Some lo -> nth_error evals i = Some v -> length v = (2 ^ l_bits lo)%nat /\ l_bits lo <> 0%nat.
Lemma com_pair a b x y r s : gadd (gsm a (com g1 [x] r)) (gsm b (com g1 [y] s)) = com g1 [a * x + b * y] (a * r + b * s).
Proof. unfold poly_commit_vec. rewrite !msm1. gmod; ring. Qed.
Lemma z_layers_ok c evals lrs : run K c evals -> length evals = length (c_layers c) -> (forall d i, length (rr_d K (lr_one K (lrs d) i)) = 3%nat /\ length (rr_d K (lr_two K (lrs d) i)) = 3%nat) ->
  forall d al be gu gv gv' ru_ rv_ bclaim (t : tr) hi out v0 l0,
  (1 <= d)%nat -> nth_error (c_layers c) d = Some hi -> nth_error evals d = Some out -> nth_error evals 0 = Some v0 -> nth_error (c_layers c) 0 = Some l0 ->
  length gu = l_bits hi -> length gv = l_bits hi -> length gv' = l_bits hi -> (be = 0 \/ gv' = gv) -> al * ru_ + be * rv_ = al * mle out gu + be * mle out gv -> sized c evals d ->
  exists pfs ru rv t', z_layers K G ch p c evals d lrs al be gu gv ru_ rv_ bclaim t = Ok (pfs, (ru, rv, mle v0 ru, mle v0 rv, lr_x K (lrs 0%nat), lr_y K (lrs 0%nat)), t') /\ length pfs = d /\ length ru = l_bits l0 /\ length rv = l_bits l0 /\
    z_check K G ch p c pfs d (com g1 [al * ru_ + be * rv_] bclaim) al be gu gv' t = Ok (ru, rv, com g1 [mle v0 ru] (lr_x K (lrs 0%nat)), com g1 [mle v0 rv] (lr_y K (lrs 0%nat)), t').
Proof.
  intros Hrun Hlen Hd3. induction d as [|d IH]; intros al be gu gv gv' ru_ rv_ bclaim t hi out v0 l0 Hd Hhi Hout Hv0 Hl0 Lgu Lgv Lgv' Hbe E Hs; [lia|].
  assert (d < length (c_layers c))%nat as Ld by (assert (S d < length (c_layers c))%nat by (apply nth_error_Some; congruence); lia).
  destruct (nth_error (c_layers c) d) as [lo|] eqn:Elo; [|apply nth_error_None in Elo; lia].
  destruct (nth_error evals d) as [v|] eqn:Ev; [|apply nth_error_None in Ev; lia].
  destruct (Hrun d lo hi v Elo Hhi Ev) as (Hg & Hi & Hb & Ho). rewrite Hout in Ho. injection Ho as ->.
  destruct (Hs d lo v (Nat.lt_succ_diag_r d) Elo Ev) as [Lv Nb]. destruct (l_bits lo) as [|b] eqn:Eb; [contradiction|].
  destruct (z_layer_ok K G ch p two c evals d (lrs d) al be gu gv gv' ru_ rv_ bclaim t lo hi v b) as (pf & ru & rv & t' & Pz & Lru & Lrv & Ex & Ey & Cz); try assumption; try congruence; try (intro i; apply Hd3).
  cbn [z_layers z_check]. rewrite Pz. cbn [rbind]. destruct d as [|d'].
  - rewrite Hv0 in Ev. injection Ev as <-. rewrite Hl0 in Elo. injection Elo as <-. exists [pf], ru, rv, t'. split; [reflexivity|]. split; [reflexivity|]. split; [congruence|]. split; [congruence|]. cbn [z_check]. rewrite Cz. cbn [rbind]. rewrite Ex, Ey. reflexivity.
  - unfold draw. cbv beta iota zeta. set (al' := ch "challenge_alpha" t'). set (be' := ch "challenge_beta" (MCh "challenge_alpha" :: t')).
    destruct (IH al' be' ru rv rv (mle v ru) (mle v rv) (al' * lr_x K (lrs (S d')) + be' * lr_y K (lrs (S d'))) (MCh "challenge_beta" :: MCh "challenge_alpha" :: t') lo v v0 l0) as (pfs & ru' & rv' & t2 & Pr & Lp & R1 & R2 & Vr);
      try assumption; try lia; try congruence; [right; reflexivity|intros i lo2 v2 Hi2; apply Hs; lia|].
    rewrite Pr. cbn [rmap]. exists (pf :: pfs), ru', rv', t2. split; [reflexivity|]. split; [cbn [length]; lia|]. split; [exact R1|]. split; [exact R2|]. cbn [z_check]. rewrite Cz. cbn [rbind]. unfold draw. cbv beta iota zeta. fold al' be'. rewrite Ex, Ey, com_pair. exact Vr.
Qed.
(** The first layer from the top that does not fit stops the prover. *)
Lemma z_layers_bad c evals lrs : run K c evals -> length evals = length (c_layers c) -> (forall d i, length (rr_d K (lr_one K (lrs d) i)) = 3%nat /\ length (rr_d K (lr_two K (lrs d) i)) = 3%nat) ->
  forall d al be gu gv ru_ rv_ bclaim (t : tr) hi out, nth_error (c_layers c) d = Some hi -> nth_error evals d = Some out ->
  length gu = l_bits hi -> length gv = l_bits hi -> al * ru_ + be * rv_ = al * mle out gu + be * mle out gv -> ~ sized c evals d ->
  z_layers K G ch p c evals d lrs al be gu gv ru_ rv_ bclaim t = Panic.
Proof.
  intros Hrun Hlen Hd3. induction d as [|d IH]; intros al be gu gv ru_ rv_ bclaim t hi out Hhi Hout Lgu Lgv E Hs; [exfalso; apply Hs; intros i lo v Hi; lia|].
  assert (d < length (c_layers c))%nat as Ld by (assert (S d < length (c_layers c))%nat by (apply nth_error_Some; congruence); lia).
  destruct (nth_error (c_layers c) d) as [lo|] eqn:Elo; [|apply nth_error_None in Elo; lia].
  destruct (nth_error evals d) as [v|] eqn:Ev; [|apply nth_error_None in Ev; lia].
  destruct (Hrun d lo hi v Elo Hhi Ev) as (Hg & Hi & Hb & Ho). rewrite Hout in Ho. injection Ho as ->. cbn [z_layers].
  destruct (Nat.eq_dec (length v) (2 ^ l_bits lo)) as [Lv|Nv].
  - destruct (l_bits lo) as [|b] eqn:Eb.
    + unfold z_layer, lget, vget. rewrite Elo, Hhi, Ev. cbn [rbind]. destruct (layer_tables K v (l_gates hi) 0 gu gv al be) as (m & a1 & a2 & I1 & _); try assumption; try congruence. rewrite Eb, I1. cbn [rbind]. unfold z_phase_one. destruct (negb _); reflexivity.
    + destruct (z_layer_ok K G ch p two c evals d (lrs d) al be gu gv gv ru_ rv_ bclaim t lo hi v b) as (pf & ru & rv & t' & Pz & Lru & Lrv & Ex & Ey & _); try assumption; try congruence; try (intro i; apply Hd3); [right; reflexivity|].
      rewrite Pz. cbn [rbind]. destruct d as [|d'].
      * exfalso. apply Hs. intros i lo2 v2 Hi2 A B. assert (i = 0)%nat by lia. subst i. rewrite Elo in A. rewrite Ev in B. injection A as <-. injection B as <-. rewrite Eb. split; [exact Lv|discriminate].
      * unfold draw. cbv beta iota zeta. erewrite IH; [reflexivity|first [exact Elo|reflexivity]|first [exact Ev|reflexivity]|congruence|congruence|reflexivity|].
        intro Hs'. apply Hs. intros i lo2 v2 Hi2 A B. destruct (Nat.eq_dec i (S d')) as [->|Ni]; [|apply (Hs' i lo2 v2); [lia|exact A|exact B]].
        rewrite Elo in A. rewrite Ev in B. injection A as <-. injection B as <-. rewrite Eb. split; [exact Lv|discriminate].
  - unfold z_layer, lget, vget. rewrite Elo, Hhi, Ev. cbn [rbind].
    assert (Q : noerr (initialize_phase_one K gu gv (l_gates hi) v (l_bits lo) al be)). { unfold initialize_phase_one. apply noerr_bind; [unfold evals_g; destruct (Nat.leb _ _); exact I|]. intro eg. apply hg_noerr. }
    destruct (initialize_phase_one K gu gv (l_gates hi) v (l_bits lo) al be) as [[[m a1] a2]| |] eqn:E1; [|contradiction Q|reflexivity]. cbn [rbind]. unfold z_phase_one.
    destruct (Nat.eqb_spec (length v) (2 ^ l_bits lo)); [contradiction|]. rewrite Bool.andb_false_r. reflexivity.
Qed.
(** ** The openings are hyrax's with no instance variables *)
Lemma z_open_hx wv wb q v bv e (t : tr) : z_open K G ch p wv wb q v bv e t = hx_open K G ch p wv wb [] q v bv e t.
Proof. reflexivity. Qed.
Lemma padded_one s (inp : list K) : length inp = (2 ^ s)%nat -> ModelHyrax.padded K [inp] = inp.
Proof. intro L. unfold padded. cbn [map concat]. replace (next_pow2 (length inp)) with (length inp) by (symmetry; apply np_iff; exists s; exact L). rewrite Nat.sub_diag. cbn [repeat]. rewrite !app_nil_r. reflexivity. Qed.
Lemma z_opened_hx s inp cw q C pf cy eq (t : tr) : length inp = (2 ^ s)%nat -> z_opened K G ch p inp cw q C pf cy eq t = hx_opened K G ch p [inp] cw [] q C pf cy eq t.
Proof. intro L. unfold z_opened, hx_opened. rewrite (padded_one s inp L). reflexivity. Qed.
End P.
