(** Completeness of libra's zero-knowledge protocol, one layer. *)
From Verif Require Import Field Poly Module ModTac ModelTranscript ModelLibra ModelSigma ModelSpartan ModelHyrax ModelLibraZk SpecMle ProofsPC ProofsMle ProofsLibra ProofsLibra2 ProofsSigma ProofsSpartan3.
From Coq Require Import String List Lia.
Local Open Scope string_scope.
Local Open Scope list_scope.
Local Open Scope fld_scope.
Section P.
Variable K : Fld.
Variable G : Grp K.
Variable ch : oracle K G.
Add Field Kflz : (f_laws K).
Notation tr := (transcript K G).
Notation com p x b := (poly_commit_vec K G (mc_gens K G p) x (mc_h K G p) b).
Notation gval := (gval K).
Definition opsum (o : nat) (gs : list gate) (W : nat -> K) (ru rv : list K) : K :=
  fsum (map (fun g => isop K o g (nth (gt_l g) (eval_eq K ru) 0 * nth (gt_r g) (eval_eq K rv) 0 * W (gt_g g))) gs).
Lemma operators_fold eu ev er es al be gs : Forall (fun g => (gt_op g = 0 \/ gt_op g = 1) /\ (gt_g g < length eu) /\ (gt_g g < length ev) /\ (gt_l g < length er) /\ (gt_r g < length es))%nat gs -> forall a m,
  foldr (op_gate K eu ev er es al be) (a, m) gs =
  Ok (a + fsum (map (fun g => isop K 0 g (nth (gt_l g) er 0 * nth (gt_r g) es 0 * (al * nth (gt_g g) eu 0 + be * nth (gt_g g) ev 0))) gs),
      m + fsum (map (fun g => isop K 1 g (nth (gt_l g) er 0 * nth (gt_r g) es 0 * (al * nth (gt_g g) eu 0 + be * nth (gt_g g) ev 0))) gs)).
Proof.
  induction 1 as [|g gs (Ho & H1 & H2 & H3 & H4) _ IH]; intros a m; cbn [foldr map fsum]; [f_equal; f_equal; ring|].
  unfold op_gate at 1. rewrite !kget_ok by assumption. cbn [rbind]. unfold isop at 1 3. destruct Ho as [-> | ->]; cbn [Nat.eqb]; rewrite ?kget_ok by assumption; cbn [rbind rmap]; rewrite IH; f_equal; f_equal; ring.
Qed.
Lemma operators_ok gs gu gv ru rv al be : Forall (fun g => (gt_op g = 0 \/ gt_op g = 1) /\ (gt_g g < 2 ^ length gu) /\ (gt_g g < 2 ^ length gv) /\ (gt_l g < 2 ^ length ru) /\ (gt_r g < 2 ^ length rv))%nat gs ->
  eval_operators K gs gu gv ru rv al be = let W i := al * nth i (eval_eq K gu) 0 + be * nth i (eval_eq K gv) 0 in Ok (opsum 0 gs W ru rv, opsum 1 gs W ru rv).
Proof.
  intro H. unfold eval_operators. rewrite operators_fold.
  - cbv zeta. unfold opsum. f_equal. f_equal; ring.
  - revert H. apply Forall_impl. intro g. rewrite !eval_eq_length. exact (fun x => x).
Qed.
(** The tables of one layer: their sums are the claims, and the two entries left at the end are what the verifier computes. *)
Lemma layer_tables v gs b gu gv al be : length v = (2 ^ b)%nat -> length gu = length gv -> (length gs <= 2 ^ length gu)%nat ->
  Forall (gate_ok (length gs) (length v)) gs -> map gt_g gs = seq 0 (length gs) ->
  exists m a1 a2, initialize_phase_one K gu gv gs v b al be = Ok (m, a1, a2) /\ length m = (2 ^ b)%nat /\ length a1 = (2 ^ b)%nat /\ length a2 = (2 ^ b)%nat /\
    al * mle (map (gval v) gs) gu + be * mle (map (gval v) gs) gv = total K (term_one K) [v; m; a1; a2] b /\
    forall ru, length ru = b -> exists m2 a, initialize_phase_two K gu gv ru gs v b al be = Ok (m2, a, mle v ru) /\ length m2 = (2 ^ b)%nat /\ length a = (2 ^ b)%nat /\
      term_one K [mle v ru; mle m ru; mle a1 ru; mle a2 ru] = total K (term_two K (mle v ru)) [v; m2; a] b /\
      forall rv gv', length rv = b -> length gv' = length gu -> (be = 0 \/ gv' = gv) -> eval_operators K gs gu gv' ru rv al be = Ok (mle a rv, mle m2 rv).
Proof.
  intros Lv Lg Lgs Hg Hi. destruct (evals_g_ok K gu gv al be Lg) as (eg & Eg & Leg & Deg).
  assert (Neg : forall i, (i < 2 ^ length gu)%nat -> nth i eg 0 = al * nth i (eval_eq K gu) 0 + be * nth i (eval_eq K gv) 0).
  { intros i I. unfold evals_g in Eg. rewrite !eval_eq_length, <- Lg, Nat.leb_refl in Eg. injection Eg as <-. rewrite nth_map_seq. destruct (Nat.ltb_spec i (2 ^ length gu)); [reflexivity|lia]. }
  assert (Forall (gate_ok (length eg) (length v)) gs) as Hg'. { revert Hg. apply Forall_impl. intros g (A & B & C). split; [exact A|]. split; [lia|exact C]. }
  unfold initialize_phase_one. rewrite Eg. cbn [rbind]. unfold eval_hg. set (z := repeat 0 (2 ^ b)). assert (length z = length v) as Lz by (unfold z; rewrite repeat_length; lia).
  destruct (hg_ok K eg v gs z z z Lz Lz Lz Hg') as (m & a1 & a2 & -> & Lm & L1 & L2 & W). exists m, a1, a2. rewrite Lm, L1, L2, Lv. split; [reflexivity|]. do 3 (split; [reflexivity|]). split.
  { rewrite <- Deg by (rewrite map_length; exact Lgs). rewrite gates_dot by assumption. unfold total. rewrite <- sumn_fsum.
    rewrite (sumn_ext _ _ _ (fun x => (nth x m 0 * nth x v 0 + nth x a1 0 * nth x v 0) + nth x a2 0 * 1)) by (intros i _; unfold term_one, at_j; cbn [map nth]; ring).
    rewrite !sumn_add, <- Lv. fold (wsum K (length v) m (fun x => nth x v 0)) (wsum K (length v) a1 (fun x => nth x v 0)) (wsum K (length v) a2 (fun _ => 1)).
    destruct (W (fun x => nth x v 0)) as (-> & -> & _). destruct (W (fun _ => 1)) as (_ & _ & ->). unfold z. rewrite !wsum_repeat.
    rewrite (fsum_map_ext _ _ (fun g => (isop K 1 g (nth (gt_g g) eg 0 * nth (gt_r g) v 0 * nth (gt_l g) v 0) + isop K 0 g (nth (gt_g g) eg 0 * nth (gt_l g) v 0)) + isop K 0 g (nth (gt_g g) eg 0 * nth (gt_r g) v 0 * 1)) gs).
    - rewrite !fsum_map_add. ring.
    - intros g I. rewrite Forall_forall in Hg. destruct (Hg g I) as (Ho & _). unfold ProofsLibra2.gval, isop. destruct Ho as [-> | ->]; cbn [Nat.eqb]; ring. }
  intros ru Lru. unfold initialize_phase_two. rewrite eval_eq_length, Lru, Lv, Nat.eqb_refl. cbn [negb]. rewrite Eg. cbn [rbind]. unfold eval_fgu. fold z.
  assert (Forall (gate_ok (length eg) (2 ^ b)) gs) as Hg2 by (rewrite <- Lv; exact Hg').
  destruct (fgu_ok K eg (eval_eq K ru) (2 ^ b) gs z z) as (m2 & a & -> & Lm2 & La & W2); [unfold z; apply repeat_length|unfold z; apply repeat_length|rewrite eval_eq_length, Lru; reflexivity|exact Hg2|].
  assert (dot v (eval_eq K ru) = mle v ru) as Fu by (rewrite mle_dot by (rewrite Lru; lia); reflexivity). cbn [rmap]. rewrite Fu. exists m2, a. split; [reflexivity|]. split; [exact Lm2|]. split; [exact La|]. split.
  { unfold term_one. cbn [map nth]. rewrite (mle_wsum K m), (mle_wsum K a1), (mle_wsum K a2) by (rewrite Lru; congruence). rewrite Lm, L1, L2.
    unfold total. rewrite <- sumn_fsum. rewrite (sumn_ext _ _ _ (fun y => (mle v ru * (nth y m2 0 * nth y v 0) + mle v ru * (nth y a 0 * 1)) + nth y a 0 * nth y v 0)) by (intros i _; unfold term_two, at_j; cbn [map nth]; ring).
    rewrite !sumn_add, !sumn_mul_l. fold (wsum K (2 ^ b) m2 (fun x => nth x v 0)) (wsum K (2 ^ b) a (fun x => nth x v 0)) (wsum K (2 ^ b) a (fun _ => 1)).
    destruct (W2 (fun x => nth x v 0)) as (-> & ->). destruct (W2 (fun _ => 1)) as (_ & ->). destruct (W (fun x => nth x (eval_eq K ru) 0)) as (-> & -> & ->). unfold z. rewrite !wsum_repeat.
    f_equal; [f_equal; f_equal; f_equal|f_equal]; f_equal; apply map_ext; intro g; unfold isop; destruct (Nat.eqb _ _); ring. }
  intros rv gv' Lrv Lgv' Hbe. rewrite operators_ok.
  2:{ revert Hg. apply Forall_impl. intros g (A & B & C & D). rewrite Lgv', Lru, Lrv. repeat split; try assumption; lia. }
  cbv zeta. rewrite (mle_wsum K a), (mle_wsum K m2) by (rewrite Lrv; assumption). rewrite Lm2, La.
  destruct (W2 (fun x => nth x (eval_eq K rv) 0)) as (-> & ->). unfold z. rewrite !wsum_repeat. unfold opsum.
  assert (Q : forall o, fsum (map (fun g => isop K o g (nth (gt_l g) (eval_eq K ru) 0 * nth (gt_r g) (eval_eq K rv) 0 * (al * nth (gt_g g) (eval_eq K gu) 0 + be * nth (gt_g g) (eval_eq K gv') 0))) gs) =
    fsum (map (fun g => isop K o g (nth (gt_g g) eg 0 * nth (gt_l g) (eval_eq K ru) 0 * nth (gt_r g) (eval_eq K rv) 0)) gs)).
  { intro o. apply fsum_map_ext. intros g I. rewrite Forall_forall in Hg. destruct (Hg g I) as (_ & B & _). rewrite Neg by lia. f_equal. destruct Hbe as [-> | ->]; ring. }
  rewrite !Q. f_equal. f_equal; ring.
Qed.

Section L.
Variable p : hparams K G.
Hypothesis two : (1 + 1 : K) <> 0.
Notation g1 := (hp_1 K G p).
(** One phase. *)
Lemma z_phase_ok T b ts claim bclaim rnds (t : tr) : quadT K T -> Forall (fun v => length v = (2 ^ S b)%nat) ts -> claim = total K T ts (S b) -> (forall i, length (rr_d K (rnds i)) = 3%nat) ->
  exists sc rs bl t', z_phase K G ch p T (S b) ts claim bclaim rnds t = Ok (sc, rs, map (fun v => mle v rs) ts, bl, t') /\ length rs = S b /\
    sc_verify K G ch g1 (hp_3 K G p) (scp_polys K G sc) (scp_evals K G sc) (scp_proofs K G sc) (com g1 [claim] bclaim) 3 (S b) t = Ok (rs, com g1 [T (map (fun v => mle v rs) ts)] bl, t').
Proof.
  intros HT L E Hd. destruct (zk_rounds_ok K G ch (round_quad K T) T 3 g1 (hp_3 K G p) (good_quad K T HT two) ltac:(lia) (S b) ts claim bclaim (map rnds (seq 0 (S b))) t L E) as (sc & rs & ts' & bl & t' & R & Lrs & A & V).
  - rewrite map_length, seq_length. lia.
  - apply Forall_forall. intros rr I. apply in_map_iff in I. destruct I as (i & <- & _). apply Hd.
  - exists sc, rs, bl, t'. unfold z_phase. rewrite R. cbn [rmap]. rewrite A. split; [|split; assumption]. f_equal. f_equal. f_equal. f_equal. unfold at_j. rewrite map_map. reflexivity.
Qed.
(** One layer: the verifier's checks succeed and end on the prover's transcript. *)
Lemma z_layer_ok c evals d lr al be gu gv gv' ru_ rv_ bclaim (t : tr) lo hi v b :
  (forall i, length (rr_d K (lr_one K lr i)) = 3%nat) -> (forall i, length (rr_d K (lr_two K lr i)) = 3%nat) ->
  nth_error (c_layers c) d = Some lo -> nth_error (c_layers c) (S d) = Some hi -> nth_error evals d = Some v -> l_bits lo = S b -> length v = (2 ^ S b)%nat ->
  length gu = length gv -> length gv' = length gu -> (be = 0 \/ gv' = gv) -> (length (l_gates hi) <= 2 ^ length gu)%nat ->
  Forall (gate_ok (length (l_gates hi)) (length v)) (l_gates hi) -> map gt_g (l_gates hi) = seq 0 (length (l_gates hi)) ->
  al * ru_ + be * rv_ = al * mle (map (gval v) (l_gates hi)) gu + be * mle (map (gval v) (l_gates hi)) gv ->
  exists pf ru rv t', z_layer K G ch p c evals d lr al be gu gv ru_ rv_ bclaim t = Ok (pf, ru, rv, mle v ru, mle v rv, mle v ru, t') /\ length ru = S b /\ length rv = S b /\
    zl_x K G pf = com g1 [mle v ru] (lr_x K lr) /\ zl_y K G pf = com g1 [mle v rv] (lr_y K lr) /\
    z_check_layer K G ch p c d pf (com g1 [al * ru_ + be * rv_] bclaim) al be gu gv' t = Ok (ru, rv, t').
Proof.
  intros D1 D2 Elo Ehi Ev Eb Lv Lg Lg' Hbe Lgs Hg Hi E.
  destruct (layer_tables v (l_gates hi) (S b) gu gv al be Lv Lg Lgs Hg Hi) as (m & a1 & a2 & I1 & Lm & L1 & L2 & C1 & R2).
  destruct (z_phase_ok (term_one K) b [v; m; a1; a2] (al * ru_ + be * rv_) bclaim (lr_one K lr) t (term_one_quad K)) as (sc1 & ru & bl1 & t1 & P1 & Lru & V1); [repeat constructor; assumption|congruence|exact D1|].
  destruct (R2 ru Lru) as (m2 & a & I2 & Lm2 & La & C2 & Op).
  cbn [map] in P1, V1. set (x := mle v ru) in *. set (t2 := MG "comm_x" (com g1 [x] (lr_x K lr)) :: t1).
  destruct (z_phase_ok (term_two K x) b [v; m2; a] (term_one K [x; mle m ru; mle a1 ru; mle a2 ru]) bl1 (lr_two K lr) t2 (term_two_quad K x)) as (sc2 & rv & bl2 & t3 & P2 & Lrv & V2); [repeat constructor; assumption|exact C2|exact D2|].
  cbn [map] in P2, V2. set (y := mle v rv) in *. specialize (Op rv gv' Lrv Lg' Hbe).
  unfold z_layer. unfold lget, vget. rewrite Elo, Ehi, Ev. cbn [rbind]. rewrite Eb, I1. cbn [rbind]. unfold z_phase_one. rewrite Lm, L1, L2, Lv, !Nat.eqb_refl. cbn [andb negb]. rewrite P1. cbn [rbind].
  change (nth 0 [x; mle m ru; mle a1 ru; mle a2 ru] 0) with x. rewrite I2. cbn [rbind]. unfold z_phase_two. rewrite Lm2, La, Lv, !Nat.eqb_refl. cbn [andb negb]. fold t2. rewrite P2. cbn [rbind snd].
  change (nth 0 [y; mle m2 rv; mle a rv] 0) with y. change (nth 1 [y; mle m2 rv; mle a rv] 0) with (mle m2 rv). change (nth 2 [y; mle m2 rv; mle a rv] 0) with (mle a rv).
  set (t4 := MG "comm_y" (com g1 [y] (lr_y K lr)) :: t3).
  destruct (product_proof K G ch g1 x (lr_x K lr) y (lr_y K lr) (x * y) (lr_z K lr) (lr_p1 K lr) (lr_p2 K lr) (lr_p3 K lr) (lr_p4 K lr) (lr_p5 K lr) t4) as [[[[prod ca] cb] cz] t5] eqn:Ep.
  destruct (eq_proof K G ch g1 (x * y * mle m2 rv + (x + y) * mle a rv) (lr_z K lr * mle m2 rv + (lr_x K lr + lr_y K lr) * mle a rv) (x * y * mle m2 rv + (x + y) * mle a rv) bl2 (lr_eq K lr) t5) as [eq t6] eqn:Eq.
  exists (mkZL K G sc1 sc2 (com g1 [x] (lr_x K lr)) (com g1 [y] (lr_y K lr)) cz prod eq), ru, rv, t6. split; [reflexivity|]. split; [exact Lru|]. split; [exact Lrv|]. split; [reflexivity|]. split; [reflexivity|].
  unfold z_check_layer, lget. rewrite Elo, Ehi. cbn [rbind zl_one zl_two zl_x zl_y zl_z zl_prod zl_eq]. rewrite Eb, V1. cbn [unwrap rbind]. fold t2. rewrite V2. cbn [unwrap rbind]. fold t4.
  assert (Ez : cz = com g1 [x * y] (lr_z K lr) /\ ca = com g1 [x] (lr_x K lr) /\ cb = com g1 [y] (lr_y K lr)). { unfold product_proof, draw in Ep. injection Ep as _ <- <- <- _. repeat split; reflexivity. }
  destruct Ez as (Ez & Ea & Ebb). apply product_complete in Ep; [|reflexivity]. rewrite Ea, Ebb in Ep. rewrite Ep. cbn [rbind negb]. rewrite Op. cbn [rbind].
  apply eq_complete in Eq; [|reflexivity].
  match goal with |- context [eq_verify K G ch g1 ?F ?C eq t5] => replace F with (com g1 [x * y * mle m2 rv + (x + y) * mle a rv] (lr_z K lr * mle m2 rv + (lr_x K lr + lr_y K lr) * mle a rv)); [replace C with (com g1 [x * y * mle m2 rv + (x + y) * mle a rv] bl2)|] end.
  - rewrite Eq. reflexivity.
  - f_equal. f_equal. unfold term_two. cbn [nth]. ring.
  - rewrite Ez. unfold poly_commit_vec. rewrite !msm1. gmod; ring.
Qed.
End L.
End P.
