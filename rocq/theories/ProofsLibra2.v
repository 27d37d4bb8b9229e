(** Completeness of the plain Libra protocol. *)
From Verif Require Import Field Poly ProofsPC SpecMle ProofsMle ProofsLibra.
From Verif Require Import ModelLibra.
Local Open Scope string_scope.
Local Open Scope list_scope.
Local Open Scope fld_scope.
Section P.
Variable K : Fld.
Variable G : Type.
Variable ch : oracle K G.
Add Field KfLib2 : (f_laws K).
Notation tr := (transcript K G).
Hypothesis two : (1 + 1 : K) <> 0.
Definition gval (v : list K) (g : gate) : K := if Nat.eqb (gt_op g) 0 then nth (gt_l g) v 0 + nth (gt_r g) v 0 else nth (gt_l g) v 0 * nth (gt_r g) v 0.
Lemma gate_values_ok v gs ng : Forall (gate_ok ng (length v)) gs -> gate_values K v gs = Ok (map (gval v) gs).
Proof.
  induction 1 as [|g gs (Ho & _ & Hl & Hr) _ IH]; [reflexivity|]. cbn [gate_values map]. unfold gate_value. destruct (Nat.leb_spec (length v) (gt_l g)); [lia|]. destruct (Nat.leb_spec (length v) (gt_r g)); [lia|]. cbn [orb].
  unfold gval at 1. destruct Ho as [-> | ->]; cbn [Nat.eqb rbind]; rewrite IH; reflexivity.
Qed.
Lemma evals_g_ok gu gv al be : length gu = length gv -> exists eg, evals_g K gu gv al be = Ok eg /\ length eg = (2 ^ length gu)%nat /\ forall out, (length out <= 2 ^ length gu)%nat -> dot out eg = al * mle out gu + be * mle out gv.
Proof.
  intro H. unfold evals_g. rewrite !eval_eq_length, <- H, Nat.leb_refl. eexists. split; [reflexivity|]. split; [rewrite map_length, seq_length; reflexivity|].
  intros out L. rewrite !mle_dot by (rewrite <- ?H; assumption). rewrite !dot_sumn, <- !sumn_mul_l, <- sumn_add. apply sumn_ext. intros i I. rewrite nth_map_seq. destruct (Nat.ltb_spec i (2 ^ length gu)); [|lia]. ring.
Qed.
Lemma gates_dot eg v gs : map gt_g gs = seq 0 (length gs) -> dot (map (gval v) gs) eg = fsum (map (fun g => gval v g * nth (gt_g g) eg 0) gs).
Proof.
  intro H. rewrite dot_sumn, sumn_fsum, map_length. f_equal. assert (forall s gs, map gt_g gs = seq s (length gs) -> map (fun i => nth i (map (gval v) gs) 0 * nth (s + i) eg 0) (seq 0 (length gs)) = map (fun g => gval v g * nth (gt_g g) eg 0) gs) as Q.
  - clear. intros s gs. revert s. induction gs as [|g gs IH]; intros s H; [reflexivity|]. cbn [length seq map nth] in *. injection H as H1 H2. rewrite Nat.add_0_r, H1. f_equal. rewrite <- (IH (S s) H2). rewrite <- seq_shift, map_map. apply map_ext. intro i. cbn [nth]. rewrite Nat.add_succ_r. reflexivity.
  - exact (Q 0%nat gs H).
Qed.
Lemma mle_wsum m r : length m = (2 ^ length r)%nat -> mle m r = wsum K (length m) m (fun x => nth x (eval_eq K r) 0).
Proof. intro H. rewrite mle_dot by lia. rewrite dot_sumn. reflexivity. Qed.
(** One layer, honestly. *)
Lemma layer_step v gs b gu gv al be ru_ rv_ (t : tr) : length v = (2 ^ b)%nat -> length gu = length gv -> (length gs <= 2 ^ length gu)%nat ->
  Forall (gate_ok (length gs) (length v)) gs -> map gt_g gs = seq 0 (length gs) ->
  al * ru_ + be * rv_ = al * mle (map (gval v) gs) gu + be * mle (map (gval v) gs) gv ->
  exists g1 p1 ru t1 g2 p2 rv t2, initialize_phase_one K gu gv gs v b al be = Ok g1 /\ phase_one_prover K G ch v g1 b (al * ru_ + be * rv_) t = Ok (p1, ru, t1) /\
    initialize_phase_two K gu gv ru gs v b al be = Ok g2 /\ phase_two_prover K G ch v g2 b (term_one K (s_vals K p1)) t1 = Ok (p2, rv, t2) /\
    length ru = b /\ length rv = b /\ snd g2 = mle v ru /\ nth 0 (s_vals K p1) 0 = mle v ru /\ nth 0 (s_vals K p2) 0 = mle v rv /\ length (s_vals K p1) = 4%nat /\ length (s_vals K p2) = 3%nat /\
    exists t1' t2', t1 = MFs "claim_final" (s_vals K p1) :: t1' /\ t2 = MFs "claim_final" (s_vals K p2) :: t2' /\
      sc_check K G ch b (s_polys K p1) (al * ru_ + be * rv_) t = Ok (ru, term_one K (s_vals K p1), t1') /\
      sc_check K G ch b (s_polys K p2) (term_one K (s_vals K p1)) t1 = Ok (rv, term_two K (mle v ru) (s_vals K p2), t2').
Proof.
  intros Lv Lg Lgs Hg Hi E. destruct (evals_g_ok gu gv al be Lg) as (eg & Eg & Leg & Deg).
  assert (Forall (gate_ok (length eg) (length v)) gs) as Hg'. { revert Hg. apply Forall_impl. intros g (A & B & C). split; [exact A|]. split; [lia|exact C]. }
  unfold initialize_phase_one. rewrite Eg. cbn [rbind]. unfold eval_hg. set (z := repeat 0 (2 ^ b)). assert (length z = length v) as Lz by (unfold z; rewrite repeat_length; lia).
  destruct (hg_ok K eg v gs z z z Lz Lz Lz Hg') as (m & a1 & a2 & -> & Lm & L1 & L2 & W). exists (m, a1, a2).
  assert (Forall (fun u => length u = (2 ^ b)%nat) [v; m; a1; a2]) as LL by (repeat constructor; congruence).
  assert (al * ru_ + be * rv_ = total K (term_one K) [v; m; a1; a2] b) as C1.
  { rewrite E, <- Deg by (rewrite map_length; exact Lgs). rewrite gates_dot by assumption. unfold total. rewrite <- sumn_fsum.
    rewrite (sumn_ext _ _ _ (fun x => (nth x m 0 * nth x v 0 + nth x a1 0 * nth x v 0) + nth x a2 0 * 1)) by (intros i _; unfold term_one, at_j; cbn [map nth]; ring).
    rewrite !sumn_add, <- Lv. fold (wsum K (length v) m (fun x => nth x v 0)) (wsum K (length v) a1 (fun x => nth x v 0)) (wsum K (length v) a2 (fun _ => 1)).
    destruct (W (fun x => nth x v 0)) as (-> & -> & _). destruct (W (fun _ => 1)) as (_ & _ & ->). unfold z. rewrite !wsum_repeat.
    rewrite (fsum_map_ext _ _ (fun g => (isop K 1 g (nth (gt_g g) eg 0 * nth (gt_r g) v 0 * nth (gt_l g) v 0) + isop K 0 g (nth (gt_g g) eg 0 * nth (gt_l g) v 0)) + isop K 0 g (nth (gt_g g) eg 0 * nth (gt_r g) v 0 * 1)) gs).
    - rewrite !fsum_map_add. ring.
    - intros g I. rewrite Forall_forall in Hg. destruct (Hg g I) as (Ho & _). unfold gval, isop. destruct Ho as [-> | ->]; cbn [Nat.eqb]; ring. }
  destruct (sc_rounds_ok K G ch (term_one K) (term_one_quad K) two b [v; m; a1; a2] (al * ru_ + be * rv_) t LL C1) as (polys & ru & ts' & t1' & R & Lru & A & C).
  exists (mkSC K polys (at_j K ts' 0)), ru, (MFs "claim_final" (at_j K ts' 0) :: t1').
  unfold initialize_phase_two. rewrite eval_eq_length, Lru, Lv, Nat.eqb_refl. cbn [negb]. rewrite Eg. cbn [rbind]. unfold eval_fgu. fold z.
  assert (Forall (gate_ok (length eg) (2 ^ b)) gs) as Hg2 by (rewrite <- Lv; exact Hg').
  destruct (fgu_ok K eg (eval_eq K ru) (2 ^ b) gs z z) as (m2 & a & -> & Lm2 & La & W2); [unfold z; apply repeat_length|unfold z; apply repeat_length|rewrite eval_eq_length, Lru; reflexivity|exact Hg2|].
  assert (dot v (eval_eq K ru) = mle v ru) as Fu by (rewrite mle_dot by (rewrite Lru; lia); reflexivity). cbn [rmap]. rewrite Fu. exists (m2, a, mle v ru).
  assert (Forall (fun u => length u = (2 ^ b)%nat) [v; m2; a]) as LL2 by (repeat constructor; assumption).
  assert (term_one K (at_j K ts' 0) = total K (term_two K (mle v ru)) [v; m2; a] b) as C2.
  { rewrite A. unfold term_one. cbn [map nth]. rewrite (mle_wsum m), (mle_wsum a1), (mle_wsum a2) by (rewrite Lru; congruence). rewrite Lm, L1, L2.
    unfold total. rewrite <- sumn_fsum. rewrite (sumn_ext _ _ _ (fun y => (mle v ru * (nth y m2 0 * nth y v 0) + mle v ru * (nth y a 0 * 1)) + nth y a 0 * nth y v 0)) by (intros i _; unfold term_two, at_j; cbn [map nth]; ring).
    rewrite !sumn_add, !sumn_mul_l. fold (wsum K (2 ^ b) m2 (fun x => nth x v 0)) (wsum K (2 ^ b) a (fun x => nth x v 0)) (wsum K (2 ^ b) a (fun _ => 1)).
    destruct (W2 (fun x => nth x v 0)) as (-> & ->). destruct (W2 (fun _ => 1)) as (_ & ->). destruct (W (fun x => nth x (eval_eq K ru) 0)) as (-> & -> & ->). unfold z. rewrite !wsum_repeat.
    f_equal; [f_equal; f_equal; f_equal|f_equal]; f_equal; apply map_ext; intro g; unfold isop; destruct (Nat.eqb _ _); ring. }
  destruct (sc_rounds_ok K G ch (term_two K (mle v ru)) (term_two_quad K _) two b [v; m2; a] (term_one K (at_j K ts' 0)) (MFs "claim_final" (at_j K ts' 0) :: t1') LL2 C2) as (polys2 & rv & ts2 & t2' & R2 & Lrv & A2 & D2).
  exists (mkSC K polys2 (at_j K ts2 0)), rv, (MFs "claim_final" (at_j K ts2 0) :: t2').
  split; [reflexivity|]. split. { unfold phase_one_prover. rewrite Lm, L1, L2, Lv, !Nat.eqb_refl. cbn [andb negb]. rewrite R. reflexivity. }
  split; [reflexivity|]. split. { unfold phase_two_prover. rewrite Lm2, La, Lv, !Nat.eqb_refl. cbn [andb negb s_vals]. rewrite R2. reflexivity. }
  cbn [s_vals s_polys snd]. rewrite A, A2 in *. cbn [map nth length]. repeat (split; [first [assumption|reflexivity]|]).
  exists t1', t2'. repeat (split; [first [assumption|reflexivity]|]). exact D2.
Qed.

(** ** All layers *)
(** Consecutive layers fit, gates are numbered from zero, and [evals] holds the layers' values. *)
Definition run (c : circuit) (evals : list (list K)) : Prop :=
  forall d lo hi v, nth_error (c_layers c) d = Some lo -> nth_error (c_layers c) (S d) = Some hi -> nth_error evals d = Some v ->
    Forall (gate_ok (length (l_gates hi)) (length v)) (l_gates hi) /\ map gt_g (l_gates hi) = seq 0 (length (l_gates hi)) /\
    (length (l_gates hi) <= 2 ^ l_bits hi)%nat /\ nth_error evals (S d) = Some (map (gval v) (l_gates hi)).
Lemma prove_layers_ok c evals : run c evals -> length evals = length (c_layers c) -> forall d al be gu gv ru_ rv_ (t : tr) hi out v0 l0,
  (1 <= d)%nat -> nth_error (c_layers c) d = Some hi -> nth_error evals d = Some out -> nth_error evals 0 = Some v0 -> nth_error (c_layers c) 0 = Some l0 ->
  length gu = l_bits hi -> length gv = l_bits hi -> al * ru_ + be * rv_ = al * mle out gu + be * mle out gv ->
  (forall i lo v, (i < d)%nat -> nth_error (c_layers c) i = Some lo -> nth_error evals i = Some v -> length v = (2 ^ l_bits lo)%nat) ->
  exists pfs ru rv, prove_layers K G ch c evals d al be gu gv ru_ rv_ t = Ok pfs /\ length pfs = d /\ length ru = l_bits l0 /\ length rv = l_bits l0 /\
    verify_layers K G ch c pfs d al be ru_ rv_ t = Ok (ru, rv, mle v0 ru, mle v0 rv).
Proof.
  intros Hrun Hlen. induction d as [|d IH]; intros al be gu gv ru_ rv_ t hi out v0 l0 Hd Hhi Hout Hv0 Hl0 Lgu Lgv E Hs; [lia|].
  assert (d < length (c_layers c))%nat as Ld by (assert (S d < length (c_layers c))%nat by (apply nth_error_Some; congruence); lia).
  destruct (nth_error (c_layers c) d) as [lo|] eqn:Elo; [|apply nth_error_None in Elo; lia].
  destruct (nth_error evals d) as [v|] eqn:Ev; [|apply nth_error_None in Ev; lia].
  destruct (Hrun d lo hi v Elo Hhi Ev) as (Hg & Hi & Hb & Ho). rewrite Hout in Ho. injection Ho as ->.
  pose proof (Hs d lo v (Nat.lt_succ_diag_r d) Elo Ev) as Lv.
  destruct (layer_step v (l_gates hi) (l_bits lo) gu gv al be ru_ rv_ t) as (g1 & p1 & ru & t1 & g2 & p2 & rv & t2 & I1 & P1 & I2 & P2 & Lru & Lrv & S2 & N1 & N2 & L4 & L3 & t1' & t2' & T1 & T2 & C1 & C2); try assumption; try congruence.
  cbn [prove_layers]. unfold lget, vget. rewrite Elo, Hhi, Ev. cbn [rbind]. rewrite I1. cbn [rbind]. rewrite P1. cbn [rbind]. rewrite I2. cbn [rbind]. rewrite P2. cbn [rbind].
  assert (forall pf rest, s_polys K (lp_one K pf) = s_polys K p1 -> s_vals K (lp_one K pf) = s_vals K p1 -> s_polys K (lp_two K pf) = s_polys K p2 -> s_vals K (lp_two K pf) = s_vals K p2 ->
    verify_layers K G ch c (pf :: rest) (S d) al be ru_ rv_ t = match d with O => Ok (ru, rv, mle v ru, mle v rv) | S _ => let '(al, t) := draw K G ch "challenge_alpha" t2 in let '(be, t) := draw K G ch "challenge_beta" t in verify_layers K G ch c rest d al be (mle v ru) (mle v rv) t end) as V.
  { intros pf rest E1 E2 E3 E4. cbn [verify_layers]. unfold lget. rewrite Elo. cbn [rbind]. rewrite E1, C1. cbn [rbind]. rewrite E2, L4. cbn [Nat.leb negb]. fold (term_one K (s_vals K p1)). rewrite feqb_refl. cbn [negb].
    rewrite <- T1, E3, C2. cbn [rbind]. rewrite E4, L3. cbn [Nat.leb negb]. rewrite N1. fold (term_two K (mle v ru) (s_vals K p2)). rewrite feqb_refl. cbn [negb]. rewrite <- T2, N2. reflexivity. }
  destruct d as [|d'].
  - rewrite Hv0 in Ev. injection Ev as <-. rewrite Hl0 in Elo. injection Elo as <-. cbn [rmap]. exists [mkLP K p1 p2], ru, rv. repeat (split; [first [reflexivity|assumption]|]). rewrite V by reflexivity. reflexivity.
  - unfold draw at 1 2. cbv beta iota zeta. unfold draw in V.
    destruct (IH (ch "challenge_alpha" t2) (ch "challenge_beta" (MCh "challenge_alpha" :: t2)) ru rv (mle v ru) (mle v rv) (MCh "challenge_beta" :: MCh "challenge_alpha" :: t2) lo v v0 l0) as (pfs & ru' & rv' & Pr & Lp & R1 & R2 & Vr); try assumption; try lia; try reflexivity; [intros i lo2 v2 Hi2; apply Hs; lia|].
    rewrite S2, N2, Pr. cbn [rmap]. exists (mkLP K p1 p2 :: pfs), ru', rv'. split; [reflexivity|]. split; [cbn [length]; lia|]. repeat (split; [assumption|]). rewrite V by reflexivity. exact Vr.
Qed.
Lemma draws_length l n : forall t : tr, length (fst (draws K G ch l n t)) = n.
Proof. induction n as [|n IH]; intro t; [reflexivity|]. cbn [draws]. unfold draw. specialize (IH (MCh l :: t)). destruct (draws K G ch l n (MCh l :: t)) as [xs t']. cbn [fst length] in *. lia. Qed.
Lemma eval_output_ok out b (t : tr) : (length out <= 2 ^ b)%nat -> exists rs t', eval_output K G ch out b t = Ok (mle out rs, rs, t') /\ length rs = b.
Proof.
  intro H. unfold eval_output. destruct (Nat.leb_spec (length out) (2 ^ b)); [|lia]. cbn [negb]. pose proof (draws_length "challenge_nextround" b t) as L. destruct (draws K G ch "challenge_nextround" b t) as [rs t']. cbn [fst] in L.
  rewrite eval_value_ok, app_length, repeat_length, L. replace (length out + (2 ^ b - length out))%nat with (2 ^ b)%nat by lia. rewrite Nat.leb_refl. cbn [rmap]. rewrite mle_pad. eauto.
Qed.
Lemma gkr_complete c evals inputs aux hash : run c evals -> evaluate K c inputs aux = Ok evals -> (2 <= c_depth c)%nat -> length (c_layers c) = c_depth c ->
  (forall i lo v, (S i < c_depth c)%nat -> nth_error (c_layers c) i = Some lo -> nth_error evals i = Some v -> length v = (2 ^ l_bits lo)%nat) ->
  exists pf inp out, gkr_prove K G ch c inputs aux hash = Ok (pf, out) /\ nth_error evals 0 = Some inp /\ nth_error evals (c_depth c - 1) = Some out /\ gkr_verify K G ch c out inp hash pf = Ok true.
Proof.
  intros Hrun Hev Hd Hll Hs. unfold gkr_prove, gkr_verify. rewrite Hev. assert (length evals = c_depth c) as Le.
  { unfold evaluate in Hev. match type of Hev with rbind ?m _ = _ => destruct m as [e| |] end; try discriminate. cbn [rbind] in Hev. destruct (Nat.eqb_spec (length e) (c_depth c)) as [E|]; [|discriminate]. injection Hev as <-. exact E. }
  destruct (c_depth c) as [|d] eqn:Ed; [lia|]. destruct d as [|d]; [lia|].
  destruct (nth_error evals (S d)) as [out|] eqn:Eo; [|apply nth_error_None in Eo; lia]. destruct (nth_error evals 0) as [inp|] eqn:Ei; [|apply nth_error_None in Ei; lia].
  destruct (nth_error (c_layers c) (S d)) as [top|] eqn:Et; [|apply nth_error_None in Et; lia]. destruct (nth_error (c_layers c) 0) as [l0|] eqn:El0; [|apply nth_error_None in El0; lia].
  destruct (nth_error (c_layers c) d) as [lo|] eqn:Elo; [|apply nth_error_None in Elo; lia]. destruct (nth_error evals d) as [v|] eqn:Ev; [|apply nth_error_None in Ev; lia].
  destruct (Hrun d lo top v Elo Et Ev) as (Hg & Hi & Hb & Ho). rewrite Eo in Ho. injection Ho as Ho.
  unfold lget, vget. rewrite Eo, Ei, Et. cbn [rbind].
  destruct (eval_output_ok out (l_bits top) (gkr_init K G hash inp out)) as (gu & t & EO & Lgu). { rewrite Ho, map_length. exact Hb. } rewrite EO. cbn [rbind].
  destruct (prove_layers_ok c evals Hrun ltac:(congruence) (S d) 1 0 gu (repeat 0 (length gu)) (mle out gu) 0 t top out inp l0) as (pfs & ru & rv & Pr & Lp & R1 & R2 & V); try assumption; try lia; [rewrite repeat_length; exact Lgu|ring|intros i lo' v' I; apply Hs; lia|].
  rewrite Pr. cbn [rmap]. exists pfs, inp, out. split; [reflexivity|]. split; [reflexivity|]. split; [replace (S (S d) - 1)%nat with (S d) by lia; exact Eo|].
  rewrite Lp, Nat.eqb_refl. cbn [negb]. rewrite EO. cbn [rbind]. rewrite V. cbn [rbind]. rewrite !eval_value_ok, R1, R2. rewrite (Hs 0%nat l0 inp) by (try assumption; lia). rewrite Nat.leb_refl. cbn [rbind]. rewrite !feqb_refl. reflexivity.
Qed.
End P.
