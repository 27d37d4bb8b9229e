(** One layer of libra's zero-knowledge protocol: coins correspond one to one to the accepted proofs. *)
From Verif Require Import Field Poly Module ModTac ProofsPC ModelTranscript ModelMle SpecMle ProofsMle ModelSpartan ProofsLibra ProofsLibra2 ProofsLibra4 ModelSigma ProofsSigma ProofsSigma2 ProofsSpartan3 ModelHyrax SpecHyrax3 ModelLibraZk ProofsLibraZk SpecSigmaZk SpecLibraCoins ProofsSigmaZk ProofsSigmaZk2 ProofsSigmaZk3.
From Coq Require Import String List Lia PeanoNat.
Local Open Scope string_scope.
Local Open Scope list_scope.
Local Open Scope fld_scope.
Section P.
Variable K : Fld.
Variable G : Grp K.
Variable ch : oracle K G.
Add Field Kf : (f_laws K).
Notation tr := (transcript K G).
Notation com p x b := (poly_commit_vec K G (mc_gens K G p) x (mc_h K G p) b).
Notation gval := (gval K).
Variable p : hparams K G.
Hypothesis two : (1 + 1 : K) <> 0.
Notation g1 := (hp_1 K G p).
Hypothesis S1 : spans (mc_h K G g1).
Hypothesis S3 : spans (mc_h K G (hp_3 K G p)).
Definition rr0 : rrand K := mkRR K 0 0 [0; 0; 0] 0 0.
Lemma phase_coins T b ts claim bclaim sc (t : tr) rs c t' : quadT K T -> Forall (fun v => length v = (2 ^ S b)%nat) ts -> claim = total K T ts (S b) -> sc_shape 3 (S b) sc ->
  sc_verify K G ch g1 (hp_3 K G p) (scp_polys K G sc) (scp_evals K G sc) (scp_proofs K G sc) (com g1 [claim] bclaim) 3 (S b) t = Ok (rs, c, t') ->
  exists rnds bl, (forall i, length (rr_d K (rnds i)) = 3%nat) /\ z_phase K G ch p T (S b) ts claim bclaim rnds t = Ok (sc, rs, map (fun v => mle v rs) ts, bl, t') /\
    c = com g1 [T (map (fun v => mle v rs) ts)] bl /\ length rs = S b /\
    forall rnds' rs' es b' t2, (forall i, length (rr_d K (rnds' i)) = 3%nat) -> z_phase K G ch p T (S b) ts claim bclaim rnds' t = Ok (sc, rs', es, b', t2) ->
      (forall i, (i < S b)%nat -> rnds' i = rnds i) /\ rs' = rs /\ es = map (fun v => mle v rs) ts /\ b' = bl /\ t2 = t'.
Proof.
  intros HT L E Sh V.
  destruct (rounds_coins K G ch (round_quad K T) T 3 g1 (hp_3 K G p) (good_quad K T HT two) ltac:(lia) S1 S3 (S b) ts claim bclaim sc t rs c t' L E Sh V) as (l & [Ll Hl] & (ts' & bl & Ez) & U).
  assert (Em : map (fun i => nth i l rr0) (seq 0 (S b)) = l).
  { rewrite <- Ll. clear. induction l as [|x l IH]; [reflexivity|]. cbn [length seq map nth]. f_equal. rewrite <- seq_shift, map_map. exact IH. }
  assert (H3 : forall i, length (rr_d K (nth i l rr0)) = 3%nat).
  { intro i. destruct (Nat.ltb_spec i (length l)); [|rewrite nth_overflow by lia; reflexivity]. rewrite Forall_forall in Hl. apply Hl, nth_In. lia. }
  destruct (z_phase_ok K G ch p two T b ts claim bclaim (fun i => nth i l rr0) t HT L E H3) as (sc0 & rs0 & bl0 & t0 & P & Lrs & V0).
  assert (P' := P). unfold z_phase in P'. rewrite Em, Ez in P'. cbn [rmap] in P'. injection P' as -> -> E1 -> ->.
  exists (fun i => nth i l rr0), bl0. split; [exact H3|]. split; [exact P|]. split; [rewrite V0 in V; injection V as <-; reflexivity|]. split; [exact Lrs|].
  intros rnds' rs' es b' t2 Hr' P2. assert (Q : map rnds' (seq 0 (S b)) = l).
  { assert (P2' := P2). unfold z_phase in P2'.
    match type of P2' with rmap _ ?X = _ => destruct X as [[[[[sc1 rs1] ts1] b1] t1]| |] eqn:Ez1; cbn [rmap rbind] in P2'; try discriminate end. injection P2' as -> _ _ _ _.
    refine (U _ _ _ _ _ _ Ez1). split; [rewrite map_length, seq_length; reflexivity|]. apply Forall_forall. intros rr I. apply in_map_iff in I. destruct I as (i & <- & _). apply Hr'. }
  assert (Q2 : z_phase K G ch p T (S b) ts claim bclaim rnds' t = z_phase K G ch p T (S b) ts claim bclaim (fun i => nth i l rr0) t) by (unfold z_phase; rewrite Q, Em; reflexivity).
  rewrite P2, P in Q2. injection Q2 as -> -> -> ->. split; [|repeat split].
  intros i Hi. rewrite <- Q. rewrite (nth_indep _ rr0 (rnds' 0%nat)) by (rewrite map_length, seq_length; exact Hi). rewrite map_nth, seq_nth by exact Hi. reflexivity.
Qed.
Lemma com_span (q : mcp K G) (C : G) x : spans (mc_h K G q) -> exists b, com q [x] b = C /\ forall b', com q [x] b' = C -> b' = b.
Proof. intro Sp. exact (spans_sub K G _ (msm (mc_gens K G q) [x]) C Sp). Qed.
Lemma product_same q a ba b bb pr bpr b1 b2 b3 b4 b5 b1' b2' b3' b4' b5' (t : tr) pf ca cb cc u ca' cb' cc' u' :
  product_proof K G ch q a ba b bb pr bpr b1 b2 b3 b4 b5 t = (pf, ca, cb, cc, u) -> product_proof K G ch q a ba b bb pr bpr b1' b2' b3' b4' b5' t = (pf, ca', cb', cc', u') -> ca = ca' /\ cb = cb' /\ cc = cc' /\ u = u'.
Proof.
  unfold product_proof, draw. intros E E'. injection E as <- <- <- <- <-. injection E' as F1 F2 F3 _ _ _ _ _ <- <- <- <-. rewrite F1, F2, F3. repeat split.
Qed.
Lemma eq_same q a ba b bb r r' (t : tr) pf u u' : eq_proof K G ch q a ba b bb r t = (pf, u) -> eq_proof K G ch q a ba b bb r' t = (pf, u') -> u = u'.
Proof. unfold eq_proof, draw. intros E E'. injection E as <- <-. injection E' as F1 _ <-. rewrite F1. reflexivity. Qed.
Lemma layer_coins c evals d pf al be gu gv gv' ru_ rv_ bclaim (t : tr) lo hi v b ru rv t' :
  nth_error (c_layers c) d = Some lo -> nth_error (c_layers c) (S d) = Some hi -> nth_error evals d = Some v -> l_bits lo = S b -> length v = (2 ^ S b)%nat ->
  length gu = length gv -> length gv' = length gu -> (be = 0 \/ gv' = gv) -> (length (l_gates hi) <= 2 ^ length gu)%nat ->
  Forall (gate_ok (length (l_gates hi)) (length v)) (l_gates hi) -> map gt_g (l_gates hi) = seq 0 (length (l_gates hi)) ->
  al * ru_ + be * rv_ = al * mle (map (gval v) (l_gates hi)) gu + be * mle (map (gval v) (l_gates hi)) gv ->
  zl_shape K G (S b) pf -> z_check_layer K G ch p c d pf (com g1 [al * ru_ + be * rv_] bclaim) al be gu gv' t = Ok (ru, rv, t') ->
  length ru = S b /\ length rv = S b /\ exists lr, lr_ok K lr /\ zl_x K G pf = com g1 [mle v ru] (lr_x K lr) /\ zl_y K G pf = com g1 [mle v rv] (lr_y K lr) /\
    z_layer K G ch p c evals d lr al be gu gv ru_ rv_ bclaim t = Ok (pf, ru, rv, mle v ru, mle v rv, mle v ru, t') /\
    forall lr' ru' rv' x' y' f' t2, lr_ok K lr' -> z_layer K G ch p c evals d lr' al be gu gv ru_ rv_ bclaim t = Ok (pf, ru', rv', x', y', f', t2) ->
      lr_same K (S b) lr' lr /\ (ru', rv', x', y', f', t2) = (ru, rv, mle v ru, mle v rv, mle v ru, t').
Proof.
  intros Elo Ehi Ev Eb Lv Lg Lg' Hbe Lgs Hg Hi E (Sh1 & Sh2 & Sh3) V. destruct pf as [sc1 sc2 cx cy cz prod eq]. cbn [zl_one zl_two zl_prod] in *.
  destruct (layer_tables K v (l_gates hi) (S b) gu gv al be Lv Lg Lgs Hg Hi) as (m & a1 & a2 & I1 & Lm & L1 & L2 & C1 & R2).
  unfold z_check_layer, lget in V. rewrite Elo, Ehi in V. cbn [rbind zl_one zl_two zl_x zl_y zl_z zl_prod zl_eq] in V. rewrite Eb in V.
  match type of V with rbind (unwrap ?X) _ = _ => destruct X as [[[ru0 c1] t1]| |] eqn:V1; cbn [unwrap rbind] in V; try discriminate end.
  destruct (phase_coins (term_one K) b [v; m; a1; a2] (al * ru_ + be * rv_) bclaim sc1 t ru0 c1 t1 (term_one_quad K) ltac:(repeat constructor; assumption) ltac:(congruence) Sh1 V1) as (r1 & bl1 & D1 & P1 & -> & Lru & U1).
  destruct (R2 ru0 Lru) as (m2 & a & I2 & Lm2 & La & C2 & Op). cbn [map] in P1, V, U1. set (x := mle v ru0) in *.
  destruct (com_span g1 cx x S1) as (bx & Ex & Ux).
  match type of V with rbind (unwrap ?X) _ = _ => destruct X as [[[rv0 c2] t3]| |] eqn:V2; cbn [unwrap rbind] in V; try discriminate end.
  destruct (phase_coins (term_two K x) b [v; m2; a] (term_one K [x; mle m ru0; mle a1 ru0; mle a2 ru0]) bl1 sc2 (MG "comm_x" cx :: t1) rv0 c2 t3 (term_two_quad K x) ltac:(repeat constructor; assumption) C2 Sh2 V2) as (r2 & bl2 & D2 & P2 & -> & Lrv & U2).
  cbn [map] in P2, V, U2. set (y := mle v rv0) in *. specialize (Op rv0 gv' Lrv Lg' Hbe).
  destruct (com_span g1 cy y S1) as (by_ & Ey & Uy). destruct (com_span g1 cz (x * y) S1) as (bz & Ez & Uz).
  match type of V with rbind ?X _ = _ => destruct X as [[ok t5]| |] eqn:V3; cbn [rbind] in V; try discriminate end. destruct ok; [|discriminate]. cbn [negb] in V.
  apply (conj Sh3) in V3. rewrite <- Ex, <- Ey, <- Ez in V3. apply product_coins in V3. destruct V3 as ([[[[p1 p2] p3] p4] p5] & Pp & Up).
  rewrite Op in V. cbn [rbind] in V. match type of V with (let '(_, _) := ?X in _) = _ => destruct X as [ok t6] eqn:V4 end. destruct ok; [|discriminate]. cbn [negb] in V. injection V as <- <- <-.
  assert (EF : gadd (gsm (mle a rv0) (gadd cx cy)) (gsm (mle m2 rv0) cz) = com g1 [x * y * mle m2 rv0 + (x + y) * mle a rv0] (bz * mle m2 rv0 + (bx + by_) * mle a rv0)).
  { rewrite <- Ex, <- Ey, <- Ez. unfold poly_commit_vec. rewrite !msm1. gmod; ring. }
  assert (ET : term_two K x [y; mle m2 rv0; mle a rv0] = x * y * mle m2 rv0 + (x + y) * mle a rv0) by (unfold term_two; cbn [nth]; ring).
  rewrite EF, ET in V4. apply eq_coins in V4. destruct V4 as (re & Pe & Ue).
  split; [exact Lru|]. split; [exact Lrv|]. exists (mkLR K r1 bx r2 by_ bz p1 p2 p3 p4 p5 re). split; [split; assumption|]. cbn [lr_x lr_y zl_x zl_y]. split; [symmetry; exact Ex|]. split; [symmetry; exact Ey|]. split.
  - unfold z_layer, lget, vget. rewrite Elo, Ehi, Ev. cbn [rbind]. rewrite Eb, I1. cbn [rbind lr_one lr_two lr_x lr_y lr_z lr_p1 lr_p2 lr_p3 lr_p4 lr_p5 lr_eq]. unfold z_phase_one. rewrite Lm, L1, L2, Lv, !Nat.eqb_refl. cbn [andb negb]. rewrite P1. cbn [rbind].
    change (nth 0 [x; mle m ru0; mle a1 ru0; mle a2 ru0] 0) with x. rewrite I2. cbn [rbind]. unfold z_phase_two. rewrite Lm2, La, Lv, !Nat.eqb_refl. cbn [andb negb]. rewrite Ex, P2. cbn [rbind snd].
    change (nth 0 [y; mle m2 rv0; mle a rv0] 0) with y. change (nth 1 [y; mle m2 rv0; mle a rv0] 0) with (mle m2 rv0). change (nth 2 [y; mle m2 rv0; mle a rv0] 0) with (mle a rv0).
    rewrite Ey. rewrite <- Ey, Pp. rewrite Pe. rewrite Ez, Ey. reflexivity.
  - intros lr' ru' rv' x' y' f' t2 [D1' D2'] Z. unfold z_layer, lget, vget in Z. rewrite Elo, Ehi, Ev in Z. cbn [rbind] in Z. rewrite Eb, I1 in Z. cbn [rbind] in Z. unfold z_phase_one in Z. rewrite Lm, L1, L2, Lv, !Nat.eqb_refl in Z. cbn [andb negb] in Z.
    match type of Z with rbind ?X _ = _ => destruct X as [[[[[s1 q1] e1] w1] u1]| |] eqn:Z1; cbn [rbind] in Z; try discriminate end.
    match type of Z with rbind ?X _ = _ => destruct X as [[[m2' a'] f2]| |] eqn:Z2; cbn [rbind] in Z; try discriminate end.
    match type of Z with rbind ?X _ = _ => destruct X as [[[[[s2 q2] e2] w2] u2]| |] eqn:Z3; cbn [rbind] in Z; try discriminate end. unfold z_phase_two in Z3.
    match type of Z with (let '(_, _) := ?X in _) = _ => destruct X as [[[[pr ca] cb] cc] u3] eqn:Z4 end.
    match type of Z with (let '(_, _) := ?X in _) = _ => destruct X as [ee u4] eqn:Z5 end. injection Z as <- <- Zx Zy Zc -> -> <- <- <- <- <- <-.
    destruct (U1 _ _ _ _ _ D1' Z1) as (A1 & -> & -> & -> & ->). cbn [nth] in *. rewrite I2 in Z2. injection Z2 as <- <- <-. rewrite Lm2, La, Lv, !Nat.eqb_refl in Z3. cbn [andb negb] in Z3.
    pose proof (Ux _ Zx) as Qx. rewrite Qx in *. rewrite Ex in Z3. destruct (U2 _ _ _ _ _ D2' Z3) as (A2 & -> & -> & -> & ->). cbn [nth snd] in *. fold y in Zy, Z4, Z5.
    pose proof (Uy _ Zy) as Qy. rewrite Qy in *.
    assert (Zcc : com g1 [x * y] (lr_z K lr') = cz) by (rewrite <- Zc; unfold product_proof, draw in Z4; injection Z4 as _ _ _ Z4 _; exact Z4). pose proof (Uz _ Zcc) as Qz. rewrite Qz in *.
    destruct (product_same _ _ _ _ _ _ _ _ _ _ _ _ _ _ _ _ _ _ _ _ _ _ _ _ _ _ _ Pp Z4) as (<- & <- & <- & <-). pose proof (Up (lr_p1 K lr', lr_p2 K lr', lr_p3 K lr', lr_p4 K lr', lr_p5 K lr') Z4) as Qp.
    rewrite <- (eq_same _ _ _ _ _ _ _ _ _ _ _ Pe Z5) in Z5 |- *. pose proof (Ue _ Z5) as Qe. injection Qp as -> -> -> -> ->. subst re.
    split; [|reflexivity]. split; [exact A1|]. split; [exact A2|]. cbn [lr_x lr_y lr_z lr_p1 lr_p2 lr_p3 lr_p4 lr_p5 lr_eq]. rewrite Qx, Qy, Qz. reflexivity.
Qed.
End P.
