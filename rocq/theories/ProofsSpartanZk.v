(** The parts of spartan's prover: coins correspond one to one to the accepted proofs. *)
From Verif Require Import Field Poly Module ModTac ProofsPC ModelTranscript ModelMle SpecMle ProofsMle ModelLibra ProofsLibra ProofsLibra2 ProofsLibra4 ModelSigma ProofsSigma ProofsSigma2 ProofsSigma3 ProofsSigma4 ModelSpartan SpecSpartan ProofsSpartan3 SpecSigmaZk SpecSpartanZk ProofsSigmaZk ProofsSigmaZk2 ProofsSigmaZk3 ProofsLibraCoins ProofsLibraCoins2 ProofsBulletproofs.
From Coq Require Import String List Lia PeanoNat.
Local Open Scope string_scope.
Local Open Scope list_scope.
Local Open Scope fld_scope.
Section P.
Variable K : Fld.
Variable G : Grp K.
Variable ch : oracle K G.
Add Field Kf : (f_laws K).
Notation tr := (transcript K G).
Notation com p x b := (poly_commit_vec K G (mc_gens K G p) x (mc_h K G p) b).
Lemma sc_coins rp T size g1 gn n ts claim bclaim sc (t : tr) rs c t' : good K rp T size -> (0 < size)%nat -> spans (mc_h K G g1) -> spans (mc_h K G gn) ->
  Forall (fun v => length v = (2 ^ n)%nat) ts -> claim = total K T ts n -> sc_shape size n sc ->
  sc_verify K G ch g1 gn (scp_polys K G sc) (scp_evals K G sc) (scp_proofs K G sc) (com g1 [claim] bclaim) size n t = Ok (rs, c, t') ->
  exists rnds bl, rr_shape size n rnds /\ zk_rounds K G ch rp g1 gn size n ts claim bclaim (com g1 [claim] bclaim) rnds t = Ok (sc, rs, map (fun v => [mle v rs]) ts, bl, t') /\
    c = com g1 [T (map (fun v => mle v rs) ts)] bl /\ length rs = n /\
    forall rnds' rs' ts' b' t2, rr_shape size n rnds' -> zk_rounds K G ch rp g1 gn size n ts claim bclaim (com g1 [claim] bclaim) rnds' t = Ok (sc, rs', ts', b', t2) ->
      rnds' = rnds /\ (rs', ts', b', t2) = (rs, map (fun v => [mle v rs]) ts, bl, t').
Proof.
  intros Hg Hs S1 Sn L E Sh V. destruct (rounds_coins K G ch rp T size g1 gn Hg Hs S1 Sn n ts claim bclaim sc t rs c t' L E Sh V) as (l & [Ll Hl] & (ts' & bl & Ez) & U).
  destruct (zk_rounds_ok K G ch rp T size g1 gn Hg Hs n ts claim bclaim l t L E ltac:(lia) Hl) as (sc0 & rs0 & ts0 & b0 & t0 & Ez0 & Lrs & Ets & V0).
  assert (Q := Ez0). rewrite Ez in Q. injection Q as <- <- <- <- <-. subst ts'. exists l, bl. split; [split; assumption|]. split; [exact Ez|]. rewrite V in V0. injection V0 as ->. split; [reflexivity|]. split; [exact Lrs|].
  intros rnds' rs' ts' b' t2 Hr P2. assert (rnds' = l) as -> by exact (U _ _ _ _ _ Hr P2). split; [reflexivity|]. rewrite Ez in P2. injection P2 as <- <- <- <-. reflexivity.
Qed.
Lemma knowledge_same q a b k1 k2 k1' k2' (t : tr) pf c u c' u' : knowledge_proof K G ch q a b k1 k2 t = (pf, c, u) -> knowledge_proof K G ch q a b k1' k2' t = (pf, c', u') -> c = c' /\ u = u'.
Proof. unfold knowledge_proof, draw. intros E E'. injection E as <- <- <-. injection E' as F1 _ _ <- <-. rewrite F1. split; reflexivity. Qed.
Lemma knowledge_com q a b k1 k2 (t : tr) pf c u : knowledge_proof K G ch q a b k1 k2 t = (pf, c, u) -> c = com q [a] b.
Proof. unfold knowledge_proof, draw. intros E. injection E as _ <- _. reflexivity. Qed.
Lemma product_com q a ba b bb pr bpr b1 b2 b3 b4 b5 (t : tr) pf ca cb cc u : product_proof K G ch q a ba b bb pr bpr b1 b2 b3 b4 b5 t = (pf, ca, cb, cc, u) -> ca = com q [a] ba /\ cb = com q [b] bb /\ cc = com q [pr] bpr.
Proof. unfold product_proof, draw. intros E. injection E as _ <- <- <- _. repeat split. Qed.
(** The opening of the witness at a point. *)
Lemma ip_coins (p : pcp K G) g gs wv wr cw wb ry cy pf (t : tr) t' k : mc_gens K G (pc_gen_1 K G p) = g :: gs -> mc_h K G (pc_gen_n K G p) = mc_h K G (pc_gen_1 K G p) -> spans (mc_h K G (pc_gen_1 K G p)) ->
  length ry = k -> length wv = (2 ^ k)%nat -> (2 ^ (k - k / 2) <= length (mc_gens K G (pc_gen_n K G p)))%nat ->
  packing_poly_commit K G (mc_gens K G (pc_gen_n K G p)) wv (mc_h K G (pc_gen_n K G p)) wr true = Ok (cw, wb) -> length (dp_l K G pf) = (k - k / 2)%nat ->
  inner_product_verify K G ch p ry cw cy pf t = Ok (true, t') ->
  exists b bl d rd rb, com (pc_gen_1 K G p) [mle wv ry] b = cy /\ length bl = (k - k / 2)%nat /\ inner_product_proof K G ch p wv wb ry b (mle wv ry) d rd rb bl t = Ok (pf, cy, t') /\
    forall b' bl' d' rd' rb' t2, length bl' = (k - k / 2)%nat -> inner_product_proof K G ch p wv wb ry b' (mle wv ry) d' rd' rb' bl' t = Ok (pf, cy, t2) -> (b', d', rd', rb', bl') = (b, d, rd, rb, bl) /\ t2 = t'.
Proof.
  intros Eg Eh S1 Lr Lw Ln Ec Ls V1. assert (Hk : (k / 2 <= k)%nat) by apply half_le.
  destruct (spans_sub K G _ (msm (mc_gens K G (pc_gen_1 K G p)) [mle wv ry]) cy S1) as (b & Eb & Ub). change (com (pc_gen_1 K G p) [mle wv ry] b = cy) in Eb.
  set (a := firstn (k / 2) ry) in *. set (z := skipn (k / 2) ry) in *.
  assert (La : length a = (k / 2)%nat) by (unfold a; rewrite firstn_length; lia). assert (Lz : length z = (k - k / 2)%nat) by (unfold z; rewrite skipn_length; lia).
  destruct (packing_ok K G _ _ _ _ _ k _ _ Lw Ec a z La Lz) as [Lbl EC].
  assert (EB : match wb with [] => repeat 0 (2 ^ (k / 2)) | _ => wb end = wb). { destruct wb; [|reflexivity]. cbn [length] in Lbl. exfalso. symmetry in Lbl. revert Lbl. apply Nat.pow_nonzero. lia. }
  unfold inner_product_verify in V1. rewrite Lr in V1. fold a z in V1. rewrite <- Eh, EC, <- Eb in V1.
  assert (Edot : mle wv ry = dot (row_comb K (eval_eq K a) wv (2 ^ length z)) (eval_eq K z)) by (rewrite row_comb_dot; unfold a, z; rewrite firstn_skipn; reflexivity).
  apply (conj Ls) in V1. apply (log_dot_coins K G ch "challenge_tau" p g gs _ _ _ _ _ _ _ _ (k - k / 2) Eg Eh S1) in V1.
  2:{ rewrite row_comb_tab, length_tab, Lz. reflexivity. }
  2:{ rewrite eval_eq_length, Lz. reflexivity. }
  2:{ exact Ln. }
  2:{ exact Edot. }
  destruct V1 as ([[[bl d] rd] rb] & (Lb & P) & U).
  assert (Zo : forall b' bl' d' rd' rb', inner_product_proof K G ch p wv wb ry b' (mle wv ry) d' rd' rb' bl' t = rbind (log_dot_prove K G ch "challenge_tau" p (row_comb K (eval_eq K a) wv (2 ^ length z)) (eval_eq K z) (dot (eval_eq K a) wb) b' (mle wv ry) d' rd' rb' bl' (MU "protocol-name:polynomial evaluation proof" 0 :: t)) (fun '(pf, _, cy, t) => Ok (pf, cy, t))).
  { intros b' bl' d' rd' rb'. unfold inner_product_proof, log2c. rewrite Lw, Nat.log2_up_pow2, Lr, Nat.eqb_refl by lia. cbn [negb]. rewrite EB, Lbl, Nat.eqb_refl. cbn [negb]. fold a z.
    rewrite <- Nat.pow_add_r. replace (k / 2 + (k - k / 2))%nat with k by lia. rewrite Nat.ltb_irrefl. rewrite Lz. reflexivity. }
  exists b, bl, d, rd, rb. split; [exact Eb|]. split; [exact Lb|]. split; [rewrite Zo, P; cbn [rbind]; rewrite Eb; reflexivity|].
  intros b' bl' d' rd' rb' t2 Lb' Z. rewrite Zo in Z. match type of Z with rbind ?X _ = _ => destruct X as [[[[pf0 Cl] Cr] t0]| |] eqn:P'; cbn [rbind] in Z; try discriminate end. injection Z as -> -> ->.
  pose proof (log_dot_cy K G ch _ _ _ _ _ _ _ _ _ _ _ _ _ _ _ _ P') as [-> ECy]. pose proof (Ub _ (eq_sym ECy)) as Q. rewrite Q in P'.
  assert (Lrow : (length (row_comb K (eval_eq K a) wv (2 ^ length z)) <= length (mc_gens K G (pc_gen_n K G p)))%nat) by (rewrite row_comb_tab, length_tab, Lz; exact Ln).
  destruct (log_dot_exact K G ch _ _ g gs _ _ _ _ _ _ _ _ _ _ _ _ _ _ Eg Eh Lrow P) as (? & ? & ? & ? & _ & X1). destruct (log_dot_exact K G ch _ _ g gs _ _ _ _ _ _ _ _ _ _ _ _ _ _ Eg Eh Lrow P') as (? & ? & ? & ? & _ & X2).
  rewrite Eb in X1. rewrite X1 in X2. injection X2 as _ ->.
  assert (Q2 : (bl, d, rd, rb) = (bl', d', rd', rb')) by (apply U; split; [exact Lb'|rewrite Eb; exact P']). injection Q2 as -> -> -> ->. split; [rewrite Q; reflexivity|reflexivity].
Qed.
End P.
