(** Proofs about the sigma protocols of spartan, libra and hyrax. *)
From Verif Require Import Field Poly Module ModTac ModelTranscript ModelBulletproofs ModelSigma SpecSigma SpecMle ProofsMle ProofsIPP.
Local Open Scope string_scope.
Local Open Scope list_scope.
Local Open Scope fld_scope.
Section P.
Variable K : Fld.
Variable G : Grp K.
Add Field Kf : (f_laws K).
Implicit Types (p : mcp K G).

Lemma msm1 (gs : list G) (x : K) : msm gs [x] = gsm x (hd g0 gs).
Proof. destruct gs as [|g gs]; cbn [msm hd]; [symmetry; apply gsm_g0|]. destruct gs; cbn [msm]; gmod; ring. Qed.
Lemma geqb_true (a b : G) : geqb a b = true <-> a = b.
Proof. destruct (geqb_spec _ _ a b); split; congruence. Qed.
(** Two transcripts with the same first message and different challenges. *)
Lemma fork_solve (c c' : K) (C A P P' : G) : c <> c' -> gadd (gsm c C) A = P -> gadd (gsm c' C) A = P' -> C = gsm (finv (c - c')) (gadd P (gopp P')).
Proof.
  intros N <- <-. assert (N2 : c - c' <> 0). { intro E. apply N. transitivity (c - c' + c'); [ring|]. rewrite E. ring. }
  gmod; field; exact N2.
Qed.

Section One.
Variable ch : oracle K G.
Theorem knowledge_complete p claim blind t1 t2 t pf C t' : knowledge_proof K G ch p claim blind t1 t2 t = (pf, C, t') ->
  knowledge_verify K G ch p pf C t = (true, t').
Proof.
  unfold knowledge_proof, knowledge_verify, draw. intro E. injection E as <- <- <-. cbn [kp_t kp_z1 kp_z2]. f_equal.
  apply geqb_true. unfold poly_commit_vec. rewrite !msm1. gmod; ring.
Qed.
Theorem product_complete p a ba b bb pr bpr b1 b2 b3 b4 b5 t pf A B P t' : pr = a * b ->
  product_proof K G ch p a ba b bb pr bpr b1 b2 b3 b4 b5 t = (pf, A, B, P, t') -> product_verify K G ch p pf A B P t = Ok (true, t').
Proof.
  intros -> E. unfold product_proof, draw in E. injection E as <- <- <- <- <-. unfold product_verify, draw. cbn [pp_z pp_alpha pp_beta pp_delta].
  do 2 f_equal. rewrite !Bool.andb_true_iff. repeat split; apply geqb_true; unfold poly_commit_vec; rewrite !msm1; cbn [hd]; gmod; ring.
Qed.
Theorem eq_complete p c1 b1 c2 b2 r t pf t' : c1 = c2 -> eq_proof K G ch p c1 b1 c2 b2 r t = (pf, t') ->
  eq_verify K G ch p (poly_commit_vec K G (mc_gens _ _ p) [c1] (mc_h _ _ p) b1) (poly_commit_vec K G (mc_gens _ _ p) [c2] (mc_h _ _ p) b2) pf t = (true, t').
Proof.
  intros -> E. unfold eq_proof, draw in E. injection E as <- <-. unfold eq_verify, draw. cbn [ep_alpha ep_z]. f_equal.
  apply geqb_true. unfold poly_commit_vec. rewrite !msm1. gmod; ring.
Qed.
End One.

Section Two.
Variables ch ch' : oracle K G.
Theorem knowledge_sound p pf pf' C t t1 t1' : let tt := MG "alpha" (kp_t _ _ pf) :: MG "C" C :: t in
  forks ch ch' "c" tt -> kp_t _ _ pf = kp_t _ _ pf' ->
  knowledge_verify K G ch p pf C t = (true, t1) -> knowledge_verify K G ch' p pf' C t = (true, t1') ->
  {x : K & {r : K | opens (hd g0 (mc_gens _ _ p)) (mc_h _ _ p) C x r}}.
Proof.
  intros tt [N _] Et E E'. unfold knowledge_verify, draw in E, E'. rewrite <- Et in E'. fold tt in E, E'.
  injection E as E _. injection E' as E' _. apply geqb_true in E, E'. symmetry in E, E'.
  pose proof (fork_solve _ _ _ _ _ _ N E E') as S. unfold poly_commit_vec in S. rewrite !msm1 in S.
  set (d := finv _) in S. exists (d * (kp_z1 _ _ pf - kp_z1 _ _ pf')), (d * (kp_z2 _ _ pf - kp_z2 _ _ pf')). unfold opens.
  rewrite S. gmod; ring.
Qed.
Theorem product_sound p pf pf' A B P t t1 t1' :
  let tt := MG "delta" (pp_delta _ _ pf) :: MG "beta" (pp_beta _ _ pf) :: MG "alpha" (pp_alpha _ _ pf) :: MG "Z" P :: MG "Y" B :: MG "X" A :: t in
  forks ch ch' "c" tt -> pp_alpha _ _ pf = pp_alpha _ _ pf' -> pp_beta _ _ pf = pp_beta _ _ pf' -> pp_delta _ _ pf = pp_delta _ _ pf' ->
  product_verify K G ch p pf A B P t = Ok (true, t1) -> product_verify K G ch' p pf' A B P t = Ok (true, t1') ->
  {x : K & {rx : K & {y : K & {ry : K & {rz : K | let g := hd g0 (mc_gens _ _ p) in let h := mc_h _ _ p in opens g h A x rx /\ opens g h B y ry /\ opens g h P (x * y) rz}}}}}.
Proof.
  intros tt [N _] Ea Eb Ed E E'. unfold product_verify, draw in E, E'. rewrite <- Ea, <- Eb, <- Ed in E'.
  destruct (pp_z _ _ pf) as [|z1 [|z2 [|z3 [|z4 [|z5 ?]]]]]; try discriminate E.
  destruct (pp_z _ _ pf') as [|y1 [|y2 [|y3 [|y4 [|y5 ?]]]]]; try discriminate E'. fold tt in E, E'.
  injection E as E _. injection E' as E' _. rewrite !Bool.andb_true_iff, !geqb_true in E, E'.
  destruct E as [[E1 E2] E3], E' as [[F1 F2] F3]. rewrite gadd_comm in E1, E2, E3, F1, F2, F3.
  pose proof (fork_solve _ _ _ _ _ _ N E1 F1) as S1. pose proof (fork_solve _ _ _ _ _ _ N E2 F2) as S2. pose proof (fork_solve _ _ _ _ _ _ N E3 F3) as S3.
  unfold poly_commit_vec in S1, S2, S3. rewrite !msm1 in S1, S2, S3. cbn [hd] in S3. set (d := finv _) in *.
  exists (d * (z1 - y1)), (d * (z2 - y2)), (d * (z3 - y3)), (d * (z4 - y4)), (d * (z3 - y3) * (d * (z2 - y2)) + d * (z5 - y5)).
  cbv zeta. unfold opens. set (g := hd g0 (mc_gens _ _ p)) in *. set (h := mc_h _ _ p) in *.
  assert (OA : A = gadd (gsm (d * (z1 - y1)) g) (gsm (d * (z2 - y2)) h)) by (rewrite S1 at 1; gmod; ring).
  split; [exact OA|]. split; [rewrite S2 at 1; gmod; ring|].
  transitivity (gadd (gsm (d * (z3 - y3)) A) (gsm (d * (z5 - y5)) h)); [rewrite S3 at 1; gmod; ring|].
  rewrite OA. gmod; ring.
Qed.
Theorem eq_sound p C1 C2 pf pf' t t1 t1' : let tt := MG "alpha" (ep_alpha _ _ pf) :: MG "C2" C2 :: MG "C1" C1 :: t in
  forks ch ch' "c" tt -> ep_alpha _ _ pf = ep_alpha _ _ pf' ->
  eq_verify K G ch p C1 C2 pf t = (true, t1) -> eq_verify K G ch' p C1 C2 pf' t = (true, t1') ->
  {d : K | C1 = gadd C2 (gsm d (mc_h _ _ p))}.
Proof.
  intros tt [N _] Ea E E'. unfold eq_verify, draw in E, E'. rewrite <- Ea in E'. fold tt in E, E'.
  injection E as E _. injection E' as E' _. apply geqb_true in E, E'. symmetry in E, E'.
  pose proof (fork_solve _ _ _ _ _ _ N E E') as S. set (d := finv _) in S. exists (d * (ep_z _ _ pf - ep_z _ _ pf')).
  transitivity (gadd C2 (gadd C1 (gopp C2))); [gmod; ring|]. rewrite S. gmod; ring.
Qed.
End Two.
End P.
