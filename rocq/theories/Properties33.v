(** Theorem C97: the proofs of knowledge of spartan, libra and hyrax are perfectly zero-knowledge: the accepted proofs are exactly the honest ones, each from one choice of the coins. *)
From Verif Require Import Field Zp Poly Module ModelTranscript ModelMle SpecMle ModelLibra ModelSigma ModelSpartan ModelHyrax SpecSigmaZk.
From Verif Require Import ProofsSigma ProofsSigma3 ProofsSpartan3 ProofsSigmaZk ProofsSigmaZk2 ProofsSigmaZk3 ExMarlin Properties20 Properties22 Properties24 Properties28 Properties29.
From Coq Require Import String List Lia ZArith.
Import ListNotations.
Local Open Scope string_scope.
Local Open Scope list_scope.
Local Open Scope fld_scope.
Notation com97 p x b := (poly_commit_vec _ _ (mc_gens _ _ p) x (mc_h _ _ p) b).

(** ** C97 *)
(** A commitment hides its vector: each vector opens it, with one blind. *)
Theorem C97_commitment : forall (K : Fld) (G : Grp K) (p : mcp K G) (C : G) (x : list K), spans (mc_h K G p) -> exists! b, com97 p x b = C.
Proof. intros K G p C x Sp. destruct (spans_sub K G _ (msm (mc_gens K G p) x) C Sp) as (b & E & U). exists b. split; [exact E|]. intros b' E'. symmetry. exact (U b' E'). Qed.
Print Assumptions C97_commitment.
Theorem C97_knowledge : forall (K : Fld) (G : Grp K) (ch : oracle K G) p claim blind t pf t',
  knowledge_verify K G ch p pf (com97 p [claim] blind) t = (true, t') <-> exists! x : K * K, knowledge_proof K G ch p claim blind (fst x) (snd x) t = (pf, com97 p [claim] blind, t').
Proof. exact knowledge_coins. Qed.
Print Assumptions C97_knowledge.
Theorem C97_equality : forall (K : Fld) (G : Grp K) (ch : oracle K G) p v b1 b2 t pf t',
  eq_verify K G ch p (com97 p [v] b1) (com97 p [v] b2) pf t = (true, t') <-> exists! r, eq_proof K G ch p v b1 v b2 r t = (pf, t').
Proof. exact eq_coins. Qed.
Print Assumptions C97_equality.
Theorem C97_product : forall (K : Fld) (G : Grp K) (ch : oracle K G) p a ba b bb bpr t pf t',
  (length (pp_z K G pf) = 5%nat /\ product_verify K G ch p pf (com97 p [a] ba) (com97 p [b] bb) (com97 p [a * b] bpr) t = Ok (true, t')) <->
  exists! x : K * K * K * K * K, let '(b1, b2, b3, b4, b5) := x in product_proof K G ch p a ba b bb (a * b) bpr b1 b2 b3 b4 b5 t = (pf, com97 p [a] ba, com97 p [b] bb, com97 p [a * b] bpr, t').
Proof. exact product_coins. Qed.
Print Assumptions C97_product.
Theorem C97_evaluation : forall (K : Fld) (G : Grp K) (ch : oracle K G) g1 gn poly bp claim bc ev be size r t pf t', (0 < size)%nat -> (length poly <= size)%nat -> claim = peval poly 0 + peval poly 1 -> ev = peval poly r ->
  (length (se_z K G pf) = size /\ sum_check_eval_verify K G ch g1 gn (com97 gn poly bp) (com97 g1 [ev] be) (com97 g1 [claim] bc) pf r size t = Ok (true, t')) <->
  exists! x : list K * K * K, let '(d, rd, rb) := x in length d = size /\ sum_check_eval_prover K G ch g1 gn poly (com97 gn poly bp) bp claim bc ev be size r d rd rb t = Ok (pf, t').
Proof. exact eval_coins. Qed.
Print Assumptions C97_evaluation.
Theorem C97_log_dot : forall (K : Fld) (G : Grp K) (ch : oracle K G) lbl (p : pcp K G) q qs lz r_eq lzb ryb ev t pf t' k,
  mc_gens _ _ (pc_gen_1 _ _ p) = q :: qs -> mc_h _ _ (pc_gen_n _ _ p) = mc_h _ _ (pc_gen_1 _ _ p) -> spans (mc_h _ _ (pc_gen_1 _ _ p)) ->
  length lz = (2 ^ k)%nat -> length r_eq = (2 ^ k)%nat -> (2 ^ k <= length (mc_gens _ _ (pc_gen_n _ _ p)))%nat -> ev = dot lz r_eq ->
  (length (dp_l K G pf) = k /\ log_dot_verify K G ch lbl p (com97 (pc_gen_n _ _ p) lz lzb) (com97 (pc_gen_1 _ _ p) [ev] ryb) r_eq pf t = Ok (true, t')) <->
  exists! x : list (K * K) * K * K * K, let '(blinds, d, rd, rb) := x in length blinds = k /\
    log_dot_prove K G ch lbl p lz r_eq lzb ryb ev d rd rb blinds t = Ok (pf, com97 (pc_gen_n _ _ p) lz lzb, com97 (pc_gen_1 _ _ p) [ev] ryb, t').
Proof. exact log_dot_coins. Qed.
Print Assumptions C97_log_dot.
Theorem C97_rounds : forall (K : Fld) (G : Grp K) (ch : oracle K G) g1 gn n ts claim bclaim sc (t : transcript K G), spans (mc_h K G g1) -> spans (mc_h K G gn) -> Forall (fun v => length v = (2 ^ n)%nat) ts -> (1 + 1 : K) <> 0 ->
  (forall T, T = term_abc K \/ T = term_one K \/ (exists fu, T = term_two K fu) -> claim = fsum (map (fun j => T (map (fun v => nth j v 0) ts)) (seq 0 (2 ^ n))) ->
    (sc_shape 3 n sc /\ exists rs c t', sc_verify K G ch g1 gn (scp_polys K G sc) (scp_evals K G sc) (scp_proofs K G sc) (com97 g1 [claim] bclaim) 3 n t = Ok (rs, c, t')) <->
    exists! rnds, rr_shape 3 n rnds /\ exists rs ts' b t', zk_rounds K G ch (round_quad K T) g1 gn 3 n ts claim bclaim (com97 g1 [claim] bclaim) rnds t = Ok (sc, rs, ts', b, t')) /\
  ((1 + 1 + 1 : K) <> 0 -> claim = fsum (map (fun j => term_r1cs K (map (fun v => nth j v 0) ts)) (seq 0 (2 ^ n))) ->
    (sc_shape 4 n sc /\ exists rs c t', sc_verify K G ch g1 gn (scp_polys K G sc) (scp_evals K G sc) (scp_proofs K G sc) (com97 g1 [claim] bclaim) 4 n t = Ok (rs, c, t')) <->
    exists! rnds, rr_shape 4 n rnds /\ exists rs ts' b t', zk_rounds K G ch (round_cubic K (term_r1cs K)) g1 gn 4 n ts claim bclaim (com97 g1 [claim] bclaim) rnds t = Ok (sc, rs, ts', b, t')).
Proof. exact phases_coins. Qed.
Print Assumptions C97_rounds.

(** ** Examples over the field of 97 elements, the parameters of C87 *)
From Verif Require Properties32.
Lemma self_spans (K : Fld) (x : K) : x <> 0 -> spans (G := self_grp K) x.
Proof.
  intros N P. destruct (Properties32.gen96 K x N P) as (k & E). exists k. split; [exact E|]. intros k' E'. rewrite E in E'. change (k * x = k' * x) in E'.
  apply (f_mul_cancel_l K x); [exact N|]. rewrite !(Rmul_comm (F_R (f_laws K)) x). exact E'.
Qed.
Lemma mul_0_97 (a b : F97) : a * 0 * b = 0.
Proof. assert (Z : forall x : F97, 0 * x = 0) by (intro x; apply zp_eq; reflexivity). rewrite (Rmul_comm (F_R (f_laws F97)) a). change (fmul (0 : F97) a) with (0 * a). rewrite !Z. reflexivity. Qed.
Notation g97 := (hp_1 F97 S97' hp87).
(** The proof of knowledge of 3 is a proof of knowledge of 7, for one blind and one pair of coins. *)
Example ex_C97_knowledge : let '(pf, C, t') := knowledge_proof F97 S97' ch84 g97 (z97 3) (z97 4) (z97 5) (z97 6) [] in
  exists b, com97 g97 [z97 7] b = C /\ exists! x : F97 * F97, knowledge_proof F97 S97' ch84 g97 (z97 7) b (fst x) (snd x) [] = (pf, C, t').
Proof.
  destruct (knowledge_proof F97 S97' ch84 g97 (z97 3) (z97 4) (z97 5) (z97 6) []) as [[pf C] t'] eqn:E.
  assert (EC : com97 g97 [z97 3] (z97 4) = C) by (unfold knowledge_proof, draw in E; injection E as _ E _; exact E).
  destruct (C97_commitment F97 S97' g97 C [z97 7] (self_spans F97 _ (proj1 hp87_nz))) as (b & Eb & _). exists b. split; [exact Eb|].
  rewrite <- Eb. apply C97_knowledge. rewrite Eb. exact (knowledge_complete F97 S97' ch84 _ _ _ _ _ _ _ _ _ E).
Qed.
(** Two commitments to 3, and two to 8: one proof. *)
Example ex_C97_equality : let '(pf, t') := eq_proof F97 S97' ch84 g97 (z97 3) (z97 4) (z97 3) (z97 5) (z97 6) [] in
  exists b1 b2, com97 g97 [z97 8] b1 = com97 g97 [z97 3] (z97 4) /\ com97 g97 [z97 8] b2 = com97 g97 [z97 3] (z97 5) /\ exists! r, eq_proof F97 S97' ch84 g97 (z97 8) b1 (z97 8) b2 r [] = (pf, t').
Proof.
  destruct (eq_proof F97 S97' ch84 g97 (z97 3) (z97 4) (z97 3) (z97 5) (z97 6) []) as [pf t'] eqn:E.
  destruct (C97_commitment F97 S97' g97 (com97 g97 [z97 3] (z97 4)) [z97 8] (self_spans F97 _ (proj1 hp87_nz))) as (b1 & E1 & _).
  destruct (C97_commitment F97 S97' g97 (com97 g97 [z97 3] (z97 5)) [z97 8] (self_spans F97 _ (proj1 hp87_nz))) as (b2 & E2 & _).
  exists b1, b2. split; [exact E1|]. split; [exact E2|]. apply C97_equality. rewrite E1, E2. exact (eq_complete F97 S97' ch84 _ _ _ _ _ _ _ _ _ eq_refl E).
Qed.
(** The factors 3 and 5, and the factors 8 and 9: one proof. *)
Example ex_C97_product : let '(pf, A, B, C, t') := product_proof F97 S97' ch84 g97 (z97 3) (z97 4) (z97 5) (z97 6) (z97 3 * z97 5) (z97 7) (z97 11) (z97 12) (z97 13) (z97 14) (z97 15) [] in
  exists ba bb bp, com97 g97 [z97 8] ba = A /\ com97 g97 [z97 9] bb = B /\ com97 g97 [z97 8 * z97 9] bp = C /\
    exists! x : F97 * F97 * F97 * F97 * F97, let '(b1, b2, b3, b4, b5) := x in product_proof F97 S97' ch84 g97 (z97 8) ba (z97 9) bb (z97 8 * z97 9) bp b1 b2 b3 b4 b5 [] = (pf, A, B, C, t').
Proof.
  destruct (product_proof F97 S97' ch84 g97 (z97 3) (z97 4) (z97 5) (z97 6) (z97 3 * z97 5) (z97 7) (z97 11) (z97 12) (z97 13) (z97 14) (z97 15) []) as [[[[pf A] B] C] t'] eqn:E.
  destruct (C97_commitment F97 S97' g97 A [z97 8] (self_spans F97 _ (proj1 hp87_nz))) as (ba & Ea & _).
  destruct (C97_commitment F97 S97' g97 B [z97 9] (self_spans F97 _ (proj1 hp87_nz))) as (bb & Eb & _).
  destruct (C97_commitment F97 S97' g97 C [z97 8 * z97 9] (self_spans F97 _ (proj1 hp87_nz))) as (bp & Ep & _).
  exists ba, bb, bp. split; [exact Ea|]. split; [exact Eb|]. split; [exact Ep|]. rewrite <- Ea, <- Eb, <- Ep. apply C97_product. rewrite Ea, Eb, Ep.
  split; [unfold product_proof, draw in E; injection E as <- _; reflexivity|]. exact (product_complete F97 S97' ch84 _ _ _ _ _ _ _ _ _ _ _ _ _ _ _ _ _ _ eq_refl E).
Qed.
(** Rows (4, 7) and (1, 2) against the coefficients of the point 3. *)
Notation pc97 := (hp_pc F97 S97' hp87).
Example ex_C97_log_dot : exists pf C D t' b1 b2, log_dot_prove F97 S97' ch84 "c" pc97 [z97 4; z97 7] (eval_eq F97 [z97 3]) (z97 5) (z97 6) (dot [z97 4; z97 7] (eval_eq F97 [z97 3])) (z97 8) (z97 9) (z97 10) [(z97 11, z97 12)] [] = Ok (pf, C, D, t') /\
  exists! x : list (F97 * F97) * F97 * F97 * F97, let '(blinds, d, rd, rb) := x in length blinds = 1%nat /\
    log_dot_prove F97 S97' ch84 "c" pc97 [z97 1; z97 2] (eval_eq F97 [z97 3]) b1 b2 (dot [z97 1; z97 2] (eval_eq F97 [z97 3])) d rd rb blinds [] = Ok (pf, C, D, t').
Proof.
  set (r := eval_eq F97 [z97 3]). set (ev := dot [z97 4; z97 7] r).
  assert (H : match log_dot_prove F97 S97' ch84 "c" pc97 [z97 4; z97 7] r (z97 5) (z97 6) ev (z97 8) (z97 9) (z97 10) [(z97 11, z97 12)] [] with Ok (pf, _, _, _) => Nat.eqb (length (dp_l F97 S97' pf)) 1 | _ => false end = true) by (vm_compute; reflexivity).
  destruct (log_dot_prove F97 S97' ch84 "c" pc97 [z97 4; z97 7] r (z97 5) (z97 6) ev (z97 8) (z97 9) (z97 10) [(z97 11, z97 12)] []) as [[[[pf C] D] t']| |] eqn:E; try discriminate H. apply Nat.eqb_eq in H.
  pose proof (self_spans F97 _ (proj1 hp87_nz)) as Sp.
  destruct (C97_commitment F97 S97' (pc_gen_n _ _ pc97) C [z97 1; z97 2] Sp) as (b1 & E1 & _).
  destruct (C97_commitment F97 S97' (pc_gen_1 _ _ pc97) D [dot [z97 1; z97 2] r] Sp) as (b2 & E2 & _).
  exists pf, C, D, t', b1, b2. split; [reflexivity|].
  assert (Ll : (length [z97 4; z97 7] <= length (mc_gens F97 S97' (pc_gen_n F97 S97' pc97)))%nat) by repeat constructor.
  destruct (log_dot_exact F97 S97' ch84 "c" pc97 (z97 5) [] _ _ _ _ _ _ _ _ _ _ _ _ _ _ eq_refl eq_refl Ll E) as (bs & gh & ga & t1 & _ & V).
  replace (ev - dot [z97 4; z97 7] r) with (0 : F97) in V by (apply zp_eq; vm_compute; reflexivity).
  rewrite <- E1, <- E2. apply (C97_log_dot F97 S97' ch84 "c" pc97 (z97 5) [] [z97 1; z97 2] r b1 b2 (dot [z97 1; z97 2] r) [] pf t' 1 eq_refl eq_refl Sp eq_refl eq_refl ltac:(repeat constructor) eq_refl).
  split; [exact H|]. rewrite E1, E2, V. do 2 f_equal. apply geqb_true. apply mul_0_97.
Qed.
(** One round for the sum 1 * 3 + 2 * 4. *)
Example ex_C97_rounds : exists sc, exists! rnds, rr_shape 3 1 rnds /\ exists rs ts' b t', zk_rounds F97 S97' ch84 (round_quad F97 (term_abc F97)) g97 (hp_3 F97 S97' hp87) 3 1 [[z97 1; z97 2]; [z97 3; z97 4]] (z97 11) (z97 9) (com97 g97 [z97 11] (z97 9)) rnds [] = Ok (sc, rs, ts', b, t').
Proof.
  assert (L : Forall (fun v : list F97 => length v = (2 ^ 1)%nat) [[z97 1; z97 2]; [z97 3; z97 4]]) by repeat constructor.
  assert (T2 : (1 + 1 : F97) <> 0) by (apply f97_neq; vm_compute; discriminate).
  assert (Hr : rr_shape 3 1 [mkRR F97 (z97 2) (z97 3) [z97 4; z97 5; z97 6] (z97 7) (z97 8)]) by (repeat constructor).
  assert (Et : z97 11 = fsum (map (fun j => term_abc F97 (map (fun v => nth j v 0) [[z97 1; z97 2]; [z97 3; z97 4]])) (seq 0 (2 ^ 1)))) by (apply zp_eq; vm_compute; reflexivity).
  destruct (zk_rounds_ok F97 S97' ch84 (round_quad F97 (term_abc F97)) (term_abc F97) 3 g97 (hp_3 F97 S97' hp87) (good_quad F97 _ (term_abc_quad F97) T2) ltac:(repeat constructor) 1 [[z97 1; z97 2]; [z97 3; z97 4]] (z97 11) (z97 9)
    [mkRR F97 (z97 2) (z97 3) [z97 4; z97 5; z97 6] (z97 7) (z97 8)] [] L Et ltac:(repeat constructor) (proj2 Hr)) as (sc & rs & ts' & b & t' & E & _ & _ & V).
  exists sc. destruct (C97_rounds F97 S97' ch84 g97 (hp_3 F97 S97' hp87) 1 [[z97 1; z97 2]; [z97 3; z97 4]] (z97 11) (z97 9) sc [] (self_spans F97 _ (proj1 hp87_nz)) (self_spans F97 _ (proj2 hp87_nz)) L T2) as [Q _].
  apply (Q (term_abc F97) (or_introl eq_refl) Et). split; [exact (rounds_shape F97 S97' ch84 _ _ _ _ _ _ _ _ _ _ _ _ _ _ _ _ Hr E)|]. eauto.
Qed.
