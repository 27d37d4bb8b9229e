(** Theorem C93: the log-size dot-product proof of spartan, libra and hyrax under rewinding, and evaluations of committed polynomials. *)
From Verif Require Import Field Zp Poly Module ModelTranscript ModelMle SpecMle ModelSigma ModelHyrax SpecSigma SpecRewind SpecBulletTree.
From Verif Require Import ProofsIPP ProofsBulletTree ExRewind ExBulletTree ExMarlin Properties20 Properties22 Properties24 Properties28.
From Coq Require Import String List Lia ZArith.
Import ListNotations.
Local Open Scope string_scope.
Local Open Scope list_scope.
Local Open Scope fld_scope.

(** ** C93 *)
(** The vector, the blind and the relation are computed from the tree. *)
Theorem C93_extract : forall (K : Fld) (G : Grp K) lbl (p : pcp K G) Cx Cy r_eq t k T, bt_ok lbl p Cx Cy r_eq t k [] [] [] T ->
  let gs := mc_gens K G (pc_gen_n K G p) in let q := hd g0 (mc_gens K G (pc_gen_1 K G p)) in let h := mc_h K G (pc_gen_1 K G p) in
  {x : list K & {r : K | length x = (2 ^ k)%nat /\ (2 ^ k <= length r_eq)%nat /\ (2 ^ k <= length gs)%nat /\
    gadd Cx Cy = gadd (gadd (msm gs x) (gsm (dot x r_eq) q)) (gsm r h)}}.
Proof. exact bullet_extract. Qed.
Print Assumptions C93_extract.
Theorem C93_sound : forall (K : Fld) (G : Grp K) lbl (p : pcp K G) Cx Cy r_eq t k T w rw y ry,
  let gs := mc_gens K G (pc_gen_n K G p) in let q := hd g0 (mc_gens K G (pc_gen_1 K G p)) in let h := mc_h K G (pc_gen_1 K G p) in
  mc_h K G (pc_gen_n K G p) = h -> (length w <= length gs)%nat -> bt_ok lbl p Cx Cy r_eq t k [] [] [] T ->
  opens_vec gs h Cx w rw -> opens q h Cy y ry -> relation (q :: gs) h + {y = dot w r_eq}.
Proof. exact bullet_sound. Qed.
Print Assumptions C93_sound.
(** A polynomial committed row by row. *)
Theorem C93_eval : forall (K : Fld) (G : Grp K) lbl (p : pcp K G) cw v bs pt Cy t k T y ry, let half := (length pt / 2)%nat in let R := (2 ^ (length pt - half))%nat in
  let gs := mc_gens K G (pc_gen_n K G p) in let q := hd g0 (mc_gens K G (pc_gen_1 K G p)) in let h := mc_h K G (pc_gen_1 K G p) in
  mc_h K G (pc_gen_n K G p) = h -> (R <= length gs)%nat -> rows_open gs h R cw v bs ->
  bt_ok lbl p (poly_commit_vec K G cw (eval_eq K (firstn half pt)) h 0) Cy (eval_eq K (skipn half pt)) t k [] [] [] T ->
  opens q h Cy y ry -> relation (q :: gs) h + {y = mle v pt}.
Proof. exact eval_sound. Qed.
Print Assumptions C93_eval.
Theorem C93_verifiers : forall (K : Fld) (G : Grp K) (ch : oracle K G) (p : pcp K G) pt cw Cy pf t,
  let half := (length pt / 2)%nat in let Cx := poly_commit_vec K G cw (eval_eq K (firstn half pt)) (mc_h K G (pc_gen_1 K G p)) 0 in
  reduce_verifier K G ch p pt cw Cy pf t = log_dot_verify K G ch "c" p Cx Cy (eval_eq K (skipn half pt)) pf t /\
  inner_product_verify K G ch p pt cw Cy pf t = log_dot_verify K G ch "challenge_tau" p Cx Cy (eval_eq K (skipn half pt)) pf (MU "protocol-name:polynomial evaluation proof" 0 :: t).
Proof. exact verifiers. Qed.
Print Assumptions C93_verifiers.
(** The exception: a proof without rounds passes for any commitments at a point with a coordinate 1 in its second half. *)
Theorem C93_void : forall (K : Fld) (G : Grp K) (ch : oracle K G) lbl (p : pcp K G) Cx Cy r t beta,
  In 1 r -> (0 < length (mc_gens K G (pc_gen_n K G p)))%nat -> mc_gens K G (pc_gen_1 K G p) <> [] ->
  exists t', log_dot_verify K G ch lbl p Cx Cy (eval_eq K r) (mkDP K G [] [] g0 beta 0 0) t = Ok (true, t').
Proof. exact void_proof. Qed.
Print Assumptions C93_void.

(** The second half of the point (2, 3), three challenges 1, 2, 3. *)
Lemma f97_neq (x y : F97) : zv _ x <> zv _ y -> x <> y.
Proof. intros N E. apply N. rewrite E. reflexivity. Qed.
Lemma tree93 lbl Cx Cy t : exists T, bt_ok lbl (hp_pc F97 S97' hp87) Cx Cy (eval_eq F97 [z97 3]) t 1 [] [] [] T.
Proof.
  destruct hp87_nz as [N1 _].
  apply (self_tree F97 lbl (hp_pc F97 S97' hp87) Cx Cy (eval_eq F97 [z97 3]) t N1 ltac:(discriminate) (z97 1) (z97 2) (z97 3)).
  1-6: apply f97_neq; vm_compute; discriminate.
  1-2: reflexivity.
  1-2: vm_compute; repeat constructor.
  1: constructor.
  intros [|y [|y' ys]] L F; try discriminate. apply Forall_inv in F. destruct F as [<-|[<-|[<-|[]]]]; apply f97_neq; vm_compute; discriminate.
Qed.
(** Two rows of two entries, opened at (2, 3): the hypotheses of C93_extract, C93_sound and C93_eval are met. *)
Definition rows93 : list S97' := [poly_commit_vec F97 S97' (mc_gens F97 S97' (pc_gen_n F97 S97' (hp_pc F97 S97' hp87))) [z97 4; z97 7] (mc_h F97 S97' (hp_1 F97 S97' hp87)) (z97 6);
  poly_commit_vec F97 S97' (mc_gens F97 S97' (pc_gen_n F97 S97' (hp_pc F97 S97' hp87))) [z97 9; z97 1] (mc_h F97 S97' (hp_1 F97 S97' hp87)) (z97 8)].
Example ex_C93 : let p := hp_pc F97 S97' hp87 in let gs := mc_gens F97 S97' (pc_gen_n F97 S97' p) in let q := hd g0 (mc_gens F97 S97' (pc_gen_1 F97 S97' p)) in let h := mc_h F97 S97' (pc_gen_1 F97 S97' p) in
  mc_h F97 S97' (pc_gen_n F97 S97' p) = h /\ (2 ^ (2 - 2 / 2) <= length gs)%nat /\ rows_open gs h 2 rows93 [z97 4; z97 7; z97 9; z97 1] [z97 6; z97 8] /\
  (exists T, bt_ok "c" p (poly_commit_vec F97 S97' rows93 (eval_eq F97 (firstn 1 [z97 2; z97 3])) h 0) (gadd (gsm (z97 11) q) (gsm (z97 12) h)) (eval_eq F97 (skipn 1 [z97 2; z97 3])) [] 1 [] [] [] T) /\
  opens q h (gadd (gsm (z97 11) q) (gsm (z97 12) h)) (z97 11) (z97 12).
Proof.
  cbv zeta. split; [reflexivity|]. split; [vm_compute; repeat constructor|]. split; [|split; [exact (tree93 _ _ _ _)|reflexivity]].
  split; [reflexivity|]. split; [reflexivity|]. intros [|[|i]] Hi; [| |cbn in Hi; lia]; unfold opens_vec, rows93; cbn [nth Nat.mul Nat.add skipn firstn]; reflexivity.
Qed.
(** Any two commitments at the point (2, 1). *)
Example ex_C93_void : forall Cx Cy, exists t', log_dot_verify F97 S97' ch84 "c" (hp_pc F97 S97' hp87) Cx Cy (eval_eq F97 [1]) (mkDP F97 S97' [] [] (z97 0) (z97 5) 0 0) [] = Ok (true, t').
Proof. intros Cx Cy. apply (void_proof F97 S97'); [left; reflexivity|vm_compute; repeat constructor|discriminate]. Qed.
