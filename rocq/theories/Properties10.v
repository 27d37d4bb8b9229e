(** Theorems C33, C34, C35, C55, C56: Bulletproofs. *)
From Verif Require Import Field Poly Module ModelTranscript ModelLC SpecLC ModelCS SpecCS ModelGroth16 SpecGroth16 ModelBulletproofs SpecBulletproofs ProofsIPP ProofsBulletproofs ProofsBulletproofs2 ProofsBulletproofs3.
Local Open Scope fld_scope.

(** ** C33 *)
Theorem C33_ipp_complete : forall (K : Fld) (G : Grp K) (ch : oracle K G) t (g h : list G) (u : G) (a b : list K) k,
  (forall l t, ch l t <> 0) -> length a = (2 ^ k)%nat -> length b = length a -> length g = length a -> length h = length a ->
  exists pf, ipp_prove K G ch t g h u (ip_commit g h u a b) a b = Ok pf /\ ipp_verify K G ch t g h u (ip_commit g h u a b) pf = Ok true.
Proof.
  intros K G ch t g h u a b k NZ La Lb Lg Lh. destruct (ipp_prove_total K G ch t g h u (ip_commit g h u a b) a b k NZ La Lb Lg Lh) as [pf E].
  exists pf. split; [exact E|]. rewrite (ipp_exact K G ch t g h u _ a b pf Lg Lh E), geqb_refl. reflexivity.
Qed.
Print Assumptions C33_ipp_complete.
(** For an honestly run prover the verifier's answer is exactly whether the commitment opens to the vectors. *)
Theorem C33_ipp_exact : forall (K : Fld) (G : Grp K) (ch : oracle K G) t (g h : list G) (u P : G) (a b : list K) pf,
  length g = length a -> length h = length a -> ipp_prove K G ch t g h u P a b = Ok pf ->
  ipp_verify K G ch t g h u P pf = Ok (geqb P (ip_commit g h u a b)).
Proof. exact ipp_exact. Qed.
Print Assumptions C33_ipp_exact.

(** ** C34 *)
Theorem C34_forgery : forall (K : Fld) (G : Grp K) (ch : oracle K G) (gs : gens K G) (c : r1cs K) (pubs : list K),
  (0 < gn K G gs)%nat -> (gN K G gs <= length (h_vec_N K G gs))%nat -> S (length pubs) = gk K G gs -> (forall t, ch "y"%string t <> 0) ->
  exists pf, bp_verify K G ch gs pf c pubs = Ok true.
Proof. intros K G ch gs c pubs Hn HN Hk NZ. exists (forge K G ch gs c pubs 0 0). apply bp_forgery; auto. Qed.
Print Assumptions C34_forgery.

(** ** C35 *)
Theorem C35_last_coefficient_kept : forall (K : Fld) (s : cs K) c i v, wf s -> circuit_matrices K s = Ok c -> (i < length (cons s))%nat -> allocated s v ->
  let cn := nth i (cons s) (mkC [] [] []) in let j := var_pos (length (inps s)) v in
  nth j (nth i (CL K c) []) 0 = last_coeff (ca cn) v 0 /\ nth j (nth i (CR K c) []) 0 = last_coeff (cb cn) v 0 /\ nth j (nth i (CO K c) []) 0 = last_coeff (cc cn) v 0.
Proof. exact matrix_entries. Qed.
Print Assumptions C35_last_coefficient_kept.
Theorem C35_repeated_term_forgotten : forall (K : Fld) (s : cs K) (v : var) (c : K) l1 l2 row,
  Forall (fun t => allocated s (fst t)) (l1 ++ (v, c) :: l2) -> length row = (length (inps s) + length (auxs s))%nat -> In v (map fst l2) ->
  row_fill K (length (inps s)) (l1 ++ (v, c) :: l2) row = row_fill K (length (inps s)) (l1 ++ l2) row.
Proof. intros. apply row_fill_shadow; assumption. Qed.
Print Assumptions C35_repeated_term_forgotten.
(** Without repetitions the matrices express the rank-1 system. *)
Theorem C35_exact_without_repetitions : forall (K : Fld) (s : cs K) c, wf s -> no_dups s -> self_sat s -> circuit_matrices K s = Ok c ->
  mat_sat (CL K c) (CR K c) (CO K c) (inps s ++ auxs s).
Proof. exact no_dups_mat_sat. Qed.
Print Assumptions C35_exact_without_repetitions.

(** ** C55 *)
Theorem C55_some_bad_proofs_panic : forall (K : Fld) (G : Grp K) (ch : oracle K G) (gs : gens K G) (c : r1cs K) (pubs : list K),
  (0 < gn K G gs)%nat -> (gN K G gs <= length (h_vec_N K G gs))%nat -> S (length pubs) = gk K G gs -> gg K G gs <> g0 -> (forall t, ch "y"%string t <> 0) ->
  exists pf, bp_verify K G ch gs pf c pubs = Panic.
Proof. intros K G ch gs c pubs Hn HN Hk Hg NZ. exists (forge K G ch gs c pubs 0 1). apply bp_panics; auto. Qed.
Print Assumptions C55_some_bad_proofs_panic.
Theorem C55_wrong_arity_panics : forall (K : Fld) (G : Grp K) (ch : oracle K G) (gs : gens K G) pf (c : r1cs K) (pubs : list K),
  S (length pubs) <> gk K G gs -> bp_verify K G ch gs pf c pubs = Panic.
Proof. exact bp_arity. Qed.
Print Assumptions C55_wrong_arity_panics.

(** ** C56 *)
Theorem C56_honest_proofs_verify : forall (K : Fld) (G : Grp K) (ch : oracle K G) (circuit : M K unit) s mk rd, (forall l t, ch l t <> 0) ->
  circuit (cs_new Prove) = Ok (tt, s) -> wf s -> cons s <> [] -> self_sat s -> no_dups s ->
  (forall N, length (fst (fst (fst (fst (mk N))))) = N /\ length (snd (fst (fst (fst (mk N))))) = N) ->
  (length (r_sL K rd) <= Nat.max (length (cons s)) (length (auxs s)))%nat -> (length (r_sR K rd) <= Nat.max (length (cons s)) (length (auxs s)))%nat ->
  exists gs c' pf, create_random_proof K G ch circuit mk rd = Ok (gs, c', pf) /\ bp_verify K G ch gs pf c' (skipn 1 (inps s)) = Ok true.
Proof. exact bp_complete. Qed.
Print Assumptions C56_honest_proofs_verify.
(** The statement actually proved is the one of the matrices. *)
Theorem C56_honest_proofs_verify_matrices : forall (K : Fld) (G : Grp K) (ch : oracle K G) (circuit : M K unit) s c mk rd, (forall l t, ch l t <> 0) ->
  circuit (cs_new Prove) = Ok (tt, s) -> wf s -> cons s <> [] -> circuit_matrices K s = Ok c -> mat_sat (CL K c) (CR K c) (CO K c) (inps s ++ auxs s) ->
  (forall N, length (fst (fst (fst (fst (mk N))))) = N /\ length (snd (fst (fst (fst (mk N))))) = N) ->
  (length (r_sL K rd) <= Nat.max (length (cons s)) (length (auxs s)))%nat -> (length (r_sR K rd) <= Nat.max (length (cons s)) (length (auxs s)))%nat ->
  exists gs c' pf, create_random_proof K G ch circuit mk rd = Ok (gs, c', pf) /\ bp_verify K G ch gs pf c' (skipn 1 (inps s)) = Ok true.
Proof. intros. eapply bp_complete_mat; eassumption. Qed.
Print Assumptions C56_honest_proofs_verify_matrices.

(** ** Concrete instances over the Goldilocks field, the group being the field itself and every challenge 5 *)
From Verif Require Import Gold Zp ProofsCS.
Definition zz (z : Z) : Fg := of_Z z.
Definition G_ : Grp Fg := self_grp Fg.
Definition ch5 : oracle Fg G_ := fun _ _ => zz 5.
Lemma ch5_nz : forall l t, ch5 l t <> 0.
Proof. intros. apply feqb_neq. vm_compute. reflexivity. Qed.
Definition mk_ (N : nat) : list G_ * list G_ * G_ * G_ * G_ :=
  (map (fun i => zz (Z.of_nat i + 10)) (seq 0 N), map (fun i => zz (Z.of_nat i + 100)) (seq 0 N), zz 3, zz 7, zz 9).
Lemma mk_len : forall N, length (fst (fst (fst (fst (mk_ N))))) = N /\ length (snd (fst (fst (fst (mk_ N))))) = N.
Proof. intro N. cbn [mk_ fst snd]. rewrite !map_length, seq_length. auto. Qed.
Definition rd_ : brand Fg := mkRand Fg [zz 2] [zz 4] (zz 3) (zz 8) (zz 1) (zz 6) (zz 2) (zz 3) (zz 5) (zz 6) (zz 7) (zz 8) (zz 9) (zz 10).
(** y = x^2 + x with public y. *)
Definition sq_circuit (x y : Z) : M Fg unit :=
  vx <- alloc (Ok (zz x)) ;;
  vy <- alloc_input (Ok (zz y)) ;;
  vt <- alloc (Ok (zz (x * x))) ;;
  enforce [(vx, f1)] [(vx, f1)] [(vt, f1)] ;;;
  enforce [(vt, f1); (vx, f1)] [(ONE, f1)] [(vy, f1)].
Definition run_ (c : M Fg unit) : cs Fg := match c (cs_new Prove) with Ok (_, s) => s | _ => cs_new Prove end.
Example ex_C56 : exists gs c' pf, create_random_proof Fg G_ ch5 (sq_circuit 5 30) mk_ rd_ = Ok (gs, c', pf) /\ bp_verify Fg G_ ch5 gs pf c' [zz 30] = Ok true.
Proof.
  apply (C56_honest_proofs_verify Fg G_ ch5 (sq_circuit 5 30) (run_ (sq_circuit 5 30)) mk_ rd_ ch5_nz eq_refl).
  - split; [exists [zz 30]; reflexivity|]. repeat constructor; cbn; lia.
  - discriminate.
  - split; [reflexivity|]. repeat constructor; apply feqb_eq; vm_compute; reflexivity.
  - repeat constructor; cbn [In map fst]; intros H; repeat (destruct H as [H|H]; [discriminate H|]); contradiction.
  - exact mk_len.
  - cbn. lia.
  - cbn. lia.
Qed.
Definition ex_run (circuit : M Fg unit) (pubs : list Fg) : res bool :=
  match create_random_proof Fg G_ ch5 circuit mk_ rd_ with Ok (gs, c, pf) => bp_verify Fg G_ ch5 gs pf c pubs | _ => Err Unsatisfiable end.
(** x + x = y, the repeated variable written twice. *)
Definition dup_circuit (x y : Z) : M Fg unit :=
  vx <- alloc (Ok (zz x)) ;; vy <- alloc_input (Ok (zz y)) ;;
  enforce [(vx, f1); (vx, f1)] [(ONE, f1)] [(vy, f1)].
(** The honest proof of the true statement 3 + 3 = 6 makes verification panic; the false statement 3 + 3 = 3 is proved. *)
Example ex_C35 : self_sat (run_ (dup_circuit 3 6)) /\ ex_run (dup_circuit 3 6) [zz 6] = Panic /\
  ~ self_sat (run_ (dup_circuit 3 3)) /\ ex_run (dup_circuit 3 3) [zz 3] = Ok true.
Proof.
  split; [split; [reflexivity|]; repeat constructor; apply feqb_eq; vm_compute; reflexivity|].
  split; [vm_compute; reflexivity|]. split; [|vm_compute; reflexivity].
  intros [_ S]. apply (Forall_inv (P := holds (wit (run_ (dup_circuit 3 3))))) in S. revert S. apply feqb_neq. vm_compute. reflexivity.
Qed.
(** Repeated terms also split satisfaction from the matrix statement in both directions. *)
Theorem C35_relation_changed_refuted : exists (K : Fld) (s1 s2 : cs K) c1 c2, wf s1 /\ wf s2 /\
  circuit_matrices K s1 = Ok c1 /\ self_sat s1 /\ ~ mat_sat (CL K c1) (CR K c1) (CO K c1) (inps s1 ++ auxs s1) /\
  circuit_matrices K s2 = Ok c2 /\ ~ self_sat s2 /\ mat_sat (CL K c2) (CR K c2) (CO K c2) (inps s2 ++ auxs s2).
Proof.
  destruct ex_C35 as (S1 & _ & S2 & _).
  set (s1 := run_ (dup_circuit 3 6)) in *. set (s2 := run_ (dup_circuit 3 3)) in *.
  assert (W1 : wf s1) by (split; [exists [zz 6]; reflexivity|repeat constructor; cbn; lia]).
  assert (W2 : wf s2) by (split; [exists [zz 3]; reflexivity|repeat constructor; cbn; lia]).
  exists Fg, s1, s2. eexists. eexists. split; [exact W1|]. split; [exact W2|]. split; [reflexivity|]. split; [exact S1|]. split; [|split; [reflexivity|split; [exact S2|]]].
  - intro H. specialize (H 0%nat). cbn [CL length] in H. specialize (H (le_n _)). revert H. apply feqb_neq. vm_compute. reflexivity.
  - intros i Hi. cbn [CL length] in Hi. assert (i = 0%nat) as -> by lia. apply feqb_eq. vm_compute. reflexivity.
Qed.
Print Assumptions C35_relation_changed_refuted.
(** A proof of the false statement 0 = 1 (one constraint 0 * 0 = 1) is accepted. *)
Definition false_circuit : M Fg unit := vx <- alloc (Ok (zz 0)) ;; enforce [] [] [(ONE, f1)].
Definition false_gs : gens Fg G_ := let '(gv, hv, g, h, u) := mk_ 1 in mkGens Fg G_ gv hv g h u 1 1 1 1.
Definition false_c : r1cs Fg := match circuit_matrices Fg (run_ false_circuit) with Ok c => matrix_to_map Fg c | _ => mkR1cs Fg [] [] [] [] [] [] end.
Example ex_C34 : exists pf, bp_verify Fg G_ ch5 false_gs pf false_c [] = Ok true.
Proof. apply C34_forgery; [cbn; lia|cbn; lia|reflexivity|intro; apply ch5_nz]. Qed.
Example ex_C34_false : forall x, ~ sat x (run_ false_circuit).
Proof.
  intros x [H1 S]. apply (Forall_inv (P := holds x)) in S. unfold holds in S. cbn [ca cb cc run_] in S. unfold eval in S. cbn in S. 
  change (0 * 0 = 1 * x ONE + 0 :> Fg) in S. rewrite H1 in S. revert S. apply feqb_neq. vm_compute. reflexivity.
Qed.
Example ex_C55 : exists pf, bp_verify Fg G_ ch5 false_gs pf false_c [] = Panic.
Proof. apply C55_some_bad_proofs_panic; [cbn; lia|cbn; lia|reflexivity| |intro; apply ch5_nz]. intro H. revert H. apply feqb_neq. vm_compute. reflexivity. Qed.
Definition g_ : list G_ := [zz 2; zz 3].
Definition h_ : list G_ := [zz 4; zz 5].
Definition u_ : G_ := zz 6.
Definition a_ : list Fg := [zz 1; zz 2].
Definition b_ : list Fg := [zz 3; zz 4].
Example ex_C33 : exists pf, ipp_prove Fg G_ ch5 [] g_ h_ u_ (ip_commit g_ h_ u_ a_ b_) a_ b_ = Ok pf /\ ipp_verify Fg G_ ch5 [] g_ h_ u_ (ip_commit g_ h_ u_ a_ b_) pf = Ok true.
Proof. apply (C33_ipp_complete Fg G_ ch5 [] g_ h_ u_ a_ b_ 1%nat ch5_nz); reflexivity. Qed.
