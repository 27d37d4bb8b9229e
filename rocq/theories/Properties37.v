(** Theorem C101: what the digests absorbed by spartan, libra and hyrax determine. *)
From Verif Require Import Field Zp Poly Module ModelTranscript ModelLC SpecLC ModelCS ModelLibra ModelSigma ModelSpartan ModelSpark ModelHyrax SpecSpartan ModelDigest SpecDigest ProofsDigest ExMarlin.
From Coq Require Import String List Lia ZArith.
Import ListNotations.
Local Open Scope string_scope.
Local Open Scope list_scope.
Local Open Scope fld_scope.

(** ** C101 *)
Theorem C101_instances : forall (K : Fld) (G : Grp K) (i i' : r1cs K), (forall h, r1cs_to_hash K G h i = r1cs_to_hash K G h i') <->
  (r_inputs K i = r_inputs K i' /\ r_aux K i = r_aux K i' /\ r_cons K i = r_cons K i') /\
  concat (r_a K i) = concat (r_a K i') /\ concat (r_b K i) = concat (r_b K i') /\ concat (r_c K i) = concat (r_c K i').
Proof. exact r1cs_exact. Qed.
Print Assumptions C101_instances.
Theorem C101_merged : forall (K : Fld) (G : Grp K) (i : r1cs K),
  (forall h, r1cs_to_hash K G h (merged i) = r1cs_to_hash K G h i) /\ (wf_inst i -> wf_inst (merged i)) /\
  (forall a, inst_sat a (merged i) <-> a ONE = 1 /\ all_rows a (r_a K i) * all_rows a (r_b K i) = all_rows a (r_c K i)).
Proof. exact merged_digest. Qed.
Print Assumptions C101_merged.
Theorem C101_collision : forall (K : Fld) (G : Grp K), exists (c c' : M K unit) i i', generate_r1cs K c = Ok i /\ generate_r1cs K c' = Ok i' /\ wf_inst i /\ wf_inst i' /\
  (forall h, r1cs_to_hash K G h i = r1cs_to_hash K G h i') /\ (forall a, ~ inst_sat a i) /\ (forall a, a ONE = 1 -> inst_sat a i').
Proof. exact digest_collision. Qed.
Print Assumptions C101_collision.
Theorem C101_circuits : forall (K : Fld) (G : Grp K) name c c', (forall h, circuit_to_hash K G h name c = circuit_to_hash K G h name c') -> c = c'.
Proof. exact circuit_digest. Qed.
Print Assumptions C101_circuits.
Theorem C101_hyrax_parameters : forall (K : Fld) (G : Grp K) name (p p' : hparams K G), (forall h, hyrax_param_to_hash K G h name p = hyrax_param_to_hash K G h name p') -> p = p'.
Proof. exact hyrax_param_digest. Qed.
Print Assumptions C101_hyrax_parameters.
Theorem C101_nizk_parameters : forall (K : Fld) (G : Grp K) n n' (p p' : satp K G), (forall h, nizk_param_to_hash K G h n p = nizk_param_to_hash K G h n' p') -> n = n' /\ p = p'.
Proof. exact nizk_param_digest. Qed.
Print Assumptions C101_nizk_parameters.
Theorem C101_snark_parameters : forall (K : Fld) (G : Grp K) n n' (p p' : snarkp K G), (forall h, snark_param_to_hash K G h n p = snark_param_to_hash K G h n' p') -> n = n' /\ p = p'.
Proof. exact snark_param_digest. Qed.
Print Assumptions C101_snark_parameters.
Theorem C101_encodings : forall (K : Fld) (G : Grp K) (c c' : enc_commit K G), (forall h, encode_to_hash K G h c = encode_to_hash K G h c') -> c = c'.
Proof. exact encode_digest. Qed.
Print Assumptions C101_encodings.

Section L.
Variable K : Fld.
Add Field Kf : (f_laws K).
Lemma one_term (x y : K) : fsum [1 * x] * fsum [1 * x] = fsum [1 * y] -> x * x = y.
Proof. intros H. transitivity (fsum [1 * x] * fsum [1 * x]); [simpl; ring|]. rewrite H. simpl. ring. Qed.
End L.
(** x * x = y and y * x = z against the one constraint (x + y) * (x + x) = y + z: x = 2, y = 8, z = 32 satisfies the second alone. *)
Definition inst101 : r1cs F97 := mkR F97 3 1 2 [[(1, Aux 0)]; [(1, Input 1)]] [[(1, Aux 0)]; [(1, Aux 0)]] [[(1, Input 1)]; [(1, Input 2)]].
Definition asg101 (v : var) : F97 := match v with Input 0 => 1 | Input 1 => z97 8 | Input 2 => z97 32 | Aux 0 => z97 2 | _ => 0 end.
Lemma sq101 : z97 2 * z97 2 <> z97 8.
Proof. intros H. apply (f_equal (zv _)) in H. vm_compute in H. discriminate. Qed.
Example ex_C101 : (forall h, r1cs_to_hash F97 (self_grp F97) h (merged inst101) = r1cs_to_hash F97 (self_grp F97) h inst101) /\ wf_inst inst101 /\ inst_sat asg101 (merged inst101) /\ ~ inst_sat asg101 inst101.
Proof.
  split; [exact (proj1 (C101_merged F97 (self_grp F97) inst101))|]. split; [|split].
  - unfold wf_inst, in_range; simpl. repeat split; auto; try (exists 1%nat; reflexivity); repeat constructor.
  - apply (proj2 (proj2 (C101_merged F97 (self_grp F97) inst101)) asg101). split; [reflexivity|]. apply zp_eq. vm_compute. reflexivity.
  - intros [_ H]. specialize (H 0%nat). apply sq101. unfold row_eval in H. cbn [inst101 r_a r_b r_c nth map fst snd asg101] in H. exact (one_term F97 (z97 2) (z97 8) H).
Qed.
