(** Theorem C102: Bulletproofs' proofs are perfectly witness-indistinguishable. *)
From Coq Require Import String List Lia ZArith.
Import ListNotations.
Local Open Scope list_scope.
From Verif Require Import Field Zp Gold Poly Module ModelTranscript ModelLC SpecLC ModelCS SpecCS ModelBulletproofs SpecBulletproofs SpecSigmaZk.
From Verif Require Import ProofsBulletproofs3 ProofsBulletproofsZk ProofsCS Properties10 Properties33.
Local Open Scope fld_scope.

(** ** C102 *)
Theorem C102_bulletproofs : forall (K : Fld) (G : Grp K) (ch : oracle K G) (circuit1 circuit2 : M K unit) s1 s2 mk rd, (forall l t, ch l t <> 0) ->
  circuit1 (cs_new Prove) = Ok (tt, s1) -> circuit2 (cs_new Prove) = Ok (tt, s2) -> wf s1 -> wf s2 ->
  cons s1 = cons s2 -> inps s1 = inps s2 -> length (auxs s1) = length (auxs s2) -> cons s1 <> [] -> self_sat s1 -> self_sat s2 -> no_dups s1 ->
  let m := Nat.max (length (cons s1)) (length (auxs s1)) in
  (forall N, length (fst (fst (fst (fst (mk N))))) = N /\ length (snd (fst (fst (fst (mk N))))) = N) -> (forall N, spans (snd (fst (mk N)))) ->
  length (r_sL K rd) = m -> length (r_sR K rd) = m ->
  exists out, create_random_proof K G ch circuit1 mk rd = Ok out /\
    exists! rd', (length (r_sL K rd') = m /\ length (r_sR K rd') = m) /\ create_random_proof K G ch circuit2 mk rd' = Ok out.
Proof. exact bp_zk_sat. Qed.
Print Assumptions C102_bulletproofs.
(** The same for the statement the matrices express (C35: with repeated variables in a combination it is a different one). *)
Theorem C102_matrices : forall (K : Fld) (G : Grp K) (ch : oracle K G) (circuit1 circuit2 : M K unit) s1 s2 c mk rd, (forall l t, ch l t <> 0) ->
  circuit1 (cs_new Prove) = Ok (tt, s1) -> circuit2 (cs_new Prove) = Ok (tt, s2) -> wf s1 -> wf s2 ->
  cons s1 = cons s2 -> inps s1 = inps s2 -> length (auxs s1) = length (auxs s2) -> cons s1 <> [] -> circuit_matrices K s1 = Ok c ->
  mat_sat (CL K c) (CR K c) (CO K c) (inps s1 ++ auxs s1) -> mat_sat (CL K c) (CR K c) (CO K c) (inps s2 ++ auxs s2) ->
  let m := Nat.max (length (cons s1)) (length (auxs s1)) in
  (forall N, length (fst (fst (fst (fst (mk N))))) = N /\ length (snd (fst (fst (fst (mk N))))) = N) -> (forall N, spans (snd (fst (mk N)))) ->
  length (r_sL K rd) = m -> length (r_sR K rd) = m ->
  exists out, create_random_proof K G ch circuit1 mk rd = Ok out /\
    exists! rd', (length (r_sL K rd') = m /\ length (r_sR K rd') = m) /\ create_random_proof K G ch circuit2 mk rd' = Ok out.
Proof. exact bp_zk. Qed.
Print Assumptions C102_matrices.

(** Two witnesses of x^2 + x = 30, namely 5 and -6: the proof made from 5 is made from -6 too. *)
Definition rd102 : brand Fg := mkRand Fg [zz 2; zz 11] [zz 4; zz 5] (zz 3) (zz 8) (zz 1) (zz 6) (zz 2) (zz 3) (zz 5) (zz 6) (zz 7) (zz 8) (zz 9) (zz 10).
Lemma span7 : forall N, spans (snd (fst (mk_ N))).
Proof. intro N. apply self_spans. apply feqb_neq. vm_compute. reflexivity. Qed.
Lemma run102 x : (x = 5 \/ x = -6)%Z -> wf (run_ (sq_circuit x 30)) /\ self_sat (run_ (sq_circuit x 30)).
Proof.
  intros [-> | ->]; (split; [split; [exists [zz 30]; reflexivity|]; repeat constructor; cbn; lia|]); (split; [reflexivity|]; repeat constructor; apply feqb_eq; vm_compute; reflexivity).
Qed.
Example ex_C102 : auxs (run_ (sq_circuit 5 30)) <> auxs (run_ (sq_circuit (-6) 30)) /\
  exists out, create_random_proof Fg G_ ch5 (sq_circuit 5 30) mk_ rd102 = Ok out /\
    exists! rd', (length (r_sL Fg rd') = 2%nat /\ length (r_sR Fg rd') = 2%nat) /\ create_random_proof Fg G_ ch5 (sq_circuit (-6) 30) mk_ rd' = Ok out.
Proof.
  split; [intro H; apply (f_equal (fun l => nth 0 l 0)) in H; revert H; apply feqb_neq; vm_compute; reflexivity|].
  destruct (run102 5 (or_introl eq_refl)) as [W1 S1]. destruct (run102 (-6) (or_intror eq_refl)) as [W2 S2].
  apply (C102_bulletproofs Fg G_ ch5 (sq_circuit 5 30) (sq_circuit (-6) 30) (run_ (sq_circuit 5 30)) (run_ (sq_circuit (-6) 30)) mk_ rd102 ch5_nz eq_refl eq_refl W1 W2 eq_refl eq_refl eq_refl).
  - discriminate.
  - exact S1.
  - exact S2.
  - repeat constructor; cbn [In map fst]; intros H; repeat (destruct H as [H|H]; [discriminate H|]); contradiction.
  - exact mk_len.
  - exact span7.
  - reflexivity.
  - reflexivity.
Qed.
