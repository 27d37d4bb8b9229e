(** Theorems C96: Groth16 is perfectly zero-knowledge. *)
From Coq Require Import List Lia ZArith.
From Verif Require Import Field Poly Module ModelLC SpecLC ModelCS SpecCS ModelGroth16 SpecGroth16 SpecGroth16Zk ProofsGroth16 ProofsGroth16Zk.
Import ListNotations.
Local Open Scope list_scope.
Local Open Scope fld_scope.

(** ** C96 *)
Theorem C96_coins : forall (K : Fld) (PR : Pairing K) dnew, dom_family dnew -> forall (circuit : M K unit) s1, circuit (cs_new Setup) = Ok (tt, s1) ->
  forall (g1 : G1 PR) (g2 : G2 PR) (al be ga de t : K), ga <> 0 -> de <> 0 -> generates g1 -> generates g2 -> (forall k, gsm k (pair_e g1 g2) = g0 -> k = 0) ->
  forall prover s2 p, prover (cs_new Prove) = Ok (tt, s2) -> same_shape s1 s2 -> wf s2 -> self_sat s2 -> generate_parameters K PR dnew circuit al be ga de t g1 g2 = Ok p ->
  forall pf, verify_proof K PR (prepare K PR (pvk K PR p)) pf (skipn 1 (inps s2)) = Ok true <-> exists! rs : K * K, create_proof K PR dnew p prover (fst rs) (snd rs) = Ok pf.
Proof. exact coins_unique. Qed.
Print Assumptions C96_coins.
Theorem C96_witnesses : forall (K : Fld) (PR : Pairing K) dnew, dom_family dnew -> forall (circuit : M K unit) s1, circuit (cs_new Setup) = Ok (tt, s1) ->
  forall (g1 : G1 PR) (g2 : G2 PR) (al be ga de t : K), ga <> 0 -> de <> 0 -> generates g1 -> generates g2 -> (forall k, gsm k (pair_e g1 g2) = g0 -> k = 0) ->
  forall prover s2 prover' s2' p, prover (cs_new Prove) = Ok (tt, s2) -> same_shape s1 s2 -> wf s2 -> self_sat s2 -> prover' (cs_new Prove) = Ok (tt, s2') -> same_shape s1 s2' -> wf s2' -> self_sat s2' ->
  inps s2 = inps s2' -> generate_parameters K PR dnew circuit al be ga de t g1 g2 = Ok p ->
  forall r s, exists! rs : K * K, create_proof K PR dnew p prover' (fst rs) (snd rs) = create_proof K PR dnew p prover r s.
Proof. exact witnesses_alike. Qed.
Print Assumptions C96_witnesses.
Theorem C96_simulator : forall (K : Fld) (PR : Pairing K) dnew, forall (circuit : M K unit) s1, circuit (cs_new Setup) = Ok (tt, s1) ->
  forall (g1 : G1 PR) (g2 : G2 PR) (al be ga de t : K), de <> 0 -> generates g1 -> generates g2 -> (forall k, gsm k (pair_e g1 g2) = g0 -> k = 0) ->
  forall p xs, generate_parameters K PR dnew circuit al be ga de t g1 g2 = Ok p -> (length xs + 1)%nat = length (gamma_abc_g1 K PR (pvk K PR p)) ->
  (forall x y, verify_proof K PR (prepare K PR (pvk K PR p)) (simulate (pvk K PR p) al be ga de g1 g2 xs x y) xs = Ok true) /\
  forall pf, verify_proof K PR (prepare K PR (pvk K PR p)) pf xs = Ok true -> exists! xy : K * K, simulate (pvk K PR p) al be ga de g1 g2 xs (fst xy) (snd xy) = pf.
Proof. exact simulated. Qed.
Print Assumptions C96_simulator.

(** ** y = x^2 + x with y = 30: the proofs of the witnesses 5 and -6 are the same *)
From Verif Require Import Gold Zp ProofsCS Properties9.
Definition run96 : cs Fg := match square_circuit (-6) (cs_new Prove) with Ok (_, s) => s | _ => cs_new Prove end.
Lemma nd96 : forall k, gsm k (pair_e (p := self_pairing Fg) (z_ 1) (z_ 2)) = g0 -> k = 0.
Proof. intros k H. change (k * (z_ 1 * z_ 2) = 0) in H. destruct (f_integral Fg _ _ H) as [H'|H']; [exact H'|]. apply feqb_eq in H'. revert H'. vm_compute. discriminate. Qed.
Lemma gen96 (K : Fld) (x : K) : x <> 0 -> generates (G := self_grp K) x.
Proof. intros H P. exists (P * finv x). change (P = P * finv x * x). rewrite <- (Rmul_assoc (F_R (f_laws K))), (finv_l K x H). symmetry. rewrite (Rmul_comm (F_R (f_laws K))). apply (Rmul_1_l (F_R (f_laws K))). Qed.
Lemma sat96 : self_sat run96 /\ wf run96.
Proof.
  split.
  - split; [reflexivity|]. repeat constructor; apply feqb_eq; vm_compute; reflexivity.
  - split; [exists [z_ 30]; reflexivity|]. repeat constructor; cbn; lia.
Qed.
Example ex_C96 : exists p, generate_parameters Fg (self_pairing Fg) dnew4 (square_circuit 5) (z_ 3) (z_ 4) (z_ 5) (z_ 6) (z_ 11) (z_ 1) (z_ 2) = Ok p /\
  auxs (run_of Prove) <> auxs run96 /\
  (exists! rs : Fg * Fg, create_proof Fg (self_pairing Fg) dnew4 p (square_circuit (-6)) (fst rs) (snd rs) = create_proof Fg (self_pairing Fg) dnew4 p (square_circuit 5) (z_ 8) (z_ 9)) /\
  verify_proof Fg (self_pairing Fg) (prepare Fg (self_pairing Fg) (pvk Fg _ p)) (simulate (pvk Fg _ p) (z_ 3) (z_ 4) (z_ 5) (z_ 6) (z_ 1) (z_ 2) [z_ 30] (z_ 70) (z_ 80)) [z_ 30] = Ok true.
Proof.
  destruct square_sat as [S W]. destruct sat96 as [S' W'].
  destruct ex_C31 as (p & _ & E & _). exists p. split; [exact E|].
  assert (N : forall z, feqb (z_ z) 0 = false -> z_ z <> 0) by (intros z; apply feqb_neq).
  split; [|split].
  - intro H. injection H as H _. vm_compute in H. discriminate H.
  - refine (C96_witnesses Fg (self_pairing Fg) dnew4 dnew4_family (square_circuit 5) (run_of Setup) eq_refl (z_ 1) (z_ 2) (z_ 3) (z_ 4) (z_ 5) (z_ 6) (z_ 11) _ _ _ _ nd96
      (square_circuit 5) (run_of Prove) (square_circuit (-6)) run96 p eq_refl _ W S eq_refl _ W' S' _ E (z_ 8) (z_ 9)).
    + apply N; vm_compute; reflexivity.
    + apply N; vm_compute; reflexivity.
    + apply gen96, N; vm_compute; reflexivity.
    + apply gen96, N; vm_compute; reflexivity.
    + repeat split.
    + repeat split.
    + reflexivity.
  - refine (proj1 (C96_simulator Fg (self_pairing Fg) dnew4 (square_circuit 5) (run_of Setup) eq_refl (z_ 1) (z_ 2) (z_ 3) (z_ 4) (z_ 5) (z_ 6) (z_ 11) _ _ _ nd96 p [z_ 30] E _) (z_ 70) (z_ 80)).
    + apply N; vm_compute; reflexivity.
    + apply gen96, N; vm_compute; reflexivity.
    + apply gen96, N; vm_compute; reflexivity.
    + assert (L : (length [z_ 30] + 1)%nat = match generate_parameters Fg (self_pairing Fg) dnew4 (square_circuit 5) (z_ 3) (z_ 4) (z_ 5) (z_ 6) (z_ 11) (z_ 1) (z_ 2) with Ok q => length (gamma_abc_g1 Fg _ (pvk Fg _ q)) | _ => O end) by (vm_compute; reflexivity).
      rewrite E in L. exact L.
Qed.
