(** C125: Marlin over the scalar field of BLS12-381. *)
From Verif Require Import Zp SpecLC SpecCS SpecMarlin AttackMarlin Bls ModelDomain ModelMimcDemo SpecMarlinBls ProofsMarlinBls.
From Verif Require Import ModelMarlin ModelCS.
Local Open Scope fld_scope.

Theorem C125_setup : forall (PR : Pairing Fbls) n (tau : Fbls) (g gam : G1 PR) (h : G2 PR), (exists srs, universal_setup Fbls PR bls_domain n tau g gam h = Ok srs) <-> (Z.of_nat n <= 2 ^ 32)%Z.
Proof. exact setup_bls. Qed.
Print Assumptions C125_setup.
Theorem C125_complete : forall (PR : Pairing Fbls) (ro : fs Fbls PR), outside ro -> forall n (tau : Fbls) (g gam : G1 PR) (h : G2 PR) srs checks circ u1 u2 (s1 s2 : cs Fbls) k ipk ivk co pf,
  universal_setup Fbls PR bls_domain n tau g gam h = Ok srs ->
  circ (cs_new Setup) = Ok (u1, s1) -> circ (cs_new Prove) = Ok (u2, s2) -> same_shape s1 s2 -> wf s1 -> wf s2 -> self_sat s2 -> (Z.of_nat (terms (cons s1)) < 2 ^ 64)%Z ->
  length (inps s2) = (2 ^ k)%nat -> (k <= 32)%nat ->
  c_w Fbls co <> 0 -> c_za Fbls co <> 0 -> c_zb Fbls co <> 0 -> (9 <= length (c_draw Fbls co))%nat ->
  marlin_index Fbls PR bls_domain checks srs circ = Ok (ipk, ivk) ->
  create_proof Fbls PR bls_domain ro ipk circ co = Ok pf ->
  verify_proof Fbls PR bls_domain ro ivk pf (tl (inps s2)) = Ok true.
Proof. exact complete_bls. Qed.
Print Assumptions C125_complete.
(** Finding of C60, for the field the repository uses. *)
Theorem C125_forgery : forall (PR : Pairing Fbls) (ro : fs Fbls PR), outside ro -> forall n (tau : Fbls) (g gam : G1 PR) (h : G2 PR) srs checks circ u (s : cs Fbls) ipk ivk pub,
  universal_setup Fbls PR bls_domain n tau g gam h = Ok srs ->
  circ (cs_new Setup) = Ok (u, s) -> wf s -> (Z.of_nat (terms (cons s)) < 2 ^ 64)%Z ->
  marlin_index Fbls PR bls_domain checks srs circ = Ok (ipk, ivk) ->
  (2 <= i_nc (iv_info Fbls PR ivk))%nat -> (2 <= i_nnz (iv_info Fbls PR ivk))%nat -> (Z.of_nat (length pub) < 2 ^ 32)%Z ->
  exists pf, forge Fbls PR bls_domain ro (ip_ck Fbls PR ipk) (ip_ix Fbls PR ipk) ivk pub = Ok pf /\ verify_proof Fbls PR bls_domain ro ivk pf pub = Ok true.
Proof. exact forgery_bls. Qed.
Print Assumptions C125_forgery.
Theorem C125_mimc_example : forall (PR : Pairing Fbls) (ro : fs Fbls PR), outside ro -> forall n (tau : Fbls) (g gam : G1 PR) (h : G2 PR) srs checks (cts : list Fbls) ds ds' ipk ivk co pf,
  universal_setup Fbls PR bls_domain n tau g gam h = Ok srs ->
  length ds = length ds' -> (35 * Z.of_nat (length ds) < 2 ^ 64)%Z ->
  c_w Fbls co <> 0 -> c_za Fbls co <> 0 -> c_zb Fbls co <> 0 -> (9 <= length (c_draw Fbls co))%nat ->
  marlin_index Fbls PR bls_domain checks srs (mimc_main_circuit cts ds ds') = Ok (ipk, ivk) ->
  create_proof Fbls PR bls_domain ro ipk (mimc_main_circuit cts ds ds') co = Ok pf ->
  verify_proof Fbls PR bls_domain ro ivk pf [] = Ok true.
Proof. exact mimc_bls. Qed.
Print Assumptions C125_mimc_example.

Definition P125 : Pairing Fbls := self_pairing Fbls.
Definition z125 (n : Z) : Fbls := of_Z n.
(** a * b = x and 2a * (a + 1) = 3b with one public input x. *)
Definition circ125 (a b x : Z) : M Fbls unit :=
  vx <- alloc_input (Ok (z125 x)) ;; va <- alloc (Ok (z125 a)) ;; vb <- alloc (Ok (z125 b)) ;;
  enforce [(va, z125 1)] [(vb, z125 1)] [(vx, z125 1)] ;;; enforce [(va, z125 2)] [(va, z125 1); (Input 0, z125 1)] [(vb, z125 3)].
(** Challenges outside the domains exist, the setup of size 32 succeeds, and the circuit has two = 2^1 inputs with the constant. That indexing and proving succeed is not
    computed over this field; ex_C59 and ex_C60 do so over a small one. *)
Example ex_C125 : outside (ro_shift P125) /\ (exists srs, universal_setup Fbls P125 bls_domain 32 (z125 13) (z125 2) (z125 3) (z125 4) = Ok srs) /\
  match circ125 3 8 24 (cs_new Setup), circ125 3 8 24 (cs_new Prove) with
  | Ok (_, s1), Ok (_, s2) => same_shape s1 s2 /\ length (inps s2) = (2 ^ 1)%nat /\ Nat.eqb (terms (cons s1)) 5 = true /\
      forallb (fun c => feqb (eval (wit s2) (ca c) * eval (wit s2) (cb c)) (eval (wit s2) (cc c))) (cons s2) = true
  | _, _ => False end.
Proof.
  split; [apply ro_shift_ok|]. split; [apply setup_bls; vm_compute; discriminate|]. cbn [circ125]. repeat split; vm_compute; reflexivity.
Qed.
