(** C123, C124: the Marlin MiMC example circuit. *)
From Verif Require Import Zp SpecLC SpecCS SpecMimc SpecMarlin ProofsMimcDemo ModelMimcDemo ExMarlin.
From Verif Require Import ModelMarlin ModelCS.
Local Open Scope fld_scope.

(** ** C123 *)
Theorem C123_wrong_constants_panic : forall (K : PFld) (cts : list K) ds s, length cts <> 5%nat -> mimc_demo cts ds s = Panic.
Proof. exact demo_panics. Qed.
Print Assumptions C123_wrong_constants_panic.
Theorem C123_circuit : forall (K : PFld) (cts : list K) ds m, length cts = 5%nat -> exists s, mimc_demo cts ds (cs_new m) = Ok (tt, s) /\ wf s /\
  inps s = [1] /\ length (auxs s) = (12 * length ds)%nat /\ length (cons s) = (10 * length ds)%nat /\ terms (cons s) = (35 * length ds)%nat /\
  (forall x, sat x s -> forall j, (j < length ds)%nat -> x (Aux (12 * j + 11)) = mimc_spec cts (x (Aux (12 * j))) (x (Aux (12 * j + 1)))) /\
  (m = Prove -> self_sat s /\ forall j, (j < length ds)%nat -> (wit s (Aux (12 * j)), wit s (Aux (12 * j + 1))) = nth j ds (0, 0)).
Proof. exact demo_run. Qed.
Print Assumptions C123_circuit.
Theorem C123_same_relation : forall (K : PFld) (cts : list K) ds ds' m m' s s', length ds = length ds' ->
  mimc_demo cts ds (cs_new m) = Ok (tt, s) -> mimc_demo cts ds' (cs_new m') = Ok (tt, s') -> same_shape s s'.
Proof. exact demo_shape. Qed.
Print Assumptions C123_same_relation.
Theorem C123_accepted : forall (K : PFld) (PR : Pairing K) dnew, radix2 dnew -> forall ro : fs K PR,
  (forall m d tr, dnew m = Some d -> v_alpha K (fs_msg K PR ro d tr) ^ dsize d <> 1) -> (forall m d tr, dnew m = Some d -> fs_beta K PR ro d tr ^ dsize d <> 1) ->
  forall (tau : K) (g gam : G1 PR) (h : G2 PR) (n : nat) checks (cts : list K) ds ds' dx ipk ivk co pf,
  length ds = length ds' -> (35 * Z.of_nat (length ds) < 2 ^ 64)%Z -> dnew 1%nat = Some dx -> dsize dx = 1%nat ->
  c_w K co <> 0 -> c_za K co <> 0 -> c_zb K co <> 0 -> (9 <= length (c_draw K co))%nat ->
  marlin_index K PR dnew checks (kzg_setup K PR n tau g gam h) (mimc_main_circuit cts ds ds') = Ok (ipk, ivk) ->
  create_proof K PR dnew ro ipk (mimc_main_circuit cts ds ds') co = Ok pf ->
  verify_proof K PR dnew ro ivk pf [] = Ok true.
Proof. exact demo_accepted. Qed.
Print Assumptions C123_accepted.
Definition ct97 : list F97 := map z97 [2; 3; 5; 7; 11]%Z.
Definition ds97 : list (F97 * F97) := [(z97 1, z97 2); (z97 3, z97 4)].
(** Two samples. *)
Example ex_C123 : length ct97 = 5%nat /\ match mimc_demo ct97 ds97 (cs_new Prove) with
  | Ok (_, s) => wfb s && satb s && Nat.eqb (length (auxs s)) 24 && Nat.eqb (length (cons s)) 20 &&
      feqb (wit s (Aux 11)) (mimc_spec ct97 (z97 1) (z97 2)) && feqb (wit s (Aux 23)) (mimc_spec ct97 (z97 3) (z97 4))
  | _ => false end = true.
Proof. split; [reflexivity|]. vm_compute. reflexivity. Qed.
Example ex_C123_panics : length (tl ct97) <> 5%nat. Proof. discriminate. Qed.
(** The hypotheses of C123_accepted with different draws for keys and proof. That the indexer and the prover succeed is not computed: one sample already needs a domain of size 128. *)
Example ex_C123_accepted : radix2 dnew97 /\ (forall m d tr, dnew97 m = Some d -> v_alpha F97 (fs_msg F97 P97 ro97 d tr) ^ dsize d <> 1 /\ fs_beta F97 P97 ro97 d tr ^ dsize d <> 1) /\
  length ds97 = length (rev ds97) /\ (35 * Z.of_nat (length ds97) < 2 ^ 64)%Z /\ (exists dx, dnew97 1%nat = Some dx /\ dsize dx = 1%nat) /\
  c_w F97 coins97 <> 0 /\ c_za F97 coins97 <> 0 /\ c_zb F97 coins97 <> 0 /\ (9 <= length (c_draw F97 coins97))%nat.
Proof.
  split; [exact radix2_97|]. split; [exact ro97_ok|]. split; [reflexivity|]. split; [reflexivity|]. split; [eexists; split; reflexivity|].
  assert (forall x : F97, feqb x 0 = false -> x <> 0) as N0 by (intros x E ->; rewrite feqb_refl in E; discriminate).
  split; [apply N0; vm_compute; reflexivity|]. split; [apply N0; vm_compute; reflexivity|]. split; [apply N0; vm_compute; reflexivity|vm_compute; lia].
Qed.

(** ** C124 *)
(** Finding: the images are private; for any images there is a run with the same public inputs, whose proof is a proof of the same statement. *)
Theorem C124_images_not_public : forall (K : PFld) (cts : list K) ims, length cts = 5%nat ->
  exists ds s, length ds = length ims /\ mimc_demo cts ds (cs_new Prove) = Ok (tt, s) /\ self_sat s /\ inps s = [1] /\
  forall j, (j < length ims)%nat -> wit s (Aux (12 * j + 11)) = nth j ims 0.
Proof. exact demo_images. Qed.
Print Assumptions C124_images_not_public.
(** No two runs with equally many samples differ in what the verifier sees of the statement. *)
Theorem C124_statement_fixed : forall (K : PFld) (cts : list K) ds ds' s s', length ds = length ds' ->
  mimc_demo cts ds (cs_new Prove) = Ok (tt, s) -> mimc_demo cts ds' (cs_new Prove) = Ok (tt, s') -> tl (inps s) = [] /\ inps s = inps s' /\ cons s = cons s'.
Proof. exact demo_statement. Qed.
Print Assumptions C124_statement_fixed.
(** Draws that lead to the image 42 exist; with these draws it is another one. *)
Example ex_C124 : length ct97 = 5%nat /\ feqb (mimc_spec ct97 (z97 1) (z97 2)) (z97 42) = false. Proof. split; vm_compute; reflexivity. Qed.
