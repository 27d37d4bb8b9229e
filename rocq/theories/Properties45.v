(** Theorems C113, C114: the Rescue and Poseidon example circuits. *)
From Verif Require Import Field ModelLC ModelCS SpecCS ModelOperator SpecOperator ModelMimc SpecMimc ModelSponge SpecSponge Bls ModelDemo ProofsDemo ProofsDemo2.
Local Open Scope fld_scope.

(** ** C113 *)
Theorem C113_rescue_honest : forall (K : PFld) (alph invalph : list Z) (mds : t3 (t3 K)) (c0 : t3 K) (cs : list (t3 K)) (xl xr : K) (s : ModelCS.cs K), wf s ->
  spec (rescue_demo alph invalph mds c0 cs (Some xl) (Some xr)) s (fun s' _ => length (inps s') = S (length (inps s))) (fun _ _ => True) True
    (fun s' _ => wit s' (Input (length (inps s))) = demo_rescue_hash alph invalph mds c0 cs xl xr).
Proof. exact rescue_demo_honest. Qed.
Print Assumptions C113_rescue_honest.
Theorem C113_poseidon_honest : forall (K : PFld) (alph : list Z) (half : nat) (mds : t3 (t3 K)) (ark : list (t3 K)) (xl xr : K) (s : cs K), wf s ->
  spec (poseidon_demo alph half mds ark (Some xl) (Some xr)) s (fun s' _ => length (inps s') = S (length (inps s))) (fun _ _ => True) True
    (fun s' _ => wit s' (Input (length (inps s))) = demo_poseidon_hash alph half mds ark xl xr).
Proof. exact poseidon_demo_honest. Qed.
Print Assumptions C113_poseidon_honest.
Theorem C113_rescue_setup_panics : forall (K : PFld) (alph invalph : list Z) (mds : t3 (t3 K)) (c0 : t3 K) (cs : list (t3 K)) (xl xr : option K) (s : ModelCS.cs K),
  md s = Setup -> xl = None \/ xr = None -> cs <> [] -> bits_val (bits_be alph) <> 0%nat -> rescue_demo alph invalph mds c0 cs xl xr s = Panic.
Proof. exact rescue_demo_setup. Qed.
Print Assumptions C113_rescue_setup_panics.
Theorem C113_poseidon_setup_panics : forall (K : PFld) (alph : list Z) (half : nat) (mds : t3 (t3 K)) (ark : list (t3 K)) (xl xr : option K) (s : cs K),
  md s = Setup -> xl = None \/ xr = None -> ark <> [] -> bits_val (bits_be alph) <> 0%nat -> poseidon_demo alph half mds ark xl xr s = Panic.
Proof. exact poseidon_demo_setup. Qed.
Print Assumptions C113_poseidon_setup_panics.
Theorem C113_rescue_missing : forall (K : PFld) (alph invalph : list Z) (mds : t3 (t3 K)) (c0 : t3 K) (cs : list (t3 K)) (xl xr : option K) (s : ModelCS.cs K),
  md s = Prove -> xl = None \/ xr = None -> rescue_demo alph invalph mds c0 cs xl xr s = Err AssignmentMissing.
Proof. exact rescue_demo_missing. Qed.
Print Assumptions C113_rescue_missing.
Theorem C113_poseidon_missing : forall (K : PFld) (alph : list Z) (half : nat) (mds : t3 (t3 K)) (ark : list (t3 K)) (xl xr : option K) (s : cs K),
  md s = Prove -> xl = None \/ xr = None -> poseidon_demo alph half mds ark xl xr s = Err AssignmentMissing.
Proof. exact poseidon_demo_missing. Qed.
Print Assumptions C113_poseidon_missing.

(** ** C114 *)
Theorem C114_rescue_unbound : forall (K : PFld) (alph invalph : list Z) (mds : t3 (t3 K)) (c0 : t3 K) (cs : list (t3 K)) (xl xr : K) (s s' : ModelCS.cs K),
  wf s -> cs <> [] -> rescue_demo alph invalph mds c0 cs (Some xl) (Some xr) s = Ok (tt, s') ->
  forall (x : var -> K) (y a d : K), sat x s ->
  exists x', continues s x x' /\ sat x' s' /\ x' (Input (length (inps s))) = y /\ x' (first_var s) = a /\ x' (second_var s) = d.
Proof. exact rescue_demo_open. Qed.
Print Assumptions C114_rescue_unbound.
Theorem C114_poseidon_unbound : forall (K : PFld) (alph : list Z) (half : nat) (mds : t3 (t3 K)) (ark : list (t3 K)) (xl xr : K) (s s' : cs K),
  wf s -> ark <> [] -> poseidon_demo alph half mds ark (Some xl) (Some xr) s = Ok (tt, s') ->
  forall (x : var -> K) (y a d : K), sat x s ->
  exists x', continues s x x' /\ sat x' s' /\ x' (Input (length (inps s))) = y /\ x' (first_var s) = a /\ x' (second_var s) = d.
Proof. exact poseidon_demo_open. Qed.
Print Assumptions C114_poseidon_unbound.
Theorem C114_inverse_in_bn : forall (K : PFld) (x : K), pmod K = bn_r -> pow_bits (pow_bits x (bits_be [5%Z])) (bits_be INVALPH) = x.
Proof. exact inverse_bn. Qed.
Print Assumptions C114_inverse_in_bn.
Theorem C114_inverse_in_bls_refuted : exists x : Fbls, pow_bits (pow_bits x (bits_be [5%Z])) (bits_be INVALPH) <> x.
Proof. exact inverse_refuted. Qed.
Print Assumptions C114_inverse_in_bls_refuted.

(** ** Concrete instances *)
From Verif Require Import Gold ProofsCS Properties2 Properties6.
Section Ex.
Let K : PFld := Fg.
Definition exd_rc : list (t3 K) := [k3 5 6 7; k3 8 9 10].
Definition exd_run (a b : Z) : bool :=
  match rescue_demo [5%Z] [3%Z] ex_mds (k3 1 2 3) exd_rc (Some (of_Z a)) (Some (of_Z b)) (cs_new Prove) with
  | Ok (_, s) => sat_b s && feqb (wit s (Input 1)) (demo_rescue_hash [5%Z] [3%Z] ex_mds (k3 1 2 3) exd_rc (of_Z a) (of_Z b)) | _ => false end.
(** Two honest runs with different public outputs. *)
Example ex_C113_rescue : exd_run 1 2 = true /\ exd_run 3 4 = true /\
  feqb (demo_rescue_hash [5%Z] [3%Z] ex_mds (k3 1 2 3) exd_rc (of_Z 1) (of_Z 2)) (demo_rescue_hash [5%Z] [3%Z] ex_mds (k3 1 2 3) exd_rc (of_Z 3) (of_Z 4)) = false.
Proof. vm_compute. repeat split. Qed.
Definition exd_prun (a b : Z) : bool :=
  match poseidon_demo [5%Z] 1 ex_mds exd_rc (Some (of_Z a)) (Some (of_Z b)) (cs_new Prove) with
  | Ok (_, s) => sat_b s && feqb (wit s (Input 1)) (demo_poseidon_hash [5%Z] 1 ex_mds exd_rc (of_Z a) (of_Z b)) | _ => false end.
Example ex_C113_poseidon : exd_prun 1 2 = true /\ exd_prun 3 4 = true /\
  feqb (demo_poseidon_hash [5%Z] 1 ex_mds exd_rc (of_Z 1) (of_Z 2)) (demo_poseidon_hash [5%Z] 1 ex_mds exd_rc (of_Z 3) (of_Z 4)) = false.
Proof. vm_compute. repeat split. Qed.
(** Key generation without a preimage panics; with one it succeeds. *)
Example ex_C113_setup : bits_val (bits_be [5%Z]) <> 0%nat /\
  match rescue_demo [5%Z] [3%Z] ex_mds (k3 1 2 3) exd_rc None (Some (of_Z 2)) (cs_new Setup) with Panic => True | _ => False end /\
  match rescue_demo [5%Z] [3%Z] ex_mds (k3 1 2 3) exd_rc (Some (of_Z 1)) (Some (of_Z 2)) (cs_new Setup) with Ok _ => True | _ => False end.
Proof. vm_compute. repeat split. discriminate. Qed.
(** An output that is not the hash, for the very preimage 1, 2. *)
Example ex_C114 : exists x s', rescue_demo [5%Z] [3%Z] ex_mds (k3 1 2 3) exd_rc (Some (of_Z 1)) (Some (of_Z 2)) (cs_new Prove) = Ok (tt, s') /\ sat x s' /\
  x (Input 1) = (of_Z 42 : K) /\ x (Aux 0) = of_Z 1 /\ x (Aux 1) = of_Z 2 /\
  feqb (demo_rescue_hash [5%Z] [3%Z] ex_mds (k3 1 2 3) exd_rc (of_Z 1) (of_Z 2)) (of_Z 42 : K) = false.
Proof.
  assert (N : match rescue_demo [5%Z] [3%Z] ex_mds (k3 1 2 3) exd_rc (Some (of_Z 1)) (Some (of_Z 2)) (cs_new Prove) with Ok _ => true | _ => false end = true) by (vm_compute; reflexivity).
  destruct (rescue_demo [5%Z] [3%Z] ex_mds (k3 1 2 3) exd_rc (Some (of_Z 1)) (Some (of_Z 2)) (cs_new Prove)) as [[[] s']| |] eqn:E; [|discriminate N..].
  destruct (C114_rescue_unbound K [5%Z] [3%Z] ex_mds (k3 1 2 3) exd_rc (of_Z 1) (of_Z 2) (cs_new Prove) s' (wf_new K Prove) ltac:(discriminate) E (fun _ => 1) (of_Z 42) (of_Z 1) (of_Z 2)) as (x & _ & S & A & B & C).
  { split; [reflexivity|constructor]. }
  exists x, s'. split; [reflexivity|]. split; [exact S|]. split; [exact A|]. split; [exact B|]. split; [exact C|]. vm_compute. reflexivity.
Qed.
End Ex.
