(** Theorems C29, C52: the Rescue and Poseidon circuits. *)
From Verif Require Import Field ModelLC ModelCS SpecCS ModelOperator SpecOperator ModelMimc SpecMimc ModelSponge SpecSponge ProofsSponge.
Local Open Scope fld_scope.

(** ** C29 *)
Theorem C29_native_power : forall (K : PFld) (v : K) (l : list Z),
  Forall (fun d => 0 <= d < 2 ^ 64)%Z l -> pow_bits v (bits_be l) = v ^ Z.to_nat (limbs_val l).
Proof. exact pow_limbs. Qed.
Print Assumptions C29_native_power.
Theorem C29_power_circuit : forall (K : PFld) (a : K * var) (b : list bool) (s : cs K), wf s -> allocated s (snd a) ->
  spec (pow_with_constraint a b) s (fun s' r => allocated s' (snd r) /\ fst r = 0)
    (fun x r => x (snd r) = x (first_var s) ^ (2 ^ length (strip b)) * x (snd a) ^ bits_val b)
    True (fun s' r => wit s' (snd r) = 0).
Proof. exact pow_circuit. Qed.
Print Assumptions C29_power_circuit.
Theorem C29_power_unbound : forall (K : PFld) (a : K * var) (b : list bool) (s : cs K) (r : K * var) (s' : cs K),
  wf s -> allocated s (snd a) -> pow_with_constraint a b s = Ok (r, s') ->
  forall (x : var -> K) (y : K), sat x s ->
  exists x', continues s x x' /\ sat x' s' /\ x' (snd r) = y ^ (2 ^ length (strip b)) * x (snd a) ^ bits_val b.
Proof. exact pow_open. Qed.
Print Assumptions C29_power_unbound.
Theorem C29_rescue_honest_output_constant : forall (K : PFld) (nl : nat) (alph invalph : list Z) (mds : t3 (t3 K)) (c0 : t3 K) (cs : list (t3 K)) (b : list Z) (s : ModelCS.cs K),
  wf s -> (exists t, sponge_hash nl (rescue_block alph invalph mds c0 cs) b = Ok t) -> cs <> [] ->
  spec (rescue nl alph invalph mds c0 cs b) s
    (fun s' r => length (inps s') = S (length (inps s)) /\ rmap snd (sponge_hash nl (rescue_block alph invalph mds c0 cs) b) = Ok r)
    (fun _ _ => True) True (fun s' _ => wit s' (Input (length (inps s))) = x0 (List.last cs c0)).
Proof. exact rescue_honest. Qed.
Print Assumptions C29_rescue_honest_output_constant.
Theorem C29_poseidon_honest_output_zero : forall (K : PFld) (nl : nat) (alph : list Z) (half : nat) (mds : t3 (t3 K)) (ark : list (t3 K)) (b : list Z) (s : cs K),
  wf s -> (exists t, sponge_hash nl (poseidon_block alph half mds ark) b = Ok t) -> ark <> [] -> length ark <> S half ->
  spec (poseidon nl alph half mds ark b) s
    (fun s' r => length (inps s') = S (length (inps s)) /\ rmap snd (sponge_hash nl (poseidon_block alph half mds ark) b) = Ok r)
    (fun _ _ => True) True (fun s' _ => wit s' (Input (length (inps s))) = 0).
Proof. exact poseidon_honest. Qed.
Print Assumptions C29_poseidon_honest_output_zero.

(** ** C52 *)
Theorem C52_rescue_output_unbound : forall (K : PFld) (nl : nat) (alph invalph : list Z) (mds : t3 (t3 K)) (c0 : t3 K) (cs : list (t3 K)) (b : list Z) (s : ModelCS.cs K) (r : K) (s' : ModelCS.cs K),
  wf s -> cs <> [] -> rescue nl alph invalph mds c0 cs b s = Ok (r, s') ->
  forall (x : var -> K) (y a d : K), sat x s ->
  exists x', continues s x x' /\ sat x' s' /\ x' (Input (length (inps s))) = y /\ x' (first_var s) = a /\ x' (second_var s) = d.
Proof. exact rescue_open. Qed.
Print Assumptions C52_rescue_output_unbound.
Theorem C52_poseidon_output_unbound : forall (K : PFld) (nl : nat) (alph : list Z) (half : nat) (mds : t3 (t3 K)) (ark : list (t3 K)) (b : list Z) (s : cs K) (r : K) (s' : cs K),
  wf s -> ark <> [] -> poseidon nl alph half mds ark b s = Ok (r, s') ->
  forall (x : var -> K) (y a d : K), sat x s ->
  exists x', continues s x x' /\ sat x' s' /\ x' (Input (length (inps s))) = y /\ x' (first_var s) = a /\ x' (second_var s) = d.
Proof. exact poseidon_open. Qed.
Print Assumptions C52_poseidon_output_unbound.
Theorem C52_partial_blocks_collide : forall (K : PFld) (nl : nat) (blk : K -> K -> K) (k : nat) (p q q' : list Z),
  (0 < nl)%nat -> length p = (k * (8 * nl))%nat -> (0 < length q < 8 * nl)%nat -> (0 < length q' < 8 * nl)%nat ->
  sponge_hash nl blk (p ++ q) = sponge_hash nl blk (p ++ q').
Proof. exact sponge_partial. Qed.
Print Assumptions C52_partial_blocks_collide.
Theorem C52_empty_panics : forall (K : PFld) (nl : nat) (blk : K -> K -> K), sponge_hash nl blk [] = Panic.
Proof. exact sponge_empty. Qed.
Print Assumptions C52_empty_panics.

(** ** Concrete instances *)
From Verif Require Import Gold ProofsCS Properties2.
Section Ex.
Let K : PFld := Fg.
Definition k3 (a b c : Z) : t3 K := T3 (of_Z a) (of_Z b) (of_Z c).
Definition ex_mds : t3 (t3 K) := T3 (k3 2 7 1) (k3 3 5 11) (k3 13 1 4).
Definition ex_rc : list (t3 K) := [k3 5 6 7; k3 8 9 10; k3 42 12 13].
Definition ex_in (z : Z) : list Z := [z; 2; 3; 4; 5; 6; 7; 8]%Z.
(** 7^5: the native power is right, the circuit's value is zero. *)
Example ex_C29_pow : feqb (pow_bits (of_Z 7 : K) (bits_be [5%Z])) (of_Z 16807) = true /\ bits_val (bits_be [5%Z]) = 5%nat /\ length (strip (bits_be [5%Z])) = 3%nat /\
  match (a <- alloc (Ok (of_Z 7 : K)) ;; pow_with_constraint (of_Z 7, a) (bits_be [5%Z])) (cs_new Prove) with
  | Ok (r, s) => sat_b s = true /\ feqb (wit s (snd r)) 0 = true | _ => False end.
Proof. vm_compute. repeat split. Qed.
(** Two inputs with different native hashes and the same (constant) public output. *)
Definition ex_run (z : Z) : bool :=
  match rescue 1 [7%Z] [3%Z] ex_mds (k3 1 2 3) ex_rc (ex_in z) (cs_new Prove) with
  | Ok (_, s) => sat_b s && feqb (wit s (Input 1)) (of_Z 42) | _ => false end.
Example ex_C29_rescue : ex_run 1 = true /\ ex_run 9 = true /\
  match sponge_hash 1 (rescue_block [7%Z] [3%Z] ex_mds (k3 1 2 3) ex_rc) (ex_in 1), sponge_hash 1 (rescue_block [7%Z] [3%Z] ex_mds (k3 1 2 3) ex_rc) (ex_in 9) with
  | Ok a, Ok b => feqb (snd a) (snd b) = false | _, _ => False end.
Proof. vm_compute. repeat split. Qed.
Definition ex_prun (z : Z) : bool :=
  match poseidon 1 [7%Z] 1 ex_mds ex_rc (ex_in z) (cs_new Prove) with
  | Ok (_, s) => sat_b s && feqb (wit s (Input 1)) 0 | _ => false end.
Example ex_C29_C52_poseidon : ex_prun 1 = true /\ ex_prun 9 = true /\ length ex_rc <> 2%nat /\
  match sponge_hash 1 (poseidon_block [7%Z] 1 ex_mds ex_rc) (ex_in 1), sponge_hash 1 (poseidon_block [7%Z] 1 ex_mds ex_rc) (ex_in 9) with
  | Ok a, Ok b => feqb (snd a) (snd b) = false | _, _ => False end.
Proof. vm_compute. repeat split. discriminate. Qed.
End Ex.
