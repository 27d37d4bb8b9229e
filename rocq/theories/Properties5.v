(** Theorems C23-C25, C28: MiMC, the command-line hash circuit, the membership circuit. *)
From Verif Require Import Field ModelLC ModelCS SpecCS ModelOperator SpecOperator ModelCbmt ModelMimc SpecMimc ProofsMimc.
Local Open Scope fld_scope.

(** ** C23 *)
Theorem C23_circuit : forall (K : PFld) (nl : nat) (cts : list K) (b : option (list Z)) (s : cs K),
  wf s -> cts <> [] -> (forall bytes, b = Some bytes -> (0 < nl)%nat /\ bytes <> []) ->
  spec (mimc nl cts b) s
    (fun s' r => length (auxs s') = (length (auxs s) + 2 + 2 * length cts)%nat /\ inps s' = inps s /\
       (forall bytes, b = Some bytes -> rmap Some (hash nl cts bytes) = Ok r) /\ (b = None -> r = None))
    (fun x _ => x (Aux (length (auxs s) + 1 + 2 * length cts)) = mimc_spec cts (x (first_var s)) (x (second_var s)))
    (b <> None)
    (fun s' r => r = Some (wit s' (last_var s'))).
Proof. exact mimc_circuit. Qed.
Print Assumptions C23_circuit.
Theorem C23_block : forall (K : PFld) (cts : list K) (l r : K), mimc_block cts l r = mimc_spec cts l r.
Proof. exact block_spec. Qed.
Print Assumptions C23_block.

(** ** C24 *)
Theorem C24_partial_blocks_collide : forall (K : PFld) (nl : nat) (cts : list K) (k : nat) (p q q' : list Z),
  (0 < nl)%nat -> length p = (k * (8 * nl))%nat -> (0 < length q < 8 * nl)%nat -> (0 < length q' < 8 * nl)%nat ->
  hash nl cts (p ++ q) = hash nl cts (p ++ q').
Proof. exact partial_collide. Qed.
Print Assumptions C24_partial_blocks_collide.
Theorem C24_partial_block_is_zero : forall (K : PFld) (nl : nat) (cts : list K) (k : nat) (p q : list Z),
  (0 < nl)%nat -> length p = (k * (8 * nl))%nat -> (0 < length q < 8 * nl)%nat ->
  hash nl cts (p ++ q) = hash nl cts (p ++ repeat 0%Z (8 * nl)).
Proof. exact partial_zero. Qed.
Print Assumptions C24_partial_block_is_zero.
Theorem C24_noncanonical_block_is_zero : forall (K : PFld) (nl : nat) (cts : list K) (k : nat) (p c r : list Z),
  (0 < nl)%nat -> length p = (k * (8 * nl))%nat -> length c = (8 * nl)%nat -> (pmod K <= le_val c)%Z ->
  hash nl cts (p ++ c ++ r) = hash nl cts (p ++ repeat 0%Z (8 * nl) ++ r).
Proof. exact noncanonical_collide. Qed.
Print Assumptions C24_noncanonical_block_is_zero.
Theorem C24_empty_panics : forall (K : PFld) (nl : nat) (cts : list K) (s : cs K),
  mimc_hash nl cts [] = Panic /\ mimc nl cts (Some []) s = Panic.
Proof. intros K nl cts s. exact (conj (mimc_hash_empty K nl cts) (mimc_circuit_empty K nl cts s)). Qed.
Print Assumptions C24_empty_panics.
Theorem C24_field_elements : forall (K : PFld) (nl : nat) (cts vs : list K),
  (0 < nl)%nat -> (pmod K <= 2 ^ (64 * Z.of_nat nl))%Z -> vs <> [] ->
  hash nl cts (concat (map (to_bytes nl) vs)) = Ok (fold_left (fun h b => mimc_spec cts h b) vs 0).
Proof. exact hash_elements. Qed.
Print Assumptions C24_field_elements.

(** ** C25 *)
Theorem C25_image_unbound : forall (K : PFld) (nl : nat) (cts : list K) (image : option (list Z)) (s s' : cs K),
  wf s -> cli_hash nl cts image s = Ok (tt, s') ->
  length (inps s') = S (length (inps s)) /\
  forall (x : var -> K) (y a b : K), sat x s ->
  exists x', continues s x x' /\ sat x' s' /\ x' (Input (length (inps s))) = y /\ x' (first_var s) = a /\ x' (second_var s) = b.
Proof. exact cli_hash_open. Qed.
Print Assumptions C25_image_unbound.

(** ** C28 *)
Theorem C28_nothing_enforced : forall (K : PFld) (nl : nat) (cts : list K) (index : Z) (lemmas : list (mout K)) (root leaf : mout K) (s s' : cs K),
  wf s -> lemmas <> [] -> allocated s (mo_var root) -> allocated s (mo_var leaf) -> Forall (fun l => allocated s (mo_var l)) lemmas ->
  set_membership nl cts index lemmas root leaf s = Ok (tt, s') ->
  forall x, sat x s -> exists x', continues s x x' /\ sat x' s'.
Proof. exact membership_open. Qed.
Print Assumptions C28_nothing_enforced.
Theorem C28_no_siblings : forall (K : PFld) (nl : nat) (cts : list K) (index : Z) (root leaf : mout K) (s : cs K),
  exists s', set_membership nl cts index [] root leaf s = Ok (tt, s') /\
  forall x, sat x s' <-> sat x s /\ x (mo_var leaf) = x (mo_var root).
Proof. exact membership_single. Qed.
Print Assumptions C28_no_siblings.
Theorem C28_setup_without_values_fails : forall (K : PFld) (nl : nat) (cts : list K) (index : Z) (lemmas : list (mout K)) (root leaf : mout K) (s : cs K),
  md s = Setup -> lemmas <> [] -> mo_val leaf = None \/ (exists l r, lemmas = l :: r /\ mo_val l = None) ->
  set_membership nl cts index lemmas root leaf s = Err AssignmentMissing.
Proof. exact membership_setup_fails. Qed.
Print Assumptions C28_setup_without_values_fails.

(** ** Concrete instances *)
From Verif Require Import Gold ProofsCS Properties2.
Section Ex.
Let K : PFld := Fg.
Definition ex_cts : list K := map of_Z [3; 141; 592; 65]%Z.
(** 11 bytes: one full block and a partial one. *)
Definition ex_bytes : list Z := [1; 2; 3; 4; 5; 6; 7; 8; 9; 10; 11]%Z.
Example ex_C23 : ex_cts <> [] /\ ex_bytes <> [] /\ match mimc 1 ex_cts (Some ex_bytes) (cs_new Prove) with
  | Ok (Some r, s) => sat_b s = true /\ length (cons s) = 8%nat /\
      feqb r (mimc_spec ex_cts (mimc_spec ex_cts 0 (of_Z (le_val (firstn 8 ex_bytes)))) 0) = true /\ feqb r 0 = false
  | _ => False end.
Proof. split; [discriminate|]. split; [discriminate|]. vm_compute. repeat split. Qed.
(** 2^64 - 1 is not canonical in this field. *)
Example ex_C24 : (pmod K <= le_val (repeat 255%Z 8))%Z /\ length (repeat 255%Z 8) = (8 * 1)%nat /\ (pmod K <= 2 ^ (64 * Z.of_nat 1))%Z /\
  match hash 1 ex_cts (repeat 255%Z 8), hash 1 ex_cts ex_bytes, hash 1 ex_cts (firstn 9 ex_bytes) with
  | Ok a, Ok b, Ok c => feqb b c = true /\ feqb a b = false | _, _, _ => False end.
Proof. vm_compute. split; [congruence|]. split; [reflexivity|]. split; [congruence|]. split; reflexivity. Qed.
Example ex_C25 : match cli_hash 1 ex_cts (Some ex_bytes) (cs_new Prove) with
  | Ok (_, s) => sat_b s = true /\ length (inps s) = 2%nat | _ => False end.
Proof. vm_compute. repeat split. Qed.
(** An honest run with two levels satisfies the circuit, and so does one whose
    claimed leaf is not under the root once the hash outputs are chosen freely. *)
Definition ex_member : M K unit :=
  let one := of_Z 1 in let two := of_Z 2 in let three := of_Z 3 in
  root <- mout_alloc (match hash 1 ex_cts (to_bytes 1 one ++ to_bytes 1 two) with
                      | Ok h => match hash 1 ex_cts (to_bytes 1 h ++ to_bytes 1 three) with Ok r => Some r | _ => None end | _ => None end) ;;
  leaf <- mout_alloc (Some one) ;; l1 <- mout_alloc (Some two) ;; l2 <- mout_alloc (Some three) ;;
  set_membership 1 ex_cts 3 [l1; l2] root leaf.
Example ex_C28 : match ex_member (cs_new Prove) with Ok (_, s) => sat_b s = true /\ length (auxs s) = 30%nat | _ => False end.
Proof. vm_compute. repeat split. Qed.
Example ex_C28_setup : match set_membership 1 ex_cts 3 [mkMO None (Aux 0)] (mkMO None (Aux 1)) (mkMO None (Aux 2)) (cs_new (K := K) Setup) with
  | Err AssignmentMissing => True | _ => False end.
Proof. vm_compute. exact I. Qed.
End Ex.
