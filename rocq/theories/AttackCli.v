(** Not a model of code: a prover that runs the constraints of the command-line circuit "hash" on a preimage of its choice and then
    claims an image of its choice (compare cli/src/circuits/hash.rs:13-29, where the image is allocated without being constrained). *)
From Coq Require Import ZArith List.
From Verif Require Import Field ModelLC ModelCS ModelMimc.
Definition claim_hash {K : PFld} (nl : nat) (cts : list K) (a : list Z) (h : K) : M K unit :=
  bind (mimc nl cts (Some a)) (fun _ => bind (alloc_input (Ok h)) (fun _ => ret tt)).
