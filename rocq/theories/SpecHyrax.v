(** What hyrax's prover needs: stated from the circuit description and the sizes only. *)
From Verif Require Import Field ModelLibra SpecLibra.
From Coq Require Import List.
Import ListNotations.
Local Open Scope nat_scope.
(** Every layer has a power of two of gates, and no more of them than the layer below has nodes, unless that is a single node. *)
Fixpoint shape (below : nat) (raw : list raw_layer) : Prop :=
  match raw with [] => True | l :: raw => (exists k, length l = 2 ^ k) /\ (below <= 1 \/ length l <= below) /\ shape (length l) raw end.
(** [n] instances over a circuit whose input layer has 2 S nodes, with parameters for 2^num witness values. *)
Definition provable {A} (S : nat) (raw : list raw_layer) (num n : nat) (inputs witnesses : list (list A)) : Prop :=
  n <= length inputs /\ n <= length witnesses /\ shape (2 * S) raw /\ Forall (fun i => length i <= S) (firstn n inputs) /\ Forall (fun w => pow2_above (length w) S) (firstn n witnesses) /\
  exists k s, n = 2 ^ k /\ 1 <= k /\ S = 2 ^ s /\ (k + s) - (k + s) / 2 <= num - num / 2.
