(** When the prover of libra's zero-knowledge protocol can succeed. *)
From Verif Require Import SpecLibra ModelLibra.
From Coq Require Import List.
Import ListNotations.
Local Open Scope nat_scope.
(** Every layer but the last has at least two gates, and a power of two of them. *)
Fixpoint zk_layers (raw : list raw_layer) : Prop :=
  match raw with [] => True | l :: raw => match raw with [] => True | _ => (exists k, 1 <= k /\ length l = 2 ^ k) /\ zk_layers raw end end.
(** [S] is half of the input layer and [num] the size the parameters were made for: at most S inputs, exactly S witnesses, the layers above,
    and parameters for half of the log of S, rounded up. *)
Definition zk_provable {A} (S : nat) (raw : list raw_layer) (num : nat) (inputs witnesses : list A) : Prop :=
  length inputs <= S /\ length witnesses = S /\ zk_layers raw /\ exists s, S = 2 ^ s /\ s - s / 2 <= num - num / 2.
