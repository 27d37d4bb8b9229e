(** Vocabulary for the Rescue and Poseidon properties. *)
From Verif Require Import Field ModelLC ModelCS SpecCS ModelSponge.
(** The number a bit list denotes, most significant bit first. *)
Fixpoint bits_val (b : list bool) : nat :=
  match b with [] => 0%nat | i :: r => ((if i then 2 ^ length r else 0) + bits_val r)%nat end.
(** The number given by 64-bit limbs, least significant first. *)
Definition limbs_val (l : list Z) : Z := fold_right (fun d a => (d + 2 ^ 64 * a)%Z) 0%Z l.
