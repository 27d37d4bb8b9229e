(** What an encoding should satisfy. *)
From Verif Require Import Field ModelSerial ModelContract.
Section S.
Context {A : Type} (c : codec A).
(** Reading what was written gives the value back, whatever follows. *)
Definition lossless (good : A -> Prop) : Prop := forall x r, good x -> de c (ser c x ++ r) = Some (x, r).
(** The decoder looks at the bytes it consumes only. *)
Definition local : Prop := forall b x r, de c b = Some (x, r) -> exists u, b = u ++ r /\ forall r', de c (u ++ r') = Some (x, r').
(** Every encoding has [n] bytes. *)
Definition sized (n : nat) : Prop := forall x, length (ser c x) = n.
(** The decoder consumes at least [n] bytes. *)
Definition needs (n : nat) : Prop := forall b x r, de c b = Some (x, r) -> (n + length r <= length b)%nat.
End S.
(** Lengths fit into u64. *)
Definition u64_len {A} (l : list A) : Prop := (Z.of_nat (length l) < 2 ^ 64)%Z.
(** `deserialize(&data[..])`: what is left of the slice is dropped (universal_groth16_verifier/src/entry.rs:31-34). *)
Definition read_all {A} (c : codec A) (b : list Z) : option A := match de c b with Some (x, _) => Some x | None => None end.
(** Three output cells that load (entry.rs:14-29). *)
Definition cells (a b c : list Z) : loader := fun i => inl match i with 0%nat => a | 1%nat => b | _ => c end.
