(** Specification vocabulary for transcripts. *)
From Coq Require Import List NArith.
From Verif Require Import Field Poly Module ModelLC ModelPC ModelMarlin.
From Coq Require Import List.
Import ListNotations.
(** A hash with outputs of one length. *)
Definition fixed_out (H : list N -> list N) : Prop := exists n, forall b, length (H b) = n.
(** An encoding in a fixed number of bytes, at least one, from which the element can be read off. *)
Definition readable {A} (e : A -> list N) : Prop := exists n, (0 < n)%nat /\ (forall x, length (e x) = n) /\ (forall x y, e x = e y -> x = y).
(** The strings given to the hash function when the messages [l], newest first, are absorbed: the first message alone, every later
    one followed by the hash of the string before. *)
Fixpoint hashed (H : list N -> list N) (l : list (list N)) : list (list N) :=
  match l with [] => [] | b :: r => match hashed H r with [] => [b] | (x :: _) as h => (b ++ H x) :: h end end.
(** Two different strings with the same hash, one from each list. *)
Definition collision (H : list N -> list N) (l m : list (list N)) : Prop := exists x y, In x l /\ In y m /\ x <> y /\ H x = H y.
Section S.
Variable K : Fld.
Variable PR : Pairing K.
Definition fits (b : N) (n : nat) : Prop := (N.of_nat n < 2 ^ b)%N.
(** The sizes in a verification key fit the integer types they are written in. *)
Definition key_fits (i : ivkey K PR) : Prop :=
  fits 64 (i_nv (iv_info K PR i)) /\ fits 64 (i_nc (iv_info K PR i)) /\ fits 64 (i_nnz (iv_info K PR i)) /\ fits 32 (length (iv_comms K PR i)) /\ fits 64 (vk_sd K PR (iv_vk K PR i)).
End S.
Arguments key_fits {K PR}.
