(** Specification for the crate curve25519, without reference to its definitions: the order of the group, squares, encodings of points. *)
From Coq Require Import ZArith List.
From Verif Require Import Field Module.
From Coq Require Import List.
Import ListNotations.
Local Open Scope Z_scope.
(** The order of the Ristretto group (RFC 9496, 4). *)
Definition ristretto_order : Z := 2 ^ 252 + 27742317777372353535851937790883648493.
(** Squares of a field. *)
Definition is_square {K : Fld} (x : K) : Prop := exists y, x = fmul y y.
(** An encoding of points in 32 bytes: injective, and nothing else decodes. *)
Record encoding {P : Type} (enc : P -> list Z) (dec : list Z -> option P) : Prop := {
  enc_length : forall p, length (enc p) = 32%nat;
  dec_enc : forall b p, dec b = Some p <-> enc p = b }.
(** The value of 64-bit limbs, lowest first. *)
Fixpoint limbs_value (l : list Z) : Z := match l with [] => 0 | x :: r => x + 18446744073709551616 * limbs_value r end.
(** The sum of points and of multiples of points. *)
Fixpoint total {K : Fld} {G : Grp K} (l : list G) : G := match l with [] => g0 | x :: r => gadd x (total r) end.
Fixpoint total_mul {K : Fld} {G : Grp K} (s : list K) (l : list G) : G := match s, l with k :: s', x :: l' => gadd (gsm k x) (total_mul s' l') | _, _ => g0 end.
(** Eight bytes: the number 32. *)
Definition prefix32 : list Z := [32; 0; 0; 0; 0; 0; 0; 0].
