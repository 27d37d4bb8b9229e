(** Specification vocabulary for the command-line hex codec and the on-chain scripts. *)
From Coq Require Import ZArith List.
Import ListNotations.
Local Open Scope Z_scope.
(** The characters "0123456789abcdef" and "0123456789ABCDEF". *)
Definition lower_digits : list Z := [48;49;50;51;52;53;54;55;56;57;97;98;99;100;101;102].
Definition upper_digits : list Z := [48;49;50;51;52;53;54;55;56;57;65;66;67;68;69;70].
Definition has_value (c x : Z) : Prop := 0 <= x /\ (nth_error lower_digits (Z.to_nat x) = Some c \/ nth_error upper_digits (Z.to_nat x) = Some c).
(** What a string denotes: each pair is two digits, or a plus sign and one digit. *)
Inductive denotes : list Z -> list Z -> Prop :=
| den_nil : denotes [] []
| den_pair a b x y s v : has_value a x -> has_value b y -> denotes s v -> denotes (a :: b :: s) (16 * x + y :: v)
| den_plus b y s v : has_value b y -> denotes s v -> denotes (43 :: b :: s) (y :: v).
Definition upcase (c : Z) : Z := if andb (97 <=? c) (c <=? 122) then c - 32 else c.
Definition is_byte (b : Z) : Prop := 0 <= b < 256.
