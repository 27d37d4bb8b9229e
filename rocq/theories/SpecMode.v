(** Two runs of synthesis code: one with witness values, one during key generation. *)
From Verif Require Import Field ModelLC ModelCS ModelBoolean.
Section S.
Variable K : Fld.
(** Equally many inputs and auxiliaries, and the same constraints in the same order. *)
Definition same_shape (s s' : cs K) : Prop := length (inps s) = length (inps s') /\ length (auxs s) = length (auxs s') /\ cons s = cons s'.
(** The run [m'] of key generation succeeds whenever [m] does, with results related by [R] and systems of the same shape. *)
Definition fits {A} (R : A -> A -> Prop) (m m' : M K A) : Prop :=
  forall s s', same_shape s s' -> md s' = Setup -> forall a t, m s = Ok (a, t) ->
    exists a' t', m' s' = Ok (a', t') /\ R a a' /\ same_shape t t' /\ md t' = Setup.
End S.
Arguments same_shape {K}. Arguments fits {K A}.
(** Bits on the same wire: equal up to the cached value. *)
Definition same_bit (a b : abit) : Prop := bvar a = bvar b.
Definition same_wire (a b : boolean) : Prop :=
  match a, b with BIs x, BIs y | BNot x, BNot y => bvar x = bvar y | BConst c, BConst d => c = d | _, _ => False end.
Definition any {A} (x y : A) : Prop := True.
