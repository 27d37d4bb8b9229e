(** Multilinear extensions, stated without the code's tables. *)
From Verif Require Import Field Poly.
From Coq Require Import List.
Local Open Scope fld_scope.
Section SpecMle.
Variable K : Fld.
(** The number a bit string denotes, first bit most significant. *)
Definition bits_val (bs : list bool) : nat := fold_left (fun (n : nat) (b : bool) => (2 * n + (if b then 1 else 0))%nat) bs 0%nat.
Definition bit (b : bool) : K := if b then 1 else 0.
(** A function of [k] variables that is affine in each of them separately. *)
Definition multilinear (k : nat) (f : list K -> K) : Prop :=
  forall pre post x, length (pre ++ x :: post) = k ->
    f (pre ++ x :: post) = (1 - x) * f (pre ++ 0 :: post) + x * f (pre ++ 1 :: post).
(** [f] is a multilinear extension of the vector [v] (padded by zeros) to [k] variables, variable 0 the most significant. *)
Definition extends (k : nat) (v : list K) (f : list K -> K) : Prop :=
  multilinear k f /\ forall bs, length bs = k -> f (map bit bs) = nth (bits_val bs) v 0.
(** The textbook formula. *)
Fixpoint chi (bs : list bool) (r : list K) : K :=
  match bs, r with b :: bs, x :: r => (if b then x else 1 - x) * chi bs r | _, _ => 1 end.
Fixpoint cube (k : nat) : list (list bool) :=
  match k with O => [[]] | S k => map (cons false) (cube k) ++ map (cons true) (cube k) end.
Definition mle (v r : list K) : K := fsum (map (fun bs => nth (bits_val bs) v 0 * chi bs r) (cube (length r))).
End SpecMle.
Arguments multilinear {K}. Arguments extends {K}. Arguments mle {K}. Arguments chi {K}. Arguments bit {K}.
