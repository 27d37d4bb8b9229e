(** Specification vocabulary for the vector commitment: Lagrange interpolation over a list of points. *)
From Verif Require Import Field Poly Module.
Local Open Scope fld_scope.
Section S.
Context {K : Fld}.
(** Product of t - x over the list. *)
Definition van (xs : list K) (t : K) : K := fprod (map (fun x => t - x) xs).
(** Product over the entries of [xs] other than [x] (a list without repetitions). *)
Definition others (x : K) (xs : list K) : list K := filter (fun y => negb (feqb y x)) xs.
(** The Lagrange basis value of the point [x] of [xs] at [t]. *)
Definition lag (xs : list K) (x t : K) : K := van (others x xs) t / van (others x xs) x.
(** Value at [t] of the interpolant taking the given values at the given points; points beyond the values count as zero. *)
Definition interp_at (xs vs : list K) (t : K) : K := fsum (map (fun '(x, v) => v * lag xs x t) (combine xs vs)).
(** Entry i of a vector, zero beyond its end. *)
Definition entry (v : list K) (i : nat) : K := nth i v 0.
End S.
