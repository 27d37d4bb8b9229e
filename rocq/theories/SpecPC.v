(** Specification vocabulary for polynomial commitments. *)
From Verif Require Import Field Poly Module.
Local Open Scope fld_scope.
(** A coefficient vector with a nonzero top coefficient (or empty): how ark_poly stores polynomials. *)
Definition canonical {K : Fld} (p : list K) : Prop := p <> [] -> last p 0 <> 0.
(** The commitment to the pair of values (a, b) with respect to the generators. *)
Definition ped {K : Fld} {G : Grp K} (g gamma : G) (a b : K) : G := gadd (gsm a g) (gsm b gamma).
