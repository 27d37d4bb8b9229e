(** Specification vocabulary for linear combinations: value, order, reachable combinations. *)
From Verif Require Import Field ModelLC.
From Coq Require Import Sorting.Sorted.
Local Open Scope fld_scope.

(** Value of a combination under an assignment: sum of coefficient * value. *)
Definition eval {K : Fld} (a : var -> K) (l : lc K) : K :=
  fsum (map (fun t => snd t * a (fst t)) l).

(** Position of a variable in the intended order: inputs first, then by index. *)
Definition var_key (v : var) : nat * nat :=
  match v with Input i => (0, i) | Aux i => (1, i) end%nat.
Definition var_le (a b : var) : Prop :=
  let '(x, i) := var_key a in let '(y, j) := var_key b in
  (x < y \/ (x = y /\ i <= j))%nat.
Definition ordered {A} (l : list (var * A)) : Prop :=
  StronglySorted (fun s t => var_le (fst s) (fst t)) l.

(** Everything the public operators can produce from the empty combination. *)
Inductive built {K : Fld} : lc K -> Prop :=
| b_zero : built lc_zero
| b_of c v : built (lc_of c v)
| b_var v : built (lc_var v)
| b_neg l : built l -> built (lc_neg l)
| b_double l : built l -> built (lc_double l)
| b_scale l s : built l -> built (lc_scale l s)
| b_add_term l c v : built l -> built (lc_add_term l c v)
| b_sub_term l c v : built l -> built (lc_sub_term l c v)
| b_add_var l v : built l -> built (lc_add_var l v)
| b_sub_var l v : built l -> built (lc_sub_var l v)
| b_add l m : built l -> built m -> built (lc_add l m)
| b_sub l m : built l -> built m -> built (lc_sub l m)
| b_add_scaled l s m : built l -> built m -> built (lc_add_scaled l s m)
| b_sub_scaled l s m : built l -> built m -> built (lc_sub_scaled l s m).

(** Value of a ConstraintVar. *)
Definition ceval {K : Fld} (a : var -> K) (x : cvar K) : K :=
  match x with CLC l => eval a l | CVar v => a v end.

(** Coefficients of all terms for one variable. *)
Definition var_eqb (a b : var) : bool :=
  match a, b with Input i, Input j | Aux i, Aux j => Nat.eqb i j | _, _ => false end.
Definition occurrences {K : Fld} (v : var) (l : lc K) : list K :=
  map snd (filter (fun t => var_eqb (fst t) v) l).
