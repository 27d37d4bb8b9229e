(** Vocabulary for properties of field variables, lookups and the comparison gadget. *)
From Verif Require Import Field ModelLC SpecLC ModelCS SpecCS ModelOperator.
Section S.
Context {K : Fld}.
Implicit Types (s : cs K).
(** The variable behind a field gadget is allocated; its cached value is the prover's. *)
Definition fr_in s (a : afr K) : Prop := allocated s (fvar a).
Definition fr_honest s (a : afr K) : Prop := fval a = Some (wit s (fvar a)).
(** An assignment of [s] continued to more variables. *)
Definition continues s (x x' : var -> K) : Prop := forall v, allocated s v -> x' v = x v.
(** The comparison gadget run in [s] allocates its left operand, right operand and the public
    width input at these places. *)
Definition rp_L s : var := Aux (length (auxs s)).
Definition rp_R s : var := Aux (length (auxs s) + 1).
Definition rp_T s : var := Input (length (inps s)).
End S.
(** Table position selected by bits, least significant first. *)
Definition pos2 (t0 t1 : bool) : nat := ((if t0 then 1 else 0) + (if t1 then 2 else 0))%nat.
Definition pos3 (t0 t1 t2 : bool) : nat := ((if t0 then 1 else 0) + (if t1 then 2 else 0) + (if t2 then 4 else 0))%nat.
