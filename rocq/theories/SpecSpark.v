(** What spartan's memory checking computes, said without the model. *)
From Verif Require Export Field Poly.
From Coq Require Export List Arith.
Local Open Scope nat_scope.
(** How often [a] was accessed. *)
Definition times (acc : list nat) (a : nat) : nat := count_occ Nat.eq_dec acc a.
(** The time stamp each access finds when [seen] has been accessed before: the number of earlier accesses to the same cell. *)
Definition stamps (seen acc : list nat) : list nat := map (fun j => times (seen ++ firstn j acc) (nth j acc 0)) (seq 0 (length acc)).
(** The same for several lists, accessed one after the other. *)
Fixpoint stamps_of (seen : list nat) (lists : list (list nat)) : list (list nat) :=
  match lists with [] => [] | l :: ls => stamps seen l :: stamps_of (seen ++ l) ls end.
(** All lists have n accesses, to cells below m. *)
Definition accesses_ok (lists : list (list nat)) (n m : nat) : Prop := Forall (fun l => length l = n /\ Forall (fun a => a < m) l) lists.
Section S.
Variable K : Fld.
Local Open Scope fld_scope.
(** The fingerprint of an access: address, value, time stamp. *)
Definition finger (gamma1 gamma2 a v t : K) : K := a * gamma1 * gamma1 + v * gamma1 + t - gamma2.
End S.
