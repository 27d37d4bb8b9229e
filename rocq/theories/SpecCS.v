(** Vocabulary for statements about constraint systems. *)
From Verif Require Import Field ModelLC SpecLC ModelCS.
Local Open Scope fld_scope.

Section S.
Context {K : Fld}.

(** A constraint holds under an assignment of values to all variables. *)
Definition holds (a : var -> K) (c : constraint K) : Prop :=
  eval a (ca c) * eval a (cb c) = eval a (cc c).
(** An assignment satisfies a system: the constant is 1 and every constraint holds. *)
Definition sat (a : var -> K) (s : cs K) : Prop := a ONE = 1 /\ Forall (holds a) (cons s).
(** The assignment recorded by the prover. *)
Definition wit (s : cs K) (v : var) : K :=
  match v with Input n => nth n (inps s) 0 | Aux n => nth n (auxs s) 0 end.
(** The prover's own values satisfy the system. *)
Definition self_sat (s : cs K) : Prop := sat (wit s) s.

Definition allocated (s : cs K) (v : var) : Prop :=
  match v with Input n => n < length (inps s) | Aux n => n < length (auxs s) end%nat.
Definition c_in (P : var -> Prop) (c : constraint K) : Prop :=
  Forall (fun t => P (fst t)) (ca c) /\ Forall (fun t => P (fst t)) (cb c) /\ Forall (fun t => P (fst t)) (cc c).
(** Well-formed systems: the constant comes first and constraints mention allocated variables only.
    Every system built from [cs_new] by the modelled code is one. *)
Definition wf (s : cs K) : Prop :=
  (exists r, inps s = 1 :: r) /\ Forall (c_in (allocated s)) (cons s).
(** [s'] extends [s]: nothing already allocated, assigned or constrained changes. *)
Definition ext (s s' : cs K) : Prop :=
  md s' = md s /\ (exists i, inps s' = inps s ++ i) /\
  (exists x, auxs s' = auxs s ++ x) /\ (exists c, cons s' = cons s ++ c).

(** [spec m s W S H HR]: running [m] from [s] extends the system; the result satisfies [W];
    every satisfying assignment satisfies [S]; in prove mode from a self-satisfied system under
    the honesty premise [H] the new system is self-satisfied and the result satisfies [HR];
    errors occur only in prove mode outside that situation; no panic. *)
Definition spec {A} (m : M K A) (s : cs K) (W : cs K -> A -> Prop) (S : (var -> K) -> A -> Prop)
  (H : Prop) (HR : cs K -> A -> Prop) : Prop :=
  match m s with
  | Ok (r, s') => ext s s' /\ wf s' /\ W s' r /\ (forall x, sat x s' -> S x r) /\
      (md s = Prove -> self_sat s -> H -> self_sat s' /\ HR s' r)
  | Err e => md s = Prove /\ (self_sat s -> ~ H)
  | Panic => False
  end.

End S.
