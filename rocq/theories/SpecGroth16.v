(** Vocabulary for the Groth16 statements. *)
From Verif Require Import Field Poly ModelLC SpecLC ModelCS SpecCS.
Local Open Scope fld_scope.
Section S.
Context {K : Fld}.
(** What is assumed of the library's domain constructor. *)
Definition dom_family (dnew : nat -> option (dom K)) : Prop := forall n d, dnew n = Some d -> valid_dom d /\ (n <= dsize d)%nat.
(** All values of an assignment in key order: inputs (the constant first), then auxiliaries. *)
Definition full_vector (x : var -> K) (s : cs K) : list K :=
  map (fun i => x (Input i)) (seq 0 (length (inps s))) ++ map (fun i => x (Aux i)) (seq 0 (length (auxs s))).
(** Two systems with the same constraints and the same variables; values may differ. *)
Definition same_shape (s s' : cs K) : Prop :=
  cons s = cons s' /\ length (inps s) = length (inps s') /\ length (auxs s) = length (auxs s').
End S.
