(** The balance of one memory in spartan's evaluation proof. *)
From Verif Require Import Field.
From Coq Require Import List.
Import ListNotations.
Local Open Scope fld_scope.
(** Initial value, three reads, three writes and audit. *)
Definition balanced {K : Fld} (x : K * list K * list K * K) : Prop :=
  exists i r0 r1 r2 w0 w1 w2 a, x = (i, [r0; r1; r2], [w0; w1; w2], a) /\ i * (w0 * w1 * w2) = r0 * r1 * r2 * a.
