(** Vocabulary for the constraint system for testing. *)
From Coq Require Import String Ascii List NArith.
Import ListNotations.
From Verif Require Import Field ModelLC SpecLC ModelCS SpecCS ModelTestCS.
Local Open Scope list_scope.
Local Open Scope fld_scope.

(** A name without '/'. *)
Definition plain (n : string) : Prop := ~ In "/"%char (list_ascii_of_string n).
(** The path of [n] inside the namespaces [ns]. *)
Definition path_of (ns : list string) (n : string) : string := String.concat "/" (ns ++ [n]).
Section S.
Context {K : Fld}.
(** The system without names. *)
Definition erase (s : tcs K) : cs K := mkCS Prove (map fst (t_inps K s)) (map fst (t_auxs K s)) (map fst (t_cons K s)).
(** A path is in use. *)
Definition taken (s : tcs K) (p : string) : Prop := In p (map fst (t_named K s)).
(** Value and path of a variable. *)
Definition entry (s : tcs K) (v : var) : option (K * string) :=
  match v with Input i => nth_error (t_inps K s) i | Aux i => nth_error (t_auxs K s) i end.
(** Variables, constraints and paths correspond to each other. *)
Record tidy (s : tcs K) : Prop := {
  ty_keys : NoDup (map fst (t_named K s));
  ty_var : forall v p, In (p, NVar v) (t_named K s) <-> exists x, entry s v = Some (x, p);
  ty_con : forall i p, In (p, NCons i) (t_named K s) <-> exists c, nth_error (t_cons K s) i = Some (c, p);
  ty_ns : Forall plain (t_ns K s) }.
(** Sum of the coefficients of a variable. *)
Definition total (v : var) (l : lc K) : K := fsum (occurrences v l).
(** Equal as linear functions with independent variables. *)
Definition same_lc (a b : lc K) : Prop := forall v, total v a = total v b.
Definition same_constraint (a b : constraint K) : Prop := same_lc (ca a) (ca b) /\ same_lc (cb a) (cb b) /\ same_lc (cc a) (cc b).
(** Numbers that fit into 64 bits. *)
Definition fits64 (n : nat) : Prop := (N.of_nat n < 2 ^ 64)%N.
Definition lc_fits (l : lc K) : Prop := fits64 (length l) /\ Forall (fun t => match fst t with Input i | Aux i => fits64 i end) l.
Definition sizes_fit (s : tcs K) : Prop := fits64 (length (t_inps K s)) /\ fits64 (length (t_auxs K s)) /\ fits64 (length (t_cons K s)) /\
  Forall (fun c => lc_fits (ca (fst c)) /\ lc_fits (cb (fst c)) /\ lc_fits (cc (fst c))) (t_cons K s).
End S.
