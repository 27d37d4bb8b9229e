(** Specification vocabulary for the Bulletproofs model. *)
From Verif Require Import Field Module.
Local Open Scope fld_scope.

(** The two-vector Pedersen commitment including the inner product, as in the protocol paper. *)
Definition ip_commit {K : Fld} {G : Grp K} (g h : list G) (u : G) (a b : list K) : G :=
  gadd (gadd (msm g a) (msm h b)) (gsm (dot a b) u).
(** Value of row [i] of a matrix on a vector. *)
Definition row_val {K : Fld} (m : list (list K)) (v : list K) (i : nat) : K := dot (nth i m []) v.
(** The matrix form of the statement: row by row, (A z)(B z) = C z. *)
Definition mat_sat {K : Fld} (A B C : list (list K)) (z : list K) : Prop :=
  forall i, (i < length A)%nat -> row_val A z i * row_val B z i = row_val C z i.
(** The coefficient a sequence of assignments `row[v] = c` leaves for [v], starting from [d]. *)
From Verif Require Import ModelLC SpecLC ModelCS.
Fixpoint last_coeff {K : Fld} (l : lc K) (v : var) (d : K) : K :=
  match l with [] => d | (w, c) :: r => last_coeff r v (if var_eqb w v then c else d) end.
(** Every combination of the system names each variable at most once. *)
Definition no_dups {K : Fld} (s : cs K) : Prop :=
  Forall (fun c => NoDup (map fst (ca c)) /\ NoDup (map fst (cb c)) /\ NoDup (map fst (cc c))) (cons s).
