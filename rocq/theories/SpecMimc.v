(** Vocabulary for the MiMC properties. *)
From Verif Require Import Field ModelLC ModelCS SpecCS ModelMimc.
Local Open Scope fld_scope.
Section S.
Context {K : Fld}.
(** The MiMC permutation as in the paper: r rounds of (L, R) -> (R + (L + c)^3, L); the output
    is the left half. *)
Definition mimc_spec (cts : list K) (l r : K) : K :=
  fst (fold_left (fun '(l, r) c => (r + (l + c) ^ 3, l)) cts (l, r)).
(** The first two variables a gadget run from [s] allocates, and the last one of [s]. *)
Definition first_var (s : cs K) : var := Aux (length (auxs s)).
Definition second_var (s : cs K) : var := Aux (length (auxs s) + 1).
Definition last_var (s : cs K) : var := Aux (length (auxs s) - 1).
End S.
