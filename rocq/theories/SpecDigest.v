(** Vocabulary for the digests of instances. *)
From Verif Require Import Field Poly ModelLC SpecLC ModelSpartan SpecSpartan.
From Coq Require Import List.
Import ListNotations.
Local Open Scope fld_scope.
Section S.
Variable K : Fld.
(** All terms in the first row, the other rows empty. *)
Definition first_row (m : matrix K) : matrix K := concat m :: repeat [] (length m - 1).
(** The instance with one constraint that is not 0 * 0 = 0: the sum of all rows of A times the sum of all rows of B is the sum of all rows of C. *)
Definition merged (i : r1cs K) : r1cs K := mkR K (r_inputs K i) (r_aux K i) (r_cons K i) (first_row (r_a K i)) (first_row (r_b K i)) (first_row (r_c K i)).
(** The sum of the values of all rows. *)
Definition all_rows (a : var -> K) (m : matrix K) : K := fsum (map (row_eval a) m).
End S.
Arguments merged {K}. Arguments all_rows {K}.
