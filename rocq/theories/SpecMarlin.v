(** Specification vocabulary for Marlin, independent of the model's helper functions. *)
From Verif Require Import Field Poly ModelLC ModelCS SpecCS.
Local Open Scope fld_scope.
Section S.
Variable K : Fld.
(** Value of a sparse matrix row on an assignment of the columns. *)
Definition row_val (z : nat -> K) (r : list (K * nat)) : K := fsum (map (fun e => fst e * z (snd e)) r).
(** The relation defined by three matrices: row by row, product of the first two equals the third. *)
Definition msat (z : nat -> K) (a b c : list (list (K * nat))) : Prop :=
  length a = length c /\ length b = length c /\
  forall i, (i < length c)%nat -> row_val z (nth i a []) * row_val z (nth i b []) = row_val z (nth i c []).
(** Column numbering: inputs (with the constant) first, auxiliaries after them. *)
Definition columns (ni : nat) (x : var -> K) (j : nat) : K := if Nat.ltb j ni then x (Input j) else x (Aux (j - ni)).
(** What the FFT library guarantees: domains of power-of-two size at least the request, nested by powers of the generator. *)
Definition radix2 (dnew : nat -> option (dom K)) : Prop :=
  (forall n d, dnew n = Some d -> valid_dom d /\ (n <= dsize d)%nat /\ exists e, dsize d = (2 ^ e)%nat) /\
  (forall n m dn dm, dnew n = Some dn -> dnew m = Some dm -> (n <= m)%nat -> exists k, dsize dm = (dsize dn * k)%nat /\ dgen dn = dgen dm ^ k).
(** Number of nonzero-entry records in the first two linear combinations of the constraints. *)
Definition terms (l : list (constraint K)) : nat := fold_right (fun c n => (length (ca c) + length (cb c) + n)%nat) O l.
(** Two runs of one circuit, for the keys and for a proof, describe the same constraints. *)
Definition same_shape (s1 s2 : cs K) : Prop := cons s1 = cons s2 /\ length (inps s1) = length (inps s2) /\ length (auxs s1) = length (auxs s2).
End S.
Arguments row_val {K}. Arguments msat {K}. Arguments columns {K}. Arguments radix2 {K}. Arguments terms {K}. Arguments same_shape {K}.
