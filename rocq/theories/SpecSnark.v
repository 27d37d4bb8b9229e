(** What the SNARK of the spartan crate is supposed to do. *)
From Verif Require Import Field ModelLC ModelSpartan SpecSpartan.
Local Open Scope fld_scope.
Section S.
Variable K : Fld.
(** At most one position of the matrix holds a nonzero value. *)
Definition lonely (off : nat) (m : matrix K) : Prop := forall r c r' c', entry off m r c <> 0 -> entry off m r' c' <> 0 -> r = r' /\ c = c'.
(** None of the three matrices has two nonzero entries; a circuit with the single constraint x * y = z is like this. *)
Definition one_entry_each (i : r1cs K) : Prop := lonely (half_len K i) (r_a K i) /\ lonely (half_len K i) (r_b K i) /\ lonely (half_len K i) (r_c K i).
End S.
Arguments lonely {K}. Arguments one_entry_each {K}.
