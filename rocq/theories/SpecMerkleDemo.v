(** Vocabulary for the Merkle example circuits. *)
From Verif Require Import Field ModelLC ModelCS ModelCbmt ModelMimc SpecMimc SpecSha256.
Local Open Scope fld_scope.
Section S.
Context {K : Fld}.
(** Two elements absorbed one after the other by the MiMC permutation, from a zero state. *)
Definition mimc2 (cts : list K) (l r : K) : K := mimc_spec cts (mimc_spec cts 0 l) r.
(** The value a path of siblings leads to: at each level the position's parity (odd: left) says
    on which side the running value goes. *)
Fixpoint climb {T : Type} (merge : T -> T -> T) (v : T) (i : Z) (sibs : list T) : T :=
  match sibs with
  | [] => v
  | w :: r => climb merge (if Z.odd i then merge v w else merge w v) (if (i <=? 0)%Z then 0%Z else ((i - 1) / 2)%Z) r
  end.
End S.
(** SHA-256 of two bit strings in a row, and `MergeSha256::merge` (merkle_tree_sha256.rs:14-27) on
    byte strings: the sha2 crate computes SHA-256 of the concatenation. *)
Definition sha_join (l r : list bool) : list bool := sha256_spec (l ++ r).
Definition sha_merge (l r : list Z) : list Z := map Z_be (groups 8 (sha256_spec (bytes_bits (l ++ r)))).
