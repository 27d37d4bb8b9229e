(** Vocabulary for the zero-knowledge statements about spartan. *)
From Verif Require Import Field Poly Module SpecMle ModelTranscript ModelMle ModelSigma ModelSpartan SpecSigmaZk.
From Coq Require Import List.
Local Open Scope fld_scope.
Section S.
Variable K : Fld.
Variable G : Grp K.
(** The private assignment padded with zeros to half the length of z. *)
Definition private (i : r1cs K) (aux : list K) : list K := aux ++ repeat 0 (half_len K i - length aux)%nat.
(** The random values of the prover, as many as it reads; [sr_w] is a function of which it reads a prefix. *)
Definition sr_ok (i : r1cs K) (sr : srand K) : Prop :=
  let k := log2c (half_len K i) in
  rr_shape 4 (rounds_x K i) (sr_one K sr) /\ rr_shape 3 (rounds_y K i) (sr_two K sr) /\ length (sr_bv K sr) = (k - k / 2)%nat.
(** Agreement on every value the prover reads. *)
Definition sr_same (i : r1cs K) (x y : srand K) : Prop :=
  let k := log2c (half_len K i) in
  (forall j, (j < 2 ^ (k / 2))%nat -> sr_w K x j = sr_w K y j) /\ sr_one K x = sr_one K y /\
  (sr_a K x, sr_b K x, sr_c K x, sr_prod K x, sr_k1 K x, sr_k2 K x) = (sr_a K y, sr_b K y, sr_c K y, sr_prod K y, sr_k1 K y, sr_k2 K y) /\
  (sr_p1 K x, sr_p2 K x, sr_p3 K x, sr_p4 K x, sr_p5 K x, sr_eq1 K x) = (sr_p1 K y, sr_p2 K y, sr_p3 K y, sr_p4 K y, sr_p5 K y, sr_eq1 K y) /\
  sr_two K x = sr_two K y /\ (sr_ry K x, sr_d K x, sr_delta K x, sr_beta K x, sr_bv K x, sr_eq2 K x) = (sr_ry K y, sr_d K y, sr_delta K y, sr_beta K y, sr_bv K y, sr_eq2 K y).
(** The proof has the lengths of an honest one. *)
Definition sat_shape (i : r1cs K) (pf : satproof K G) : Prop :=
  let k := log2c (half_len K i) in
  length (sa_witness K G pf) = (2 ^ (k / 2))%nat /\ sc_shape 4 (rounds_x K i) (sa_one K G pf) /\ sc_shape 3 (rounds_y K i) (sa_two K G pf) /\
  length (pp_z K G (sa_pprod K G pf)) = 5%nat /\ length (dp_l K G (sa_prod K G pf)) = (k - k / 2)%nat.
(** The proof with another value in the field w_ry. *)
Definition with_wry (v : K) (pf : satproof K G) : satproof K G :=
  mkSat K G (sa_witness K G pf) (sa_one K G pf) (sa_two K G pf) v (sa_prod K G pf) (sa_va K G pf) (sa_vb K G pf) (sa_vc K G pf) (sa_vprod K G pf)
    (sa_know K G pf) (sa_pprod K G pf) (sa_eq1 K G pf) (sa_eq2 K G pf) (sa_ry K G pf).
End S.
Arguments private {K}. Arguments sr_ok {K}. Arguments sr_same {K}. Arguments sat_shape {K G}. Arguments with_wry {K G}.
