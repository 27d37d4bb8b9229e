(** Zero knowledge of libra: shapes of honest proofs, and when two sets of random values agree where the prover reads them. *)
From Verif Require Import Field Module ModelTranscript ModelSigma ModelSpartan ModelHyrax ModelLibraZk SpecSigmaZk.
From Coq Require Import List.
Local Open Scope nat_scope.
Section S.
Variable K : Fld.
Variable G : Grp K.
Definition zl_shape (bits : nat) (pf : zlayer K G) : Prop :=
  sc_shape 3 bits (zl_one K G pf) /\ sc_shape 3 bits (zl_two K G pf) /\ length (pp_z K G (zl_prod K G pf)) = 5.
(** Every round draws a vector of three values. *)
Definition lr_ok (lr : lrand K) : Prop := (forall i, length (rr_d K (lr_one K lr i)) = 3) /\ (forall i, length (rr_d K (lr_two K lr i)) = 3).
Definition lr_same (bits : nat) (a b : lrand K) : Prop :=
  (forall i, i < bits -> lr_one K a i = lr_one K b i) /\ (forall i, i < bits -> lr_two K a i = lr_two K b i) /\
  (lr_x K a, lr_y K a, lr_z K a, lr_p1 K a, lr_p2 K a, lr_p3 K a, lr_p4 K a, lr_p5 K a, lr_eq K a) = (lr_x K b, lr_y K b, lr_z K b, lr_p1 K b, lr_p2 K b, lr_p3 K b, lr_p4 K b, lr_p5 K b, lr_eq K b).
(** [n] rounds of folding. *)
Definition er_same (n : nat) (a b : erand K) : Prop :=
  (forall i, i < n -> er_bv K a i = er_bv K b i) /\ (er_blind K a, er_d K a, er_beta K a, er_delta K a, er_eq K a) = (er_blind K b, er_d K b, er_beta K b, er_delta K b, er_eq K b).
End S.
Section L.
Variable K : Fld.
Variable G : Grp K.
(** The proofs of [d] layers, from the top down. *)
Fixpoint zls_shape (c : ModelLibra.circuit) (d : nat) (pfs : list (zlayer K G)) : Prop :=
  match d, pfs with
  | 0, nil => True
  | S d', (pf :: pfs)%list => (exists lo, nth_error (ModelLibra.c_layers c) d' = Some lo /\ zl_shape K G (ModelLibra.l_bits lo) pf) /\ zls_shape c d' pfs
  | _, _ => False
  end.
End L.
Section W.
Variable K : Fld.
Variable G : Grp K.
(** An honest proof for 2^s witnesses and [d] layers of gates. *)
Definition zg_shape (c : ModelLibra.circuit) (d s : nat) (pf : zgkr K G) : Prop :=
  length (zg_witness K G pf) = 2 ^ (s / 2) /\ zls_shape K G c d (zg_proofs K G pf) /\ length (dp_l K G (zg_prod0 K G pf)) = s - s / 2 /\ length (dp_l K G (zg_prod1 K G pf)) = s - s / 2.
(** All random values of the prover: the blinds of the witness commitment, one record per layer, two for the openings. *)
Record zcoins := mkZC { zc_w : nat -> K; zc_l : nat -> lrand K; zc_0 : erand K; zc_1 : erand K }.
Definition zc_ok (x : zcoins) : Prop := forall i, lr_ok K (zc_l x i).
(** Agreement on every value the prover reads. *)
Definition zc_same (c : ModelLibra.circuit) (d s : nat) (x y : zcoins) : Prop :=
  (forall i, i < 2 ^ (s / 2) -> zc_w x i = zc_w y i) /\
  (forall i lo, i < d -> nth_error (ModelLibra.c_layers c) i = Some lo -> lr_same K (ModelLibra.l_bits lo) (zc_l x i) (zc_l y i)) /\
  er_same K (s - s / 2) (zc_0 x) (zc_0 y) /\ er_same K (s - s / 2) (zc_1 x) (zc_1 y).
End W.
Arguments zc_w {K}. Arguments zc_l {K}. Arguments zc_0 {K}. Arguments zc_1 {K}.
