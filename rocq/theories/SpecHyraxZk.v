(** Which random values hyrax's prover reads: two choices that agree there are the same. *)
From Verif Require Import Field Poly SpecSumcheck ModelLibra SpecLibra ModelHyrax SpecHyrax3 SpecLibraCoins.
From Coq Require Import List.
Import ListNotations.
Local Open Scope nat_scope.
(** In a layer of n instances over a layer of 2^log_ng nodes: one blind per round polynomial, value and masked polynomial, one mask per coefficient. *)
Record zr_same {K : Fld} (log_n log_ng : nat) (z z' : zrand K) : Prop := mkSame {
  same_rounds : forall j, j < log_n + 2 * log_ng -> zr_poly K z j = zr_poly K z' j /\ zr_eval K z j = zr_eval K z' j /\ zr_delta K z j = zr_delta K z' j;
  same_d : forall k, k < 4 * log_n + 6 * log_ng -> zr_d K z k = zr_d K z' k;
  same_xyz : (zr_x K z, zr_y K z, zr_z K z) = (zr_x K z', zr_y K z', zr_z K z');
  same_b : (zr_b1 K z, zr_b2 K z, zr_b3 K z, zr_b4 K z, zr_b5 K z) = (zr_b1 K z', zr_b2 K z', zr_b3 K z', zr_b4 K z', zr_b5 K z');
  same_c : zr_c K z = zr_c K z' }.
(** All random values of the prover: the blinds of the witness commitment, one record per layer, two for the openings. *)
Record hcoins {K : Fld} := mkHC { hc_w : nat -> K; hc_z : nat -> zrand K; hc_0 : erand K; hc_1 : erand K }.
(** Agreement on every value the prover reads, for 2^k instances, [d] layers of gates and an input layer of 2 * 2^s nodes, when all layers are that wide. *)
Definition hc_same {K : Fld} (d k s : nat) (x y : @hcoins K) : Prop :=
  (forall i, i < 2 ^ ((k + s) / 2) -> hc_w x i = hc_w y i) /\ (forall i, i < d -> zr_same k (1 + s) (hc_z x i) (hc_z y i)) /\
  er_same K (k + s - (k + s) / 2) (hc_0 x) (hc_0 y) /\ er_same K (k + s - (k + s) / 2) (hc_1 x) (hc_1 y).
(** Every layer has as many gates as the input layer has nodes. *)
Definition even_layers (S : nat) (raw : list raw_layer) : Prop := Forall (fun l => length l = 2 * S) raw.
(** The outputs of all instances; with only the first layers of gates, the values there. *)
Definition outputs_of {K : Fld} (S : nat) (raw : list raw_layer) (n : nat) (inputs witnesses : list (list K)) : list (list K) :=
  map (fun x => sem (intended_layer S (fst x) (snd x)) raw) (combine (firstn n inputs) (firstn n witnesses)).
(** Each instance has as many inputs as witnesses. *)
Definition paired {K : Fld} (n : nat) (inputs witnesses : list (list K)) : Prop :=
  forall i w, In (i, w) (combine (firstn n inputs) (firstn n witnesses)) -> length i = length w.
(** What is left to sum of a layer's polynomial after the first [i] coordinates of a point. *)
Definition partial_sum {K : Fld} (ln lg : nat) (vs : list (list K)) (qa ql qr : list K) (u0 u1 : K) (gates : list gate) (pt : list K) (i : nat) : K :=
  csum (ln + 2 * lg - i) (layer_poly ln lg vs qa ql qr u0 u1 gates) (firstn i pt).
(** A combination of a layer's values [vs] at public points: the difference of two such partial sums. *)
Definition revealed {K : Fld} (ln lg : nat) (vs : list (list K)) (qa ql qr : list K) (u0 u1 : K) (gates : list gate) (pt : list K) (j : nat) : K :=
  (partial_sum ln lg vs qa ql qr u0 u1 gates pt (ln + length ql + j + 1)%nat - partial_sum ln lg vs qa ql qr u0 u1 gates pt (ln + lg + j + 1)%nat)%fld.
(** The number of nodes after the given layers of gates. *)
Definition width_after (S : nat) (low : list raw_layer) : nat := match low with [] => 2 * S | _ => length (last low []) end.
(** The gates of a layer as the prover gets them: numbered in order. *)
Definition gates_of (l : raw_layer) : list gate := map (fun q => mkGate (fst q) (fst (fst (snd q))) (snd (fst (snd q))) (snd (snd q))) (combine (seq 0 (length l)) l).
