(** Vocabulary for zero-knowledge statements. *)
From Verif Require Import Field Module.
(** Every element is exactly one multiple of [h]: in a group of prime order, [h] is not the neutral element. *)
Definition spans {K : Fld} {G : Grp K} (h : G) : Prop := forall P : G, exists! k : K, P = gsm k h.
From Verif Require Import ModelTranscript ModelSigma ModelSpartan.
From Coq Require Import List.
(** The committed sum-check of n rounds has n entries in each list, and answers of the right length. *)
Definition sc_shape {K : Fld} {G : Grp K} (size n : nat) (sc : scproof K G) : Prop :=
  length (scp_polys K G sc) = n /\ length (scp_evals K G sc) = n /\ length (scp_proofs K G sc) = n /\ Forall (fun pf => length (se_z K G pf) = size) (scp_proofs K G sc).
(** The random values of n rounds. *)
Definition rr_shape {K : Fld} (size n : nat) (rnds : list (rrand K)) : Prop := length rnds = n /\ Forall (fun rr => length (rr_d K rr) = size) rnds.
