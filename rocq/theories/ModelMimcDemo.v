(** Model of the Marlin example marlin/examples/mimc.rs. No proofs. The random draws of lines 29, 37-38 (`thread_rng`,
    `F::rand`) are an argument: one pair (xl_0, xr_0) for each of the `n` samples. *)
From Verif Require Import Field ModelLC ModelCS ModelMimc.
Section D.
Variable K : PFld.
(** marlin/examples/mimc.rs:10 `MIMC_ROUNDS`. *)
Definition MIMC_ROUNDS : nat := 5.
(** marlin/examples/mimc.rs:35-113: one sample. Both halves of the drawn preimage are private variables (41-52); lines 54-113
    are, line for line, the rounds of gadgets/src/hashes/mimc.rs:119-157 ([mimc_rounds]), the last new value too being
    allocated by `cs.alloc` (86-92). The names passed to `alloc` and `ns` have no effect. *)
Definition mimc_sample (cts : list K) (d : K * K) : M K unit :=
  vl <- alloc (ok_or (Some (fst d)) AssignmentMissing) ;;
  vr <- alloc (ok_or (Some (snd d)) AssignmentMissing) ;;
  mimc_rounds cts (Some (fst d)) (Some (snd d)) vl vr ;;;
  ret tt.
(** marlin/examples/mimc.rs:35-115: the loop over the samples. *)
Fixpoint mimc_samples (cts : list K) (ds : list (K * K)) : M K unit :=
  match ds with
  | [] => ret tt
  | d :: r => mimc_sample cts d ;;; mimc_samples cts r
  end.
(** marlin/examples/mimc.rs:25-117 `generate_constraints`; line 31 is an assertion. *)
Definition mimc_demo (cts : list K) (ds : list (K * K)) : M K unit :=
  if Nat.eqb (length cts) MIMC_ROUNDS then mimc_samples cts ds else panic.
(** marlin/examples/mimc.rs:119-153: `main` runs the circuit twice, for the keys (136) and for the proof (146); each run draws
    anew. *)
Definition mimc_main_circuit (cts : list K) (dsetup dprove : list (K * K)) : M K unit := fun s =>
  mimc_demo cts (match md s with Setup => dsetup | Prove => dprove end) s.
End D.
Arguments mimc_sample {K}. Arguments mimc_samples {K}. Arguments mimc_demo {K}. Arguments mimc_main_circuit {K}.
