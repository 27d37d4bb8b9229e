(** Model of the Fiat-Shamir transcript (merlin::Transcript) shared by the protocols. No proofs. *)
From Coq Require Export String List.
From Verif Require Import Field Module.
Local Open Scope fld_scope.

(** A transcript is the list of labelled messages absorbed so far, newest first; `to_bytes!` of a value
    is represented by the value itself. A challenge is an arbitrary function of the label and of the
    transcript, after which the transcript records that a challenge was drawn (merlin ratchets its state). *)
Inductive msg (K : Fld) (G : Type) : Type :=
  | MU (l : string) (n : nat)
  | MG (l : string) (g : G)
  | MGs (l : string) (gs : list G)
  | MF (l : string) (x : K)
  | MFs (l : string) (xs : list K)
  | MFss (l : string) (xs : list (list K))
  | MCh (l : string).
Arguments MU {K G}. Arguments MG {K G}. Arguments MGs {K G}. Arguments MF {K G}. Arguments MFs {K G}.
Arguments MFss {K G}. Arguments MCh {K G}.
Definition transcript (K : Fld) (G : Type) : Type := list (msg K G).
(** The oracle behind `challenge_bytes` followed by `random_bytes_to_fr` (bulletproofs/src/lib.rs:310-317): 31 bytes always
    decode, so it is total. *)
Definition oracle (K : Fld) (G : Type) : Type := string -> transcript K G -> K.
