(** C126: Marlin's indexer refuses circuits without right-hand sides. *)
From Verif Require Import Zp SpecLC SpecCS SpecMarlin ModelBoolean ProofsMarlinEmpty ExMarlin.
From Verif Require Import ModelMarlin ModelCS.
Local Open Scope fld_scope.

(** Finding: the polynomial of the third matrix's values is then zero, and commitments to constants are refused. *)
Theorem C126_index_refuses : forall (K : Fld) (PR : Pairing K) dnew checks srs circ u (s : cs K), circ (cs_new Setup) = Ok (u, s) -> Forall (fun c => cc c = []) (cons s) ->
  forall keys, marlin_index K PR dnew checks srs circ <> Ok keys.
Proof. exact index_refuses. Qed.
Print Assumptions C126_index_refuses.
(** In particular no circuit that only allocates bits can be used. *)
Theorem C126_bits_refused : forall (K : Fld) (PR : Pairing K) dnew checks srs (bs : list (option bool)) keys,
  marlin_index K PR dnew checks srs (mapM bit_alloc bs ;;; ret tt) <> Ok keys.
Proof. exact bits_refused. Qed.
Print Assumptions C126_bits_refused.
(** Two bits: synthesis succeeds and the honest assignment satisfies the constraints; the indexer answers DegreeIsZero. *)
Definition bits97 : M F97 unit := mapM bit_alloc [Some true; Some false] ;;; ret tt.
Example ex_C126 : (exists s, bits97 (cs_new Setup) = Ok (tt, s) /\ Forall (fun c => cc c = []) (cons s) /\ length (cons s) = 2%nat) /\
  match bits97 (cs_new Prove) with Ok (_, s) => satb s | _ => false end = true /\
  match marlin_index F97 P97 dnew97 false srs97 bits97 with Err DegreeIsZero => True | _ => False end.
Proof.
  split; [eexists; split; [reflexivity|]; split; [repeat constructor|reflexivity]|]. split; vm_compute; [reflexivity|exact I].
Qed.
