(** C128: exactly when Marlin's indexer succeeds. *)
From Verif Require Import Zp SpecLC SpecCS SpecMarlin ModelBoolean ProofsMarlinIndex ExMarlin.
From Verif Require Import ModelPC ModelMarlin ModelCS.
Local Open Scope fld_scope.

(** Once the matrices are arranged, only two refusals remain: a reference string too short, or an index polynomial without a non-constant term. *)
Theorem C128_index_iff : forall (K : Fld) (PR : Pairing K) tau g gam h dnew checks n circ ix md, ahp_index K dnew checks circ = Ok ix -> max_degree K dnew (ix_info K ix) = Ok md ->
  let r := marlin_index K PR dnew checks (kzg_setup K PR n tau g gam h) circ in
  ((n < md)%nat -> r = Err IndexTooLarge) /\
  ((md <= n)%nat -> ((exists keys, r = Ok keys) <-> Forall (fun p => (2 <= length (lp_poly K p))%nat) (index_polys K ix)) /\
    (Exists (fun p => (length (lp_poly K p) < 2)%nat) (index_polys K ix) -> r = Err DegreeIsZero)).
Proof. exact index_iff. Qed.
Print Assumptions C128_index_iff.
(** The hypotheses hold, with polynomials all non-constant for one circuit and not for the other. *)
Definition indexed97 (c : M F97 unit) : option (nat * bool) :=
  match ahp_index F97 dnew97 false c with
  | Ok ix => match max_degree F97 dnew97 (ix_info F97 ix) with Ok md => Some (md, forallb (fun p => Nat.leb 2 (length (lp_poly F97 p))) (index_polys F97 ix)) | _ => None end
  | _ => None
  end.
Definition bits128 : M F97 unit := mapM bit_alloc [Some true; Some false] ;;; ret tt.
Example ex_C128 : match indexed97 (circ97 3 8 24), indexed97 bits128 with
  | Some (m, b), Some (m', b') => andb (andb (andb (Nat.leb 2 m) (Nat.leb m 32)) (Nat.leb m' 32)) (andb b (negb b'))
  | _, _ => false end = true.
Proof. vm_compute. reflexivity. Qed.
Example ex_C128_short : match marlin_index F97 P97 dnew97 false (kzg_setup F97 P97 4 (z97 13) (z97 2) (z97 3) (z97 4)) (circ97 3 8 24) with Err IndexTooLarge => true | _ => false end = true.
Proof. vm_compute. reflexivity. Qed.
