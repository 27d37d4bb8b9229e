(** C109, C110: the crate curve25519. *)
From Coq Require Import ZArith Znumtheory List Bool.
From Verif Require Import Field Zp Lucas Module ModelLC ModelCS ProofsLC ModelCurve25519 SpecCurve25519 ProofsCurve25519.
From Coq Require Import List.
Import ListNotations.
Local Open Scope Z_scope.

Theorem C109_field : MODULUS = ristretto_order /\ prime MODULUS /\
  R_ = 2 ^ 256 mod ristretto_order /\ R2_ = R_ * R_ mod ristretto_order /\ (INV * ristretto_order + 1) mod 2 ^ 64 = 0 /\
  2 ^ (MODULUS_BITS - 1) <= ristretto_order < 2 ^ MODULUS_BITS /\ CAPACITY = MODULUS_BITS - 1 /\ REPR_SHAVE_BITS = 256 - MODULUS_BITS /\
  (ristretto_order - 1) mod 2 ^ TWO_ADICITY = 0 /\ (ristretto_order - 1) mod 2 ^ (TWO_ADICITY + 1) <> 0.
Proof. exact (conj (proj1 modulus_ok) (conj (proj2 modulus_ok) montgomery_ok)). Qed.
Print Assumptions C109_field.

Theorem C109_constants_wrong : MODULUS_MINUS_ONE_DIV_TWO <> (ristretto_order - 1) / 2 /\ T <> (ristretto_order - 1) / 2 ^ TWO_ADICITY /\ Z.even T = true /\
  T_MINUS_ONE_DIV_TWO <> (T - 1) / 2 /\ T_MINUS_ONE_DIV_TWO <> ((ristretto_order - 1) / 2 ^ TWO_ADICITY - 1) / 2 /\ TWO_ADIC_ROOT_OF_UNITY = 0.
Proof. exact constants_wrong. Qed.
Print Assumptions C109_constants_wrong.

Theorem C109_generator_is_square : is_square (from_raw GENERATOR) /\ fpow (from_raw GENERATOR) (Z.to_nat ((ristretto_order - 1) / 2)) = f1.
Proof. exact generator_square. Qed.
Print Assumptions C109_generator_is_square.

Theorem C109_legendre : forall x : F25519, legendre x = if feqb x f0 then SZero else if feqb (fpow x 12) f1 then SResidue else SNonResidue.
Proof. exact legendre_exact. Qed.
Print Assumptions C109_legendre.

Theorem C109_squares_missed : forall y : F25519, y <> f0 -> fpow y 24 <> f1 ->
  is_square (fmul y y) /\ legendre (fmul y y) = SNonResidue /\ forall ts, sqrt ts (fmul y y) = None.
Proof. exact legendre_square_missed. Qed.
Print Assumptions C109_squares_missed.

Theorem C109_small_squares_missed : forall n, 2 <= n <= 1448 ->
  is_square (K := F25519) (of_Z (n * n)) /\ legendre (of_Z (n * n)) = SNonResidue /\ forall ts, sqrt ts (of_Z (n * n)) = None.
Proof. exact small_squares_missed. Qed.
Print Assumptions C109_small_squares_missed.

Theorem C109_nonsquare_accepted : exists x : F25519, legendre x = SResidue /\ ~ is_square x.
Proof. exact (ex_intro _ (of_Z iroot) nonsquare_called_residue). Qed.
Print Assumptions C109_nonsquare_accepted.

Theorem C110_mul_assign : forall (G : Grp F25519) (p : G) s, mul_assign G p s = gsm s p.
Proof. exact mul_assign_ok. Qed.
Print Assumptions C110_mul_assign.

Theorem C110_affine_mul : forall (G : Grp F25519) (p : G) v, affine_mul G p v = if v <? ristretto_order then Ok (gsm (of_Z v) p) else Panic.
Proof. exact affine_mul_ok. Qed.
Print Assumptions C110_affine_mul.

Theorem C110_affine_mul_scalar : forall (G : Grp F25519) (p : G) s, affine_mul G p (toZ s) = Ok (gsm s p).
Proof. exact affine_mul_scalar. Qed.
Print Assumptions C110_affine_mul_scalar.

Theorem C110_projective_mul : forall (G : Grp F25519) (p : G) v, Forall (fun x => 0 <= x < 2 ^ 64) v ->
  projective_mul G p v = if Nat.eqb (length v) 4 && (limbs_value v <? ristretto_order) then Ok (gsm (of_Z (limbs_value v)) p) else Panic.
Proof. exact projective_mul_ok. Qed.
Print Assumptions C110_projective_mul.

Theorem C110_sums : forall (G : Grp F25519) s (p : list G), multiscalar G s p = total_mul s p /\ sum G p = total p.
Proof. exact (fun G s p => conj (multiscalar_ok G s p) (sum_ok G p)). Qed.
Print Assumptions C110_sums.

Theorem C110_cofactor : forall (G : Grp F25519) (p : G), mul_by_cofactor G p = gsm (of_Z 8) p /\ COFACTOR = 0.
Proof. exact cofactor_ok. Qed.
Print Assumptions C110_cofactor.

Theorem C110_write_read : forall (G : Grp F25519) enc dec, encoding (P := G) enc dec ->
  (forall p rest, read G dec (write G enc p ++ rest) = Some (p, rest)) /\
  forall b p rest, read G dec b = Some (p, rest) -> b = write G enc p ++ rest.
Proof. exact (fun G enc dec E => conj (read_write G enc dec E) (read_only G enc dec E)). Qed.
Print Assumptions C110_write_read.

Theorem C110_serialized_size : forall (G : Grp F25519) enc dec, encoding (P := G) enc dec -> forall p,
  length (serialize G enc p) = 40%nat /\ serialized_size G p = 32%nat.
Proof. exact serialize_size. Qed.
Print Assumptions C110_serialized_size.

Theorem C110_deserialize : forall (G : Grp F25519) enc dec, encoding (P := G) enc dec -> forall p rest,
  deserialize G dec (serialize G enc p ++ rest) =
  match dec (prefix32 ++ firstn 24 (enc p)) with Some q => Some (q, skipn 24 (enc p) ++ rest) | None => None end.
Proof. exact deserialize_shifted. Qed.
Print Assumptions C110_deserialize.

Theorem C110_no_roundtrip : forall (G : Grp F25519) enc dec, encoding (P := G) enc dec -> forall p rest,
  deserialize G dec (serialize G enc p ++ rest) <> Some (p, rest) /\
  forall q rest', deserialize G dec (serialize G enc p ++ rest) = Some (q, rest') ->
    length rest' = (8 + length rest)%nat /\ (q = p -> enc p = prefix32 ++ prefix32 ++ prefix32 ++ prefix32).
Proof. exact (fun G enc dec E p rest => conj (deserialize_never G enc dec E p rest) (deserialize_same G enc dec E p rest)). Qed.
Print Assumptions C110_no_roundtrip.

(** ** Examples *)
(** The squares of 2 and 3 are called non-residues, one is called a residue. *)
Example ex_C109_four : is_square (K := F25519) (of_Z (2 * 2)) /\ legendre (of_Z (2 * 2)) = SNonResidue.
Proof. destruct (C109_small_squares_missed 2) as (A & B & _); [split; discriminate|]. exact (conj A B). Qed.
Example ex_C109_one : legendre f1 = SResidue.
Proof. apply legendre_residue. apply fpow_1. Qed.
(** Hypotheses of C109_squares_missed, for y = 5. *)
Example ex_C109_five : feqb (f := F25519) (of_Z 5) f0 = false /\ feqb (f := F25519) (fpow (of_Z 5) 24) f1 = false.
Proof. vm_compute. split; reflexivity. Qed.
(** A group with an encoding: the field itself, points written as their 32 bytes. *)
Definition GE : Grp F25519 := self_grp F25519.
Definition enc_E (p : GE) : list Z := le_bytes 32 (toZ (p : F25519)).
Definition dec_E (b : list Z) : option GE :=
  let p : F25519 := of_Z (of_le_bytes b) in if list_eq_dec Z.eq_dec (le_bytes 32 (toZ p)) b then Some p else None.
Example ex_C110_encoding : encoding enc_E dec_E.
Proof.
  split.
  - intro p. apply le_bytes_length.
  - intros b p. unfold dec_E. destruct (list_eq_dec Z.eq_dec _ b) as [E|N]; split; intro H.
    + apply (f_equal (fun o => match o with Some x => x | None => p end)) in H. cbv beta iota in H. rewrite <- H. exact E.
    + f_equal. rewrite <- H. exact (scalar_mod_toZ p).
    + discriminate H.
    + exfalso. apply N. rewrite <- H. unfold enc_E at 2. f_equal. f_equal. exact (scalar_mod_toZ p).
Qed.
Example ex_C110_mul : affine_mul GE (of_Z 5 : F25519) 7 = Ok (gsm (g := GE) (of_Z 7) (of_Z 5 : F25519)) /\ affine_mul GE (of_Z 5 : F25519) (2 ^ 255) = Panic.
Proof. rewrite !C110_affine_mul. split; reflexivity. Qed.
(** The point 5 is written, read and serialized; what is deserialized is another point. *)
Example ex_C110_bytes : (match read GE dec_E (write GE enc_E (of_Z 5 : F25519)) with Some (q, []) => feqb (f := F25519) q (of_Z 5) | _ => false end = true) /\
  (match deserialize GE dec_E (serialize GE enc_E (of_Z 5 : F25519)) with Some (q, r) => feqb (f := F25519) q (of_Z (32 + 5 * 2 ^ 64)) && Nat.eqb (length r) 8 | None => false end = true).
Proof. vm_compute. split; reflexivity. Qed.
Example ex_C110_limbs : Forall (fun x => 0 <= x < 2 ^ 64) [1; 2; 3; 4] /\ (limbs_value [1; 2; 3; 4] <? ristretto_order) = true /\ (limbs_value [1; 2; 3; 2 ^ 61] <? ristretto_order) = false.
Proof. split; [repeat constructor; vm_compute; congruence|]. vm_compute. split; reflexivity. Qed.
