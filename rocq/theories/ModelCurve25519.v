(** Model of the crate curve25519: the parameters of its scalar field (curve25519/src/fr.rs) and the wrapper around dalek's Ristretto
    points (curve25519/src/group.rs). No proofs. Numbers given as 64-bit limbs are the integers they stand for. Points are any group over
    the scalar field; dalek's compression, decompression, addition and scalar multiplication are taken as given. *)
From Coq Require Import ZArith List Bool.
From Verif Require Import Field Zp Lucas Module ModelLC ModelCS.
From Coq Require Import List.
Import ListNotations.
Local Open Scope Z_scope.

(** `BigInteger256([..])`: lowest limb first. *)
Fixpoint limbs (l : list Z) : Z := match l with [] => 0 | x :: r => x + 2 ^ 64 * limbs r end.
(** fr.rs:17 *)
Definition TWO_ADICITY : Z := 2.
(** fr.rs:20-25 *)
Definition TWO_ADIC_ROOT_OF_UNITY : Z := limbs [0; 0; 0; 0].
(** fr.rs:33-38 *)
Definition MODULUS : Z := limbs [6346243789798364141; 1503914060200516822; 0; 1152921504606846976].
(** fr.rs:40-44 *)
Definition MODULUS_BITS : Z := 253.
Definition CAPACITY : Z := MODULUS_BITS - 1.
Definition REPR_SHAVE_BITS : Z := 3.
(** fr.rs:46-63 *)
Definition R_ : Z := limbs [15486807595281847581; 14334777244411350896; 18446744073709551614; 1152921504606846975].
Definition R2_ : Z := limbs [11819153939886771969; 14991950615390032711; 14910419812499177061; 259310039853996605].
Definition INV : Z := 15183074304973897243.
(** fr.rs:65-71 *)
Definition GENERATOR : Z := limbs [14824341744311508637; 6301218275840713796; 18446744073709551604; 1152921504606846975].
(** fr.rs:73-98 *)
Definition MODULUS_MINUS_ONE_DIV_TWO : Z := limbs [13876462170967809896; 12031312481604134578; 0; 0].
Definition T : Z := limbs [6938231085483904948; 6015656240802067289; 0; 0].
Definition T_MINUS_ONE_DIV_TWO : Z := limbs [2367949182742163228; 18046968722406201868; 0; 0].

(** fr.rs:6 `Fr`. *)
Definition F25519 : PFld := ZpP l25519 l25519_prime.
(** ark_ff `from_repr`: integers below the modulus. *)
Definition from_repr (v : Z) : option F25519 := if v <? MODULUS then Some (of_Z v) else None.
(** ark_ff: an element given by its Montgomery representation (the constants GENERATOR and TWO_ADIC_ROOT_OF_UNITY are). *)
Local Open Scope fld_scope.
Definition from_raw (v : Z) : F25519 := of_Z v * finv (of_Z R_).
(** ark_ff `SquareRootField::legendre`: the power with exponent MODULUS_MINUS_ONE_DIV_TWO. *)
Inductive symbol := SZero | SResidue | SNonResidue.
Definition legendre (x : F25519) : symbol :=
  let s := x ^ Z.to_nat MODULUS_MINUS_ONE_DIV_TWO in if feqb s 0 then SZero else if feqb s 1 then SResidue else SNonResidue.
(** ark_ff `SquareRootField::sqrt`: the symbol first; [ts] is the loop run for residues. *)
Definition sqrt (ts : F25519 -> option F25519) (x : F25519) : option F25519 :=
  match legendre x with SZero => Some 0 | SNonResidue => None | SResidue => ts x end.
Local Open Scope Z_scope.

Section Points.
Variable G : Grp F25519.
(** dalek `from_bytes_mod_order` and `from_canonical_bytes`, the scalar as an element of the field. *)
Definition scalar_mod (b : list Z) : F25519 := of_Z (of_le_bytes b).
Definition scalar_canonical (b : list Z) : option F25519 := if of_le_bytes b <? l25519 then Some (of_Z (of_le_bytes b)) else None.
(** group.rs:217-225 `mul_assign`: the 32 bytes of the scalar's representation; Fr writes its four limbs. *)
Definition mul_assign (p : G) (s : F25519) : G := gsm (scalar_mod (le_bytes 32 (toZ s))) p.
(** group.rs:71-79 `AffineCurve::mul` with the representation of the factor. *)
Definition affine_mul (p : G) (v : Z) : res G := match from_repr v with Some s => Ok (mul_assign p s) | None => Panic end.
(** group.rs:145-155 `ProjectiveCurve::mul` with limbs. *)
Definition projective_mul (p : G) (v : list Z) : res G :=
  if Nat.eqb (length v) 4 then match scalar_canonical (flat_map (le_bytes 8) v) with Some s => Ok (gsm s p) | None => Panic end else Panic.
(** group.rs:81-85; :58 and :102 declare the cofactor. *)
Definition mul_by_cofactor (p : G) : G := mul_assign p (of_Z 8).
Definition COFACTOR : Z := limbs [0; 0; 0; 0].
(** group.rs:87-94, 104-120, 122-130: functions that panic. *)
Definition mul_by_cofactor_inv (p : G) : res G := Panic.
Definition mul_by_cofactor_to_projective (p : G) : res G := Panic.
Definition projective_generator : res G := Panic.
Definition batch_normalization (v : list G) : res (list G) := Panic.
Definition batch_normalization_into_affine (v : list G) : res (list G) := batch_normalization v.
Definition is_normalized (p : G) : res bool := Panic.
Definition double_in_place (p : G) : res G := Panic.
Definition double (p : G) : res G := double_in_place p.
(** group.rs:29-47 `vartime_multiscalar_mul`; dalek adds the products. *)
Definition multiscalar (s : list F25519) (p : list G) : G :=
  let n := Nat.min (length s) (length p) in
  fold_right gadd g0 (map (fun '(k, x) => gsm k x) (combine (map (fun k => scalar_mod (le_bytes 32 (toZ k))) (firstn n s)) (firstn n p))).
(** group.rs:260-270 `sum`. *)
Definition sum (l : list G) : G := fold_left (fun acc x => gadd acc x) l g0.
(** Dalek's encoding of a point. *)
Variable compress : G -> list Z.
Variable decompress : list Z -> option G.
(** group.rs:158-163 `write`: ark_ff's `ToBytes` of an array of bytes writes the bytes. *)
Definition write (p : G) : list Z := compress p.
(** group.rs:165-173 `read`: 32 bytes are taken, the rest stays in the reader. *)
Definition read (b : list Z) : option (G * list Z) :=
  if Nat.ltb (length b) 32 then None else match decompress (firstn 32 b) with Some p => Some (p, skipn 32 b) | None => None end.
(** ark_serialize 0.2, `CanonicalSerialize` of a slice of bytes: its length as a u64, then the bytes. There is no instance for arrays of
    bytes, so that `as_bytes().serialize(..)` is the one of slices. *)
Definition serialize_slice (b : list Z) : list Z := le_bytes 8 (Z.of_nat (length b)) ++ b.
(** group.rs:293-313 `serialize`, `serialize_uncompressed` and the two sizes. *)
Definition serialize (p : G) : list Z := serialize_slice (compress p).
Definition serialized_size (p : G) : nat := 32.
(** group.rs:315-338 `deserialize`, `deserialize_uncompressed`, `deserialize_unchecked`: as `read`. *)
Definition deserialize (b : list Z) : option (G * list Z) := read b.
End Points.
