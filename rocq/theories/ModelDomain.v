(** Model of the evaluation domains behind `EvaluationDomain::new` (groth16/src/generator.rs:166, groth16/src/r1cs_to_qap.rs:63, 123-124, marlin/src/ahp/indexer.rs:82-89,
    asvc/src/lib.rs:85-86, 191-192): ark_poly 0.2's radix-2 domains over a field with a root of unity of order 2^s. The crate is not in the
    repository; what follows is its `Radix2EvaluationDomain::new` and ark_ff's `get_root_of_unity`. No proofs. *)
From Coq Require Import ZArith List Bool.
From Verif Require Import Field Zp Poly Bls Lucas ModelLC ModelCurve25519.
Local Open Scope fld_scope.
Section D.
Variable K : Fld.
(** `TWO_ADICITY`, `two_adic_root_of_unity()`, `multiplicative_generator()` (curve25519/src/fr.rs:17-25, 65-71 for one field of the repository). *)
Variables (s : nat) (w g : K).
(** The loop `for _ in log_size..TWO_ADICITY { omega.square_in_place(); }`. *)
Fixpoint squares (n : nat) (x : K) : K := match n with O => x | S n' => squares n' (x * x) end.
(** The size is the next power of two; none above 2^TWO_ADICITY. *)
Definition radix2_new (n : nat) : option (dom K) :=
  let e := Nat.log2_up n in if Nat.leb e s then Some (mkDom (2 ^ e)%nat (squares (s - e) w) g) else None.
End D.
(** The field of BLS12-381's scalars: `TWO_ADICITY` 32, `TWO_ADIC_ROOT_OF_UNITY` 7^((r-1)/2^32), `GENERATOR` 7 (ark_bls12_381; used in cli/src/setup.rs:122-124). *)
Definition bls_root : Fbls := of_Z 10238227357739495823651030575849232062558860180284477541189508159991286009131.
Definition bls_generator : Fbls := of_Z 7.
Definition bls_domain : nat -> option (dom Fbls) := radix2_new Fbls 32 bls_root bls_generator.
(** The field of the crate curve25519, with the parameters of curve25519/src/fr.rs:17-25, 65-71. *)
Definition ed_domain : nat -> option (dom F25519) := radix2_new F25519 (Z.to_nat TWO_ADICITY) (from_raw TWO_ADIC_ROOT_OF_UNITY) (from_raw GENERATOR).
(** `serialize` and `deserialize` of that field's elements (used in cli/src/zkp_prove.rs:110, cli/src/zkp_verify.rs:33): 32 bytes, lowest first;
    numbers from r on are refused, further bytes are left alone (ark_ff 0.2). *)
Definition bls_enc (x : Fbls) : list Z := ModelLC.le_bytes 32 (toZ x).
Definition bls_dec (b : list Z) : option Fbls :=
  if Nat.ltb (length b) 32 then None else let v := ModelLC.of_le_bytes (firstn 32 b) in if Z.ltb v bls_r then Some (of_Z v) else None.
