(** Model of gadgets/src/operator/multieq.rs and gadgets/src/algebra/uint32.rs. No proofs. *)
From Verif Require Import Field ModelLC ModelCS ModelBoolean.
Local Open Scope fld_scope.

(** uint32.rs:11-16 `struct UInt32 { bits, value }`, least significant bit first. *)
Record u32 := mkU { ubits : list boolean; uval : option Z }.

(** The 32 bits of a u32 value, least significant first (`tmp & 1 == 1`, `tmp >>= 1`). *)
Definition bits32 (v : Z) : list bool := map (fun i => Z.testbit v (Z.of_nat i)) (seq 0 32).
(** uint32.rs:20-32 `UInt32::constant`. *)
Definition u32_constant (v : Z) : u32 := mkU (map BConst (bits32 v)) (Some v).
(** uint32.rs:66-69 `into_bits_be`. *)
Definition u32_into_bits_be (u : u32) : list boolean := rev (ubits u).
(** The value loop shared by uint32.rs:74-87 and 107-131: shift left, or in the next bit; `None` as
    soon as one bit is unknown. Bits come most significant first. *)
Fixpoint bits_value (acc : option Z) (bs : list boolean) : option Z :=
  match bs with
  | [] => acc
  | b :: r =>
      bits_value
        (match acc, b_value b with
         | Some v, Some t => Some (Z.lor ((2 * v) mod 2 ^ 32) (Z.b2z t))%Z
         | _, _ => None
         end) r
  end.
(** uint32.rs:71-93 `from_bits_be`; the assertion is [Panic]. *)
Definition u32_from_bits_be (bs : list boolean) : res u32 :=
  if Nat.eqb (length bs) 32 then Ok (mkU (rev bs) (bits_value (Some 0%Z) bs)) else Panic.
(** uint32.rs:96-98 `into_bits`. *)
Definition u32_into_bits (u : u32) : list boolean := ubits u.
(** uint32.rs:102-137 `from_bits`. *)
Definition u32_from_bits (bs : list boolean) : res u32 :=
  if Nat.eqb (length bs) 32 then Ok (mkU bs (bits_value (Some 0%Z) (rev bs))) else Panic.
(** `u32::rotate_right`, `>>` of the machine (core library). *)
Definition u32_rotate_right (v : Z) (k : nat) : Z :=
  Z.lor (Z.shiftr v (Z.of_nat k)) ((Z.shiftl v (32 - Z.of_nat k)) mod 2 ^ 32)%Z.
(** uint32.rs:139-155 `rotr`. *)
Definition u32_rotr (u : u32) (by_ : nat) : u32 :=
  let k := Nat.modulo by_ 32 in
  mkU (firstn 32 (skipn k (ubits u) ++ ubits u)) (option_map (fun v => u32_rotate_right v k) (uval u)).
(** uint32.rs:157-175 `shr`; the infinite chain of constant false is cut at 32. *)
Definition u32_shr (u : u32) (by_ : nat) : u32 :=
  let k := Nat.modulo by_ 32 in
  mkU (firstn 32 (skipn k (ubits u) ++ repeat (BConst false) 32)) (option_map (fun v => Z.shiftr v (Z.of_nat k)) (uval u)).

Definition zlift2 (f : Z -> Z -> Z) (a b : option Z) : option Z :=
  match a, b with Some x, Some y => Some (f x y) | _, _ => None end.
Definition zlift3 (f : Z -> Z -> Z -> Z) (a b c : option Z) : option Z :=
  match a, b, c with Some x, Some y, Some z => Some (f x y z) | _, _, _ => None end.
(** `!v` on u32. *)
Definition u32_not (v : Z) : Z := (2 ^ 32 - 1 - v)%Z.

Section U.
Variable K : Fld.
(** uint32.rs:35-64 `alloc`. *)
Definition u32_alloc (value : option Z) : M K u32 :=
  bits <- mapM bit_alloc (match value with Some v => map Some (bits32 v) | None => repeat None 32 end) ;;
  ret (mkU (map BIs bits) value).
(** uint32.rs:246-268 `xor`. *)
Definition u32_xor (a b : u32) : M K u32 :=
  bits <- mapM (fun '(x, y) => b_xor x y) (combine (ubits a) (ubits b)) ;;
  ret (mkU bits (zlift2 Z.lxor (uval a) (uval b))).
(** uint32.rs:177-209 `triop`. *)
Definition u32_triop (f : Z -> Z -> Z -> Z) (g : boolean -> boolean -> boolean -> M K boolean) (a b c : u32) : M K u32 :=
  bits <- mapM (fun '(x, y, z) => g x y z) (combine (combine (ubits a) (ubits b)) (ubits c)) ;;
  ret (mkU bits (zlift3 f (uval a) (uval b) (uval c))).
(** uint32.rs:213-227 `sha256_maj`. *)
Definition u32_maj : u32 -> u32 -> u32 -> M K u32 :=
  u32_triop (fun a b c => Z.lxor (Z.lxor (Z.land a b) (Z.land a c)) (Z.land b c)) b_maj.
(** uint32.rs:230-244 `sha256_ch`. *)
Definition u32_ch : u32 -> u32 -> u32 -> M K u32 :=
  u32_triop (fun a b c => Z.lxor (Z.land a b) (Z.land (u32_not a) c)) b_ch.
End U.
Arguments u32_alloc {K}. Arguments u32_xor {K}. Arguments u32_triop {K}. Arguments u32_maj {K}. Arguments u32_ch {K}.

Section Q.
Variable K : PFld.
(** multieq.rs:6-12 `struct MultiEq` without the inner system and the annotation counter `ops`. *)
Record meq := mkQ { qbits : nat; qlhs : lc K; qrhs : lc K }.
(** multieq.rs:15-23 `new`. *)
Definition meq_new : meq := mkQ 0 lc_zero lc_zero.

(** Synthesis over a `MultiEq<F, CS>`: the inner system and the packer. *)
Definition MM (A : Type) : Type := cs K * meq -> res (A * (cs K * meq)).
Definition mret {A} (a : A) : MM A := fun w => Ok (a, w).
Definition mbind {A B} (m : MM A) (k : A -> MM B) : MM B :=
  fun w => match m w with Ok (a, w') => k a w' | Err e => Err e | Panic => Panic end.
Definition mpanic {A} : MM A := fun _ => Panic.
(** multieq.rs:68-125: allocation and enforcement are forwarded to the inner system. *)
Definition lift {A} (m : M K A) : MM A := fun '(s, q) =>
  match m s with Ok (a, s') => Ok (a, (s', q)) | Err e => Err e | Panic => Panic end.

(** multieq.rs:25-39 `accumulate`. *)
Definition meq_accumulate : MM unit := fun '(s, q) =>
  match enforce (qlhs q) (lc_add_var lc_zero ONE) (qrhs q) s with
  | Ok (_, s') => Ok (tt, (s', meq_new))
  | Err e => Err e
  | Panic => Panic
  end.
(** multieq.rs:41-58 `enforce_equal`; the assertion is [Panic]. *)
Definition meq_enforce_equal (n : nat) (l r : lc K) : MM unit :=
  mbind (fun w => if (capacity K <=? Z.of_nat (qbits (snd w) + n))%Z then meq_accumulate w else Ok (tt, w)) (fun _ '(s, q) =>
  if (Z.of_nat (qbits q + n) <? capacity K)%Z then
    let coeff : K := fpow (of_Z 2) (qbits q) in
    Ok (tt, (s, mkQ (qbits q + n) (lc_add_scaled (qlhs q) coeff l) (lc_add_scaled (qrhs q) coeff r)))
  else Panic).
(** multieq.rs:60-66 `Drop`. *)
Definition meq_drop : MM unit := fun w => if Nat.ltb 0 (qbits (snd w)) then meq_accumulate w else Ok (tt, w).
(** `let mut cs = MultiEq::new(cs); ..` until the end of the scope (e.g. sha256.rs:93-94). When
    the body fails the synthesis result is the error, so the final flush is not observable. *)
Definition with_multieq {A} (m : MM A) : M K A := fun s =>
  match mbind m (fun a => mbind meq_drop (fun _ => mret a)) (s, meq_new) with
  | Ok (a, (s', _)) => Ok (a, s')
  | Err e => Err e
  | Panic => Panic
  end.
Fixpoint mmapM {A B} (f : A -> MM B) (l : list A) : MM (list B) :=
  match l with
  | [] => mret []
  | x :: r => mbind (f x) (fun y => mbind (mmapM f r) (fun ys => mret (y :: ys)))
  end.

(** Number of iterations of `while max_value != 0 { .. max_value >>= 1 }` (uint32.rs:335-353);
    64 steps suffice for a u64. *)
Fixpoint shift_steps (fuel : nat) (z : Z) : nat :=
  match fuel with
  | O => O
  | S f => if (z =? 0)%Z then O else S (shift_steps f (z / 2))
  end.
(** uint32.rs:307-314: adds one operand's bits with coefficients 1, 2, 4, ... *)
Fixpoint lc_add_bits (l : lc K) (coeff : K) (bs : list boolean) : lc K :=
  match bs with
  | [] => l
  | b :: r => lc_add_bits (lc_add l (b_lc b coeff)) (coeff + coeff) r
  end.
(** uint32.rs:335-353: the result combination. *)
Fixpoint lc_add_vars (l : lc K) (coeff : K) (vs : list var) : lc K :=
  match vs with
  | [] => l
  | v :: r => lc_add_vars (lc_add_term l coeff v) (coeff + coeff) r
  end.
(** uint32.rs:271-369 `addmany`. *)
Definition u32_addmany (ops : list u32) : MM u32 :=
  if (modulus_bits K <? 64)%Z then mpanic
  else if Nat.ltb (length ops) 2 then mpanic
  else if Nat.ltb 10 (length ops) then mpanic
  else
    let max_value := (Z.of_nat (length ops) * (2 ^ 32 - 1))%Z in
    let result_value := fold_left (fun acc op => zlift2 Z.add acc (uval op)) ops (Some 0%Z) in
    let l := fold_left (fun l op => lc_add_bits l 1 (ubits op)) ops lc_zero in
    let all_constants := forallb (fun op => forallb b_is_const (ubits op)) ops in
    let modular_value := option_map (fun v => v mod 2 ^ 32)%Z result_value in
    match all_constants, modular_value with
    | true, Some v => mret (u32_constant v)
    | _, _ =>
        let n := shift_steps 64 max_value in
        mbind (lift (mapM (fun i => bit_alloc (option_map (fun v => Z.testbit v (Z.of_nat i)) result_value)) (seq 0 n))) (fun bits =>
        mbind (meq_enforce_equal n l (lc_add_vars lc_zero 1 (map bvar bits))) (fun _ =>
        mret (mkU (firstn 32 (map BIs bits)) modular_value)))
    end.
End Q.
Arguments mkQ {K}. Arguments qbits {K}. Arguments qlhs {K}. Arguments qrhs {K}. Arguments meq_new {K}.
Arguments mret {K A}. Arguments mbind {K A B}. Arguments mpanic {K A}. Arguments lift {K A}.
Arguments meq_accumulate {K}. Arguments meq_enforce_equal {K}. Arguments meq_drop {K}.
Arguments with_multieq {K A}. Arguments mmapM {K A B}.
Arguments lc_add_bits {K}. Arguments lc_add_vars {K}. Arguments u32_addmany {K}.
Notation "x <~ m ;; k" := (mbind m (fun x => k)) (at level 61, m at next level, right associativity).
