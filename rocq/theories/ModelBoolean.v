(** Model of gadgets/src/algebra/boolean.rs. No proofs. *)
From Verif Require Import Field ModelLC ModelCS.
Local Open Scope fld_scope.

(** boolean.rs:8-12 `AllocatedBit { variable, value }`. *)
Record abit := mkBit { bvar : var; bval : option bool }.
(** boolean.rs:310-317 `enum Boolean`. *)
Inductive boolean := BIs (b : abit) | BNot (b : abit) | BConst (c : bool).

(** boolean.rs:373-379 `get_value`. *)
Definition b_value (b : boolean) : option bool :=
  match b with
  | BConst c => Some c
  | BIs v => bval v
  | BNot v => option_map negb (bval v)
  end.
(** boolean.rs:403-409 `not`. *)
Definition b_not (b : boolean) : boolean :=
  match b with BConst c => BConst (negb c) | BIs v => BNot v | BNot v => BIs v end.
(** boolean.rs:320-325 `is_constant`. *)
Definition b_is_const (b : boolean) : bool := match b with BConst _ => true | _ => false end.

Section B.
Variable K : Fld.

(** `if v { F::one() } else { F::zero() }` under `ok_or(AssignmentMissing)`. *)
Definition bit_witness (o : option bool) : res K :=
  match o with Some b => Ok (of_bool b) | None => Err AssignmentMissing end.
(** A value written by the witness closure (`result_value = Some(..)`): stays `None` when the
    closure is not called. *)
Definition if_called {A} (o : option A) : M K (option A) := fun s =>
  Ok (match md s with Setup => None | Prove => o end, s).
Definition lift2 (f : bool -> bool -> bool) (a b : option bool) : option bool :=
  match a, b with Some x, Some y => Some (f x y) | _, _ => None end.

(** boolean.rs:26-63 `AllocatedBit::alloc_conditionally`. *)
Definition bit_alloc_cond (value : option bool) (must_be_false : abit) : M K abit :=
  v <- alloc (bit_witness value) ;;
  enforce (lc_sub_var (lc_sub_var (lc_add_var lc_zero ONE) (bvar must_be_false)) v)
          (lc_add_var lc_zero v) lc_zero ;;;
  ret (mkBit v value).
(** boolean.rs:67-96 `AllocatedBit::alloc`. *)
Definition bit_alloc (value : option bool) : M K abit :=
  v <- alloc (bit_witness value) ;;
  enforce (lc_sub_var (lc_add_var lc_zero ONE) v) (lc_add_var lc_zero v) lc_zero ;;;
  ret (mkBit v value).
(** boolean.rs:100-129 `AllocatedBit::alloc_input`. *)
Definition bit_alloc_input (value : option bool) : M K abit :=
  v <- alloc_input (bit_witness value) ;;
  enforce (lc_sub_var (lc_add_var lc_zero ONE) v) (lc_add_var lc_zero v) lc_zero ;;;
  ret (mkBit v value).
(** boolean.rs:133-183 `AllocatedBit::xor`. *)
Definition bit_xor (a b : abit) : M K abit :=
  let value := lift2 xorb (bval a) (bval b) in
  v <- alloc (bit_witness value) ;;
  enforce (lc_add_var (lc_add_var lc_zero (bvar a)) (bvar a))
          (lc_add_var lc_zero (bvar b))
          (lc_sub_var (lc_add_var (lc_add_var lc_zero (bvar a)) (bvar b)) v) ;;;
  r <- if_called value ;;
  ret (mkBit v r).
(** boolean.rs:187-224 `AllocatedBit::and`. *)
Definition bit_and (a b : abit) : M K abit :=
  let value := lift2 andb (bval a) (bval b) in
  v <- alloc (bit_witness value) ;;
  enforce (lc_add_var lc_zero (bvar a)) (lc_add_var lc_zero (bvar b)) (lc_add_var lc_zero v) ;;;
  r <- if_called value ;;
  ret (mkBit v r).
(** boolean.rs:227-264 `AllocatedBit::and_not`. *)
Definition bit_and_not (a b : abit) : M K abit :=
  let value := lift2 (fun x y => andb x (negb y)) (bval a) (bval b) in
  v <- alloc (bit_witness value) ;;
  enforce (lc_add_var lc_zero (bvar a)) (lc_sub_var (lc_add_var lc_zero ONE) (bvar b))
          (lc_add_var lc_zero v) ;;;
  r <- if_called value ;;
  ret (mkBit v r).
(** boolean.rs:267-304 `AllocatedBit::nor`. *)
Definition bit_nor (a b : abit) : M K abit :=
  let value := lift2 (fun x y => andb (negb x) (negb y)) (bval a) (bval b) in
  v <- alloc (bit_witness value) ;;
  enforce (lc_sub_var (lc_add_var lc_zero ONE) (bvar a)) (lc_sub_var (lc_add_var lc_zero ONE) (bvar b))
          (lc_add_var lc_zero v) ;;;
  r <- if_called value ;;
  ret (mkBit v r).

(** boolean.rs:381-395 `Boolean::lc(one, coeff)`, always called with `CS::one()`. *)
Definition b_lc (b : boolean) (coeff : K) : lc K :=
  match b with
  | BConst c => if c then lc_add_term lc_zero coeff ONE else lc_zero
  | BIs v => lc_add_term lc_zero coeff (bvar v)
  | BNot v => lc_sub_term (lc_add_term lc_zero coeff ONE) coeff (bvar v)
  end.

(** boolean.rs:327-371 `Boolean::enforce_equal`. *)
Definition b_enforce_equal (a b : boolean) : M K unit :=
  let to_one x := enforce lc_zero lc_zero (lc_sub (lc_add_var lc_zero ONE) (b_lc x 1)) in
  let to_zero x := enforce lc_zero lc_zero (b_lc x 1) in
  match a, b with
  | BConst x, BConst y => if Bool.eqb x y then ret tt else fail Unsatisfiable
  | BConst true, x | x, BConst true => to_one x
  | BConst false, x | x, BConst false => to_zero x
  | _, _ => enforce lc_zero lc_zero (lc_sub (b_lc a 1) (b_lc b 1))
  end.

(** boolean.rs:412-431 `Boolean::xor` (the recursive call at 423 is always the Is/Is case). *)
Definition b_xor (a b : boolean) : M K boolean :=
  match a, b with
  | BConst false, x | x, BConst false => ret x
  | BConst true, x | x, BConst true => ret (b_not x)
  | BIs i, BNot n | BNot n, BIs i => r <- bit_xor i n ;; ret (b_not (BIs r))
  | BIs x, BIs y | BNot x, BNot y => r <- bit_xor x y ;; ret (BIs r)
  end.
(** boolean.rs:434-460 `Boolean::and`. *)
Definition b_and (a b : boolean) : M K boolean :=
  match a, b with
  | BConst false, _ | _, BConst false => ret (BConst false)
  | BConst true, x | x, BConst true => ret x
  | BIs i, BNot n | BNot n, BIs i => r <- bit_and_not i n ;; ret (BIs r)
  | BNot x, BNot y => r <- bit_nor x y ;; ret (BIs r)
  | BIs x, BIs y => r <- bit_and x y ;; ret (BIs r)
  end.

Definition lift3 (f : bool -> bool -> bool -> bool) (a b c : option bool) : option bool :=
  match a, b, c with Some x, Some y, Some z => Some (f x y z) | _, _, _ => None end.
(** boolean.rs:463-567 `Boolean::sha256_ch`. *)
Definition b_ch (a b c : boolean) : M K boolean :=
  let value := lift3 (fun a b c => xorb (andb a b) (andb (negb a) c)) (b_value a) (b_value b) (b_value c) in
  match a, b, c with
  | BConst x, BConst y, BConst z => ret (BConst (xorb (andb x y) (andb (negb x) z)))
  | BConst false, _, _ => ret c
  | _, BConst false, _ => b_and (b_not a) c
  | _, _, BConst false => b_and a b
  | _, _, BConst true => r <- b_and a (b_not b) ;; ret (b_not r)
  | _, BConst true, _ => r <- b_and (b_not a) (b_not c) ;; ret (b_not r)
  | _, _, _ =>
      v <- alloc (bit_witness value) ;;
      enforce (lc_sub (b_lc b 1) (b_lc c 1)) (b_lc a 1)
              (lc_sub (lc_add_var lc_zero v) (b_lc c 1)) ;;;
      ret (BIs (mkBit v value))
  end.
(** boolean.rs:570-684 `Boolean::sha256_maj`. *)
Definition b_maj (a b c : boolean) : M K boolean :=
  let value := lift3 (fun a b c => xorb (xorb (andb a b) (andb a c)) (andb b c))
                 (b_value a) (b_value b) (b_value c) in
  match a, b, c with
  | BConst x, BConst y, BConst z => ret (BConst (xorb (xorb (andb x y) (andb x z)) (andb y z)))
  | BConst false, _, _ => b_and b c
  | _, BConst false, _ => b_and a c
  | _, _, BConst false => b_and a b
  | _, _, BConst true => r <- b_and (b_not a) (b_not b) ;; ret (b_not r)
  | _, BConst true, _ => r <- b_and (b_not a) (b_not c) ;; ret (b_not r)
  | BConst true, _, _ => r <- b_and (b_not b) (b_not c) ;; ret (b_not r)
  | _, _, _ =>
      v <- alloc (bit_witness value) ;;
      bc <- b_and b c ;;
      enforce (lc_sub (lc_sub (lc_add (b_lc bc 1) (b_lc bc 1)) (b_lc b 1)) (b_lc c 1))
              (b_lc a 1)
              (lc_sub_var (b_lc bc 1) v) ;;;
      ret (BIs (mkBit v value))
  end.

(** boolean.rs:693-722 `u64_into_boolean_vec_le`. *)
Definition u64_into_boolean_vec_le (value : option Z) : M K (list boolean) :=
  let values := match value with
                | Some x => map (fun i => Some (Z.testbit x (Z.of_nat i))) (seq 0 64)
                | None => repeat None 64
                end in
  bits <- mapM bit_alloc values ;;
  ret (map BIs bits).
End B.
Arguments bit_witness {K}. Arguments if_called {K A}.
Arguments bit_alloc_cond {K}. Arguments bit_alloc {K}. Arguments bit_alloc_input {K}.
Arguments bit_xor {K}. Arguments bit_and {K}. Arguments bit_and_not {K}. Arguments bit_nor {K}.
Arguments b_lc {K}. Arguments b_enforce_equal {K}. Arguments b_xor {K}. Arguments b_and {K}.
Arguments b_ch {K}. Arguments b_maj {K}. Arguments u64_into_boolean_vec_le {K}.

(** boolean.rs:733-771 `field_into_allocated_bits_le` (and 724-731): MODULUS_BITS bits of the
    canonical integer, little-endian; no packing constraint ties them to a field variable.
    The leading-bit skipping at 744-753 keeps exactly the low MODULUS_BITS bits because the
    characteristic's top bit is at position MODULUS_BITS - 1. *)
Definition field_into_allocated_bits_le {K : PFld} (value : option K) : M K (list abit) :=
  let n := Z.to_nat (modulus_bits K) in
  mapM bit_alloc
    (match value with
     | Some x => map (fun i => Some (Z.testbit (toZ x) (Z.of_nat i))) (seq 0 n)
     | None => repeat None n
     end).
