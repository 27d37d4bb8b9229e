(** Model of the example circuits gadgets/examples/rescue_groth16.rs (rescue_spartan.rs has the
    same circuit at lines 81-288) and gadgets/examples/poseidon.rs. Values are `Option<F>`, as in
    the code; round constants and matrix are arbitrary. No proofs. *)
From Verif Require Import Field ModelLC ModelCS ModelOperator ModelMimc ModelSponge.
Local Open Scope fld_scope.

Section Demo.
Variable K : PFld.
(** A `(Option<F>, Variable)` pair: rescue_groth16.rs:104-105 `state_value`, `state`. *)
Notation cell := (option K * var)%type.

(** rescue_groth16.rs:29-67 and poseidon.rs:29-68, the native hashes the examples compare with:
    the same loops as `rescue_block` and `poseidon_block` of the library. *)
Definition demo_rescue_hash (alph invalph : list Z) (mds : t3 (t3 K)) (c0 : t3 K) (cs : list (t3 K)) (xl xr : K) : K :=
  rescue_block alph invalph mds c0 cs xl xr.
Definition demo_poseidon_hash (alph : list Z) (half : nat) (mds : t3 (t3 K)) (ark : list (t3 K)) (xl xr : K) : K :=
  poseidon_block alph half mds ark xl xr.

(** rescue_groth16.rs:263-266, poseidon.rs:242-245: `res_value.map(|e| e * state_value.unwrap())`. *)
Definition map_mul (t sv : option K) : res (option K) :=
  match t with
  | None => Ok None
  | Some e => match sv with Some v => Ok (Some (e * v)) | None => Panic end
  end.
(** rescue_groth16.rs:234-281, poseidon.rs:212-259: the loop after the leading zeros. *)
Fixpoint demo_pow_loop (sv : option K) (st : var) (b : list bool) (rv : option K) (res : var) : M K cell :=
  match b with
  | [] => ret (rv, res)
  | i :: r =>
    let t := option_map (fun e => e * e) rv in
    tmp <- alloc (ok_or t AssignmentMissing) ;;
    enforce (lc_add_var lc_zero res) (lc_add_var lc_zero res) (lc_add_var lc_zero tmp) ;;;
    if i then
      u <- lift_res (map_mul t sv) ;;
      tmp2 <- alloc (ok_or u AssignmentMissing) ;;
      enforce (lc_add_var lc_zero tmp) (lc_add_var lc_zero st) (lc_add_var lc_zero tmp2) ;;;
      demo_pow_loop sv st r u tmp2
    else demo_pow_loop sv st r t tmp
  end.
(** rescue_groth16.rs:221-284, poseidon.rs:199-264 `pow_with_constraint`. *)
Definition demo_pow (a : cell) (b : list bool) : M K cell :=
  res <- alloc (Ok 1) ;;
  demo_pow_loop (fst a) (snd a) (strip b) (Some 1) res.
Definition demo_pows (st : t3 cell) (e : list bool) : M K (t3 cell) :=
  a <- demo_pow (x0 st) e ;; b <- demo_pow (x1 st) e ;; d <- demo_pow (x2 st) e ;; ret (T3 a b d).
(** rescue_groth16.rs:108-128 and 183-203, poseidon.rs:102-122: adding a constant. *)
Definition demo_add_const (a : cell) (c : K) : M K cell :=
  let v := option_map (fun e => e + c) (fst a) in
  tmp <- alloc (ok_or v AssignmentMissing) ;;
  enforce (lc_add_term (lc_add_var lc_zero (snd a)) c ONE) (lc_add_term lc_zero 1 ONE) (lc_add_var lc_zero tmp) ;;;
  ret (v, tmp).
Definition demo_add_consts (st : t3 cell) (c : t3 K) : M K (t3 cell) :=
  a <- demo_add_const (x0 st) (x0 c) ;; b <- demo_add_const (x1 st) (x1 c) ;; d <- demo_add_const (x2 st) (x2 c) ;; ret (T3 a b d).
(** rescue_groth16.rs:155-181, poseidon.rs:150-176: one product; both values are unwrapped. *)
Definition demo_mix_cell (c : K) (a acc : cell) : M K cell :=
  tmp3 <- alloc (Ok c) ;;
  v <- lift_res (match fst a, fst acc with Some e, Some t => Ok (c * e + t) | _, _ => Panic end) ;;
  tmp4 <- alloc (Ok v) ;;
  enforce (lc_add_var lc_zero tmp3) (lc_add_var lc_zero (snd a)) (lc_sub_var (lc_add_var lc_zero tmp4) (snd acc)) ;;;
  ret (Some v, tmp4).
Definition demo_mix_row (m : t3 K) (st : t3 cell) (acc : cell) : M K cell :=
  a <- demo_mix_cell (x0 m) (x0 st) acc ;; b <- demo_mix_cell (x1 m) (x1 st) a ;; demo_mix_cell (x2 m) (x2 st) b.
(** rescue_groth16.rs:144-182, poseidon.rs:139-177: the matrix multiplication. *)
Definition demo_mix (mds : t3 (t3 K)) (st : t3 cell) : M K (t3 cell) :=
  v0 <- alloc (Ok 0) ;; v1 <- alloc (Ok 0) ;; v2 <- alloc (Ok 0) ;;
  a <- demo_mix_row (x0 mds) st (Some 0, v0) ;; b <- demo_mix_row (x1 mds) st (Some 0, v1) ;; d <- demo_mix_row (x2 mds) st (Some 0, v2) ;;
  ret (T3 a b d).
(** rescue_groth16.rs:131-204: the rounds; [cs] is constants[1..]. *)
Fixpoint demo_rescue_rounds (alph invalph : list Z) (mds : t3 (t3 K)) (i : nat) (cs : list (t3 K)) (st : t3 cell) : M K (t3 cell) :=
  match cs with
  | [] => ret st
  | c :: r =>
    st1 <- demo_pows st (rescue_exp alph invalph i) ;;
    st2 <- demo_mix mds st1 ;;
    st3 <- demo_add_consts st2 c ;;
    demo_rescue_rounds alph invalph mds (S i) r st3
  end.
(** poseidon.rs:124-137: the S-boxes. *)
Definition demo_sboxes (alph : list Z) (half i : nat) (st : t3 cell) : M K (t3 cell) :=
  if Nat.ltb i half || Nat.ltb half i then demo_pows st (bits_be alph)
  else d <- demo_pow (x2 st) (bits_be alph) ;; ret (T3 (x0 st) (x1 st) d).
(** poseidon.rs:99-182: the rounds. *)
Fixpoint demo_poseidon_rounds (alph : list Z) (half : nat) (mds : t3 (t3 K)) (i : nat) (ark : list (t3 K)) (st : t3 cell) : M K (t3 cell) :=
  match ark with
  | [] => ret st
  | c :: r =>
    st1 <- demo_add_consts st c ;;
    st2 <- demo_sboxes alph half i st1 ;;
    st3 <- demo_mix mds st2 ;;
    demo_poseidon_rounds alph half mds (S i) r st3
  end.
(** rescue_groth16.rs:206-216, poseidon.rs:184-194: the public output. *)
Definition demo_expose (st : t3 cell) : M K unit :=
  output <- alloc_input (ok_or (fst (x0 st)) AssignmentMissing) ;;
  enforce (lc_add_term lc_zero 1 ONE) (lc_add_var lc_zero (snd (x0 st))) (lc_add_var lc_zero output).
(** rescue_groth16.rs:86-105, poseidon.rs:78-97: the preimage and the (unconstrained) third entry. *)
Definition demo_start (xl xr : option K) : M K (t3 cell) :=
  v0 <- alloc (ok_or xl AssignmentMissing) ;; v1 <- alloc (ok_or xr AssignmentMissing) ;; v2 <- alloc (Ok 0) ;;
  ret (T3 (xl, v0) (xr, v1) (Some 0, v2)).
(** rescue_groth16.rs:81-219 `RescueDemo::generate_constraints`. *)
Definition rescue_demo (alph invalph : list Z) (mds : t3 (t3 K)) (c0 : t3 K) (cs : list (t3 K)) (xl xr : option K) : M K unit :=
  st <- demo_start xl xr ;;
  st0 <- demo_add_consts st c0 ;;
  st' <- demo_rescue_rounds alph invalph mds 0 cs st0 ;;
  demo_expose st'.
(** poseidon.rs:73-197 `PoseidonDemo::generate_constraints`. *)
Definition poseidon_demo (alph : list Z) (half : nat) (mds : t3 (t3 K)) (ark : list (t3 K)) (xl xr : option K) : M K unit :=
  st <- demo_start xl xr ;;
  st' <- demo_poseidon_rounds alph half mds 0 ark st ;;
  demo_expose st'.
End Demo.
Arguments demo_rescue_hash {K}. Arguments demo_poseidon_hash {K}. Arguments map_mul {K}. Arguments demo_pow_loop {K}. Arguments demo_pow {K}. Arguments demo_pows {K}.
Arguments demo_add_const {K}. Arguments demo_add_consts {K}. Arguments demo_mix_cell {K}. Arguments demo_mix_row {K}. Arguments demo_mix {K}.
Arguments demo_rescue_rounds {K}. Arguments demo_sboxes {K}. Arguments demo_poseidon_rounds {K}. Arguments demo_expose {K}. Arguments demo_start {K}.
Arguments rescue_demo {K}. Arguments poseidon_demo {K}.
(** rescue_groth16.rs:22-27 (and gadgets/src/hashes/rescue.rs:25-30): `INVALPH`. *)
Definition INVALPH : list Z := [0xcfe7f7a98ccccccd; 0x535cb9d394945a0d; 0x93736af8679aad17; 0x26b6a528b427b354]%Z.
(** The modulus named in the comment at rescue_groth16.rs:20 (`p == ..`). *)
Definition bn_r : Z := 0x30644e72e131a029b85045b68181585d2833e84879b9709143e1f593f0000001%Z.
