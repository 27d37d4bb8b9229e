(** Model of gadgets/src/hashes/rescue.rs and gadgets/src/hashes/poseidon.rs. No proofs.
    The round constants and the matrix are arbitrary; states are triples (M = 3). *)
From Verif Require Import Field ModelLC ModelCS ModelMimc.
Local Open Scope fld_scope.

(** `[T; M]` with M = _R + _C = 3: rescue.rs:16-18, poseidon.rs:16-21. *)
Record t3 (A : Type) := T3 { x0 : A; x1 : A; x2 : A }.
Arguments T3 {A}. Arguments x0 {A}. Arguments x1 {A}. Arguments x2 {A}.
(** `for j in 0..M { .. }` over the entries. *)
Definition map3 {A B} (f : A -> B) (t : t3 A) : t3 B := T3 (f (x0 t)) (f (x1 t)) (f (x2 t)).

(** ark-ff `BitIteratorBE::new` on u64 limbs (least significant limb first): all bits, most
    significant first. Called at rescue.rs:501 and poseidon.rs:732. *)
Definition limb_bits (l : Z) : list bool := map (fun i => Z.testbit l (Z.of_nat i)) (seq 0 64).
Definition bits_be (limbs : list Z) : list bool := rev (concat (map limb_bits limbs)).
(** rescue.rs:501-508, poseidon.rs:732-739 `found_one`: leading zero bits are skipped. *)
Fixpoint strip (b : list bool) : list bool :=
  match b with false :: r => strip r | _ => b end.

Section Native.
Variable K : PFld.
(** ark-ff `Field::pow`: square and multiply from the top bit, starting with one. *)
Definition pow_bits (x : K) (b : list bool) : K :=
  fold_left (fun r (i : bool) => let q := r * r in if i then q * x else q) b 1.
(** rescue.rs:353-360, poseidon.rs:569-576: matrix times state. *)
Definition row3 (m v : t3 K) : K := 0 + x0 m * x0 v + x1 m * x1 v + x2 m * x2 v.
Definition mds_mul (mds : t3 (t3 K)) (v : t3 K) : t3 K := map3 (fun m => row3 m v) mds.
Definition add3 (a b : t3 K) : t3 K := T3 (x0 a + x0 b) (x1 a + x1 b) (x2 a + x2 b).

(** rescue.rs:337-367 `rescue_block`; [c0] is constants[0], [cs] the rest, one per step. *)
Definition rescue_exp (alph invalph : list Z) (i : nat) : list bool :=
  bits_be (if Nat.eqb (i mod 2) 1 then invalph else alph).
Fixpoint rescue_steps (alph invalph : list Z) (mds : t3 (t3 K)) (i : nat) (cs : list (t3 K)) (st : t3 K) : t3 K :=
  match cs with
  | [] => st
  | c :: r => rescue_steps alph invalph mds (S i) r (add3 (mds_mul mds (map3 (fun v => pow_bits v (rescue_exp alph invalph i)) st)) c)
  end.
Definition rescue_block (alph invalph : list Z) (mds : t3 (t3 K)) (c0 : t3 K) (cs : list (t3 K)) (xl xr : K) : K :=
  x0 (rescue_steps alph invalph mds 0 cs (add3 (T3 xl xr 0) c0)).

(** poseidon.rs:553-585 `poseidon_block`; [half] is RF / 2, and only round [half] is partial. *)
Definition poseidon_sbox (alph : list Z) (half i : nat) (st : t3 K) : t3 K :=
  if Nat.ltb i half || Nat.ltb half i then map3 (fun v => pow_bits v (bits_be alph)) st
  else T3 (x0 st) (x1 st) (pow_bits (x2 st) (bits_be alph)).
Fixpoint poseidon_steps (alph : list Z) (half : nat) (mds : t3 (t3 K)) (i : nat) (ark : list (t3 K)) (st : t3 K) : t3 K :=
  match ark with
  | [] => st
  | c :: r => poseidon_steps alph half mds (S i) r (mds_mul mds (poseidon_sbox alph half i (add3 st c)))
  end.
Definition poseidon_block (alph : list Z) (half : nat) (mds : t3 (t3 K)) (ark : list (t3 K)) (xl xr : K) : K :=
  x0 (poseidon_steps alph half mds 0 ark (T3 xl xr 0)).

(** rescue.rs:370-396 `rescue_hash`, poseidon.rs:588-614 `poseidon_hash`: as for MiMC, with
    the block function [blk]. *)
Fixpoint sponge_loop (blk : K -> K -> K) (xl h : K) (v : list K) : K * K :=
  match v with
  | [] => (xl, h)
  | b :: r => sponge_loop blk (match r with [] => h | _ => xl end) (blk h b) r
  end.
Definition sponge_hash (nl : nat) (blk : K -> K -> K) (b : list Z) : res (K * K * K) :=
  let v := blocks nl b in
  match rev v with
  | [] => Panic
  | xr :: _ => let '(xl, h) := sponge_loop blk 0 0 v in Ok (xl, xr, h)
  end.

(** ** The circuits *)
(** rescue.rs:501-539, poseidon.rs:732-770: the loop of `pow_with_constraint`. After a one bit
    the running value is reset to the square (`res_value = tmp_value`). *)
Fixpoint pow_loop (sv : K) (st : var) (b : list bool) (rv : K) (res : var) : M K (K * var) :=
  match b with
  | [] => ret (rv, res)
  | i :: r =>
    let t := rv * rv in
    tmp <- alloc (Ok t) ;;
    enforce (lc_add_var lc_zero res) (lc_add_var lc_zero res) (lc_add_var lc_zero tmp) ;;;
    if i then
      tmp2 <- alloc (Ok (t * sv)) ;;
      enforce (lc_add_var lc_zero tmp) (lc_add_var lc_zero st) (lc_add_var lc_zero tmp2) ;;;
      pow_loop sv st r t tmp2
    else pow_loop sv st r t tmp
  end.
(** rescue.rs:489-542, poseidon.rs:720-773 `pow_with_constraint`. *)
Definition pow_with_constraint (a : K * var) (b : list bool) : M K (K * var) :=
  res <- alloc (Ok 0) ;;
  pow_loop (fst a) (snd a) (strip b) 0 res.
(** rescue.rs:424-436 and 463-477, poseidon.rs:641-655: adding a constant. *)
Definition add_const (a : K * var) (c : K) : M K (K * var) :=
  let v := fst a + c in
  tmp <- alloc (Ok v) ;;
  enforce (lc_add_term (lc_add_var lc_zero (snd a)) c ONE) (lc_add_term lc_zero 1 ONE) (lc_add_var lc_zero tmp) ;;;
  ret (v, tmp).
Definition add_consts (st : t3 (K * var)) (c : t3 K) : M K (t3 (K * var)) :=
  a <- add_const (x0 st) (x0 c) ;; b <- add_const (x1 st) (x1 c) ;; d <- add_const (x2 st) (x2 c) ;; ret (T3 a b d).
(** rescue.rs:448-460, poseidon.rs:680-700: one product; the matrix entry is a fresh variable. *)
Definition mix_cell (c : K) (a : K * var) (acc : K * var) : M K (K * var) :=
  tmp3 <- alloc (Ok c) ;;
  let v := c * fst a + fst acc in
  tmp4 <- alloc (Ok v) ;;
  enforce (lc_add_var lc_zero tmp3) (lc_add_var lc_zero (snd a)) (lc_sub_var (lc_add_var lc_zero tmp4) (snd acc)) ;;;
  ret (v, tmp4).
Definition mix_row (m : t3 K) (st : t3 (K * var)) (acc : K * var) : M K (K * var) :=
  a <- mix_cell (x0 m) (x0 st) acc ;; b <- mix_cell (x1 m) (x1 st) a ;; mix_cell (x2 m) (x2 st) b.
(** rescue.rs:441-462, poseidon.rs:672-703: the matrix multiplication; the three accumulators
    are fresh variables. *)
Definition mix (mds : t3 (t3 K)) (st : t3 (K * var)) : M K (t3 (K * var)) :=
  v0 <- alloc (Ok 0) ;; v1 <- alloc (Ok 0) ;; v2 <- alloc (Ok 0) ;;
  a <- mix_row (x0 mds) st (0, v0) ;; b <- mix_row (x1 mds) st (0, v1) ;; d <- mix_row (x2 mds) st (0, v2) ;;
  ret (T3 a b d).
Definition pows (st : t3 (K * var)) (e : list bool) : M K (t3 (K * var)) :=
  a <- pow_with_constraint (x0 st) e ;; b <- pow_with_constraint (x1 st) e ;; d <- pow_with_constraint (x2 st) e ;; ret (T3 a b d).
(** rescue.rs:437-478: the rounds. *)
Fixpoint rescue_rounds (alph invalph : list Z) (mds : t3 (t3 K)) (i : nat) (cs : list (t3 K)) (st : t3 (K * var)) : M K (t3 (K * var)) :=
  match cs with
  | [] => ret st
  | c :: r =>
    st1 <- pows st (rescue_exp alph invalph i) ;;
    st2 <- mix mds st1 ;;
    st3 <- add_consts st2 c ;;
    rescue_rounds alph invalph mds (S i) r st3
  end.
(** rescue.rs:479-487, poseidon.rs:709-718: the public output. *)
Definition expose (st : t3 (K * var)) : M K unit :=
  output <- alloc_input (Ok (fst (x0 st))) ;;
  enforce (lc_add_term lc_zero 1 ONE) (lc_add_var lc_zero (snd (x0 st))) (lc_add_var lc_zero output).
(** rescue.rs:402-487 `rescue`. *)
Definition rescue (nl : nat) (alph invalph : list Z) (mds : t3 (t3 K)) (c0 : t3 K) (cs : list (t3 K)) (b : list Z) : M K K := fun s =>
  match sponge_hash nl (rescue_block alph invalph mds c0 cs) b with
  | Ok (xl, xr, image) =>
    (v0 <- alloc (Ok xl) ;; v1 <- alloc (Ok xr) ;; v2 <- alloc (Ok 0) ;;
     st <- add_consts (T3 (xl, v0) (xr, v1) (0, v2)) c0 ;;
     st' <- rescue_rounds alph invalph mds 0 cs st ;;
     expose st' ;;; ret image) s
  | Err e => Err e
  | Panic => Panic
  end.
(** poseidon.rs:636-708: the rounds. *)
Definition poseidon_sboxes (alph : list Z) (half i : nat) (st : t3 (K * var)) : M K (t3 (K * var)) :=
  if Nat.ltb i half || Nat.ltb half i then pows st (bits_be alph)
  else d <- pow_with_constraint (x2 st) (bits_be alph) ;; ret (T3 (x0 st) (x1 st) d).
Fixpoint poseidon_rounds (alph : list Z) (half : nat) (mds : t3 (t3 K)) (i : nat) (ark : list (t3 K)) (st : t3 (K * var)) : M K (t3 (K * var)) :=
  match ark with
  | [] => ret st
  | c :: r =>
    st1 <- add_consts st c ;;
    st2 <- poseidon_sboxes alph half i st1 ;;
    st3 <- mix mds st2 ;;
    poseidon_rounds alph half mds (S i) r st3
  end.
(** poseidon.rs:620-718 `poseidon`. *)
Definition poseidon (nl : nat) (alph : list Z) (half : nat) (mds : t3 (t3 K)) (ark : list (t3 K)) (b : list Z) : M K K := fun s =>
  match sponge_hash nl (poseidon_block alph half mds ark) b with
  | Ok (xl, xr, image) =>
    (v0 <- alloc (Ok xl) ;; v1 <- alloc (Ok xr) ;; v2 <- alloc (Ok 0) ;;
     st' <- poseidon_rounds alph half mds 0 ark (T3 (xl, v0) (xr, v1) (0, v2)) ;;
     expose st' ;;; ret image) s
  | Err e => Err e
  | Panic => Panic
  end.
End Native.
Arguments pow_bits {K}. Arguments row3 {K}. Arguments mds_mul {K}. Arguments add3 {K}. Arguments rescue_steps {K}. Arguments rescue_block {K}.
Arguments poseidon_sbox {K}. Arguments poseidon_steps {K}. Arguments poseidon_block {K}. Arguments sponge_loop {K}. Arguments sponge_hash {K}.
Arguments pow_loop {K}. Arguments pow_with_constraint {K}. Arguments add_const {K}. Arguments add_consts {K}. Arguments mix_cell {K}. Arguments mix_row {K}.
Arguments mix {K}. Arguments pows {K}. Arguments rescue_rounds {K}. Arguments expose {K}. Arguments rescue {K}. Arguments poseidon_sboxes {K}.
Arguments poseidon_rounds {K}. Arguments poseidon {K}.
