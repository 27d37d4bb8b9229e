(** Model of gadgets/src/algebra/fr.rs, gadgets/src/lookup/table.rs and
    gadgets/src/operator/rangeproof.rs. No proofs. *)
From Verif Require Import Field ModelLC ModelCS ModelBoolean.
Local Open Scope fld_scope.

Section Fr.
Variable K : Fld.
(** fr.rs:4-8 `AllocatedFr { value, variable }`. *)
Record afr := mkFr { fval : option K; fvar : var }.
(** fr.rs:19-39 `alloc`; the cached value is written by the witness closure only. *)
Definition fr_alloc (f : res K) : M K afr :=
  v <- alloc f ;;
  r <- if_called (match f with Ok y => Some y | _ => None end) ;;
  ret (mkFr r v).
(** fr.rs:41-61 `alloc_input`. *)
Definition fr_alloc_input (f : res K) : M K afr :=
  v <- alloc_input f ;;
  r <- if_called (match f with Ok y => Some y | _ => None end) ;;
  ret (mkFr r v).
(** fr.rs:63-80 `inputize`. *)
Definition fr_inputize (a : afr) : M K unit :=
  i <- alloc_input (ok_or (fval a) AssignmentMissing) ;;
  enforce (lc_add_var lc_zero i) (lc_add_var lc_zero ONE) (lc_add_var lc_zero (fvar a)).
(** fr.rs:82-109 `isnonzero`; `inverse()` of a nonzero element is always `Some`. *)
Definition fr_isnonzero (a : afr) : M K unit :=
  i <- alloc (match fval a with
              | None => Err AssignmentMissing
              | Some t => if feqb t 0 then Err DivisionByZero else Ok (finv t)
              end) ;;
  enforce (lc_add_var lc_zero (fvar a)) (lc_add_var lc_zero i) (lc_add_var lc_zero ONE).

(** table.rs:16-25: one step of the coefficient computation. *)
Definition synth_step (i : nat) (c : K) (a : list K) : list K :=
  let cur := - nth i a 0 + c in
  map (fun '(j, e) => if Nat.eqb j i then cur
                      else if Nat.ltb i j && Nat.eqb (Nat.land j i) i then e + cur else e)
      (combine (seq 0 (length a)) a).
Fixpoint synth_loop (i : nat) (cs : list K) (a : list K) : res (list K) :=
  match cs with
  | [] => Ok a
  | c :: r => if Nat.ltb i (length a) then synth_loop (S i) r (synth_step i c a) else Panic
  end.
(** table.rs:10-26 `synth`; out-of-range indexing is [Panic]. *)
Definition synth (window : nat) (cs a : list K) : res (list K) :=
  if Nat.eqb (length a) (Nat.pow 2 window) then synth_loop 0 cs a else Panic.

(** table.rs:30-74 `lookup1_x`. *)
Definition lookup1_x (b : boolean) (c : list K) : M K afr :=
  match c with
  | [c0; c1] =>
      match b with
      | BConst cond => if cond then fr_alloc (Ok c1) else fr_alloc (Ok c0)
      | _ =>
          tv <- fr_alloc (Ok c1) ;;
          fv <- fr_alloc (Ok c0) ;;
          r <- fr_alloc (ok_or (match b_value b with
                                | Some cond => if cond then fval tv else fval fv
                                | None => None end) AssignmentMissing) ;;
          enforce (b_lc b 1)
                  (lc_sub_var (lc_add_var lc_zero (fvar tv)) (fvar fv))
                  (lc_sub_var (lc_add_var lc_zero (fvar r)) (fvar fv)) ;;;
          ret r
      end
  | _ => panic
  end.

(** table.rs:91-103, 133-145: the index of the selected entry, when the bits are known. *)
Definition index2 (b0 b1 : boolean) : option nat :=
  match b_value b0, b_value b1 with
  | Some t0, Some t1 => Some ((if t0 then 1 else 0) + (if t1 then 2 else 0))%nat
  | _, _ => None
  end.
(** The witness closure `Ok(c[i.ok_or(AssignmentMissing)?])`. *)
Definition pick {A} (f : A -> K) (c : list A) (i : option nat) : res K :=
  match i with
  | None => Err AssignmentMissing
  | Some n => match nth_error c n with Some y => Ok (f y) | None => Panic end
  end.
(** table.rs:108-113, 154-165: one coordinate of the 2-bit lookup. *)
Definition lookup2_con (b0 b1 : boolean) (c0 c1 c2 c3 : K) (r : var) : M K unit :=
  enforce (lc_add_term (lc_add lc_zero (b_lc b1 (c3 - c2 - c1 + c0))) (c1 - c0) ONE)
          (lc_add lc_zero (b_lc b0 1))
          (lc_add (lc_add_term (lc_add_var lc_zero r) (- c0) ONE) (b_lc b1 (c0 - c2))).
(** table.rs:78-116 `lookup2_x`. *)
Definition lookup2_x (b : list boolean) (c : list K) : M K afr :=
  match b, c with
  | [b0; b1], [c0; c1; c2; c3] =>
      r <- fr_alloc (pick (fun y => y) c (index2 b0 b1)) ;;
      lookup2_con b0 b1 c0 c1 c2 c3 (fvar r) ;;;
      ret r
  | _, _ => panic
  end.
(** table.rs:120-168 `lookup2_xy`. *)
Definition lookup2_xy (b : list boolean) (c : list (K * K)) : M K (afr * afr) :=
  match b, c with
  | [b0; b1], [c0; c1; c2; c3] =>
      rx <- fr_alloc (pick fst c (index2 b0 b1)) ;;
      ry <- fr_alloc (pick snd c (index2 b0 b1)) ;;
      lookup2_con b0 b1 (fst c0) (fst c1) (fst c2) (fst c3) (fvar rx) ;;;
      lookup2_con b0 b1 (snd c0) (snd c1) (snd c2) (snd c3) (fvar ry) ;;;
      ret (rx, ry)
  | _, _ => panic
  end.
(** table.rs:186-205, 255-274. *)
Definition index3 (b0 b1 b2 : boolean) : option nat :=
  match b_value b0, b_value b1, b_value b2 with
  | Some t0, Some t1, Some t2 => Some ((if t0 then 1 else 0) + (if t1 then 2 else 0) + (if t2 then 4 else 0))%nat
  | _, _, _ => None
  end.
(** table.rs:220-234, 296-328: one coordinate of the 3-bit lookup, coefficients [k]. *)
Definition lookup3_con (b0 b1 b2 pre : boolean) (k : list K) (r : var) : M K unit :=
  enforce (lc_add (lc_add (lc_add (lc_add_term lc_zero (nth 1 k 0) ONE) (b_lc b1 (nth 3 k 0))) (b_lc b2 (nth 5 k 0))) (b_lc pre (nth 7 k 0)))
          (lc_add lc_zero (b_lc b0 1))
          (lc_sub (lc_sub (lc_sub (lc_sub_term (lc_add_var lc_zero r) (nth 0 k 0) ONE) (b_lc b1 (nth 2 k 0))) (b_lc b2 (nth 4 k 0))) (b_lc pre (nth 6 k 0))).
(** A `res` computation inside synthesis. *)
Definition lift_res {A} (r : res A) : M K A :=
  match r with Ok a => ret a | Err e => fail e | Panic => panic end.
(** table.rs:172-237 `lookup3_x`. *)
Definition lookup3_x (b : list boolean) (c : list K) : M K afr :=
  match b with
  | [b0; b1; b2] =>
      if Nat.eqb (length c) 8 then
        r <- fr_alloc (pick (fun y => y) c (index3 b0 b1 b2)) ;;
        k <- lift_res (synth 3 c (repeat 0 8)) ;;
        pre <- b_and b1 b2 ;;
        lookup3_con b0 b1 b2 pre k (fvar r) ;;;
        ret r
      else panic
  | _ => panic
  end.
(** table.rs:241-331 `lookup3_xy`. *)
Definition lookup3_xy (b : list boolean) (c : list (K * K)) : M K (afr * afr) :=
  match b with
  | [b0; b1; b2] =>
      if Nat.eqb (length c) 8 then
        rx <- fr_alloc (pick fst c (index3 b0 b1 b2)) ;;
        ry <- fr_alloc (pick snd c (index3 b0 b1 b2)) ;;
        kx <- lift_res (synth 3 (map fst c) (repeat 0 8)) ;;
        ky <- lift_res (synth 3 (map snd c) (repeat 0 8)) ;;
        pre <- b_and b1 b2 ;;
        lookup3_con b0 b1 b2 pre kx (fvar rx) ;;;
        lookup3_con b0 b1 b2 pre ky (fvar ry) ;;;
        ret (rx, ry)
      else panic
  | _ => panic
  end.
End Fr.
Arguments mkFr {K}. Arguments fval {K}. Arguments fvar {K}.
Arguments fr_alloc {K}. Arguments fr_alloc_input {K}. Arguments fr_inputize {K}. Arguments fr_isnonzero {K}.
Arguments synth_step {K}. Arguments synth_loop {K}. Arguments synth {K}.
Arguments lookup1_x {K}. Arguments lookup2_x {K}. Arguments lookup2_xy {K}. Arguments lookup3_x {K}. Arguments lookup3_xy {K}.
Arguments pick {K A}. Arguments lookup2_con {K}. Arguments lookup3_con {K}. Arguments lift_res {K A}.

Section Range.
Variable K : PFld.
(** rangeproof.rs:132-135, 143-146: the unweighted sum of the bits, coefficient one each. *)
Definition rp_sum (alpha : list var) : lc K := fold_left (fun l v => lc_add_term l 1 v) alpha lc_zero.
(** rangeproof.rs:181-185: the packed sum, coefficients 1, 2, 4, ... *)
Fixpoint rp_pack (l : lc K) (coeff : K) (vs : list var) : lc K :=
  match vs with [] => l | v :: r => rp_pack (lc_add_term l coeff v) (coeff + coeff) r end.
(** rangeproof.rs:70-75: bit [i] of the canonical representation, as a field element. *)
Definition rp_bit (a : K) (i : nat) : K := of_bool (Z.testbit (toZ a) (Z.of_nat i)).
(** rangeproof.rs:91-102: number of set bits, as a field element, then its inverse and
    non-zero flag. *)
Definition rp_count (bits : list K) : K := fold_left (fun acc b => if feqb b 0 then acc else acc + 1) bits 0.
(** rangeproof.rs:14-201 `RangeProof::generate_constraints`. [rb] is the bit length of the
    representation, 64 * NUM_LIMBS; indexing below zero (line 78) is [Panic]. *)
Definition rangeproof (rb : nat) (lhs rhs : option K) (n : nat) : M K unit :=
  l <- alloc (ok_or lhs AssignmentMissing) ;;
  r <- alloc (ok_or rhs AssignmentMissing) ;;
  t <- alloc_input (Ok (of_Z 2 ^ n)) ;;
  let packed := match rhs, lhs with Some r, Some l => Some (of_Z 2 ^ n + r - l) | _, _ => None end in
  p <- alloc (ok_or packed AssignmentMissing) ;;
  let av := match packed with Some i => i | None => 0 end in
  if Nat.ltb rb (n + 1) then panic else
  let bits := map (rp_bit av) (seq 0 n) in
  let top := rp_bit av n in
  alpha <- mapM (fun b => alloc (Ok b)) bits ;;
  le <- alloc (Ok top) ;;
  let sum := rp_count bits in
  let inv_value := if feqb sum 0 then 0 else finv sum in
  let not_all_zeros : K := if feqb sum 0 then 0 else 1 in
  inv <- alloc (Ok inv_value) ;;
  out <- alloc (Ok not_all_zeros) ;;
  enforce (lc_add_var lc_zero ONE) (lc_sub_var (lc_add_var (lc_add_var lc_zero t) r) l) (lc_add_var lc_zero p) ;;;
  mapM (fun b => enforce (lc_sub_term (lc_add_var lc_zero ONE) 1 b) (lc_add_term lc_zero 1 b) lc_zero) (alpha ++ [le]) ;;;
  enforce (lc_add_var lc_zero inv) (rp_sum alpha) (lc_add_var lc_zero out) ;;;
  enforce (lc_sub_var (lc_add_var lc_zero ONE) out) (rp_sum alpha) lc_zero ;;;
  less <- alloc (Ok (if feqb top 0 || feqb not_all_zeros 0 then 0 else 1)) ;;
  enforce (lc_add_var lc_zero le) (lc_add_var lc_zero out) (lc_add_var lc_zero less) ;;;
  enforce (lc_sub_var (lc_add_var lc_zero ONE) out) (lc_add_var lc_zero out) lc_zero ;;;
  enforce (lc_add_var lc_zero ONE) (rp_pack lc_zero 1 (alpha ++ [le])) (lc_add_var lc_zero p) ;;;
  enforce (lc_add_var lc_zero less) (lc_add_var lc_zero ONE) (lc_add_var lc_zero ONE).
End Range.
Arguments rangeproof {K}.
