(** Model of the multilinear-extension helpers shared by libra, hyrax and spartan. No proofs. *)
From Verif Require Export Field Poly ModelBulletproofs.
From Coq Require Export List.
Local Open Scope fld_scope.
Section Mle.
Variable K : Fld.
(** The inner loop of `eval_eq` (libra/src/evaluate.rs:63-66): the first `size` entries become twice as many. The array is read at
    `j < size` and written at `j` and `size + j`, so the new prefix is the scaled prefix followed by the other scaled prefix;
    the entries behind it, still one, are not represented. *)
Definition eq_step (evals : list K) (scalar : K) : list K :=
  map (fun e => (1 - scalar) * e) evals ++ map (fun e => scalar * e) evals.
(** libra/src/evaluate.rs:54-70, hyrax/src/evaluate.rs:61-77, spartan/src/polynomial.rs:8-24 `eval_eq`: the scalars are taken
    from the last to the first. *)
Definition eval_eq (rx : list K) : list K := fold_left eq_step (rev rx) [1].
(** libra/src/evaluate.rs:72-76, hyrax/src/evaluate.rs:111-115 `eval_value`: indexing past the table panics. *)
Definition eval_value (value r : list K) : res K :=
  let eq_vec := eval_eq r in if Nat.leb (length value) (length eq_vec) then Ok (dot value eq_vec) else Panic.
(** libra/src/evaluate.rs:35-41, hyrax/src/evaluate.rs:52-58, spartan/src/polynomial.rs:26-32 `eval_eq_x_y`. *)
Definition eval_eq_x_y (rx ry : list K) : res K :=
  if Nat.eqb (length rx) (length ry)
  then Ok (fprod (map (fun p => (1 - fst p) * (1 - snd p) + fst p * snd p) (combine rx ry))) else Panic.
(** The body of `combine_with_r` (libra/src/evaluate.rs:44-50, hyrax/src/evaluate.rs:102-108, spartan/src/polynomial.rs:121-138
    as `combine_with_n` and, in place, `combine_with_r`: position `i` is written after it was read and `i + len` is never written). *)
Definition comb (r : K) (values : list K) : list K :=
  let len := (length values / 2)%nat in
  map (fun i => r * nth (i + len) values 0 + (1 - r) * nth i values 0) (seq 0 len).
(** libra/src/evaluate.rs:43-51 and copies: `assert!(len.is_power_of_two())`. *)
Definition combine_with_r (values : list K) (r : K) : res (list K) :=
  if is_pow2 (length values / 2) then Ok (comb r values) else Panic.
(** spartan/src/polynomial.rs:140-147 `bound_poly_var_bot`: in place, but position `i` only depends on positions `2i`, `2i+1`, which
    are not yet overwritten (`2i >= i`, and for `i = 0` position 0 is read before it is written). *)
Definition bound_poly_var_bot (values : list K) (r : K) : res (list K) :=
  let len := (length values / 2)%nat in
  if is_pow2 len then Ok (map (fun i => r * nth (2 * i + 1) values 0 + (1 - r) * nth (2 * i) values 0) (seq 0 len)) else Panic.
(** The closure of `sparse_evaluate_value` (spartan/src/polynomial.rs:47-52): bit `j` counts from the most significant of the
    `num_bits` low bits of `i`; higher bits of `i` are ignored. *)
Definition eq_at (i : nat) (r : list K) : K :=
  let num_bits := length r in
  fprod (map (fun j => if Nat.testbit i (num_bits - j - 1) then nth j r 0 else 1 - nth j r 0) (seq 0 num_bits)).
(** spartan/src/polynomial.rs:40-58 `sparse_evaluate_value`: zeros are filtered out first and only then are the values numbered. *)
Definition sparse_evaluate_value (value r : list K) : K :=
  let vs := filter (fun v => negb (feqb v 0)) value in
  fsum (map (fun p => eq_at (fst p) r * snd p) (combine (seq 0 (length vs)) vs)).
End Mle.
