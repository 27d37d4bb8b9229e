(** Model of r1cs: variables, linear combinations, the constraint system. No proofs. *)
From Verif Require Import Field.
Local Open Scope nat_scope.

(** r1cs/src/lib.rs:44-71 `Variable(Index)`, `Index::{Input,Aux}(usize)`.
    usize is modelled by nat (no arithmetic on indices happens in this code). *)
Inductive var := Input (n : nat) | Aux (n : nat).

(** r1cs/src/lib.rs:171-180 `impl Ord for Index`. *)
Definition var_cmp (a b : var) : comparison :=
  match a, b with
  | Input i, Input j | Aux i, Aux j => Nat.compare i j
  | Input _, Aux _ => Lt
  | Aux _, Input _ => Gt
  end.

(** r1cs/src/constraint_system.rs:24-27 `ConstraintSystem::one()`. *)
Definition ONE : var := Input 0.

(** core::slice::binary_search_by (std): size/left/right loop; the fuel is the slice length,
    which bounds the number of iterations (each one at least halves `size`). Rust leaves
    unspecified which of several equal elements is found; the value theorems below use only
    that a found position holds the searched variable. *)
Fixpoint bsearch_loop {A} (fuel : nat) (l : list (var * A)) (v : var) (left right : nat)
  : nat + nat :=
  match fuel with
  | O => inr left
  | S fuel' =>
      if Nat.ltb left right then
        let mid := left + Nat.div (right - left) 2 in
        match nth_error l mid with
        | Some (w, _) =>
            match var_cmp w v with
            | Lt => bsearch_loop fuel' l v (S mid) right
            | Gt => bsearch_loop fuel' l v left mid
            | Eq => inl mid
            end
        | None => inr left
        end
      else inr left
  end.
Definition bsearch {A} (l : list (var * A)) (v : var) : nat + nat :=
  bsearch_loop (length l) l v 0 (length l).

(** r1cs/src/impl_lc.rs:60-72, the linear scan of the short path:
    position of the first variable >= the searched one. *)
Fixpoint scan {A} (l : list (var * A)) (v : var) : nat :=
  match l with
  | [] => 0
  | (w, _) :: r => match var_cmp w v with Lt => S (scan r v) | _ => 0 end
  end.

(** r1cs/src/impl_lc.rs:58-74 `get_var_loc`: [inl i] is `Ok(i)`, [inr i] is `Err(i)`. *)
Definition get_var_loc {A} (l : list (var * A)) (v : var) : nat + nat :=
  if Nat.ltb (length l) 6 then inr (scan l v) else bsearch l v.

(** Vec::insert *)
Definition insert_at {A} (i : nat) (x : A) (l : list A) : list A := firstn i l ++ x :: skipn i l.
(** `self.0[i].1 += c` *)
Fixpoint upd_at {A} (i : nat) (f : A -> A) (l : list A) {struct l} : list A :=
  match l, i with
  | [], _ => []
  | x :: r, O => f x :: r
  | x :: r, S j => x :: upd_at j f r
  end.

Section LC.
Variable K : Fld.
Local Open Scope fld_scope.

(** r1cs/src/lib.rs:182-187 `LinearCombination(SmallVec<(Variable, F)>)`. *)
Definition lc := list (var * K).

(** r1cs/src/impl_lc.rs:14-33 `From<(F, Variable)>`, `From<Variable>`, `zero()`. *)
Definition lc_of (c : K) (v : var) : lc := [(v, c)].
Definition lc_var (v : var) : lc := [(v, 1)].
Definition lc_zero : lc := [].

(** r1cs/src/impl_lc.rs:42-54 `negate_in_place`, `double_in_place`; 106-131 `Neg`, `Mul<F>`. *)
Definition lc_neg (l : lc) : lc := map (fun '(v, c) => (v, - c)) l.
Definition lc_double (l : lc) : lc := map (fun '(v, c) => (v, c + c)) l.
Definition lc_scale (l : lc) (s : K) : lc := map (fun '(v, c) => (v, c * s)) l.

(** r1cs/src/impl_lc.rs:76-95 `Add<(F,Variable)>` / `AddAssign<(F,Variable)>`. *)
Definition lc_add_term (l : lc) (c : K) (v : var) : lc :=
  match get_var_loc l v with
  | inl i => upd_at i (fun '(w, d) => (w, d + c)) l
  | inr i => insert_at i (v, c) l
  end.
(** r1cs/src/impl_lc.rs:97-104 `Sub<(F, Variable)>`. *)
Definition lc_sub_term (l : lc) (c : K) (v : var) : lc := lc_add_term l (- c) v.
(** r1cs/src/impl_lc.rs:133-149 `Add<Variable>`, `Sub<Variable>`. *)
Definition lc_add_var (l : lc) (v : var) : lc := lc_add_term l 1 v.
Definition lc_sub_var (l : lc) (v : var) : lc := lc_sub_term l 1 v.

(** r1cs/src/impl_lc.rs:151-185 `op_impl`: two-pointer merge. *)
Section Merge.
Variables (push : K -> K) (combine : K -> K -> K).
Fixpoint lc_merge (a : lc) : lc -> lc :=
  fix inner (b : lc) : lc :=
    match a, b with
    | [], _ => map (fun '(v, c) => (v, push c)) b
    | _, [] => a
    | (v, c) :: a', (w, d) :: b' =>
        match var_cmp v w with
        | Gt => (w, push d) :: inner b'
        | Lt => (v, c) :: lc_merge a' b
        | Eq => (v, combine c d) :: lc_merge a' b'
        end
    end.
End Merge.

(** r1cs/src/impl_lc.rs:187-257 `Add<LC>` (four ownership variants; 205-221 tests `self`
    before `other`, which gives the same answer). *)
Definition lc_add (a b : lc) : lc :=
  match b, a with
  | [], _ => a
  | _, [] => b
  | _, _ => lc_merge (fun x => x) (fun x y => x + y) a b
  end.
(** r1cs/src/impl_lc.rs:259-338 `Sub<LC>`. *)
Definition lc_sub (a b : lc) : lc :=
  match b, a with
  | [], _ => a
  | _, [] => lc_neg b
  | _, _ => lc_merge (fun x => - x) (fun x y => x - y) a b
  end.
(** r1cs/src/impl_lc.rs:340-417 `Add<(F, LC)>`. *)
Definition lc_add_scaled (a : lc) (s : K) (b : lc) : lc :=
  match b, a with
  | [], _ => a
  | _, [] => lc_scale b s
  | _, _ => lc_merge (fun x => s * x) (fun x y => x + s * y) a b
  end.
(** r1cs/src/impl_lc.rs:419-449 `Sub<(F, LC)>`. *)
Definition lc_sub_scaled (a : lc) (s : K) (b : lc) : lc := lc_add_scaled a (- s) b.

(** ** `ConstraintVar` (r1cs/src/lib.rs:189-196): either a combination or a variable. *)
Inductive cvar := CLC (l : lc) | CVar (v : var).
(** r1cs/src/impl_constraint_var.rs:6-50 conversions and `zero()`. *)
Definition cvar_of_term (c : K) (v : var) : cvar := CLC (lc_of c v).
Definition cvar_of_scaled_lc (c : K) (l : lc) : cvar := CLC (lc_scale l c).
Definition cvar_of_scaled (c : K) (x : cvar) : cvar :=
  match x with CLC l => cvar_of_scaled_lc c l | CVar v => cvar_of_term c v end.
Definition cvar_zero : cvar := CLC lc_zero.
(** impl_constraint_var.rs:52-66, 142-172: negation, doubling, `Mul<F>`. *)
Definition cvar_neg (x : cvar) : cvar :=
  match x with CLC l => CLC (lc_neg l) | CVar v => cvar_of_term (- (1)) v end.
Definition cvar_double (x : cvar) : cvar :=
  match x with CLC l => CLC (lc_double l) | CVar v => cvar_of_term (1 + 1) v end.
Definition cvar_mul (x : cvar) (s : K) : cvar :=
  match x with CLC l => CLC (lc_scale l s) | CVar v => cvar_of_term s v end.
(** impl_constraint_var.rs:69-117: `ConstraintVar + LC`, `ConstraintVar - LC`. *)
Definition cvar_add_lc (x : cvar) (o : lc) : lc :=
  match x with CLC l => lc_add o l | CVar v => lc_add_var o v end.
Definition cvar_sub_lc (x : cvar) (o : lc) : lc :=
  lc_neg (match x with CLC l => lc_sub o l | CVar v => lc_sub_var o v end).
(** impl_constraint_var.rs:119-140,174-198: adding and subtracting terms and variables. *)
Definition cvar_add_term (x : cvar) (c : K) (v : var) : cvar :=
  CLC (match x with CLC l => lc_add_term l c v | CVar w => lc_add_term (lc_var w) c v end).
Definition cvar_sub_term (x : cvar) (c : K) (v : var) : cvar := cvar_add_term x (- c) v.
(** impl_constraint_var.rs:200-250: sums and differences of two ConstraintVars (the by-reference
    versions at 234-250 start from `zero() + self`, [cvar_add_rr]/[cvar_sub_rr]). *)
Definition cvar_lc (x : cvar) : lc := match x with CLC l => l | CVar v => lc_var v end.
Definition cvar_add (x y : cvar) : cvar :=
  CLC (match y with CLC l => lc_add (cvar_lc x) l | CVar v => lc_add_var (cvar_lc x) v end).
Definition cvar_sub (x y : cvar) : cvar :=
  CLC (match y with CLC l => lc_sub (cvar_lc x) l | CVar v => lc_sub_var (cvar_lc x) v end).
Definition cvar_add_rr (x y : cvar) : cvar := cvar_add (cvar_add cvar_zero x) y.
Definition cvar_sub_rr (x y : cvar) : cvar := cvar_sub (cvar_add cvar_zero x) y.
(** impl_constraint_var.rs:252-285 `Add<(F, &Self)>`, `Sub<(F, &Self)>`. *)
Definition cvar_start (x : cvar) : lc := match x with CLC l => l | CVar v => lc_add_var lc_zero v end.
Definition cvar_add_scaled (x : cvar) (c : K) (y : cvar) : cvar :=
  CLC (match y with CLC l => lc_add_scaled (cvar_start x) c l | CVar v => lc_add_term (cvar_start x) c v end).
Definition cvar_sub_scaled (x : cvar) (c : K) (y : cvar) : cvar :=
  CLC (match y with CLC l => lc_sub_scaled (cvar_start x) c l | CVar v => lc_sub_term (cvar_start x) c v end).

End LC.
Arguments lc_of {K}. Arguments lc_var {K}. Arguments lc_zero {K}.
Arguments lc_neg {K}. Arguments lc_double {K}. Arguments lc_scale {K}.
Arguments lc_add_term {K}. Arguments lc_sub_term {K}.
Arguments lc_add_var {K}. Arguments lc_sub_var {K}. Arguments lc_merge {K}.
Arguments lc_add {K}. Arguments lc_sub {K}. Arguments lc_add_scaled {K}. Arguments lc_sub_scaled {K}.
Arguments CLC {K}. Arguments CVar {K}.

(** ** Index codec *)
Local Open Scope Z_scope.
(** u64 / usize little-endian, 8 bytes (ark_serialize for usize writes `*self as u64`). *)
Fixpoint le_bytes (n : nat) (z : Z) : list Z :=
  match n with O => [] | S m => z mod 256 :: le_bytes m (z / 256) end.
Fixpoint of_le_bytes (l : list Z) : Z :=
  match l with [] => 0 | b :: r => b + 256 * of_le_bytes r end.

(** Indices as they are in memory: any usize value. *)
Inductive uindex := UInput (u : Z) | UAux (u : Z).
(** r1cs/src/lib.rs:73-131 `serialize` (the three variants are identical). *)
Definition index_serialize (i : uindex) : list Z :=
  match i with
  | UInput u => 0 :: le_bytes 8 u
  | UAux u => 1 :: le_bytes 8 u
  end.
(** r1cs/src/lib.rs:90-92,128-130 `serialized_size`, `uncompressed_size`. *)
Definition index_serialized_size (_ : uindex) : nat := 1 + 8.
(** r1cs/src/lib.rs:133-163 `deserialize` (the three variants are identical): reads the tag,
    then the 8 bytes; `None` is the reader's error on short input. The unread rest is
    returned. *)
Definition index_deserialize (bs : list Z) : option (uindex * list Z) :=
  match bs with
  | [] => None
  | t :: r =>
      if Nat.ltb (length r) 8 then None
      else
        let u := of_le_bytes (firstn 8 r) in
        Some (if t =? 0 then UInput u else UAux u, skipn 8 r)
  end.
