(** What gadget words denote, and the integer operations they should perform. *)
From Verif Require Import Field ModelLC SpecLC ModelCS SpecCS ModelBoolean SpecBoolean ModelUint32.
Local Open Scope Z_scope.

(** Integer of a little-endian bit list. *)
Definition Z_of_bits (l : list bool) : Z := fold_right (fun b a => Z.b2z b + 2 * a) 0 l.
(** Integer operations on [0, 2^32). *)
Definition rotr32 (n : Z) (k : Z) : Z := (n / 2 ^ k + n * 2 ^ (32 - k)) mod 2 ^ 32.
Definition not32 (n : Z) : Z := 2 ^ 32 - 1 - n.
Definition ch32 (a b c : Z) : Z := Z.lxor (Z.land a b) (Z.land (not32 a) c).
Definition maj32 (a b c : Z) : Z := Z.lxor (Z.lxor (Z.land a b) (Z.land a c)) (Z.land b c).
Definition zsum (l : list Z) : Z := fold_right Z.add 0 l.

Section S.
Context {K : Fld}.
(** Truth value of a gadget boolean under an assignment (false when it is not even a bit). *)
Definition btrue (x : var -> K) (b : boolean) : bool := feqb (bden x b) f1.
(** The boolean is allocated and bit-valued under every satisfying assignment. *)
Definition bool_in (s : cs K) (b : boolean) : Prop :=
  b_alloc_in s b /\ forall x, sat x s -> exists t, means x b t.
(** Integer of a list of gadget booleans, and of a word. *)
Definition bsval (x : var -> K) (bs : list boolean) : Z := Z_of_bits (map (btrue x) bs).
Definition wval (x : var -> K) (u : u32) : Z := bsval x (ubits u).
(** A word of 32 bits, each bit-valued under every satisfying assignment; a cached value is a u32
    that agrees with those bits that are constants. *)
Definition word_in (s : cs K) (u : u32) : Prop :=
  length (ubits u) = 32%nat /\ Forall (bool_in s) (ubits u) /\
  forall v, uval u = Some v -> 0 <= v < 2 ^ 32 /\
    forall i c, nth_error (ubits u) i = Some (BConst c) -> Z.testbit v (Z.of_nat i) = c.
(** Cached values agree with the prover's assignment. *)
Definition word_honest (s : cs K) (u : u32) : Prop :=
  Forall (b_honest s) (ubits u) /\ uval u = Some (wval (wit s) u).
End S.

Section Q.
Context {K : PFld}.
(** The still unflushed combined equality of a packer. *)
Definition pend (x : var -> K) (q : meq K) : Prop := eval x (qlhs q) = eval x (qrhs q).
(** Within the declared width. *)
Definition in_width (x : var -> K) (n : nat) (l : lc K) : Prop :=
  exists v, 0 <= v < 2 ^ Z.of_nat n /\ eval x l = of_Z v.
(** A packer over a system: its variables are allocated, it fits the field, and its two sides are
    within the used width under every satisfying assignment. *)
Definition q_ok (s : cs K) (q : meq K) : Prop :=
  Forall (fun t => allocated s (fst t)) (qlhs q) /\ Forall (fun t => allocated s (fst t)) (qrhs q) /\
  (Z.of_nat (qbits q) <= capacity K) /\
  forall x, sat x s -> in_width x (qbits q) (qlhs q) /\ in_width x (qbits q) (qrhs q).
(** [spec] for code running over a packer: constraints count together with the pending equality. *)
Definition mspec {A} (m : MM K A) (w : cs K * meq K) (W : cs K -> A -> Prop) (S : (var -> K) -> A -> Prop)
  (H : Prop) (HR : cs K -> A -> Prop) : Prop :=
  match m w with
  | Ok (r, w') =>
      ext (fst w) (fst w') /\ wf (fst w') /\ q_ok (fst w') (snd w') /\ W (fst w') r /\
      (forall x, sat x (fst w') -> pend x (snd w') -> pend x (snd w) /\ S x r) /\
      (md (fst w) = Prove -> self_sat (fst w) -> pend (wit (fst w)) (snd w) -> H ->
         self_sat (fst w') /\ pend (wit (fst w')) (snd w') /\ HR (fst w') r)
  | Err e => md (fst w) = Prove /\ (self_sat (fst w) -> pend (wit (fst w)) (snd w) -> ~ H)
  | Panic => False
  end.
(** One call `enforce_equal(num_bits, lhs, rhs)`, and what it declares and claims. *)
Definition call : Type := nat * lc K * lc K.
Definition call_width (x : var -> K) (c : call) : Prop := let '(n, l, r) := c in in_width x n l /\ in_width x n r.
Definition call_eq (x : var -> K) (c : call) : Prop := let '(n, l, r) := c in eval x l = eval x r.
Definition call_run (c : call) : MM K unit := let '(n, l, r) := c in meq_enforce_equal n l r.
End Q.
