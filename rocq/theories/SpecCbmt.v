(** Vocabulary for Merkle tree properties. *)
From Verif Require Import Field ModelCbmt.
Section S.
Context {T : Type}.
Variables (merge : T -> T -> T) (eqb : T -> T -> bool).
(** [nodes] is the complete binary tree over [leaves], root first: the last nodes are the
    leaves and every earlier node is the merge of its two children. *)
Definition heap (leaves nodes : list T) : Prop :=
  length nodes = (2 * length leaves - 1)%nat /\ skipn (length leaves - 1) nodes = leaves /\
  forall i, (i < length leaves - 1)%nat -> exists l r,
    nth_error nodes (2 * i + 1) = Some l /\ nth_error nodes (2 * i + 2) = Some r /\ nth_error nodes i = Some (merge l r).
(** Walk two paths upwards from different starting values until they meet, and return the two
    merge inputs there. *)
Fixpoint collision (p p' : T) (index : Z) (ls ls' : list T) : option ((T * T) * (T * T)) :=
  match ls, ls' with
  | s :: r, s' :: r' =>
    let i := if is_left index then (p, s) else (s, p) in
    let i' := if is_left index then (p', s') else (s', p') in
    let o := merge (fst i) (snd i) in
    let o' := merge (fst i') (snd i') in
    if eqb o o' then Some (i, i') else collision o o' (parent index) r r'
  | _, _ => None
  end.
End S.
