(** Model of gadgets/src/merkletree/cbmt.rs (complete binary Merkle trees). No proofs.
    Node lists are lists, positions in them naturals; u32 values are integers in [0, 2^32). *)
From Verif Require Import Field.
Local Open Scope Z_scope.

(** A u32 result: out-of-range values panic with overflow checks, otherwise wrap (Rust
    reference, used by every u32 `+`, `-` below; `<<` and `as u32` always drop high bits). *)
Definition u32_arith (checks : bool) (v : Z) : res Z :=
  if (0 <=? v) && (v <? 2 ^ 32) then Ok v else if checks then Panic else Ok (v mod 2 ^ 32).

(** cbmt.rs:219-225 `TreeIndex::sibling`; `self + 1` cannot exceed a type bound for the indices
    [build_proof] passes (below 2^32 - 1). *)
Definition sibling (i : Z) : Z := if i =? 0 then 0 else Z.lxor (i + 1) 1 - 1.
(** cbmt.rs:227-233 `TreeIndex::parent`. *)
Definition parent (i : Z) : Z := if i =? 0 then 0 else Z.shiftr (i - 1) 1.
(** cbmt.rs:235-237 `TreeIndex::is_left`. *)
Definition is_left (i : Z) : bool := Z.land i 1 =? 1.

Section Cbmt.
Context {T : Type}.
Variables (dflt : T) (merge : T -> T -> T) (eqb : T -> T -> bool).

(** cbmt.rs:85-89 `MerkleProof`. *)
Record mproof := mkMP { mp_index : Z; mp_lemmas : list T }.

(** cbmt.rs:115-126: the loop of `MerkleProof::root`. *)
Fixpoint fold_path (p : T) (index : Z) (lemmas : list T) : T :=
  match lemmas with
  | [] => p
  | sib :: r => fold_path (if is_left index then merge p sib else merge sib p) (parent index) r
  end.
(** cbmt.rs:106-129 `MerkleProof::root`. *)
Definition mp_root (m : mproof) (leaf : T) : option T :=
  if (mp_index m =? 0) && negb (Nat.eqb (length (mp_lemmas m)) 0) then None
  else Some (fold_path leaf (mp_index m) (mp_lemmas m)).
(** cbmt.rs:131-136 `MerkleProof::verify`. *)
Definition mp_verify (m : mproof) (root leaf : T) : bool :=
  match mp_root m leaf with Some r => eqb r root | None => false end.

(** cbmt.rs:165-168: `rchunks_exact(2)` walks pairs from the end; the argument is the reversed
    leaf list. Second component: the remainder. *)
Fixpoint rpairs (l : list T) : list T * list T :=
  match l with
  | leaf2 :: leaf1 :: r => let '(q, rem) := rpairs r in (merge leaf1 leaf2 :: q, rem)
  | rem => ([], rem)
  end.
(** cbmt.rs:173-179: the queue loop and the final `pop_front().unwrap()`. [fuel] bounds the
    iterations; running out is [Panic] (proved not to happen). *)
Fixpoint drain (fuel : nat) (q : list T) : res T :=
  match q with
  | [] => Panic
  | [t] => Ok t
  | rgt :: lft :: r => match fuel with O => Panic | S f => drain f (r ++ [merge lft rgt]) end
  end.
(** cbmt.rs:158-180 `build_merkle_root`. *)
Definition build_merkle_root (leaves : list T) : res T :=
  match leaves with
  | [] => Ok dflt
  | _ =>
    let '(q, rem) := rpairs (rev leaves) in
    let q := match rem with [leaf] => leaf :: q | _ => q end in
    drain (length q) q
  end.

(** Vec index assignment, cbmt.rs:190. *)
Fixpoint set_nth (l : list T) (i : nat) (v : T) : res (list T) :=
  match l, i with
  | [], _ => Panic
  | _ :: r, O => Ok (v :: r)
  | a :: r, S j => rbind (set_nth r j v) (fun r' => Ok (a :: r'))
  end.
Definition get_nth (l : list T) (i : nat) : res T := match nth_error l i with Some v => Ok v | None => Panic end.
(** cbmt.rs:188-190: nodes i-1, ..., 0 are filled in this order. *)
Fixpoint fill (i : nat) (nodes : list T) : res (list T) :=
  match i with
  | O => Ok nodes
  | S j => rbind (get_nth nodes (2 * j + 1)) (fun l => rbind (get_nth nodes (2 * j + 2)) (fun r =>
           rbind (set_nth nodes j (merge l r)) (fill j)))
  end.
(** cbmt.rs:182-202 `build_merkle_tree`: the node vector. *)
Definition build_merkle_tree (leaves : list T) : res (list T) :=
  match leaves with
  | [] => Ok []
  | _ => fill (length leaves - 1) (repeat dflt (length leaves - 1) ++ leaves)
  end.
(** cbmt.rs:74-80 `MerkleTree::root`. *)
Definition mt_root (nodes : list T) : T := match nodes with [] => dflt | t :: _ => t end.

(** cbmt.rs:52-64: the sibling-collecting loop. An index below 2^32 leaves after at most 32
    rounds, so 33 rounds of fuel always suffice (proved). *)
Fixpoint collect (fuel : nat) (nodes : list T) (index : Z) : res (list T) :=
  match fuel with
  | O => Panic
  | S f =>
    rbind (get_nth nodes (Z.to_nat (sibling index))) (fun sib =>
    if parent index =? 0 then Ok [sib]
    else rbind (collect f nodes (parent index)) (fun r => Ok (sib :: r)))
  end.
(** cbmt.rs:31-72 `MerkleTree::build_proof`. [checks]: overflow checks of the build. *)
Definition build_proof (checks : bool) (nodes : list T) (leaf_index : Z) : res (option mproof) :=
  match nodes with
  | [] => Ok None
  | _ =>
    let leaves_count := (Z.of_nat (length nodes / 2) + 1) mod 2 ^ 32 in
    rbind (u32_arith checks (leaves_count + leaf_index)) (fun t =>
    rbind (u32_arith checks (t - 1)) (fun index =>
    rbind (u32_arith checks ((leaves_count * 2) mod 2 ^ 32 - 1)) (fun bound =>
    if bound <=? index then Ok None
    else if index =? 0 then Ok (Some (mkMP index []))
    else rbind (collect 33 nodes index) (fun ls => Ok (Some (mkMP index ls))))))
  end.
(** cbmt.rs:204-206 `build_merkle_proof`. *)
Definition build_merkle_proof (checks : bool) (leaves : list T) (leaf_index : Z) : res (option mproof) :=
  rbind (build_merkle_tree leaves) (fun nodes => build_proof checks nodes leaf_index).
End Cbmt.
Arguments mproof : clear implicits.
