(** Theorems C19-C22: complete binary Merkle trees. *)
From Verif Require Import Field ModelCbmt SpecCbmt ProofsCbmt.
Local Open Scope Z_scope.

(** ** C19 *)
Theorem C19_roots_agree : forall (T : Type) (dflt : T) (merge : T -> T -> T) (leaves : list T),
  exists nodes, build_merkle_tree dflt merge leaves = Ok nodes /\
    build_merkle_root dflt merge leaves = Ok (mt_root dflt nodes) /\
    (leaves <> [] -> heap merge leaves nodes) /\ (leaves = [] -> mt_root dflt nodes = dflt).
Proof. exact @roots_agree. Qed.
Print Assumptions C19_roots_agree.

(** ** C20 *)
Theorem C20_proof_verifies : forall (T : Type) (dflt : T) (merge : T -> T -> T) (eqb : T -> T -> bool),
  (forall x y, reflect (x = y) (eqb x y)) -> forall (checks : bool) (leaves : list T) (j : nat) (t : T),
  Z.of_nat (length leaves) <= 2 ^ 31 - 1 -> nth_error leaves j = Some t ->
  exists m r, build_merkle_proof dflt merge checks leaves (Z.of_nat j) = Ok (Some m) /\
    build_merkle_root dflt merge leaves = Ok r /\ mp_verify merge eqb m r t = true.
Proof. exact @proof_complete. Qed.
Print Assumptions C20_proof_verifies.
Theorem C20_out_of_range : forall (T : Type) (dflt : T) (merge : T -> T -> T) (checks : bool) (leaves : list T) (j : Z),
  Z.of_nat (length leaves) <= 2 ^ 31 - 1 -> Z.of_nat (length leaves) <= j -> Z.of_nat (length leaves) + j < 2 ^ 32 ->
  build_merkle_proof dflt merge checks leaves j = Ok None.
Proof. exact @proof_none. Qed.
Print Assumptions C20_out_of_range.
Theorem C20_overflow : forall (T : Type) (dflt : T) (merge : T -> T -> T) (eqb : T -> T -> bool),
  (forall x y, reflect (x = y) (eqb x y)) -> forall (leaves : list T) (j : Z),
  1 <= Z.of_nat (length leaves) <= 2 ^ 31 - 1 -> 0 <= j < 2 ^ 32 -> 2 ^ 32 <= Z.of_nat (length leaves) + j ->
  build_merkle_proof dflt merge true leaves j = Panic /\
  (2 ^ 32 < Z.of_nat (length leaves) + j ->
   exists m r t nodes, build_merkle_proof dflt merge false leaves j = Ok (Some m) /\ mp_index m < Z.of_nat (length leaves) - 1 /\
     build_merkle_root dflt merge leaves = Ok r /\ build_merkle_tree dflt merge leaves = Ok nodes /\
     nth_error nodes (Z.to_nat (mp_index m)) = Some t /\ mp_verify merge eqb m r t = true).
Proof. exact @proof_overflow. Qed.
Print Assumptions C20_overflow.

(** ** C21 *)
Theorem C21_binding : forall (T : Type) (merge : T -> T -> T) (eqb : T -> T -> bool),
  (forall x y, reflect (x = y) (eqb x y)) -> forall (m m' : mproof T) (r leaf leaf' : T),
  mp_index m = mp_index m' -> length (mp_lemmas m) = length (mp_lemmas m') ->
  mp_verify merge eqb m r leaf = true -> mp_verify merge eqb m' r leaf' = true -> leaf <> leaf' ->
  exists a b c d, collision merge eqb leaf leaf' (mp_index m) (mp_lemmas m) (mp_lemmas m') = Some ((a, b), (c, d)) /\
    (a, b) <> (c, d) /\ merge a b = merge c d.
Proof. exact @binding. Qed.
Print Assumptions C21_binding.

(** ** C22 *)
Theorem C22_root_is_a_leaf : forall (T : Type) (merge : T -> T -> T) (eqb : T -> T -> bool),
  (forall x y, reflect (x = y) (eqb x y)) -> forall (i : Z) (r : T), mp_verify merge eqb (mkMP i []) r r = true.
Proof. exact @root_verifies. Qed.
Print Assumptions C22_root_is_a_leaf.
Theorem C22_inner_node_is_a_leaf : forall (T : Type) (dflt : T) (merge : T -> T -> T) (eqb : T -> T -> bool),
  (forall x y, reflect (x = y) (eqb x y)) -> forall (leaves nodes : list T) (i : nat),
  Z.of_nat (length leaves) <= 2 ^ 31 - 1 -> leaves <> [] -> build_merkle_tree dflt merge leaves = Ok nodes ->
  (i < length leaves - 1)%nat ->
  exists m t, nth_error nodes i = Some t /\ mp_index m = Z.of_nat i /\ mp_verify merge eqb m (mt_root dflt nodes) t = true.
Proof. exact @inner_verifies. Qed.
Print Assumptions C22_inner_node_is_a_leaf.
Theorem C22_index_not_bound : forall (T : Type) (merge : T -> T -> T) (eqb : T -> T -> bool) (i t : Z) (ls : list T) (r leaf : T),
  0 < i -> 0 <= t -> 2 ^ Z.of_nat (length ls) <= i + 1 ->
  mp_verify merge eqb (mkMP (i + t * 2 ^ Z.of_nat (length ls)) ls) r leaf = mp_verify merge eqb (mkMP i ls) r leaf.
Proof. exact @index_not_bound. Qed.
Print Assumptions C22_index_not_bound.

(** ** Concrete instances: five leaves, merge [3a + 5b + 1] *)
Definition ex_merge (a b : Z) := 3 * a + 5 * b + 1.
Definition ex_leaves := [10; 20; 30; 40; 50].
Example ex_C19 : build_merkle_root 0 ex_merge ex_leaves = Ok 4548 /\
  build_merkle_tree 0 ex_merge ex_leaves = Ok [4548; 1164; 211; 371; 10; 20; 30; 40; 50].
Proof. split; vm_compute; reflexivity. Qed.
Example ex_C20 : build_merkle_proof 0 ex_merge true ex_leaves 3 = Ok (Some (mkMP 7 [50; 10; 211])) /\
  mp_verify ex_merge Z.eqb (mkMP 7 [50; 10; 211]) 4548 40 = true /\ nth_error ex_leaves 3 = Some 40 /\
  build_merkle_proof 0 ex_merge true ex_leaves 5 = Ok None.
Proof. repeat split; vm_compute; reflexivity. Qed.
(** A leaf index close to 2^32 is answered with a proof for the inner node 1. *)
Example ex_C20_overflow : build_merkle_proof 0 ex_merge false ex_leaves (2 ^ 32 - 3) = Ok (Some (mkMP 1 [211])).
Proof. vm_compute. reflexivity. Qed.
(** Another opening of the same root exists because this merge is not injective. *)
Example ex_C21 : mp_verify ex_merge Z.eqb (mkMP 7 [47; 10; 211]) 4548 45 = true /\
  collision ex_merge Z.eqb 40 45 7 [50; 10; 211] [47; 10; 211] = Some ((40, 50), (45, 47)) /\ ex_merge 40 50 = ex_merge 45 47.
Proof. repeat split; vm_compute; reflexivity. Qed.
Example ex_C22 : mp_verify ex_merge Z.eqb (mkMP 1 [211]) 4548 1164 = true /\
  mp_verify ex_merge Z.eqb (mkMP (7 + 3 * 2 ^ 3) [50; 10; 211]) 4548 40 = true.
Proof. split; vm_compute; reflexivity. Qed.
