(** Model of the example circuits gadgets/examples/merkle_tree_mimc.rs and merkle_tree_sha256.rs,
    and of gadgets/src/merkletree/cbmt_constraints.rs for the SHA-256 hash. No proofs. *)
From Verif Require Import Field ModelLC ModelCS ModelBoolean ModelUint32 ModelOperator ModelCbmt ModelMimc ModelSha256.
Local Open Scope fld_scope.

Section Mimc.
Variable K : PFld.
Variables (nl : nat) (cts : list K).
(** merkle_tree_mimc.rs:14-24 `MergeMimc::merge`: the hash of the bytes of both elements. *)
Definition mimc_merge (l r : K) : res K := hash nl cts (to_bytes nl l ++ to_bytes nl r).
(** mimc.rs:186-199 `AbstractHashMimcOutput::alloc_input`. *)
Definition mout_alloc_input (f : option K) : M K (mout K) :=
  v <- alloc_input (ok_or f AssignmentMissing) ;; ret (mkMO f v).
(** merkle_tree_mimc.rs:28-32, 34-63 `MerkleTreeCircuit::generate_constraints`; every error is
    unwrapped. Line 60 prints. *)
Definition merkle_mimc (proof : option (mproof K)) (root leaf : option K) : M K unit :=
  var_root <- unwrapM (mout_alloc_input root) ;;
  var_leaf <- unwrapM (mout_alloc leaf) ;;
  match proof with
  | None => panic
  | Some p =>
    lemmas <- mapM (fun v => unwrapM (mout_alloc (Some v))) (mp_lemmas p) ;;
    unwrapM (set_membership nl cts (mp_index p) lemmas var_root var_leaf)
  end.
End Mimc.
Arguments mimc_merge {K}. Arguments mout_alloc_input {K}. Arguments merkle_mimc {K}.

Section Sha.
Variable K : PFld.
(** sha256.rs:269-271 and 290-292: the bits of each byte, most significant first. *)
Definition byte_bits (b : Z) : list bool := map (fun i => Z.testbit b (Z.of_nat i)) (rev (seq 0 8)).
Definition bits_of_bytes (bs : list Z) : list bool := flat_map byte_bits bs.
(** sha256.rs:265-284 `AbstractHashSha256Output::alloc`. *)
Definition so_alloc (bytes : list Z) : M K sha_out :=
  bits <- mapM (fun v => bit_alloc (Some v)) (bits_of_bytes bytes) ;;
  ret (mkSO (Some (map BIs bits)) (map bvar bits)).
(** sha256.rs:286-307 `alloc_input`. *)
Definition so_alloc_input (bytes : list Z) : M K sha_out :=
  bits <- mapM (fun v => bit_alloc_input (Some v)) (bits_of_bytes bytes) ;;
  ret (mkSO (Some (map BIs bits)) (map bvar bits)).
(** sha256.rs:318-329 `get_variable_values`: both unwraps panic. *)
Definition so_values (o : sha_out) : res (list K) :=
  match so_value o with
  | None => Panic
  | Some ds => res_map (fun b => match b_value b with Some true => Ok 1 | Some false => Ok 0 | None => Panic end) ds
  end.
(** cbmt_constraints.rs:63-79: one selection constraint per variable both sides have; line 77
    indexes the selected variables. *)
Fixpoint select_vars (vleft : var) (pv sv iv : list var) : M K unit :=
  match pv, sv with
  | p :: pv', w :: sv' =>
    match iv with
    | [] => panic
    | i :: iv' =>
      enforce (lc_add_var lc_zero vleft) (lc_sub_var (lc_add_var lc_zero p) w) (lc_sub_var (lc_add_var lc_zero i) w) ;;;
      select_vars vleft pv' sv' iv'
    end
  | _, _ => ret tt
  end.
(** cbmt_constraints.rs:31-91: one level of `set_membership` for the SHA-256 output. *)
Definition sha_member_step (index : Z) (par sib : sha_out) : M K sha_out :=
  pvals <- lift_res (so_values par) ;;
  svals <- lift_res (so_values sib) ;;
  vleft <- alloc (Ok (if is_left index then 1 else 0)) ;;
  ivars <- mapM (fun v => alloc (Ok v)) (if is_left index then pvals else svals) ;;
  select_vars vleft (so_vars par) (so_vars sib) ivars ;;;
  if is_left index then sha_hash_enforce [par; sib] else sha_hash_enforce [sib; par].
(** cbmt_constraints.rs:27-95: the loop. *)
Fixpoint sha_member_loop (index : Z) (par : sha_out) (lemmas : list sha_out) : M K sha_out :=
  match lemmas with
  | [] => ret par
  | sib :: r => par' <- sha_member_step index par sib ;; sha_member_loop (parent index) par' r
  end.
(** cbmt_constraints.rs:97-111: pairs of last parent and root variables. *)
Fixpoint equal_vars (pv rv : list var) : M K unit :=
  match pv, rv with
  | p :: pv', r :: rv' => enforce (lc_add_var lc_zero p) (lc_add_var lc_zero ONE) (lc_add_var lc_zero r) ;;; equal_vars pv' rv'
  | _, _ => ret tt
  end.
(** cbmt_constraints.rs:21-114 `set_membership`. *)
Definition sha_set_membership (index : Z) (lemmas : list sha_out) (root leaf : sha_out) : M K unit :=
  par <- sha_member_loop index leaf lemmas ;;
  equal_vars (so_vars par) (so_vars root).
(** merkle_tree_sha256.rs:30-34, 36-71 `MerkleTreeCircuit::generate_constraints`; bytes are
    integers in [0, 256). Line 68 prints. *)
Definition merkle_sha (proof : option (mproof (list Z))) (root leaf : option (list Z)) : M K unit :=
  match root with
  | None => panic
  | Some root =>
    var_root <- unwrapM (so_alloc_input root) ;;
    match leaf with
    | None => panic
    | Some leaf =>
      var_leaf <- unwrapM (so_alloc leaf) ;;
      match proof with
      | None => panic
      | Some p =>
        lemmas <- mapM (fun v => unwrapM (so_alloc v)) (mp_lemmas p) ;;
        unwrapM (sha_set_membership (mp_index p) lemmas var_root var_leaf)
      end
    end
  end.
End Sha.
Arguments so_alloc {K}. Arguments so_alloc_input {K}. Arguments so_values {K}. Arguments select_vars {K}. Arguments sha_member_step {K}.
Arguments sha_member_loop {K}. Arguments equal_vars {K}. Arguments sha_set_membership {K}. Arguments merkle_sha {K}.
