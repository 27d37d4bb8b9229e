(** Theorems C117, C118: the Merkle tree example circuit with SHA-256. *)
From Verif Require Import Field Poly Module ModelLC ModelCS SpecCS ModelUint32 ModelCbmt SpecCbmt ModelSha256 SpecSha256 ModelGroth16 SpecGroth16 SpecMode ModelMerkleDemo SpecMerkleDemo ProofsMerkleDemo ProofsMerkleSha ProofsMerkleSha2.
Local Open Scope fld_scope.
(** Where the path leads, as a bit string. *)
Definition sha_path (p : mproof (list Z)) (leaf : list Z) : list bool := climb sha_join (bytes_bits leaf) (mp_index p) (map bytes_bits (mp_lemmas p)).
(** The public inputs for a root. *)
Definition root_inputs (K : PFld) (root : list Z) : list K := map (fun t : bool => if t then 1 else 0) (bytes_bits root).
(** Same turns, same numbers of bytes everywhere. *)
Definition same_sizes (p p' : mproof (list Z)) (root root' leaf leaf' : list Z) : Prop :=
  mp_index p = mp_index p' /\ map (@length Z) (mp_lemmas p) = map (@length Z) (mp_lemmas p') /\ length root = length root' /\ length leaf = length leaf'.

(** ** C117 *)
Theorem C117_prover_run : forall (K : PFld) (p : mproof (list Z)) (root leaf : list Z), (64 <= modulus_bits K)%Z -> (0 <= mp_index p)%Z ->
  length (sha_path p leaf) = (if mp_lemmas p then 8 * length leaf else 256)%nat /\
  exists s : cs K, merkle_sha (Some p) (Some root) (Some leaf) (cs_new Prove) = Ok (tt, s) /\ wf s /\ inps s = 1 :: root_inputs K root /\
    (self_sat s <-> firstn (8 * length root) (sha_path p leaf) = firstn (length (sha_path p leaf)) (bytes_bits root)).
Proof. intros K p root leaf K64 I. unfold sha_path. rewrite <- (fold_climb sha_join _ _ _ I). exact (sha_run K K64 p root leaf). Qed.
Print Assumptions C117_prover_run.
Theorem C117_true_root : forall (K : PFld) (p : mproof (list Z)) (root leaf : list Z), (64 <= modulus_bits K)%Z -> (0 <= mp_index p)%Z -> length root = 32%nat -> mp_lemmas p <> [] ->
  exists s : cs K, merkle_sha (Some p) (Some root) (Some leaf) (cs_new Prove) = Ok (tt, s) /\ (self_sat s <-> sha_path p leaf = bytes_bits root).
Proof.
  intros K p root leaf K64 I L NE. destruct (C117_prover_run K p root leaf K64 I) as (Lv & s & E & _ & _ & S). exists s. split; [exact E|]. rewrite S, L.
  destruct (mp_lemmas p) as [|w l]; [congruence|]. assert (length (bytes_bits root) = 256%nat) as Lb by (rewrite <- bits_bytes, bits_len, L; reflexivity).
  rewrite Lv. change (8 * 32)%nat with 256%nat. rewrite <- Lv at 1. rewrite <- Lb. rewrite !firstn_all. reflexivity.
Qed.
Print Assumptions C117_true_root.
Theorem C117_tree : forall (K : PFld) (dflt : list Z) (checks : bool) (leaves : list (list Z)) (j : nat) (leaf : list Z), (64 <= modulus_bits K)%Z ->
  (Z.of_nat (length leaves) <= 2 ^ 31 - 1)%Z -> nth_error leaves j = Some leaf ->
  exists m r (s : cs K), build_merkle_proof dflt sha_merge checks leaves (Z.of_nat j) = Ok (Some m) /\ build_merkle_root dflt sha_merge leaves = Ok r /\ sha_path m leaf = bytes_bits r /\
    merkle_sha (Some m) (Some r) (Some leaf) (cs_new Prove) = Ok (tt, s) /\ self_sat s /\ inps s = 1 :: root_inputs K r.
Proof.
  intros K dflt checks leaves j leaf K64 HL E. destruct (sha_tree dflt checks leaves j leaf HL E) as (m & r & Em & Er & I & F). rewrite (fold_climb _ _ _ _ I) in F. change (sha_path m leaf = bytes_bits r) in F.
  destruct (C117_prover_run K m r leaf K64 I) as (_ & s & Es & _ & In & S). exists m, r, s. do 4 (split; [assumption|]). split; [|exact In]. apply S. rewrite F, <- (bits_bytes r), <- (bits_len r). reflexivity.
Qed.
Print Assumptions C117_tree.
Theorem C117_same_circuit : forall (K : PFld) (p p' : mproof (list Z)) (root root' leaf leaf' : list Z), (64 <= modulus_bits K)%Z -> same_sizes p p' root root' leaf leaf' ->
  exists s s' : cs K, merkle_sha (Some p) (Some root) (Some leaf) (cs_new Prove) = Ok (tt, s) /\ merkle_sha (Some p') (Some root') (Some leaf') (cs_new Setup) = Ok (tt, s') /\ SpecMode.same_shape s s'.
Proof. intros K p p' root root' leaf leaf' K64 (A & B & C & D). exact (sha_same K K64 p p' root root' leaf leaf' A B C D). Qed.
Print Assumptions C117_same_circuit.
Theorem C117_groth16_accepts : forall (K : PFld) (PR : Pairing K) dnew (p p' : mproof (list Z)) (root root' leaf leaf' : list Z) (al be ga de t r s : K) (h1 : G1 PR) (h2 : G2 PR) pp,
  dom_family dnew -> (64 <= modulus_bits K)%Z -> (0 <= mp_index p)%Z -> same_sizes p p' root root' leaf leaf' -> sha_path p leaf = bytes_bits root ->
  generate_parameters K PR dnew (merkle_sha (Some p') (Some root') (Some leaf')) al be ga de t h1 h2 = Ok pp ->
  exists pf, create_proof K PR dnew pp (merkle_sha (Some p) (Some root) (Some leaf)) r s = Ok pf /\ verify_proof K PR (prepare K PR (pvk K PR pp)) pf (root_inputs K root) = Ok true.
Proof.
  intros K PR dnew p p' root root' leaf leaf' al be ga de t r s h1 h2 pp DF K64 I (A & B & C & D) F. unfold sha_path in F. rewrite <- (fold_climb sha_join _ _ _ I) in F. exact (sha_groth K PR dnew DF K64 p p' root root' leaf leaf' al be ga de t h1 h2 pp r s A B C D F).
Qed.
Print Assumptions C117_groth16_accepts.
Theorem C117_missing_values : forall (K : PFld) (po : option (mproof (list Z))) (root leaf : option (list Z)) (s : cs K), po = None \/ root = None \/ leaf = None -> merkle_sha po root leaf s = Panic.
Proof. exact @sha_missing. Qed.
Print Assumptions C117_missing_values.

(** ** C118 *)
Theorem C118_any_root_satisfiable : forall (K : PFld) (p : mproof (list Z)) (root leaf : list Z) (s : cs K), (64 <= modulus_bits K)%Z -> mp_lemmas p <> [] ->
  merkle_sha (Some p) (Some root) (Some leaf) (cs_new Setup) = Ok (tt, s) -> forall y, length y = length root -> exists x, sat x s /\ map (fun i => x (Input i)) (seq 1 (length (inps s) - 1)) = root_inputs K y.
Proof. intros K p root leaf s K64 NE E y L. exact (proj2 (sha_any K K64 p root leaf s NE E y L)). Qed.
Print Assumptions C118_any_root_satisfiable.
Theorem C118_any_root_accepted : forall (K : PFld) (PR : Pairing K) dnew (p : mproof (list Z)) (root leaf : list Z) (al be ga de t : K) (h1 : G1 PR) (h2 : G2 PR) pp,
  dom_family dnew -> (64 <= modulus_bits K)%Z -> mp_lemmas p <> [] -> generate_parameters K PR dnew (merkle_sha (Some p) (Some root) (Some leaf)) al be ga de t h1 h2 = Ok pp ->
  forall y, length y = length root -> exists pf, verify_proof K PR (prepare K PR (pvk K PR pp)) pf (root_inputs K y) = Ok true.
Proof. intros K PR dnew p root leaf al be ga de t h1 h2 pp DF K64. exact (sha_any_root K PR dnew DF K64 p root leaf al be ga de t h1 h2 pp). Qed.
Print Assumptions C118_any_root_accepted.
(** A short root is compared on its own bits only; an empty one accepts every leaf. *)
Theorem C118_short_roots : forall (K : PFld) (p : mproof (list Z)) (root leaf : list Z), (64 <= modulus_bits K)%Z -> (0 <= mp_index p)%Z -> mp_lemmas p <> [] -> (length root <= 32)%nat ->
  exists s : cs K, merkle_sha (Some p) (Some root) (Some leaf) (cs_new Prove) = Ok (tt, s) /\ (self_sat s <-> exists rest, sha_path p leaf = bytes_bits root ++ rest).
Proof.
  intros K p root leaf K64 I NE L. destruct (C117_prover_run K p root leaf K64 I) as (Lv & s & E & _ & _ & S). exists s. split; [exact E|]. rewrite S. destruct (mp_lemmas p) as [|w l]; [congruence|].
  pose proof (bits_len root) as Lb. rewrite bits_bytes in Lb. rewrite (firstn_all2 (bytes_bits root)) by lia. split.
  - intro Q. exists (skipn (8 * length root) (sha_path p leaf)). rewrite <- Q. symmetry. apply firstn_skipn.
  - intros [rest ->]. rewrite <- Lb, firstn_app, Nat.sub_diag, firstn_O, app_nil_r. apply firstn_all.
Qed.
Print Assumptions C118_short_roots.

(** ** Concrete instances *)
From Verif Require Import Gold Properties2 Properties7.
Section Ex.
Let K : PFld := Fg.
(** A single leaf, evaluated: the root is the leaf. *)
Definition exs_run (root leaf : list Z) : bool * nat :=
  match merkle_sha (K := K) (Some (mkMP 0 [])) (Some root) (Some leaf) (cs_new Prove) with Ok (_, s) => (sat_b s, length (cons s)) | _ => (false, 0%nat) end.
Example ex_C117_leaf : exs_run [171; 5]%Z [171; 5]%Z = (true, 48%nat) /\ exs_run [171; 6]%Z [171; 5]%Z = (false, 48%nat) /\ exs_run []%Z [171; 5]%Z = (true, 16%nat).
Proof. repeat split; vm_compute; reflexivity. Qed.
(** Two leaves of 32 bytes, as in the example program. *)
Example ex_C117_tree : exists m r (s : cs K), build_merkle_proof [] sha_merge true [repeat 1 32; repeat 2 32]%Z 1 = Ok (Some m) /\ build_merkle_root [] sha_merge [repeat 1 32; repeat 2 32]%Z = Ok r /\
  merkle_sha (Some m) (Some r) (Some (repeat 2 32)%Z) (cs_new Prove) = Ok (tt, s) /\ self_sat s.
Proof. destruct (C117_tree K [] true [repeat 1 32; repeat 2 32]%Z 1 (repeat 2 32)%Z Fg64) as (m & r & s & A & B & _ & C & D & _); [cbn; lia|reflexivity|]. exists m, r, s. auto. Qed.
(** The all-zero tree as key material, another leaf and another root in the proof. *)
Example ex_C118 : exists s : cs K, merkle_sha (Some (mkMP 2 [repeat 0%Z 32])) (Some (repeat 0%Z 32)) (Some (repeat 0%Z 32)) (cs_new Setup) = Ok (tt, s) /\
  exists x, sat x s /\ map (fun i => x (Input i)) (seq 1 (length (inps s) - 1)) = root_inputs K (repeat 255%Z 32).
Proof.
  destruct (C117_same_circuit K (mkMP 2 [repeat 7 32]) (mkMP 2 [repeat 0 32]) (repeat 9 32) (repeat 0 32) (repeat 3 32) (repeat 0 32))%Z as (s & s' & _ & E & _); [exact Fg64|repeat split|]. exists s'. split; [exact E|].
  refine (C118_any_root_satisfiable K _ _ _ s' Fg64 _ E _ _); [discriminate|reflexivity].
Qed.
End Ex.
