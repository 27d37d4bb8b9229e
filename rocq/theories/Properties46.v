(** Theorems C115, C116: the Merkle tree example circuit with the MiMC hash. *)
From Verif Require Import Field Poly Module ModelLC ModelCS SpecCS ModelCbmt SpecCbmt ModelMimc SpecMimc ModelGroth16 SpecGroth16 SpecMode ModelMerkleDemo SpecMerkleDemo ProofsMerkleDemo ProofsMerkleDemo2.
Local Open Scope fld_scope.
Definition usable_hash (K : PFld) (nl : nat) (cts : list K) : Prop := (0 < nl)%nat /\ (pmod K <= 2 ^ (64 * Z.of_nat nl))%Z /\ cts <> [].

(** ** C115 *)
Theorem C115_merge : forall (K : PFld) (nl : nat) (cts : list K) (l r : K), usable_hash K nl cts -> mimc_merge nl cts l r = Ok (mimc2 cts l r).
Proof. intros K nl cts l r (A & B & C). exact (merge_value K nl cts l r A B). Qed.
Print Assumptions C115_merge.
Theorem C115_prover_run : forall (K : PFld) (nl : nat) (cts : list K) (p : mproof K) (root leaf : K), usable_hash K nl cts -> (0 <= mp_index p)%Z ->
  exists s, merkle_mimc nl cts (Some p) (Some root) (Some leaf) (cs_new Prove) = Ok (tt, s) /\ wf s /\ inps s = [1; root] /\
    (self_sat s <-> climb (mimc2 cts) leaf (mp_index p) (mp_lemmas p) = root).
Proof.
  intros K nl cts p root leaf (A & B & C) I. destruct (merkle_run K nl cts A B C p root leaf) as (s & E & W & In & _ & S). exists s. rewrite (fold_climb _ _ _ _ I) in S. auto.
Qed.
Print Assumptions C115_prover_run.
Theorem C115_tree : forall (K : PFld) (nl : nat) (cts : list K) (checks : bool) (leaves : list K) (j : nat) (leaf : K), usable_hash K nl cts ->
  (Z.of_nat (length leaves) <= 2 ^ 31 - 1)%Z -> nth_error leaves j = Some leaf ->
  exists m r s, build_merkle_proof 0 (mimc2 cts) checks leaves (Z.of_nat j) = Ok (Some m) /\ build_merkle_root 0 (mimc2 cts) leaves = Ok r /\
    merkle_mimc nl cts (Some m) (Some r) (Some leaf) (cs_new Prove) = Ok (tt, s) /\ self_sat s /\ inps s = [1; r].
Proof.
  intros K nl cts checks leaves j leaf (A & B & C) HL E. destruct (tree_path K cts checks leaves j leaf HL E) as (m & r & Em & Er & I & F). destruct (merkle_run K nl cts A B C m r leaf) as (s & Es & _ & In & _ & S). exists m, r, s. tauto.
Qed.
Print Assumptions C115_tree.
Theorem C115_same_circuit : forall (K : PFld) (nl : nat) (cts : list K) (p p' : mproof K) (root leaf leaf' : K) (root' : option K), usable_hash K nl cts ->
  exists s s', merkle_mimc nl cts (Some p) (Some root) (Some leaf) (cs_new Prove) = Ok (tt, s) /\ merkle_mimc nl cts (Some p') root' (Some leaf') (cs_new Setup) = Ok (tt, s') /\
    length (cons s) = (length (mp_lemmas p) * (1 + 2 * length cts) + 1)%nat /\ length (cons s') = (length (mp_lemmas p') * (1 + 2 * length cts) + 1)%nat /\
    (SpecMode.same_shape s s' <-> length (mp_lemmas p) = length (mp_lemmas p')).
Proof.
  intros K nl cts p p' root leaf leaf' root' (A & B & C). destruct (merkle_run K nl cts A B C p root leaf) as (s & E & _). destruct (merkle_same K nl cts A B C p' p' root root' leaf leaf' Setup eq_refl eq_refl) as (_ & s' & _ & E' & _).
  exists s, s'. split; [exact E|]. split; [exact E'|]. exact (merkle_differ K nl cts A B C p p' root root' leaf leaf' s s' E E').
Qed.
Print Assumptions C115_same_circuit.
Theorem C115_groth16_accepts : forall (K : PFld) (PR : Pairing K) dnew (nl : nat) (cts : list K) (p p' : mproof K) (root leaf leaf' : K) (root' : option K) (al be ga de t r s : K) (h1 : G1 PR) (h2 : G2 PR) pp,
  dom_family dnew -> usable_hash K nl cts -> (0 <= mp_index p)%Z -> length (mp_lemmas p) = length (mp_lemmas p') -> climb (mimc2 cts) leaf (mp_index p) (mp_lemmas p) = root ->
  generate_parameters K PR dnew (merkle_mimc nl cts (Some p') root' (Some leaf')) al be ga de t h1 h2 = Ok pp ->
  exists pf, create_proof K PR dnew pp (merkle_mimc nl cts (Some p) (Some root) (Some leaf)) r s = Ok pf /\ verify_proof K PR (prepare K PR (pvk K PR pp)) pf [root] = Ok true.
Proof.
  intros K PR dnew nl cts p p' root leaf leaf' root' al be ga de t r s h1 h2 pp DF (A & B & C) I L F. rewrite <- (fold_climb _ _ _ _ I) in F. exact (merkle_groth K PR dnew DF nl cts A B C p p' root root' leaf leaf' al be ga de t h1 h2 pp r s L F).
Qed.
Print Assumptions C115_groth16_accepts.
Theorem C115_missing_values : forall (K : PFld) (nl : nat) (cts : list K) (p : mproof K) (po : option (mproof K)) (root leaf : option K) (s : cs K), (0 < nl)%nat -> wf s ->
  (md s = Setup -> mp_lemmas p <> [] -> merkle_mimc nl cts (Some p) root None s = Panic) /\
  (md s = Setup -> merkle_mimc nl cts None root leaf s = Panic) /\
  (md s = Prove -> root = None \/ leaf = None \/ po = None -> merkle_mimc nl cts po root leaf s = Panic).
Proof.
  intros K nl cts p po root leaf s N W. split; [exact (merkle_no_leaf K nl cts N p root s W)|]. split; [intro M; apply merkle_no_proof; auto|]. intros M H.
  destruct root as [root|]; [|apply merkle_missing; auto]. destruct leaf as [leaf|]; [|apply merkle_missing; auto]. destruct H as [H|[H| ->]]; try discriminate. apply merkle_no_proof. right. split; discriminate.
Qed.
Print Assumptions C115_missing_values.

(** ** C116 *)
Theorem C116_any_root_accepted : forall (K : PFld) (PR : Pairing K) dnew (nl : nat) (cts : list K) (p : mproof K) (root : option K) (leaf : K) (al be ga de t : K) (h1 : G1 PR) (h2 : G2 PR) pp,
  dom_family dnew -> usable_hash K nl cts -> mp_lemmas p <> [] -> generate_parameters K PR dnew (merkle_mimc nl cts (Some p) root (Some leaf)) al be ga de t h1 h2 = Ok pp ->
  forall y : K, exists pf, verify_proof K PR (prepare K PR (pvk K PR pp)) pf [y] = Ok true.
Proof. intros K PR dnew nl cts p root leaf al be ga de t h1 h2 pp DF (A & B & C). exact (merkle_any_root K PR dnew DF nl cts A B C p root leaf al be ga de t h1 h2 pp). Qed.
Print Assumptions C116_any_root_accepted.
Theorem C116_any_root_satisfiable : forall (K : PFld) (nl : nat) (cts : list K) (p : mproof K) (root leaf : option K) (s : cs K), (0 < nl)%nat ->
  mp_lemmas p <> [] -> merkle_mimc nl cts (Some p) root leaf (cs_new Setup) = Ok (tt, s) -> forall y z : K, exists x, sat x s /\ x (Input 1) = y /\ x (Aux 0) = z.
Proof. intros K nl cts p root leaf s N NE E. exact (proj2 (proj2 (merkle_open K nl cts N p root leaf s NE E))). Qed.
Print Assumptions C116_any_root_satisfiable.
Theorem C116_path_length : forall (T : Type) (dflt : T) (merge : T -> T -> T) (checks : bool) (leaves : list T) (j : nat) (m : mproof T),
  (Z.of_nat (length leaves) <= 2 ^ 31 - 1)%Z -> (j < length leaves)%nat -> build_merkle_proof dflt merge checks leaves (Z.of_nat j) = Ok (Some m) ->
  mp_index m = (Z.of_nat (length leaves + j) - 1)%Z /\ Z.of_nat (length (mp_lemmas m)) = Z.log2 (Z.of_nat (length leaves + j)).
Proof. exact @path_length. Qed.
Print Assumptions C116_path_length.
Theorem C116_one_key_for_all_leaves : forall (T : Type) (dflt : T) (merge : T -> T -> T) (checks : bool) (leaves : list T), leaves <> [] -> (Z.of_nat (length leaves) <= 2 ^ 31 - 1)%Z ->
  ((forall i j m m', (i < length leaves)%nat -> (j < length leaves)%nat -> build_merkle_proof dflt merge checks leaves (Z.of_nat i) = Ok (Some m) ->
      build_merkle_proof dflt merge checks leaves (Z.of_nat j) = Ok (Some m') -> length (mp_lemmas m) = length (mp_lemmas m')) <->
   exists k, (0 <= k /\ Z.of_nat (length leaves) = 2 ^ k)%Z).
Proof. exact @uniform_iff. Qed.
Print Assumptions C116_one_key_for_all_leaves.

(** ** Concrete instances: a tree of three leaves with two path lengths *)
From Verif Require Import Gold Properties2 Properties5.
Section Ex.
Let K : PFld := Fg.
Definition exm_leaves : list K := map of_Z [11; 22; 33]%Z.
Definition exm_run (j : Z) : bool * nat * nat :=
  match build_merkle_proof f0 (mimc2 ex_cts) true exm_leaves j, build_merkle_root f0 (mimc2 ex_cts) exm_leaves, nth_error exm_leaves (Z.to_nat j) with
  | Ok (Some m), Ok r, Some l =>
    match merkle_mimc 1 ex_cts (Some m) (Some r) (Some l) (cs_new Prove) with Ok (_, s) => (sat_b s, length (cons s), length (mp_lemmas m)) | _ => (false, 0%nat, 0%nat) end
  | _, _, _ => (false, 0%nat, 0%nat) end.
Example ex_C115 : usable_hash K 1 ex_cts /\ exm_run 0 = (true, 10%nat, 1%nat) /\ exm_run 1 = (true, 19%nat, 2%nat) /\ exm_run 2 = (true, 19%nat, 2%nat).
Proof. split; [split; [lia|split; [vm_compute; discriminate|discriminate]]|]. repeat split; vm_compute; reflexivity. Qed.
(** A wrong root: the prover's own values fail, yet the system has a solution. *)
Example ex_C116 : match merkle_mimc 1 ex_cts (Some (mkMP 3 [of_Z 22])) (Some (of_Z 5)) (Some (of_Z 11)) (cs_new (K := K) Prove) with Ok (_, s) => sat_b s = false | _ => False end /\
  match merkle_mimc 1 ex_cts (Some (mkMP 3 [of_Z 22])) (Some (of_Z 5)) (Some (of_Z 11)) (cs_new (K := K) Setup) with Ok (_, s) => length (cons s) = 10%nat | _ => False end.
Proof. split; vm_compute; reflexivity. Qed.
End Ex.
