(** Path lengths, and Groth16 proofs for the MiMC Merkle example circuit. *)
From Verif Require Import Field Poly Module ModelLC SpecLC ModelCS SpecCS ProofsCS ModelCbmt SpecCbmt ProofsCbmt ModelMimc SpecMimc ModelGroth16 SpecGroth16 ProofsGroth16 ProofsLC ProofsCliMain5 SpecMode ModelMerkleDemo SpecMerkleDemo ProofsMerkleDemo.
Section T.
Context {T : Type}.
Variables (dflt : T) (merge : T -> T -> T).
Local Open Scope Z_scope.
Lemma collect_length (nodes : list T) : forall fuel i (ls : list T), 0 < i -> collect fuel nodes i = Ok ls -> Z.of_nat (length ls) = Z.log2 (i + 1).
Proof.
  induction fuel as [|f IH]; intros i ls Hi E; cbn [collect] in E; [discriminate|].
  destruct (get_nth nodes (Z.to_nat (sibling i))) as [sib| |]; cbn [rbind] in E; try discriminate.
  destruct (child_cases i Hi) as (p & Hp & EP & C). rewrite EP in E.
  assert (Z.log2 (i + 1) = Z.succ (Z.log2 (p + 1))) as L.
  { destruct C as [(_ & Ei & _)|(_ & Ei & _)]; rewrite Ei.
    - replace (2 * p + 1 + 1) with (2 * (p + 1)) by lia. apply Z.log2_double. lia.
    - replace (2 * p + 2 + 1) with (2 * (p + 1) + 1) by lia. apply Z.log2_succ_double. lia. }
  rewrite L. clear L C. destruct (Z.eqb_spec p 0) as [P0|NP].
  - injection E as <-. rewrite P0. reflexivity.
  - destruct (collect f nodes p) as [r| |] eqn:Er; cbn [rbind] in E; try discriminate. injection E as <-. cbn [length]. rewrite Nat2Z.inj_succ, (IH p r ltac:(lia) Er). reflexivity.
Qed.
(** The path of a leaf: its position and length. *)
Theorem path_length checks (leaves : list T) j m : Z.of_nat (length leaves) <= 2 ^ 31 - 1 -> (j < length leaves)%nat -> build_merkle_proof dflt merge checks leaves (Z.of_nat j) = Ok (Some m) ->
  mp_index m = Z.of_nat (length leaves + j) - 1 /\ Z.of_nat (length (mp_lemmas m)) = Z.log2 (Z.of_nat (length leaves + j)).
Proof.
  intros HL Hj. assert (leaves <> []) as NE by (intros ->; cbn in Hj; lia). destruct (tree_heap dflt merge leaves NE) as (nodes & ET & HH). unfold build_merkle_proof. rewrite ET. cbn [rbind].
  rewrite (build_proof_unfold merge checks leaves nodes _ HH NE HL). rewrite u32_ok by lia. cbn [rbind]. rewrite u32_ok by lia. cbn [rbind].
  destruct (Z.leb_spec (2 * Z.of_nat (length leaves) - 1) (Z.of_nat (length leaves) + Z.of_nat j - 1)); [lia|].
  unfold node_proof. replace (Z.of_nat (length leaves + j)) with (Z.of_nat (length leaves) + Z.of_nat j) by lia. set (i := Z.of_nat (length leaves) + Z.of_nat j - 1).
  replace (Z.of_nat (length leaves) + Z.of_nat j) with (i + 1) by (unfold i; lia). destruct (Z.eqb_spec i 0) as [E0|N0].
  - intro E. injection E as <-. cbn. rewrite E0. split; reflexivity.
  - destruct (collect 33 nodes i) as [ls| |] eqn:El; cbn [rbind]; try discriminate. intro E. injection E as <-. cbn [mp_index mp_lemmas]. split; [reflexivity|]. apply (collect_length nodes 33); [unfold i in *; lia|exact El].
Qed.
Lemma log2_flat n : 1 <= n -> ((forall j, 0 <= j < n -> Z.log2 (n + j) = Z.log2 n) <-> exists k, 0 <= k /\ n = 2 ^ k).
Proof.
  intro Hn. split.
  - intro H. exists (Z.log2 n). split; [apply Z.log2_nonneg|]. destruct (Z.log2_spec n ltac:(lia)) as [A B]. rewrite Z.pow_succ_r in B by apply Z.log2_nonneg.
    assert (~ 2 ^ Z.log2 n < n); [|lia]. intro C. set (q := 2 ^ Z.log2 n) in *. specialize (H (2 * q - n) ltac:(lia)). replace (n + (2 * q - n)) with (2 * q) in H by lia. unfold q in H. rewrite <- Z.pow_succ_r, Z.log2_pow2 in H by (pose proof (Z.log2_nonneg n); lia). lia.
  - intros (k & Hk & ->) j Hj. rewrite Z.log2_pow2 by exact Hk. apply Z.log2_unique; [exact Hk|]. rewrite Z.pow_succ_r by exact Hk. lia.
Qed.
(** All leaves of a tree have paths of the same length exactly when there are a power of two of them. *)
Theorem uniform_iff checks (leaves : list T) : (leaves <> []) -> Z.of_nat (length leaves) <= 2 ^ 31 - 1 ->
  ((forall i j m m', (i < length leaves)%nat -> (j < length leaves)%nat -> build_merkle_proof dflt merge checks leaves (Z.of_nat i) = Ok (Some m) -> build_merkle_proof dflt merge checks leaves (Z.of_nat j) = Ok (Some m') -> length (mp_lemmas m) = length (mp_lemmas m')) <->
   exists k, 0 <= k /\ Z.of_nat (length leaves) = 2 ^ k).
Proof.
  intros NE HL. assert (1 <= length leaves)%nat as H1 by (destruct leaves; [congruence|cbn; lia]). rewrite <- log2_flat by lia. split.
  - intros H j Hj. assert (forall a, (a < length leaves)%nat -> exists m, build_merkle_proof dflt merge checks leaves (Z.of_nat a) = Ok (Some m)) as Ex.
    { intros a Ha. destruct (tree_heap dflt merge leaves NE) as (nodes & ET & HH). unfold build_merkle_proof. rewrite ET. cbn [rbind].
      rewrite (build_proof_unfold merge checks leaves nodes _ HH NE HL). rewrite u32_ok by lia. cbn [rbind]. rewrite u32_ok by lia. cbn [rbind].
      destruct (Z.leb_spec (2 * Z.of_nat (length leaves) - 1) (Z.of_nat (length leaves) + Z.of_nat a - 1)); [lia|]. unfold node_proof. destruct (Z.eqb_spec (Z.of_nat (length leaves) + Z.of_nat a - 1) 0); [eexists; reflexivity|].
      destruct (collect_ok dflt merge leaves nodes HH 33 (Z.of_nat (length leaves) + Z.of_nat a - 1)) as (ls & E & _); [destruct HH as (L & _); lia| |rewrite E; eexists; reflexivity].
      change (Z.of_nat 33) with 33. change (2 ^ 33) with (4 * 2 ^ 31). lia. }
    assert (Z.to_nat j < length leaves)%nat as Hj2 by lia. destruct (Ex 0%nat ltac:(lia)) as (m & Em). destruct (Ex (Z.to_nat j) ltac:(lia)) as (m' & Em').
    destruct (path_length checks leaves _ _ HL H1 Em) as [_ L1]. destruct (path_length checks leaves _ _ HL Hj2 Em') as [_ L2]. pose proof (H _ _ _ _ H1 Hj2 Em Em') as Q.
    rewrite Q in L1. rewrite L1 in L2. replace (Z.of_nat (length leaves + Z.to_nat j)) with (Z.of_nat (length leaves) + j) in L2 by lia. replace (Z.of_nat (length leaves + 0)) with (Z.of_nat (length leaves)) in L2 by lia. symmetry. exact L2.
  - intros H i j m m' Hi Hj Em Em'. destruct (path_length checks leaves _ _ HL Hi Em) as [_ L1]. destruct (path_length checks leaves _ _ HL Hj Em') as [_ L2]. apply Nat2Z.inj. rewrite L1, L2, !Nat2Z.inj_add, !H by lia. reflexivity.
Qed.
End T.

Section P.
Local Open Scope fld_scope.
Variable K : PFld.
Variable cts : list K.
(** A path of the tree over [leaves] leads to its root. *)
Theorem tree_path checks (leaves : list K) j leaf : (Z.of_nat (length leaves) <= 2 ^ 31 - 1)%Z -> nth_error leaves j = Some leaf ->
  exists m r, build_merkle_proof 0 (mimc2 cts) checks leaves (Z.of_nat j) = Ok (Some m) /\ build_merkle_root 0 (mimc2 cts) leaves = Ok r /\ (0 <= mp_index m)%Z /\ fold_path (mimc2 cts) leaf (mp_index m) (mp_lemmas m) = r.
Proof.
  intros HL E. destruct (proof_complete 0 (mimc2 cts) feqb (feqb_spec K) checks leaves j leaf HL E) as (m & r & Em & Er & V). exists m, r. split; [exact Em|]. split; [exact Er|].
  assert (j < length leaves)%nat as Hj by (apply nth_error_Some; congruence). split; [destruct (path_length 0 (mimc2 cts) checks leaves j m HL Hj Em) as [-> _]; lia|].
  unfold mp_verify, mp_root in V. destruct ((mp_index m =? 0)%Z && negb (Nat.eqb (length (mp_lemmas m)) 0)); [discriminate|]. destruct (feqb_spec K (fold_path (mimc2 cts) leaf (mp_index m) (mp_lemmas m)) r) as [Q|]; [exact Q|discriminate].
Qed.
End P.

Section G.
Local Open Scope fld_scope.
Variable K : PFld.
Variable PR : Pairing K.
Variable dnew : nat -> option (dom K).
Hypothesis DF : dom_family dnew.
Variables (nl : nat) (cts : list K).
Hypothesis (Hn : (0 < nl)%nat) (Hp : (pmod K <= 2 ^ (64 * Z.of_nat nl))%Z) (Hc : cts <> []).
(** Any satisfying assignment of the key's system gives an accepted proof for its public part. *)
Lemma assignment_proves (c : M K unit) s1 al be ga de t h1 h2 p x : c (cs_new Setup) = Ok (tt, s1) -> wf s1 -> sat x s1 -> generate_parameters K PR dnew c al be ga de t h1 h2 = Ok p ->
  exists pf, verify_proof K PR (prepare K PR (pvk K PR p)) pf (map (fun i => x (Input i)) (seq 1 (length (inps s1) - 1))) = Ok true.
Proof.
  intros E1 W1 Sx Gp. pose proof W1 as [[r Ei] _]. set (s2 := mkCS (K := K) Prove (map (fun i => x (Input i)) (seq 0 (length (inps s1)))) (map (fun i => x (Aux i)) (seq 0 (length (auxs s1)))) (cons s1)).
  assert (Ew : forall v, allocated s1 v -> wit s2 v = x v).
  { intros [i|i] A; cbn [allocated] in A; cbn [wit s2 inps auxs].
    - rewrite (nth_indep _ 0 (x (Input 0))) by (rewrite map_length, seq_length; exact A). rewrite (map_nth (fun i => x (Input i)) _ 0%nat), seq_nth by exact A. reflexivity.
    - rewrite (nth_indep _ 0 (x (Aux 0))) by (rewrite map_length, seq_length; exact A). rewrite (map_nth (fun i => x (Aux i)) _ 0%nat), seq_nth by exact A. reflexivity. }
  assert (Al : forall v, allocated s1 v -> allocated s2 v) by (intros [i|i]; cbn; rewrite map_length, seq_length; auto).
  assert (W2 : wf s2).
  { split; [|cbn [s2 cons]; eapply Forall_impl; [|exact (proj2 W1)]; intros q; apply c_in_mono; exact Al]. cbn [s2 inps]. rewrite Ei. cbn [length seq map]. eexists. f_equal. exact (proj1 Sx). }
  assert (S2 : self_sat s2).
  { destruct Sx as [O H]. split; [rewrite Ew; [exact O|apply one_allocated; exact W1]|]. cbn [s2 cons]. pose proof (proj2 W1) as C. rewrite Forall_forall in H, C |- *. intros q Iq. specialize (H q Iq). specialize (C q Iq). destruct C as (C1 & C2 & C3).
    unfold holds in *. rewrite (eval_ext K (wit s2) x _ _ C1 Ew), (eval_ext K (wit s2) x _ _ C2 Ew), (eval_ext K (wit s2) x _ _ C3 Ew). exact H. }
  assert (Sh : SpecGroth16.same_shape s1 s2) by (unfold SpecGroth16.same_shape; cbn [s2 cons inps auxs]; rewrite !map_length, !seq_length; auto).
  destruct (groth_core K PR dnew DF c (fun _ => Ok (tt, s2)) s1 s2 al be ga de t h1 h2 p 0 0 E1 eq_refl Sh W2 S2 Gp) as (pf & _ & V). exists pf. rewrite <- V. f_equal.
  cbn [s2 inps]. rewrite Ei. cbn [length]. rewrite Nat.sub_succ, Nat.sub_0_r. cbn [seq map skipn]. reflexivity.
Qed.
Theorem merkle_same p p' root root' leaf leaf' m' : length (mp_lemmas p) = length (mp_lemmas p') -> m' = Setup ->
  exists s s', merkle_mimc nl cts (Some p) (Some root) (Some leaf) (cs_new Prove) = Ok (tt, s) /\ merkle_mimc nl cts (Some p') root' (Some leaf') (cs_new m') = Ok (tt, s') /\ SpecMode.same_shape s s'.
Proof.
  intros L ->. destruct (merkle_run K nl cts Hn Hp Hc p root leaf) as (s & E & _). 
  destruct (fits_merkle K nl cts Hn p p' (Some root) root' (Some leaf) leaf' L (cs_new Prove) (cs_new Setup)) with (a := tt) (t := s) as ([] & s' & E' & _ & S & _); [repeat split|reflexivity|exact E|]. exists s, s'. auto.
Qed.
(** Setup with one path, proof with another of the same length. *)
Theorem merkle_groth p p' root root' leaf leaf' al be ga de t h1 h2 pp r s : length (mp_lemmas p) = length (mp_lemmas p') ->
  fold_path (mimc2 cts) leaf (mp_index p) (mp_lemmas p) = root ->
  generate_parameters K PR dnew (merkle_mimc nl cts (Some p') root' (Some leaf')) al be ga de t h1 h2 = Ok pp ->
  exists pf, create_proof K PR dnew pp (merkle_mimc nl cts (Some p) (Some root) (Some leaf)) r s = Ok pf /\ verify_proof K PR (prepare K PR (pvk K PR pp)) pf [root] = Ok true.
Proof.
  intros L F Gp. destruct (merkle_same p p' root root' leaf leaf' Setup L eq_refl) as (s2 & s1 & E2 & E1 & S1 & S2 & S3). destruct (merkle_run K nl cts Hn Hp Hc p root leaf) as (s2' & E2' & W & I & _ & Sat). rewrite E2 in E2'. injection E2' as <-. 
  destruct (groth_core K PR dnew DF _ (merkle_mimc nl cts (Some p) (Some root) (Some leaf)) s1 s2 al be ga de t h1 h2 pp r s E1 E2) as (pf & C & V); try assumption; [repeat split; auto|apply Sat; exact F|]. rewrite I in V. exists pf. auto.
Qed.
(** And for every field element as a root some proof is accepted. *)
Theorem merkle_any_root p' root' leaf' al be ga de t h1 h2 pp : mp_lemmas p' <> [] ->
  generate_parameters K PR dnew (merkle_mimc nl cts (Some p') root' (Some leaf')) al be ga de t h1 h2 = Ok pp ->
  forall y, exists pf, verify_proof K PR (prepare K PR (pvk K PR pp)) pf [y] = Ok true.
Proof.
  intros NE Gp y. destruct (merkle_same p' p' 0 root' 0 leaf' Setup eq_refl eq_refl) as (_ & s1 & _ & E1 & _). destruct (merkle_open K nl cts Hn p' root' (Some leaf') s1 NE E1) as (W & L & O). destruct (O y 0) as (x & Sx & V & _).
  destruct (assignment_proves _ s1 al be ga de t h1 h2 pp x E1 W Sx Gp) as (pf & Vf). exists pf. rewrite L in Vf. cbn [Nat.sub seq map] in Vf. rewrite V in Vf. exact Vf.
Qed.
(** Circuits for paths of different lengths differ. *)
Theorem merkle_differ p p' root root' leaf leaf' s s' : merkle_mimc nl cts (Some p) (Some root) (Some leaf) (cs_new Prove) = Ok (tt, s) -> merkle_mimc nl cts (Some p') root' (Some leaf') (cs_new Setup) = Ok (tt, s') ->
  length (cons s) = (length (mp_lemmas p) * (1 + 2 * length cts) + 1)%nat /\ length (cons s') = (length (mp_lemmas p') * (1 + 2 * length cts) + 1)%nat /\
  (SpecMode.same_shape s s' <-> length (mp_lemmas p) = length (mp_lemmas p')).
Proof.
  intros E E'. assert (length (cons s) = (length (mp_lemmas p) * (1 + 2 * length cts) + 1)%nat) as L by (destruct (merkle_run K nl cts Hn Hp Hc p root leaf) as (s0 & E0 & _ & _ & L & _); rewrite E in E0; injection E0 as <-; exact L).
  assert (length (cons s') = (length (mp_lemmas p') * (1 + 2 * length cts) + 1)%nat) as L'.
  { destruct (merkle_same p' p' root root' leaf leaf' Setup eq_refl eq_refl) as (s0 & s0' & E0 & E0' & _ & _ & C). rewrite E' in E0'. injection E0' as <-. destruct (merkle_run K nl cts Hn Hp Hc p' root leaf) as (s1 & E1 & _ & _ & L1 & _). rewrite E0 in E1. injection E1 as <-. rewrite <- C. exact L1. }
  split; [exact L|]. split; [exact L'|]. split.
  - intros (_ & _ & C). rewrite C, L' in L. nia.
  - intro Q. destruct (merkle_same p p' root root' leaf leaf' Setup Q eq_refl) as (s0 & s0' & E0 & E0' & S). rewrite E in E0. rewrite E' in E0'. injection E0 as <-. injection E0' as <-. exact S.
Qed.
End G.
