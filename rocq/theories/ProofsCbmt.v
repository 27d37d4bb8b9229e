(** Proofs about Merkle trees. *)
From Verif Require Import Field ModelCbmt SpecCbmt.
Local Open Scope Z_scope.

(** ** Index arithmetic *)
Lemma parent_div i : 0 < i -> parent i = (i - 1) / 2.
Proof. intro H. unfold parent. destruct (Z.eqb_spec i 0); [lia|]. rewrite Z.shiftr_div_pow2 by lia. reflexivity. Qed.
Lemma is_left_odd i : is_left i = Z.odd i.
Proof.
  unfold is_left. change 1 with (Z.ones 1) at 1. rewrite Z.land_ones by lia. change (2 ^ 1) with 2. rewrite Zmod_odd.
  destruct (Z.odd i); reflexivity.
Qed.
Lemma lxor_1 m : Z.lxor m 1 = if Z.even m then m + 1 else m - 1.
Proof.
  destruct (Z.even m) eqn:E.
  - apply Z.even_spec in E. destruct E as [k ->].
    symmetry. apply Z.add_nocarry_lxor. apply Z.bits_inj'. intros n Hn. rewrite Z.land_spec, Z.bits_0.
    destruct (Z.eq_dec n 0) as [->|N]; [rewrite Z.testbit_even_0; reflexivity|].
    change 1 with (2 ^ 0). rewrite Z.pow2_bits_false by lia. apply andb_false_r.
  - assert (Z.Odd m) as [k ->] by (apply Z.odd_spec; rewrite <- Z.negb_even, E; reflexivity).
    replace (2 * k + 1 - 1) with (2 * k) by lia.
    replace (2 * k + 1) with (Z.lxor (2 * k) 1).
    { rewrite Z.lxor_assoc, Z.lxor_nilpotent, Z.lxor_0_r. reflexivity. }
    symmetry. apply Z.add_nocarry_lxor. apply Z.bits_inj'. intros n Hn. rewrite Z.land_spec, Z.bits_0.
    destruct (Z.eq_dec n 0) as [->|N]; [rewrite Z.testbit_even_0; reflexivity|].
    change 1 with (2 ^ 0). rewrite Z.pow2_bits_false by lia. apply andb_false_r.
Qed.
Lemma sibling_eq i : 0 < i -> sibling i = if Z.odd i then i + 1 else i - 1.
Proof.
  intro H. unfold sibling. destruct (Z.eqb_spec i 0); [lia|]. rewrite lxor_1.
  replace (Z.even (i + 1)) with (Z.odd i) by (rewrite Z.add_1_r, Z.even_succ; reflexivity). destruct (Z.odd i); lia.
Qed.
(** Children of node [p]: [2p+1] (left) and [2p+2] (right). *)
Lemma child_cases i : 0 < i -> exists p, 0 <= p /\ parent i = p /\
  ((is_left i = true /\ i = 2 * p + 1 /\ sibling i = 2 * p + 2) \/ (is_left i = false /\ i = 2 * p + 2 /\ sibling i = 2 * p + 1)).
Proof.
  intro H. rewrite (parent_div i H), is_left_odd, (sibling_eq i H). exists ((i - 1) / 2).
  split; [apply Z.div_pos; lia|]. split; [reflexivity|].
  pose proof (Z.div_mod (i - 1) 2 ltac:(lia)) as D. rewrite Zmod_odd in D.
  rewrite Z.odd_sub in D. change (Z.odd 1) with true in D.
  destruct (Z.odd i); cbn [xorb] in D; [left|right]; (split; [reflexivity|lia]).
Qed.

Section P.
Context {T : Type}.
Variables (dflt : T) (merge : T -> T -> T).

(** ** Building the tree *)
Lemma set_nth_ok (l : list T) i v : (i < length l)%nat ->
  exists l', set_nth l i v = Ok l' /\ length l' = length l /\ nth_error l' i = Some v /\
    (forall j, j <> i -> nth_error l' j = nth_error l j).
Proof.
  revert i. induction l as [|a l IH]; intros i H; [cbn in H; lia|]. destruct i as [|i]; cbn [set_nth].
  - eexists. split; [reflexivity|]. split; [reflexivity|]. split; [reflexivity|]. intros [|j] N; [lia|reflexivity].
  - destruct (IH i) as (l' & E & L & G & O); [cbn in H; lia|]. rewrite E. cbn [rbind]. eexists. split; [reflexivity|].
    cbn [length]. split; [lia|]. split; [exact G|]. intros [|j] N; [reflexivity|]. cbn. apply O. lia.
Qed.
Lemma get_nth_ok (l : list T) i : (i < length l)%nat -> exists v, nth_error l i = Some v /\ get_nth l i = Ok v.
Proof. intro H. unfold get_nth. destruct (nth_error l i) as [v|] eqn:E; [eauto|]. apply nth_error_None in E. lia. Qed.

Definition inner_ok (nodes : list T) i : Prop := exists l r,
    nth_error nodes (2 * i + 1) = Some l /\ nth_error nodes (2 * i + 2) = Some r /\ nth_error nodes i = Some (merge l r).
Lemma fill_ok n i : forall nodes, length nodes = (2 * n - 1)%nat -> (i <= n - 1)%nat -> (1 <= n)%nat ->
  (forall j, (i <= j < n - 1)%nat -> inner_ok nodes j) ->
  exists nodes', fill merge i nodes = Ok nodes' /\ length nodes' = (2 * n - 1)%nat /\
    (forall j, (j < n - 1)%nat -> inner_ok nodes' j) /\ (forall j, (i <= j)%nat -> nth_error nodes' j = nth_error nodes j).
Proof.
  induction i as [|i IH]; intros nodes L Hi Hn HO; cbn [fill].
  - exists nodes. split; [reflexivity|]. split; [exact L|]. split; [intros; apply HO; lia|auto].
  - destruct (get_nth_ok nodes (2 * i + 1)) as (l & El & Gl); [lia|]. destruct (get_nth_ok nodes (2 * i + 2)) as (r & Er & Gr); [lia|].
    rewrite Gl, Gr. cbn [rbind]. destruct (set_nth_ok nodes i (merge l r)) as (nd & E & L' & G & O); [lia|]. rewrite E. cbn [rbind].
    destruct (IH nd) as (nodes' & F & LF & IF & KF); [lia|lia|lia| |].
    + intros j Hj. destruct (Nat.eq_dec j i) as [->|N].
      * exists l, r. rewrite !O by lia. auto.
      * destruct (HO j) as (a & b & A & B & C); [lia|]. exists a, b. rewrite !O by lia. auto.
    + exists nodes'. split; [exact F|]. split; [exact LF|]. split; [exact IF|]. intros j Hj. rewrite KF by lia. apply O. lia.
Qed.
Lemma skipn_ext (a b : list T) n : length a = length b -> (forall j, (n <= j)%nat -> nth_error a j = nth_error b j) -> skipn n a = skipn n b.
Proof.
  revert a b. induction n as [|n IH]; intros a b L H.
  - cbn. revert b L H. induction a as [|x a IHa]; intros b L H; destruct b as [|y b]; try discriminate L; [reflexivity|].
    pose proof (H 0%nat ltac:(lia)) as E. cbn in E. injection E as ->. f_equal. apply IHa; [cbn in L; lia|]. intros j _. apply (H (S j)). lia.
  - destruct a as [|x a], b as [|y b]; try discriminate L; [reflexivity|]. cbn. apply IH; [cbn in L; lia|].
    intros j Hj. apply (H (S j)). lia.
Qed.
Theorem tree_heap leaves : leaves <> [] -> exists nodes, build_merkle_tree dflt merge leaves = Ok nodes /\ heap merge leaves nodes.
Proof.
  intro NE. assert (1 <= length leaves)%nat as L1 by (destruct leaves; [congruence|cbn; lia]).
  assert (build_merkle_tree dflt merge leaves = fill merge (length leaves - 1) (repeat dflt (length leaves - 1) ++ leaves)) as -> by (destruct leaves; [congruence|reflexivity]).
  set (n := length leaves) in *.
  assert (length (repeat dflt (n - 1) ++ leaves) = (2 * n - 1)%nat) as LL by (rewrite app_length, repeat_length; unfold n in *; lia).
  destruct (fill_ok n (n - 1) (repeat dflt (n - 1) ++ leaves) LL) as (nodes & F & LF & IF & KF); [lia|lia|intros; lia|].
  exists nodes. split; [exact F|]. split; [exact LF|]. split; [|exact IF].
  fold n. rewrite (skipn_ext nodes (repeat dflt (n - 1) ++ leaves)); [|congruence|exact KF].
  rewrite skipn_app, repeat_length, Nat.sub_diag, skipn_all2 by (rewrite repeat_length; lia). reflexivity.
Qed.

(** ** The streaming root *)
(** Nodes [2h, 2h-1, ..., h]. *)
Definition down (nodes : list T) (h : nat) : list T := map (fun i => nth i nodes dflt) (rev (seq h (S h))).
Lemma seq_snoc a n : seq a (S n) = seq a n ++ [(a + n)%nat].
Proof. rewrite <- Nat.add_1_r, seq_app. reflexivity. Qed.
Lemma down_step nodes h : down nodes (S h) =
  nth (2 * h + 2) nodes dflt :: nth (2 * h + 1) nodes dflt :: map (fun i => nth i nodes dflt) (rev (seq (S h) h)).
Proof.
  unfold down. rewrite !seq_snoc, !rev_app_distr. cbn [rev app map].
  replace (S h + S h)%nat with (2 * h + 2)%nat by lia. replace (S h + h)%nat with (2 * h + 1)%nat by lia. reflexivity.
Qed.
Lemma down_prev nodes h : down nodes h = map (fun i => nth i nodes dflt) (rev (seq (S h) h)) ++ [nth h nodes dflt].
Proof. unfold down. change (seq h (S h)) with (h :: seq (S h) h). cbn [rev]. rewrite map_app. reflexivity. Qed.
Lemma nth_of_error (l : list T) i v : nth_error l i = Some v -> nth i l dflt = v.
Proof. intro H. apply nth_error_nth. exact H. Qed.
Lemma drain_down nodes m h : (forall i, (i < m)%nat -> inner_ok nodes i) -> (h <= m)%nat -> forall fuel, (h <= fuel)%nat ->
  drain merge fuel (down nodes h) = Ok (nth 0 nodes dflt).
Proof.
  intros HI. induction h as [|h IH]; intros Hh fuel Hf.
  - destruct fuel; reflexivity.
  - destruct fuel as [|f]; [lia|]. rewrite down_step. cbn [drain].
    destruct (HI h) as (l & r & E1 & E2 & E3); [lia|].
    rewrite (nth_of_error _ _ _ E1), (nth_of_error _ _ _ E2), <- (nth_of_error _ _ _ E3).
    rewrite <- down_prev. apply IH; lia.
Qed.
(** Pairs of the last [2k] leaves are the nodes just above them. *)
Lemma rpairs_spec (nodes : list T) n : (forall i, (i < n - 1)%nat -> inner_ok nodes i) -> (1 <= n)%nat ->
  forall k a, (a + 2 * k = 2 * n - 1)%nat -> (n - 1 <= a)%nat -> forall rest, 
  rpairs merge (rev (map (fun i => nth i nodes dflt) (seq a (2 * k))) ++ rest) =
  (let '(q, rem) := rpairs merge rest in (map (fun i => nth i nodes dflt) (rev (seq (n - 1 - k) k)) ++ q, rem)).
Proof.
  intros HI HL. 
  assert (forall k a p, (a = 2 * p + 1)%nat -> (p + k <= n - 1)%nat -> forall rest,
    rpairs merge (rev (map (fun i => nth i nodes dflt) (seq a (2 * k))) ++ rest) =
    (let '(q, rem) := rpairs merge rest in (map (fun i => nth i nodes dflt) (rev (seq p k)) ++ q, rem))) as G.
  { induction k as [|k IH]; intros a p -> Hk rest.
    - cbn. destruct (rpairs merge rest); reflexivity.
    - replace (2 * S k)%nat with (S (S (2 * k))) by lia. rewrite !seq_snoc, !map_app, !rev_app_distr. cbn [rev map app rpairs].
      rewrite (IH (2 * p + 1)%nat p) by lia. destruct (rpairs merge rest) as [q rem]. cbn [rev app map].
      destruct (HI (p + k)%nat) as (l & r & E1 & E2 & E3); [lia|].
      replace (2 * p + 1 + S (2 * k))%nat with (2 * (p + k) + 2)%nat by lia.
      replace (2 * p + 1 + 2 * k)%nat with (2 * (p + k) + 1)%nat by lia.
      rewrite (nth_of_error _ _ _ E1), (nth_of_error _ _ _ E2), (nth_of_error _ _ _ E3). reflexivity. }
  intros k a Ha Hn rest. apply G; lia.
Qed.
Lemma skipn_seq (l : list T) : forall k, (k <= length l)%nat -> skipn k l = map (fun i => nth i l dflt) (seq k (length l - k)).
Proof.
  induction l as [|a l IH]; intros k H; [cbn in H; replace k with 0%nat by lia; reflexivity|].
  destruct k as [|k].
  - cbn [skipn length Nat.sub seq map nth]. f_equal. specialize (IH 0%nat ltac:(lia)). cbn [skipn] in IH. rewrite Nat.sub_0_r in IH.
    rewrite <- seq_shift, map_map. exact IH.
  - cbn [skipn length]. rewrite IH by (cbn in H; lia). rewrite Nat.sub_succ, <- seq_shift, map_map. reflexivity.
Qed.
Lemma leaves_nodes leaves nodes : heap merge leaves nodes -> leaves <> [] ->
  leaves = map (fun i => nth i nodes dflt) (seq (length leaves - 1) (length leaves)).
Proof.
  intros (L & S & _) NE. assert (1 <= length leaves)%nat by (destruct leaves; [congruence|cbn; lia]).
  rewrite skipn_seq in S by lia. rewrite <- S at 1. do 2 f_equal. lia.
Qed.
Theorem root_agrees leaves nodes : leaves <> [] -> heap merge leaves nodes ->
  build_merkle_root dflt merge leaves = Ok (nth 0 nodes dflt).
Proof.
  intros NE HH. pose proof (leaves_nodes leaves nodes HH NE) as EL. destruct HH as (L & S & I).
  assert (build_merkle_root dflt merge leaves = (let '(q, rem) := rpairs merge (rev leaves) in
    let q := match rem with [leaf] => leaf :: q | _ => q end in drain merge (length q) q)) as -> by (destruct leaves; [congruence|reflexivity]).
  set (n := length leaves) in *. assert (1 <= n)%nat as Hn by (unfold n; destruct leaves; [congruence|cbn; lia]).
  assert (forall h, length (down nodes h) = Datatypes.S h) as LD by (intro h; unfold down; rewrite map_length, rev_length, seq_length; reflexivity).
  destruct (Nat.Even_or_Odd n) as [[k E]|[k E]].
  - assert (rpairs merge (rev leaves) = (map (fun i => nth i nodes dflt) (rev (seq (n - 1 - k) k)) ++ [], [])) as ->.
    { rewrite EL, <- (app_nil_r (rev _)). replace n with (2 * k)%nat at 2 by lia.
      rewrite (rpairs_spec nodes n); [reflexivity|exact I|lia|lia|lia]. }
    rewrite app_nil_r. cbv beta iota zeta. replace (map (fun i => nth i nodes dflt) (rev (seq (n - 1 - k) k))) with (down nodes (k - 1)).
    + rewrite LD. apply (drain_down nodes (n - 1)); [exact I|lia|lia].
    + unfold down. replace (Datatypes.S (k - 1)) with k by lia. replace (n - 1 - k)%nat with (k - 1)%nat by lia. reflexivity.
  - assert (rpairs merge (rev leaves) = (map (fun i => nth i nodes dflt) (rev (seq (n - 1 - k) k)) ++ [], [nth (n - 1) nodes dflt])) as ->.
    { rewrite EL. replace (seq (n - 1) n) with ((n - 1)%nat :: seq n (2 * k)) by (replace n with (Datatypes.S (2 * k)) at 4 by lia; cbn [seq]; f_equal; f_equal; lia).
      cbn [map rev]. rewrite (rpairs_spec nodes n); [reflexivity|exact I|lia|lia|lia]. }
    rewrite app_nil_r. cbv beta iota zeta.
    replace (nth (n - 1) nodes dflt :: map (fun i => nth i nodes dflt) (rev (seq (n - 1 - k) k))) with (down nodes k).
    + rewrite LD. apply (drain_down nodes (n - 1)); [exact I|lia|lia].
    + unfold down. rewrite seq_snoc, rev_app_distr. cbn [rev app map]. replace (n - 1 - k)%nat with k by lia. replace (k + k)%nat with (n - 1)%nat by lia. reflexivity.
Qed.

(** ** Paths *)
Lemma collect_ok leaves nodes : heap merge leaves nodes -> forall fuel i, 0 < i < Z.of_nat (length nodes) -> i + 1 < 2 ^ Z.of_nat fuel ->
  exists ls, collect fuel nodes i = Ok ls /\ ls <> [] /\
    fold_path merge (nth (Z.to_nat i) nodes dflt) i ls = nth 0 nodes dflt.
Proof.
  intros (L & S & I). induction fuel as [|f IH]; intros i Hi Hf; [cbn in Hf; lia|].
  rewrite Nat2Z.inj_succ, Z.pow_succ_r in Hf by lia.
  destruct (child_cases i) as (p & Hp & EP & C); [lia|]. cbn [collect].
  destruct (I (Z.to_nat p)) as (l & r & El & Er & Ep); [lia|].
  assert (exists sib, nth_error nodes (Z.to_nat (sibling i)) = Some sib /\
    (if is_left i then merge (nth (Z.to_nat i) nodes dflt) sib else merge sib (nth (Z.to_nat i) nodes dflt)) = nth (Z.to_nat p) nodes dflt) as (sib & Es & EM).
  { rewrite (nth_of_error _ _ _ Ep). destruct C as [(Ei & -> & ->)|(Ei & -> & ->)]; rewrite Ei.
    - exists r. replace (Z.to_nat (2 * p + 2)) with (2 * Z.to_nat p + 2)%nat by lia. replace (Z.to_nat (2 * p + 1)) with (2 * Z.to_nat p + 1)%nat by lia.
      split; [exact Er|]. rewrite (nth_of_error _ _ _ El). reflexivity.
    - exists l. replace (Z.to_nat (2 * p + 2)) with (2 * Z.to_nat p + 2)%nat by lia. replace (Z.to_nat (2 * p + 1)) with (2 * Z.to_nat p + 1)%nat by lia.
      split; [exact El|]. rewrite (nth_of_error _ _ _ Er). reflexivity. }
  unfold get_nth at 1. rewrite Es. cbn [rbind]. rewrite EP. destruct (Z.eqb_spec p 0) as [->|NP].
  - exists [sib]. split; [reflexivity|]. split; [discriminate|]. cbn [fold_path]. exact EM.
  - destruct (IH p) as (ls & E & NE & F); [lia|lia|]. rewrite E. cbn [rbind]. exists (sib :: ls). split; [reflexivity|]. split; [discriminate|].
    cbn [fold_path]. rewrite EM, EP. exact F.
Qed.
Lemma u32_ok checks v : 0 <= v < 2 ^ 32 -> u32_arith checks v = Ok v.
Proof. intro H. unfold u32_arith. destruct (Z.leb_spec 0 v), (Z.ltb_spec v (2 ^ 32)); try lia. reflexivity. Qed.
Lemma heap_count leaves nodes : heap merge leaves nodes -> leaves <> [] -> (length nodes / 2 + 1 = length leaves)%nat.
Proof.
  intros (L & _) NE. assert (1 <= length leaves)%nat by (destruct leaves; [congruence|cbn; lia]). rewrite L.
  replace (2 * length leaves - 1)%nat with (1 + (length leaves - 1) * 2)%nat by lia. rewrite Nat.div_add by lia. cbn. lia.
Qed.
(** The proof built for a node position below [2n - 1]. *)
Definition node_proof (nodes : list T) (index : Z) : res (option (mproof T)) :=
  if index =? 0 then Ok (Some (mkMP index [])) else rbind (collect 33 nodes index) (fun ls => Ok (Some (mkMP index ls))).
Lemma build_proof_unfold checks leaves nodes j : heap merge leaves nodes -> leaves <> [] -> Z.of_nat (length leaves) <= 2 ^ 31 - 1 ->
  build_proof checks nodes j =
  rbind (u32_arith checks (Z.of_nat (length leaves) + j)) (fun t => rbind (u32_arith checks (t - 1)) (fun index =>
    if 2 * Z.of_nat (length leaves) - 1 <=? index then Ok None else node_proof nodes index)).
Proof.
  intros HH NE HL. pose proof (heap_count _ _ HH NE) as HC. destruct HH as (L & _ & _).
  assert (1 <= length leaves)%nat by (destruct leaves; [congruence|cbn; lia]).
  assert (build_proof checks nodes j = 
    let leaves_count := (Z.of_nat (length nodes / 2) + 1) mod 2 ^ 32 in
    rbind (u32_arith checks (leaves_count + j)) (fun t =>
    rbind (u32_arith checks (t - 1)) (fun index =>
    rbind (u32_arith checks ((leaves_count * 2) mod 2 ^ 32 - 1)) (fun bound =>
    if bound <=? index then Ok None else node_proof nodes index)))) as -> by (destruct nodes; [cbn in L; lia|reflexivity]).
  cbv zeta. replace (Z.of_nat (length nodes / 2) + 1) with (Z.of_nat (length leaves)) by lia.
  rewrite (Z.mod_small (Z.of_nat (length leaves))), (Z.mod_small (_ * 2)) by lia.
  rewrite (u32_ok checks (Z.of_nat (length leaves) * 2 - 1)) by lia.
  replace (Z.of_nat (length leaves) * 2 - 1) with (2 * Z.of_nat (length leaves) - 1) by lia. reflexivity.
Qed.
Variable eqb : T -> T -> bool.
Hypothesis eqb_spec : forall x y, reflect (x = y) (eqb x y).
Lemma node_verifies leaves nodes i : heap merge leaves nodes -> leaves <> [] -> Z.of_nat (length leaves) <= 2 ^ 31 - 1 ->
  0 <= i < Z.of_nat (length nodes) ->
  exists m, node_proof nodes i = Ok (Some m) /\ mp_index m = i /\
    mp_verify merge eqb m (nth 0 nodes dflt) (nth (Z.to_nat i) nodes dflt) = true.
Proof.
  intros HH NE HL Hi. unfold node_proof. destruct (Z.eqb_spec i 0) as [->|Ni].
  - eexists. split; [reflexivity|]. split; [reflexivity|]. cbn. destruct (eqb_spec (nth 0 nodes dflt) (nth 0 nodes dflt)); congruence.
  - destruct (collect_ok leaves nodes HH 33 i) as (ls & E & N & F); [lia| |].
    { destruct HH as (L & _). change (Z.of_nat 33) with 33. change (2 ^ 33) with (4 * 2 ^ 31). lia. }
    rewrite E. cbn [rbind]. eexists. split; [reflexivity|]. split; [reflexivity|]. unfold mp_verify, mp_root. cbn [mp_index mp_lemmas].
    destruct (Z.eqb_spec i 0); [lia|]. cbn [andb]. rewrite F. destruct (eqb_spec (nth 0 nodes dflt) (nth 0 nodes dflt)); congruence.
Qed.
Lemma leaf_at leaves nodes j t : heap merge leaves nodes -> nth_error leaves j = Some t -> nth (length leaves - 1 + j) nodes dflt = t.
Proof.
  intros HH E. assert (leaves <> []) as NE by (intros ->; destruct j; discriminate).
  rewrite (leaves_nodes _ _ HH NE), nth_error_map in E. destruct (nth_error _ j) as [v|] eqn:Ev; [|discriminate]. injection E as <-.
  assert (j < length leaves)%nat by (rewrite <- (seq_length (length leaves) (length leaves - 1)); apply nth_error_Some; congruence).
  f_equal. apply (nth_error_nth _ _ 0%nat) in Ev. rewrite seq_nth in Ev by lia. exact Ev.
Qed.
Lemma mt_root_nth (nodes : list T) : mt_root dflt nodes = nth 0 nodes dflt. Proof. destruct nodes; reflexivity. Qed.

(** Every in-range leaf has a proof, which verifies. *)
Theorem proof_complete checks leaves j t : Z.of_nat (length leaves) <= 2 ^ 31 - 1 -> nth_error leaves j = Some t ->
  exists m r, build_merkle_proof dflt merge checks leaves (Z.of_nat j) = Ok (Some m) /\
    build_merkle_root dflt merge leaves = Ok r /\ mp_verify merge eqb m r t = true.
Proof.
  intros HL E. assert (leaves <> []) as NE by (intros ->; destruct j; discriminate).
  assert (j < length leaves)%nat as Hj by (apply nth_error_Some; congruence).
  destruct (tree_heap leaves NE) as (nodes & ET & HH). unfold build_merkle_proof. rewrite ET. cbn [rbind].
  rewrite (build_proof_unfold checks leaves nodes _ HH NE HL). rewrite u32_ok by lia. cbn [rbind]. rewrite u32_ok by lia. cbn [rbind].
  destruct (Z.leb_spec (2 * Z.of_nat (length leaves) - 1) (Z.of_nat (length leaves) + Z.of_nat j - 1)); [lia|].
  destruct (node_verifies leaves nodes (Z.of_nat (length leaves) + Z.of_nat j - 1) HH NE HL) as (m & Em & _ & V); [destruct HH as (L & _); lia|].
  rewrite Em. exists m, (nth 0 nodes dflt). split; [reflexivity|]. split; [exact (root_agrees leaves nodes NE HH)|].
  replace (Z.to_nat (Z.of_nat (length leaves) + Z.of_nat j - 1)) with (length leaves - 1 + j)%nat in V by lia.
  rewrite (leaf_at leaves nodes j t HH E) in V. exact V.
Qed.
(** Indices past the end, as long as no u32 overflow happens. *)
Theorem proof_none checks leaves j : Z.of_nat (length leaves) <= 2 ^ 31 - 1 -> Z.of_nat (length leaves) <= j ->
  Z.of_nat (length leaves) + j < 2 ^ 32 -> build_merkle_proof dflt merge checks leaves j = Ok None.
Proof.
  intros HL Hj HO. destruct leaves as [|t0 tl] eqn:El; [reflexivity|]. rewrite <- El in *. assert (leaves <> []) as NE by congruence.
  destruct (tree_heap leaves NE) as (nodes & ET & HH). unfold build_merkle_proof. rewrite ET. cbn [rbind].
  assert (1 <= length leaves)%nat by (rewrite El; cbn; lia).
  rewrite (build_proof_unfold checks leaves nodes _ HH NE HL). rewrite u32_ok by lia. cbn [rbind]. rewrite u32_ok by lia. cbn [rbind].
  destruct (Z.leb_spec (2 * Z.of_nat (length leaves) - 1) (Z.of_nat (length leaves) + j - 1)); [reflexivity|lia].
Qed.
(** Indices for which the sum overflows. *)
Theorem proof_overflow leaves j : 1 <= Z.of_nat (length leaves) <= 2 ^ 31 - 1 -> 0 <= j < 2 ^ 32 -> 2 ^ 32 <= Z.of_nat (length leaves) + j ->
  build_merkle_proof dflt merge true leaves j = Panic /\
  (2 ^ 32 < Z.of_nat (length leaves) + j ->
   exists m r t nodes, build_merkle_proof dflt merge false leaves j = Ok (Some m) /\ mp_index m < Z.of_nat (length leaves) - 1 /\
     build_merkle_root dflt merge leaves = Ok r /\
     build_merkle_tree dflt merge leaves = Ok nodes /\ nth_error nodes (Z.to_nat (mp_index m)) = Some t /\ mp_verify merge eqb m r t = true).
Proof.
  intros HL Hj HO. assert (leaves <> []) as NE by (intros ->; cbn in HL; lia).
  destruct (tree_heap leaves NE) as (nodes & ET & HH). unfold build_merkle_proof. rewrite ET. cbn [rbind].
  rewrite !(build_proof_unfold _ leaves nodes _ HH NE ltac:(lia)). split.
  - unfold u32_arith at 1. destruct (Z.ltb_spec (Z.of_nat (length leaves) + j) (2 ^ 32)); [lia|]. rewrite andb_false_r. reflexivity.
  - intro HS. unfold u32_arith at 1. destruct (Z.ltb_spec (Z.of_nat (length leaves) + j) (2 ^ 32)); [lia|]. rewrite andb_false_r. cbn [rbind].
    replace ((Z.of_nat (length leaves) + j) mod 2 ^ 32) with (Z.of_nat (length leaves) + j - 2 ^ 32) by (apply (Z.mod_unique _ _ 1); lia).
    set (i := Z.of_nat (length leaves) + j - 2 ^ 32 - 1). rewrite u32_ok by lia. cbn [rbind].
    destruct (Z.leb_spec (2 * Z.of_nat (length leaves) - 1) i); [lia|].
    assert (length nodes = (2 * length leaves - 1)%nat) as LN by (destruct HH; assumption).
    destruct (node_verifies leaves nodes i HH NE ltac:(lia)) as (m & Em & Ei & V); [lia|].
    exists m, (nth 0 nodes dflt), (nth (Z.to_nat i) nodes dflt), nodes. split; [exact Em|]. split; [lia|]. split; [exact (root_agrees leaves nodes NE HH)|].
    split; [reflexivity|]. rewrite Ei. split; [|exact V]. apply nth_error_nth'. lia.
Qed.
(** Any node, not only leaves, verifies with its own path. *)
Theorem inner_verifies leaves nodes i : Z.of_nat (length leaves) <= 2 ^ 31 - 1 -> leaves <> [] -> build_merkle_tree dflt merge leaves = Ok nodes ->
  (i < length leaves - 1)%nat -> exists m t, nth_error nodes i = Some t /\ mp_index m = Z.of_nat i /\
    mp_verify merge eqb m (mt_root dflt nodes) t = true.
Proof.
  intros HL NE ET Hi. destruct (tree_heap leaves NE) as (nd & ET' & HH). rewrite ET in ET'. injection ET' as <-.
  assert (length nodes = (2 * length leaves - 1)%nat) as LN by (destruct HH; assumption).
  destruct (node_verifies leaves nodes (Z.of_nat i) HH NE HL) as (m & _ & Ei & V); [lia|].
  exists m, (nth i nodes dflt). rewrite Nat2Z.id in V. split; [apply nth_error_nth'; lia|]. split; [exact Ei|]. rewrite mt_root_nth. exact V.
Qed.
Theorem root_verifies i (r : T) : mp_verify merge eqb (mkMP i []) r r = true.
Proof. unfold mp_verify, mp_root. cbn [mp_index mp_lemmas length Nat.eqb negb]. rewrite andb_false_r. cbn. destruct (eqb_spec r r); congruence. Qed.
(** The position is bound only modulo the path length. *)
Lemma fold_shift ls : forall p i t, 0 <= t -> 2 ^ Z.of_nat (length ls) <= i + 1 ->
  fold_path merge p (i + t * 2 ^ Z.of_nat (length ls)) ls = fold_path merge p i ls.
Proof.
  induction ls as [|s r IH]; intros p i t Ht Hi; [reflexivity|]. cbn [fold_path length] in *.
  rewrite Nat2Z.inj_succ, Z.pow_succ_r in * by lia. pose proof (Z.pow_pos_nonneg 2 (Z.of_nat (length r)) ltac:(lia) ltac:(lia)) as P.
  set (w := 2 ^ Z.of_nat (length r)) in *.
  rewrite !is_left_odd, Z.odd_add, (Z.odd_mul t), Z.odd_mul. cbn [Z.odd andb]. rewrite andb_false_r, xorb_false_r.
  assert (0 <= t * (2 * w)) by nia.
  rewrite !parent_div by lia. replace (i + t * (2 * w) - 1) with (i - 1 + t * w * 2) by lia. rewrite Z.div_add by lia.
  apply IH; [exact Ht|]. pose proof (Z.div_mod (i - 1) 2 ltac:(lia)). pose proof (Z.mod_pos_bound (i - 1) 2 ltac:(lia)). fold w. lia.
Qed.
Theorem index_not_bound i t ls (r leaf : T) : 0 < i -> 0 <= t -> 2 ^ Z.of_nat (length ls) <= i + 1 ->
  mp_verify merge eqb (mkMP (i + t * 2 ^ Z.of_nat (length ls)) ls) r leaf = mp_verify merge eqb (mkMP i ls) r leaf.
Proof.
  intros H0 Ht Hi. unfold mp_verify, mp_root. cbn [mp_index mp_lemmas]. pose proof (Z.pow_pos_nonneg 2 (Z.of_nat (length ls)) ltac:(lia) ltac:(lia)) as P.
  destruct (Z.eqb_spec i 0); [lia|]. destruct (Z.eqb_spec (i + t * 2 ^ Z.of_nat (length ls)) 0); [nia|]. cbn [andb]. rewrite fold_shift by assumption. reflexivity.
Qed.
(** Binding. *)
Lemma collision_ok ls : forall ls' p p' i, length ls = length ls' -> p <> p' -> fold_path merge p i ls = fold_path merge p' i ls' ->
  exists a b c d, collision merge eqb p p' i ls ls' = Some ((a, b), (c, d)) /\ (a, b) <> (c, d) /\ merge a b = merge c d.
Proof.
  induction ls as [|s r IH]; intros [|s' r'] p p' i L N E; try discriminate L; cbn [fold_path collision] in *; [contradiction|].
  destruct (is_left i); cbn [fst snd].
  - destruct (eqb_spec (merge p s) (merge p' s')) as [M|M].
    + exists p, s, p', s'. split; [reflexivity|]. split; [congruence|exact M].
    + apply IH; [cbn in L; lia|exact M|exact E].
  - destruct (eqb_spec (merge s p) (merge s' p')) as [M|M].
    + exists s, p, s', p'. split; [reflexivity|]. split; [congruence|exact M].
    + apply IH; [cbn in L; lia|exact M|exact E].
Qed.
Theorem binding m m' (r leaf leaf' : T) : mp_index m = mp_index m' -> length (mp_lemmas m) = length (mp_lemmas m') ->
  mp_verify merge eqb m r leaf = true -> mp_verify merge eqb m' r leaf' = true -> leaf <> leaf' ->
  exists a b c d, collision merge eqb leaf leaf' (mp_index m) (mp_lemmas m) (mp_lemmas m') = Some ((a, b), (c, d)) /\
    (a, b) <> (c, d) /\ merge a b = merge c d.
Proof.
  intros Ei El V V' N. apply collision_ok; [exact El|exact N|]. unfold mp_verify, mp_root in V, V'.
  destruct (_ && _); [discriminate|]. destruct (_ && _); [discriminate|].
  destruct (eqb_spec (fold_path merge leaf (mp_index m) (mp_lemmas m)) r) as [A|]; [|discriminate].
  destruct (eqb_spec (fold_path merge leaf' (mp_index m') (mp_lemmas m')) r) as [B|]; [|discriminate]. rewrite Ei in *. congruence.
Qed.
Theorem roots_agree leaves : exists nodes, build_merkle_tree dflt merge leaves = Ok nodes /\ 
  build_merkle_root dflt merge leaves = Ok (mt_root dflt nodes) /\ (leaves <> [] -> heap merge leaves nodes) /\ (leaves = [] -> mt_root dflt nodes = dflt).
Proof.
  assert (leaves = [] \/ leaves <> []) as [->|NE] by (destruct leaves; [left; reflexivity|right; discriminate]).
  - exists []. repeat split; congruence.
  - destruct (tree_heap leaves NE) as (nodes & ET & HH).
    exists nodes. split; [exact ET|]. rewrite mt_root_nth. split; [exact (root_agrees leaves nodes NE HH)|]. split; [auto|congruence].
Qed.
End P.
