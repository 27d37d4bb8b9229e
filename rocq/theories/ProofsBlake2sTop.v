(** Message blocks, offsets and output of BLAKE2s. *)
From Verif Require Import Field ModelLC SpecLC ProofsLC ModelCS SpecCS ProofsCS ModelBoolean SpecBoolean ProofsBoolean ModelUint32 SpecUint32 ProofsUint32 ProofsWord ProofsAddmany ModelOperator ProofsOperator ProofsFlow ModelSha256 SpecSha256 ProofsChunks ProofsSha256 ModelBlake2s SpecBlake2s ProofsBlake2s.
Local Open Scope Z_scope.

(** ** Bits, bytes and words *)
Definition padb (n : nat) (w : list bool) : list bool := w ++ repeat false (n - length w).
Lemma Z_padb n w : Z_of_bits (padb n w) = Z_of_bits w.
Proof. unfold padb. rewrite Z_of_bits_app, Z_of_bits_false. lia. Qed.
Lemma words_pad n : forall b, (length b <= 32 * n)%nat ->
  map Z_of_bits (groups 32 b) ++ repeat 0 (n - length (groups 32 b)) = map Z_of_bits (groups 32 (b ++ repeat false (32 * n - length b))).
Proof.
  induction n as [|n IH]; intros b Hb.
  - destruct b; [reflexivity|cbn in Hb; lia].
  - destruct b as [|t b].
    + specialize (IH [] ltac:(cbn; lia)). rewrite groups_nil in IH |- *. cbn [length map app] in IH |- *. rewrite !Nat.sub_0_r in IH |- *.
      replace (32 * S n)%nat with (32 + 32 * n)%nat by lia.
      rewrite (repeat_app _ 32), groups_app by (try lia; apply repeat_length). cbn [map]. rewrite Z_of_bits_false. cbn [repeat]. f_equal. exact IH.
    + set (b' := t :: b) in *. assert (b' <> []) as Nb by discriminate. rewrite (groups_cons 32 b') by (try lia; exact Nb). cbn [map length app Nat.sub].
      destruct (Nat.le_gt_cases (length b') 32) as [H|H].
      * rewrite (firstn_all2 b') by exact H. rewrite (skipn_all2 b') by exact H. rewrite groups_nil. cbn [map length app].
        replace (32 * S n - length b')%nat with ((32 - length b') + 32 * n)%nat by lia. rewrite repeat_app, app_assoc, groups_app.
        -- cbn [map]. f_equal; [symmetry; apply (Z_padb 32)|]. specialize (IH [] ltac:(cbn; lia)). rewrite groups_nil in IH. cbn [length map app] in IH.
           rewrite !Nat.sub_0_r in IH. rewrite Nat.sub_0_r. exact IH.
        -- lia.
        -- rewrite app_length, repeat_length. lia.
      * replace (32 * S n - length b')%nat with (32 * n - length (skipn 32 b'))%nat by (rewrite skipn_length; lia).
        assert (forall X, b' ++ X = firstn 32 b' ++ (skipn 32 b' ++ X)) as -> by (intro; rewrite app_assoc, firstn_skipn; reflexivity). rewrite groups_app by (try lia; rewrite firstn_length; lia). cbn [map]. f_equal.
        apply IH. rewrite skipn_length. lia.
Qed.
Lemma bytes_pad k b n : length b = (8 * k)%nat -> bits_bytes b ++ repeat 0 n = bits_bytes (b ++ repeat false (8 * n)).
Proof.
  revert b. induction k as [|k IH]; intros b Hb.
  - destruct b; [|cbn in Hb; lia]. cbn [app]. unfold bits_bytes at 1. cbn [groups split_every length map app].
    clear Hb. induction n as [|n IH]; [reflexivity|]. replace (8 * S n)%nat with (8 + 8 * n)%nat by lia. rewrite repeat_app.
    unfold bits_bytes in *. rewrite groups_app by (try lia; apply repeat_length). cbn [map repeat app]. f_equal. exact IH.
  - rewrite <- (firstn_skipn 8 b) at 1 2. unfold bits_bytes in *. rewrite <- app_assoc. rewrite !groups_app by (try lia; rewrite firstn_length; lia).
    cbn [map app]. f_equal. apply IH. rewrite skipn_length. lia.
Qed.
Lemma word4 B : length B = 32%nat -> word_le (bits_bytes B) = Z_of_bits B /\ length (bits_bytes B) = 4%nat.
Proof.
  intro L. assert (B = firstn 8 B ++ firstn 8 (skipn 8 B) ++ firstn 8 (skipn 16 B) ++ skipn 24 B) as E.
  { rewrite <- (firstn_skipn 8 B) at 1. f_equal. rewrite <- (firstn_skipn 8 (skipn 8 B)) at 1. f_equal. rewrite skipn_skipn'. cbn [Nat.add].
    rewrite <- (firstn_skipn 8 (skipn 16 B)) at 1. f_equal. rewrite skipn_skipn'. reflexivity. }
  set (b0 := firstn 8 B) in *. set (b1 := firstn 8 (skipn 8 B)) in *. set (b2 := firstn 8 (skipn 16 B)) in *. set (b3 := skipn 24 B) in *.
  assert (length b0 = 8 /\ length b1 = 8 /\ length b2 = 8 /\ length b3 = 8)%nat as (L0 & L1 & L2 & L3).
  { unfold b0, b1, b2, b3. rewrite ?firstn_length, ?skipn_length. lia. }
  clearbody b0 b1 b2 b3. subst B. unfold bits_bytes. rewrite !groups_app by (try lia; assumption). rewrite groups_one by lia.
  cbn [map word_le fold_right length]. rewrite !Z_of_bits_app, L0, L1, L2. split; [|reflexivity]. change (2 ^ Z.of_nat 8) with 256. lia.
Qed.
Lemma words_bytes n : forall B, length B = (32 * n)%nat -> words2s (bits_bytes B) = map Z_of_bits (groups 32 B).
Proof.
  induction n as [|n IH]; intros B L.
  - destruct B; [reflexivity|cbn in L; lia].
  - assert (length (firstn 32 B) = 32%nat) as L1 by (rewrite firstn_length; lia).
    rewrite <- (firstn_skipn 32 B). unfold words2s.
    assert (bits_bytes (firstn 32 B ++ skipn 32 B) = bits_bytes (firstn 32 B) ++ bits_bytes (skipn 32 B)) as ->.
    { unfold bits_bytes. rewrite <- map_app. f_equal.
      rewrite <- (firstn_skipn 4 (groups 8 (firstn 32 B ++ skipn 32 B))). rewrite groups_firstn, groups_skipn by lia. cbn [Nat.mul Nat.add].
      rewrite firstn_app, skipn_app, L1, Nat.sub_diag, firstn_O, skipn_O. rewrite (firstn_all2 (firstn 32 B)), (skipn_all2 (firstn 32 B)) by lia. rewrite app_nil_r. reflexivity. }
    destruct (word4 _ L1) as [W1 W2]. rewrite !groups_app by (try lia; assumption). cbn [map]. rewrite W1. f_equal.
    apply IH. rewrite skipn_length. lia.
Qed.
Lemma bytes_length k b : length b = (8 * k)%nat -> length (bits_bytes b) = k.
Proof. intro L. unfold bits_bytes. rewrite map_length. apply (groups_len 8 k); lia. Qed.
(** One block. *)
Lemma block_words k b : length b = (8 * k)%nat -> (k <= 64)%nat ->
  words2s (fill 64 (bits_bytes b)) = map Z_of_bits (groups 32 b) ++ repeat 0 (16 - length (groups 32 b)).
Proof.
  intros L Hk. unfold fill. rewrite (bytes_length k) by exact L. rewrite (bytes_pad k) by exact L.
  rewrite (words_bytes 16) by (rewrite app_length, repeat_length; lia). rewrite (words_pad 16) by lia. do 3 f_equal. f_equal. lia.
Qed.
(** All blocks. *)
Lemma groups_bytes k : forall b, length b = (8 * k)%nat -> groups 64 (bits_bytes b) = map bits_bytes (groups 512 b).
Proof.
  induction k as [k IH] using lt_wf_ind; intros b L. destruct b as [|t b]; [reflexivity|]. set (b' := t :: b) in *.
  assert (b' <> []) as N by discriminate. assert (bits_bytes b' <> []) as N2.
  { intro E. pose proof (bytes_length k b' L) as L2. rewrite E in L2. cbn in L2. unfold b' in L. cbn in L. lia. }
  rewrite (groups_cons 64) by (try lia; exact N2). rewrite (groups_cons 512 b') by (try lia; exact N). cbn [map]. unfold bits_bytes at 1 2.
  rewrite firstn_map, skipn_map, groups_firstn, groups_skipn by lia. change (64 * 8)%nat with 512%nat. f_equal.
  change (map Z_of_bits (groups 8 (skipn 512 b'))) with (bits_bytes (skipn 512 b')).
  assert (0 < k)%nat by (unfold b' in L; cbn in L; lia).
  apply (IH (k - 64)%nat); [lia|]. rewrite skipn_length. lia.
Qed.
(** Digest bytes. *)
Lemma le_bytes4 B : length B = 32%nat -> bits_bytes B = le_bytes 4 (Z_of_bits B).
Proof.
  intro L. unfold bits_bytes. rewrite 4!(groups_cons 8) by (try lia; intro E; apply (f_equal (@length _)) in E; rewrite ?skipn_length, L in E; cbn in E; lia).
  rewrite !skipn_skipn'. cbn [Nat.add]. rewrite (skipn_all2 (n := 32) B) by lia. rewrite groups_nil. unfold le_bytes. cbn [seq map].
  rewrite !Z_of_bits_firstn by (rewrite ?skipn_length, ?L; lia). rewrite !Z_of_bits_skipn by lia.
  change (256 ^ Z.of_nat 0) with 1. rewrite Z.div_1_r. reflexivity.
Qed.

Section P.
Context (K : PFld).
Hypothesis K64 : 64 <= modulus_bits K.
Lemma digest_bytes (s : cs K) (x : var -> K) ws : Forall (word_in s) ws ->
  bits_bytes (map (btrue x) (flat_map u32_into_bits ws)) = flat_map (le_bytes 4) (map (wval x) ws).
Proof.
  intro H. induction H as [|u ws (L & _) H IH]; [reflexivity|]. cbn [flat_map map]. rewrite <- IH. rewrite map_app. unfold u32_into_bits at 1, wval.
  unfold bsval. rewrite <- le_bytes4 by (rewrite map_length; exact L). set (B := map (btrue x) (ubits u)). assert (length B = 32%nat) as LB by (unfold B; rewrite map_length; exact L).
  set (R := map _ (flat_map _ ws)). unfold bits_bytes. rewrite <- map_app. f_equal.
  rewrite <- (firstn_skipn 4 (groups 8 (B ++ R))). rewrite groups_firstn, groups_skipn by lia. cbn [Nat.mul Nat.add].
  rewrite firstn_app, skipn_app, LB, Nat.sub_diag, firstn_O, skipn_O. rewrite (firstn_all2 B), (skipn_all2 B) by lia. rewrite app_nil_r. reflexivity.
Qed.
Lemma word_pad_ok (s : cs K) w : (length w <= 32)%nat -> Forall (bool_in s) w ->
  exists u, b2_word w = Ok u /\ word_in s u /\ (Forall (b_honest s) w -> word_honest s u) /\ forall x : var -> K, wval x u = Z_of_bits (map (btrue x) w).
Proof.
  intros L B. unfold b2_word. destruct (from_bits_ok K s (w ++ repeat (BConst false) (32 - length w))) as (u & A1 & A2 & A3 & A4).
  - rewrite app_length, repeat_length. lia.
  - apply Forall_app. split; [exact B|]. apply Forall_forall. intros b Ib. apply repeat_spec in Ib. subst. apply bool_in_const.
  - exists u. split; [exact A1|]. split; [exact A3|]. split.
    + intro H. apply A4, Forall_app. split; [exact H|]. apply Forall_forall. intros b Ib. apply repeat_spec in Ib. subst. apply b_honest_c.
    + intro x. unfold wval, bsval. change (ubits u) with (u32_into_bits u). unfold u32_into_bits. rewrite A2, map_app, map_rep, btrue_const, Z_of_bits_app, Z_of_bits_false. lia.
Qed.
Lemma words_pad_ok (s : cs K) ws : Forall (fun w => (length w <= 32)%nat /\ Forall (bool_in s) w) ws ->
  exists us, res_map b2_word ws = Ok us /\ Forall (word_in s) us /\ length us = length ws /\ (Forall (Forall (b_honest s)) ws -> Forall (word_honest s) us) /\
    forall x : var -> K, map (wval x) us = map Z_of_bits (map (map (btrue x)) ws).
Proof.
  induction ws as [|w ws IH]; intro H; [exists []; repeat split; auto|]. inversion H as [|? ? [Lw Bw] H']. subst.
  destruct (IH H') as (us & R & W & Len & Hon & V). destruct (word_pad_ok s w Lw Bw) as (u & Eu & Wu & Hu & Vu).
  exists (u :: us). cbn [res_map]. rewrite Eu. cbn [rbind]. rewrite R. cbn [rbind]. split; [reflexivity|]. split; [constructor; assumption|].
  split; [cbn; lia|]. split; [intro HH; inversion HH; subst; constructor; auto|]. intro x. cbn [map]. rewrite V, Vu. reflexivity.
Qed.
Lemma split_le {A} n : forall fuel (l : list A), Forall (fun c => length c <= n)%nat (split_every n fuel l).
Proof. intro fuel. induction fuel as [|f IH]; intro l; [constructor|]. destruct l as [|a l]; [constructor|]. cbn [split_every]. constructor; [rewrite firstn_length; lia|apply IH]. Qed.
Lemma zero_in (s : cs K) : word_in s (u32_constant 0) /\ word_honest s (u32_constant 0).
Proof. apply constant_in. lia. Qed.
Lemma zeros_val (x : var -> K) n : map (wval x) (repeat (u32_constant 0) n) = repeat 0 n.
Proof. rewrite map_rep, wval_constant by lia. reflexivity. Qed.
Definition blk_ok (s : cs K) (bits : list boolean) (ws : list u32) : Prop :=
  Forall (word_in s) ws /\ length ws = 16%nat /\ (Forall (b_honest s) bits -> Forall (word_honest s) ws) /\
  forall x : var -> K, map (wval x) ws = words2s (fill 64 (bits_bytes (map (btrue x) bits))).
Lemma block_ok (s : cs K) k b : length b = (8 * k)%nat -> (k <= 64)%nat -> Forall (bool_in s) b -> exists ws, b2_block b = Ok ws /\ blk_ok s b ws.
Proof.
  intros L Hk B. unfold b2_block. rewrite chunks_groups by lia.
  destruct (words_pad_ok s (groups 32 b)) as (us & R & W & Len & Hon & V).
  { apply Forall_forall. intros w Iw. split.
    - pose proof (split_le 32 (length b) b) as F. eapply Forall_forall in F; [|exact Iw]. exact F.
    - pose proof (groups_forall _ 32 _ B) as F. eapply Forall_forall in F; [|exact Iw]. exact F. }
  rewrite R. cbn [rbind]. eexists. split; [reflexivity|]. destruct (zero_in s) as [Z1 Z2].
  assert (length (groups 32 b) <= 16)%nat as LG.
  { rewrite <- chunks_groups by lia. unfold chunks. rewrite map_length, seq_length, L. apply Nat.lt_succ_r, Nat.div_lt_upper_bound; lia. }
  unfold blk_ok. split.
  - apply Forall_app. split; [exact W|]. apply Forall_forall. intros u Iu. apply repeat_spec in Iu. subst. exact Z1.
  - split; [rewrite app_length, repeat_length; lia|]. split.
    + intro H. apply Forall_app. split; [apply Hon, groups_forall, H|]. apply Forall_forall. intros u Iu. apply repeat_spec in Iu. subst. exact Z2.
    + intro x. rewrite map_app, zeros_val, V, (block_words k) by (try rewrite map_length; assumption). rewrite Len. rewrite <- groups_map, map_length. reflexivity.
Qed.
Lemma blocks_ok2 (s : cs K) bs : Forall (fun b => exists k, length b = (8 * k)%nat /\ (k <= 64)%nat /\ Forall (bool_in s) b) bs ->
  exists wss, res_map b2_block bs = Ok wss /\ Forall2 (blk_ok s) bs wss.
Proof.
  induction bs as [|b bs IH]; intro H; [exists []; split; [reflexivity|constructor]|]. inversion H as [|? ? (k & L & Hk & B) H']. subst.
  destruct (IH H') as (wss & R & F). destruct (block_ok s k b L Hk B) as (ws & E & O).
  exists (ws :: wss). cbn [res_map]. rewrite E. cbn [rbind]. rewrite R. split; [reflexivity|]. constructor; assumption.
Qed.
(** ** The chain of compressions *)
Definition zblk (x : var -> K) (b : list boolean) : list Z := fill 64 (bits_bytes (map (btrue x) b)).
Fixpoint chain (h : list Z) (i : Z) (bs : list (list Z)) : list Z :=
  match bs with [] => h | b :: r => chain (F2s h (words2s b) ((i + 1) * 64) false) (i + 1) r end.
Lemma absorb_snoc ll bs b : forall h i, absorb h i ll (bs ++ [b]) = F2s (chain h i bs) (words2s b) ll true.
Proof.
  induction bs as [|c bs IH]; intros h i; [reflexivity|]. cbn [app chain]. rewrite <- IH.
  destruct (bs ++ [b]) as [|e l] eqn:E; [destruct bs; discriminate|]. reflexivity.
Qed.
Lemma blk_ext (s s' : cs K) b ws : ext s s' -> Forall (bool_in s) b -> blk_ok s b ws -> Forall (word_in s') ws.
Proof. intros E _ (W & _). exact (words_ext K _ _ _ E W). Qed.
Lemma loop_spec bs : forall wss i h (s s0 : cs K), ext s0 s -> Forall2 (blk_ok s0) bs wss -> wf s -> length h = 8%nat -> Forall (word_in s) h ->
  spec (b2_loop i wss h) s (fun s' r => Forall (word_in s') r /\ length r = 8%nat)
    (fun x r => map (wval x) r = chain (map (wval x) h) i (map (zblk x) bs))
    (Forall (word_honest s) h /\ Forall (Forall (b_honest s0)) bs) (fun s' r => Forall (word_honest s') r).
Proof.
  induction bs as [|b bs IH]; intros wss i h s s0 E0 F Hw Lh Wh; inversion F as [|? ws ? wss' Ob F']; subst; cbn [b2_loop].
  - apply spec_ret'; auto. intros _ _ [H _]. exact H.
  - destruct Ob as (Wb & Lb & Hb & Vb).
    eapply spec_seq; [apply (compression_spec2 K K64 h ws ((i + 1) * 64) false s Hw Lh Lb Wh (words_ext K _ _ _ E0 Wb))| |].
    + intros [H1 H2]. inversion H2 as [|? ? H3 H4]; subst. apply Forall_app. split; [exact H1|]. exact (honest_ext K _ _ _ E0 Wb (Hb H3)).
    + intros h1 s1 E1 Hw1 [W1 L1] V1.
      eapply spec_conseq_sat; [apply (IH wss' (i + 1) h1 s1 s0 (ext_trans _ _ _ _ E0 E1) F' Hw1 L1 W1)| | | |].
      * intros r s2 _ _ W _. exact W.
      * intros x r s2 E2 _ Hx S. cbn [map chain]. rewrite S. f_equal. rewrite (V1 x (sat_ext K _ _ _ E2 Hx)), (Vb x). reflexivity.
      * intros ((_ & H2) & _ & _ & H3). split; [exact H3|]. inversion H2; assumption.
      * intros r s2 _ _ _ _ _ _ _ HR. exact HR.
Qed.
Lemma lxor_range a b n : 0 <= n -> 0 <= a < 2 ^ n -> 0 <= b < 2 ^ n -> 0 <= Z.lxor a b < 2 ^ n.
Proof.
  intros Hn Ha Hb. assert (0 <= Z.lxor a b) as P by (apply Z.lxor_nonneg; lia). split; [exact P|].
  destruct (Z.eq_dec (Z.lxor a b) 0) as [->|N]; [apply Z.pow_pos_nonneg; lia|].
  destruct (Z.eq_dec a 0) as [->|Na]; [rewrite Z.lxor_0_l; lia|]. destruct (Z.eq_dec b 0) as [->|Nb]; [rewrite Z.lxor_0_r; lia|].
  apply Z.log2_lt_pow2; [lia|]. pose proof (Z.log2_lxor a b ltac:(lia) ltac:(lia)).
  assert (0 < a) by lia. assert (0 < b) by lia. destruct Ha as [_ Ha], Hb as [_ Hb]. apply Z.log2_lt_pow2 in Ha; [|lia]. apply Z.log2_lt_pow2 in Hb; lia.
Qed.
Definition h0z (pers : list Z) : list Z := map (fun '(a, b) => Z.lxor a b) (combine IV2s (params2s pers)).
Lemma h0_eq pers : length pers = 8%nat -> Forall (fun b => 0 <= b < 256) pers ->
  [Z.lxor (Z.lxor 1779033703 16842752) 32; 3144134277; 1013904242; 2773480762; 1359893119; 2600822924;
     Z.lxor 528734635 (read_u32 (firstn 4 pers)); Z.lxor 1541459225 (read_u32 (skipn 4 pers))] = h0z pers /\ Forall (fun z => 0 <= z < 2 ^ 32) (h0z pers).
Proof.
  intros L B. do 8 (destruct pers as [|? pers]; [discriminate|]). destruct pers; [|discriminate].
  repeat match goal with H : Forall _ (_ :: _) |- _ => let X := fresh in let Y := fresh in inversion H as [|? ? X Y]; subst; clear H end.
  unfold h0z, params2s, IV2s. cbn [firstn skipn read_u32 word_le fold_right combine map]. rewrite !Z.lxor_0_r. split.
  - f_equal. do 5 f_equal. f_equal; [f_equal; lia|]. f_equal. f_equal. lia.
  - repeat apply Forall_cons; try apply Forall_nil; try lia; apply lxor_range; lia.
Qed.
Lemma consts_ok (s : cs K) zs : Forall (fun z => 0 <= z < 2 ^ 32) zs -> Forall (word_in s) (map u32_constant zs) /\ Forall (word_honest s) (map u32_constant zs) /\
  forall x : var -> K, map (wval x) (map u32_constant zs) = zs.
Proof.
  intro H. induction H as [|z zs Hz H (A & B & C)]; [repeat split; constructor|]. destruct (constant_in K s z Hz) as [D1 D2].
  split; [constructor; assumption|]. split; [constructor; assumption|]. intro x. cbn [map]. rewrite C, wval_constant by exact Hz. reflexivity.
Qed.
Lemma le_digest_in (s : cs K) ws : Forall (word_in s) ws -> Forall (bool_in s) (flat_map u32_into_bits ws) /\ length (flat_map u32_into_bits ws) = (32 * length ws)%nat.
Proof.
  intro H. induction H as [|u ws (Lu & Bu & _) H [IH1 IH2]]; [split; [constructor|reflexivity]|]. cbn [flat_map length]. split.
  - apply Forall_app. split; [exact Bu|exact IH1].
  - rewrite app_length, IH2. unfold u32_into_bits. rewrite Lu. lia.
Qed.
Lemma le_digest_honest (s : cs K) ws : Forall (word_honest s) ws -> Forall (b_honest s) (flat_map u32_into_bits ws).
Proof.
  intro H. induction H as [|u ws (Hu & _) H IH]; [constructor|]. cbn [flat_map]. apply Forall_app. split; [exact Hu|exact IH].
Qed.
Lemma groups512 (s : cs K) k : forall b, length b = (8 * k)%nat -> Forall (bool_in s) b ->
  Forall (fun c => exists k, length c = (8 * k)%nat /\ (k <= 64)%nat /\ Forall (bool_in s) c) (groups 512 b).
Proof.
  induction k as [k IH] using lt_wf_ind; intros b L B. destruct b as [|t b]; [constructor|]. set (b' := t :: b) in *.
  assert (b' <> []) as N by discriminate. assert (0 < k)%nat by (unfold b' in L; cbn in L; lia).
  rewrite (groups_cons 512 b') by (try lia; exact N). constructor.
  - exists (Nat.min 64 k). split; [rewrite firstn_length; lia|]. split; [lia|]. apply Forall_firstn, B.
  - apply (IH (k - 64)%nat); [lia|rewrite skipn_length; lia|]. apply Forall_skipn, B.
Qed.
Lemma empty_blk (s : cs K) : blk_ok s [] (repeat (u32_constant 0) 16).
Proof. destruct (block_ok s 0 [] eq_refl ltac:(lia) ltac:(constructor)) as (ws & E & O). cbn in E. injection E as <-. exact O. Qed.
Lemma concat_groups {A} (P : A -> Prop) n l : (0 < n)%nat -> Forall P l -> Forall (Forall P) (groups n l).
Proof. intros _. apply groups_forall. Qed.
Theorem blake2s_circuit (input : list boolean) (pers : list Z) (s : cs K) : wf s -> (length input mod 8 = 0)%nat -> Forall (bool_in s) input ->
  length pers = 8%nat -> Forall (fun b => 0 <= b < 256) pers ->
  spec (blake2s input pers) s (fun s' r => Forall (bool_in s') r /\ length r = 256%nat)
    (fun x r => bits_bytes (map (btrue x) r) = blake2s_spec pers (bits_bytes (map (btrue x) input)))
    (Forall (b_honest s) input) (fun s' r => Forall (b_honest s') r).
Proof.
  intros Hw L8 B Lp Bp. unfold blake2s. rewrite Lp, L8. cbn [Nat.eqb negb]. destruct (h0_eq pers Lp Bp) as [Eh Rh]. rewrite Eh. cbv zeta.
  apply Nat.mod_divides in L8; [|lia]. destruct L8 as [k Lk].
  rewrite chunks_groups by lia. destruct (blocks_ok2 s (groups 512 input) (groups512 s k input Lk B)) as (wss & -> & F).
  change (bind (lift_res (Ok wss))) with (fun k : list (list u32) -> M K (list boolean) => fun s : cs K => k wss s). cbv beta.
  assert (exists bs b wss' ws, (forall x, blocks2s (bits_bytes (map (btrue x) input)) = map (zblk x) bs ++ [zblk x b]) /\
    match wss with [] => [repeat (u32_constant 0) 16] | _ => wss end = wss' ++ [ws] /\ Forall2 (blk_ok s) bs wss' /\ blk_ok s b ws /\
    (Forall (b_honest s) input -> Forall (Forall (b_honest s)) (bs ++ [b]))) as (bs & b & wss' & ws & Eb & -> & Fb & Ob & Hh).
  { destruct input as [|t input].
    - exists [], [], [], (repeat (u32_constant 0) 16). inversion F. subst. split; [reflexivity|]. split; [reflexivity|]. split; [constructor|]. split; [apply empty_blk|].
      intro. constructor; [constructor|constructor].
    - set (inp := t :: input) in *. assert (groups 512 inp <> []) as N by (rewrite groups_cons by (try lia; discriminate); discriminate).
      destruct (exists_last N) as (bs & b & E). rewrite E in F. apply Forall2_app_inv_l in F. destruct F as (wss' & wl & F1 & F2 & ->).
      inversion F2 as [|? ws ? wr Ob F3]. subst. inversion F3. subst. exists bs, b, wss', ws. split.
      + intro x. unfold blocks2s. assert (exists y ys, bits_bytes (map (btrue x) inp) = y :: ys) as (y & ys & Ey).
        { unfold bits_bytes. rewrite groups_cons by (try lia; discriminate). cbn [map]. eauto. }
        rewrite Ey, <- Ey, (groups_bytes k) by (rewrite map_length; exact Lk). rewrite <- groups_map, E, !map_app, !map_map. reflexivity.
      + split; [destruct (wss' ++ [ws]) eqn:Z; [destruct wss'; discriminate|reflexivity]|]. split; [exact F1|]. split; [exact Ob|].
        intro H. rewrite <- E. apply groups_forall, H. }
  rewrite removelast_last, last_last. destruct (consts_ok s (h0z pers) Rh) as (W0 & H0 & V0).
  eapply spec_seq; [apply (loop_spec bs wss' 0 (map u32_constant (h0z pers)) s s (ext_refl _ s) Fb Hw eq_refl W0)| |].
  { intro H. split; [exact H0|]. apply Hh, Forall_app in H. apply H. }
  intros h1 s1 E1 Hw1 [W1 L1] V1. destruct Ob as (Wb & Lb & Hb & Vb).
  eapply spec_seq; [apply (compression_spec2 K K64 h1 ws (Z.of_nat (length input / 8)) true s1 Hw1 L1 Lb W1 (words_ext K _ _ _ E1 Wb))| |].
  { intros (H & _ & _ & H1). apply Forall_app. split; [exact H1|]. apply (honest_ext K _ _ _ E1 Wb). apply Hb. apply Hh, Forall_app in H. destruct H as [_ H]. inversion H; assumption. }
  intros h2 s2 E2 Hw2 [W2 L2] V2. apply spec_ret'; [exact Hw2| | |].
  - destruct (le_digest_in s2 h2 W2) as [D1 D2]. split; [exact D1|]. rewrite D2, L2. reflexivity.
  - intros x Hx. rewrite (digest_bytes s2) by exact W2. unfold blake2s_spec. rewrite Eb, absorb_snoc. rewrite (V2 x Hx). do 2 f_equal.
    + rewrite (V1 x (sat_ext K _ _ _ E2 Hx)), V0. reflexivity.
    + apply Vb.
    + rewrite (bytes_length k) by (rewrite map_length; exact Lk). rewrite Lk, Nat.mul_comm, Nat.div_mul by lia. reflexivity.
  - intros _ _ (_ & _ & _ & H). apply le_digest_honest, H.
Qed.
End P.
Lemma blake2s_panics (K : PFld) (s : cs K) input pers : length pers <> 8%nat \/ (length input mod 8 <> 0)%nat -> blake2s input pers s = Panic.
Proof.
  unfold blake2s. intros [H|H].
  - apply Nat.eqb_neq in H. rewrite H. reflexivity.
  - apply Nat.eqb_neq in H. rewrite H. destruct (negb _); reflexivity.
Qed.
