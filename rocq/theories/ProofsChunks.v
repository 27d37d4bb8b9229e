(** Splitting lists into equal pieces. *)
From Verif Require Import Field ModelLC ModelCS ModelBoolean ModelUint32 SpecUint32 ProofsUint32 ProofsWord ModelOperator ModelSha256 SpecSha256.
Local Open Scope nat_scope.
Lemma skipn_skipn' {A} a b (l : list A) : skipn a (skipn b l) = skipn (b + a) l.
Proof. revert l. induction b as [|b IH]; intro l; [reflexivity|]. destruct l; [rewrite !skipn_nil; reflexivity|]. cbn [skipn Nat.add]. apply IH. Qed.
Lemma chunks_nil {A} n : 0 < n -> chunks n (@nil A) = [].
Proof. intro H. unfold chunks. cbn [length Nat.add]. rewrite Nat.div_small by lia. reflexivity. Qed.
Lemma ceil_step n len : 0 < n -> 0 < len -> (len + n - 1) / n = S ((len - n + n - 1) / n).
Proof.
  intros Hn Hl. destruct (Nat.le_gt_cases len n) as [H|H].
  - replace (len - n) with 0 by lia. rewrite (Nat.div_small (0 + n - 1)) by lia.
    symmetry. apply (Nat.div_unique _ _ _ (len - 1)); lia.
  - replace (len + n - 1) with ((len - n + n - 1) + 1 * n) by lia. rewrite Nat.div_add by lia. lia.
Qed.
Lemma chunks_cons {A} n (a : A) l : 0 < n -> chunks n (a :: l) = firstn n (a :: l) :: chunks n (skipn n (a :: l)).
Proof.
  intro Hn. unfold chunks. rewrite (ceil_step n (length (a :: l))) by (cbn [length]; lia). rewrite skipn_length.
  rewrite <- cons_seq. cbn [map Nat.mul skipn]. f_equal. rewrite <- seq_shift, map_map. apply map_ext. intro i.
  rewrite skipn_skipn'. reflexivity.
Qed.
Lemma chunks_groups_aux {A} n : 0 < n -> forall fuel (l : list A), length l <= fuel -> chunks n l = split_every n fuel l.
Proof.
  intros Hn fuel. induction fuel as [|f IH]; intros l H.
  - destruct l; [apply chunks_nil, Hn|cbn in H; lia].
  - destruct l as [|a l]; [rewrite chunks_nil by exact Hn; reflexivity|]. rewrite chunks_cons by exact Hn. cbn [split_every]. f_equal.
    apply IH. rewrite skipn_length. cbn [length] in *. lia.
Qed.
Lemma chunks_groups {A} n (l : list A) : 0 < n -> chunks n l = groups n l.
Proof. intro H. apply chunks_groups_aux; [exact H|lia]. Qed.
Lemma split_map {A B} (f : A -> B) n fuel (l : list A) : map (map f) (split_every n fuel l) = split_every n fuel (map f l).
Proof.
  revert l. induction fuel as [|k IH]; intro l; [reflexivity|]. destruct l as [|a l]; [reflexivity|].
  cbn [split_every map]. change (f a :: map f l) with (map f (a :: l)). rewrite IH, firstn_map, skipn_map. reflexivity.
Qed.
Lemma groups_map {A B} (f : A -> B) n (l : list A) : map (map f) (groups n l) = groups n (map f l).
Proof. unfold groups. rewrite map_length. apply split_map. Qed.
Lemma split_forall {A} (P : A -> Prop) n fuel (l : list A) : Forall P l -> Forall (Forall P) (split_every n fuel l).
Proof.
  revert l. induction fuel as [|k IH]; intros l H; [constructor|]. destruct l as [|a l]; [constructor|]. cbn [split_every].
  constructor; [apply Forall_firstn, H|apply IH, Forall_skipn, H].
Qed.
Lemma groups_forall {A} (P : A -> Prop) n (l : list A) : Forall P l -> Forall (Forall P) (groups n l).
Proof. apply split_forall. Qed.
Lemma split_len {A} n : 0 < n -> forall fuel k (l : list A), length l <= fuel -> length l = k * n ->
  length (split_every n fuel l) = k /\ Forall (fun c => length c = n) (split_every n fuel l).
Proof.
  intros Hn fuel. induction fuel as [|f IH]; intros k l Hf Hl.
  - assert (k = 0) by nia. subst. split; [reflexivity|constructor].
  - destruct l as [|a l]; [assert (k = 0) by (cbn in Hl; nia); subst; split; [reflexivity|constructor]|].
    destruct k as [|k]; [cbn in Hl; lia|]. cbn [split_every].
    destruct (IH k (skipn n (a :: l))) as [I1 I2]; [rewrite skipn_length; cbn [length] in *; lia|rewrite skipn_length; nia|].
    split; [cbn [length]; rewrite I1; reflexivity|]. constructor; [|exact I2]. rewrite firstn_length. nia.
Qed.
Lemma groups_len {A} n k (l : list A) : 0 < n -> length l = k * n -> length (groups n l) = k /\ Forall (fun c => length c = n) (groups n l).
Proof. intros Hn Hl. apply split_len; [exact Hn|lia|exact Hl]. Qed.
Local Open Scope Z_scope.
Lemma Z_be_acc l a : fold_left (fun a t => 2 * a + Z.b2z t) l a = a * 2 ^ Z.of_nat (length l) + Z_of_bits (rev l).
Proof.
  revert a. induction l as [|b l IH]; intro a.
  - cbn [fold_left length rev Z_of_bits fold_right]. change (2 ^ Z.of_nat 0) with 1. lia.
  - cbn [fold_left rev length]. rewrite IH, Z_of_bits_app, rev_length, Nat2Z.inj_succ, Z.pow_succ_r by lia.
    cbn [Z_of_bits fold_right]. nia.
Qed.
Lemma Z_be_rev l : Z_be l = Z_of_bits (rev l).
Proof. unfold Z_be. rewrite Z_be_acc. lia. Qed.
Lemma be_bits_rev n v : be_bits n v = rev (map (fun i => Z.testbit v (Z.of_nat i)) (seq 0 n)).
Proof.
  unfold be_bits. induction n as [|n IH]; [reflexivity|].
  rewrite seq_S at 2. rewrite map_app, rev_app_distr. cbn [map rev app Nat.add]. rewrite <- cons_seq. cbn [map].
  f_equal; [f_equal; lia|]. rewrite <- IH, <- seq_shift, map_map. apply map_ext_in. intros i Hi. apply in_seq in Hi. f_equal. lia.
Qed.
Lemma groups_cons {A} n (l : list A) : (0 < n)%nat -> l <> [] -> groups n l = firstn n l :: groups n (skipn n l).
Proof.
  intros Hn Hl. rewrite <- !chunks_groups by exact Hn. destruct l as [|a l]; [contradiction|]. apply chunks_cons, Hn.
Qed.
Lemma groups_nil {A} n : groups n (@nil A) = []. Proof. reflexivity. Qed.
Lemma groups_app {A} n (a r : list A) : (0 < n)%nat -> length a = n -> groups n (a ++ r) = a :: groups n r.
Proof.
  intros Hn Ha. rewrite groups_cons; [|exact Hn|destruct a; [cbn in Ha; lia|discriminate]].
  rewrite firstn_app, skipn_app, <- Ha, Nat.sub_diag, firstn_all, skipn_all. cbn [firstn skipn app]. rewrite app_nil_r. reflexivity.
Qed.
Lemma groups_one {A} n (a : list A) : (0 < length a <= n)%nat -> groups n a = [a].
Proof.
  intros [H1 H2]. assert (a <> []) as Na by (destruct a; [cbn in H1; lia|discriminate]). rewrite groups_cons by (try exact Na; lia).
  rewrite firstn_all2, skipn_all2 by lia. reflexivity.
Qed.
Lemma groups_skipn {A} n k (l : list A) : (0 < n)%nat -> skipn k (groups n l) = groups n (skipn (k * n) l).
Proof.
  intro Hn. revert l. induction k as [|k IH]; intro l; [reflexivity|].
  destruct l as [|a l]; [rewrite groups_nil, !skipn_nil; reflexivity|]. rewrite (groups_cons n (a :: l)) by (try exact Hn; discriminate).
  cbn [skipn]. rewrite IH. cbn [Nat.mul]. rewrite skipn_skipn'. reflexivity.
Qed.
Lemma groups_firstn {A} n k (l : list A) : (0 < n)%nat -> firstn k (groups n l) = groups n (firstn (k * n) l).
Proof.
  intro Hn. revert l. induction k as [|k IH]; intro l; [reflexivity|].
  destruct l as [|a l]; [rewrite groups_nil, !firstn_nil; reflexivity|]. rewrite (groups_cons n (a :: l)) by (try exact Hn; discriminate).
  cbn [firstn Nat.mul]. rewrite IH.
  assert (firstn (n + k * n) (a :: l) <> []) as Nf by (destruct n; [lia|discriminate]). rewrite (groups_cons n (firstn (n + k * n) (a :: l))) by (try exact Nf; exact Hn).
  rewrite firstn_firstn, Nat.min_l by lia. f_equal. f_equal. rewrite skipn_firstn_comm. f_equal. lia.
Qed.
