(** The composer: invariant, gates, wire permutation. *)
From Coq Require Import Permutation.
From Verif Require Import ModelPlonk SpecPlonk.
Local Open Scope fld_scope.
Section L.
Context {A : Type}.
Lemma lset_some (l : list A) i x : (i < length l)%nat -> exists l', lset l i x = Some l'.
Proof. revert i. induction l as [|y l IH]; intros [|i] H; cbn in *; try lia; [eauto|]. destruct (IH i) as [l' ->]; [lia|]. eauto. Qed.
Lemma lset_inv (l l' : list A) i x : lset l i x = Some l' -> (i < length l)%nat /\ length l' = length l /\ forall j d, nth j l' d = if Nat.eqb j i then x else nth j l d.
Proof.
  revert i l'. induction l as [|y l IH]; intros [|i] l' H; cbn in H; try discriminate.
  - inversion H; subst. split; [cbn; lia|]. split; [reflexivity|]. intros [|j] d; reflexivity.
  - destruct (lset l i x) as [r|] eqn:E; [|discriminate]. inversion H; subst. destruct (IH _ _ E) as (H1 & H2 & H3). split; [cbn; lia|]. split; [cbn; lia|]. intros [|j] d; cbn; [reflexivity|apply H3].
Qed.
End L.
Section P.
Variable K : Fld.
Add Field Kf : (f_laws K).
Lemma add_to_map_inv m v w m' : add_to_map m v w = Ok m' -> (v < length m)%nat /\ length m' = length m /\ forall u, nth u m' [] = if Nat.eqb u v then nth v m [] ++ [w] else nth u m [].
Proof.
  unfold add_to_map. destruct (nth_error m v) as [l|] eqn:E; [|discriminate]. destruct (lset m v (l ++ [w])) as [r|] eqn:S; [|discriminate]. cbn. intro H. inversion H; subst.
  destruct (lset_inv _ _ _ _ S) as (H1 & H2 & H3). split; [exact H1|]. split; [exact H2|]. intro u. rewrite H3. destruct (Nat.eqb u v); [|reflexivity]. rewrite (nth_error_nth _ _ _ E). reflexivity.
Qed.
Lemma add_to_map_ok m v w : (v < length m)%nat -> exists m', add_to_map m v w = Ok m'.
Proof.
  intro H. unfold add_to_map. destruct (nth_error m v) as [l|] eqn:E; [|apply nth_error_None in E; lia]. destruct (lset_some m v (l ++ [w]) H) as [r ->]. eexists. reflexivity.
Qed.
Record pwf (c : composer K) : Prop := {
  wf_q : length (c_q0 c) = c_n c /\ length (c_q1 c) = c_n c /\ length (c_q2 c) = c_n c /\ length (c_q3 c) = c_n c /\ length (c_qm c) = c_n c /\ length (c_qc c) = c_n c /\ length (c_pi c) = c_n c;
  wf_qa : c_qa c = repeat 1 (c_n c);
  wf_w : length (c_w0 c) = c_n c /\ length (c_w1 c) = c_n c /\ length (c_w2 c) = c_n c /\ length (c_w3 c) = c_n c;
  wf_a : length (c_asg c) = length (c_vmap c);
  wf_null : (c_null c < length (c_vmap c))%nat;
  wf_nd : forall v, NoDup (nth v (c_vmap c) []);
  wf_in : forall s v, In s (nth v (c_vmap c) []) <-> slot_var c s = Some v }.
Lemma pwf_new : pwf (c_new K).
Proof.
  constructor; cbn; auto; try lia; [intros [|[|v]]; constructor|]. intros [k i] v. split; [destruct v as [|[|v]]; intros []|].
  unfold slot_var, col. cbn. destruct k as [|[|[|[|[|k]]]]]; destruct i; cbn; discriminate.
Qed.
Lemma pwf_alloc c x : pwf c -> pwf (snd (c_alloc c x)).
Proof.
  intros [Q QA W A N ND I]. constructor; cbn; auto.
  - rewrite !app_length. cbn. lia.
  - rewrite app_length. lia.
  - intro v. destruct (Nat.lt_ge_cases v (length (c_vmap c))) as [L|L]; [rewrite app_nth1 by exact L; apply ND|]. rewrite app_nth2 by exact L. destruct (v - _)%nat as [|[|u]]; constructor.
  - intros s v. change (slot_var _ s) with (slot_var c s). rewrite <- I. destruct (Nat.lt_ge_cases v (length (c_vmap c))) as [L|L]; [rewrite app_nth1 by exact L; reflexivity|].
    rewrite app_nth2 by exact L. rewrite (nth_overflow (c_vmap c)) by exact L. destruct (v - _)%nat as [|[|u]]; reflexivity.
Qed.
Lemma insert_inv m a l r o i m' : insert_gate m a l r o i = Ok m' -> (a < length m /\ l < length m /\ r < length m /\ o < length m)%nat /\ length m' = length m /\
  (forall u, exists e, nth u m' [] = nth u m [] ++ e /\ NoDup e /\ forall s, In s e <-> (s = (0, i) /\ u = a \/ s = (1, i) /\ u = l \/ s = (2, i) /\ u = r \/ s = (3, i) /\ u = o)%nat).
Proof.
  unfold insert_gate. destruct (add_to_map m a _) as [m1| |] eqn:E1; cbn; try discriminate. destruct (add_to_map m1 l _) as [m2| |] eqn:E2; cbn; try discriminate.
  destruct (add_to_map m2 r _) as [m3| |] eqn:E3; cbn; try discriminate. intro E4.
  apply add_to_map_inv in E1, E2, E3, E4. destruct E1 as (L1 & N1 & F1), E2 as (L2 & N2 & F2), E3 as (L3 & N3 & F3), E4 as (L4 & N4 & F4).
  split; [lia|]. split; [lia|]. intro u.
  exists ((if Nat.eqb u a then [(0, i)%nat] else []) ++ (if Nat.eqb u l then [(1, i)%nat] else []) ++ (if Nat.eqb u r then [(2, i)%nat] else []) ++ (if Nat.eqb u o then [(3, i)%nat] else [])).
  split; [|split].
  - assert (G : forall (x : list (list wire)) v w u, (if Nat.eqb u v then nth v x [] ++ [w] else nth u x []) = nth u x [] ++ (if Nat.eqb u v then [w] else [])).
    { intros x v w u0. destruct (Nat.eqb_spec u0 v) as [->|]; [reflexivity|]. rewrite app_nil_r. reflexivity. }
    rewrite F4, G, F3, G, F2, G, F1, G, <- !app_assoc. reflexivity.
  - destruct (Nat.eqb u a), (Nat.eqb u l), (Nat.eqb u r), (Nat.eqb u o); cbn; repeat constructor; cbn; intuition congruence.
  - intro s. rewrite !in_app_iff. destruct (Nat.eqb_spec u a), (Nat.eqb_spec u l), (Nat.eqb_spec u r), (Nat.eqb_spec u o); cbn; intuition congruence.
Qed.
Lemma NoDup_app_both {A} (l m : list A) : NoDup l -> NoDup m -> (forall x, In x l -> In x m -> False) -> NoDup (l ++ m).
Proof.
  intros N1 N2 D. induction N1 as [|x l Hx N1 IH]; [exact N2|]. cbn. constructor.
  - rewrite in_app_iff. intros [I|I]; [tauto|]. apply (D x); [left; reflexivity|exact I].
  - apply IH. intros y I1 I2. apply (D y); [right; exact I1|exact I2].
Qed.
Lemma poly_gate_inv c l r o aux qm qc pi c' : poly_gate c l r o aux qm qc pi = Ok c' -> exists m, 
  let a := match aux with Some a => a | None => (c_null c, 0) end in
  insert_gate (c_vmap c) (fst a) (fst l) (fst r) (fst o) (c_n c) = Ok m /\
  c' = mkComp K (S (c_n c)) (c_q0 c ++ [snd a]) (c_q1 c ++ [snd l]) (c_q2 c ++ [snd r]) (c_q3 c ++ [snd o]) (c_qm c ++ [qm]) (c_qc c ++ [qc]) (c_qa c ++ [1]) (c_pi c ++ [pi])
    (c_w0 c ++ [fst a]) (c_w1 c ++ [fst l]) (c_w2 c ++ [fst r]) (c_w3 c ++ [fst o]) (c_null c) m (c_asg c).
Proof.
  unfold poly_gate. cbv zeta. destruct (insert_gate _ _ _ _ _ _) as [m| |] eqn:E; cbn; try discriminate. intro H. inversion H. exists m. split; reflexivity.
Qed.
Lemma slot_var_row c s v : pwf c -> slot_var c s = Some v -> (snd s < c_n c /\ fst s < 4)%nat.
Proof.
  intros [_ _ (W0 & W1 & W2 & W3) _ _ _ _] H. destruct s as [k i]. unfold slot_var, col in H. cbn [fst snd] in *.
  assert (i < length (nth k [c_w0 c; c_w1 c; c_w2 c; c_w3 c] []))%nat by (apply nth_error_Some; congruence).
  destruct k as [|[|[|[|k]]]]; cbn in *; try lia. destruct k; cbn in *; lia.
Qed.
Lemma pwf_gate c l r o aux qm qc pi c' : pwf c -> poly_gate c l r o aux qm qc pi = Ok c' -> pwf c'.
Proof.
  intros WF H. destruct (poly_gate_inv _ _ _ _ _ _ _ _ _ H) as (m & E & ->). clear H. set (a := match aux with Some a => a | None => (c_null c, 0) end) in *. cbv zeta in E.
  destruct (insert_inv _ _ _ _ _ _ _ E) as (_ & LM & F). pose proof (fun s v => slot_var_row c s v WF) as SR. destruct WF as [Q QA W A N ND I].
  destruct W as (W0 & W1 & W2 & W3).
  constructor; cbn.
  - rewrite !app_length. cbn. lia.
  - rewrite QA, <- repeat_cons. reflexivity.
  - rewrite !app_length. cbn. lia.
  - lia.
  - lia.
  - intro v. destruct (F v) as (e & -> & NE & IE). apply NoDup_app_both; [apply ND|exact NE|]. intros s S1 S2. apply I in S1. apply SR in S1. apply IE in S2.
    destruct S1 as [S1 _]. intuition subst; cbn in S1; lia.
  - intros s v. destruct (F v) as (e & -> & NE & IE). rewrite in_app_iff, I, IE. destruct s as [k i]. unfold slot_var, col. cbn [fst snd c_w0 c_w1 c_w2 c_w3].
    destruct (Nat.eq_dec i (c_n c)) as [->|D].
    + assert (Z : forall (w : list nat) x, length w = c_n c -> nth_error (w ++ [x]) (c_n c) = Some x /\ nth_error w (c_n c) = None).
      { intros w x Lw. split; [rewrite <- Lw, nth_error_app2, Nat.sub_diag by lia; reflexivity|apply nth_error_None; lia]. }
      destruct k as [|[|[|[|k]]]]; cbn [nth].
      * destruct (Z _ (fst a) W0) as [-> ->]. intuition congruence.
      * destruct (Z _ (fst l) W1) as [-> ->]. intuition congruence.
      * destruct (Z _ (fst r) W2) as [-> ->]. intuition congruence.
      * destruct (Z _ (fst o) W3) as [-> ->]. intuition congruence.
      * assert (E0 : nth_error (@nil nat) (c_n c) = None) by (apply nth_error_None; cbn; lia). destruct k; cbn [nth]; rewrite E0; intuition congruence.
    + assert (Z : forall (w : list nat) x, length w = c_n c -> nth_error (w ++ [x]) i = nth_error w i).
      { intros w x Lw. destruct (Nat.lt_ge_cases i (length w)) as [L|L]; [apply nth_error_app1; exact L|]. rewrite (proj2 (nth_error_None w i)) by lia. apply nth_error_None. rewrite app_length. cbn. lia. }
      destruct k as [|[|[|[|k]]]]; cbn [nth]; rewrite ?Z by assumption; try (intuition congruence).
Qed.
Lemma pwf_op c o c' : pwf c -> run_op c o = Ok c' -> pwf c'.
Proof.
  intros W H. destruct o; cbn in H; [inversion H; apply (pwf_alloc c v W)|..]; eapply pwf_gate; eauto.
Qed.
Lemma pwf_ops l : forall c c', pwf c -> run_ops c l = Ok c' -> pwf c'.
Proof.
  induction l as [|o l IH]; intros c c' W H; cbn in H; [congruence|]. destruct (run_op c o) as [c1| |] eqn:E; try discriminate. cbn in H. eapply IH; [|exact H]. eapply pwf_op; eauto.
Qed.
End P.
