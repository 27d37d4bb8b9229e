(** Circuits built by `Circuit::new`; exactness of the plain Libra prover; the input layer. *)
From Verif Require Import Field Poly ProofsPC SpecMle ProofsMle SpecLibra ProofsLibra ProofsLibra2.
From Verif Require Import ModelLibra.
Local Open Scope string_scope.
Local Open Scope list_scope.
Local Open Scope fld_scope.
Lemma next_pow2_above n : pow2_above n (next_pow2 n).
Proof.
  unfold next_pow2. exists (Nat.log2_up n). split; [reflexivity|]. split; [destruct n as [|n]; [cbn; lia|]; destruct (Nat.le_gt_cases (S n) 1) as [L|L]; [assert (n = 0)%nat as -> by lia; cbn; lia|apply Nat.log2_up_spec; exact L]|].
  intros j H. apply Nat.pow_le_mono_r; [lia|]. rewrite <- (Nat.log2_up_pow2 j) by lia. apply Nat.log2_up_le_mono. exact H.
Qed.
Lemma pow2_above_unique n a b : pow2_above n a -> pow2_above n b -> a = b.
Proof. intros (i & -> & A1 & A2) (j & -> & B1 & B2). apply Nat.le_antisymm; auto. Qed.
Lemma next_pow2_log n : Nat.log2_up (next_pow2 n) = Nat.log2_up n.
Proof. unfold next_pow2. apply Nat.log2_up_pow2. lia. Qed.
Lemma log2_up_le n : (n <= 2 ^ Nat.log2_up n)%nat.
Proof. destruct (next_pow2_above n) as (_ & _ & H & _). exact H. Qed.

Definition raw_ok (n : nat) (g : nat * nat * nat) : Prop := ((fst (fst g) = 0 \/ fst (fst g) = 1) /\ snd (fst g) < n /\ snd g < n)%nat.
Definition mk (s : nat) (raw : raw_layer) : list gate := map (fun p => mkGate (fst p) (fst (fst (snd p))) (snd (fst (snd p))) (snd (snd p))) (combine (seq s (length raw)) raw).
Lemma mid_gates_ok n raw : forall s, Forall (raw_ok n) raw -> mid_gates n s raw = Ok (mk s raw).
Proof.
  induction raw as [|[[op l] r] raw IH]; intros s H; [reflexivity|]. inversion H as [|? ? (Ho & Hl & Hr) Ht]; subst. cbn [fst snd] in *. cbn [mid_gates].
  destruct (Nat.leb_spec n l); [lia|]. destruct (Nat.leb_spec n r); [lia|]. destruct Ho as [-> | ->]; cbn [Nat.eqb negb andb orb]; rewrite (IH (S s) Ht); reflexivity.
Qed.
Lemma mid_gates_bad n raw : forall s, ~ Forall (raw_ok n) raw -> mid_gates n s raw = Err OtherError.
Proof.
  induction raw as [|[[op l] r] raw IH]; intros s H; [destruct H; constructor|]. cbn [mid_gates]. destruct (Nat.eqb_spec op 0) as [E0|N0]; [|destruct (Nat.eqb_spec op 1) as [E1|N1]; [|reflexivity]]; cbn [negb andb];
  (destruct (Nat.leb_spec n l); [reflexivity|]; destruct (Nat.leb_spec n r); [reflexivity|]; cbn [orb]; rewrite IH; [reflexivity|]; intro Q; apply H; constructor; [|exact Q]; repeat split; cbn [fst snd]; lia).
Qed.
Lemma mk_length s raw : length (mk s raw) = length raw.
Proof. unfold mk. rewrite map_length, combine_length, seq_length. lia. Qed.
Lemma mk_g raw : forall s, map gt_g (mk s raw) = seq s (length raw).
Proof. unfold mk. induction raw as [|x raw IH]; intro s; [reflexivity|]. cbn [length seq combine map gt_g fst]. f_equal. apply IH. Qed.
Lemma mk_ok n raw : Forall (raw_ok n) raw -> Forall (gate_ok (length raw) n) (mk 0 raw).
Proof.
  intro H. assert (forall s, Forall (gate_ok (s + length raw) n) (mk s raw)) as Q; [|exact (Q 0%nat)]. revert H. unfold mk. induction raw as [|x raw IH]; intros H s; [constructor|]. inversion H as [|? ? (Ho & Hl & Hr) Ht]; subst.
  cbn [length seq combine map fst snd]. constructor; [repeat split; cbn [gt_op gt_g gt_l gt_r]; auto; lia|]. rewrite <- Nat.add_succ_comm. apply IH. exact Ht.
Qed.
Lemma raw_ok_dec n raw : {Forall (raw_ok n) raw} + {~ Forall (raw_ok n) raw}.
Proof.
  apply Forall_dec. intros [[op l] r]. unfold raw_ok. cbn [fst snd]. destruct (Nat.eq_dec op 0), (Nat.eq_dec op 1), (lt_dec l n), (lt_dec r n); first [left; lia|right; lia].
Qed.
Definition mid (raw : raw_layer) : layer := mkLayer (length raw) (Nat.log2_up (length raw)) (mk 0 raw).
Lemma mid_layers_ok raw : forall n, legal n raw -> mid_layers n raw = Ok (map mid raw).
Proof.
  induction raw as [|l raw IH]; intros n H; [reflexivity|]. destruct H as [H1 H2]. cbn [mid_layers map]. unfold mid_layer_new. rewrite (mid_gates_ok n l 0 H1). cbn [rmap l_count]. rewrite mk_length, (IH _ H2), next_pow2_log. reflexivity.
Qed.
Lemma mid_layers_bad raw : forall n, ~ legal n raw -> mid_layers n raw = Panic.
Proof.
  induction raw as [|l raw IH]; intros n H; [destruct H; exact I|]. cbn [mid_layers]. unfold mid_layer_new. destruct (raw_ok_dec n l) as [Q|Q].
  - rewrite (mid_gates_ok n l 0 Q). cbn [rmap l_count]. rewrite mk_length, IH; [reflexivity|]. intro L. apply H. split; assumption.
  - rewrite (mid_gates_bad n l 0 Q). reflexivity.
Qed.
Lemma input_new_bits ni na : input_new ni na = mkLayer (2 * next_pow2 (Nat.max ni na)) (S (Nat.log2_up (Nat.max ni na))) (map (fun g => mkGate g 3 0 0) (seq 0 (2 * next_pow2 (Nat.max ni na)))).
Proof.
  unfold input_new. rewrite (Nat.max_comm na ni), (Nat.mul_comm _ 2), map_length, seq_length. f_equal. unfold next_pow2. change (2 * 2 ^ Nat.log2_up (Nat.max ni na))%nat with (2 ^ S (Nat.log2_up (Nat.max ni na)))%nat. apply Nat.log2_up_pow2. lia.
Qed.
Definition built (ni na : nat) (raw : list raw_layer) : circuit := mkCirc (S (length raw)) (input_new ni na :: map mid raw).
Lemma circuit_new_ok ni na raw S : pow2_above (Nat.max ni na) S ->
  (legal (2 * S) raw -> circuit_new ni na raw = Ok (built ni na raw)) /\ (~ legal (2 * S) raw -> circuit_new ni na raw = Panic).
Proof.
  intro P. rewrite (pow2_above_unique _ _ _ P (next_pow2_above _)). unfold circuit_new. rewrite input_new_bits. cbn [l_count]. split; intro H.
  - rewrite (mid_layers_ok raw _ H). cbn [rmap]. unfold built. rewrite input_new_bits, map_length. reflexivity.
  - rewrite (mid_layers_bad raw _ H). reflexivity.
Qed.

Section P.
Variable K : Fld.
Add Field KfLib3 : (f_laws K).
Fixpoint sems (prev : list K) (raw : list raw_layer) : list (list K) :=
  match raw with [] => [] | l :: raw => let v := map (sem_gate prev) l in v :: sems v raw end.
Lemma gval_sem prev l : map (gval K prev) (mk 0 l) = map (sem_gate prev) l \/ ~ Forall (fun g => fst (fst g) = 0 \/ fst (fst g) = 1)%nat l.
Proof.
  destruct (Forall_dec (fun g : nat * nat * nat => fst (fst g) = 0 \/ fst (fst g) = 1)%nat) with (l := l) as [H|H]; [intro g; destruct (Nat.eq_dec (fst (fst g)) 0), (Nat.eq_dec (fst (fst g)) 1); first [left; lia|right; lia]| |right; exact H].
  left. unfold mk. generalize 0%nat as s. induction H as [|x l Hx _ IH]; intro s; [reflexivity|]. cbn [length seq combine map]. rewrite IH. f_equal. unfold gval, sem_gate. cbn [gt_op gt_l gt_r fst snd]. destruct Hx as [-> | ->]; reflexivity.
Qed.
Lemma gval_sem' n prev l : Forall (raw_ok n) l -> map (gval K prev) (mk 0 l) = map (sem_gate prev) l.
Proof. intro H. destruct (gval_sem prev l) as [E|N]; [exact E|]. destruct N. revert H. apply Forall_impl. intros g (A & _). exact A. Qed.
Lemma layer_values_ok raw : forall prev : list K, legal (length prev) raw -> layer_values K prev (map mid raw) = Ok (sems prev raw).
Proof.
  induction raw as [|l raw IH]; intros prev H; [reflexivity|]. destruct H as [H1 H2]. cbn [map layer_values sems]. change (l_gates (mid l)) with (mk 0 l). rewrite (gate_values_ok K prev (mk 0 l) (length l)) by (apply mk_ok; exact H1). cbn [rbind].
  rewrite (gval_sem' (length prev) prev l H1), IH by (rewrite map_length; exact H2). reflexivity.
Qed.
Lemma actual_length S (inputs aux : list K) : (length inputs <= S)%nat -> (length aux <= S)%nat -> length (actual_layer S inputs aux) = (2 * S)%nat.
Proof. intros. unfold actual_layer. rewrite !app_length, !repeat_length. lia. Qed.
Lemma input_values_ok b (inputs aux : list K) : input_values K (S b) inputs aux = if Nat.leb (length inputs) (2 ^ b) && Nat.leb (length aux) (2 ^ b) then Ok (actual_layer (2 ^ b) inputs aux) else Panic.
Proof. unfold input_values. destruct (Nat.leb_spec (length inputs) (2 ^ b)); cbn [negb andb]; [|reflexivity]. destruct (Nat.leb_spec (length aux) (2 ^ b)); reflexivity. Qed.
Lemma evaluate_ok ni na raw S (inputs aux : list K) : pow2_above (Nat.max ni na) S -> legal (2 * S) raw -> evaluate K (built ni na raw) inputs aux =
  if Nat.leb (length inputs) S && Nat.leb (length aux) S then Ok (actual_layer S inputs aux :: sems (actual_layer S inputs aux) raw) else Panic.
Proof.
  intros P L. rewrite (pow2_above_unique _ _ _ P (next_pow2_above _)) in *. unfold evaluate, built. cbn [c_layers c_depth]. rewrite input_new_bits. cbn [l_bits]. rewrite input_values_ok. fold (next_pow2 (Nat.max ni na)).
  destruct (Nat.leb_spec (length inputs) (next_pow2 (Nat.max ni na))); cbn [andb]; [|reflexivity]. destruct (Nat.leb_spec (length aux) (next_pow2 (Nat.max ni na))); cbn [andb rbind]; [|reflexivity].
  rewrite layer_values_ok by (rewrite actual_length by assumption; exact L). cbn [rmap rbind length]. assert (forall p : list K, length (sems p raw) = length raw) as Q by (clear; induction raw as [|l raw IH]; intro p; [reflexivity|]; cbn [sems length]; rewrite IH; reflexivity).
  rewrite Q, Nat.eqb_refl. reflexivity.
Qed.
Lemma sems_last raw : forall prev : list K, nth_error (prev :: sems prev raw) (length raw) = Some (sem prev raw).
Proof. induction raw as [|l raw IH]; intro prev; [reflexivity|]. cbn [length nth_error sems sem]. apply IH. Qed.
(** Values and layers at index d. *)
Lemma sems_nth raw : forall (prev : list K) d v, legal (length prev) raw -> nth_error (prev :: sems prev raw) d = Some v ->
  legal (length v) (skipn d raw) /\ (forall l, nth_error raw d = Some l -> nth_error (sems prev raw) d = Some (map (sem_gate v) l)) /\ (forall l e, d = S e -> nth_error raw e = Some l -> length v = length l).
Proof.
  induction raw as [|l raw IH]; intros prev d v H E.
  - destruct d as [|d]; [|destruct d; discriminate]. injection E as <-. repeat split; [intros l Q; discriminate|intros; discriminate].
  - destruct H as [H1 H2]. destruct d as [|d]; [injection E as <-; repeat split; try assumption; [intros l' Q; injection Q as <-; reflexivity|intros; discriminate]|].
    cbn [nth_error sems] in E. destruct (IH (map (sem_gate prev) l) d v) as (A & B & C); [rewrite map_length; exact H2|exact E|]. split; [exact A|]. split; [exact B|].
    intros l' e Q Hl'. injection Q as <-. destruct d as [|d]; [|apply (C l' d eq_refl Hl')]. injection E as <-. injection Hl' as <-. apply map_length.
Qed.
Lemma built_run ni na raw S (inp : list K) : pow2_above (Nat.max ni na) S -> length inp = (2 * S)%nat -> legal (2 * S) raw -> run K (built ni na raw) (inp :: sems inp raw).
Proof.
  intros P Li L d lo hi v Hlo Hhi Hv. cbn [c_layers built nth_error] in Hhi. rewrite nth_error_map in Hhi. destruct (nth_error raw d) as [l|] eqn:El; [|discriminate]. injection Hhi as <-.
  rewrite <- Li in L. destruct (sems_nth raw inp d v L Hv) as (A & B & _). assert (Forall (raw_ok (length v)) l) as Hl.
  { destruct (skipn d raw) as [|l2 r] eqn:Es. - exfalso. assert (length (skipn d raw) = 0)%nat as Q by (rewrite Es; reflexivity). rewrite skipn_length in Q. assert (d < length raw)%nat by (apply nth_error_Some; congruence). lia.
    - destruct A as [A _]. assert (nth_error (skipn d raw) 0 = Some l) as Q. { clear -El. revert d El. induction raw as [|x raw IH]; intros [|d] E; try discriminate; [exact E|]. apply IH. exact E. } rewrite Es in Q. injection Q as ->. exact A. }
  cbn [mid l_gates l_bits]. rewrite mk_length. split; [apply mk_ok, Hl|]. split; [apply mk_g|]. split; [apply log2_up_le|]. cbn [nth_error]. rewrite (B l El), (gval_sem' (length v) v l Hl). reflexivity.
Qed.
Lemma inner_nth raw : inner_pow2 raw <-> forall i l, (S i < length raw)%nat -> nth_error raw i = Some l -> exists k, length l = (2 ^ k)%nat.
Proof.
  induction raw as [|l raw IH]; [split; [intros _ i l H; inversion H|exact (fun _ => I)]|]. destruct raw as [|l' raw]; [split; [intros _ i x H; cbn in H; lia|exact (fun _ => I)]|].
  change (inner_pow2 (l :: l' :: raw)) with ((exists k, length l = (2 ^ k)%nat) /\ inner_pow2 (l' :: raw)). rewrite IH. split.
  - intros [A B] [|i] x H E; [injection E as <-; exact A|]. apply (B i x); [cbn [length] in *; lia|exact E].
  - intro H. split; [apply (H 0%nat); [cbn; lia|reflexivity]|]. intros i x Hi E. apply (H (S i) x); [cbn [length] in *; lia|exact E].
Qed.
End P.
