(** Gates, padding, witness synthesis, splitting of the quotient. *)
From Coq Require Import Permutation.
From Verif Require Import ModelPlonk SpecPlonk ProofsPC ProofsPlonk1 ProofsPlonk2.
Local Open Scope fld_scope.
Section P.
Variable K : Fld.
Add Field Kf : (f_laws K).
Implicit Types c : composer K.
Lemma nth_snoc {A} (l : list A) x n i d : length l = n -> nth i (l ++ [x]) d = if Nat.eqb i n then x else nth i l d.
Proof.
  intros <-. destruct (Nat.eqb_spec i (length l)) as [->|D]; [rewrite app_nth2, Nat.sub_diag by lia; reflexivity|]. destruct (Nat.lt_ge_cases i (length l)) as [H|H]; [apply app_nth1; exact H|].
  rewrite !nth_overflow; [reflexivity|lia|rewrite app_length; cbn; lia].
Qed.
Lemma gate_rows c l r o aux qm qc pi c' a : pwf K c -> poly_gate c l r o aux qm qc pi = Ok c' ->
  (rows_ok c' a <-> rows_ok c a /\ aux_val a aux + snd l * a (fst l) + snd r * a (fst r) + snd o * a (fst o) + qm * a (fst l) * a (fst r) + qc + pi = 0).
Proof.
  intros W H. destruct (poly_gate_inv K _ _ _ _ _ _ _ _ _ H) as (m & _ & ->). clear H. destruct (wf_q K c W) as (Q0 & Q1 & Q2 & Q3 & QM & QC & PI). destruct (wf_w K c W) as (W0 & W1 & W2 & W3).
  unfold rows_ok. cbn [c_n c_q0 c_q1 c_q2 c_q3 c_qm c_qc c_pi c_w0 c_w1 c_w2 c_w3].
  assert (AX : aux_val a aux = snd (match aux with Some a => a | None => (c_null c, 0) end) * a (fst (match aux with Some a => a | None => (c_null c, 0) end))) by (destruct aux as [[v q]|]; cbn; ring).
  rewrite AX. clear AX. generalize (match aux with Some a => a | None => (c_null c, 0) end). intro b.
  split.
  - intro H. split.
    + intros i Hi. specialize (H i (Nat.lt_lt_succ_r _ _ Hi)). rewrite !(nth_snoc _ _ (c_n c)) in H by assumption. destruct (Nat.eqb_spec i (c_n c)); [lia|exact H].
    + specialize (H (c_n c) (Nat.lt_succ_diag_r _)). rewrite !(nth_snoc _ _ (c_n c)) in H by assumption. rewrite Nat.eqb_refl in H. rewrite <- H. unfold row. ring.
  - intros [H1 H2] i Hi. rewrite !(nth_snoc _ _ (c_n c)) by assumption. destruct (Nat.eqb_spec i (c_n c)) as [->|D]; [rewrite <- H2; unfold row; ring|]. apply H1. lia.
Qed.
Lemma op_rows c o c' a : pwf K c -> run_op c o = Ok c' -> (rows_ok c' a <-> rows_ok c a /\ rel a o).
Proof.
  intros W H. destruct o as [v|v value pi|l r|l r o aux qc pi|l r o aux qm qc pi]; cbn [run_op] in H; unfold constrain_to_constant, assert_equal, add_gate, mul_gate in H.
  - inversion H; subst. cbn [rel]. change (rows_ok (snd (c_alloc c v)) a) with (rows_ok c a). tauto.
  - rewrite (gate_rows _ _ _ _ _ _ _ _ _ a W H). cbn [rel fst snd aux_val]. rewrite <- (fsub_0 K (a v) (value + pi)).
    match goal with |- _ /\ ?x = 0 <-> _ /\ ?y = 0 => replace x with y by ring end. tauto.
  - rewrite (gate_rows _ _ _ _ _ _ _ _ _ a W H). cbn [rel fst snd aux_val]. rewrite <- (fsub_0 K (a l) (a r)).
    match goal with |- _ /\ ?x = 0 <-> _ /\ ?y = 0 => replace x with y by ring end. tauto.
  - rewrite (gate_rows _ _ _ _ _ _ _ _ _ a W H). destruct l as [l ql], r as [r qr]. cbn [rel fst snd]. match goal with |- _ /\ ?x = 0 <-> _ /\ ?y = 0 => replace x with y by ring end. tauto.
  - rewrite (gate_rows _ _ _ _ _ _ _ _ _ a W H). cbn [rel fst snd]. match goal with |- _ /\ ?x = 0 <-> _ /\ ?y = 0 => replace x with y by ring end. tauto.
Qed.
Definition alloc_of (o : op K) : list K := match o with OAlloc v => [v] | _ => [] end.
Lemma ops_asg l : forall c c', run_ops c l = Ok c' -> c_asg c' = c_asg c ++ flat_map alloc_of l.
Proof.
  induction l as [|o l IH]; intros c c' H; cbn [run_ops] in H; [injection H as <-; cbn; rewrite app_nil_r; reflexivity|].
  destruct (run_op c o) as [c1| |] eqn:E; try discriminate. cbn [rbind] in H. rewrite (IH _ _ H). cbn [flat_map]. rewrite app_assoc. f_equal.
  destruct o as [v|v value pi|l' r|l' r o aux qc pi|l' r o aux qm qc pi]; cbn [run_op alloc_of] in *; unfold constrain_to_constant, assert_equal, add_gate, mul_gate in E;
  [injection E as <-; reflexivity|..]; destruct (poly_gate_inv K _ _ _ _ _ _ _ _ _ E) as (m & _ & ->); cbn [c_asg]; rewrite app_nil_r; reflexivity.
Qed.
Lemma ops_rows l : forall c c' a, pwf K c -> run_ops c l = Ok c' -> (rows_ok c' a <-> rows_ok c a /\ Forall (rel a) l).
Proof.
  induction l as [|o l IH]; intros c c' a W H; cbn [run_ops] in H.
  - inversion H; subst. split; [intro; split; [assumption|constructor]|tauto].
  - destruct (run_op c o) as [c1| |] eqn:E; try discriminate. cbn [rbind] in H. rewrite (IH c1 c' a (pwf_op K _ _ _ W E) H), (op_rows _ _ _ a W E), Forall_cons_iff. tauto.
Qed.
Lemma new_rows ops c a : run_ops (c_new K) ops = Ok c -> (rows_ok c a <-> Forall (rel a) ops).
Proof. intro H. rewrite (ops_rows _ _ _ a (pwf_new K) H). assert (rows_ok (c_new K) a) by (intros i Hi; cbn in Hi; lia). tauto. Qed.
(** *** synthesis *)
Lemma mapR_val {A B} (f : A -> res B) (g : A -> B) l : (forall x, In x l -> f x = Ok (g x)) -> mapR f l = Ok (map g l).
Proof. induction l as [|x l IH]; intro H; [reflexivity|]. cbn. rewrite H by (left; reflexivity). cbn. rewrite IH by (intros; apply H; right; assumption). reflexivity. Qed.
Lemma col_known c k v : pwf K c -> In v (col c k) -> (v < length (c_asg c))%nat.
Proof.
  intros W I. apply In_nth_error in I. destruct I as [i E]. change (slot_var c (k, i) = Some v) in E. apply (wf_in K c W) in E. rewrite (wf_a K c W).
  destruct (Nat.lt_ge_cases v (length (c_vmap c))) as [H|H]; [exact H|]. rewrite nth_overflow in E by exact H. destruct E.
Qed.
Definition wvals c (n : nat) (k : nat) : list K := map (asg c) (col c k) ++ repeat 0 (n - c_n c).
Lemma synthesize_ok (dnew : nat -> option (dom K)) c d : pwf K c -> dnew (c_n c) = Some d -> (c_n c <= dsize d)%nat -> synthesize dnew c = Ok (map (wvals c (dsize d)) [0; 1; 2; 3]%nat).
Proof.
  intros W D L. unfold synthesize. rewrite D.
  assert (G : forall k, rbind (mapR (assign c) (col c k)) (fun w => if Nat.ltb (dsize d) (c_n c) then Panic else Ok (w ++ repeat 0 (dsize d - c_n c))) = Ok (wvals c (dsize d) k)).
  { intro k. rewrite (mapR_val _ (asg c)). 2:{ intros v I. unfold assign, asg. rewrite (nth_error_nth' _ 0) by (eapply col_known; eauto). reflexivity. }
    cbn [rbind]. destruct (Nat.ltb_spec (dsize d) (c_n c)); [lia|]. reflexivity. }
  pose proof (G 0%nat) as G0. pose proof (G 1%nat) as G1. pose proof (G 2%nat) as G2. pose proof (G 3%nat) as G3. unfold col in G0, G1, G2, G3. cbn [nth] in G0, G1, G2, G3.
  cbn [mapR]. rewrite G0, G1, G2, G3. reflexivity.
Qed.
Lemma length_col c k : pwf K c -> (k < 4)%nat -> length (col c k) = c_n c.
Proof. intros W H. destruct (wf_w K c W) as (W0 & W1 & W2 & W3). destruct k as [|[|[|[|k]]]]; cbn [col nth]; auto; lia. Qed.
Lemma nth_pad0 (l : list K) m i : nth i (l ++ repeat 0 m) 0 = nth i l 0.
Proof.
  destruct (Nat.lt_ge_cases i (length l)) as [H|H]; [apply app_nth1; exact H|]. rewrite app_nth2, (nth_overflow l) by exact H. apply nth_repeat.
Qed.
Lemma nth_wvals c n k i : pwf K c -> (k < 4)%nat -> nth i (wvals c n k) 0 = match slot_var c (k, i) with Some v => asg c v | None => 0 end.
Proof.
  intros W H. unfold wvals, slot_var. cbn [fst snd]. rewrite nth_pad0. destruct (nth_error (col c k) i) as [v|] eqn:E.
  - rewrite (nth_indep _ _ (asg c v)), map_nth by (rewrite map_length; apply nth_error_Some; congruence). rewrite (nth_error_nth _ _ _ E). reflexivity.
  - apply nth_overflow. rewrite map_length. apply nth_error_None. exact E.
Qed.
(** *** index *)
Lemma fft_ok_dn (dnew : nat -> option (dom K)) c d : fft_ok dnew -> dnew (c_n c) = Some d -> valid_dom d /\ (c_n c <= dsize d)%nat /\ dnew (dsize d) = Some d.
Proof. intros [F _] E. apply F. exact E. Qed.
Lemma compose_ok (dnew : nat -> option (dom K)) c order ks d : pwf K c -> fft_ok dnew -> dnew (c_n c) = Some d -> Permutation order (seq 0 (length (c_vmap c))) ->
  exists p, wire_perm c order (dsize d) = Ok p /\ let sg k := map (sigma_of d ks) (nth k p []) in let pad v := v ++ repeat 0 (dsize d - c_n c) in
  compose dnew c order ks = Ok (mkSel K (dsize d) (pad (c_q0 c)) (pad (c_q1 c)) (pad (c_q2 c)) (pad (c_q3 c)) (pad (c_qm c)) (pad (c_qc c)) (pad (c_qa c)) (sg 0%nat) (sg 1%nat) (sg 2%nat) (sg 3%nat)).
Proof.
  intros W F D O. destruct (fft_ok_dn _ _ _ F D) as (_ & L & _). destruct (wire_perm_spec K c (dsize d) order W L O) as (p & E & [S4 _] & _). exists p. split; [exact E|]. cbv zeta.
  unfold compose, sigmas. rewrite D, E. cbn [rbind]. destruct (Nat.ltb_spec (dsize d) (c_n c)); [lia|]. destruct p as [|p0 [|p1 [|p2 [|p3 [|? ?]]]]]; cbn in S4; try lia. reflexivity.
Qed.
(** *** splitting *)
Lemma peval_split m (p : list K) x : peval p x = peval (firstn m p) x + x ^ m * peval (skipn m p) x.
Proof.
  rewrite <- (firstn_skipn m p) at 1. rewrite peval_app. destruct (Nat.lt_ge_cases (length p) m) as [H|H].
  - rewrite (skipn_all2 p) by lia. cbn [peval]. ring.
  - rewrite firstn_length, Nat.min_l by lia. reflexivity.
Qed.
Lemma skipn_skipn' {A} a b (l : list A) : skipn a (skipn b l) = skipn (a + b) l.
Proof. revert l. induction b as [|b IH]; intro l; [rewrite Nat.add_0_r; reflexivity|]. rewrite Nat.add_succ_r. destruct l; cbn [skipn]; [apply skipn_nil|apply IH]. Qed.
Lemma quad_exact n (p : list K) x : let t k := peval (nth k (quad_split n p) []) x in let zn := x ^ n in
  peval p x = t 0%nat + zn * t 1%nat + zn * zn * t 2%nat + zn * (zn * zn) * t 3%nat + x ^ (4 * n) * peval (skipn (4 * n) p) x.
Proof.
  cbv zeta. unfold quad_split. cbn [seq map nth]. rewrite !peval_ptrim. rewrite (peval_split n p x), (peval_split n (skipn n p) x), (peval_split n (skipn n (skipn n p)) x), (peval_split n (skipn n (skipn n (skipn n p))) x).
  rewrite !skipn_skipn'. replace (n + (n + (n + n)))%nat with (4 * n)%nat by lia. replace (n + (n + n))%nat with (3 * n)%nat by lia. replace (n + n)%nat with (2 * n)%nat by lia.
  replace (skipn (0 * n) p) with p by reflexivity. replace (1 * n)%nat with n by lia. assert (E4 : x ^ (4 * n) = x ^ n * x ^ n * x ^ n * x ^ n) by (replace (4 * n)%nat with (n + (n + (n + n)))%nat by lia; rewrite !fpow_add; ring). rewrite E4. ring.
Qed.
Lemma quad_length n (p : list K) k : (length (nth k (quad_split n p) []) <= n)%nat.
Proof.
  unfold quad_split. destruct k as [|[|[|[|k]]]]; cbn [seq map nth]; try (etransitivity; [apply length_ptrim|]; rewrite firstn_length; lia). destruct k; cbn; lia.
Qed.
End P.
