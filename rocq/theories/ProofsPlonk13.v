(** Plonk: the statements about circuits built through the composer, collected. *)
From Coq Require Import Permutation.
From Verif Require Import ModelPlonk SpecPlonk ProofsPC ProofsPlonk1 ProofsPlonk2 ProofsPlonk3 ProofsPlonk4 ProofsPlonk5 ProofsPlonk6 ProofsPlonk7 ProofsPlonk8 ProofsPlonk11.
Local Open Scope fld_scope.
Section P.
Variable K : Fld.
Add Field Kf : (f_laws K).
Variables (ops : list (op K)) (c : composer K).
Hypothesis RO : run_ops (c_new K) ops = Ok c.
Lemma perm_all n order : (c_n c <= n)%nat -> Permutation order (seq 0 (length (c_vmap c))) -> exists p, wire_perm c order n = Ok p /\
  Permutation (map (target p) (slots n)) (slots n) /\ (forall s, slot_var c (target p s) = slot_var c s) /\ (forall s, slot_var c s = None -> target p s = s) /\
  forall f : wire -> K, (forall s, In s (slots n) -> f (target p s) = f s) <-> exists a : nat -> K, forall s v, slot_var c s = Some v -> f s = a v.
Proof.
  intros L O. pose proof (wfc K ops c RO) as W. destruct (wire_perm_spec K c n order W L O) as (p & E & _ & _ & U). exists p. split; [exact E|]. split; [exact (wire_perm_bij K c n order W L O p E)|]. split; [intro s; exact (wire_perm_var K c n order W L O p s E)|]. split; [exact U|].
  intro f. exact (wire_perm_const K c n order W L O p f E).
Qed.
Lemma perm_order n o1 o2 : (c_n c <= n)%nat -> Permutation o1 (seq 0 (length (c_vmap c))) -> Permutation o2 (seq 0 (length (c_vmap c))) -> wire_perm c o1 n = wire_perm c o2 n.
Proof. apply wire_perm_order. exact (wfc K ops c RO). Qed.
Lemma z_closes dnew order ks x w beta gamma : fft_ok dnew -> Permutation order (seq 0 (length (c_vmap c))) -> plonk_index dnew c order ks = Ok x -> synthesize dnew c = Ok w ->
  let d := i_dn (x_info x) in
  ((forall s, In s (slots (dsize d)) -> slot_fac c ks d beta gamma s <> 0) -> exists z, compute_z x w beta gamma = Ok z) /\
  ((exists s, In s (slots (dsize d)) /\ slot_fac c ks d beta gamma s = 0) -> compute_z x w beta gamma = Panic).
Proof.
  intros F O X S. pose proof (wfc K ops c RO) as W. destruct (index_inv K dnew c order ks x W F O X) as (d & d4 & p & D & _ & P & G). assert (L : (c_n c <= dsize d)%nat) by apply (proj1 F _ _ D).
  assert (ED : i_dn (x_info x) = d) by (rewrite (gi_info _ _ _ _ _ _ _ _ G); reflexivity). cbv zeta. rewrite ED. rewrite (synthesize_ok K dnew c d W D L) in S. injection S as <-.
  split.
  - intro H. exact (honest_z K dnew c order ks d d4 p x W L O P G beta gamma H).
  - intros (s & I & H). exact (honest_z_bad K dnew c order ks d d4 p x W L O P G beta gamma s I H).
Qed.
Lemma pad_rows a i : (c_n c <= i)%nat -> row (nth i (c_q0 c) 0) (nth i (c_q1 c) 0) (nth i (c_q2 c) 0) (nth i (c_q3 c) 0) (nth i (c_qm c) 0) (nth i (c_qc c) 0) (nth i (c_pi c) 0) (a 0%nat) (a 1%nat) (a 2%nat) (a 3%nat) = 0 :> K.
Proof.
  intro H. pose proof (wf_q K c (wfc K ops c RO)) as (Q0 & Q1 & Q2 & Q3 & QM & QC & QP). rewrite !nth_overflow by lia. unfold row. ring.
Qed.
Lemma rel_rows a : rows_ok c a <-> Forall (rel a) ops. Proof. exact (new_rows K ops c a RO). Qed.
Lemma sound_rel pub a : (forall i, (i < c_n c)%nat -> nth i pub 0 = nth i (c_pi c) 0) -> rows_pub c pub a -> Forall (rel a) ops.
Proof. intros H R. apply (new_rows K ops c a RO). intros i Hi. specialize (R i Hi). rewrite (H i Hi) in R. exact R. Qed.
End P.
