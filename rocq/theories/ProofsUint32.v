(** Proofs about the equality packer and 32-bit words. *)
From Verif Require Import Field ModelLC SpecLC ProofsLC ModelCS SpecCS ProofsCS ModelBoolean SpecBoolean ProofsBoolean ModelUint32 SpecUint32.
Local Open Scope Z_scope.

(** ** Bit lists *)
Lemma Z_of_bits_range l : 0 <= Z_of_bits l < 2 ^ Z.of_nat (length l).
Proof.
  induction l as [|b l IH]; [cbn; lia|].
  cbn [Z_of_bits fold_right length]. fold (Z_of_bits l).
  rewrite Nat2Z.inj_succ, Z.pow_succ_r by lia. destruct b; cbn [Z.b2z]; lia.
Qed.
Lemma Z_of_bits_testbit l i : Z.testbit (Z_of_bits l) (Z.of_nat i) = nth i l false.
Proof.
  revert i. induction l as [|b l IH]; intro i.
  - cbn [Z_of_bits fold_right]. rewrite Z.testbit_0_l. destruct i; reflexivity.
  - cbn [Z_of_bits fold_right]. fold (Z_of_bits l).
    replace (Z.b2z b + 2 * Z_of_bits l) with (2 * Z_of_bits l + Z.b2z b) by lia.
    destruct i as [|i]; cbn [nth].
    + apply Z.testbit_0_r.
    + rewrite Nat2Z.inj_succ. rewrite Z.testbit_succ_r by lia. apply IH.
Qed.
Lemma Z_of_bits_of (n : nat) v : 0 <= v < 2 ^ Z.of_nat n ->
  Z_of_bits (map (fun i => Z.testbit v (Z.of_nat i)) (seq 0 n)) = v.
Proof.
  intro H. apply Z.bits_inj'. intros i Hi.
  rewrite <- (Z2Nat.id i) by lia. rewrite Z_of_bits_testbit.
  destruct (Nat.lt_ge_cases (Z.to_nat i) n) as [L|L].
  - rewrite nth_indep with (d' := Z.testbit v (Z.of_nat 0)) by (rewrite map_length, seq_length; exact L).
    rewrite (map_nth (fun i => Z.testbit v (Z.of_nat i)) (seq 0 n) 0%nat (Z.to_nat i)). rewrite seq_nth by exact L. reflexivity.
  - rewrite nth_overflow by (rewrite map_length, seq_length; exact L).
    symmetry. destruct (Z.eq_dec v 0) as [->|]; [apply Z.testbit_0_l|].
    apply Z.bits_above_log2; [lia|].
    apply Z.log2_lt_pow2; [lia|]. apply Z.lt_le_trans with (2 ^ Z.of_nat n); [lia|]. apply Z.pow_le_mono_r; lia.
Qed.
Lemma Z_of_bits_app a b : Z_of_bits (a ++ b) = Z_of_bits a + 2 ^ Z.of_nat (length a) * Z_of_bits b.
Proof.
  induction a as [|x a IH]; [cbn [app length]; change (Z_of_bits []) with 0; change (2 ^ Z.of_nat 0) with 1; lia|].
  cbn [app length Z_of_bits fold_right]. fold (Z_of_bits (a ++ b)) (Z_of_bits a).
  rewrite IH, Nat2Z.inj_succ, Z.pow_succ_r by lia. lia.
Qed.
Lemma Z_of_bits_firstn n l : (n <= length l)%nat -> Z_of_bits (firstn n l) = Z_of_bits l mod 2 ^ Z.of_nat n.
Proof.
  intro H. rewrite <- (firstn_skipn n l) at 2. rewrite Z_of_bits_app, firstn_length_le by exact H.
  pose proof (Z_of_bits_range (firstn n l)) as R. rewrite firstn_length_le in R by exact H.
  rewrite Z.mul_comm, Z_mod_plus_full. symmetry. apply Z.mod_small. exact R.
Qed.
Lemma Z_of_bits_skipn n l : (n <= length l)%nat -> Z_of_bits (skipn n l) = Z_of_bits l / 2 ^ Z.of_nat n.
Proof.
  intro H. rewrite <- (firstn_skipn n l) at 2. rewrite Z_of_bits_app, firstn_length_le by exact H.
  pose proof (Z_of_bits_range (firstn n l)) as R. rewrite firstn_length_le in R by exact H.
  rewrite Z.mul_comm, Z.div_add by lia. rewrite (Z.div_small (Z_of_bits (firstn n l))) by exact R. lia.
Qed.
Lemma Z_of_bits_false n : Z_of_bits (repeat false n) = 0.
Proof. induction n as [|n IH]; [reflexivity|]. cbn [repeat Z_of_bits fold_right]. fold (Z_of_bits (repeat false n)). rewrite IH. reflexivity. Qed.
Lemma Z_of_bits_map2 (f : bool -> bool -> bool) (g : Z -> Z -> Z) a b :
  (forall u v i, Z.testbit (g u v) i = f (Z.testbit u i) (Z.testbit v i)) -> f false false = false ->
  length a = length b -> Z_of_bits (map (fun '(x, y) => f x y) (combine a b)) = g (Z_of_bits a) (Z_of_bits b).
Proof.
  intros Hg Hf L. apply Z.bits_inj'. intros i Hi. rewrite Hg.
  rewrite <- (Z2Nat.id i) by lia. rewrite !Z_of_bits_testbit. clear Hi Hg.
  generalize (Z.to_nat i) as k. clear i. revert b L.
  induction a as [|x a IH]; intros [|y b] L k; try discriminate L; cbn.
  - destruct k; symmetry; exact Hf.
  - destruct k as [|k]; [reflexivity|]. apply IH. injection L; auto.
Qed.
Lemma Z_of_bits_map3 (f : bool -> bool -> bool -> bool) (g : Z -> Z -> Z -> Z) a b c :
  (forall u v w i, 0 <= i < 32 -> Z.testbit (g u v w) i = f (Z.testbit u i) (Z.testbit v i) (Z.testbit w i)) ->
  (forall u v w, 0 <= u < 2 ^ 32 -> 0 <= v < 2 ^ 32 -> 0 <= w < 2 ^ 32 -> 0 <= g u v w < 2 ^ 32) ->
  length a = 32%nat -> length b = 32%nat -> length c = 32%nat ->
  Z_of_bits (map (fun '(x, y, z) => f x y z) (combine (combine a b) c)) = g (Z_of_bits a) (Z_of_bits b) (Z_of_bits c).
Proof.
  intros Hg Hr La Lb Lc.
  set (L := map _ _). assert (length L = 32%nat) as LL.
  { unfold L. rewrite map_length, !combine_length. lia. }
  assert (forall l, length l = 32%nat -> 0 <= Z_of_bits l < 2 ^ 32) as R.
  { intros l Hl. pose proof (Z_of_bits_range l) as R. rewrite Hl in R. exact R. }
  pose proof (Hr _ _ _ (R a La) (R b Lb) (R c Lc)) as RG. pose proof (R L LL) as RL.
  apply Z.bits_inj'. intros i Hi.
  destruct (Z_lt_le_dec i 32) as [Li|Li].
  - rewrite Hg by lia. rewrite <- (Z2Nat.id i) by lia. rewrite !Z_of_bits_testbit.
    assert (Z.to_nat i < 32)%nat as Hk by lia. revert Hk. generalize (Z.to_nat i) as k. intros k Hk. unfold L.
    set (h := fun p : bool * bool * bool => let '(x, y, z) := p in f x y z) in *.
    transitivity (nth k (map h (combine (combine a b) c)) (h (false, false, false)));
      [apply nth_indep; fold L; lia|]. rewrite map_nth. unfold h. rewrite !combine_nth; [reflexivity|lia|rewrite combine_length; lia].
  - assert (forall z, 0 <= z < 2 ^ 32 -> Z.testbit z i = false) as Z32.
    { intros z Hz. destruct (Z.eq_dec z 0) as [->|]; [apply Z.testbit_0_l|].
      apply Z.bits_above_log2; [lia|]. apply Z.lt_le_trans with 32; [|lia]. apply Z.log2_lt_pow2; lia. }
    rewrite !Z32 by assumption. reflexivity.
Qed.

Section P.
Variable K : PFld.
Local Open Scope fld_scope.
Add Field Kf : (f_laws K).

(** ** The packer *)
Lemma of_Z_pow2 n : of_Z (2 ^ Z.of_nat n)%Z = fpow (of_Z 2 : K) n.
Proof.
  induction n as [|n IH]; [reflexivity|].
  rewrite Nat2Z.inj_succ, Z.pow_succ_r by lia. rewrite of_Z_mul, IH. reflexivity.
Qed.
Lemma capacity_pos : (0 <= capacity K)%Z.
Proof. unfold capacity, modulus_bits. pose proof (Z.log2_nonneg (pmod K)). lia. Qed.
Lemma pow_le_mod n : (Z.of_nat n <= capacity K)%Z -> (2 ^ Z.of_nat n <= pmod K)%Z.
Proof.
  intro H. apply Z.le_trans with (2 ^ capacity K)%Z; [apply Z.pow_le_mono_r; lia|apply pow_capacity_lt].
Qed.
(** Equality of two packed quantities within the field splits. *)
Lemma pack_split b n (L R l r : Z) : (Z.of_nat (b + n) <= capacity K)%Z ->
  (0 <= L < 2 ^ Z.of_nat b)%Z -> (0 <= R < 2 ^ Z.of_nat b)%Z ->
  (0 <= l < 2 ^ Z.of_nat n)%Z -> (0 <= r < 2 ^ Z.of_nat n)%Z ->
  of_Z (K:=K) (L + 2 ^ Z.of_nat b * l)%Z = of_Z (R + 2 ^ Z.of_nat b * r)%Z -> L = R /\ l = r.
Proof.
  intros HC HL HR Hl Hr E.
  pose proof (pow_le_mod (b + n) HC) as HP. rewrite Nat2Z.inj_add, Z.pow_add_r in HP by lia.
  assert (0 < 2 ^ Z.of_nat b)%Z as Hb by lia.
  apply of_Z_inj_small in E; [|nia|nia].
  assert (l = r) as El.
  { assert ((L + 2 ^ Z.of_nat b * l) / 2 ^ Z.of_nat b = (R + 2 ^ Z.of_nat b * r) / 2 ^ Z.of_nat b)%Z as D by (rewrite E; reflexivity).
    rewrite !(Z.mul_comm (2 ^ Z.of_nat b)) in D. rewrite !Z.div_add in D by lia.
    rewrite (Z.div_small L), (Z.div_small R) in D by lia. lia. }
  split; [subst; lia|exact El].
Qed.

(** Under one assignment: the packer is within its width. *)
Definition qx (x : var -> K) (q : meq K) : Prop :=
  (Z.of_nat (qbits q) <= capacity K)%Z /\ in_width x (qbits q) (qlhs q) /\ in_width x (qbits q) (qrhs q).
Lemma qx_new x : qx x meq_new.
Proof.
  split; [cbn; apply capacity_pos|]. assert (in_width x 0 (lc_zero (K:=K))) as W.
  { exists 0%Z. split; [cbn; lia|]. rewrite eval_zero. reflexivity. }
  split; exact W.
Qed.
Lemma pend_new x : pend x (meq_new (K:=K)). Proof. reflexivity. Qed.

Definition push_q (q : meq K) (n : nat) (l r : lc K) : meq K :=
  mkQ (qbits q + n) (lc_add_scaled (qlhs q) (fpow (of_Z 2) (qbits q)) l) (lc_add_scaled (qrhs q) (fpow (of_Z 2) (qbits q)) r).
Lemma push_qx x q n l r : qx x q -> in_width x n l -> in_width x n r -> (Z.of_nat (qbits q + n) <= capacity K)%Z ->
  qx x (push_q q n l r) /\ (pend x (push_q q n l r) <-> pend x q /\ eval x l = eval x r).
Proof.
  intros (Hc & (L & HL & EL) & (R & HR & ER)) (l' & Hl & El) (r' & Hr & Er) HC.
  assert (forall (A B : Z), of_Z A + fpow (of_Z 2) (qbits q) * of_Z B = of_Z (K:=K) (A + 2 ^ Z.of_nat (qbits q) * B)%Z) as P.
  { intros A B. rewrite of_Z_add, of_Z_mul, of_Z_pow2. reflexivity. }
  unfold qx, push_q, pend. cbn [qbits qlhs qrhs]. rewrite !eval_add_scaled, EL, ER, El, Er, !P. split.
  - split; [exact HC|].
    split; (eexists; split; [|rewrite eval_add_scaled, ?EL, ?ER, ?El, ?Er, P; reflexivity]);
      rewrite Nat2Z.inj_add, Z.pow_add_r by lia; nia.
  - split.
    + intro E. apply (pack_split _ n) in E; try assumption. destruct E as [-> ->]. auto.
    + intros [E1 E2].
      pose proof (pow_le_mod _ Hc) as HP1.
      assert (2 ^ Z.of_nat n <= pmod K)%Z as HP2 by (apply pow_le_mod; lia).
      apply of_Z_inj_small in E1; [|lia|lia]. apply of_Z_inj_small in E2; [|lia|lia]. rewrite E1, E2. reflexivity.
Qed.
Definition acc_cs (s : cs K) (q : meq K) : cs K :=
  mkCS (md s) (inps s) (auxs s) (cons s ++ [mkC (qlhs q) (lc_add_var lc_zero ONE) (qrhs q)]).
Lemma acc_holds x s q : x ONE = 1 -> (sat x (acc_cs s q) <-> sat x s /\ pend x q).
Proof.
  intro Hx. unfold sat, acc_cs, pend. cbn [cons]. rewrite Forall_app. split.
  - intros (_ & H1 & H2). inversion H2 as [|? ? H3 _]; subst. unfold holds in H3; cbn [ca cb cc] in H3.
    autorewrite with lcdb in H3. rewrite Hx in H3. split; [auto|]. rewrite <- H3. ring.
  - intros ((_ & H1) & H2). split; [exact Hx|]. split; [exact H1|]. constructor; [|constructor].
    unfold holds; cbn [ca cb cc]. autorewrite with lcdb. rewrite Hx, H2. ring.
Qed.
(** One call of the packer, exactly. *)
Lemma meq_step n l r s q :
  match meq_enforce_equal n l r (s, q) with
  | Ok (_, (s', q')) => (Z.of_nat n < capacity K)%Z /\
      ((s' = s /\ q' = push_q q n l r /\ (Z.of_nat (qbits q + n) < capacity K)%Z) \/
       (s' = acc_cs s q /\ q' = push_q meq_new n l r))
  | Err _ => False
  | Panic => (capacity K <= Z.of_nat n)%Z
  end.
Proof.
  unfold meq_enforce_equal, mbind. cbn [snd].
  destruct (Z.leb_spec (capacity K) (Z.of_nat (qbits q + n))) as [H|H].
  - unfold meq_accumulate, enforce. cbn iota beta. cbn [qbits meq_new].
    change (0 + n)%nat with n.
    destruct (Z.ltb_spec (Z.of_nat n) (capacity K)) as [H2|H2]; [|exact H2].
    split; [exact H2|]. right. split; reflexivity.
  - cbn iota beta. destruct (Z.ltb_spec (Z.of_nat (qbits q + n)) (capacity K)) as [H2|H2]; [|lia].
    split; [lia|]. left. repeat split; assumption.
Qed.
Lemma meq_step_x x n l r s q s' q' : meq_enforce_equal n l r (s, q) = Ok (tt, (s', q')) ->
  x ONE = 1 -> qx x q -> in_width x n l -> in_width x n r ->
  qx x q' /\ ((sat x s' /\ pend x q') <-> (sat x s /\ pend x q) /\ eval x l = eval x r).
Proof.
  intros E Hx Hq Hl Hr. pose proof (meq_step n l r s q) as St. rewrite E in St.
  destruct St as [Hn [(-> & -> & Hc)|(-> & ->)]].
  - destruct (push_qx x q n l r Hq Hl Hr ltac:(lia)) as [P1 P2]. split; [exact P1|]. rewrite P2. tauto.
  - destruct (push_qx x meq_new n l r (qx_new x) Hl Hr) as [P1 P2]; [cbn; lia|].
    split; [exact P1|]. rewrite P2, acc_holds by exact Hx. pose proof (pend_new x). tauto.
Qed.

(** A whole packing scope. *)
Lemma calls_x x cs0 : forall s q s' q' us, mmapM call_run cs0 (s, q) = Ok (us, (s', q')) ->
  x ONE = 1 -> qx x q -> Forall (call_width x) cs0 ->
  qx x q' /\ ((sat x s' /\ pend x q') <-> (sat x s /\ pend x q) /\ Forall (call_eq x) cs0).
Proof.
  induction cs0 as [|c cs0 IH]; intros s q s' q' us E Hx Hq HW; cbn [mmapM] in E.
  - unfold mret in E. injection E as <- <- <-. split; [exact Hq|]. split; [intros; split; auto|tauto].
  - unfold mbind at 1 in E. destruct (call_run c (s, q)) as [[u [s1 q1]]|e|] eqn:E1; try discriminate E.
    unfold mbind in E. destruct (mmapM call_run cs0 (s1, q1)) as [[us' [s2 q2]]|e|] eqn:E2; try discriminate E.
    unfold mret in E. injection E as _ <- <-. inversion HW as [|? ? Hc HW']; subst.
    destruct c as [[n l] r]. destruct Hc as [Hl Hr]. destruct u. cbn [call_run] in E1.
    destruct (meq_step_x x _ _ _ _ _ _ _ E1 Hx Hq Hl Hr) as [Hq1 I1].
    destruct (IH _ _ _ _ _ E2 Hx Hq1 HW') as [Hq2 I2]. split; [exact Hq2|].
    rewrite I2, I1. split.
    + intros ((A & B) & C). split; [exact A|]. constructor; assumption.
    + intros (A & B). inversion B; subst. tauto.
Qed.
Lemma drop_x x s q s' q' : meq_drop (s, q) = Ok (tt, (s', q')) -> x ONE = 1 -> qx x q ->
  (sat x s' <-> sat x s /\ pend x q).
Proof.
  unfold meq_drop. cbn [snd]. destruct (Nat.ltb_spec 0 (qbits q)) as [H|H].
  - unfold meq_accumulate, enforce. intros E Hx _. injection E as <- <-. apply acc_holds. exact Hx.
  - intros E Hx (_ & (a & Ha & Ea) & (b & Hb & Eb)). injection E as <- <-.
    assert (qbits q = 0%nat) as Z0 by lia. rewrite Z0 in Ha, Hb. change (2 ^ Z.of_nat 0)%Z with 1%Z in *.
    assert (pend x q) as P. { unfold pend. rewrite Ea, Eb. f_equal. lia. } tauto.
Qed.
Theorem multieq_exact (calls : list (call (K:=K))) (s : cs K) :
  match with_multieq (mmapM call_run calls) s with
  | Ok (_, s') => forall x, x ONE = 1 -> Forall (call_width x) calls ->
      (sat x s' <-> sat x s /\ Forall (call_eq x) calls)
  | Err _ => False
  | Panic => Exists (fun '(n, _, _) => capacity K <= Z.of_nat n)%Z calls
  end.
Proof.
  unfold with_multieq. unfold mbind at 1.
  destruct (mmapM call_run calls (s, meq_new)) as [[us [s1 q1]]|e|] eqn:E.
  - unfold mbind. destruct (meq_drop (s1, q1)) as [[[] [s2 q2]]|e|] eqn:E2.
    + unfold mret. intros x Hx HW. destruct (calls_x x calls _ _ _ _ _ E Hx (qx_new x) HW) as [Hq I].
      rewrite (drop_x x _ _ _ _ E2 Hx Hq), I. pose proof (pend_new x). tauto.
    + unfold meq_drop in E2. cbn [snd] in E2. destruct (Nat.ltb _ _); discriminate.
    + unfold meq_drop in E2. cbn [snd] in E2. destruct (Nat.ltb _ _); discriminate.
  - assert (forall w, mmapM call_run calls w <> Err e) as N.
    { clear. induction calls as [|[[n l] r] cs0 IH]; intros w; cbn [mmapM]; [discriminate|].
      unfold mbind at 1. cbn [call_run]. destruct w as [s q]. pose proof (meq_step n l r s q) as St.
      destruct (meq_enforce_equal n l r (s, q)) as [[u [s' q']]|e0|]; [|contradiction|discriminate].
      unfold mbind, mret. specialize (IH (s', q')). destruct (mmapM call_run cs0 (s', q')) as [[? ?]|e0|]; intro C; try discriminate C. injection C as ->. apply IH; reflexivity. }
    exact (N _ E).
  - revert E. generalize (s, meq_new (K:=K)). induction calls as [|[[n l] r] cs0 IH]; intros w; cbn [mmapM]; [discriminate|].
    unfold mbind at 1. cbn [call_run]. destruct w as [s0 q]. pose proof (meq_step n l r s0 q) as St.
    destruct (meq_enforce_equal n l r (s0, q)) as [[u [s' q']]|e0|]; [|contradiction|].
    + unfold mbind. specialize (IH (s', q')). destruct (mmapM call_run cs0 (s', q')) as [[? ?]|e0|]; try discriminate.
      intros _. apply Exists_cons_tl. auto.
    + intros _. apply Exists_cons_hd. exact St.
Qed.
Lemma fits_no_panic (calls : list (call (K:=K))) (s : cs K) :
  Forall (fun '(n, _, _) => Z.of_nat n < capacity K)%Z calls -> with_multieq (mmapM call_run calls) s <> Panic.
Proof.
  intros H E. pose proof (multieq_exact calls s) as M0. rewrite E in M0.
  rewrite Exists_exists in M0. destruct M0 as ([[n l] r] & I & Hn). rewrite Forall_forall in H. specialize (H _ I). cbn in *. lia.
Qed.
(** Zero width: the last pending equality is lost (C14). *)
Lemma zero_calls (calls : list (call (K:=K))) s q : (0 < capacity K)%Z -> qbits q = 0%nat ->
  Forall (fun '(n, _, _) => n = 0%nat) calls ->
  exists us q', mmapM call_run calls (s, q) = Ok (us, (s, q')) /\ qbits q' = 0%nat.
Proof.
  intros Hc. revert q. induction calls as [|[[n l] r] cs0 IH]; intros q Hq HF; cbn [mmapM].
  - exists [], q. auto.
  - inversion HF as [|? ? H1 H2]; subst. unfold mbind at 1. cbn [call_run].
    pose proof (meq_step 0 l r s q) as St. unfold meq_enforce_equal, mbind in *. cbn [snd] in *. rewrite Hq in *.
    change (0 + 0)%nat with 0%nat in *.
    destruct (Z.leb_spec (capacity K) (Z.of_nat 0)); [cbn in *; lia|]. cbn iota beta in *.
    rewrite Hq in *. change (0 + 0)%nat with 0%nat in *.
    destruct (Z.ltb_spec (Z.of_nat 0) (capacity K)); [|cbn in *; lia].
    match goal with |- context [mmapM _ _ (s, ?q2)] => destruct (IH q2 eq_refl H2) as (us & q' & E & Q) end.
    exists (tt :: us), q'. rewrite E. auto.
Qed.
Theorem multieq_zero_width (calls : list (call (K:=K))) (s : cs K) : (0 < capacity K)%Z ->
  Forall (fun '(n, _, _) => n = 0%nat) calls ->
  exists us, with_multieq (mmapM call_run calls) s = Ok (us, s).
Proof.
  intros Hc HF. destruct (zero_calls calls s meq_new Hc eq_refl HF) as (us & q' & E & Q).
  exists us. unfold with_multieq, mbind. rewrite E. unfold meq_drop. cbn [snd]. rewrite Q. reflexivity.
Qed.
End P.
