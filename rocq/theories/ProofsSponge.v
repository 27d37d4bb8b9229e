(** Proofs about the Rescue and Poseidon circuits. *)
From Verif Require Import Field ModelLC SpecLC ProofsLC ModelCS SpecCS ProofsCS ModelBoolean ModelOperator SpecOperator ProofsOperator ProofsSolve ProofsWord ModelMimc SpecMimc ProofsMimc ModelSponge SpecSponge.
Local Open Scope fld_scope.

Section R.
Variable K : PFld.
Add Field Kf : (f_laws K).
Implicit Types (s : cs K) (x : var -> K).

(** ** Native exponentiation *)
Lemma pow_bits_acc (v : K) b : forall r, fold_left (fun r (i : bool) => let q := r * r in if i then q * v else q) b r = r ^ (2 ^ length b) * v ^ bits_val b.
Proof.
  induction b as [|i b IH]; intro r; cbn [fold_left length bits_val].
  - cbn [Nat.pow fpow]. ring.
  - rewrite IH. cbv zeta. rewrite fpow_add. replace (2 ^ S (length b))%nat with (2 ^ length b + 2 ^ length b)%nat by (cbn; lia).
    rewrite fpow_add. destruct i; rewrite !fpow_mul_base; cbn [fpow]; ring.
Qed.
Lemma pow_bits_spec (v : K) b : pow_bits v b = v ^ bits_val b.
Proof. unfold pow_bits. rewrite pow_bits_acc, fpow_1. ring. Qed.
Lemma strip_val b : bits_val (strip b) = bits_val b.
Proof. induction b as [|[] b IH]; cbn; auto. Qed.

(** ** Exponents given as limbs *)
Lemma bits_val_app a : forall b, bits_val (a ++ b) = (bits_val a * 2 ^ length b + bits_val b)%nat.
Proof.
  induction a as [|i a IH]; intro b; [reflexivity|]. cbn [app bits_val]. rewrite IH, app_length, Nat.pow_add_r. destruct i; nia.
Qed.
Lemma bits_val_testbit l n : (0 <= l)%Z -> Z.of_nat (bits_val (rev (map (fun i => Z.testbit l (Z.of_nat i)) (seq 0 n)))) = (l mod 2 ^ Z.of_nat n)%Z.
Proof.
  intro Hl. induction n as [|n IH]; [cbn; symmetry; apply Z.mod_1_r|].
  rewrite seq_S, map_app, rev_app_distr. cbn [map rev app plus bits_val]. rewrite rev_length, map_length, seq_length, Nat2Z.inj_add, IH.
  rewrite Nat2Z.inj_succ, Z.pow_succ_r, Z.mul_comm, Z.rem_mul_r by lia. rewrite <- Z.testbit_spec' by lia.
  destruct (Z.testbit l (Z.of_nat n)); cbn [Z.b2z]; rewrite ?Nat2Z.inj_pow; change (Z.of_nat 2) with 2%Z; lia.
Qed.
Lemma limb_bits_length l : length (limb_bits l) = 64%nat.
Proof. unfold limb_bits. rewrite map_length, seq_length. reflexivity. Qed.
Lemma bits_be_val l : Forall (fun d => 0 <= d < 2 ^ 64)%Z l -> Z.of_nat (bits_val (bits_be l)) = limbs_val l.
Proof.
  unfold bits_be. induction 1 as [|d l Hd _ IH]; [reflexivity|]. cbn [map concat]. rewrite rev_app_distr, bits_val_app, Nat2Z.inj_add, Nat2Z.inj_mul, IH.
  rewrite rev_length, limb_bits_length. unfold limb_bits. rewrite bits_val_testbit by lia. rewrite Z.mod_small by (change (Z.of_nat 64) with 64%Z; lia).
  cbn [limbs_val fold_right]. fold (limbs_val l). rewrite Nat2Z.inj_pow. change (Z.of_nat 2 ^ Z.of_nat 64)%Z with (2 ^ 64)%Z. ring.
Qed.
Lemma pow_limbs (v : K) l : Forall (fun d => 0 <= d < 2 ^ 64)%Z l -> pow_bits v (bits_be l) = v ^ Z.to_nat (limbs_val l).
Proof. intro H. rewrite pow_bits_spec, <- (bits_be_val l H), Nat2Z.id. reflexivity. Qed.

(** ** The exponentiation circuit *)
Lemma pow_loop_spec sv st b : forall rv res s, wf s -> allocated s st -> allocated s res ->
  spec (pow_loop sv st b rv res) s (fun s' r => allocated s' (snd r) /\ (rv = 0 -> fst r = 0))
    (fun x r => x (snd r) = x res ^ (2 ^ length b) * x st ^ bits_val b)
    (rv = 0 /\ wit s res = 0) (fun s' r => wit s' (snd r) = 0).
Proof.
  induction b as [|i b IH]; intros rv res s Hw As Ar; cbn [pow_loop].
  - apply spec_ret'; [exact Hw|auto| |].
    + intros x _. cbn. ring.
    + intros _ _ [_ H]. exact H.
  - cbv zeta. eapply spec_seq; [apply (spec_alloc' K)|..]; [exact Hw|discriminate|eauto|].
    intros tmp s1 E1 Hw1 (At & _) _. cbn beta.
    assert (allocated s1 res) as Ar1 by exact (allocated_ext K s s1 _ E1 Ar).
    assert (allocated s1 st) as As1 by exact (allocated_ext K s s1 _ E1 As).
    eapply spec_seq; [apply (spec_enforce' K); [exact Hw1|vars; auto..]|..].
    { intros ((-> & R0) & _ & _ & HR). autorewrite with lcdb. injection HR as HR. rewrite (wit_same K s s1), R0, <- HR by assumption. ring. }
    intros [] s2 E2 Hw2 _ S2. cbn beta.
    assert (allocated s2 st) as As2 by exact (allocated_ext K s1 s2 _ E2 As1).
    assert (allocated s2 tmp) as At2 by exact (allocated_ext K s1 s2 _ E2 At).
    destruct i.
    + eapply spec_seq; [apply (spec_alloc' K)|..]; [exact Hw2|discriminate|eauto|].
      intros tmp2 s3 E3 Hw3 (At3 & _) _. cbn beta.
      assert (allocated s3 st) as As3 by exact (allocated_ext K s2 s3 _ E3 As2).
      assert (allocated s3 tmp) as Att3 by exact (allocated_ext K s2 s3 _ E3 At2).
      eapply spec_seq; [apply (spec_enforce' K); [exact Hw3|vars; auto..]|..].
      { intros ((((-> & R0) & _ & _ & HR) & _) & _ & _ & HR3). autorewrite with lcdb. injection HR as HR. injection HR3 as HR3.
        rewrite (wit_same K s2 s3), (wit_same K s1 s2), <- HR, <- HR3 by assumption. ring. }
      intros [] s4 E4 Hw4 _ S4. cbn beta.
      eapply spec_conseq_sat; [apply (IH (rv * rv) tmp2 s4 Hw4)|..].
      * exact (allocated_ext K s3 s4 _ E4 As3).
      * exact (allocated_ext K s3 s4 _ E4 At3).
      * cbn beta. intros r s' E _ [A B] _. split; [exact A|]. intros ->. apply B. ring.
      * cbn beta. intros x r s' E _ Hx Sx. rewrite Sx.
        destruct (S2 x) as [_ C2]; [apply (sat_ext K s2 s4 x); [exact (ext_trans K _ _ _ E3 E4)|exact (sat_ext K _ _ _ E Hx)]|].
        destruct (S4 x) as [_ C4]; [exact (sat_ext K _ _ _ E Hx)|]. autorewrite with lcdb in C2, C4.
        assert (x tmp2 = x res * x res * x st) as ->.
        { assert (x tmp = x res * x res) as <- by (apply fsub_0; apply fsub_0 in C2; transitivity (- (0 : K)); [rewrite <- C2; ring|ring]).
          apply fsub_0; apply fsub_0 in C4; transitivity (- (0 : K)); [rewrite <- C4; ring|ring]. }
        cbn [length bits_val]. rewrite fpow_add. replace (2 ^ S (length b))%nat with (2 ^ length b + 2 ^ length b)%nat by (cbn; lia).
        rewrite fpow_add, !fpow_mul_base. ring.
      * intros ((((( -> & R0) & _ & _ & HR) & _) & _ & _ & HR3) & _). split; [ring|]. injection HR3 as HR3. rewrite (wit_same K s3 s4), <- HR3 by assumption. ring.
      * auto.
    + eapply spec_conseq_sat; [apply (IH (rv * rv) tmp s2 Hw2 As2 At2)|..].
      * cbn beta. intros r s' E _ [A B] _. split; [exact A|]. intros ->. apply B. ring.
      * cbn beta. intros x r s' E _ Hx Sx. rewrite Sx. destruct (S2 x) as [_ C2]; [exact (sat_ext K _ _ _ E Hx)|]. autorewrite with lcdb in C2.
        assert (x tmp = x res * x res) as -> by (apply fsub_0; apply fsub_0 in C2; transitivity (- (0 : K)); [rewrite <- C2; ring|ring]).
        cbn [length bits_val]. replace (2 ^ S (length b))%nat with (2 ^ length b + 2 ^ length b)%nat by (cbn; lia).
        rewrite fpow_add, !fpow_mul_base. cbn [plus]. ring.
      * intros (((-> & R0) & _ & _ & HR) & _). split; [ring|]. injection HR as HR. rewrite (wit_same K s1 s2), <- HR by assumption. ring.
      * auto.
Qed.
Theorem pow_circuit a b s : wf s -> allocated s (snd a) ->
  spec (pow_with_constraint a b) s (fun s' r => allocated s' (snd r) /\ fst r = 0)
    (fun x r => x (snd r) = x (first_var s) ^ (2 ^ length (strip b)) * x (snd a) ^ bits_val b)
    True (fun s' r => wit s' (snd r) = 0).
Proof.
  intros Hw Aa. unfold pow_with_constraint.
  eapply spec_seq; [apply (spec_alloc' K)|..]; [exact Hw|discriminate|eauto|].
  intros res s1 E1 Hw1 (Ar & -> & _) _. cbn beta.
  eapply spec_conseq_sat; [apply (pow_loop_spec (fst a) (snd a) (strip b) 0 _ s1 Hw1 (allocated_ext K s s1 _ E1 Aa) Ar)|..]; cbn beta.
  - intros r s' E _ [A B] _. auto.
  - intros x r s' _ _ _ Sx. rewrite Sx, strip_val. reflexivity.
  - intros (_ & _ & _ & HR). split; [reflexivity|]. injection HR as HR. auto.
  - auto.
Qed.

(** Any initial accumulator will do. *)
Lemma pow_loop_step sv st b : forall rv res s Pre, wf s -> allocated s st -> allocated s res ->
  step K (pow_loop sv st b rv res) s Pre (fun s' r => inps s' = inps s /\ allocated s' (snd r)) (fun x x' r => x' (snd r) = x res ^ (2 ^ length b) * x st ^ bits_val b).
Proof.
  induction b as [|i b IH]; intros rv res s Pre Hw As Ar; cbn [pow_loop].
  - apply step_ret; [exact Hw|auto|]. intros x _ _. cbn. ring.
  - cbv zeta. eapply step_bind; [apply (step_alloc K _ s Pre (fun x => x res * x res) Hw)|].
    intros tmp s1 E1 Hw1 (_ & At & I1 & _). cbn beta.
    assert (allocated s1 res) as Ar1 by exact (allocated_ext K s s1 _ E1 Ar).
    assert (allocated s1 st) as As1 by exact (allocated_ext K s s1 _ E1 As).
    eapply step_bind; [apply step_enforce; [exact Hw1|vars; auto..|]|].
    { intros x _ (x0 & _ & _ & C & V). autorewrite with lcdb. rewrite V, (C res Ar). ring. }
    intros [] s2 E2 Hw2 (I2 & _). cbn beta.
    assert (allocated s2 st) as As2 by exact (allocated_ext K s1 s2 _ E2 As1).
    assert (allocated s2 tmp) as At2 by exact (allocated_ext K s1 s2 _ E2 At).
    destruct i.
    + eapply step_bind; [apply (step_alloc K _ s2 _ (fun x => x tmp * x st) Hw2)|].
      intros tmp2 s3 E3 Hw3 (_ & At3 & I3 & _). cbn beta.
      assert (allocated s3 st) as As3 by exact (allocated_ext K s2 s3 _ E3 As2).
      assert (allocated s3 tmp) as Att3 by exact (allocated_ext K s2 s3 _ E3 At2).
      eapply step_bind; [apply step_enforce; [exact Hw3|vars; auto..|]|].
      { intros x _ (x0 & _ & _ & C & V). autorewrite with lcdb. rewrite V, (C tmp At2), (C st As2). ring. }
      intros [] s4 E4 Hw4 (I4 & _). cbn beta.
      eapply step_conseq; [apply (IH (rv * rv) tmp2 s4 (fun _ => True) Hw4 (allocated_ext K s3 s4 _ E4 As3) (allocated_ext K s3 s4 _ E4 At3))|..]; cbn beta; auto.
      * intros r s' _ _ [A B]. split; [congruence|exact B].
      * intros x4 x' r s' _ _ C' _ _ _ P x3 _ _ C4 -> x2 _ _ C3 V3 x1 _ _ C2 -> x0 _ _ C1 V1. rewrite P, V3, V1.
        rewrite (C3 st As2), (C1 st As).
        cbn [length bits_val]. rewrite fpow_add. replace (2 ^ S (length b))%nat with (2 ^ length b + 2 ^ length b)%nat by (cbn; lia).
        rewrite fpow_add, !fpow_mul_base. ring.
    + eapply step_conseq; [apply (IH (rv * rv) tmp s2 (fun _ => True) Hw2 As2 At2)|..]; cbn beta; auto.
      * intros r s' _ _ [A B]. split; [congruence|exact B].
      * intros x2 x' r s' _ _ C' _ _ _ P x1 _ _ C2 -> x0 _ _ C1 V1. rewrite P, V1, (C1 st As).
        cbn [length bits_val]. replace (2 ^ S (length b))%nat with (2 ^ length b + 2 ^ length b)%nat by (cbn; lia).
        rewrite fpow_add, !fpow_mul_base. cbn [plus]. ring.
Qed.
Lemma pow_step a b s Pre (y : K) : wf s -> allocated s (snd a) ->
  step K (pow_with_constraint a b) s Pre (fun s' r => inps s' = inps s /\ allocated s' (snd r)) (fun x x' r => x' (snd r) = y ^ (2 ^ length (strip b)) * x (snd a) ^ bits_val b).
Proof.
  intros Hw Aa. unfold pow_with_constraint.
  eapply step_bind; [apply (step_alloc K _ s Pre (fun _ => y) Hw)|]. intros res s1 E1 Hw1 (_ & Ar & I1 & _). cbn beta.
  eapply step_conseq; [apply (pow_loop_step (fst a) (snd a) (strip b) 0 res s1 (fun _ => True) Hw1 (allocated_ext K s s1 _ E1 Aa) Ar)|..]; cbn beta; auto.
  - intros r s' _ _ [A B]. split; [congruence|exact B].
  - intros x1 x' r s' _ _ C' _ _ _ P x0 _ _ C1 V1. rewrite P, V1, strip_val, (C1 _ Aa). reflexivity.
Qed.
Theorem pow_open a b s r s' : wf s -> allocated s (snd a) -> pow_with_constraint a b s = Ok (r, s') ->
  forall x (y : K), sat x s -> exists x', continues s x x' /\ sat x' s' /\ x' (snd r) = y ^ (2 ^ length (strip b)) * x (snd a) ^ bits_val b.
Proof.
  intros Hw Aa E x y Hx. pose proof (pow_step a b s (fun _ => True) y Hw Aa) as G. unfold step in G. rewrite E in G.
  destruct G as (_ & _ & _ & G). exact (G x Hx I).
Qed.

(** ** Public inputs stay put *)
Definition keeps {A} (m : M K A) : Prop := forall s r s', m s = Ok (r, s') -> inps s' = inps s.
Lemma keeps_bind {A B} (m : M K A) (k : A -> M K B) : keeps m -> (forall a, keeps (k a)) -> keeps (bind m k).
Proof. intros H1 H2 s r s' E. unfold bind in E. destruct (m s) as [[a s1]| |] eqn:E1; try discriminate. rewrite (H2 a s1 r s' E). exact (H1 s a s1 E1). Qed.
Lemma keeps_ret {A} (a : A) : keeps (ret a). Proof. intros s r s' E. inversion E. reflexivity. Qed.
Lemma keeps_alloc f : keeps (alloc f). Proof. intros s r s' E. unfold alloc in E. destruct (md s); [|destruct f]; inversion E; reflexivity. Qed.
Lemma keeps_enforce a b c : keeps (enforce a b c). Proof. intros s r s' E. inversion E; reflexivity. Qed.
Ltac keeps_tac := repeat lazymatch goal with |- keeps (bind _ _) => apply keeps_bind; [|intro] | |- keeps (ret _) => apply keeps_ret | |- keeps (alloc _) => apply keeps_alloc | |- keeps (enforce _ _ _) => apply keeps_enforce end.
Lemma keeps_pow a b : keeps (pow_with_constraint a b).
Proof.
  unfold pow_with_constraint. keeps_tac. generalize (0 : K) a0. induction (strip b) as [|i l IH]; intros rv res; cbn [pow_loop]; cbv zeta; keeps_tac.
  destruct i; keeps_tac; apply IH.
Qed.
Lemma keeps_pows st e : keeps (pows st e).
Proof. unfold pows. keeps_tac; apply keeps_pow. Qed.
Lemma keeps_add_consts st c : keeps (add_consts st c).
Proof. unfold add_consts, add_const; cbv zeta. keeps_tac. Qed.
Lemma keeps_mix mds st : keeps (mix mds st).
Proof. unfold mix, mix_row, mix_cell; cbv zeta. keeps_tac. Qed.
Lemma keeps_rescue alph invalph mds cs : forall i st, keeps (rescue_rounds alph invalph mds i cs st).
Proof. induction cs as [|c cs IH]; intros i st; cbn [rescue_rounds]; keeps_tac; [apply keeps_pows|apply keeps_mix|apply keeps_add_consts|apply IH]. Qed.
Lemma keeps_sboxes alph half i st : keeps (poseidon_sboxes alph half i st).
Proof. unfold poseidon_sboxes. destruct (_ || _); keeps_tac; [apply keeps_pows|apply keeps_pow]. Qed.
Lemma keeps_poseidon alph half mds ark : forall i st, keeps (poseidon_rounds alph half mds i ark st).
Proof. induction ark as [|c ark IH]; intros i st; cbn [poseidon_rounds]; keeps_tac; [apply keeps_add_consts|apply keeps_sboxes|apply keeps_mix|apply IH]. Qed.

(** ** Honest runs *)
Definition al3 s (st : t3 (K * var)) : Prop := allocated s (snd (x0 st)) /\ allocated s (snd (x1 st)) /\ allocated s (snd (x2 st)).
Definition hon s (a : K * var) : Prop := fst a = wit s (snd a).
Definition hon3 s (st : t3 (K * var)) : Prop := hon s (x0 st) /\ hon s (x1 st) /\ hon s (x2 st).
Lemma hon_ext s s' a : ext s s' -> allocated s (snd a) -> hon s a -> hon s' a.
Proof. unfold hon. intros E A ->. symmetry. apply wit_same; assumption. Qed.
Lemma al3_ext s s' st : ext s s' -> al3 s st -> al3 s' st.
Proof. intros E (A & B & C). repeat split; eapply allocated_ext; eassumption. Qed.
Lemma hon3_ext s s' st : ext s s' -> al3 s st -> hon3 s st -> hon3 s' st.
Proof. intros E (A & B & C) (A' & B' & C'). repeat split; eapply hon_ext; eassumption. Qed.

Lemma pow_hon a b s : wf s -> allocated s (snd a) ->
  spec (pow_with_constraint a b) s (fun s' r => allocated s' (snd r) /\ fst r = 0) (fun _ _ => True) True hon.
Proof.
  intros Hw Aa. eapply spec_conseq_sat; [apply pow_circuit; assumption|..]; cbn beta; auto.
  intros r s' _ _ [_ F] _ _ _ _ HR. unfold hon. congruence.
Qed.
Lemma add_const_hon a c s : wf s -> allocated s (snd a) ->
  spec (add_const a c) s (fun s' r => allocated s' (snd r) /\ fst r = fst a + c) (fun _ _ => True) (hon s a) hon.
Proof.
  intros Hw Aa. unfold add_const. cbv zeta.
  eapply spec_seq; [apply (spec_alloc' K)|..]; [exact Hw|discriminate|eauto|].
  intros tmp s1 E1 Hw1 (At & _) _. cbn beta.
  assert (allocated s1 (snd a)) as Aa1 by exact (allocated_ext K s s1 _ E1 Aa).
  eapply spec_seq; [apply (spec_enforce' K); [exact Hw1|vars; auto..]|..].
  { intros (Ha & _ & _ & HR). autorewrite with lcdb. injection HR as HR. rewrite (wit_one K s1 Hw1), <- HR, (wit_same K s s1) by assumption. rewrite Ha. ring. }
  intros [] s2 E2 Hw2 _ _. cbn beta.
  apply spec_ret'; [exact Hw2|split; [exact (allocated_ext K s1 s2 _ E2 At)|reflexivity]|auto|].
  intros _ _ ((_ & _ & _ & HR) & _). injection HR as HR. unfold hon. cbn [fst snd]. rewrite (wit_same K s1 s2) by assumption. exact HR.
Qed.
Lemma mix_cell_hon c a acc s : wf s -> allocated s (snd a) -> allocated s (snd acc) ->
  spec (mix_cell c a acc) s (fun s' r => allocated s' (snd r) /\ fst r = c * fst a + fst acc) (fun _ _ => True) (hon s a /\ hon s acc) hon.
Proof.
  intros Hw Aa Ac. unfold mix_cell. cbv zeta.
  eapply spec_seq; [apply (spec_alloc' K)|..]; [exact Hw|discriminate|eauto|].
  intros tmp3 s1 E1 Hw1 (A3 & _) _. cbn beta.
  assert (allocated s1 (snd a)) as Aa1 by exact (allocated_ext K s s1 _ E1 Aa).
  assert (allocated s1 (snd acc)) as Ac1 by exact (allocated_ext K s s1 _ E1 Ac).
  eapply spec_seq; [apply (spec_alloc' K)|..]; [exact Hw1|discriminate|eauto|].
  intros tmp4 s2 E2 Hw2 (A4 & _) _. cbn beta.
  assert (allocated s2 (snd a)) as Aa2 by exact (allocated_ext K s1 s2 _ E2 Aa1).
  assert (allocated s2 (snd acc)) as Ac2 by exact (allocated_ext K s1 s2 _ E2 Ac1).
  assert (allocated s2 tmp3) as A32 by exact (allocated_ext K s1 s2 _ E2 A3).
  eapply spec_seq; [apply (spec_enforce' K); [exact Hw2|vars; auto..]|..].
  { intros (((Ha & Hc) & _ & _ & HR3) & _ & _ & HR4). injection HR3 as HR3. injection HR4 as HR4.
    pose proof (hon_ext _ _ _ E2 Aa1 (hon_ext _ _ _ E1 Aa Ha)) as Ha2. pose proof (hon_ext _ _ _ E2 Ac1 (hon_ext _ _ _ E1 Ac Hc)) as Hc2. unfold hon in Ha2, Hc2.
    autorewrite with lcdb. rewrite <- HR4, Ha2, Hc2. rewrite (wit_same K s1 s2 tmp3) by assumption. rewrite <- HR3. ring. }
  intros [] s3 E3 Hw3 _ _. cbn beta.
  apply spec_ret'; [exact Hw3|split; [exact (allocated_ext K s2 s3 _ E3 A4)|reflexivity]|auto|].
  intros _ _ ((_ & _ & _ & HR) & _). injection HR as HR. unfold hon. cbn [fst snd]. rewrite (wit_same K s2 s3) by assumption. exact HR.
Qed.
Lemma add_consts_hon st c s : wf s -> al3 s st ->
  spec (add_consts st c) s (fun s' r => al3 s' r /\ map3 fst r = add3 (map3 fst st) c) (fun _ _ => True) (hon3 s st) hon3.
Proof.
  intros Hw (A0 & A1 & A2). unfold add_consts.
  eapply spec_seq; [apply (add_const_hon (x0 st) (x0 c) s Hw A0)|intros (H & _); exact H|]. intros a s1 E1 Hw1 (B0 & F0) _. cbn beta.
  eapply spec_seq; [apply (add_const_hon (x1 st) (x1 c) s1 Hw1 (allocated_ext K s s1 _ E1 A1))|intros ((_ & H & _) & _); exact (hon_ext _ _ _ E1 A1 H)|].
  intros b s2 E2 Hw2 (B1 & F1) _. cbn beta. assert (ext s s2) as E02 by exact (ext_trans K _ _ _ E1 E2).
  eapply spec_seq; [apply (add_const_hon (x2 st) (x2 c) s2 Hw2 (allocated_ext K s s2 _ E02 A2))|intros (((_ & _ & H) & _) & _); exact (hon_ext _ _ _ E02 A2 H)|].
  intros d s3 E3 Hw3 (B2 & F2) _. cbn beta. assert (ext s1 s3) as E13 by exact (ext_trans K _ _ _ E2 E3).
  apply spec_ret'; [exact Hw3| |auto|].
  - split; [repeat split; cbn [x0 x1 x2]; [exact (allocated_ext K s1 s3 _ E13 B0)|exact (allocated_ext K s2 s3 _ E3 B1)|exact B2]|].
    unfold map3, add3. cbn [x0 x1 x2]. rewrite F0, F1, F2. reflexivity.
  - intros _ _ (((_ & _ & _ & H0) & _ & _ & H1) & _ & _ & H2). repeat split; cbn [x0 x1 x2]; [exact (hon_ext _ _ _ E13 B0 H0)|exact (hon_ext _ _ _ E3 B1 H1)|exact H2].
Qed.
Lemma mix_row_hon m st acc s : wf s -> al3 s st -> allocated s (snd acc) ->
  spec (mix_row m st acc) s (fun s' r => allocated s' (snd r) /\ fst r = row3 m (map3 fst st) + fst acc) (fun _ _ => True) (hon3 s st /\ hon s acc) hon.
Proof.
  intros Hw (A0 & A1 & A2) Ac. unfold mix_row.
  eapply spec_seq; [apply (mix_cell_hon (x0 m) (x0 st) acc s Hw A0 Ac)|intros ((H & _) & H'); split; assumption|]. intros a s1 E1 Hw1 (B0 & F0) _. cbn beta.
  eapply spec_seq; [apply (mix_cell_hon (x1 m) (x1 st) a s1 Hw1 (allocated_ext K s s1 _ E1 A1) B0)|intros (((_ & H & _) & _) & _ & _ & H'); split; [exact (hon_ext _ _ _ E1 A1 H)|exact H']|].
  intros b s2 E2 Hw2 (B1 & F1) _. cbn beta. assert (ext s s2) as E02 by exact (ext_trans K _ _ _ E1 E2).
  eapply spec_conseq_sat; [apply (mix_cell_hon (x2 m) (x2 st) b s2 Hw2 (allocated_ext K s s2 _ E02 A2) B1)|..]; cbn beta; auto.
  - intros r s' _ _ [B F] _. split; [exact B|]. rewrite F, F1, F0. unfold row3, map3. cbn [x0 x1 x2]. ring.
  - intros ((((_ & _ & H) & _) & _) & _ & _ & H'). split; [exact (hon_ext _ _ _ E02 A2 H)|exact H'].
Qed.
Lemma mix_hon mds st s : wf s -> al3 s st ->
  spec (mix mds st) s (fun s' r => al3 s' r /\ map3 fst r = mds_mul mds (map3 fst st)) (fun _ _ => True) (hon3 s st) hon3.
Proof.
  intros Hw Ast. unfold mix.
  eapply spec_seq; [apply (spec_alloc' K)|..]; [exact Hw|discriminate|eauto|]. intros v0 s1 E1 Hw1 (A0 & _) _. cbn beta.
  eapply spec_seq; [apply (spec_alloc' K)|..]; [exact Hw1|discriminate|eauto|]. intros v1 s2 E2 Hw2 (A1 & _) _. cbn beta.
  eapply spec_seq; [apply (spec_alloc' K)|..]; [exact Hw2|discriminate|eauto|]. intros v2 s3 E3 Hw3 (A2 & _) _. cbn beta.
  assert (ext s1 s3) as E13 by exact (ext_trans K _ _ _ E2 E3).
  assert (ext s s3) as E03 by exact (ext_trans K _ _ _ E1 E13).
  pose proof (al3_ext s s3 st E03 Ast) as Ast3.
  eapply spec_seq; [apply (mix_row_hon (x0 mds) st (0, v0) s3 Hw3 Ast3 (allocated_ext K s1 s3 _ E13 A0))|..].
  { intros (((H & _ & _ & H0) & _) & _). split; [exact (hon3_ext _ _ _ E03 Ast H)|]. injection H0 as H0. unfold hon. cbn [fst snd]. rewrite (wit_same K s1 s3); assumption. }
  intros a s4 E4 Hw4 (B0 & F0) _. cbn beta.
  assert (ext s2 s4) as E24 by exact (ext_trans K _ _ _ E3 E4).
  assert (ext s s4) as E04 by exact (ext_trans K _ _ _ E03 E4).
  eapply spec_seq; [apply (mix_row_hon (x1 mds) st (0, v1) s4 Hw4 (al3_ext s s4 st E04 Ast) (allocated_ext K s2 s4 _ E24 A1))|..].
  { intros ((((H & _) & _ & _ & H0) & _) & _). split; [exact (hon3_ext _ _ _ E04 Ast H)|]. injection H0 as H0. unfold hon. cbn [fst snd]. rewrite (wit_same K s2 s4); assumption. }
  intros b s5 E5 Hw5 (B1 & F1) _. cbn beta.
  assert (ext s3 s5) as E35 by exact (ext_trans K _ _ _ E4 E5).
  assert (ext s s5) as E05 by exact (ext_trans K _ _ _ E04 E5).
  eapply spec_seq; [apply (mix_row_hon (x2 mds) st (0, v2) s5 Hw5 (al3_ext s s5 st E05 Ast) (allocated_ext K s3 s5 _ E35 A2))|..].
  { intros (((((H & _) & _) & _ & _ & H0) & _) & _). split; [exact (hon3_ext _ _ _ E05 Ast H)|]. injection H0 as H0. unfold hon. cbn [fst snd]. rewrite (wit_same K s3 s5); assumption. }
  intros d s6 E6 Hw6 (B2 & F2) _. cbn beta.
  assert (ext s4 s6) as E46 by exact (ext_trans K _ _ _ E5 E6).
  apply spec_ret'; [exact Hw6| |auto|].
  - split; [repeat split; cbn [x0 x1 x2]; [exact (allocated_ext K s4 s6 _ E46 B0)|exact (allocated_ext K s5 s6 _ E6 B1)|exact B2]|].
    unfold map3, mds_mul. cbn [x0 x1 x2]. rewrite F0, F1, F2. cbn [fst]. unfold map3. cbn [x0 x1 x2]. f_equal; ring.
  - intros _ _ (((_ & _ & _ & H0) & _ & _ & H1) & _ & _ & H2). repeat split; cbn [x0 x1 x2]; [exact (hon_ext _ _ _ E46 B0 H0)|exact (hon_ext _ _ _ E6 B1 H1)|exact H2].
Qed.
Lemma pows_hon st e s : wf s -> al3 s st ->
  spec (pows st e) s (fun s' r => al3 s' r /\ map3 fst r = T3 0 0 0) (fun _ _ => True) True hon3.
Proof.
  intros Hw (A0 & A1 & A2). unfold pows.
  eapply spec_seq; [apply (pow_hon (x0 st) e s Hw A0)|auto|]. intros a s1 E1 Hw1 (B0 & F0) _. cbn beta.
  eapply spec_seq; [apply (pow_hon (x1 st) e s1 Hw1 (allocated_ext K s s1 _ E1 A1))|auto|].
  intros b s2 E2 Hw2 (B1 & F1) _. cbn beta. assert (ext s s2) as E02 by exact (ext_trans K _ _ _ E1 E2).
  eapply spec_seq; [apply (pow_hon (x2 st) e s2 Hw2 (allocated_ext K s s2 _ E02 A2))|auto|].
  intros d s3 E3 Hw3 (B2 & F2) _. cbn beta. assert (ext s1 s3) as E13 by exact (ext_trans K _ _ _ E2 E3).
  apply spec_ret'; [exact Hw3| |auto|].
  - split; [repeat split; cbn [x0 x1 x2]; [exact (allocated_ext K s1 s3 _ E13 B0)|exact (allocated_ext K s2 s3 _ E3 B1)|exact B2]|].
    unfold map3. cbn [x0 x1 x2]. rewrite F0, F1, F2. reflexivity.
  - intros _ _ (((_ & _ & _ & H0) & _ & _ & H1) & _ & _ & H2). repeat split; cbn [x0 x1 x2]; [exact (hon_ext _ _ _ E13 B0 H0)|exact (hon_ext _ _ _ E3 B1 H1)|exact H2].
Qed.
Lemma mds_zero mds : mds_mul mds (T3 (0 : K) 0 0) = T3 0 0 0.
Proof. unfold mds_mul, map3, row3. cbn [x0 x1 x2]. f_equal; ring. Qed.
Lemma add3_zero (c : t3 K) : add3 (T3 0 0 0) c = c.
Proof. destruct c as [c0 c1 c2]. unfold add3. cbn [x0 x1 x2]. f_equal; ring. Qed.
Lemma last_cons {A} (l : list A) : forall c d, List.last (c :: l) d = List.last l c.
Proof. induction l as [|a l IH]; intros c d; [reflexivity|]. change (List.last (a :: l) d = List.last (a :: l) c). rewrite !IH. reflexivity. Qed.
Lemma rescue_rounds_hon alph invalph mds cs : forall i st s, wf s -> al3 s st ->
  spec (rescue_rounds alph invalph mds i cs st) s (fun s' r => al3 s' r /\ map3 fst r = List.last cs (map3 fst st)) (fun _ _ => True) (hon3 s st) hon3.
Proof.
  induction cs as [|c cs IH]; intros i st s Hw A; cbn [rescue_rounds].
  - apply spec_ret'; auto.
  - eapply spec_seq; [apply (pows_hon st _ s Hw A)|auto|]. intros st1 s1 E1 Hw1 (A1 & F1) _. cbn beta.
    eapply spec_seq; [apply (mix_hon mds st1 s1 Hw1 A1)|tauto|]. intros st2 s2 E2 Hw2 (A2 & F2) _. cbn beta.
    eapply spec_seq; [apply (add_consts_hon st2 c s2 Hw2 A2)|tauto|]. intros st3 s3 E3 Hw3 (A3 & F3) _. cbn beta.
    rewrite F2, F1, mds_zero, add3_zero in F3.
    eapply spec_conseq_sat; [apply (IH (S i) st3 s3 Hw3 A3)|..]; cbn beta; auto.
    + intros r s' _ _ [B F] _. split; [exact B|]. rewrite F, F3. symmetry. apply last_cons.
    + tauto.
Qed.
Lemma expose_hon st s : wf s -> al3 s st ->
  spec (expose st) s (fun s' _ => length (inps s') = S (length (inps s))) (fun x _ => x (Input (length (inps s))) = x (snd (x0 st))) (hon3 s st) (fun s' _ => wit s' (Input (length (inps s))) = fst (x0 st)).
Proof.
  intros Hw (A & _). unfold expose.
  eapply spec_seq; [apply (spec_and K); [apply (spec_alloc_input K); [exact Hw|discriminate]|]|..].
  { intros r s' E. unfold alloc_input in E. instantiate (1 := fun s' r => r = Input (length (inps s)) /\ length (inps s') = S (length (inps s))). destruct (md s); inversion E; subst; cbn; rewrite app_length; cbn; split; (reflexivity || lia). }
  { eauto. }
  intros v s1 E1 Hw1 (W1 & -> & L1) _. cbn beta.
  assert (allocated s1 (snd (x0 st))) as A1 by exact (allocated_ext K s s1 _ E1 A).
  assert (allocated s1 (Input (length (inps s)))) as Ai by (cbn; lia).
  eapply spec_conseq_sat; [apply (spec_enforce' K); [exact Hw1|vars; auto..]|..]; cbn beta.
  - intros r s' _ _ (_ & _ & I) _. rewrite I. exact L1.
  - intros x r s' _ _ Hx (O & C). autorewrite with lcdb in C. rewrite O in C. apply fsub_0. apply fsub_0 in C. transitivity (- (0 : K)); [rewrite <- C; ring|ring].
  - intros (Ha & _ & _ & HR). injection HR as HR. change (fst (x0 st) = wit s1 (Input (length (inps s)))) in HR. autorewrite with lcdb. rewrite (wit_one K s1 Hw1), <- HR, (wit_same K s s1) by assumption. destruct Ha as (Ha & _). unfold hon in Ha. rewrite Ha. ring.
  - intros r s' E _ _ _ _ (Ha & _ & _ & HR) _ _. injection HR as HR. change (fst (x0 st) = wit s1 (Input (length (inps s)))) in HR. rewrite (wit_same K s1 s') by assumption. auto.
Qed.
Lemma last_ne {A} (l : list A) d d' : l <> [] -> List.last l d = List.last l d'.
Proof. induction l as [|a l IH]; [congruence|]. intros _. destruct l; [reflexivity|]. cbn [List.last] in *. apply IH. discriminate. Qed.
Theorem rescue_honest nl alph invalph mds c0 cs b s : wf s -> (exists t, sponge_hash nl (rescue_block alph invalph mds c0 cs) b = Ok t) -> cs <> [] ->
  spec (rescue nl alph invalph mds c0 cs b) s
    (fun s' r => length (inps s') = S (length (inps s)) /\ rmap snd (sponge_hash nl (rescue_block alph invalph mds c0 cs) b) = Ok r)
    (fun _ _ => True) True (fun s' _ => wit s' (Input (length (inps s))) = x0 (List.last cs c0)).
Proof.
  intros Hw [[[xl xr] h] E] N. unfold spec, rescue. rewrite E.
  match goal with |- match ?m s with Ok _ => _ | _ => _ end => change (spec m s
    (fun s' r => length (inps s') = S (length (inps s)) /\ rmap snd (Ok (xl, xr, h)) = Ok r)
    (fun _ _ => True) True (fun s' _ => wit s' (Input (length (inps s))) = x0 (List.last cs c0))) end.
  eapply spec_seq; [apply (spec_alloc' K)|..]; [exact Hw|discriminate|eauto|]. intros v0 s1 E1 Hw1 (A0 & _ & _ & I1) _. cbn beta.
  eapply spec_seq; [apply (spec_alloc' K)|..]; [exact Hw1|discriminate|eauto|]. intros v1 s2 E2 Hw2 (A1 & _ & _ & I2) _. cbn beta.
  eapply spec_seq; [apply (spec_alloc' K)|..]; [exact Hw2|discriminate|eauto|]. intros v2 s3 E3 Hw3 (A2 & _ & _ & I3) _. cbn beta.
  assert (ext s1 s3) as E13 by exact (ext_trans K _ _ _ E2 E3).
  assert (al3 s3 (T3 (xl, v0) (xr, v1) (0, v2))) as A3 by (repeat split; cbn [x0 x1 x2 snd]; [exact (allocated_ext K s1 s3 _ E13 A0)|exact (allocated_ext K s2 s3 _ E3 A1)|exact A2]).
  eapply spec_seq; [apply (spec_and K _ _ _ _ _ _ (fun s' _ => inps s' = inps s3) (add_consts_hon _ c0 s3 Hw3 A3)); intros r s'; apply keeps_add_consts|..].
  { intros (((_ & _ & _ & H0) & _ & _ & H1) & _ & _ & H2). injection H0 as H0. injection H1 as H1. injection H2 as H2.
    repeat split; unfold hon; cbn [x0 x1 x2 fst snd]; [rewrite (wit_same K s1 s3)|rewrite (wit_same K s2 s3)|]; assumption. }
  intros st s4 E4 Hw4 ((A4 & F4) & I4) _. cbn beta.
  eapply spec_seq; [apply (spec_and K _ _ _ _ _ _ (fun s' _ => inps s' = inps s4) (rescue_rounds_hon alph invalph mds cs 0 st s4 Hw4 A4)); intros r s'; apply keeps_rescue|tauto|].
  intros st' s5 E5 Hw5 ((A5 & F5) & I5) _. cbn beta.
  assert (inps s5 = inps s) as I by congruence.
  eapply spec_seq; [apply (expose_hon st' s5 Hw5 A5)|tauto|]. intros [] s6 E6 Hw6 L6 _. cbn beta.
  apply spec_ret'; [exact Hw6|rewrite L6, I; auto|auto|]. intros _ _ (_ & _ & _ & HR). rewrite I in HR. rewrite HR.
  change (fst (x0 st')) with (x0 (map3 fst st')). rewrite F5. f_equal. apply last_ne, N.
Qed.

(** ** Poseidon: a final full round gives zero. *)
Lemma sboxes_hon alph half i st s : wf s -> al3 s st ->
  spec (poseidon_sboxes alph half i st) s (fun s' r => al3 s' r /\ (i <> half -> map3 fst r = T3 0 0 0)) (fun _ _ => True) (hon3 s st) hon3.
Proof.
  intros Hw A. unfold poseidon_sboxes. destruct (Nat.ltb_spec i half) as [L|L]; cbn [orb].
  - eapply spec_conseq_sat; [apply (pows_hon st _ s Hw A)|..]; cbn beta; auto. intros r s' _ _ [B F] _. auto.
  - destruct (Nat.ltb_spec half i) as [L'|L'].
    + eapply spec_conseq_sat; [apply (pows_hon st _ s Hw A)|..]; cbn beta; auto. intros r s' _ _ [B F] _. auto.
    + eapply spec_seq; [apply (pow_hon (x2 st) (bits_be alph) s Hw (proj2 (proj2 A)))|auto|]. intros d s1 E1 Hw1 (B2 & F2) _. cbn beta.
      pose proof (al3_ext s s1 st E1 A) as (B0 & B1 & _).
      apply spec_ret'; [exact Hw1| |auto|].
      * split; [repeat split; assumption|]. intro. lia.
      * intros _ _ (H & _ & _ & HR). destruct (hon3_ext s s1 st E1 A H) as (H0 & H1 & _). repeat split; assumption.
Qed.
Lemma poseidon_rounds_hon alph half mds ark : forall i st s, wf s -> al3 s st ->
  spec (poseidon_rounds alph half mds i ark st) s (fun s' r => al3 s' r /\ (ark <> [] -> (i + length ark <> S half)%nat -> map3 fst r = T3 0 0 0)) (fun _ _ => True) (hon3 s st) hon3.
Proof.
  induction ark as [|c ark IH]; intros i st s Hw A; cbn [poseidon_rounds].
  - apply spec_ret'; auto. split; [exact A|congruence].
  - eapply spec_seq; [apply (add_consts_hon st c s Hw A)|auto|]. intros st1 s1 E1 Hw1 (A1 & F1) _. cbn beta.
    eapply spec_seq; [apply (sboxes_hon alph half i st1 s1 Hw1 A1)|tauto|]. intros st2 s2 E2 Hw2 (A2 & F2) _. cbn beta.
    eapply spec_seq; [apply (mix_hon mds st2 s2 Hw2 A2)|tauto|]. intros st3 s3 E3 Hw3 (A3 & F3) _. cbn beta.
    destruct ark as [|c' ark].
    + cbn [poseidon_rounds]. apply spec_ret'; [exact Hw3| |auto|tauto]. split; [exact A3|]. intros _ NE. rewrite F3, F2, mds_zero; [reflexivity|]. cbn [length] in NE. lia.
    + eapply spec_conseq_sat; [apply (IH (S i) st3 s3 Hw3 A3)|..]; cbn beta; auto.
      * intros r s' _ _ [B F] _. split; [exact B|]. intros _ NE. apply F; [discriminate|]. cbn [length] in *. lia.
      * tauto.
Qed.
Theorem poseidon_honest nl alph half mds ark b s : wf s -> (exists t, sponge_hash nl (poseidon_block alph half mds ark) b = Ok t) -> ark <> [] -> length ark <> S half ->
  spec (poseidon nl alph half mds ark b) s
    (fun s' r => length (inps s') = S (length (inps s)) /\ rmap snd (sponge_hash nl (poseidon_block alph half mds ark) b) = Ok r)
    (fun _ _ => True) True (fun s' _ => wit s' (Input (length (inps s))) = 0).
Proof.
  intros Hw [[[xl xr] h] E] N NE. unfold spec, poseidon. rewrite E.
  match goal with |- match ?m s with Ok _ => _ | _ => _ end => change (spec m s
    (fun s' r => length (inps s') = S (length (inps s)) /\ rmap snd (Ok (xl, xr, h)) = Ok r)
    (fun _ _ => True) True (fun s' _ => wit s' (Input (length (inps s))) = 0)) end.
  eapply spec_seq; [apply (spec_alloc' K)|..]; [exact Hw|discriminate|eauto|]. intros v0 s1 E1 Hw1 (A0 & _ & _ & I1) _. cbn beta.
  eapply spec_seq; [apply (spec_alloc' K)|..]; [exact Hw1|discriminate|eauto|]. intros v1 s2 E2 Hw2 (A1 & _ & _ & I2) _. cbn beta.
  eapply spec_seq; [apply (spec_alloc' K)|..]; [exact Hw2|discriminate|eauto|]. intros v2 s3 E3 Hw3 (A2 & _ & _ & I3) _. cbn beta.
  assert (ext s1 s3) as E13 by exact (ext_trans K _ _ _ E2 E3).
  assert (al3 s3 (T3 (xl, v0) (xr, v1) (0, v2))) as A3 by (repeat split; cbn [x0 x1 x2 snd]; [exact (allocated_ext K s1 s3 _ E13 A0)|exact (allocated_ext K s2 s3 _ E3 A1)|exact A2]).
  eapply spec_seq; [apply (spec_and K _ _ _ _ _ _ (fun s' _ => inps s' = inps s3) (poseidon_rounds_hon alph half mds ark 0 _ s3 Hw3 A3)); intros r s'; apply keeps_poseidon|..].
  { intros (((_ & _ & _ & H0) & _ & _ & H1) & _ & _ & H2). injection H0 as H0. injection H1 as H1. injection H2 as H2.
    repeat split; unfold hon; cbn [x0 x1 x2 fst snd]; [rewrite (wit_same K s1 s3)|rewrite (wit_same K s2 s3)|]; assumption. }
  intros st' s5 E5 Hw5 ((A5 & F5) & I5) _. cbn beta.
  assert (inps s5 = inps s) as I by congruence.
  eapply spec_seq; [apply (expose_hon st' s5 Hw5 A5)|tauto|]. intros [] s6 E6 Hw6 L6 _. cbn beta.
  apply spec_ret'; [exact Hw6|rewrite L6, I; auto|auto|]. intros _ _ (_ & _ & _ & HR). rewrite I in HR. rewrite HR.
  change (fst (x0 st')) with (x0 (map3 fst st')). rewrite F5; [reflexivity|exact N|exact NE].
Qed.

(** ** Any output can be claimed *)
Lemma add_const_step a c s Pre : wf s -> allocated s (snd a) ->
  step K (add_const a c) s Pre (fun s' r => allocated s' (snd r)) (fun x x' r => x' (snd r) = x (snd a) + c).
Proof.
  intros Hw A. unfold add_const. cbv zeta.
  eapply step_bind; [apply (step_alloc K _ s Pre (fun x => x (snd a) + c) Hw)|]. intros tmp s1 E1 Hw1 (_ & At & _). cbn beta.
  assert (allocated s1 (snd a)) as A1 by exact (allocated_ext K s s1 _ E1 A).
  eapply step_bind; [apply step_enforce; [exact Hw1|vars; auto..|]|].
  { intros x [O _] (x0 & _ & _ & C & V). autorewrite with lcdb. rewrite O, V, (C _ A). ring. }
  intros [] s2 E2 Hw2 _. cbn beta. apply step_ret; [exact Hw2|exact (allocated_ext K s1 s2 _ E2 At)|].
  intros x2 _ _ x1 _ _ _ -> x0 _ _ _ V. exact V.
Qed.
Lemma mix_cell_step c a acc s Pre : wf s -> allocated s (snd a) -> allocated s (snd acc) ->
  step K (mix_cell c a acc) s Pre (fun s' r => allocated s' (snd r)) (fun x x' r => x' (snd r) = x (snd acc)).
Proof.
  intros Hw A Ac. unfold mix_cell. cbv zeta.
  eapply step_bind; [apply (step_alloc K _ s Pre (fun _ => 0) Hw)|]. intros t3 s1 E1 Hw1 (_ & A3 & _). cbn beta.
  assert (allocated s1 (snd a)) as A1 by exact (allocated_ext K s s1 _ E1 A).
  assert (allocated s1 (snd acc)) as Ac1 by exact (allocated_ext K s s1 _ E1 Ac).
  eapply step_bind; [apply (step_alloc K _ s1 _ (fun x => x (snd acc)) Hw1)|]. intros t4 s2 E2 Hw2 (_ & A4 & _). cbn beta.
  assert (allocated s2 (snd a)) as A2 by exact (allocated_ext K s1 s2 _ E2 A1).
  assert (allocated s2 (snd acc)) as Ac2 by exact (allocated_ext K s1 s2 _ E2 Ac1).
  assert (allocated s2 t3) as A32 by exact (allocated_ext K s1 s2 _ E2 A3).
  eapply step_bind; [apply step_enforce; [exact Hw2|vars; auto..|]|].
  { intros x _ (x1 & _ & (x0 & _ & _ & _ & V0) & C & V). autorewrite with lcdb. rewrite V, (C _ A3), (C _ Ac1), V0. ring. }
  intros [] s3 E3 Hw3 _. cbn beta. apply step_ret; [exact Hw3|exact (allocated_ext K s2 s3 _ E3 A4)|].
  intros x3 _ _ x2 _ _ _ -> x1 _ _ _ V x0 _ _ C _. cbn [snd]. rewrite V. apply C, Ac.
Qed.
Lemma mix_row_step m st acc s Pre : wf s -> al3 s st -> allocated s (snd acc) ->
  step K (mix_row m st acc) s Pre (fun s' r => allocated s' (snd r)) (fun x x' r => x' (snd r) = x (snd acc)).
Proof.
  intros Hw (A0 & A1 & A2) Ac. unfold mix_row.
  eapply step_bind; [apply (mix_cell_step (x0 m) (x0 st) acc s Pre Hw A0 Ac)|]. intros a s1 E1 Hw1 B0. cbn beta.
  eapply step_bind; [apply (mix_cell_step (x1 m) (x1 st) a s1 _ Hw1 (allocated_ext K s s1 _ E1 A1) B0)|]. intros b s2 E2 Hw2 B1. cbn beta.
  assert (ext s s2) as E02 by exact (ext_trans K _ _ _ E1 E2).
  eapply step_conseq; [apply (mix_cell_step (x2 m) (x2 st) b s2 (fun _ => True) Hw2 (allocated_ext K s s2 _ E02 A2) B1)|..]; cbn beta; auto.
  intros x2' x' r s' _ _ _ _ _ _ P x1' _ _ _ P1 x0' _ _ _ P0. congruence.
Qed.
Lemma mix_step mds st s Pre (y : K) : wf s -> al3 s st ->
  step K (mix mds st) s Pre (fun s' r => al3 s' r) (fun x x' r => x' (snd (x0 r)) = y).
Proof.
  intros Hw A. unfold mix.
  eapply step_bind; [apply (step_alloc K _ s Pre (fun _ => y) Hw)|]. intros v0 s1 E1 Hw1 (_ & A0 & _). cbn beta.
  eapply step_bind; [apply (step_alloc K _ s1 _ (fun _ => 0) Hw1)|]. intros v1 s2 E2 Hw2 (_ & A1 & _). cbn beta.
  eapply step_bind; [apply (step_alloc K _ s2 _ (fun _ => 0) Hw2)|]. intros v2 s3 E3 Hw3 (_ & A2 & _). cbn beta.
  assert (ext s1 s3) as E13 by exact (ext_trans K _ _ _ E2 E3).
  assert (ext s s3) as E03 by exact (ext_trans K _ _ _ E1 E13).
  eapply step_bind; [apply (mix_row_step (x0 mds) st (0, v0) s3 _ Hw3 (al3_ext s s3 st E03 A) (allocated_ext K s1 s3 _ E13 A0))|].
  intros a s4 E4 Hw4 B0. cbn beta.
  assert (ext s2 s4) as E24 by exact (ext_trans K _ _ _ E3 E4).
  assert (ext s s4) as E04 by exact (ext_trans K _ _ _ E03 E4).
  eapply step_bind; [apply (mix_row_step (x1 mds) st (0, v1) s4 _ Hw4 (al3_ext s s4 st E04 A) (allocated_ext K s2 s4 _ E24 A1))|].
  intros b s5 E5 Hw5 B1. cbn beta.
  assert (ext s3 s5) as E35 by exact (ext_trans K _ _ _ E4 E5).
  assert (ext s s5) as E05 by exact (ext_trans K _ _ _ E04 E5).
  eapply step_bind; [apply (mix_row_step (x2 mds) st (0, v2) s5 _ Hw5 (al3_ext s s5 st E05 A) (allocated_ext K s3 s5 _ E35 A2))|].
  intros d s6 E6 Hw6 B2. cbn beta. assert (ext s4 s6) as E46 by exact (ext_trans K _ _ _ E5 E6).
  apply step_ret; [exact Hw6|repeat split; cbn [x0 x1 x2]; [exact (allocated_ext K s4 s6 _ E46 B0)|exact (allocated_ext K s5 s6 _ E6 B1)|exact B2]|].
  intros y6 _ _ y5 _ _ C6 _ y4 _ _ C5 _ y3 _ _ C4 P y2 _ _ C3 _ y1 _ _ C2 _ y0 _ _ C1 P0. cbn [x0 snd] in *.
  rewrite (C6 _ (allocated_ext K s4 s5 _ E5 B0)), (C5 _ B0), P, (C3 _ (allocated_ext K s1 s2 _ E2 A0)), (C2 _ A0). exact P0.
Qed.
Lemma pows_step st e s Pre : wf s -> al3 s st -> step K (pows st e) s Pre (fun s' r => al3 s' r) (fun _ _ _ => True).
Proof.
  intros Hw (A0 & A1 & A2). unfold pows.
  eapply step_bind; [apply (pow_step (x0 st) e s Pre 0 Hw A0)|]. intros a s1 E1 Hw1 (_ & B0). cbn beta.
  eapply step_bind; [apply (pow_step (x1 st) e s1 _ 0 Hw1 (allocated_ext K s s1 _ E1 A1))|]. intros b s2 E2 Hw2 (_ & B1). cbn beta.
  assert (ext s s2) as E02 by exact (ext_trans K _ _ _ E1 E2).
  eapply step_bind; [apply (pow_step (x2 st) e s2 _ 0 Hw2 (allocated_ext K s s2 _ E02 A2))|]. intros d s3 E3 Hw3 (_ & B2). cbn beta.
  assert (ext s1 s3) as E13 by exact (ext_trans K _ _ _ E2 E3).
  apply step_ret; [exact Hw3|repeat split; cbn [x0 x1 x2]; [exact (allocated_ext K s1 s3 _ E13 B0)|exact (allocated_ext K s2 s3 _ E3 B1)|exact B2]|auto].
Qed.
Lemma add_consts_step st c s Pre : wf s -> al3 s st -> step K (add_consts st c) s Pre (fun s' r => al3 s' r) (fun x x' r => x' (snd (x0 r)) = x (snd (x0 st)) + x0 c).
Proof.
  intros Hw (A0 & A1 & A2). unfold add_consts.
  eapply step_bind; [apply (add_const_step (x0 st) (x0 c) s Pre Hw A0)|]. intros a s1 E1 Hw1 B0. cbn beta.
  eapply step_bind; [apply (add_const_step (x1 st) (x1 c) s1 _ Hw1 (allocated_ext K s s1 _ E1 A1))|]. intros b s2 E2 Hw2 B1. cbn beta.
  assert (ext s s2) as E02 by exact (ext_trans K _ _ _ E1 E2).
  eapply step_bind; [apply (add_const_step (x2 st) (x2 c) s2 _ Hw2 (allocated_ext K s s2 _ E02 A2))|]. intros d s3 E3 Hw3 B2. cbn beta.
  assert (ext s1 s3) as E13 by exact (ext_trans K _ _ _ E2 E3).
  apply step_ret; [exact Hw3|repeat split; cbn [x0 x1 x2]; [exact (allocated_ext K s1 s3 _ E13 B0)|exact (allocated_ext K s2 s3 _ E3 B1)|exact B2]|].
  intros y3 _ _ y2 _ _ C3 _ y1 _ _ C2 _ y0 _ _ C1 P. cbn [x0]. rewrite (C3 _ (allocated_ext K s1 s2 _ E2 B0)), (C2 _ B0). exact P.
Qed.
Lemma rescue_rounds_step alph invalph mds (y : K) cs : forall i st s Pre, cs <> [] -> wf s -> al3 s st ->
  step K (rescue_rounds alph invalph mds i cs st) s Pre (fun s' r => al3 s' r) (fun x x' r => x' (snd (x0 r)) = y).
Proof.
  induction cs as [|c cs IH]; intros i st s Pre N Hw A; [congruence|]. cbn [rescue_rounds].
  eapply step_bind; [apply (pows_step st _ s Pre Hw A)|]. intros st1 s1 E1 Hw1 A1. cbn beta.
  eapply step_bind; [apply (mix_step mds st1 s1 _ (y - x0 c) Hw1 A1)|]. intros st2 s2 E2 Hw2 A2. cbn beta.
  eapply step_bind; [apply (add_consts_step st2 c s2 _ Hw2 A2)|]. intros st3 s3 E3 Hw3 A3. cbn beta.
  destruct cs as [|c' cs].
  - cbn [rescue_rounds]. apply step_ret; [exact Hw3|exact A3|]. intros y3 _ _ y2 _ _ _ P2 y1 _ _ _ P1 y0 _ _ _ _. rewrite P2, P1. ring.
  - eapply step_conseq; [apply (IH (S i) st3 s3 (fun _ => True)); [discriminate|exact Hw3|exact A3]|..]; cbn beta; auto.
Qed.
Lemma sboxes_step alph half i st s Pre : wf s -> al3 s st -> step K (poseidon_sboxes alph half i st) s Pre (fun s' r => al3 s' r) (fun _ _ _ => True).
Proof.
  intros Hw A. unfold poseidon_sboxes. destruct (_ || _); [apply pows_step; assumption|].
  eapply step_bind; [apply (pow_step (x2 st) _ s Pre 0 Hw (proj2 (proj2 A)))|]. intros d s1 E1 Hw1 (_ & B). cbn beta.
  destruct (al3_ext s s1 st E1 A) as (B0 & B1 & _). apply step_ret; [exact Hw1|repeat split; assumption|auto].
Qed.
Lemma poseidon_rounds_step alph half mds (y : K) ark : forall i st s Pre, ark <> [] -> wf s -> al3 s st ->
  step K (poseidon_rounds alph half mds i ark st) s Pre (fun s' r => al3 s' r) (fun x x' r => x' (snd (x0 r)) = y).
Proof.
  induction ark as [|c ark IH]; intros i st s Pre N Hw A; [congruence|]. cbn [poseidon_rounds].
  eapply step_bind; [apply (add_consts_step st c s _ Hw A)|]. intros st1 s1 E1 Hw1 A1. cbn beta.
  eapply step_bind; [apply (sboxes_step alph half i st1 s1 _ Hw1 A1)|]. intros st2 s2 E2 Hw2 A2. cbn beta.
  eapply step_bind; [apply (mix_step mds st2 s2 _ y Hw2 A2)|]. intros st3 s3 E3 Hw3 A3. cbn beta.
  destruct ark as [|c' ark].
  - cbn [poseidon_rounds]. apply step_ret; [exact Hw3|exact A3|]. intros y3 _ _ y2 _ _ _ P2 y1 _ _ _ P1 y0 _ _ _ _. exact P2.
  - eapply step_conseq; [apply (IH (S i) st3 s3 (fun _ => True)); [discriminate|exact Hw3|exact A3]|..]; cbn beta; auto.
Qed.
Lemma expose_step st s Pre : wf s -> al3 s st -> step K (expose st) s Pre (fun s' _ => True) (fun x x' _ => x' (Input (length (inps s))) = x (snd (x0 st))).
Proof.
  intros Hw (A & _). unfold expose.
  eapply step_bind; [apply (step_alloc_input K _ s Pre (fun x => x (snd (x0 st))) Hw)|]. intros v s1 E1 Hw1 (-> & Ai & _ & L1). cbn beta.
  assert (allocated s1 (snd (x0 st))) as A1 by exact (allocated_ext K s s1 _ E1 A).
  eapply step_conseq; [apply step_enforce with (Pre := fun x => x (Input (length (inps s))) = x (snd (x0 st))); [exact Hw1|vars; auto..|]|..]; cbn beta; auto.
  - intros x [O _] V. autorewrite with lcdb. rewrite O, V. ring.
  - intros x1 _ (x & _ & _ & C & V). rewrite V, (C _ A). reflexivity.
  - intros x x' r s' _ _ _ _ _ _ -> x0' _ _ _ V. exact V.
Qed.
Section Open.
(** Both circuits: preimage variables, rounds [f] that can end anywhere, exposed output. *)
Variable f : t3 (K * var) -> M K (t3 (K * var)).
Hypothesis Hk : forall st, keeps (f st).
Hypothesis Hf : forall y st s Pre, wf s -> al3 s st -> step K (f st) s Pre (fun s' r => al3 s' r) (fun x x' r => x' (snd (x0 r)) = y).
Lemma circuit_open (xl xr h : K) s r s' : wf s ->
  (v0 <- alloc (Ok xl) ;; v1 <- alloc (Ok xr) ;; v2 <- alloc (Ok 0) ;; st' <- f (T3 (xl, v0) (xr, v1) (0, v2)) ;; expose st' ;;; ret h) s = Ok (r, s') ->
  forall x (y a b : K), sat x s -> exists x', continues s x x' /\ sat x' s' /\ x' (Input (length (inps s))) = y /\ x' (first_var s) = a /\ x' (second_var s) = b.
Proof.
  intros Hw E x y a b Hx.
  assert (step K (v0 <- alloc (Ok xl) ;; v1 <- alloc (Ok xr) ;; v2 <- alloc (Ok 0) ;; st' <- f (T3 (xl, v0) (xr, v1) (0, v2)) ;; expose st' ;;; ret h) s (fun _ => True) (fun _ _ => True)
    (fun x x' _ => x' (Input (length (inps s))) = y /\ x' (first_var s) = a /\ x' (second_var s) = b)) as G.
  { eapply step_bind; [apply (step_alloc K _ s _ (fun _ => a) Hw)|]. intros v0 s1 E1 Hw1 (-> & A0 & I1 & L1). cbn beta.
    eapply step_bind; [apply (step_alloc K _ s1 _ (fun _ => b) Hw1)|]. intros v1 s2 E2 Hw2 (-> & A1 & I2 & L2). cbn beta.
    eapply step_bind; [apply (step_alloc K _ s2 _ (fun _ => 0) Hw2)|]. intros v2 s3 E3 Hw3 (-> & A2 & I3 & L3). cbn beta.
    assert (ext s1 s3) as E13 by exact (ext_trans K _ _ _ E2 E3).
    set (st := T3 _ _ _).
    assert (al3 s3 st) as A3 by (repeat split; cbn [x0 x1 x2 snd]; [exact (allocated_ext K s1 s3 _ E13 A0)|exact (allocated_ext K s2 s3 _ E3 A1)|exact A2]).
    assert (forall Pre, step K (f st) s3 Pre (fun s' r => al3 s' r /\ inps s' = inps s) (fun x x' r => x' (snd (x0 r)) = y)) as F.
    { intro Pre. pose proof (Hf y st s3 Pre Hw3 A3) as F. pose proof (Hk st s3) as Kp. unfold step in *. destruct (f st s3) as [[r4 s4]| |]; auto.
      destruct F as (F1 & F2 & F3 & F4). split; [exact F1|]. split; [exact F2|]. split; [|exact F4]. split; [exact F3|]. rewrite (Kp r4 s4 eq_refl). congruence. }
    eapply step_bind; [apply F|]. intros st' s4 E4 Hw4 (A4 & I4). cbn beta.
    eapply step_bind; [apply (expose_step st' s4 _ Hw4 A4)|]. intros [] s5 E5 Hw5 _. cbn beta. rewrite I4.
    apply step_ret; [exact Hw5|exact I|].
    intros y5 _ _ y4 _ _ C5 P5 y3 _ _ C4 P4 y2 _ _ C3 _ y1 _ _ C2 P2 y0 _ _ C1 P1.
    assert (allocated s3 (first_var s)) as Al3' by exact (allocated_ext K s1 s3 _ E13 A0).
    assert (second_var s = Aux (length (auxs s1))) as -> by (unfold second_var; f_equal; lia).
    assert (allocated s3 (Aux (length (auxs s1)))) as Ar3 by exact (allocated_ext K s2 s3 _ E3 A1).
    split; [congruence|]. split.
    - rewrite (C5 _ (allocated_ext K s3 s4 _ E4 Al3')), (C4 _ Al3'), (C3 (first_var s) (allocated_ext K s1 s2 _ E2 A0)), (C2 (first_var s) A0). exact P1.
    - rewrite (C5 _ (allocated_ext K s3 s4 _ E4 Ar3)), (C4 _ Ar3), (C3 _ A1). exact P2. }
  unfold step in G. rewrite E in G. destruct G as (_ & _ & _ & G). exact (G x Hx I).
Qed.
End Open.
(** The byte interface absorbs partial and non-canonical blocks as zero. *)
Theorem sponge_partial nl blk k p q q' : (0 < nl)%nat -> length p = (k * (8 * nl))%nat -> (0 < length q < 8 * nl)%nat -> (0 < length q' < 8 * nl)%nat ->
  @sponge_hash K nl blk (p ++ q) = sponge_hash nl blk (p ++ q').
Proof.
  intros. unfold sponge_hash. rewrite (blocks_pre K nl k p q q'); auto. rewrite !blocks_partial by assumption. reflexivity.
Qed.
Theorem sponge_empty nl (blk : K -> K -> K) : sponge_hash nl blk [] = Panic.
Proof.
  unfold sponge_hash, blocks. cbn [length]. destruct nl as [|m]; [reflexivity|]. rewrite Nat.div_0_l, Nat.mod_0_l by lia. reflexivity.
Qed.
Theorem rescue_open nl alph invalph mds c0 cs b s r s' : wf s -> cs <> [] -> rescue nl alph invalph mds c0 cs b s = Ok (r, s') ->
  forall x (y a d : K), sat x s -> exists x', continues s x x' /\ sat x' s' /\ x' (Input (length (inps s))) = y /\ x' (first_var s) = a /\ x' (second_var s) = d.
Proof.
  intros Hw N. unfold rescue. destruct (sponge_hash _ _ b) as [[[xl xr] h]| |]; try discriminate. intro E.
  apply (circuit_open (fun st => st0 <- add_consts st c0 ;; rescue_rounds alph invalph mds 0 cs st0)) with (xl := xl) (xr := xr) (h := h) (r := r); [| |exact Hw|].
  - intro st. keeps_tac; [apply keeps_add_consts|apply keeps_rescue].
  - intros y st s0 Pre Hw0 A0. eapply step_bind; [apply (add_consts_step st c0 s0 _ Hw0 A0)|]. intros st1 s1 E1 Hw1 A1. cbn beta.
    eapply step_conseq; [apply (rescue_rounds_step alph invalph mds y cs 0 st1 s1 (fun _ => True) N Hw1 A1)|..]; cbn beta; auto.
  - rewrite <- E. unfold bind. destruct (alloc (Ok xl) s) as [[v0 s1]| |]; auto. destruct (alloc (Ok xr) s1) as [[v1 s2]| |]; auto. destruct (alloc (Ok 0) s2) as [[v2 s3]| |]; auto.
    destruct (add_consts _ c0 s3) as [[st s4]| |]; auto.
Qed.
Theorem poseidon_open nl alph half mds ark b s r s' : wf s -> ark <> [] -> poseidon nl alph half mds ark b s = Ok (r, s') ->
  forall x (y a d : K), sat x s -> exists x', continues s x x' /\ sat x' s' /\ x' (Input (length (inps s))) = y /\ x' (first_var s) = a /\ x' (second_var s) = d.
Proof.
  intros Hw N. unfold poseidon. destruct (sponge_hash _ _ b) as [[[xl xr] h]| |]; try discriminate. intro E.
  apply (circuit_open (poseidon_rounds alph half mds 0 ark)) with (xl := xl) (xr := xr) (h := h) (r := r); [| |exact Hw|exact E].
  - intro st. apply keeps_poseidon.
  - intros y st s0 Pre Hw0 A0. apply poseidon_rounds_step; assumption.
Qed.
End R.
