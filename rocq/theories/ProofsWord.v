(** Proofs about 32-bit word gadgets. *)
From Verif Require Import Field ModelLC SpecLC ProofsLC ModelCS SpecCS ProofsCS ModelBoolean SpecBoolean ProofsBoolean ModelUint32 SpecUint32 ProofsUint32.
Local Open Scope Z_scope.

Section R.
Variable K : PFld.
Local Open Scope fld_scope.
Add Field Kf : (f_laws K).
Implicit Types (s : cs K) (q : meq K) (x : var -> K).

(** ** More rules for [spec] *)
Lemma spec_sat {A} (m : M K A) s W S H HR : spec m s W S H HR ->
  spec m s (fun s' r => W s' r /\ forall x, sat x s' -> S x r) S H HR.
Proof. unfold spec. destruct (m s) as [[r s']|e|]; intuition. Qed.
Lemma spec_conseq_sat {A} (m : M K A) s (W W' : _ -> _ -> Prop) (S S' : _ -> _ -> Prop) (H H' : Prop) (HR HR' : _ -> _ -> Prop) :
  spec m s W S H HR ->
  (forall r s', ext s s' -> wf s' -> W s' r -> (forall x, sat x s' -> S x r) -> W' s' r) ->
  (forall x r s', ext s s' -> W s' r -> sat x s' -> S x r -> S' x r) ->
  (H' -> H) ->
  (forall r s', ext s s' -> wf s' -> W s' r -> md s = Prove -> self_sat s' -> H' -> S (wit s') r -> HR s' r -> HR' s' r) ->
  spec m s W' S' H' HR'.
Proof.
  unfold spec. intros Sp HW HS HH HHR. destruct (m s) as [[r s']|e|].
  - destruct Sp as (A1 & A2 & A3 & A4 & A5). split; [exact A1|]. split; [exact A2|].
    split; [apply HW; assumption|]. split.
    + intros x Hx. apply (HS x r s'); auto.
    + intros Hp ss h. destruct (A5 Hp ss (HH h)) as [B1 B2]. split; [exact B1|].
      apply (HHR r s'); auto.
  - destruct Sp as [Sp1 Sp2]. split; [exact Sp1|]. intros ss h. exact (Sp2 ss (HH h)).
  - exact Sp.
Qed.
(** Facts about a particular successful run can be added. *)
Lemma spec_run {A} (m : M K A) s (W : _ -> _ -> Prop) S H HR (Q : A -> Prop) : spec m s W S H HR ->
  (forall r s', m s = Ok (r, s') -> Q r) -> spec m s (fun s' r => W s' r /\ Q r) S H HR.
Proof. unfold spec. intros Sp HQ. destruct (m s) as [[r s']|e|]; intuition eauto. Qed.

(** ** Rules for [mspec] *)
Lemma mspec_ret {A} (a : A) s q (W : _ -> _ -> Prop) (S : _ -> _ -> Prop) (H : Prop) (HR : _ -> _ -> Prop) :
  wf s -> q_ok s q -> W s a -> (forall x, sat x s -> S x a) -> (md s = Prove -> self_sat s -> H -> HR s a) ->
  mspec (mret a) (s, q) W S H HR.
Proof.
  intros Hw Hq HW HS HHR. unfold mspec, mret. cbn [fst snd]. split; [apply ext_refl|]. split; [exact Hw|]. split; [exact Hq|].
  split; [exact HW|]. split; [auto|]. intros Hp ss p h. split; [exact ss|]. split; [exact p|]. auto.
Qed.
Lemma mspec_conseq {A} (m : MM K A) w (W W' : _ -> _ -> Prop) (S S' : _ -> _ -> Prop) (H H' : Prop) (HR HR' : _ -> _ -> Prop) :
  mspec m w W S H HR ->
  (forall r s', ext (fst w) s' -> wf s' -> W s' r -> W' s' r) ->
  (forall x r s', ext (fst w) s' -> W s' r -> sat x s' -> S x r -> S' x r) ->
  (H' -> H) ->
  (forall r s', ext (fst w) s' -> wf s' -> W s' r -> md (fst w) = Prove -> self_sat s' -> H' -> S (wit s') r -> HR s' r -> HR' s' r) ->
  mspec m w W' S' H' HR'.
Proof.
  unfold mspec. intros Sp HW HS HH HHR. destruct (m w) as [[r [s' q']]|e|]; cbn [fst snd] in *.
  - destruct Sp as (A1 & A2 & AQ & A3 & A4 & A5). split; [exact A1|]. split; [exact A2|]. split; [exact AQ|].
    split; [apply HW; assumption|]. split.
    + intros x Hx Px. destruct (A4 x Hx Px). split; [assumption|]. apply (HS x r s'); auto.
    + intros Hp ss p h. destruct (A5 Hp ss p (HH h)) as (B1 & B2 & B3). split; [exact B1|]. split; [exact B2|].
      apply (HHR r s'); auto. apply (A4 _ B1 B2).
  - destruct Sp as [Sp1 Sp2]. split; [exact Sp1|]. intros ss p h. exact (Sp2 ss p (HH h)).
  - exact Sp.
Qed.
Lemma mspec_bind {A B} (m : MM K A) (k : A -> MM K B) w W1 S1 (H : Prop) HR1 W2 (S2 : _ -> _ -> Prop) HR2 :
  mspec m w W1 S1 H HR1 ->
  (forall r s' q', ext (fst w) s' -> wf s' -> q_ok s' q' -> W1 s' r ->
     mspec (k r) (s', q') W2 (fun x y => S1 x r -> S2 x y) (H /\ HR1 s' r /\ S1 (wit s') r) HR2) ->
  mspec (mbind m k) w W2 S2 H HR2.
Proof.
  unfold mspec, mbind. intros Sp Hk. destruct (m w) as [[r [s' q']]|e|]; [|exact Sp|exact Sp].
  cbn [fst snd] in *.
  destruct Sp as (A1 & A2 & AQ & A3 & A4 & A5). specialize (Hk r s' q' A1 A2 AQ A3).
  destruct (k r (s', q')) as [[r2 [s2 q2]]|e|]; [| |exact Hk]; cbn [fst snd] in *.
  - destruct Hk as (B1 & B2 & BQ & B3 & B4 & B5). split; [eapply ext_trans; eassumption|].
    split; [exact B2|]. split; [exact BQ|]. split; [exact B3|]. split.
    + intros x Hx Px. destruct (B4 x Hx Px) as [C1 C2]. destruct (A4 x (sat_ext K _ _ _ B1 Hx) C1) as [D1 D2]. auto.
    + intros Hp ss p h. destruct (A5 Hp ss p h) as (C1 & C2 & C3). rewrite <- (ext_md K _ _ A1) in Hp.
      destruct (A4 _ C1 C2) as [_ E2].
      destruct (B5 Hp C1 C2 (conj h (conj C3 E2))) as (D1 & D2 & D3). auto.
  - destruct Hk as [Hp Hn]. rewrite (ext_md K _ _ A1) in Hp. split; [exact Hp|].
    intros ss p h. destruct (A5 Hp ss p h) as (C1 & C2 & C3). destruct (A4 _ C1 C2) as [_ E2]. apply Hn; auto.
Qed.
Lemma q_ok_ext s s' q : ext s s' -> q_ok s q -> q_ok s' q.
Proof.
  intros E (A & B & C & D). split; [|split; [|split; [exact C|]]].
  - eapply Forall_impl; [|exact A]. intros t. apply allocated_ext; exact E.
  - eapply Forall_impl; [|exact B]. intros t. apply allocated_ext; exact E.
  - intros x Hx. apply D. eapply sat_ext; eassumption.
Qed.
Lemma pend_ext s s' q : ext s s' -> q_ok s q -> pend (wit s) q -> pend (wit s') q.
Proof.
  intros E (A & B & _) H. unfold pend in *. rewrite !(eval_wit_ext K s s') by assumption. exact H.
Qed.
Lemma mspec_lift {A} (m : M K A) s q W S H HR : q_ok s q -> spec m s W S H HR -> mspec (lift m) (s, q) W S H HR.
Proof.
  intros Hq Sp. unfold mspec, lift, spec in *. destruct (m s) as [[r s']|e|]; cbn [fst snd]; [| |exact Sp].
  - destruct Sp as (A1 & A2 & A3 & A4 & A5). split; [exact A1|]. split; [exact A2|].
    split; [eapply q_ok_ext; eassumption|]. split; [exact A3|]. split; [auto|].
    intros Hp ss p h. destruct (A5 Hp ss h). split; [assumption|]. split; [eapply pend_ext; eassumption|assumption].
  - destruct Sp as [A1 A2]. split; [exact A1|]. auto.
Qed.
Lemma q_ok_new s : wf s -> q_ok s meq_new.
Proof.
  intro Hw. split; [constructor|]. split; [constructor|]. split; [apply capacity_pos|].
  intros x _. apply (qx_new K x).
Qed.
Lemma wf_acc s q : wf s -> q_ok s q -> wf (acc_cs K s q).
Proof.
  intros Hw (A & B & _). destruct Hw as [H1 H2]. split; [exact H1|]. cbn [acc_cs cons]. apply Forall_app. split; [exact H2|].
  constructor; [|constructor]. split; [exact A|]. split; [|exact B]. cbn [cb].
  apply vars_add_var; [apply vars_zero|]. apply (one_allocated K s). split; assumption.
Qed.
Lemma ext_acc s q : ext s (acc_cs K s q).
Proof. repeat split; cbn [inps auxs cons acc_cs]; [exists []; rewrite app_nil_r; reflexivity|exists []; rewrite app_nil_r; reflexivity|eexists; reflexivity]. Qed.
Lemma acc_wit s q : wit (acc_cs K s q) = wit s. Proof. reflexivity. Qed.
Lemma push_ok s q n l r : q_ok s q -> (Z.of_nat (qbits q + n) <= capacity K)%Z ->
  vars_in K (allocated s) l -> vars_in K (allocated s) r ->
  (forall x, sat x s -> in_width x n l /\ in_width x n r) -> q_ok s (push_q K q n l r).
Proof.
  intros (A & B & C & D) HC Vl Vr HW. split; [|split; [|split; [exact HC|]]].
  - apply (vars_add_scaled K); assumption.
  - apply (vars_add_scaled K); assumption.
  - intros x Hx. destruct (HW x Hx), (D x Hx). destruct (push_qx K x q n l r) as [(_ & E) _]; auto. split; auto.
Qed.
Lemma mspec_enforce_equal n l r s q : wf s -> q_ok s q -> (Z.of_nat n < capacity K)%Z ->
  vars_in K (allocated s) l -> vars_in K (allocated s) r ->
  (forall x, sat x s -> in_width x n l /\ in_width x n r) ->
  mspec (meq_enforce_equal n l r) (s, q) (fun _ _ => True) (fun x _ => eval x l = eval x r)
    (eval (wit s) l = eval (wit s) r) (fun _ _ => True).
Proof.
  intros Hw Hq Hn Vl Vr HW. unfold mspec. pose proof (meq_step K n l r s q) as St.
  destruct (meq_enforce_equal n l r (s, q)) as [[[] [s' q']]|e|] eqn:E; [|contradiction|lia]. cbn [fst snd].
  assert (forall x, sat x s -> qx K x q) as QX. { intros x Hx. destruct Hq as (_ & _ & C & D). split; [exact C|]. apply D; exact Hx. }
  assert (forall x, sat x s -> qx K x q' /\ ((sat x s' /\ pend x q') <-> (sat x s /\ pend x q) /\ eval x l = eval x r)) as X.
  { intros x Hx. destruct (HW x Hx). apply (meq_step_x K x n l r s q); auto. apply Hx. }
  assert (wit s' = wit s /\ ext s s' /\ wf s' /\ q_ok s' q') as (Ew & Ex & Hw' & Hq').
  { destruct St as [_ [(-> & -> & Hc)|(-> & ->)]].
    - split; [reflexivity|]. split; [apply ext_refl|]. split; [exact Hw|]. apply push_ok; auto. lia.
    - split; [reflexivity|]. split; [apply ext_acc|]. split; [apply wf_acc; assumption|].
      apply q_ok_ext with s; [apply ext_acc|]. apply push_ok; auto; [apply q_ok_new; exact Hw|cbn; lia]. }
  split; [exact Ex|]. split; [exact Hw'|]. split; [exact Hq'|]. split; [exact I|]. split.
  - intros x Hx Px. destruct (X x (sat_ext K _ _ _ Ex Hx)) as [_ Y]. destruct (proj1 Y (conj Hx Px)) as [[_ Y1] Y2]. auto.
  - intros _ ss p h. destruct (X (wit s) ss) as [_ Y]. destruct (proj2 Y (conj (conj ss p) h)) as [Y1 Y2].
    unfold self_sat. rewrite Ew. auto.
Qed.
Lemma spec_with_multieq {A} (m : MM K A) s (W : _ -> _ -> Prop) S H (HR : _ -> _ -> Prop) : wf s ->
  mspec m (s, meq_new) W S H HR ->
  (forall s t r, ext s t -> wf t -> W s r -> W t r) ->
  (forall s t r, ext s t -> wf s -> wf t -> W s r -> HR s r -> HR t r) ->
  spec (with_multieq m) s W S H HR.
Proof.
  intros Hw Sp MW MH. unfold spec, with_multieq, mbind, mspec in *.
  destruct (m (s, meq_new)) as [[r [s' q']]|e|]; [| |exact Sp]; cbn [fst snd] in Sp.
  - destruct Sp as (A1 & A2 & AQ & A3 & A4 & A5).
    destruct (meq_drop (s', q')) as [[[] [s2 q2]]|e|] eqn:E.
    2,3: exfalso; unfold meq_drop in E; cbn [snd] in E; destruct (Nat.ltb _ _); discriminate E.
    assert (wit s2 = wit s' /\ ext s' s2 /\ wf s2) as (Ew & Ex & Hw').
    { unfold meq_drop in E. cbn [snd] in E. destruct (Nat.ltb 0 (qbits q')).
      - unfold meq_accumulate, enforce in E. injection E as <- <-. split; [reflexivity|].
        split; [apply (ext_acc s' q')|apply (wf_acc s' q'); assumption].
      - injection E as <- <-. split; [reflexivity|]. split; [apply ext_refl|exact A2]. }
    assert (forall x, sat x s' -> (sat x s2 <-> sat x s' /\ pend x q')) as X.
    { intros x Hx. apply (drop_x K x s' q' s2 q2 E); [apply Hx|]. destruct AQ as (_ & _ & C & D). split; [exact C|]. apply D; exact Hx. }
    unfold mret. split; [eapply ext_trans; eassumption|]. split; [exact Hw'|]. split; [eapply MW; eassumption|]. split.
    + intros x Hx. pose proof (sat_ext K _ _ _ Ex Hx) as Hx'. apply (X x Hx') in Hx. apply A4; tauto.
    + intros Hp ss h. destruct (A5 Hp ss (pend_new K _) h) as (B1 & B2 & B3). split; [|eapply MH; eassumption].
      unfold self_sat. rewrite Ew. apply X; auto.
  - destruct Sp as [Hp Hn]. split; [exact Hp|]. intros ss. apply Hn; [exact ss|apply pend_new].
Qed.

(** ** Booleans as truth values *)
Lemma means_btrue x b t : means x b t -> btrue x b = t.
Proof.
  unfold means, btrue. intros ->. destruct t; [apply feqb_refl|]. apply feqb_neq.
  intro C. symmetry in C. exact (f_1_neq_0 K C).
Qed.
Lemma btrue_means x b : (exists t, means x b t) -> means x b (btrue x b).
Proof. intros [t H]. rewrite (means_btrue x b t H). exact H. Qed.
Lemma btrue_const x c : btrue x (BConst c) = c.
Proof. apply means_btrue. destruct c; reflexivity. Qed.
Lemma bool_in_const s c : bool_in s (BConst c).
Proof. split; [exact I|]. intros x _. exists c. destruct c; reflexivity. Qed.
Lemma bool_in_ext s s' b : ext s s' -> bool_in s b -> bool_in s' b.
Proof.
  intros E [A B]. split; [eapply bit_alloc_ext; eassumption|]. intros x Hx. apply B. eapply sat_ext; eassumption.
Qed.
Lemma btrue_wit_ext s s' b : ext s s' -> b_alloc_in s b -> btrue (wit s') b = btrue (wit s) b.
Proof. intros E A. unfold btrue. rewrite (bden_ext K s s') by assumption. reflexivity. Qed.
Lemma bool_in_not s b : bool_in s b -> bool_in s (b_not b).
Proof.
  intros [A B]. split; [apply b_not_alloc, A|]. intros x Hx. destruct (B x Hx) as [t Ht]. exists (negb t). apply means_not, Ht.
Qed.
Lemma btrue_not x b : (exists t, means x b t) -> btrue x (b_not b) = negb (btrue x b).
Proof. intros [t H]. rewrite (means_btrue x b t H). apply means_btrue, means_not, H. Qed.

(** Gates on booleans known to be bits. *)
Lemma gate2_bool (f : bool -> bool -> bool) (m : M K boolean) a b s :
  bool_in s a -> bool_in s b ->
  bspec K m s (gate2 K f a b) (b_honest s a /\ b_honest s b) ->
  spec m s bool_in (fun x r => btrue x r = f (btrue x a) (btrue x b)) (b_honest s a /\ b_honest s b) b_honest.
Proof.
  intros [Aa Ba] [Ab Bb] Sp.
  assert (forall x s', ext s s' -> sat x s' -> forall r, gate2 K f a b x r -> means x r (f (btrue x a) (btrue x b))) as G.
  { intros x s' E Hx r Hr. pose proof (sat_ext K _ _ _ E Hx) as Hs. apply Hr; apply btrue_means; auto. }
  eapply spec_conseq_sat; [exact Sp|..]; auto.
  - intros r s' E Hw' A HS. split; [exact A|]. intros x Hx. eexists. eapply G; eauto.
  - intros x r s' E A Hx HS. apply means_btrue. eapply G; eauto.
Qed.
Lemma gate3_bool (f : bool -> bool -> bool -> bool) (m : M K boolean) a b c s :
  bool_in s a -> bool_in s b -> bool_in s c ->
  bspec K m s (gate3 K f a b c) (b_honest s a /\ b_honest s b /\ b_honest s c) ->
  spec m s bool_in (fun x r => btrue x r = f (btrue x a) (btrue x b) (btrue x c)) (b_honest s a /\ b_honest s b /\ b_honest s c) b_honest.
Proof.
  intros [Aa Ba] [Ab Bb] [Ac Bc] Sp.
  assert (forall x s', ext s s' -> sat x s' -> forall r, gate3 K f a b c x r -> means x r (f (btrue x a) (btrue x b) (btrue x c))) as G.
  { intros x s' E Hx r Hr. pose proof (sat_ext K _ _ _ E Hx) as Hs. apply Hr; apply btrue_means; auto. }
  eapply spec_conseq_sat; [exact Sp|..]; auto.
  - intros r s' E Hw' A HS. split; [exact A|]. intros x Hx. eexists. eapply G; eauto.
  - intros x r s' E A Hx HS. apply means_btrue. eapply G; eauto.
Qed.

(** Constant results agree with every reading of the operands compatible with their constants. *)
Definition kc (b : boolean) (t : bool) : Prop := forall c, b = BConst c -> t = c.
Ltac run_inv E :=
  unfold bind, ret, alloc, alloc_input, enforce, if_called, fail, panic in E;
  repeat match type of E with
  | context [match md ?s with _ => _ end] => destruct (md s)
  | context [match bit_witness ?v with _ => _ end] => destruct (bit_witness v)
  end; try discriminate E; try (injection E as <- <-).
Lemma b_xor_const a b s r s' : b_xor a b s = Ok (r, s') -> forall ta tb, kc a ta -> kc b tb -> kc r (xorb ta tb).
Proof.
  intros E ta tb Ka Kb c Ec. subst r.
  destruct a as [a|a|[|]], b as [b|b|[|]]; unfold b_xor, bit_xor in E; run_inv E;
    try discriminate E; try (injection E as E1 E2); 
    repeat match goal with H : kc (BConst ?c) ?t |- _ => specialize (H c eq_refl); subst end; cbn in *; try congruence.
Qed.
Lemma b_and_const a b s r s' : b_and a b s = Ok (r, s') -> forall ta tb, kc a ta -> kc b tb -> kc r (andb ta tb).
Proof.
  intros E ta tb Ka Kb c Ec. subst r.
  destruct a as [a|a|[|]], b as [b|b|[|]]; unfold b_and, bit_and, bit_and_not, bit_nor in E; run_inv E;
    try discriminate E; try (injection E as E1 E2); 
    repeat match goal with H : kc (BConst ?c) ?t |- _ => specialize (H c eq_refl); subst end; cbn in *; try congruence;
    rewrite ?andb_false_r; congruence.
Qed.
Lemma kc_c c : kc (BConst c) c.
Proof. intros d E. congruence. Qed.
Lemma kc_not b t : kc b t -> kc (b_not b) (negb t).
Proof. intros H c E. destruct b as [b|b|d]; cbn in E; try discriminate E. injection E as <-. rewrite (H d eq_refl). reflexivity. Qed.
Lemma kc_not_inv b t : kc (b_not b) (negb t) -> kc b t.
Proof. intros H c ->. cbn in H. specialize (H _ eq_refl). destruct t, c; cbn in *; congruence. Qed.
Lemma bind_and_const a b (k : boolean -> boolean) s r s' : (r0 <- b_and a b ;; ret (k r0)) s = Ok (r, s') -> exists r0 s0, b_and a b s = Ok (r0, s0) /\ r = k r0.
Proof. unfold bind, ret. destruct (b_and a b s) as [[r0 s0]|e|]; intro E; try discriminate E. injection E as <- <-. eauto. Qed.
Lemma b_ch_const a b c s r s' : b_ch a b c s = Ok (r, s') ->
  forall ta tb tc, kc a ta -> kc b tb -> kc c tc -> kc r (ch_b ta tb tc).
Proof.
  intros E ta tb tc Ka Kb Kc.
  assert (forall y z ty tz, b_and y z s = Ok (r, s') -> kc y ty -> kc z tz -> andb ty tz = ch_b ta tb tc -> kc r (ch_b ta tb tc)) as A.
  { intros y z ty tz E' Hy Hz <-. eapply b_and_const; eassumption. }
  assert (forall y z ty tz, (r0 <- b_and y z ;; ret (b_not r0)) s = Ok (r, s') -> kc y ty -> kc z tz -> negb (andb ty tz) = ch_b ta tb tc -> kc r (ch_b ta tb tc)) as B.
  { intros y z ty tz E' Hy Hz <-. apply bind_and_const in E'. destruct E' as (r0 & s0 & E0 & ->). apply kc_not. eapply b_and_const; eassumption. }
  unfold ch_b in *.
  destruct a as [a|a|[|]], b as [b|b|[|]], c as [c|c|[|]]; cbn [b_ch] in E;
    repeat match goal with H : kc (BConst ?c) ?t |- _ => pose proof (H c eq_refl); subst t; clear H end;
    try (apply (A _ _ (negb ta) tc E); [apply kc_not; assumption|assumption|destruct ta, tc; reflexivity]);
    try (apply (A _ _ ta tb E); [assumption|assumption|destruct ta, tb; reflexivity]);
    try (apply (B _ _ ta (negb tb) E); [assumption|apply kc_not; assumption|destruct ta, tb; reflexivity]);
    try (apply (B _ _ (negb ta) (negb tc) E); [apply kc_not; assumption|apply kc_not; assumption|destruct ta, tc; reflexivity]);
    run_inv E; try discriminate E;
    try (intros ? Ec; discriminate Ec);
    try (intros ? Ec; injection Ec as <-; repeat match goal with t : bool |- _ => destruct t end; reflexivity);
    try (repeat match goal with t : bool |- _ => destruct t end; assumption).
Qed.
Ltac ktac := solve [assumption | apply kc_c | apply kc_not; (assumption || apply kc_c)].
Lemma b_maj_const a b c s r s' : b_maj a b c s = Ok (r, s') ->
  forall ta tb tc, kc a ta -> kc b tb -> kc c tc -> kc r (maj_b ta tb tc).
Proof.
  intros E ta tb tc Ka Kb Kc.
  assert (forall y z ty tz, b_and y z s = Ok (r, s') -> kc y ty -> kc z tz -> andb ty tz = maj_b ta tb tc -> kc r (maj_b ta tb tc)) as A.
  { intros y z ty tz E' Hy Hz <-. eapply b_and_const; eassumption. }
  assert (forall y z ty tz, (r0 <- b_and y z ;; ret (b_not r0)) s = Ok (r, s') -> kc y ty -> kc z tz -> negb (andb ty tz) = maj_b ta tb tc -> kc r (maj_b ta tb tc)) as B.
  { intros y z ty tz E' Hy Hz <-. apply bind_and_const in E'. destruct E' as (r0 & s0 & E0 & ->). apply kc_not. eapply b_and_const; eassumption. }
  unfold maj_b in *.
  destruct a as [a|a|[|]], b as [b|b|[|]], c as [c|c|[|]]; cbn [b_maj] in E;
    repeat match goal with H : kc (BConst ?c) ?t |- _ => lazymatch goal with _ : t = c |- _ => fail | _ => pose proof (H c eq_refl) end end;
    try (apply (A _ _ tb tc E); [ktac|ktac|destruct ta, tb, tc; cbn in *; try reflexivity; congruence]);
    try (apply (A _ _ ta tc E); [ktac|ktac|destruct ta, tb, tc; cbn in *; try reflexivity; congruence]);
    try (apply (A _ _ ta tb E); [ktac|ktac|destruct ta, tb, tc; cbn in *; try reflexivity; congruence]);
    try (apply (B _ _ (negb tb) (negb tc) E); [ktac|ktac|destruct ta, tb, tc; cbn in *; try reflexivity; congruence]);
    try (apply (B _ _ (negb ta) (negb tc) E); [ktac|ktac|destruct ta, tb, tc; cbn in *; try reflexivity; congruence]);
    try (apply (B _ _ (negb ta) (negb tb) E); [ktac|ktac|destruct ta, tb, tc; cbn in *; try reflexivity; congruence]);
    unfold bind, alloc in E;
    repeat match type of E with
    | context [match md ?s with _ => _ end] => destruct (md s)
    | context [match bit_witness ?v with _ => _ end] => destruct (bit_witness v)
    | context [match b_and ?y ?z ?t with _ => _ end] => destruct (b_and y z t) as [[? ?]|?|]
    end; try discriminate E; unfold ret, enforce in E; try (injection E as <- <-);
    try (intros ? Ec; discriminate Ec);
    try (intros ? Ec; injection Ec as <-; subst; repeat match goal with t : bool |- _ => destruct t end; reflexivity);
    try (subst; repeat match goal with t : bool |- _ => destruct t end; assumption).
Qed.

(** ** Words *)
Local Open Scope Z_scope.
Lemma bits32_length v : length (bits32 v) = 32%nat.
Proof. unfold bits32. rewrite map_length, seq_length. reflexivity. Qed.
Lemma Z_of_bits32 v : 0 <= v < 2 ^ 32 -> Z_of_bits (bits32 v) = v.
Proof. intro H. apply (Z_of_bits_of 32). exact H. Qed.
Lemma bits32_nth v i : (i < 32)%nat -> nth_error (bits32 v) i = Some (Z.testbit v (Z.of_nat i)).
Proof.
  intro H. unfold bits32. rewrite nth_error_map. rewrite (nth_error_nth' (seq 0 32) 0%nat) by (rewrite seq_length; exact H).
  rewrite seq_nth by exact H. reflexivity.
Qed.
Lemma bsval_range x bs : 0 <= bsval x bs < 2 ^ Z.of_nat (length bs).
Proof. unfold bsval. pose proof (Z_of_bits_range (map (btrue x) bs)) as R. rewrite map_length in R. exact R. Qed.
Lemma wval_range s x u : word_in s u -> 0 <= wval x u < 2 ^ 32.
Proof. intros (L & _). unfold wval. pose proof (bsval_range x (ubits u)) as R. rewrite L in R. exact R. Qed.
Lemma word_in_ext s s' u : ext s s' -> word_in s u -> word_in s' u.
Proof. intros E (A & B & C). split; [exact A|]. split; [|exact C]. eapply Forall_impl; [|exact B]. intro b. apply bool_in_ext, E. Qed.
Lemma bsval_wit_ext s s' bs : ext s s' -> Forall (b_alloc_in s) bs -> bsval (wit s') bs = bsval (wit s) bs.
Proof.
  intros E H. unfold bsval. f_equal. apply map_ext_in. intros b I. rewrite Forall_forall in H.
  apply btrue_wit_ext; auto.
Qed.
Lemma bool_ins_alloc s bs : Forall (bool_in s) bs -> Forall (b_alloc_in s) bs.
Proof. apply Forall_impl. intros b [A _]. exact A. Qed.
Lemma wval_wit_ext s s' u : ext s s' -> word_in s u -> wval (wit s') u = wval (wit s) u.
Proof. intros E (_ & B & _). apply bsval_wit_ext; [exact E|apply bool_ins_alloc, B]. Qed.
Lemma honests_ext s s' bs : ext s s' -> Forall (bool_in s) bs -> Forall (b_honest s) bs -> Forall (b_honest s') bs.
Proof.
  intros E A H. rewrite Forall_forall in *. intros b I. eapply b_honest_ext; [exact E|apply A, I|apply H, I].
Qed.
Lemma word_honest_ext s s' u : ext s s' -> word_in s u -> word_honest s u -> word_honest s' u.
Proof.
  intros E W [H1 H2]. split; [eapply honests_ext; [exact E|apply W|exact H1]|].
  rewrite (wval_wit_ext s s') by assumption. exact H2.
Qed.
Lemma wval_constant x v : 0 <= v < 2 ^ 32 -> wval x (u32_constant v) = v.
Proof.
  intro H. unfold wval, bsval, u32_constant. cbn [ubits]. rewrite map_map.
  rewrite (map_ext _ (fun b => b)) by (intro; apply btrue_const). rewrite map_id. apply Z_of_bits32, H.
Qed.
Lemma b_honest_c s c : b_honest s (BConst c). Proof. apply b_honest_const. Qed.
Lemma constant_in s v : 0 <= v < 2 ^ 32 -> word_in s (u32_constant v) /\ word_honest s (u32_constant v).
Proof.
  intro H. split.
  - split; [cbn [ubits u32_constant]; rewrite map_length; apply bits32_length|]. split.
    + apply Forall_map. apply Forall_forall. intros c _. apply bool_in_const.
    + cbn [uval u32_constant ubits]. intros w E. injection E as <-. split; [exact H|]. intros i c.
      rewrite nth_error_map. intro E.
      assert (i < 32)%nat as Hi. { rewrite <- (bits32_length v). apply nth_error_Some. intro N. rewrite N in E. discriminate E. }
      rewrite (bits32_nth v i Hi) in E. cbn in E. congruence.
  - split.
    + cbn [ubits u32_constant]. apply Forall_map. apply Forall_forall. intros c _. apply b_honest_c.
    + rewrite wval_constant by exact H. reflexivity.
Qed.

Lemma Forall2_len {A B} (P : A -> B -> Prop) l m : Forall2 P l m -> length l = length m.
Proof. intro H. induction H; cbn; congruence. Qed.
Lemma Forall2_weak {A B} (P Q : A -> B -> Prop) l m : (forall a b, P a b -> Q a b) -> Forall2 P l m -> Forall2 Q l m.
Proof. intros HI H. induction H; constructor; auto. Qed.
Lemma Forall2_map_l {A B} (f : A -> B) l rs (g : boolean -> B) : Forall2 (fun a r => g r = f a) l rs -> map g rs = map f l.
Proof. intro H. induction H; cbn; congruence. Qed.
Lemma Forall_combine {A B} (P : A -> Prop) (Q : B -> Prop) l m : Forall P l -> Forall Q m ->
  Forall (fun '(a, b) => P a /\ Q b) (combine l m).
Proof.
  intros H. revert m. induction H as [|a l Ha Hl IH]; intros m Hm; cbn; [constructor|].
  destruct Hm as [|b m Hb Hm]; constructor; auto.
Qed.
Lemma Forall2_r {A} (P : boolean -> Prop) (l : list A) rs : Forall2 (fun _ r => P r) l rs -> Forall P rs.
Proof. intro H. induction H; constructor; auto. Qed.
Lemma map_combine {A B C D} (f : A -> B) (g : C -> D) l m :
  combine (map f l) (map g m) = map (fun '(x, y) => (f x, g y)) (combine l m).
Proof. revert m. induction l as [|x l IH]; intros [|y m]; cbn; try reflexivity. rewrite IH. reflexivity. Qed.
Lemma Forall2_nth {A B} (P : A -> B -> Prop) l m i b : Forall2 P l m -> nth_error m i = Some b ->
  exists a, nth_error l i = Some a /\ P a b.
Proof.
  intro H. revert i. induction H as [|a b0 l m H1 H2 IH]; intros [|i] E; cbn in *; try discriminate.
  - injection E as <-. eauto.
  - apply IH, E.
Qed.
Lemma nth_error_combine {A B} (l : list A) (m : list B) i a b :
  nth_error (combine l m) i = Some (a, b) -> nth_error l i = Some a /\ nth_error m i = Some b.
Proof.
  revert m i. induction l as [|x l IH]; intros [|y m] [|i] E; cbn in *; try discriminate; auto.
  injection E as <- <-. auto.
Qed.
(** What a word's cache says about one of its bits. *)
Lemma word_kc s u v i b : word_in s u -> uval u = Some v -> nth_error (ubits u) i = Some b -> kc b (Z.testbit v (Z.of_nat i)).
Proof. intros (_ & _ & C) Ev Ei c ->. apply (C v Ev). exact Ei. Qed.

(** xor *)
Lemma u32_xor_spec a b s : wf s -> word_in s a -> word_in s b ->
  spec (u32_xor a b) s word_in (fun x r => wval x r = Z.lxor (wval x a) (wval x b))
    (word_honest s a /\ word_honest s b) word_honest.
Proof.
  intros Hw Wa Wb. pose proof Wa as (La & Ba & _). pose proof Wb as (Lb & Bb & _).
  unfold u32_xor. eapply spec_bind.
  { eapply spec_conseq; [apply (spec_mapM K (fun '(p, r) => b_xor p r) (combine (ubits a) (ubits b)) s
      (fun t '(p, r) o => bool_in t o /\ forall tp tr, kc p tp -> kc r tr -> kc o (xorb tp tr))
      (fun x '(p, r) o => btrue x o = xorb (btrue x p) (btrue x r))
      (fun '(p, r) t => (bool_in t p /\ bool_in t r) /\ b_honest t p /\ b_honest t r)
      (fun t '(p, r) o => b_honest t o) Hw)|..].
    - intros t t' [p r] o E [h1 h2]. split; [eapply bool_in_ext; eassumption|exact h2].
    - intros t t' [p r] o E _ _ [h _]. apply b_honest_ext; [exact E|apply h].
    - intros t t' [p r] E [[h1 h2] [h3 h4]].
      split; [split; eapply bool_in_ext; eassumption|]. split; [apply (b_honest_ext K t t' p E (proj1 h1) h3)|apply (b_honest_ext K t t' r E (proj1 h2) h4)].
    - intros [p r] s' I E Hw'. cbn beta iota.
      pose proof (Forall_combine _ _ _ _ Ba Bb) as F. rewrite Forall_forall in F. destruct (F _ I) as [Bp Br].
      apply (bool_in_ext s s') in Bp; [|exact E]. apply (bool_in_ext s s') in Br; [|exact E].
      eapply spec_conseq; [apply spec_run with (Q := fun o => forall tp tr, kc p tp -> kc r tr -> kc o (xorb tp tr));
        [apply (gate2_bool xorb _ p r s' Bp Br); apply b_xor_spec; [exact Hw'|apply Bp|apply Br]|]|..].
      + intros o t E1 tp tr. eapply b_xor_const. exact E1.
      + intros o t _ _ h. exact h.
      + intros x o t _ _ _ h. exact h.
      + intros [_ h]. exact h.
      + intros o t _ _ _ _ _ _ h. exact h.
    - intros rs t _ _ h. exact h.
    - intros x rs t _ _ _ h. exact h.
    - intros [[Ha _] [Hb _]] [p r] I.
      pose proof (Forall_combine _ _ _ _ Ba Bb) as F. rewrite Forall_forall in F. destruct (F _ I) as [Bp Br].
      pose proof (Forall_combine _ _ _ _ Ha Hb) as F2. rewrite Forall_forall in F2. destruct (F2 _ I) as [Hp Hr]. auto.
    - intros rs t _ _ _ _ _ _ h. exact h. }
  intros rs s1 E1 Hw1 HW. cbn beta in HW.
  assert (length rs = 32%nat) as Lr. { apply Forall2_len in HW. rewrite combine_length in HW. lia. }
  assert (Forall (bool_in s1) rs) as Br.
  { apply (Forall2_r _ (combine (ubits a) (ubits b))). eapply Forall2_weak; [|exact HW]. intros [p r] o [h _]. exact h. }
  assert (forall x, Forall2 (fun '(p, r) o => btrue x o = xorb (btrue x p) (btrue x r)) (combine (ubits a) (ubits b)) rs ->
    bsval x rs = Z.lxor (wval x a) (wval x b)) as V.
  { intros x HS. unfold bsval, wval, bsval.
    rewrite (Forall2_map_l (fun '(p, r) => xorb (btrue x p) (btrue x r)) (combine (ubits a) (ubits b)) rs (btrue x)).
    2: { eapply Forall2_weak; [|exact HS]. intros [p r] o h; exact h. }
    rewrite <- (Z_of_bits_map2 xorb Z.lxor); [|intros; apply Z.lxor_spec|reflexivity|rewrite !map_length; lia].
    rewrite map_combine, map_map. f_equal. apply map_ext. intros [p r]. reflexivity. }
  apply spec_ret; [exact Hw1| | |].
  - split; [exact Lr|]. split; [exact Br|]. cbn [uval ubits]. intros v Ev.
    destruct (uval a) as [va|] eqn:Eva; [|discriminate Ev]. destruct (uval b) as [vb|] eqn:Evb; [|discriminate Ev].
    cbn in Ev. injection Ev as <-. destruct Wa as (_ & _ & Ca). destruct Wb as (_ & _ & Cb).
    destruct (Ca va Eva) as [Ra Ka]. destruct (Cb vb Evb) as [Rb Kb]. split.
    + rewrite <- (Z_of_bits32 va Ra), <- (Z_of_bits32 vb Rb).
      rewrite <- (Z_of_bits_map2 xorb Z.lxor); [|intros; apply Z.lxor_spec|reflexivity|rewrite !bits32_length; reflexivity].
      match goal with |- 0 <= Z_of_bits ?l < _ => pose proof (Z_of_bits_range l) as R end.
      rewrite map_length, combine_length, !bits32_length in R. exact R.
    + intros i c Ei. destruct (Forall2_nth _ _ _ _ _ HW Ei) as ([p r] & Ep & [_ Hk]).
      apply nth_error_combine in Ep. destruct Ep as [Ep Er]. rewrite Z.lxor_spec. apply (Hk (Z.testbit va (Z.of_nat i)) (Z.testbit vb (Z.of_nat i))); [| |reflexivity].
      * intros d ->. apply Ka, Ep.
      * intros d ->. apply Kb, Er.
  - intros x _ HS. apply V, HS.
  - intros _ ([Ha Hb] & HR & HS). split.
    + cbn [ubits]. apply (Forall2_r _ (combine (ubits a) (ubits b))). eapply Forall2_weak; [|exact HR]. intros [p r] o h; exact h.
    + destruct Ha as [_ ->], Hb as [_ ->]. cbn [uval zlift2 zlift3]. f_equal. symmetry. etransitivity; [exact (V _ HS)|].
      rewrite !(wval_wit_ext s s1) by assumption. reflexivity.
Qed.

(** ternary operations *)
Lemma u32_triop_spec (f : bool -> bool -> bool -> bool) (F : Z -> Z -> Z -> Z) (g : boolean -> boolean -> boolean -> M K boolean) a b c s :
  (forall u v w i, 0 <= i < 32 -> Z.testbit (F u v w) i = f (Z.testbit u i) (Z.testbit v i) (Z.testbit w i)) ->
  (forall u v w, 0 <= u < 2 ^ 32 -> 0 <= v < 2 ^ 32 -> 0 <= w < 2 ^ 32 -> 0 <= F u v w < 2 ^ 32) ->
  (forall a b c s, wf s -> b_alloc_in s a -> b_alloc_in s b -> b_alloc_in s c ->
     bspec K (g a b c) s (gate3 K f a b c) (b_honest s a /\ b_honest s b /\ b_honest s c)) ->
  (forall a b c s r s', g a b c s = Ok (r, s') -> forall ta tb tc, kc a ta -> kc b tb -> kc c tc -> kc r (f ta tb tc)) ->
  wf s -> word_in s a -> word_in s b -> word_in s c ->
  spec (u32_triop F g a b c) s word_in (fun x r => wval x r = F (wval x a) (wval x b) (wval x c))
    (word_honest s a /\ word_honest s b /\ word_honest s c) word_honest.
Proof.
  intros HF HR0 Hg Hgk Hw Wa Wb Wc. pose proof Wa as (La & Ba & _). pose proof Wb as (Lb & Bb & _). pose proof Wc as (Lc & Bc & _).
  pose proof (Forall_combine _ _ _ _ (Forall_combine _ _ _ _ Ba Bb) Bc) as FA. rewrite Forall_forall in FA.
  unfold u32_triop. eapply spec_bind.
  { eapply spec_conseq; [apply (spec_mapM K (fun '(p, r, u) => g p r u) (combine (combine (ubits a) (ubits b)) (ubits c)) s
      (fun t '(p, r, u) o => bool_in t o /\ forall tp tr tu, kc p tp -> kc r tr -> kc u tu -> kc o (f tp tr tu))
      (fun x '(p, r, u) o => btrue x o = f (btrue x p) (btrue x r) (btrue x u))
      (fun '(p, r, u) t => (bool_in t p /\ bool_in t r /\ bool_in t u) /\ b_honest t p /\ b_honest t r /\ b_honest t u)
      (fun t '(p, r, u) o => b_honest t o) Hw)|..].
    - intros t t' [[p r] u] o E [h1 h2]. split; [eapply bool_in_ext; eassumption|exact h2].
    - intros t t' [[p r] u] o E _ _ [h _]. apply b_honest_ext; [exact E|apply h].
    - intros t t' [[p r] u] E [(h1 & h2 & h3) (h4 & h5 & h6)].
      split; [split; [|split]; eapply bool_in_ext; eassumption|].
      split; [apply (b_honest_ext K t t' p E (proj1 h1) h4)|]. split; [apply (b_honest_ext K t t' r E (proj1 h2) h5)|apply (b_honest_ext K t t' u E (proj1 h3) h6)].
    - intros [[p r] u] s' I E Hw'. cbn beta iota.
      destruct (FA _ I) as [[Bp Br] Bu].
      apply (bool_in_ext s s') in Bp; [|exact E]. apply (bool_in_ext s s') in Br; [|exact E]. apply (bool_in_ext s s') in Bu; [|exact E].
      eapply spec_conseq; [apply spec_run with (Q := fun o => forall tp tr tu, kc p tp -> kc r tr -> kc u tu -> kc o (f tp tr tu));
        [apply (gate3_bool f _ p r u s' Bp Br Bu); apply Hg; [exact Hw'|apply Bp|apply Br|apply Bu]|]|..].
      + intros o t E1 tp tr tu. eapply Hgk. exact E1.
      + intros o t _ _ h. exact h.
      + intros x o t _ _ _ h. exact h.
      + intros [_ h]. exact h.
      + intros o t _ _ _ _ _ _ h. exact h.
    - intros rs t _ _ h. exact h.
    - intros x rs t _ _ _ h. exact h.
    - intros ([Ha _] & [Hb _] & [Hc _]) [[p r] u] I.
      destruct (FA _ I) as [[Bp Br] Bu].
      pose proof (Forall_combine _ _ _ _ (Forall_combine _ _ _ _ Ha Hb) Hc) as F2. rewrite Forall_forall in F2. destruct (F2 _ I) as [[Hp Hr] Hu]. auto 10.
    - intros rs t _ _ _ _ _ _ h. exact h. }
  intros rs s1 E1 Hw1 HW. cbn beta in HW.
  assert (length rs = 32%nat) as Lr. { apply Forall2_len in HW. rewrite !combine_length in HW. lia. }
  assert (Forall (bool_in s1) rs) as Br.
  { apply (Forall2_r _ (combine (combine (ubits a) (ubits b)) (ubits c))). eapply Forall2_weak; [|exact HW]. intros [[p r] u] o [h _]. exact h. }
  assert (forall x, Forall2 (fun '(p, r, u) o => btrue x o = f (btrue x p) (btrue x r) (btrue x u)) (combine (combine (ubits a) (ubits b)) (ubits c)) rs ->
    bsval x rs = F (wval x a) (wval x b) (wval x c)) as V.
  { intros x HS. unfold bsval, wval, bsval.
    rewrite (Forall2_map_l (fun '(p, r, u) => f (btrue x p) (btrue x r) (btrue x u)) (combine (combine (ubits a) (ubits b)) (ubits c)) rs (btrue x)).
    2: { eapply Forall2_weak; [|exact HS]. intros [[p r] u] o h; exact h. }
    rewrite <- (Z_of_bits_map3 f F); [|exact HF|exact HR0|rewrite map_length; lia..].
    rewrite !map_combine, map_map. f_equal. apply map_ext. intros [[p r] u]. reflexivity. }
  apply spec_ret; [exact Hw1| | |].
  - split; [exact Lr|]. split; [exact Br|]. cbn [uval ubits]. intros v Ev.
    destruct (uval a) as [va|] eqn:Eva; [|discriminate Ev]. destruct (uval b) as [vb|] eqn:Evb; [|discriminate Ev].
    destruct (uval c) as [vc|] eqn:Evc; [|discriminate Ev].
    cbn in Ev. injection Ev as <-. destruct Wa as (_ & _ & Ca). destruct Wb as (_ & _ & Cb). destruct Wc as (_ & _ & Cc).
    destruct (Ca va Eva) as [Ra Ka]. destruct (Cb vb Evb) as [Rb Kb]. destruct (Cc vc Evc) as [Rc Kc]. split.
    + apply HR0; assumption.
    + intros i d Ei. destruct (Forall2_nth _ _ _ _ _ HW Ei) as ([[p r] u] & Ep & [_ Hk]).
      assert (i < 32)%nat as Hi. { rewrite <- Lr. apply nth_error_Some. intro N. unfold ubits in Ei. congruence. }
      apply nth_error_combine in Ep. destruct Ep as [Ep Eu]. apply nth_error_combine in Ep. destruct Ep as [Ep Er].
      rewrite HF by lia. apply (Hk (Z.testbit va (Z.of_nat i)) (Z.testbit vb (Z.of_nat i)) (Z.testbit vc (Z.of_nat i))); [| | |reflexivity].
      * intros d' ->. apply Ka, Ep.
      * intros d' ->. apply Kb, Er.
      * intros d' ->. apply Kc, Eu.
  - intros x _ HS. apply V, HS.
  - intros _ ((Ha & Hb & Hc) & HR & HS). split.
    + cbn [ubits]. apply (Forall2_r _ (combine (combine (ubits a) (ubits b)) (ubits c))). eapply Forall2_weak; [|exact HR]. intros [[p r] u] o h; exact h.
    + destruct Ha as [_ ->], Hb as [_ ->], Hc as [_ ->]. cbn [uval zlift2 zlift3]. f_equal. symmetry. etransitivity; [exact (V _ HS)|].
      rewrite !(wval_wit_ext s s1) by assumption. reflexivity.
Qed.
Lemma testbit_range n i : 0 <= n < 2 ^ 32 -> 32 <= i -> Z.testbit n i = false.
Proof.
  intros H Hi. destruct (Z.eq_dec n 0) as [->|]; [apply Z.testbit_0_l|].
  apply Z.bits_above_log2; [lia|]. apply Z.lt_le_trans with 32; [|exact Hi]. apply Z.log2_lt_pow2; lia.
Qed.
Lemma range_testbit n : 0 <= n -> (forall i, 32 <= i -> Z.testbit n i = false) -> n < 2 ^ 32.
Proof.
  intros Hn H. destruct (Z.eq_dec n 0) as [->|]; [reflexivity|].
  apply Z.log2_lt_pow2; [lia|]. destruct (Z_lt_le_dec (Z.log2 n) 32) as [|L]; [assumption|].
  exfalso. specialize (H _ L). rewrite Z.bit_log2 in H by lia. discriminate.
Qed.
Lemma not32_testbit n i : 0 <= i < 32 -> Z.testbit (not32 n) i = negb (Z.testbit n i).
Proof.
  intro H. unfold not32. replace (2 ^ 32 - 1 - n) with (Z.lnot n + 1 * 2 ^ 32) by (unfold Z.lnot; lia).
  rewrite <- Z.lnot_spec by lia.
  rewrite <- (Z.mod_pow2_bits_low (Z.lnot n + 1 * 2 ^ 32) 32 i) by lia. rewrite Z_mod_plus_full.
  apply Z.mod_pow2_bits_low. lia.
Qed.
Lemma u32_maj_spec a b c s : wf s -> word_in s a -> word_in s b -> word_in s c ->
  spec (u32_maj a b c) s word_in (fun x r => wval x r = maj32 (wval x a) (wval x b) (wval x c))
    (word_honest s a /\ word_honest s b /\ word_honest s c) word_honest.
Proof.
  intros. apply (u32_triop_spec maj_b); auto.
  - intros u v w i _. unfold maj_b. rewrite !Z.lxor_spec, !Z.land_spec. reflexivity.
  - intros u v w Hu Hv Hww. assert (0 <= Z.lxor (Z.lxor (Z.land u v) (Z.land u w)) (Z.land v w)) as P.
    { apply Z.lxor_nonneg. rewrite Z.lxor_nonneg, !Z.land_nonneg. tauto. }
    split; [exact P|]. apply range_testbit; [exact P|]. intros i Hi.
    rewrite !Z.lxor_spec, !Z.land_spec, !(testbit_range _ i) by assumption. reflexivity.
  - intros. apply b_maj_spec; assumption.
  - intros. eapply b_maj_const; eassumption.
Qed.
Lemma u32_ch_spec a b c s : wf s -> word_in s a -> word_in s b -> word_in s c ->
  spec (u32_ch a b c) s word_in (fun x r => wval x r = ch32 (wval x a) (wval x b) (wval x c))
    (word_honest s a /\ word_honest s b /\ word_honest s c) word_honest.
Proof.
  intros. apply (u32_triop_spec ch_b); auto.
  - intros u v w i Hi. unfold ch_b. rewrite !Z.lxor_spec, !Z.land_spec. change (u32_not u) with (not32 u).
    rewrite not32_testbit by exact Hi. reflexivity.
  - intros u v w Hu Hv Hww. assert (0 <= u32_not u) as N by (unfold u32_not; lia).
    assert (0 <= Z.lxor (Z.land u v) (Z.land (u32_not u) w)) as P.
    { apply Z.lxor_nonneg. rewrite !Z.land_nonneg. tauto. }
    split; [exact P|]. apply range_testbit; [exact P|]. intros i Hi.
    rewrite !Z.lxor_spec, !Z.land_spec, (testbit_range v i), (testbit_range w i) by assumption. rewrite !andb_false_r. reflexivity.
  - intros. apply b_ch_spec; assumption.
  - intros. eapply b_ch_const; eassumption.
Qed.

(** caches as bit lists *)
Lemma cache_intro bs tv : length bs = 32%nat -> Forall2 kc bs tv -> 
  0 <= Z_of_bits tv < 2 ^ 32 /\ forall i c, nth_error bs i = Some (BConst c) -> Z.testbit (Z_of_bits tv) (Z.of_nat i) = c.
Proof.
  intros L H. pose proof (Forall2_len _ _ _ H) as L2. split.
  - pose proof (Z_of_bits_range tv) as R. rewrite <- L2, L in R. exact R.
  - intros i c Ei. rewrite Z_of_bits_testbit. clear L L2. revert i Ei. induction H as [|b t bs tv H1 H2 IH]; intros [|i] Ei; cbn in *; try discriminate.
    + injection Ei as ->. apply H1. reflexivity.
    + apply IH, Ei.
Qed.
Lemma cache_elim s u v : word_in s u -> uval u = Some v -> Forall2 kc (ubits u) (bits32 v) /\ v = Z_of_bits (bits32 v).
Proof.
  intros (L & _ & C) E. destruct (C v E) as [R Kc]. split; [|symmetry; apply Z_of_bits32, R].
  unfold bits32. clear C E R. revert L Kc. generalize (ubits u) as bs. intros bs L Kc.
  assert (forall k n, length bs = n -> (forall i c, nth_error bs i = Some (BConst c) -> Z.testbit v (Z.of_nat (k + i)) = c) ->
    Forall2 kc bs (map (fun i => Z.testbit v (Z.of_nat i)) (seq k n))) as A.
  { clear L Kc. induction bs as [|b bs IH]; intros k n <- H; cbn; constructor.
    - intros c ->. specialize (H 0%nat c eq_refl). rewrite Nat.add_0_r in H. exact H.
    - apply IH; [reflexivity|]. intros i c Ei. specialize (H (S i) c Ei). rewrite Nat.add_succ_r in H. exact H. }
  apply A; [exact L|exact Kc].
Qed.
Lemma Forall2_app_kc a b c d : Forall2 kc a c -> Forall2 kc b d -> Forall2 kc (a ++ b) (c ++ d).
Proof. apply Forall2_app. Qed.
Lemma Forall2_skipn {A B} (P : A -> B -> Prop) n l m : Forall2 P l m -> Forall2 P (skipn n l) (skipn n m).
Proof. intro H. revert n. induction H; intros [|n]; cbn; auto. Qed.
Lemma Forall2_firstn {A B} (P : A -> B -> Prop) n l m : Forall2 P l m -> Forall2 P (firstn n l) (firstn n m).
Proof. intro H. revert n. induction H; intros [|n]; cbn; auto. Qed.
Lemma Forall_skipn {A} (P : A -> Prop) n l : Forall P l -> Forall P (skipn n l).
Proof. intro H. revert n. induction H; intros [|n]; cbn; auto. Qed.
Lemma Forall_firstn {A} (P : A -> Prop) n l : Forall P l -> Forall P (firstn n l).
Proof. intro H. revert n. induction H; intros [|n]; cbn; auto. Qed.

Lemma rot_list {A} k (l : list A) : (k <= length l)%nat -> length l = 32%nat -> firstn 32 (skipn k l ++ l) = skipn k l ++ firstn k l.
Proof.
  intros Hk L. rewrite firstn_app, skipn_length, L. rewrite firstn_all2 by (rewrite skipn_length; lia).
  f_equal. f_equal. lia.
Qed.
Lemma Z_rot k tv : (k < 32)%nat -> length tv = 32%nat ->
  Z_of_bits (skipn k tv ++ firstn k tv) = rotr32 (Z_of_bits tv) (Z.of_nat k).
Proof.
  intros Hk L. rewrite Z_of_bits_app, skipn_length, L. rewrite Z_of_bits_skipn, Z_of_bits_firstn by lia.
  unfold rotr32. set (n := Z_of_bits tv). assert (0 <= n < 2 ^ 32) as R.
  { pose proof (Z_of_bits_range tv) as R. rewrite L in R. exact R. }
  replace (Z.of_nat (32 - k)) with (32 - Z.of_nat k) by lia.
  set (j := Z.of_nat k). assert (0 <= j < 32) as Hj by lia.
  assert (2 ^ 32 = 2 ^ j * 2 ^ (32 - j)) as P. { rewrite <- Z.pow_add_r by lia. f_equal. lia. }
  pose proof (Z.div_mod n (2 ^ j) ltac:(lia)) as D. pose proof (Z.mod_pos_bound n (2 ^ j) ltac:(lia)) as B.
  assert (0 <= n / 2 ^ j) as Q by (apply Z.div_pos; lia).
  apply Z.mod_unique with (n / 2 ^ j); [left|]; nia.
Qed.
Lemma lor_add a b m : 0 <= m -> 0 <= a < 2 ^ m -> Z.lor a (b * 2 ^ m) = a + b * 2 ^ m.
Proof.
  intros Hm Ha. assert (Z.land a (b * 2 ^ m) = 0) as L.
  { apply Z.bits_inj'. intros i Hi. rewrite Z.land_spec, Z.testbit_0_l. destruct (Z_lt_le_dec i m) as [Li|Li].
    - rewrite Z.mul_pow2_bits_low by exact Li. apply andb_false_r.
    - replace (Z.testbit a i) with false; [reflexivity|]. symmetry. destruct (Z.eq_dec a 0) as [->|]; [apply Z.testbit_0_l|].
      apply Z.bits_above_log2; [lia|]. apply Z.lt_le_trans with m; [|exact Li]. apply Z.log2_lt_pow2; lia. }
  rewrite Z.add_nocarry_lxor by exact L. symmetry. apply Z.lxor_lor, L.
Qed.
Lemma rotate_right_ok v k : 0 <= v < 2 ^ 32 -> (k < 32)%nat -> u32_rotate_right v k = rotr32 v (Z.of_nat k).
Proof.
  intros R Hk. unfold u32_rotate_right, rotr32. rewrite Z.shiftr_div_pow2, Z.shiftl_mul_pow2 by lia.
  set (j := Z.of_nat k). assert (0 <= j < 32) as Hj by lia.
  assert (2 ^ 32 = 2 ^ j * 2 ^ (32 - j)) as P. { rewrite <- Z.pow_add_r by lia. f_equal. lia. }
  pose proof (Z.div_mod v (2 ^ j) ltac:(lia)) as D. pose proof (Z.mod_pos_bound v (2 ^ j) ltac:(lia)) as B.
  assert (0 <= v / 2 ^ j) as Q by (apply Z.div_pos; lia).
  assert ((v * 2 ^ (32 - j)) mod 2 ^ 32 = (v mod 2 ^ j) * 2 ^ (32 - j)) as M0.
  { symmetry. apply Z.mod_unique with (v / 2 ^ j); [left|]; nia. }
  rewrite M0, lor_add; [|lia|]. 2: { split; [exact Q|]. apply Z.div_lt_upper_bound; [lia|]. nia. }
  apply Z.mod_unique with (v / 2 ^ j); [left|]; nia.
Qed.

(** rotation and shift *)
Lemma wval_rotr s x u k : word_in s u -> wval x (u32_rotr u k) = rotr32 (wval x u) (Z.of_nat (k mod 32)).
Proof.
  intros (L & _). unfold wval, bsval, u32_rotr. cbn [ubits]. pose proof (Nat.mod_upper_bound k 32 ltac:(lia)) as Hk.
  rewrite rot_list by (rewrite ?L; lia). rewrite map_app, <- skipn_map, <- firstn_map.
  apply Z_rot; [exact Hk|rewrite map_length; exact L].
Qed.
Lemma word_rotr s u k : word_in s u -> word_in s (u32_rotr u k) /\ (word_honest s u -> word_honest s (u32_rotr u k)).
Proof.
  intros W. pose proof W as (L & B & C). pose proof (Nat.mod_upper_bound k 32 ltac:(lia)) as Hk. split.
  - unfold word_in, u32_rotr. cbn [ubits uval]. rewrite rot_list by (rewrite ?L; lia).
    assert (length (skipn (k mod 32) (ubits u) ++ firstn (k mod 32) (ubits u)) = 32%nat) as L2.
    { rewrite app_length, skipn_length, firstn_length_le by lia. lia. }
    split; [exact L2|]. split; [apply Forall_app; split; [apply Forall_skipn, B|apply Forall_firstn, B]|].
    intros v Ev. destruct (uval u) as [v0|] eqn:E0; [|discriminate Ev]. cbn in Ev. injection Ev as <-.
    destruct (cache_elim s u v0 W E0) as [Hk2 Hv]. destruct (C v0 eq_refl) as [R _].
    rewrite rotate_right_ok by assumption. rewrite Hv. rewrite <- Z_rot by (rewrite ?bits32_length; auto).
    apply cache_intro; [exact L2|]. apply Forall2_app; [apply Forall2_skipn, Hk2|apply Forall2_firstn, Hk2].
  - intros [H1 H2]. split.
    + unfold u32_rotr. cbn [ubits]. rewrite rot_list by (rewrite ?L; lia).
      apply Forall_app; split; [apply Forall_skipn, H1|apply Forall_firstn, H1].
    + rewrite (wval_rotr s) by exact W. unfold u32_rotr. cbn [uval]. rewrite H2. cbn [option_map]. f_equal.
      apply rotate_right_ok; [eapply wval_range; exact W|exact Hk].
Qed.
Lemma shr_list {A} k (l : list A) c : (k <= 32)%nat -> length l = 32%nat -> firstn 32 (skipn k l ++ repeat c 32) = skipn k l ++ repeat c k.
Proof.
  intros Hk L. rewrite firstn_app, skipn_length, L. rewrite firstn_all2 by (rewrite skipn_length; lia).
  f_equal. replace (32 - (32 - k))%nat with k by lia.
  replace 32%nat with (k + (32 - k))%nat by lia. rewrite repeat_app, firstn_app, repeat_length, Nat.sub_diag, firstn_O, app_nil_r.
  apply firstn_all2. rewrite repeat_length. lia.
Qed.
Lemma map_rep {A B} (f : A -> B) a n : map f (repeat a n) = repeat (f a) n.
Proof. induction n as [|n IH]; cbn; [reflexivity|]. rewrite IH. reflexivity. Qed.
Lemma wval_shr s x u k : word_in s u -> wval x (u32_shr u k) = wval x u / 2 ^ Z.of_nat (k mod 32).
Proof.
  intros (L & _). unfold wval, bsval, u32_shr. cbn [ubits]. pose proof (Nat.mod_upper_bound k 32 ltac:(lia)) as Hk.
  rewrite shr_list by (rewrite ?L; lia). rewrite map_app, <- skipn_map, map_rep, btrue_const.
  rewrite Z_of_bits_app, Z_of_bits_false, Z_of_bits_skipn by (rewrite map_length; lia). lia.
Qed.
Lemma word_shr s u k : word_in s u -> word_in s (u32_shr u k) /\ (word_honest s u -> word_honest s (u32_shr u k)).
Proof.
  intros W. pose proof W as (L & B & C). pose proof (Nat.mod_upper_bound k 32 ltac:(lia)) as Hk.
  pose proof (fun x => wval_shr s x u k W) as WV. unfold u32_shr in *. remember (k mod 32)%nat as kk eqn:Ekk. clear k Ekk. split.
  - unfold word_in. cbn [ubits uval]. rewrite shr_list by (rewrite ?L; lia).
    assert (length (skipn kk (ubits u) ++ repeat (BConst false) kk) = 32%nat) as L2.
    { rewrite app_length, skipn_length, repeat_length by lia. lia. }
    split; [exact L2|]. split.
    { apply Forall_app; split; [apply Forall_skipn, B|]. apply Forall_forall. intros b I. apply repeat_spec in I. subst. apply bool_in_const. }
    intros v Ev. destruct (uval u) as [v0|] eqn:E0; [|discriminate Ev]. cbn [option_map] in Ev. injection Ev as <-.
    destruct (cache_elim s u v0 W E0) as [Hk2 Hv]. rewrite Z.shiftr_div_pow2 by lia. rewrite Hv.
    rewrite <- Z_of_bits_skipn by (rewrite bits32_length; lia).
    replace (Z_of_bits (skipn kk (bits32 v0))) with (Z_of_bits (skipn kk (bits32 v0) ++ repeat false kk)).
    2: { rewrite Z_of_bits_app, Z_of_bits_false. lia. }
    apply cache_intro; [exact L2|]. apply Forall2_app; [apply Forall2_skipn, Hk2|].
    clear. induction kk; cbn; constructor; auto using kc_c.
  - intros [H1 H2]. split.
    + cbn [ubits]. rewrite shr_list by (rewrite ?L; lia).
      apply Forall_app; split; [apply Forall_skipn, H1|]. apply Forall_forall. intros b I. apply repeat_spec in I. subst. apply b_honest_c.
    + rewrite WV. cbn [uval]. rewrite H2. cbn [option_map]. f_equal.
      apply Z.shiftr_div_pow2. lia.
Qed.

(** conversions from bits *)
Lemma bits_value_ok (l : list boolean) acc : 0 <= acc -> (acc + 1) * 2 ^ Z.of_nat (length l) <= 2 ^ 32 ->
  match bits_value (Some acc) l with
  | Some v => exists ts, Forall2 (fun b t => b_value b = Some t) l ts /\ v = acc * 2 ^ Z.of_nat (length l) + Z_of_bits (rev ts)
  | None => exists b, In b l /\ b_value b = None
  end.
Proof.
  revert acc. induction l as [|b l IH]; intros acc H1 H2; cbn [bits_value length].
  - exists []. split; [constructor|]. change (2 ^ Z.of_nat 0) with 1. cbn. lia.
  - cbn [length] in H2. rewrite Nat2Z.inj_succ, Z.pow_succ_r in H2 by lia.
    destruct (b_value b) as [t|] eqn:Eb.
    + assert (1 <= 2 ^ Z.of_nat (length l)) as P by (apply (Z.pow_le_mono_r 2 0); lia).
      rewrite Z.mod_small by nia.
      assert (Z.lor (2 * acc) (Z.b2z t) = Z.b2z t + acc * 2) as EL.
      { rewrite Z.lor_comm, Z.mul_comm. change (acc * 2) with (acc * 2 ^ 1). apply lor_add; [lia|]. destruct t; cbn; lia. }
      rewrite EL. specialize (IH (Z.b2z t + acc * 2)). assert (0 <= Z.b2z t <= 1) as Ht by (destruct t; cbn; lia).
      specialize (IH ltac:(nia) ltac:(nia)). revert IH.
      destruct (bits_value (Some (Z.b2z t + acc * 2)) l) as [v|].
      * intros (ts & F & E). exists (t :: ts). split; [constructor; assumption|].
        cbn [rev]. rewrite Z_of_bits_app, rev_length, <- (Forall2_len _ _ _ F).
        cbn [Z_of_bits fold_right]. rewrite E, Nat2Z.inj_succ, Z.pow_succ_r by lia. lia.
      * intros (b0 & I & E). exists b0. split; [right; exact I|exact E].
    + clear IH H1 H2. assert (bits_value None l = None) as N.
      { clear. induction l as [|b l IH]; [reflexivity|]. exact IH. }
      rewrite N. exists b. split; [left; reflexivity|exact Eb].
Qed.
Lemma Forall2_rev_l {A B} (P : A -> B -> Prop) l m : Forall2 P l m -> Forall2 P (rev l) (rev m).
Proof. intro H. induction H; cbn; [constructor|]. apply Forall2_app; [assumption|]. constructor; auto. Qed.
(** Little-endian list [bs] with value computed from the reversed list. *)
Lemma from_bits_gen s bs : length bs = 32%nat -> Forall (bool_in s) bs ->
  word_in s (mkU bs (bits_value (Some 0) (rev bs))) /\
  (Forall (b_honest s) bs -> word_honest s (mkU bs (bits_value (Some 0) (rev bs)))).
Proof.
  intros L B. pose proof (bits_value_ok (rev bs) 0 ltac:(lia)) as V. rewrite rev_length, L in V. specialize (V ltac:(reflexivity)).
  split.
  - split; [exact L|]. split; [exact B|]. cbn [uval ubits]. intros v Ev. rewrite Ev in V.
    destruct V as (ts & F & E). apply Forall2_rev_l in F. rewrite rev_involutive in F.
    replace v with (Z_of_bits (rev ts)) by lia. apply cache_intro; [exact L|].
    eapply Forall2_weak; [|exact F]. intros b t Hb c ->. cbn in Hb. congruence.
  - intro H. split; [exact H|]. cbn [uval]. destruct (bits_value (Some 0) (rev bs)) as [v|].
    + destruct V as (ts & F & E). apply Forall2_rev_l in F. rewrite rev_involutive in F. f_equal.
      replace v with (Z_of_bits (rev ts)) by lia. unfold wval, bsval. cbn [ubits]. f_equal.
      clear L E B. revert H F. generalize (rev ts). intros tt0 H. revert tt0. induction H as [|b l (t & H1 & H2) Hl IH]; intros tv F; inversion F; subst; cbn; [reflexivity|].
      f_equal; [|apply IH; assumption]. rewrite (means_btrue _ _ t H2). congruence.
    + exfalso. destruct V as (b & I & E). apply in_rev in I. rewrite Forall_forall in H. destruct (H b I) as (t & H1 & _). congruence.
Qed.
Lemma from_bits_ok s bs : length bs = 32%nat -> Forall (bool_in s) bs ->
  exists u, u32_from_bits bs = Ok u /\ ubits u = bs /\ word_in s u /\ (Forall (b_honest s) bs -> word_honest s u).
Proof.
  intros L B. unfold u32_from_bits. rewrite L. cbn [Nat.eqb]. eexists. split; [reflexivity|]. split; [reflexivity|].
  apply from_bits_gen; assumption.
Qed.
Lemma from_bits_be_ok s bs : length bs = 32%nat -> Forall (bool_in s) bs ->
  exists u, u32_from_bits_be bs = Ok u /\ ubits u = rev bs /\ word_in s u /\ (Forall (b_honest s) bs -> word_honest s u).
Proof.
  intros L B. unfold u32_from_bits_be. rewrite L. cbn [Nat.eqb]. eexists. split; [reflexivity|]. split; [reflexivity|].
  destruct (from_bits_gen s (rev bs)) as [W H]; [rewrite rev_length; exact L|apply Forall_rev, B|].
  rewrite rev_involutive in W, H. split; [exact W|]. intro h. apply H, Forall_rev, h.
Qed.
End R.
