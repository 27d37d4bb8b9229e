From Verif Require Import Field ModelLC SpecLC ProofsLC ModelCS SpecCS ProofsCS ModelBoolean SpecBoolean.
Local Open Scope fld_scope.

Section P.
Variable K : Fld.
Add Field Kf : (f_laws K).
Implicit Types (s : cs K) (x : var -> K).

Lemma bit_alloc_ext s t (b : boolean) : ext s t -> b_alloc_in s b -> b_alloc_in t b.
Proof. intro E. destruct b; cbn; auto; apply allocated_ext; exact E. Qed.
Lemma bden_ext s t b : ext s t -> b_alloc_in s b -> bden (wit t) b = bden (wit s) b.
Proof. intro E. destruct b; cbn; intro A; rewrite ?(wit_ext K s t) by assumption; reflexivity. Qed.
Lemma b_honest_ext s t b : ext s t -> b_alloc_in s b -> b_honest s b -> b_honest t b.
Proof.
  intros E A (v & H1 & H2). exists v. split; [exact H1|]. unfold means in *.
  rewrite (bden_ext s t) by assumption. exact H2.
Qed.
Lemma b_not_alloc s b : b_alloc_in s b -> b_alloc_in s (b_not b).
Proof. destruct b; cbn; auto. Qed.
Lemma b_not_value b : b_value (b_not b) = option_map negb (b_value b).
Proof. destruct b as [v|v|c]; cbn; auto. destruct (bval v) as [[|]|]; reflexivity. Qed.
Lemma bden_not x b : bden x (b_not b) = 1 - bden x b.
Proof. destruct b as [v|v|[|]]; cbn; ring. Qed.
Lemma means_not x b t : means x b t -> means x (b_not b) (negb t).
Proof. unfold means. rewrite bden_not. intros ->. destruct t; cbn; ring. Qed.
Lemma means_not_inv x b t : means x (b_not b) t -> means x b (negb t).
Proof.
  unfold means. rewrite bden_not. intro H.
  replace (bden x b) with (1 - (1 - bden x b)) by ring. rewrite H. destruct t; cbn; ring.
Qed.
Lemma means_inj x b t u : means x b t -> means x b u -> t = u.
Proof.
  unfold means. intros H1 H2. rewrite H1 in H2. pose proof (f_1_neq_0 K).
  destruct t, u; auto; congruence.
Qed.
Lemma b_honest_not s b : b_honest s b -> b_honest s (b_not b).
Proof.
  intros (t & H1 & H2). exists (negb t). rewrite b_not_value, H1. split; [reflexivity|].
  apply means_not. exact H2.
Qed.
Lemma eval_b_lc x b c : x ONE = 1 -> eval x (b_lc b c) = c * bden x b.
Proof.
  intro H. destruct b as [v|v|[|]]; cbn [b_lc bden]; autorewrite with lcdb; rewrite ?H; ring.
Qed.
Lemma vars_b_lc s b c : wf s -> b_alloc_in s b -> vars_in K (allocated s) (b_lc b c).
Proof. intros Hw. destruct b as [v|v|[|]]; cbn [b_lc b_alloc_in]; intro A; auto 6 with varsdb. Qed.
Lemma bit_witness_np o : bit_witness (K:=K) o <> Panic.
Proof. destruct o; discriminate. Qed.
Lemma bit_witness_ok o (y : K) : bit_witness o = Ok y -> exists t, o = Some t /\ y = if t then 1 else 0.
Proof. destruct o as [t|]; cbn; [|discriminate]. intro H; injection H as <-. exists t. split; auto. Qed.

Lemma spec_if_called {A} (o : option A) s : wf s ->
  spec (if_called o) s (fun _ _ => True) (fun _ _ => True) True (fun _ r => r = o).
Proof.
  intro Hw. unfold spec, if_called. split; [apply ext_refl|]. split; [exact Hw|].
  split; [exact I|]. split; [auto|]. intros Hp ss _. rewrite Hp. auto.
Qed.

(** A gadget producing one boolean. *)
Definition bspec (m : M K boolean) s (S : (var -> K) -> boolean -> Prop) (H : Prop) : Prop :=
  spec m s b_alloc_in S H b_honest.

(** Common shape: allocate a bit with witness [value], emit one constraint. *)
Lemma spec_gate (value : option bool) (A B : var -> lc K) (C : var -> lc K) (fin : var -> option bool -> boolean)
  (called : bool) s (S : (var -> K) -> boolean -> Prop) (H : Prop) :
  wf s ->
  (forall v r, fin v r = BIs (mkBit v r)) ->
  (forall v s', ext s s' -> wf s' -> allocated s' v ->
     vars_in K (allocated s') (A v) /\ vars_in K (allocated s') (B v) /\ vars_in K (allocated s') (C v)) ->
  (forall x v r, x ONE = 1 -> eval x (A v) * eval x (B v) = eval x (C v) -> S x (BIs (mkBit v r))) ->
  (H -> exists t, value = Some t /\
     forall s' v, ext s s' -> wf s' -> wit s' v = (if t then 1 else 0) ->
       eval (wit s') (A v) * eval (wit s') (B v) = eval (wit s') (C v)) ->
  bspec (v <- alloc (bit_witness value) ;; enforce (A v) (B v) (C v) ;;;
         r <- (if called then if_called value else ret value) ;; ret (fin v r)) s S H.
Proof.
  intros Hw Hfin Hv HS HH. unfold bspec. eapply spec_bind.
  { eapply spec_conseq; [apply (spec_alloc K (bit_witness value) s Hw (bit_witness_np _))|..].
    - intros r s' _ _ h. exact h.
    - intros x r s' _ _ _ h. exact h.
    - intro h. destruct (HH h) as (t & -> & _). eexists. reflexivity.
    - intros r s' _ _ _ _ _ _ h. exact h. }
  intros v s' E Hw' [Av _]. cbn beta.
  destruct (Hv v s' E Hw' Av) as (VA & VB & VC). eapply spec_bind.
  { eapply spec_conseq; [apply (spec_enforce K (A v) (B v) (C v) s' Hw' VA VB VC)|..].
    - intros r t _ _ h. exact h.
    - intros x r t _ _ _ h. exact h.
    - intros [h [hv _]]. destruct (HH h) as (t & -> & Hc). apply Hc; auto.
      cbn in hv. injection hv as <-. reflexivity.
    - intros r t _ _ _ _ _ _ h. exact h. }
  intros [] s2 E2 Hw2 _. cbn beta.
  assert (allocated s2 v) as Av2 by (eapply allocated_ext; eassumption).
  eapply spec_bind with (W1 := fun _ _ => True) (S1 := fun _ _ => True) (HR1 := fun _ r => r = value).
  { destruct called.
    - eapply spec_conseq; [apply spec_if_called; exact Hw2|..]; auto.
    - apply spec_ret; auto. }
  intros r s3 E3 Hw3 _. cbn beta. rewrite Hfin. apply spec_ret; [exact Hw3|..].
  - cbn. eapply allocated_ext; eassumption.
  - intros x Hx _ [_ Hc] _. apply HS; [exact Hx|exact Hc].
  - intros _ (((h & hv & _) & _) & -> & _). apply bit_witness_ok in hv. destruct hv as (t & -> & Ev).
    exists t. split; [reflexivity|]. unfold means; cbn.
    rewrite (wit_ext K s2 s3) by assumption. rewrite (wit_ext K s' s2) by assumption. exact Ev.
Qed.

Ltac vars_tac Hw' :=
  match goal with E : ext ?s ?s' |- _ =>
    assert (forall v, allocated s v -> allocated s' v) by (intros; eapply allocated_ext; eassumption);
    assert (forall b, b_alloc_in s b -> b_alloc_in s' b) by (intros; eapply bit_alloc_ext; eassumption)
  end;
  repeat split; auto 12 using vars_b_lc with varsdb.

Lemma of_bool_if (t : bool) : (if t then 1 else 0) = (of_bool t : K).
Proof. reflexivity. Qed.

(** bind-associativity normal forms: the bit gadgets wrapped as booleans. *)
Lemma bind_assoc {A B C} (m : M K A) (f : A -> M K B) (g : B -> M K C) s :
  bind (bind m f) g s = bind m (fun a => bind (f a) g) s.
Proof. unfold bind. destruct (m s) as [[a s']|e|]; reflexivity. Qed.
Lemma spec_ext {A} (m n : M K A) s W S H HR : (forall s, m s = n s) -> spec m s W S H HR -> spec n s W S H HR.
Proof. intros E. unfold spec. rewrite E. auto. Qed.

Definition bit_in s (b : abit) := allocated s (bvar b).

(** The value a two-input gate must produce. *)
Definition gate2 (f : bool -> bool -> bool) (a b : boolean) (x : var -> K) (r : boolean) : Prop :=
  forall ta tb, means x a ta -> means x b tb -> means x r (f ta tb).

Lemma honest_pair s a b : b_honest s a -> b_honest s b ->
  exists ta tb, b_value a = Some ta /\ b_value b = Some tb /\ means (wit s) a ta /\ means (wit s) b tb.
Proof. intros (ta & A1 & A2) (tb & B1 & B2). eauto 10. Qed.
Lemma means_ext s s' b t : ext s s' -> b_alloc_in s b -> means (wit s) b t -> means (wit s') b t.
Proof. intros E A H. unfold means. rewrite (bden_ext s s') by assumption. exact H. Qed.

Ltac lin H :=
  match type of H with ?l = ?r =>
    let Q := fresh in
    pose proof (proj2 (fsub_0 _ l r) H) as Q;
    match goal with |- ?g = ?h =>
      first [ transitivity (h + (l - r)); [ring|rewrite Q; ring]
            | transitivity (h - (l - r)); [ring|rewrite Q; ring] ]
    end
  end.
Ltac gate_sound :=
  intros x v r Hx Hc ta tb Ha Hb; unfold means in *; cbn [bden bvar] in *;
  autorewrite with lcdb in Hc; rewrite ?Hx in Hc.

Lemma bit_xor_spec a b s : wf s -> bit_in s a -> bit_in s b ->
  bspec (r <- bit_xor a b ;; ret (BIs r)) s (gate2 xorb (BIs a) (BIs b)) (b_honest s (BIs a) /\ b_honest s (BIs b)).
Proof.
  intros Hw Aa Ab. unfold bspec.
  eapply spec_ext; [|apply (spec_gate (lift2 xorb (bval a) (bval b))
    (fun _ => lc_add_var (lc_add_var lc_zero (bvar a)) (bvar a))
    (fun _ => lc_add_var lc_zero (bvar b))
    (fun v => lc_sub_var (lc_add_var (lc_add_var lc_zero (bvar a)) (bvar b)) v)
    (fun v r => BIs (mkBit v r)) true s (gate2 xorb (BIs a) (BIs b)) (b_honest s (BIs a) /\ b_honest s (BIs b)) Hw)].
  - intro s0. unfold bit_xor. rewrite bind_assoc. unfold bind. destruct (alloc _ s0) as [[v s1]|e|]; reflexivity.
  - reflexivity.
  - intros v s' E Hw' Av. unfold bit_in in *. vars_tac Hw'.
  - gate_sound. rewrite Ha, Hb in Hc. destruct ta, tb; cbn in *; lin Hc.
  - intros [Ha Hb]. destruct (honest_pair _ _ _ Ha Hb) as (ta & tb & Va & Vb & Ma & Mb).
    exists (xorb ta tb). cbn in Va, Vb. rewrite Va, Vb. split; [reflexivity|].
    intros s' v E Hw' Hv. apply (means_ext s s') in Ma; [|assumption..]. apply (means_ext s s') in Mb; [|assumption..].
    unfold means in *; cbn [bden] in *. autorewrite with lcdb. rewrite Hv, Ma, Mb. destruct ta, tb; cbn; ring.
Qed.
Lemma bit_and_spec a b s : wf s -> bit_in s a -> bit_in s b ->
  bspec (r <- bit_and a b ;; ret (BIs r)) s (gate2 andb (BIs a) (BIs b)) (b_honest s (BIs a) /\ b_honest s (BIs b)).
Proof.
  intros Hw Aa Ab. unfold bspec.
  eapply spec_ext; [|apply (spec_gate (lift2 andb (bval a) (bval b))
    (fun _ => lc_add_var lc_zero (bvar a)) (fun _ => lc_add_var lc_zero (bvar b)) (fun v => lc_add_var lc_zero v)
    (fun v r => BIs (mkBit v r)) true s (gate2 andb (BIs a) (BIs b)) (b_honest s (BIs a) /\ b_honest s (BIs b)) Hw)].
  - intro s0. unfold bit_and. rewrite bind_assoc. unfold bind. destruct (alloc _ s0) as [[v s1]|e|]; reflexivity.
  - reflexivity.
  - intros v s' E Hw' Av. unfold bit_in in *. vars_tac Hw'.
  - gate_sound. rewrite Ha, Hb in Hc. destruct ta, tb; cbn in *; lin Hc.
  - intros [Ha Hb]. destruct (honest_pair _ _ _ Ha Hb) as (ta & tb & Va & Vb & Ma & Mb).
    exists (andb ta tb). cbn in Va, Vb. rewrite Va, Vb. split; [reflexivity|].
    intros s' v E Hw' Hv. apply (means_ext s s') in Ma; [|assumption..]. apply (means_ext s s') in Mb; [|assumption..].
    unfold means in *; cbn [bden] in *. autorewrite with lcdb. rewrite Hv, Ma, Mb. destruct ta, tb; cbn; ring.
Qed.
Lemma bit_and_not_spec a b s : wf s -> bit_in s a -> bit_in s b ->
  bspec (r <- bit_and_not a b ;; ret (BIs r)) s (gate2 (fun p q => p && negb q) (BIs a) (BIs b)) (b_honest s (BIs a) /\ b_honest s (BIs b)).
Proof.
  intros Hw Aa Ab. unfold bspec.
  eapply spec_ext; [|apply (spec_gate (lift2 (fun p q => andb p (negb q)) (bval a) (bval b))
    (fun _ => lc_add_var lc_zero (bvar a)) (fun _ => lc_sub_var (lc_add_var lc_zero ONE) (bvar b)) (fun v => lc_add_var lc_zero v)
    (fun v r => BIs (mkBit v r)) true s (gate2 (fun p q => p && negb q) (BIs a) (BIs b)) (b_honest s (BIs a) /\ b_honest s (BIs b)) Hw)].
  - intro s0. unfold bit_and_not. rewrite bind_assoc. unfold bind. destruct (alloc _ s0) as [[v s1]|e|]; reflexivity.
  - reflexivity.
  - intros v s' E Hw' Av. unfold bit_in in *. vars_tac Hw'.
  - gate_sound. rewrite Ha, Hb in Hc. destruct ta, tb; cbn in *; lin Hc.
  - intros [Ha Hb]. destruct (honest_pair _ _ _ Ha Hb) as (ta & tb & Va & Vb & Ma & Mb).
    exists (andb ta (negb tb)). cbn in Va, Vb. rewrite Va, Vb. split; [reflexivity|].
    intros s' v E Hw' Hv. apply (means_ext s s') in Ma; [|assumption..]. apply (means_ext s s') in Mb; [|assumption..].
    unfold means in *; cbn [bden] in *. autorewrite with lcdb. rewrite Hv, Ma, Mb, (wit_one K s' Hw'). destruct ta, tb; cbn; ring.
Qed.
Lemma bit_nor_spec a b s : wf s -> bit_in s a -> bit_in s b ->
  bspec (r <- bit_nor a b ;; ret (BIs r)) s (gate2 (fun p q => negb p && negb q) (BIs a) (BIs b)) (b_honest s (BIs a) /\ b_honest s (BIs b)).
Proof.
  intros Hw Aa Ab. unfold bspec.
  eapply spec_ext; [|apply (spec_gate (lift2 (fun p q => andb (negb p) (negb q)) (bval a) (bval b))
    (fun _ => lc_sub_var (lc_add_var lc_zero ONE) (bvar a)) (fun _ => lc_sub_var (lc_add_var lc_zero ONE) (bvar b)) (fun v => lc_add_var lc_zero v)
    (fun v r => BIs (mkBit v r)) true s (gate2 (fun p q => negb p && negb q) (BIs a) (BIs b)) (b_honest s (BIs a) /\ b_honest s (BIs b)) Hw)].
  - intro s0. unfold bit_nor. rewrite bind_assoc. unfold bind. destruct (alloc _ s0) as [[v s1]|e|]; reflexivity.
  - reflexivity.
  - intros v s' E Hw' Av. unfold bit_in in *. vars_tac Hw'.
  - gate_sound. rewrite Ha, Hb in Hc. destruct ta, tb; cbn in *; lin Hc.
  - intros [Ha Hb]. destruct (honest_pair _ _ _ Ha Hb) as (ta & tb & Va & Vb & Ma & Mb).
    exists (andb (negb ta) (negb tb)). cbn in Va, Vb. rewrite Va, Vb. split; [reflexivity|].
    intros s' v E Hw' Hv. apply (means_ext s s') in Ma; [|assumption..]. apply (means_ext s s') in Mb; [|assumption..].
    unfold means in *; cbn [bden] in *. autorewrite with lcdb. rewrite Hv, Ma, Mb, (wit_one K s' Hw'). destruct ta, tb; cbn; ring.
Qed.

(** Weakening of a gate spec along operand views. *)
Lemma bspec_conseq m s (S S' : _ -> _ -> Prop) (H H' : Prop) : bspec m s S H ->
  (forall x r s', ext s s' -> b_alloc_in s' r -> x ONE = 1 -> S x r -> S' x r) -> (H' -> H) -> bspec m s S' H'.
Proof. intros B HS HH. eapply spec_conseq; [exact B|..]; auto. Qed.
Lemma bspec_ret b s (S : _ -> _ -> Prop) (H : Prop) : wf s -> b_alloc_in s b -> (forall x, x ONE = 1 -> S x b) -> (H -> b_honest s b) -> bspec (ret b) s S H.
Proof. intros. apply spec_ret; auto. Qed.
Lemma bspec_not (m : M K boolean) s (S : _ -> _ -> Prop) (H : Prop) : bspec m s S H -> bspec (r <- m ;; ret (b_not r)) s (fun x r => S x (b_not r)) H.
Proof.
  intro B. unfold bspec. eapply spec_bind; [exact B|]. intros r s' E Hw' A. apply spec_ret; auto.
  - apply b_not_alloc; exact A.
  - intros x _ h. destruct r; cbn in *; auto. rewrite negb_involutive. exact h.
  - intros _ [_ [h _]]. apply b_honest_not. exact h.
Qed.

Lemma is_of_not_honest s v : b_honest s (BNot v) -> b_honest s (BIs v).
Proof. intro H. apply b_honest_not in H. exact H. Qed.
Lemma means_is_not x v t : means x (BNot v) t -> means x (BIs v) (negb t).
Proof. intro H. apply means_not in H. exact H. Qed.
Lemma means_const x c t : means x (BConst c) t -> t = c.
Proof.
  intro H. apply (means_inj x (BConst c)); [exact H|]. reflexivity.
Qed.
Lemma b_honest_const s c : b_honest s (BConst c).
Proof. exists c. split; reflexivity. Qed.

Lemma b_xor_spec a b s : wf s -> b_alloc_in s a -> b_alloc_in s b ->
  bspec (b_xor a b) s (gate2 xorb a b) (b_honest s a /\ b_honest s b).
Proof.
  intros Hw Aa Ab.
  destruct a as [a|a|[|]], b as [b|b|[|]]; cbn [b_xor];
    try (apply bspec_ret; [exact Hw|auto using b_not_alloc..| |];
         [intros x Hx ta tb Ha Hb;
          try (pose proof (means_const _ _ _ Ha); subst ta); try (pose proof (means_const _ _ _ Hb); subst tb);
          rewrite ?xorb_false_l, ?xorb_false_r, ?xorb_true_l, ?xorb_true_r; auto using means_not
         |intros [? ?]; auto using b_honest_not]).
  - apply bit_xor_spec; assumption.
  - eapply bspec_conseq.
    + eapply spec_ext; [|apply bspec_not, (bit_xor_spec a b); assumption].
      intro s0. rewrite bind_assoc. unfold bind. destruct (bit_xor a b s0) as [[r s1]|e|]; reflexivity.
    + intros x r s' _ _ _ H ta tb Ha Hb. apply means_is_not in Hb. specialize (H _ _ Ha Hb).
      apply means_not_inv in H. replace (xorb ta tb) with (negb (xorb ta (negb tb))); [exact H|].
      destruct ta, tb; reflexivity.
    + intros [? ?]; auto using is_of_not_honest.
  - eapply bspec_conseq.
    + eapply spec_ext; [|apply bspec_not, (bit_xor_spec b a); assumption].
      intro s0. rewrite bind_assoc. unfold bind. destruct (bit_xor b a s0) as [[r s1]|e|]; reflexivity.
    + intros x r s' _ _ _ H ta tb Ha Hb. apply means_is_not in Ha. specialize (H _ _ Hb Ha).
      apply means_not_inv in H. replace (xorb ta tb) with (negb (xorb tb (negb ta))); [exact H|].
      destruct ta, tb; reflexivity.
    + intros [? ?]; auto using is_of_not_honest.
  - eapply bspec_conseq; [apply (bit_xor_spec a b); assumption|..].
    + intros x r s' _ _ _ H ta tb Ha Hb. apply means_is_not in Ha, Hb. specialize (H _ _ Ha Hb).
      replace (xorb ta tb) with (xorb (negb ta) (negb tb)); [exact H|]. destruct ta, tb; reflexivity.
    + intros [? ?]; auto using is_of_not_honest.
Qed.
Lemma b_and_spec a b s : wf s -> b_alloc_in s a -> b_alloc_in s b ->
  bspec (b_and a b) s (gate2 andb a b) (b_honest s a /\ b_honest s b).
Proof.
  intros Hw Aa Ab.
  destruct a as [a|a|[|]], b as [b|b|[|]]; cbn [b_and];
    try (apply bspec_ret; [exact Hw|auto using b_not_alloc; exact I..| |];
         [intros x Hx ta tb Ha Hb;
          try (pose proof (means_const _ _ _ Ha); subst ta); try (pose proof (means_const _ _ _ Hb); subst tb);
          rewrite ?andb_false_l, ?andb_false_r, ?andb_true_l, ?andb_true_r; auto; reflexivity
         |intros [? ?]; auto using b_honest_const]).
  - apply bit_and_spec; assumption.
  - eapply bspec_conseq; [apply (bit_and_not_spec a b); assumption|..].
    + intros x r s' _ _ _ H ta tb Ha Hb. apply means_is_not in Hb. specialize (H _ _ Ha Hb).
      cbn beta in H. rewrite negb_involutive in H. exact H.
    + intros [? ?]; auto using is_of_not_honest.
  - eapply bspec_conseq; [apply (bit_and_not_spec b a); assumption|..].
    + intros x r s' _ _ _ H ta tb Ha Hb. apply means_is_not in Ha. specialize (H _ _ Hb Ha).
      cbn beta in H. rewrite negb_involutive, andb_comm in H. exact H.
    + intros [? ?]; auto using is_of_not_honest.
  - eapply bspec_conseq; [apply (bit_nor_spec a b); assumption|..].
    + intros x r s' _ _ _ H ta tb Ha Hb. apply means_is_not in Ha, Hb. specialize (H _ _ Ha Hb).
      cbn beta in H. rewrite !negb_involutive in H. exact H.
    + intros [? ?]; auto using is_of_not_honest.
Qed.

(** ** ch and maj *)
Definition gate3 (f : bool -> bool -> bool -> bool) (a b c : boolean) (x : var -> K) (r : boolean) : Prop :=
  forall ta tb tc, means x a ta -> means x b tb -> means x c tc -> means x r (f ta tb tc).
Definition ch_b (a b c : bool) : bool := xorb (a && b) (negb a && c).
Definition maj_b (a b c : bool) : bool := xorb (xorb (a && b) (a && c)) (b && c).

Lemma ch_gate a b c s : wf s -> b_alloc_in s a -> b_alloc_in s b -> b_alloc_in s c ->
  bspec (v <- alloc (bit_witness (lift3 ch_b (b_value a) (b_value b) (b_value c))) ;;
      enforce (lc_sub (b_lc b 1) (b_lc c 1)) (b_lc a 1)
              (lc_sub (lc_add_var lc_zero v) (b_lc c 1)) ;;;
      ret (BIs (mkBit v (lift3 ch_b (b_value a) (b_value b) (b_value c))))) s
   (gate3 ch_b a b c) (b_honest s a /\ b_honest s b /\ b_honest s c).
Proof.
  intros Hw Aa Ab Ac. unfold bspec.
  eapply spec_ext; [|apply (spec_gate (lift3 ch_b (b_value a) (b_value b) (b_value c))
    (fun _ => lc_sub (b_lc b 1) (b_lc c 1)) (fun _ => b_lc a 1) (fun v => lc_sub (lc_add_var lc_zero v) (b_lc c 1))
    (fun v r => BIs (mkBit v r)) false s (gate3 ch_b a b c) (b_honest s a /\ b_honest s b /\ b_honest s c) Hw)].
  - intro s0. unfold bind. destruct (alloc _ s0) as [[v s1]|e|]; reflexivity.
  - reflexivity.
  - intros v s' E Hw' Av. assert (forall b, b_alloc_in s b -> b_alloc_in s' b) as Mono by (intro; apply bit_alloc_ext; exact E).
    repeat split; auto 8 using vars_b_lc with varsdb.
  - intros x v r Hx Hc ta tb tc Ha Hb Hcc. unfold means in *. cbn [bden bvar].
    autorewrite with lcdb in Hc. rewrite !eval_b_lc in Hc by exact Hx.
    rewrite Ha, Hb, Hcc in Hc. destruct ta, tb, tc; cbn in *; lin Hc.
  - intros ((ta & Va & Ma) & (tb & Vb & Mb) & (tc & Vc & Mc)).
    exists (ch_b ta tb tc). rewrite Va, Vb, Vc. split; [reflexivity|].
    intros s' v E Hw' Hv.
    apply (means_ext s s') in Ma; [|assumption..]. apply (means_ext s s') in Mb; [|assumption..]. apply (means_ext s s') in Mc; [|assumption..].
    autorewrite with lcdb. rewrite !eval_b_lc by (apply wit_one; exact Hw'). unfold means in *. rewrite Hv, Ma, Mb, Mc.
    destruct ta, tb, tc; cbn; ring.
Qed.
Lemma maj_gate a b c s : wf s -> b_alloc_in s a -> b_alloc_in s b -> b_alloc_in s c ->
  bspec (v <- alloc (bit_witness (lift3 maj_b (b_value a) (b_value b) (b_value c))) ;;
      bc <- b_and b c ;;
      enforce (lc_sub (lc_sub (lc_add (b_lc bc 1) (b_lc bc 1)) (b_lc b 1)) (b_lc c 1))
              (b_lc a 1)
              (lc_sub_var (b_lc bc 1) v) ;;;
      ret (BIs (mkBit v (lift3 maj_b (b_value a) (b_value b) (b_value c))))) s
   (gate3 maj_b a b c) (b_honest s a /\ b_honest s b /\ b_honest s c).
Proof.
  intros Hw Aa Ab Ac. set (value := lift3 _ _ _ _). unfold bspec. eapply spec_bind.
  { eapply spec_conseq; [apply (spec_alloc K (bit_witness value) s Hw (bit_witness_np _))|..].
    - intros r s' _ _ h. exact h.
    - intros x r s' _ _ _ h. exact h.
    - intros ((ta & Va & Ma) & (tb & Vb & Mb) & (tc & Vc & Mc)). unfold value. rewrite Va, Vb, Vc. eexists. reflexivity.
    - intros r s' _ _ _ _ _ _ h. exact h. }
  intros v s1 E1 Hw1 [Av _]. cbn beta.
  pose proof (bit_alloc_ext _ _ _ E1 Aa) as Aa1. pose proof (bit_alloc_ext _ _ _ E1 Ab) as Ab1.
  pose proof (bit_alloc_ext _ _ _ E1 Ac) as Ac1.
  eapply spec_bind.
  { eapply spec_conseq; [apply (b_and_spec b c s1 Hw1 Ab1 Ac1)|..].
    - intros r s' _ _ h. exact h.
    - intros x r s' _ _ _ h. exact h.
    - intros [(h1 & h2 & h3) _]. split; eapply b_honest_ext; eassumption.
    - intros r s' _ _ _ _ _ _ h. exact h. }
  intros bc s2 E2 Hw2 Abc. cbn beta in *.
  pose proof (bit_alloc_ext _ _ _ E2 Aa1) as Aa2. pose proof (bit_alloc_ext _ _ _ E2 Ab1) as Ab2.
  pose proof (bit_alloc_ext _ _ _ E2 Ac1) as Ac2. pose proof (allocated_ext _ _ _ _ E2 Av) as Av2.
  eapply spec_bind with (W1 := fun _ _ => True)
     (S1 := fun x _ => True -> gate2 andb b c x bc -> gate3 maj_b a b c x (BIs (mkBit v value))) (HR1 := fun _ _ => True).
  { eapply spec_conseq; [apply (spec_enforce K (lc_sub (lc_sub (lc_add (b_lc bc 1) (b_lc bc 1)) (b_lc b 1)) (b_lc c 1))
              (b_lc a 1) (lc_sub_var (b_lc bc 1) v) s2 Hw2); auto 10 using vars_b_lc with varsdb|..].
    - auto.
    - intros x [] s' _ _ Hx [_ Hc] _ Hbc ta tb tc Ma Mb Mc.
      specialize (Hbc _ _ Mb Mc). autorewrite with lcdb in Hc. rewrite !eval_b_lc in Hc by exact Hx.
      unfold means in *. cbn [bden bvar].
      rewrite Hbc, Ma, Mb, Mc in Hc. destruct ta, tb, tc; cbn in *; lin Hc.
    - intros [[((ta & Va & Ma) & (tb & Vb & Mb) & (tc & Vc & Mc)) [hv _]] [_ Hbc]].
      apply bit_witness_ok in hv. unfold value in hv. rewrite Va, Vb, Vc in hv. destruct hv as (t & hv & Ev).
      injection hv as <-.
      autorewrite with lcdb. rewrite !eval_b_lc by (apply wit_one; exact Hw2).
      rewrite (wit_ext K s1 s2) by assumption. rewrite Ev.
      assert (ext s s2) as E by (eapply ext_trans; eassumption).
      apply (means_ext s s2) in Ma; [|assumption..]. apply (means_ext s s2) in Mb; [|assumption..]. apply (means_ext s s2) in Mc; [|assumption..].
      specialize (Hbc _ _ Mb Mc).
      unfold means in *. rewrite Ma, Mb, Mc, Hbc. destruct ta, tb, tc; cbn; ring.
    - auto. }
  intros [] s3 E3 Hw3 _. apply spec_ret; [exact Hw3|..].
  - cbn. eapply allocated_ext; eassumption.
  - intros x _ h1 h2 h3. apply h1; auto.
  - intros _ [[[_ [hv _]] _] _]. apply bit_witness_ok in hv. destruct hv as (t & Hv & Ev). rewrite Hv.
    exists t. split; [reflexivity|]. unfold means; cbn.
    rewrite (wit_ext K s2 s3), (wit_ext K s1 s2) by assumption. exact Ev.
Qed.

Lemma means_via_not x r t : means x (b_not r) (negb t) -> means x r t.
Proof. intro H. apply means_not_inv in H. rewrite negb_involutive in H. exact H. Qed.

Section Three.
Variables (a b c : boolean) (s : cs K).
Hypotheses (Hw : wf s) (Aa : b_alloc_in s a) (Ab : b_alloc_in s b) (Ac : b_alloc_in s c).
Let Hon := b_honest s a /\ b_honest s b /\ b_honest s c.
Lemma and_case y z f : b_alloc_in s y -> b_alloc_in s z ->
  (forall x ta tb tc, means x a ta -> means x b tb -> means x c tc ->
     exists ty tz, means x y ty /\ means x z tz /\ f ta tb tc = ty && tz) ->
  (Hon -> b_honest s y /\ b_honest s z) ->
  bspec (b_and y z) s (gate3 f a b c) Hon.
Proof.
  intros Ay Az Hf Hh. eapply bspec_conseq; [apply (b_and_spec y z s Hw Ay Az)| |exact Hh].
  intros x r s' _ _ _ G ta tb tc Ma Mb Mc. destruct (Hf x ta tb tc Ma Mb Mc) as (ty & tz & My & Mz & ->).
  apply G; assumption.
Qed.
Lemma nand_case y z f : b_alloc_in s y -> b_alloc_in s z ->
  (forall x ta tb tc, means x a ta -> means x b tb -> means x c tc ->
     exists ty tz, means x y ty /\ means x z tz /\ f ta tb tc = negb (ty && tz)) ->
  (Hon -> b_honest s y /\ b_honest s z) ->
  bspec (r <- b_and y z ;; ret (b_not r)) s (gate3 f a b c) Hon.
Proof.
  intros Ay Az Hf Hh. eapply bspec_conseq; [apply bspec_not, (b_and_spec y z s Hw Ay Az)| |exact Hh].
  intros x r s' _ _ _ G ta tb tc Ma Mb Mc. destruct (Hf x ta tb tc Ma Mb Mc) as (ty & tz & My & Mz & ->).
  apply means_via_not. rewrite negb_involutive. apply G; assumption.
Qed.
End Three.

Ltac consts :=
  repeat match goal with
  | H : means ?x (BConst ?c) ?t |- _ =>
      lazymatch t with c => fail | _ => pose proof (means_const _ _ _ H); subst t end
  end.
Ltac case3 :=
  intros x ta tb tc Ma Mb Mc; consts;
  do 2 eexists; split; [first [eassumption|eapply means_not; eassumption]|];
  split; [first [eassumption|eapply means_not; eassumption]|];
  repeat match goal with t : bool |- _ => destruct t end; reflexivity.
Ltac hon3 := intros (? & ? & ?); split; auto using b_honest_not.

Lemma b_ch_spec a b c s : wf s -> b_alloc_in s a -> b_alloc_in s b -> b_alloc_in s c ->
  bspec (b_ch a b c) s (gate3 ch_b a b c) (b_honest s a /\ b_honest s b /\ b_honest s c).
Proof.
  intros Hw Aa Ab Ac.
  assert (forall r, b_alloc_in s r ->
    (forall x ta tb tc, means x a ta -> means x b tb -> means x c tc -> means x r (ch_b ta tb tc)) ->
    (b_honest s a /\ b_honest s b /\ b_honest s c -> b_honest s r) ->
    bspec (ret r) s (gate3 ch_b a b c) (b_honest s a /\ b_honest s b /\ b_honest s c)) as R.
  { intros r Ar Hr Hh. apply bspec_ret; auto. intros x _ ta tb tc. apply Hr. }
  pose proof (ch_gate a b c s Hw Aa Ab Ac) as G.
  destruct a as [a|a|[|]], b as [b|b|[|]], c as [c|c|[|]]; cbn [b_ch]; try exact G;
    try (apply R; [auto; exact I|intros x ta tb tc Ma Mb Mc; consts; try reflexivity; repeat match goal with t : bool |- _ => destruct t end; assumption|
                   intros (? & ? & ?); auto using b_honest_const]);
    try (apply and_case; auto using b_not_alloc; [case3|hon3]);
    try (apply nand_case; auto using b_not_alloc; [case3|hon3]).
Qed.
Lemma b_maj_spec a b c s : wf s -> b_alloc_in s a -> b_alloc_in s b -> b_alloc_in s c ->
  bspec (b_maj a b c) s (gate3 maj_b a b c) (b_honest s a /\ b_honest s b /\ b_honest s c).
Proof.
  intros Hw Aa Ab Ac.
  assert (forall r, b_alloc_in s r ->
    (forall x ta tb tc, means x a ta -> means x b tb -> means x c tc -> means x r (maj_b ta tb tc)) ->
    (b_honest s a /\ b_honest s b /\ b_honest s c -> b_honest s r) ->
    bspec (ret r) s (gate3 maj_b a b c) (b_honest s a /\ b_honest s b /\ b_honest s c)) as R.
  { intros r Ar Hr Hh. apply bspec_ret; auto. intros x _ ta tb tc. apply Hr. }
  pose proof (maj_gate a b c s Hw Aa Ab Ac) as G.
  destruct a as [a|a|[|]], b as [b|b|[|]], c as [c|c|[|]]; cbn [b_maj]; try exact G;
    try (apply R; [auto; exact I|intros x ta tb tc Ma Mb Mc; consts; try reflexivity; repeat match goal with t : bool |- _ => destruct t end; assumption|
                   intros (? & ? & ?); auto using b_honest_const]);
    try (apply and_case; auto using b_not_alloc; [case3|hon3]);
    try (apply nand_case; auto using b_not_alloc; [case3|hon3]).
Qed.

(** ** allocation of bits *)
Lemma bit_alloc_gen (al : res K -> M K var) (mbf : option abit) value s :
  (forall f s, wf s -> f <> Panic ->
    spec (al f) s (fun s' v => allocated s' v /\ ~ allocated s v) (fun _ _ => True)
      (exists y, f = Ok y) (fun s' v => f = Ok (wit s' v))) ->
  wf s -> (forall g, mbf = Some g -> allocated s (bvar g)) ->
  spec (v <- al (bit_witness value) ;;
        enforce (lc_sub_var (match mbf with Some g => lc_sub_var (lc_add_var lc_zero ONE) (bvar g) | None => lc_add_var lc_zero ONE end) v)
          (lc_add_var lc_zero v) lc_zero ;;;
        ret (mkBit v value)) s
    (fun s' r => allocated s' (bvar r) /\ ~ allocated s (bvar r) /\ bval r = value)
    (fun x r => match mbf with
                | None => x (bvar r) = 0 \/ x (bvar r) = 1
                | Some g => x (bvar r) = 0 \/ x (bvar r) = 1 - x (bvar g)
                end)
    (exists t, value = Some t /\
       match mbf with None => True | Some g => (wit s (bvar g) = 0 \/ (wit s (bvar g) = 1 /\ t = false)) end)
    (fun s' r => b_honest s' (BIs r)).
Proof.
  intros Hal Hw Hg. eapply spec_bind.
  { eapply spec_conseq; [apply (Hal (bit_witness value) s Hw (bit_witness_np _))|..].
    - intros r s' _ _ h. exact h.
    - intros x r s' _ _ _ h. exact h.
    - intros (t & -> & _). eexists. reflexivity.
    - intros r s' _ _ _ _ _ _ h. exact h. }
  intros v s1 E1 Hw1 [Av Nv]. cbn beta.
  assert (forall g, mbf = Some g -> allocated s1 (bvar g)) as Hg1.
  { intros g Eg. eapply allocated_ext; [exact E1|auto]. }
  eapply spec_bind.
  { eapply spec_conseq; [apply (spec_enforce K _ (lc_add_var lc_zero v) lc_zero s1 Hw1)|..].
    - destruct mbf as [g|]; auto 10 with varsdb.
    - auto with varsdb.
    - auto with varsdb.
    - intros r t _ _ h. exact h.
    - intros x r t _ _ _ h. exact h.
    - intros ((t & -> & Ht) & hv & _). cbn in hv. injection hv as hv.
      destruct mbf as [g|]; autorewrite with lcdb; rewrite (wit_one K s1 Hw1), <- hv.
      + rewrite (wit_ext K s s1) by auto. destruct Ht as [->|[-> ->]].
        * destruct t; cbn; ring.
        * cbn; ring.
      + destruct t; cbn; ring.
    - intros r t _ _ _ _ _ _ h. exact h. }
  intros [] s2 E2 Hw2 _. apply spec_ret; [exact Hw2|..].
  - cbn. split; [eapply allocated_ext; eassumption|auto].
  - intros x Hx [_ Hc] _. cbn [bvar]. destruct mbf as [g|]; autorewrite with lcdb in Hc; rewrite Hx in Hc.
    + replace ((0 + 1 - x (bvar g) - x v) * (0 + x v)) with ((1 - x (bvar g) - x v) * x v) in Hc by ring.
      destruct (f_integral K _ _ Hc) as [Q|Q]; [right|left; exact Q].
      lin Q.
    + apply bool_cases. rewrite <- Hc. ring.
  - intros _ ((_ & hv & _) & _). apply bit_witness_ok in hv. destruct hv as (t & -> & Ev).
    exists t. split; [reflexivity|]. unfold means; cbn. rewrite (wit_ext K s1 s2) by assumption. exact Ev.
Qed.
Lemma bit_alloc_spec value s : wf s ->
  spec (bit_alloc value) s
    (fun s' r => allocated s' (bvar r) /\ ~ allocated s (bvar r) /\ bval r = value)
    (fun x r => x (bvar r) = 0 \/ x (bvar r) = 1)
    (exists t, value = Some t) (fun s' r => b_honest s' (BIs r)).
Proof.
  intro Hw. eapply spec_conseq; [apply (bit_alloc_gen alloc None value s (spec_alloc K) Hw)|..]; auto.
  - intros g C; discriminate.
  - intros [t ->]. eauto.
Qed.
Lemma bit_alloc_input_spec value s : wf s ->
  spec (bit_alloc_input value) s
    (fun s' r => allocated s' (bvar r) /\ ~ allocated s (bvar r) /\ bval r = value)
    (fun x r => x (bvar r) = 0 \/ x (bvar r) = 1)
    (exists t, value = Some t) (fun s' r => b_honest s' (BIs r)).
Proof.
  intro Hw. eapply spec_conseq; [apply (bit_alloc_gen alloc_input None value s (spec_alloc_input K) Hw)|..]; auto.
  - intros g C; discriminate.
  - intros [t ->]. eauto.
Qed.
Lemma bit_alloc_cond_spec value g s : wf s -> allocated s (bvar g) ->
  spec (bit_alloc_cond value g) s
    (fun s' r => allocated s' (bvar r) /\ ~ allocated s (bvar r) /\ bval r = value)
    (fun x r => x (bvar r) = 0 \/ x (bvar r) = 1 - x (bvar g))
    (exists t, value = Some t /\ (wit s (bvar g) = 0 \/ (wit s (bvar g) = 1 /\ t = false)))
    (fun s' r => b_honest s' (BIs r)).
Proof.
  intros Hw Hg. apply (bit_alloc_gen alloc (Some g) value s (spec_alloc K) Hw).
  intros g' E. injection E as <-. exact Hg.
Qed.
Lemma means_of_bit x v : x (bvar v) = 0 \/ x (bvar v) = 1 -> exists t, means x (BIs v) t.
Proof. intros [H|H]; [exists false|exists true]; exact H. Qed.

(** ** equality *)
Lemma b_enforce_equal_spec a b s : wf s -> b_alloc_in s a -> b_alloc_in s b ->
  match b_enforce_equal a b s with
  | Ok (_, s') => ext s s' /\ wf s' /\ md s' = md s /\ inps s' = inps s /\ auxs s' = auxs s /\
      (forall x, sat x s' <-> sat x s /\ bden x a = bden x b)
  | Err e => e = Unsatisfiable /\ exists c, a = BConst c /\ b = BConst (negb c)
  | Panic => False
  end.
Proof.
  intros Hw Aa Ab.
  assert (forall L, vars_in K (allocated s) L ->
    (forall x, x ONE = 1 -> (eval x L = 0 <-> bden x a = bden x b)) ->
    match enforce lc_zero lc_zero L s with
    | Ok (_, s') => ext s s' /\ wf s' /\ md s' = md s /\ inps s' = inps s /\ auxs s' = auxs s /\
       (forall x, sat x s' <-> sat x s /\ bden x a = bden x b)
    | Err e => e = Unsatisfiable /\ exists c, a = BConst c /\ b = BConst (negb c)
    | Panic => False
    end) as A.
  { intros L VL HL. pose proof (spec_enforce K lc_zero lc_zero L s Hw (vars_zero _ _) (vars_zero _ _) VL) as Sp.
    unfold spec in Sp. cbn [enforce] in *. destruct Sp as (E & Hw' & _). repeat (split; [assumption || reflexivity|]).
    intro x. unfold sat. cbn [cons]. rewrite Forall_app. split.
    - intros [H1 [H2 H3]]. inversion H3 as [|? ? Hc _]; subst. unfold holds in Hc; cbn [ca cb cc] in Hc.
      split; [auto|]. apply HL; [exact H1|]. rewrite <- Hc, eval_zero. ring.
    - intros [[H1 H2] H3]. split; [exact H1|]. split; [exact H2|]. constructor; [|constructor].
      unfold holds; cbn [ca cb cc]. apply HL in H3; [|exact H1]. rewrite H3, eval_zero. ring. }
  destruct a as [a|a|ca], b as [b|b|cb]; unfold b_enforce_equal;
    try destruct ca; try destruct cb; cbn [Bool.eqb];
    try (apply A; [auto 10 using vars_b_lc with varsdb|];
         intros x Hx; autorewrite with lcdb; rewrite !eval_b_lc by exact Hx; rewrite ?Hx; cbn [bden];
         cbn iota; split; intro H; lin H).
  - unfold ret. do 5 (split; [auto using ext_refl || reflexivity|]). intro x; tauto.
  - unfold fail. split; [reflexivity|]. exists true. auto.
  - unfold fail. split; [reflexivity|]. exists false. auto.
  - unfold ret. do 5 (split; [auto using ext_refl || reflexivity|]). intro x; tauto.
Qed.
Lemma b_enforce_equal_consts c s : b_enforce_equal (BConst c) (BConst (negb c)) s = Err Unsatisfiable.
Proof. destruct c; reflexivity. Qed.
Lemma b_not_full x b t : means x b t -> means x (b_not b) (negb t) /\ b_value (b_not b) = option_map negb (b_value b).
Proof. intro H. split; [apply means_not, H|apply b_not_value]. Qed.
End P.
