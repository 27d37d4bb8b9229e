(** Proofs about field-element variables and table lookups. *)
From Verif Require Import Field ModelLC SpecLC ProofsLC ModelCS SpecCS ProofsCS ModelBoolean SpecBoolean ProofsBoolean ModelOperator SpecOperator.
Local Open Scope fld_scope.

Section R.
Variable K : Fld.
Add Field Kf : (f_laws K).
Implicit Types (s : cs K) (x : var -> K).

(** Sequencing with a stronger premise for the first part; facts about satisfying assignments
    are available to the rest. *)
Lemma spec_seq {A B} (m : M K A) (k : A -> M K B) s (W1 : _ -> _ -> Prop) (S1 : _ -> _ -> Prop) (H1 H : Prop) (HR1 : _ -> _ -> Prop) W2 (S2 : _ -> _ -> Prop) HR2 :
  spec m s W1 S1 H1 HR1 -> (H -> H1) ->
  (forall r s', ext s s' -> wf s' -> W1 s' r -> (forall x, sat x s' -> S1 x r) ->
     spec (k r) s' W2 S2 (H /\ md s = Prove /\ self_sat s' /\ HR1 s' r) HR2) ->
  spec (bind m k) s W2 S2 H HR2.
Proof.
  unfold spec, bind. intros Sp HH Hk. destruct (m s) as [[r s']|e|]; [| |exact Sp].
  - destruct Sp as (A1 & A2 & A3 & A4 & A5). specialize (Hk r s' A1 A2 A3 A4).
    destruct (k r s') as [[r2 s2]|e|]; [| |exact Hk].
    + destruct Hk as (B1 & B2 & B3 & B4 & B5). split; [eapply ext_trans; eassumption|].
      split; [exact B2|]. split; [exact B3|]. split; [exact B4|].
      intros Hp ss h. destruct (A5 Hp ss (HH h)) as [C1 C2].
      destruct (B5 (eq_trans (ext_md K _ _ A1) Hp) C1 (conj h (conj Hp (conj C1 C2)))) as [D1 D2]. split; auto.
    + destruct Hk as [Hp Hn]. rewrite (ext_md K _ _ A1) in Hp. split; [exact Hp|].
      intros ss h. destruct (A5 Hp ss (HH h)) as [C1 C2]. apply Hn; auto.
  - destruct Sp as [A1 A2]. split; [exact A1|]. intros ss h. exact (A2 ss (HH h)).
Qed.
(** A satisfied system's own constraints, seen later. *)
Lemma later_sat s s' x : ext s s' -> sat x s' -> sat x s. Proof. apply sat_ext. Qed.
Lemma spec_ret' {A} (a : A) s (W : _ -> _ -> Prop) (S : _ -> _ -> Prop) (H : Prop) (HR : _ -> _ -> Prop) :
  wf s -> W s a -> (forall x, sat x s -> S x a) -> (md s = Prove -> self_sat s -> H -> HR s a) -> spec (ret a) s W S H HR.
Proof. intros Hw HW HS HHR. unfold spec, ret. split; [apply ext_refl|]. split; [exact Hw|]. split; [exact HW|]. split; [exact HS|]. intros; split; auto. Qed.

Lemma fr_honest_ext s t a : ext s t -> fr_in s a -> fr_honest s a -> fr_honest t a.
Proof. intros E A. unfold fr_honest. rewrite (wit_ext K s t) by assumption. auto. Qed.
Lemma fr_alloc_gen (al : res K -> M K var) f s :
  spec (al f) s (fun s' v => allocated s' v /\ ~ allocated s v) (fun _ _ => True) (exists y, f = Ok y) (fun s' v => f = Ok (wit s' v)) ->
  spec (v <- al f ;; r <- if_called (match f with Ok y => Some y | _ => None end) ;; ret (mkFr r v)) s
    (fun s' a => fr_in s' a /\ ~ allocated s (fvar a)) (fun _ _ => True)
    (exists y, f = Ok y) (fun s' a => fr_honest s' a /\ f = Ok (wit s' (fvar a))).
Proof.
  intro Sp. eapply spec_seq; [exact Sp|auto|]. intros v s1 E1 Hw1 [A1 A2] _. cbn beta.
  eapply spec_seq; [apply spec_if_called; exact Hw1|auto|]. intros r s2 E2 Hw2 _ _. cbn beta.
  apply spec_ret'; [exact Hw2| |auto|].
  - split; [eapply allocated_ext; eassumption|exact A2].
  - intros _ _ ((_ & _ & _ & E) & _ & _ & ->). cbn [fvar]. unfold fr_honest. cbn [fval fvar].
    rewrite (wit_ext K s1 s2) by assumption. rewrite E. auto.
Qed.
Lemma fr_alloc_spec f s : wf s -> f <> Panic ->
  spec (fr_alloc f) s (fun s' a => fr_in s' a /\ ~ allocated s (fvar a)) (fun _ _ => True)
    (exists y, f = Ok y) (fun s' a => fr_honest s' a /\ f = Ok (wit s' (fvar a))).
Proof. intros Hw Hf. apply (fr_alloc_gen alloc), spec_alloc; assumption. Qed.
Lemma fr_alloc_input_spec f s : wf s -> f <> Panic ->
  spec (fr_alloc_input f) s (fun s' a => fr_in s' a /\ ~ allocated s (fvar a)) (fun _ _ => True)
    (exists y, f = Ok y) (fun s' a => fr_honest s' a /\ f = Ok (wit s' (fvar a))).
Proof. intros Hw Hf. apply (fr_alloc_gen alloc_input), spec_alloc_input; assumption. Qed.

Lemma ok_or_np {A} (o : option A) e : ok_or o e <> Panic. Proof. destruct o; discriminate. Qed.
Ltac vars := repeat first [apply vars_zero | apply vars_add_var | apply vars_sub_var | apply vars_add_term | apply vars_sub_term | apply vars_add | apply vars_sub | apply vars_b_lc | apply one_allocated].

(** The fresh public input equals the variable. *)
Lemma fr_inputize_spec a s : wf s -> fr_in s a ->
  spec (fr_inputize a) s (fun s' _ => inps s' = inps s ++ skipn (length (inps s)) (inps s') /\ length (inps s') = Datatypes.S (length (inps s)))
    (fun x _ => x (Input (length (inps s))) = x (fvar a)) (fr_honest s a)
    (fun s' _ => wit s' (Input (length (inps s))) = wit s (fvar a)).
Proof.
  intros Hw Ha.
  assert (spec (fr_inputize a) s (fun _ _ => True)
    (fun x _ => x (Input (length (inps s))) = x (fvar a)) (fr_honest s a)
    (fun s' _ => wit s' (Input (length (inps s))) = wit s (fvar a))) as Sp.
  { unfold fr_inputize.
    assert (forall v s', alloc_input (ok_or (fval a) AssignmentMissing) s = Ok (v, s') -> v = Input (length (inps s))) as EQ.
    { unfold alloc_input. destruct (md s); [|destruct (ok_or _ _)]; intros v s' E; try discriminate E; injection E as <- _; reflexivity. }
    assert (spec (alloc_input (ok_or (fval a) AssignmentMissing)) s
      (fun s' v => allocated s' v /\ v = Input (length (inps s))) (fun _ _ => True) (fr_honest s a) (fun s' v => wit s' v = wit s (fvar a))) as Sa.
    { pose proof (spec_alloc_input K _ s Hw (ok_or_np (fval a) AssignmentMissing)) as P. unfold spec in *.
      destruct (alloc_input (ok_or (fval a) AssignmentMissing) s) as [[v s']|e|] eqn:E; [| |exact P].
      - destruct P as (P1 & P2 & P3 & P4 & P5). split; [exact P1|]. split; [exact P2|]. split; [split; [apply P3|eapply EQ; reflexivity]|].
        split; [exact P4|]. intros Hp ss h. destruct (P5 Hp ss) as [Q1 Q2]; [rewrite h; eexists; reflexivity|].
        split; [exact Q1|]. rewrite h in Q2. cbn in Q2. congruence.
      - destruct P as [P1 P2]. split; [exact P1|]. intros ss h. apply P2; [exact ss|]. rewrite h. eexists; reflexivity. }
    eapply spec_seq; [exact Sa|auto|]. intros v s1 E1 Hw1 [A1 ->] _. cbn beta.
    assert (allocated s1 (fvar a)) as A2 by (eapply allocated_ext; eassumption).
    eapply spec_conseq; [apply (spec_enforce K _ _ _ s1 Hw1)|..]; [vars; auto..| | | |].
    - auto.
    - intros x [] s2 _ _ H1 [_ H2]. autorewrite with lcdb in H2. rewrite H1 in H2. transitivity ((0 + x (Input (length (inps s)))) * (0 + 1)); [ring|]. rewrite H2. ring.
    - intros (_ & _ & _ & E). autorewrite with lcdb. rewrite E, (wit_one K s1 Hw1), (wit_ext K s s1) by assumption. ring.
    - intros [] s2 E2 Hw2 _ _ (_ & _ & _ & E) _ _. rewrite (wit_ext K s1 s2) by assumption. exact E. }
  unfold spec in *. unfold fr_inputize, bind, alloc_input, enforce in *.
  destruct (md s); [|destruct (ok_or (fval a) AssignmentMissing)]; try exact Sp; cbn [inps] in *;
    destruct Sp as (S1 & S2 & _ & S4 & S5); (split; [exact S1|split; [exact S2|split; [|split; [exact S4|exact S5]]]]);
    rewrite skipn_app, skipn_all, Nat.sub_diag, app_length; cbn; (split; [reflexivity|lia]).
Qed.
(** Non-zero assertion. *)
Lemma fr_isnonzero_spec a s : wf s -> fr_in s a ->
  spec (fr_isnonzero a) s (fun _ _ => True) (fun x _ => x (fvar a) <> 0) (fr_honest s a /\ wit s (fvar a) <> 0) (fun _ _ => True).
Proof.
  intros Hw Ha. unfold fr_isnonzero. eapply spec_seq; [apply (spec_alloc K)|..].
  - exact Hw.
  - destruct (fval a) as [t|]; [destruct (feqb t 0)|]; discriminate.
  - intros [h n]. rewrite h. apply feqb_neq in n. rewrite n. eauto.
  - intros v s1 E1 Hw1 [A1 _] _. cbn beta.
    assert (allocated s1 (fvar a)) as A2 by (eapply allocated_ext; eassumption).
    eapply spec_conseq; [apply (spec_enforce K _ _ _ s1 Hw1)|..]; [vars; auto..| | | |]; auto.
    + intros x [] s2 _ _ H1 [_ H2] C. autorewrite with lcdb in H2. rewrite C, H1 in H2.
      apply (f_1_neq_0 K). transitivity (0 + 1 : K); [ring|]. rewrite <- H2. ring.
    + intros ((h & n) & _ & _ & E). rewrite h in E. pose proof n as n'. apply feqb_neq in n'. rewrite n' in E. injection E as E.
      autorewrite with lcdb. rewrite <- E, (wit_one K s1 Hw1), (wit_ext K s s1) by assumption. rewrite <- (finv_r K _ n). ring.
Qed.

Lemma fr_isnonzero_zero (a : afr K) s : md s = Prove -> fval a = Some 0 -> fr_isnonzero a s = Err DivisionByZero.
Proof. intros Hm Ha. unfold fr_isnonzero, bind, alloc. rewrite Ha, Hm, (proj2 (feqb_eq K 0 0) eq_refl). reflexivity. Qed.

(** ** Lookups *)
Lemma sat_continues s x x' : wf s -> continues s x x' -> sat x s -> sat x' s.
Proof.
  intros Hw C [H1 H2]. split; [rewrite C by (apply one_allocated; exact Hw); exact H1|].
  destruct Hw as [_ Hc]. rewrite Forall_forall in *. intros c I. specialize (Hc c I). specialize (H2 c I).
  destruct Hc as (A & B & D). unfold holds in *.
  rewrite (eval_ext K x' x _ (allocated s)), (eval_ext K x' x (cb c) (allocated s)), (eval_ext K x' x (cc c) (allocated s)); auto.
Qed.
Lemma bden_continues s x x' b : continues s x x' -> b_alloc_in s b -> bden x' b = bden x b.
Proof. intros C A. destruct b; cbn in *; rewrite ?C by exact A; reflexivity. Qed.

Lemma lookup1_unsound b c0 c1 s : wf s -> b_alloc_in s b ->
  match lookup1_x b [c0; c1] s with
  | Ok (r, s') => forall x y, sat x s -> exists x', continues s x x' /\ sat x' s' /\ x' (fvar r) = y
  | Err _ => md s = Prove /\ b_value b = None
  | Panic => False
  end.
Proof.
  intros Hw Hb.
  assert (forall e, match fr_alloc (Ok e) s with
     | Ok (r, s') => forall x y, sat x s -> exists x', continues s x x' /\ sat x' s' /\ x' (fvar r) = y
     | _ => False end) as FA.
  { intro e. unfold fr_alloc, alloc, bind, if_called, ret.
    destruct (md s); cbn; intros x y Hx;
    (exists (fun v => match v with Aux n => if Nat.eqb n (length (auxs s)) then y else x v | _ => x v end);
     assert (continues s x (fun v => match v with Aux n => if Nat.eqb n (length (auxs s)) then y else x v | _ => x v end)) as C
       by (intros [n|n] A; [reflexivity|]; cbn in A; destruct (Nat.eqb_spec n (length (auxs s))); [lia|reflexivity]);
     split; [exact C|]; split; [|rewrite Nat.eqb_refl; reflexivity];
     destruct (sat_continues s x _ Hw C Hx) as [S1 S2]; split; [exact S1|exact S2]). }
  assert (forall c, b = BConst c -> match lookup1_x b [c0; c1] s with
  | Ok (r, s') => forall x y, sat x s -> exists x', continues s x x' /\ sat x' s' /\ x' (fvar r) = y
  | Err _ => md s = Prove /\ b_value b = None
  | Panic => False end) as CC.
  { intros c ->. cbn [lookup1_x]. destruct c; [specialize (FA c1)|specialize (FA c0)]; destruct (fr_alloc _ s) as [[r s']| |]; tauto. }
  assert (match (tv <- fr_alloc (Ok c1) ;; fv <- fr_alloc (Ok c0) ;;
          r <- fr_alloc (ok_or (match b_value b with
                                | Some cond => if cond then fval tv else fval fv
                                | None => None end) AssignmentMissing) ;;
          enforce (b_lc b 1)
                  (lc_sub_var (lc_add_var lc_zero (fvar tv)) (fvar fv))
                  (lc_sub_var (lc_add_var lc_zero (fvar r)) (fvar fv)) ;;;
          ret r) s with
  | Ok (r, s') => forall x y, sat x s -> exists x', continues s x x' /\ sat x' s' /\ x' (fvar r) = y
  | Err _ => md s = Prove /\ b_value b = None
  | Panic => False end) as GG.
  2: { destruct b as [b|b|c]; [exact GG|exact GG|apply (CC c eq_refl)]. }
  set (na := length (auxs s)).
  assert (forall x y, sat x s -> let x' := (fun v => match v with Aux n => if Nat.ltb n na then x v else y | _ => x v end) in
    continues s x x' /\ sat x' s /\ x' (Aux na) = y /\ x' (Aux (na + 1)%nat) = y /\ x' (Aux (na + 2)%nat) = y) as XX.
  { intros x y Hx x'. assert (continues s x x') as C.
    { intros [n|n] A; [reflexivity|]. cbn in A. unfold x'. destruct (Nat.ltb_spec n na); [reflexivity|unfold na in *; lia]. }
    split; [exact C|]. split; [eapply sat_continues; eassumption|]. unfold x'.
    repeat split; match goal with |- context [Nat.ltb ?a ?b] => destruct (Nat.ltb_spec a b); [lia|reflexivity] end. }
  assert (forall x y s', cons s' = cons s ++ [mkC (b_lc b 1) (lc_sub_var (lc_add_var lc_zero (Aux na)) (Aux (na + 1)))
      (lc_sub_var (lc_add_var lc_zero (Aux (na + 2))) (Aux (na + 1)))] -> sat x s -> exists x', continues s x x' /\ sat x' s' /\ x' (Aux (na + 2)%nat) = y) as FIN.
  { intros x y s' EC Hx. destruct (XX x y Hx) as (C & [S1 S2] & Y0 & Y1 & Y2). eexists. split; [exact C|]. split; [|exact Y2].
    split; [exact S1|]. rewrite EC. apply Forall_app. split; [exact S2|]. constructor; [|constructor].
    unfold holds. cbn [ca cb cc]. autorewrite with lcdb. rewrite Y0, Y1, Y2. ring. }
  assert (length ((auxs s ++ [c1]) ++ [c0]) = (na + 2)%nat /\ length (auxs s ++ [c1]) = (na + 1)%nat /\
          length ((auxs s ++ [0]) ++ [0]) = (na + 2)%nat /\ length (auxs s ++ [0]) = (na + 1)%nat) as (L1 & L2 & L3 & L4).
  { unfold na. rewrite !app_length. cbn. lia. }
  unfold bind, fr_alloc, alloc, if_called, ret, bind, enforce. destruct (md s) eqn:Em; cbn.
  - intros x y Hx. destruct (FIN x y (mkCS Setup (inps s) (((auxs s ++ [0]) ++ [0]) ++ [0]) (cons s ++ [mkC (b_lc b 1) (lc_sub_var (lc_add_var lc_zero (Aux na)) (Aux (na + 1)))
      (lc_sub_var (lc_add_var lc_zero (Aux (na + 2))) (Aux (na + 1)))])) eq_refl Hx) as (x' & P).
    exists x'. rewrite ?L3, ?L4. exact P.
  - destruct (b_value b) as [cond|]; cbn; [|split; reflexivity].
    destruct cond; cbn; intros x y Hx;
    match goal with |- context [(auxs s ++ [c1]) ++ [c0]] =>
    destruct (FIN x y (mkCS Prove (inps s) ((auxs s ++ [c1]) ++ [c0]) (cons s ++ [mkC (b_lc b 1) (lc_sub_var (lc_add_var lc_zero (Aux na)) (Aux (na + 1)))
      (lc_sub_var (lc_add_var lc_zero (Aux (na + 2))) (Aux (na + 1)))])) eq_refl Hx) as (x' & P) end;
    exists x'; rewrite ?L1, ?L2; exact P.
Qed.

(** Table entry selected by truth values, least significant first. *)
Lemma eval_b x b c t : x ONE = 1 -> means x b t -> eval x (b_lc b c) = c * (if t then 1 else 0).
Proof. intros H M. rewrite eval_b_lc by exact H. rewrite M. reflexivity. Qed.
Lemma sub_solve (a b c : K) : a = b + c -> b = a - c. Proof. intros ->. ring. Qed.

Lemma lookup2_con_spec b0 b1 c0 c1 c2 c3 r s : wf s -> b_alloc_in s b0 -> b_alloc_in s b1 -> allocated s r ->
  spec (lookup2_con b0 b1 c0 c1 c2 c3 r) s (fun _ _ => True)
    (fun x _ => forall t0 t1, means x b0 t0 -> means x b1 t1 -> nth_error [c0; c1; c2; c3] (pos2 t0 t1) = Some (x r))
    (exists t0 t1, means (wit s) b0 t0 /\ means (wit s) b1 t1 /\ nth_error [c0; c1; c2; c3] (pos2 t0 t1) = Some (wit s r)) (fun _ _ => True).
Proof.
  intros Hw B0 B1 Ar. unfold lookup2_con. eapply spec_conseq; [apply (spec_enforce K _ _ _ s Hw)|..]; [vars; auto..| | | |]; auto.
  - intros x [] s' _ _ Hx [_ H] t0 t1 M0 M1. autorewrite with lcdb in H. rewrite !(eval_b x b1 _ t1), !(eval_b x b0 _ t0), Hx in H by assumption.
    destruct t0, t1; cbn [pos2 Nat.add nth_error]; f_equal; apply fsub_0;
      match type of H with ?l = ?r0 => transitivity (l - r0); [ring|]; apply fsub_0; exact H end.
  - intros (t0 & t1 & M0 & M1 & E). autorewrite with lcdb. pose proof (wit_one K s Hw) as Hx.
    rewrite !(eval_b _ b1 _ t1), !(eval_b _ b0 _ t0), Hx by assumption.
    destruct t0, t1; cbn [pos2 Nat.add nth_error] in E; injection E as <-; ring.
Qed.
Lemma pick_np {A} (f : A -> K) c i : (forall n, i = Some n -> (n < length c)%nat) -> pick f c i <> Panic.
Proof.
  intros H. destruct i as [n|]; cbn; [|discriminate]. specialize (H n eq_refl). apply nth_error_Some in H.
  destruct (nth_error c n); [discriminate|congruence].
Qed.
Lemma index2_lt b0 b1 n : index2 b0 b1 = Some n -> (n < 4)%nat.
Proof. unfold index2. destruct (b_value b0) as [[]|], (b_value b1) as [[]|]; intro E; try discriminate E; injection E as <-; lia. Qed.
Lemma index3_lt b0 b1 b2 n : index3 b0 b1 b2 = Some n -> (n < 8)%nat.
Proof. unfold index3. destruct (b_value b0) as [[]|], (b_value b1) as [[]|], (b_value b2) as [[]|]; intro E; try discriminate E; injection E as <-; lia. Qed.
Lemma pick_ok {A} (f : A -> K) c n y : pick f c (Some n) = Ok y <-> nth_error (map f c) n = Some y.
Proof. cbn. rewrite nth_error_map. destruct (nth_error c n); cbn; split; congruence. Qed.
Lemma honest_index2 s b0 b1 : b_honest s b0 -> b_honest s b1 -> exists t0 t1, means (wit s) b0 t0 /\ means (wit s) b1 t1 /\ index2 b0 b1 = Some (pos2 t0 t1).
Proof. intros (t0 & E0 & M0) (t1 & E1 & M1). exists t0, t1. unfold index2. rewrite E0, E1. auto. Qed.
Lemma honest_index3 s b0 b1 b2 : b_honest s b0 -> b_honest s b1 -> b_honest s b2 ->
  exists t0 t1 t2, means (wit s) b0 t0 /\ means (wit s) b1 t1 /\ means (wit s) b2 t2 /\ index3 b0 b1 b2 = Some (pos3 t0 t1 t2).
Proof. intros (t0 & E0 & M0) (t1 & E1 & M1) (t2 & E2 & M2). exists t0, t1, t2. unfold index3. rewrite E0, E1, E2. auto. Qed.
Lemma pick_some {A} (f : A -> K) c n : (n < length c)%nat -> exists y, pick f c (Some n) = Ok y.
Proof. intro H. apply nth_error_Some in H. cbn. destruct (nth_error c n) as [y|]; [eexists; reflexivity|congruence]. Qed.
Lemma pos2_lt t0 t1 : (pos2 t0 t1 < 4)%nat. Proof. destruct t0, t1; cbn; lia. Qed.
Lemma pos3_lt t0 t1 t2 : (pos3 t0 t1 t2 < 8)%nat. Proof. destruct t0, t1, t2; cbn; lia. Qed.

Theorem lookup2_x_spec b0 b1 c s : wf s -> b_alloc_in s b0 -> b_alloc_in s b1 -> length c = 4%nat ->
  spec (lookup2_x [b0; b1] c) s fr_in
    (fun x r => forall t0 t1, means x b0 t0 -> means x b1 t1 -> nth_error c (pos2 t0 t1) = Some (x (fvar r)))
    (b_honest s b0 /\ b_honest s b1) fr_honest.
Proof.
  intros Hw B0 B1 L. destruct c as [|c0 [|c1 [|c2 [|c3 [|]]]]]; try discriminate L. cbn [lookup2_x].
  eapply spec_seq; [apply fr_alloc_spec|..].
  - exact Hw.
  - apply pick_np. intros n E. apply index2_lt in E. exact E.
  - intros [h0 h1]. destruct (honest_index2 s b0 b1 h0 h1) as (t0 & t1 & _ & _ & E). rewrite E.
    apply pick_some. apply pos2_lt.
  - intros r s1 E1 Hw1 [A1 _] _. cbn beta.
    assert (b_alloc_in s1 b0) as B0' by (eapply bit_alloc_ext; eassumption).
    assert (b_alloc_in s1 b1) as B1' by (eapply bit_alloc_ext; eassumption).
    eapply spec_seq; [apply (lookup2_con_spec b0 b1 c0 c1 c2 c3 (fvar r) s1); auto|..].
    + intros ((h0 & h1) & _ & _ & _ & E). destruct (honest_index2 s b0 b1 h0 h1) as (t0 & t1 & M0 & M1 & EI).
      exists t0, t1. split; [eapply means_ext; eassumption|]. split; [eapply means_ext; eassumption|].
      rewrite EI in E. apply pick_ok in E. rewrite map_id in E. exact E.
    + intros [] s2 E2 Hw2 _ Sx. cbn beta. apply spec_ret'; [exact Hw2| |exact Sx|].
      * eapply allocated_ext; eassumption.
      * intros _ _ ((_ & _ & _ & h & _) & _). eapply fr_honest_ext; eassumption.
Qed.
Theorem lookup2_xy_spec b0 b1 c s : wf s -> b_alloc_in s b0 -> b_alloc_in s b1 -> length c = 4%nat ->
  spec (lookup2_xy [b0; b1] c) s (fun t r => fr_in t (fst r) /\ fr_in t (snd r))
    (fun x r => forall t0 t1, means x b0 t0 -> means x b1 t1 -> nth_error c (pos2 t0 t1) = Some (x (fvar (fst r)), x (fvar (snd r))))
    (b_honest s b0 /\ b_honest s b1) (fun t r => fr_honest t (fst r) /\ fr_honest t (snd r)).
Proof.
  intros Hw B0 B1 L. destruct c as [|c0 [|c1 [|c2 [|c3 [|]]]]]; try discriminate L. cbn [lookup2_xy].
  eapply spec_seq; [apply fr_alloc_spec|..].
  - exact Hw.
  - apply pick_np. intros n E. apply index2_lt in E. exact E.
  - intros [h0 h1]. destruct (honest_index2 s b0 b1 h0 h1) as (t0 & t1 & _ & _ & E). rewrite E.
    apply pick_some. apply pos2_lt.
  - intros rx s1 E1 Hw1 [A1 _] _. cbn beta. eapply spec_seq; [apply fr_alloc_spec|..].
    + exact Hw1.
    + apply pick_np. intros n E. apply index2_lt in E. exact E.
    + intros ([h0 h1] & _). destruct (honest_index2 s b0 b1 h0 h1) as (t0 & t1 & _ & _ & E). rewrite E.
      apply pick_some. apply pos2_lt.
    + intros ry s2 E2 Hw2 [A2 _] _. cbn beta.
      assert (ext s s2) as E02 by (eapply ext_trans; eassumption).
      assert (b_alloc_in s2 b0) as B0' by (eapply bit_alloc_ext; eassumption).
      assert (b_alloc_in s2 b1) as B1' by (eapply bit_alloc_ext; eassumption).
      assert (allocated s2 (fvar rx)) as A1' by exact (allocated_ext K s1 s2 _ E2 A1).
      eapply spec_seq; [apply (lookup2_con_spec b0 b1 (fst c0) (fst c1) (fst c2) (fst c3) (fvar rx) s2); auto|..].
      * intros (((h0 & h1) & _ & _ & _ & E) & _). destruct (honest_index2 s b0 b1 h0 h1) as (t0 & t1 & M0 & M1 & EI).
        exists t0, t1. split; [eapply means_ext; [exact E02| |]; eassumption|]. split; [eapply means_ext; [exact E02| |]; eassumption|].
        rewrite EI in E. apply pick_ok in E. cbn [map] in E. rewrite (wit_ext K s1 s2) by assumption. exact E.
      * intros [] s3 E3 Hw3 _ Sx. cbn beta.
        assert (ext s s3) as E03 by (eapply ext_trans; eassumption).
        eapply spec_seq; [apply (lookup2_con_spec b0 b1 (snd c0) (snd c1) (snd c2) (snd c3) (fvar ry) s3); auto|..].
        -- eapply bit_alloc_ext; [exact E03|exact B0].
        -- eapply bit_alloc_ext; [exact E03|exact B1].
        -- exact (allocated_ext K s2 s3 _ E3 A2).
        -- intros (((h & _) & _ & _ & _ & E) & _). destruct h as [h0 h1]. destruct (honest_index2 s b0 b1 h0 h1) as (t0 & t1 & M0 & M1 & EI).
           exists t0, t1. split; [eapply means_ext; [exact E03| |]; eassumption|]. split; [eapply means_ext; [exact E03| |]; eassumption|].
           rewrite EI in E. apply pick_ok in E. cbn [map] in E. rewrite (wit_ext K s2 s3) by assumption. exact E.
        -- intros [] s4 E4 Hw4 _ Sy. cbn beta.
           assert (ext s1 s4) as E14 by (do 2 (eapply ext_trans; [eassumption|]); eassumption).
           assert (ext s2 s4) as E24 by (eapply ext_trans; eassumption).
           apply spec_ret'; [exact Hw4| | |].
           ++ split; cbn [fst snd]; [exact (allocated_ext K s1 s4 _ E14 A1)|exact (allocated_ext K s2 s4 _ E24 A2)].
           ++ intros x Hx t0 t1 M0 M1. specialize (Sy x Hx t0 t1 M0 M1). specialize (Sx x (sat_ext K _ _ _ E4 Hx) t0 t1 M0 M1). cbn [fst snd].
              destruct t0, t1; cbn in *; injection Sx as <-; injection Sy as <-; rewrite <- surjective_pairing; reflexivity.
           ++ intros _ _ ((((_ & _ & _ & h1 & _) & _ & _ & h2 & _) & _) & _). cbn [fst snd].
              split; [exact (fr_honest_ext s1 s4 _ E14 A1 h1)|exact (fr_honest_ext s2 s4 _ E24 A2 h2)].
Qed.

(** The coefficients computed by [synth] for eight entries. *)
Lemma synth8 (c : list K) : length c = 8%nat -> exists k, synth 3 c (repeat 0 8) = Ok k /\
  forall t0 t1 t2 : bool, let b (t : bool) : K := if t then 1 else 0 in
  nth_error c (pos3 t0 t1 t2) = Some (
    (nth 1 k 0 + b t1 * nth 3 k 0 + b t2 * nth 5 k 0 + b (andb t1 t2) * nth 7 k 0) * b t0 +
    nth 0 k 0 + b t1 * nth 2 k 0 + b t2 * nth 4 k 0 + b (andb t1 t2) * nth 6 k 0).
Proof.
  intro L. destruct c as [|c0 [|c1 [|c2 [|c3 [|c4 [|c5 [|c6 [|c7 [|]]]]]]]]]; try discriminate L.
  eexists. split; [cbv -[f0 fadd fopp]; reflexivity|]. intros t0 t1 t2. destruct t0, t1, t2; cbv -[f0 f1 fadd fopp fmul]; f_equal; ring.
Qed.
Lemma lift_res_ok {A B} (a : A) (k : A -> M K B) s W S H HR : spec (k a) s W S H HR -> spec (bind (lift_res (Ok a)) k) s W S H HR.
Proof. intro h. exact h. Qed.
Lemma lookup3_con_spec b0 b1 b2 pre (c k : list K) r s : wf s -> b_alloc_in s b0 -> b_alloc_in s b1 -> b_alloc_in s b2 -> b_alloc_in s pre -> allocated s r ->
  (forall t0 t1 t2 : bool, let b (t : bool) : K := if t then 1 else 0 in
  nth_error c (pos3 t0 t1 t2) = Some (
    (nth 1 k 0 + b t1 * nth 3 k 0 + b t2 * nth 5 k 0 + b (andb t1 t2) * nth 7 k 0) * b t0 +
    nth 0 k 0 + b t1 * nth 2 k 0 + b t2 * nth 4 k 0 + b (andb t1 t2) * nth 6 k 0)) ->
  spec (lookup3_con b0 b1 b2 pre k r) s (fun _ _ => True)
    (fun x _ => forall t0 t1 t2, means x b0 t0 -> means x b1 t1 -> means x b2 t2 -> means x pre (andb t1 t2) -> nth_error c (pos3 t0 t1 t2) = Some (x r))
    (exists t0 t1 t2, means (wit s) b0 t0 /\ means (wit s) b1 t1 /\ means (wit s) b2 t2 /\ means (wit s) pre (andb t1 t2) /\
       nth_error c (pos3 t0 t1 t2) = Some (wit s r)) (fun _ _ => True).
Proof.
  intros Hw B0 B1 B2 BP Ar HK. unfold lookup3_con. eapply spec_conseq; [apply (spec_enforce K _ _ _ s Hw)|..]; [vars; auto..| | | |]; auto.
  - intros x [] s' _ _ Hx [_ H] t0 t1 t2 M0 M1 M2 MP. autorewrite with lcdb in H.
    rewrite !(eval_b x b1 _ t1), !(eval_b x b0 _ t0), !(eval_b x b2 _ t2), !(eval_b x pre _ (andb t1 t2)), Hx in H by assumption.
    rewrite HK. f_equal. cbv zeta. apply fsub_0.
    match type of H with ?l = ?r0 => transitivity (l - r0); [ring|]; apply fsub_0; exact H end.
  - intros (t0 & t1 & t2 & M0 & M1 & M2 & MP & E). autorewrite with lcdb. pose proof (wit_one K s Hw) as Hx.
    rewrite !(eval_b _ b1 _ t1), !(eval_b _ b0 _ t0), !(eval_b _ b2 _ t2), !(eval_b _ pre _ (andb t1 t2)), Hx by assumption.
    rewrite HK in E. injection E as <-. ring.
Qed.
Theorem lookup3_x_spec b0 b1 b2 c s : wf s -> b_alloc_in s b0 -> b_alloc_in s b1 -> b_alloc_in s b2 -> length c = 8%nat ->
  spec (lookup3_x [b0; b1; b2] c) s fr_in
    (fun x r => forall t0 t1 t2, means x b0 t0 -> means x b1 t1 -> means x b2 t2 -> nth_error c (pos3 t0 t1 t2) = Some (x (fvar r)))
    (b_honest s b0 /\ b_honest s b1 /\ b_honest s b2) fr_honest.
Proof.
  intros Hw B0 B1 B2 L. unfold lookup3_x. rewrite L. cbn [Nat.eqb].
  destruct (synth8 c L) as (k & Ek & HK). rewrite Ek.
  eapply spec_seq; [apply fr_alloc_spec|..].
  - exact Hw.
  - apply pick_np. intros n E. apply index3_lt in E. lia.
  - intros (h0 & h1 & h2). destruct (honest_index3 s b0 b1 b2 h0 h1 h2) as (t0 & t1 & t2 & _ & _ & _ & E). rewrite E.
    apply pick_some. rewrite L. apply pos3_lt.
  - intros r s1 E1 Hw1 [A1 _] _. cbn beta. apply lift_res_ok.
    assert (b_alloc_in s1 b1) as B1' by (eapply bit_alloc_ext; eassumption).
    assert (b_alloc_in s1 b2) as B2' by (eapply bit_alloc_ext; eassumption).
    eapply spec_seq; [apply (b_and_spec K b1 b2 s1 Hw1 B1' B2')|..].
    + intros ((h0 & h1 & h2) & _). split; eapply b_honest_ext; eassumption.
    + intros pre s2 E2 Hw2 AP SP. cbn beta.
      assert (ext s s2) as E02 by (eapply ext_trans; eassumption).
      eapply spec_seq; [apply (lookup3_con_spec b0 b1 b2 pre c k (fvar r) s2)|..].
      * exact Hw2.
      * eapply bit_alloc_ext; [exact E02|assumption].
      * eapply bit_alloc_ext; [exact E02|assumption].
      * eapply bit_alloc_ext; [exact E02|assumption].
      * exact AP.
      * exact (allocated_ext K s1 s2 _ E2 A1).
      * exact HK.
      * intros (((h0 & h1 & h2) & _ & _ & _ & E) & _ & ss2 & _). destruct (honest_index3 s b0 b1 b2 h0 h1 h2) as (t0 & t1 & t2 & M0 & M1 & M2 & EI).
        exists t0, t1, t2. split; [eapply means_ext; [exact E02| |]; eassumption|].
        assert (means (wit s2) b1 t1) as M1' by (eapply means_ext; [exact E02| |]; eassumption).
        assert (means (wit s2) b2 t2) as M2' by (eapply means_ext; [exact E02| |]; eassumption).
        split; [exact M1'|]. split; [exact M2'|]. split; [apply (SP _ ss2); assumption|].
        rewrite EI in E. apply pick_ok in E. rewrite map_id in E. rewrite (wit_ext K s1 s2) by assumption. exact E.
      * intros [] s3 E3 Hw3 _ Sx. cbn beta. assert (ext s1 s3) as E13 by (eapply ext_trans; eassumption). apply spec_ret'; [exact Hw3| | |].
        -- exact (allocated_ext K s1 s3 _ E13 A1).
        -- intros x Hx t0 t1 t2 M0 M1 M2. apply (Sx x Hx); auto. apply (SP x (sat_ext K _ _ _ E3 Hx)); auto.
        -- intros _ _ (((_ & _ & _ & h & _) & _) & _). exact (fr_honest_ext s1 s3 _ E13 A1 h).
Qed.
Lemma nth_error_fst_snd (c : list (K * K)) n a b : nth_error (map fst c) n = Some a -> nth_error (map snd c) n = Some b -> nth_error c n = Some (a, b).
Proof. rewrite !nth_error_map. destruct (nth_error c n) as [[u v]|]; cbn; congruence. Qed.
Theorem lookup3_xy_spec b0 b1 b2 c s : wf s -> b_alloc_in s b0 -> b_alloc_in s b1 -> b_alloc_in s b2 -> length c = 8%nat ->
  spec (lookup3_xy [b0; b1; b2] c) s (fun t r => fr_in t (fst r) /\ fr_in t (snd r))
    (fun x r => forall t0 t1 t2, means x b0 t0 -> means x b1 t1 -> means x b2 t2 ->
       nth_error c (pos3 t0 t1 t2) = Some (x (fvar (fst r)), x (fvar (snd r))))
    (b_honest s b0 /\ b_honest s b1 /\ b_honest s b2) (fun t r => fr_honest t (fst r) /\ fr_honest t (snd r)).
Proof.
  intros Hw B0 B1 B2 L. unfold lookup3_xy. rewrite L. cbn [Nat.eqb].
  destruct (synth8 (map fst c)) as (kx & Ekx & HKx); [rewrite map_length; exact L|]. rewrite Ekx.
  destruct (synth8 (map snd c)) as (ky & Eky & HKy); [rewrite map_length; exact L|]. rewrite Eky.
  assert (b_honest s b0 /\ b_honest s b1 /\ b_honest s b2 -> forall f : K * K -> K, exists y, pick f c (index3 b0 b1 b2) = Ok y) as PK.
  { intros (h0 & h1 & h2) f. destruct (honest_index3 s b0 b1 b2 h0 h1 h2) as (t0 & t1 & t2 & _ & _ & _ & E). rewrite E.
    apply pick_some. rewrite L. apply pos3_lt. }
  eapply spec_seq; [apply fr_alloc_spec|..].
  - exact Hw.
  - apply pick_np. intros n E. apply index3_lt in E. lia.
  - intro h. apply PK, h.
  - intros rx s1 E1 Hw1 [A1 _] _. cbn beta. eapply spec_seq; [apply fr_alloc_spec|..].
    + exact Hw1.
    + apply pick_np. intros n E. apply index3_lt in E. lia.
    + intros [h _]. apply PK, h.
    + intros ry s2 E2 Hw2 [A2 _] _. cbn beta. apply lift_res_ok, lift_res_ok.
      assert (ext s s2) as E02 by (eapply ext_trans; eassumption).
      assert (b_alloc_in s2 b1) as B1' by (eapply bit_alloc_ext; [exact E02|assumption]).
      assert (b_alloc_in s2 b2) as B2' by (eapply bit_alloc_ext; [exact E02|assumption]).
      eapply spec_seq; [apply (b_and_spec K b1 b2 s2 Hw2 B1' B2')|..].
      * intros (((h0 & h1 & h2) & _) & _). split; [apply (b_honest_ext K s s2)|apply (b_honest_ext K s s2)]; assumption.
      * intros pre s3 E3 Hw3 AP SP. cbn beta.
        assert (ext s s3) as E03 by (eapply ext_trans; eassumption).
        assert (ext s1 s3) as E13 by (eapply ext_trans; eassumption).
        assert (forall v s' t, ext s s' -> means (wit s) v t -> b_alloc_in s v -> means (wit s') v t) as ME.
        { intros v s' t E M A. eapply means_ext; [exact E|exact A|exact M]. }
        eapply spec_seq; [apply (lookup3_con_spec b0 b1 b2 pre (map fst c) kx (fvar rx) s3)|..].
        -- exact Hw3.
        -- eapply bit_alloc_ext; [exact E03|assumption].
        -- eapply bit_alloc_ext; [exact E03|assumption].
        -- eapply bit_alloc_ext; [exact E03|assumption].
        -- exact AP.
        -- exact (allocated_ext K s1 s3 _ E13 A1).
        -- exact HKx.
        -- intros ((((h0 & h1 & h2) & _ & _ & _ & E) & _) & _ & ss3 & _). destruct (honest_index3 s b0 b1 b2 h0 h1 h2) as (t0 & t1 & t2 & M0 & M1 & M2 & EI).
           exists t0, t1, t2. rewrite EI in E. apply pick_ok in E.
           split; [apply ME; auto|]. split; [apply ME; auto|]. split; [apply ME; auto|]. split; [apply (SP _ ss3); apply ME; auto|].
           rewrite (wit_ext K s1 s3) by assumption. exact E.
        -- intros [] s4 E4 Hw4 _ Sx. cbn beta.
           assert (ext s s4) as E04 by (eapply ext_trans; eassumption).
           assert (ext s2 s4) as E24 by (eapply ext_trans; eassumption).
           eapply spec_seq; [apply (lookup3_con_spec b0 b1 b2 pre (map snd c) ky (fvar ry) s4)|..].
           ++ exact Hw4.
           ++ exact (bit_alloc_ext K s s4 _ E04 B0).
           ++ exact (bit_alloc_ext K s s4 _ E04 B1).
           ++ exact (bit_alloc_ext K s s4 _ E04 B2).
           ++ exact (bit_alloc_ext K s3 s4 _ E4 AP).
           ++ exact (allocated_ext K s2 s4 _ E24 A2).
           ++ exact HKy.
           ++ intros (((((h0 & h1 & h2) & _) & _ & _ & _ & E) & _) & _ & ss4 & _). destruct (honest_index3 s b0 b1 b2 h0 h1 h2) as (t0 & t1 & t2 & M0 & M1 & M2 & EI).
              exists t0, t1, t2. rewrite EI in E. apply pick_ok in E.
              split; [apply ME; auto|]. split; [apply ME; auto|]. split; [apply ME; auto|].
              split; [apply (SP _ (sat_ext K _ _ _ E4 ss4)); apply ME; auto|].
              rewrite (wit_ext K s2 s4) by assumption. exact E.
           ++ intros [] s5 E5 Hw5 _ Sy. cbn beta.
              assert (ext s1 s5) as E15 by (do 2 (eapply ext_trans; [eassumption|]); eassumption).
              assert (ext s2 s5) as E25 by (eapply ext_trans; eassumption).
              assert (ext s3 s5) as E35 by (eapply ext_trans; eassumption).
              apply spec_ret'; [exact Hw5| | |].
              ** split; cbn [fst snd]; [exact (allocated_ext K s1 s5 _ E15 A1)|exact (allocated_ext K s2 s5 _ E25 A2)].
              ** intros x Hx t0 t1 t2 M0 M1 M2. cbn [fst snd].
                 assert (means x pre (andb t1 t2)) as MP by (apply (SP x (sat_ext K _ _ _ E35 Hx)); auto).
                 apply nth_error_fst_snd; [apply (Sx x (sat_ext K _ _ _ E5 Hx)); auto|apply (Sy x Hx); auto].
              ** intros _ _ (((((_ & _ & _ & h1 & _) & _ & _ & h2 & _) & _) & _) & _). cbn [fst snd].
                 split; [exact (fr_honest_ext s1 s5 _ E15 A1 h1)|exact (fr_honest_ext s2 s5 _ E25 A2 h2)].
Qed.
(** Wrong lengths stop synthesis. *)
Lemma lookup_panics (b : boolean) (bs : list boolean) (c : list K) (cc : list (K * K)) s :
  (length c <> 2%nat -> lookup1_x b c s = Panic) /\
  (length bs <> 2%nat \/ length c <> 4%nat -> lookup2_x bs c s = Panic) /\
  (length bs <> 2%nat \/ length cc <> 4%nat -> lookup2_xy bs cc s = Panic) /\
  (length bs <> 3%nat \/ length c <> 8%nat -> lookup3_x bs c s = Panic) /\
  (length bs <> 3%nat \/ length cc <> 8%nat -> lookup3_xy bs cc s = Panic).
Proof.
  repeat split.
  - destruct c as [|c0 [|c1 [|]]]; cbn [length]; intro H; try reflexivity; lia.
  - destruct bs as [|b0 [|b1 [|]]]; cbn [length]; intro H; try reflexivity.
    destruct c as [|c0 [|c1 [|c2 [|c3 [|]]]]]; cbn [length] in H; try reflexivity; lia.
  - destruct bs as [|b0 [|b1 [|]]]; cbn [length]; intro H; try reflexivity.
    destruct cc as [|c0 [|c1 [|c2 [|c3 [|]]]]]; cbn [length] in H; try reflexivity; lia.
  - destruct bs as [|b0 [|b1 [|b2 [|]]]]; cbn [length]; intro H; try reflexivity.
    unfold lookup3_x. destruct (Nat.eqb_spec (length c) 8); [lia|reflexivity].
  - destruct bs as [|b0 [|b1 [|b2 [|]]]]; cbn [length]; intro H; try reflexivity.
    unfold lookup3_xy. destruct (Nat.eqb_spec (length cc) 8); [lia|reflexivity].
Qed.
End R.
