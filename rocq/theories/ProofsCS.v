(** Proof rules for synthesis code. *)
From Verif Require Import Field ModelLC SpecLC ProofsLC ModelCS SpecCS.
Local Open Scope fld_scope.

Section P.
Variable K : Fld.
Add Field Kf : (f_laws K).
Implicit Types (s : cs K) (x : var -> K).

Lemma ext_refl s : ext s s.
Proof. repeat split; exists []; rewrite app_nil_r; reflexivity. Qed.
Lemma ext_trans s t u : ext s t -> ext t u -> ext s u.
Proof.
  intros (A & [i B] & [a C] & [c D]) (A' & [i' B'] & [a' C'] & [c' D']). repeat split.
  - congruence.
  - exists (i ++ i'). rewrite B', B, app_assoc. reflexivity.
  - exists (a ++ a'). rewrite C', C, app_assoc. reflexivity.
  - exists (c ++ c'). rewrite D', D, app_assoc. reflexivity.
Qed.
Lemma ext_md s t : ext s t -> md t = md s.
Proof. intros (A & _). exact A. Qed.
Lemma allocated_ext s t v : ext s t -> allocated s v -> allocated t v.
Proof.
  intros (_ & [i B] & [a C] & _). destruct v; cbn; rewrite ?B, ?C, app_length; lia.
Qed.
Lemma wit_ext s t v : ext s t -> allocated s v -> wit t v = wit s v.
Proof.
  intros (_ & [i B] & [a C] & _). destruct v; cbn; rewrite ?B, ?C; intro H; apply app_nth1; exact H.
Qed.
Lemma sat_ext s t x : ext s t -> sat x t -> sat x s.
Proof.
  intros (_ & _ & _ & [c D]) [H1 H2]. split; [exact H1|]. rewrite D in H2.
  apply Forall_app in H2. tauto.
Qed.
Lemma one_allocated s : wf s -> allocated s ONE.
Proof. intros [[r E] _]. cbn. rewrite E. cbn. lia. Qed.
Lemma wit_one s : wf s -> wit s ONE = 1.
Proof. intros [[r E] _]. cbn. rewrite E. reflexivity. Qed.
Lemma vars_in_mono (P Q : var -> Prop) (l : lc K) : (forall v, P v -> Q v) -> vars_in K P l -> vars_in K Q l.
Proof. intros H. apply Forall_impl. auto. Qed.
Lemma c_in_mono (P Q : var -> Prop) (c : constraint K) : (forall v, P v -> Q v) -> c_in P c -> c_in Q c.
Proof. intros H (A & B & C). repeat split; eapply Forall_impl; try eassumption; cbn; auto. Qed.
Lemma eval_wit_ext s t l : ext s t -> vars_in K (allocated s) l -> eval (wit t) l = eval (wit s) l.
Proof. intros E H. eapply eval_ext; [exact H|]. intros v Hv. apply wit_ext; assumption. Qed.
Lemma holds_wit_ext s t c : ext s t -> c_in (allocated s) c -> holds (wit s) c -> holds (wit t) c.
Proof.
  intros E (A & B & C) H. unfold holds in *. rewrite !(eval_wit_ext s t) by assumption. exact H.
Qed.
Lemma wf_new m : wf (cs_new (K:=K) m).
Proof. split; [exists []; reflexivity|constructor]. Qed.
Lemma self_sat_new m : self_sat (cs_new (K:=K) m).
Proof. split; [reflexivity|constructor]. Qed.

Lemma spec_conseq {A} (m : M K A) s (W W' : _ -> _ -> Prop) (S S' : _ -> _ -> Prop) (H H' : Prop) (HR HR' : _ -> _ -> Prop) :
  spec m s W S H HR ->
  (forall r s', ext s s' -> wf s' -> W s' r -> W' s' r) ->
  (forall x r s', ext s s' -> W s' r -> x ONE = 1 -> S x r -> S' x r) ->
  (H' -> H) ->
  (forall r s', ext s s' -> wf s' -> W s' r -> md s = Prove -> H' -> S (wit s') r -> HR s' r -> HR' s' r) ->
  spec m s W' S' H' HR'.
Proof.
  unfold spec. intros Sp HW HS HH HHR. destruct (m s) as [[r s']|e|].
  - destruct Sp as (A1 & A2 & A3 & A4 & A5). split; [exact A1|]. split; [exact A2|].
    split; [apply HW; assumption|]. split.
    + intros x Hx. apply (HS x r s'); auto. apply Hx.
    + intros Hp ss h. destruct (A5 Hp ss (HH h)) as [B1 B2]. split; [exact B1|].
      apply (HHR r s'); auto.
  - destruct Sp as [Sp1 Sp2]. split; [exact Sp1|]. intros ss h. exact (Sp2 ss (HH h)).
  - exact Sp.
Qed.
Lemma spec_ret {A} (a : A) s (W : _ -> _ -> Prop) (S : _ -> _ -> Prop) (H : Prop) (HR : _ -> _ -> Prop) :
  wf s -> W s a -> (forall x, x ONE = 1 -> S x a) -> (md s = Prove -> H -> HR s a) -> spec (ret a) s W S H HR.
Proof.
  intros Hw HW HS HHR. unfold spec, ret. split; [apply ext_refl|]. split; [exact Hw|]. split; [exact HW|].
  split; [intros x [Hx _]; auto|auto].
Qed.
Lemma spec_bind {A B} (m : M K A) (k : A -> M K B) s W1 S1 (H : Prop) HR1 W2 (S2 : _ -> _ -> Prop) HR2 :
  spec m s W1 S1 H HR1 ->
  (forall r s', ext s s' -> wf s' -> W1 s' r ->
     spec (k r) s' W2 (fun x y => S1 x r -> S2 x y) (H /\ HR1 s' r /\ S1 (wit s') r) HR2) ->
  spec (bind m k) s W2 S2 H HR2.
Proof.
  unfold spec, bind. intros Sp Hk. destruct (m s) as [[r s']|e|]; [|exact Sp|exact Sp].
  destruct Sp as (A1 & A2 & A3 & A4 & A5). specialize (Hk r s' A1 A2 A3).
  destruct (k r s') as [[r2 s2]|e|]; [| |exact Hk].
  - destruct Hk as (B1 & B2 & B3 & B4 & B5). split; [eapply ext_trans; eassumption|].
    split; [exact B2|]. split; [exact B3|]. split.
    + intros x Hx. apply (B4 x Hx). apply A4. eapply sat_ext; eassumption.
    + intros Hp ss h. destruct (A5 Hp ss h) as [C1 C2]. rewrite <- (ext_md _ _ A1) in Hp.
      destruct (B5 Hp C1 (conj h (conj C2 (A4 _ C1)))) as [D1 D2]. split; auto.
  - destruct Hk as [Hp Hn]. rewrite (ext_md _ _ A1) in Hp. split; [exact Hp|].
    intros ss h. destruct (A5 Hp ss h) as [C1 C2]. apply Hn; auto.
Qed.

Lemma wf_alloc_aux s y : wf s -> wf (mkCS (md s) (inps s) (auxs s ++ [y]) (cons s)).
Proof.
  intros [H1 H2]. split; [exact H1|]. eapply Forall_impl; [|exact H2]. intros c.
  apply c_in_mono. intros [n|n]; cbn; rewrite ?app_length; cbn; lia.
Qed.
Lemma wf_alloc_inp s y : wf s -> wf (mkCS (md s) (inps s ++ [y]) (auxs s) (cons s)).
Proof.
  intros [[r E] H2]. split; [exists (r ++ [y]); cbn; rewrite E; reflexivity|].
  eapply Forall_impl; [|exact H2]. intros c.
  apply c_in_mono. intros [n|n]; cbn; rewrite ?app_length; cbn; lia.
Qed.
Lemma self_sat_ext s t : ext s t -> wf s -> wf t -> cons t = cons s -> self_sat s -> self_sat t.
Proof.
  intros E Hs Ht Hc [H1 H2]. split; [apply wit_one; exact Ht|]. rewrite Hc.
  destruct Hs as [_ Hs]. rewrite Forall_forall in *. intros c I.
  eapply holds_wit_ext; [exact E|auto|auto].
Qed.
Lemma spec_alloc (f : res K) s : wf s -> f <> Panic ->
  spec (alloc f) s (fun s' v => allocated s' v /\ ~ allocated s v) (fun _ _ => True)
    (exists y, f = Ok y) (fun s' v => f = Ok (wit s' v)).
Proof.
  intros Hw Hf. unfold spec, alloc.
  assert (forall y, ext s (mkCS (md s) (inps s) (auxs s ++ [y]) (cons s))) as E.
  { intro y. repeat split; cbn; [exists []|exists [y]|exists []]; rewrite ?app_nil_r; reflexivity. }
  destruct (md s) eqn:Em in |- *.
  - rewrite <- Em. split; [apply E|]. split; [apply wf_alloc_aux; exact Hw|].
    split; [cbn; rewrite app_length; cbn; lia|]. split; [auto|]. intros C; congruence.
  - destruct f as [y|e|]; [| |congruence].
    + rewrite <- Em. split; [apply E|]. split; [apply wf_alloc_aux; exact Hw|].
      split; [cbn; rewrite app_length; cbn; lia|]. split; [auto|]. intros _ ss _. split.
      * revert ss. apply self_sat_ext; [apply E|exact Hw|apply wf_alloc_aux; exact Hw|reflexivity].
      * cbn. rewrite app_nth2, Nat.sub_diag by lia. reflexivity.
    + split; [reflexivity|]. intros _ [y Hy]. discriminate.
Qed.
Lemma spec_alloc_input (f : res K) s : wf s -> f <> Panic ->
  spec (alloc_input f) s (fun s' v => allocated s' v /\ ~ allocated s v) (fun _ _ => True)
    (exists y, f = Ok y) (fun s' v => f = Ok (wit s' v)).
Proof.
  intros Hw Hf. unfold spec, alloc_input.
  assert (forall y, ext s (mkCS (md s) (inps s ++ [y]) (auxs s) (cons s))) as E.
  { intro y. repeat split; cbn; [exists [y]|exists []|exists []]; rewrite ?app_nil_r; reflexivity. }
  destruct (md s) eqn:Em in |- *.
  - rewrite <- Em. split; [apply E|]. split; [apply wf_alloc_inp; exact Hw|].
    split; [cbn; rewrite app_length; cbn; lia|]. split; [auto|]. intros C; congruence.
  - destruct f as [y|e|]; [| |congruence].
    + rewrite <- Em. split; [apply E|]. split; [apply wf_alloc_inp; exact Hw|].
      split; [cbn; rewrite app_length; cbn; lia|]. split; [auto|]. intros _ ss _. split.
      * revert ss. apply self_sat_ext; [apply E|exact Hw|apply wf_alloc_inp; exact Hw|reflexivity].
      * cbn. rewrite app_nth2, Nat.sub_diag by lia. reflexivity.
    + split; [reflexivity|]. intros _ [y Hy]. discriminate.
Qed.
Lemma spec_enforce (a b c : lc K) s : wf s ->
  vars_in K (allocated s) a -> vars_in K (allocated s) b -> vars_in K (allocated s) c ->
  spec (enforce a b c) s (fun _ _ => True)
    (fun x _ => x ONE = 1 /\ eval x a * eval x b = eval x c)
    (eval (wit s) a * eval (wit s) b = eval (wit s) c) (fun _ _ => True).
Proof.
  intros Hw Ha Hb Hc. unfold spec, enforce.
  split; [repeat split; cbn; [exists []|exists []|exists [mkC a b c]]; rewrite ?app_nil_r; reflexivity|].
  split.
  { destruct Hw as [H1 H2]. split; [exact H1|]. cbn. apply Forall_app. split; [exact H2|].
    constructor; [|constructor]. repeat split; assumption. }
  split; [exact I|]. split.
  - intros x [H1 H2]. cbn in H2. apply Forall_app in H2. destruct H2 as [_ H2].
    inversion H2; subst. split; assumption.
  - intros _ [H1 H2] H. split; [|exact I]. split; [exact H1|]. cbn.
    apply Forall_app. split; [exact H2|]. constructor; [exact H|constructor].
Qed.

(** Loops. *)
Lemma spec_mapM {A B} (f : A -> M K B) (l : list A) s
  (W : cs K -> A -> B -> Prop) (S : (var -> K) -> A -> B -> Prop) (H : A -> cs K -> Prop) (HR : cs K -> A -> B -> Prop) :
  wf s ->
  (forall s t a b, ext s t -> W s a b -> W t a b) ->
  (forall s t a b, ext s t -> wf s -> wf t -> W s a b -> HR s a b -> HR t a b) ->
  (forall s t a, ext s t -> H a s -> H a t) ->
  (forall a s', In a l -> ext s s' -> wf s' -> spec (f a) s' (fun t r => W t a r) (fun x r => S x a r) (H a s') (fun t r => HR t a r)) ->
  spec (mapM f l) s (fun t rs => Forall2 (W t) l rs) (fun x rs => Forall2 (S x) l rs)
    (forall a, In a l -> H a s) (fun t rs => Forall2 (HR t) l rs).
Proof.
  intros Hw HWm HHRm HHm. revert s Hw. induction l as [|a l IH]; intros s Hw Hf; cbn [mapM].
  - apply spec_ret; auto; intros; constructor.
  - eapply spec_bind.
    + eapply spec_conseq; [apply (Hf a s); [left; reflexivity|apply ext_refl|exact Hw]|..].
      * intros r s' _ _ h. exact h.
      * intros x r s' _ _ _ h. exact h.
      * intro h. apply h. left; reflexivity.
      * intros r s' _ _ _ _ _ _ h. exact h.
    + intros r s' E Hw' HW. cbn beta in *. eapply spec_bind.
      * eapply spec_conseq; [apply (IH s' Hw')|..].
        -- intros b t Ib Et Ht. apply Hf; [right; exact Ib| |exact Ht]. eapply ext_trans; eassumption.
        -- intros rs t _ _ h. exact h.
        -- intros x rs t _ _ _ h. exact h.
        -- intros [h _] b Ib. eapply HHm; [exact E|]. apply h. right; exact Ib.
        -- intros rs t _ _ _ _ _ _ h. exact h.
      * intros rs t Et Ht HWs. cbn beta in *. apply spec_ret; [exact Ht| | |].
        -- constructor; [eapply HWm; eassumption|exact HWs].
        -- intros x _ h1 h2. constructor; auto.
        -- intros _ [[_ [h1 _]] [h2 _]]. constructor; [eapply HHRm; eassumption|exact h2].
Qed.
End P.


(** Hint databases: evaluating built combinations and collecting their variables. *)
Create HintDb lcdb.
#[export] Hint Rewrite eval_zero eval_of eval_var eval_neg eval_double eval_scale eval_add_term eval_sub_term
  eval_add_var eval_sub_var eval_add eval_sub eval_add_scaled eval_sub_scaled : lcdb.
Create HintDb varsdb.
#[export] Hint Resolve vars_zero vars_of vars_var vars_neg vars_double vars_scale vars_add_term vars_sub_term
  vars_add_var vars_sub_var vars_add vars_sub vars_add_scaled vars_sub_scaled : varsdb.
#[export] Hint Resolve one_allocated : varsdb.
