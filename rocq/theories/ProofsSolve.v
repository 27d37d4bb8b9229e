(** Building satisfying assignments step by step, and a few facts used by several gadgets. *)
From Verif Require Import Field ModelLC SpecLC ProofsLC ModelCS SpecCS ProofsCS ModelOperator SpecOperator ProofsOperator.
Local Open Scope fld_scope.

Section R.
Variable K : Fld.
Add Field Kf : (f_laws K).
Implicit Types (s : cs K) (x : var -> K).

Lemma continues_refl s x : continues s x x. Proof. intros v _; reflexivity. Qed.
Lemma continues_trans s s1 x x1 x2 : ext s s1 -> continues s x x1 -> continues s1 x1 x2 -> continues s x x2.
Proof. intros E A B v Hv. rewrite (B v (allocated_ext K _ _ _ E Hv)). apply A, Hv. Qed.

(** [step m s Pre W P]: running [m] from [s] extends it, and every satisfying assignment of [s]
    with [Pre] can be continued to one of the result with [P]. *)
Definition step {A} (m : M K A) s (Pre : (var -> K) -> Prop) (W : cs K -> A -> Prop) (P : (var -> K) -> (var -> K) -> A -> Prop) : Prop :=
  match m s with
  | Ok (r, s') => ext s s' /\ wf s' /\ W s' r /\ forall x, sat x s -> Pre x -> exists x', continues s x x' /\ sat x' s' /\ P x x' r
  | _ => True
  end.
Lemma step_bind {A B} (m : M K A) (k : A -> M K B) s Pre W1 P1 W2 (P2 : _ -> _ -> _ -> Prop) :
  step m s Pre W1 P1 ->
  (forall r s1, ext s s1 -> wf s1 -> W1 s1 r -> step (k r) s1 (fun x1 => exists x, sat x s /\ Pre x /\ continues s x x1 /\ P1 x x1 r) W2
     (fun x1 x2 b => forall x, sat x s -> Pre x -> continues s x x1 -> P1 x x1 r -> P2 x x2 b)) ->
  step (bind m k) s Pre W2 P2.
Proof.
  unfold step, bind. intros H1 H2. destruct (m s) as [[r s1]| |]; auto. destruct H1 as (E1 & Hw1 & HW & H1).
  specialize (H2 r s1 E1 Hw1 HW). destruct (k r s1) as [[b s2]| |]; auto. destruct H2 as (E2 & Hw2 & HW2 & H2).
  split; [eapply ext_trans; eassumption|]. split; [exact Hw2|]. split; [exact HW2|]. intros x Hx HP.
  destruct (H1 x Hx HP) as (x1 & C1 & S1 & Q1). destruct (H2 x1 S1) as (x2 & C2 & S2 & Q2); [eauto 10|].
  exists x2. split; [exact (continues_trans s s1 x x1 x2 E1 C1 C2)|]. split; [exact S2|]. apply Q2; assumption.
Qed.
Lemma step_conseq {A} (m : M K A) s (Pre Pre' : _ -> Prop) (W : _ -> _ -> Prop) P (W' : _ -> _ -> Prop) (P' : _ -> _ -> _ -> Prop) : step m s Pre W P ->
  (forall x, sat x s -> Pre' x -> Pre x) ->
  (forall r s', ext s s' -> wf s' -> W s' r -> W' s' r) ->
  (forall x x' r s', ext s s' -> W s' r -> continues s x x' -> sat x s -> sat x' s' -> Pre' x -> P x x' r -> P' x x' r) -> step m s Pre' W' P'.
Proof.
  unfold step. destruct (m s) as [[r s']| |]; auto. intros (E & Hw & HW & H) H0 H1 H2. split; [exact E|]. split; [exact Hw|].
  split; [auto|]. intros x Hx Px. destruct (H x Hx (H0 x Hx Px)) as (x' & C & Sx & Q). exists x'. split; [exact C|]. split; [exact Sx|]. eapply H2; eassumption.
Qed.
Lemma step_ret {A} (a : A) s (Pre : _ -> Prop) (W : cs K -> A -> Prop) (P : _ -> _ -> _ -> Prop) : wf s -> W s a -> (forall x, sat x s -> Pre x -> P x x a) -> step (ret a) s Pre W P.
Proof.
  intros Hw HW HP. unfold step, ret. split; [apply ext_refl|]. split; [exact Hw|]. split; [exact HW|]. intros x Hx Px. exists x.
  split; [apply continues_refl|]. split; [exact Hx|]. auto.
Qed.
(** A constraint over allocated variables that holds already. *)
Lemma step_enforce (a b c : lc K) s (Pre : _ -> Prop) : wf s -> vars_in K (allocated s) a -> vars_in K (allocated s) b -> vars_in K (allocated s) c ->
  (forall x, sat x s -> Pre x -> eval x a * eval x b = eval x c) ->
  step (enforce a b c) s Pre (fun s' _ => inps s' = inps s /\ auxs s' = auxs s) (fun x x' _ => x' = x).
Proof.
  intros Hw Ha Hb Hc HE. unfold step, enforce.
  split; [repeat split; cbn; [exists []|exists []|exists [mkC a b c]]; rewrite ?app_nil_r; reflexivity|].
  pose proof (spec_enforce K a b c s Hw Ha Hb Hc) as Sp. unfold spec, enforce in Sp. destruct Sp as (_ & Sp & _).
  split; [exact Sp|]. split; [split; reflexivity|]. intros x Hx Px. exists x. split; [apply continues_refl|]. split; [|reflexivity].
  destruct Hx as [H1 H2]. split; [exact H1|]. cbn [cons]. apply Forall_app. split; [exact H2|]. constructor; [|constructor].
  unfold holds. cbn [ca cb cc]. apply HE; [split; assumption|exact Px].
Qed.
Definition set_var (x : var -> K) (v : var) (y : K) : var -> K := fun w => if var_eqb v w then y else x w.
Lemma set_var_same x v y : set_var x v y v = y.
Proof. unfold set_var. destruct (var_eqb v v) eqn:E; [reflexivity|]. exfalso. destruct v; cbn in E; rewrite Nat.eqb_refl in E; discriminate. Qed.
Lemma set_var_other x v y w : v <> w -> set_var x v y w = x w.
Proof. intro N. unfold set_var. destruct (var_eqb v w) eqn:E; [|reflexivity]. exfalso. apply N. destruct v, w; cbn in E; try discriminate; apply Nat.eqb_eq in E; congruence. Qed.
(** A fresh variable takes any value. *)
Lemma step_alloc (f : res K) s Pre (g : (var -> K) -> K) : wf s ->
  step (alloc f) s Pre (fun s' v => v = Aux (length (auxs s)) /\ allocated s' v /\ inps s' = inps s /\ length (auxs s') = Datatypes.S (length (auxs s))) (fun x x' v => x' v = g x).
Proof.
  intro Hw. assert (forall y, step (fun s => Ok (Aux (length (auxs s)), mkCS (md s) (inps s) (auxs s ++ [y]) (cons s))) s Pre
     (fun s' v => v = Aux (length (auxs s)) /\ allocated s' v /\ inps s' = inps s /\ length (auxs s') = Datatypes.S (length (auxs s))) (fun x x' v => x' v = g x)) as G.
  { intro y. unfold step. split; [repeat split; cbn; [exists []|exists [y]|exists []]; rewrite ?app_nil_r; reflexivity|].
    split; [apply wf_alloc_aux; exact Hw|]. split; [cbn; rewrite app_length; cbn; split; [reflexivity|]; split; [lia|]; split; [reflexivity|lia]|].
    intros x Hx _. set (v := Aux (length (auxs s))). exists (set_var x v (g x)).
    assert (continues s x (set_var x v (g x))) as C.
    { intros w Hwd. apply set_var_other. intros <-. cbn in Hwd. lia. }
    split; [exact C|]. split; [|apply set_var_same]. pose proof (sat_continues K s _ _ Hw C Hx) as [A B]. split; [exact A|exact B]. }
  unfold step, alloc in *. specialize (G (match f with Ok y => y | _ => 0 end)) as G1. specialize (G 0).
  destruct (md s); [exact G|]. destruct f; [exact G1|exact I|exact I].
Qed.
Lemma step_alloc_input (f : res K) s Pre (g : (var -> K) -> K) : wf s ->
  step (alloc_input f) s Pre (fun s' v => v = Input (length (inps s)) /\ allocated s' v /\ auxs s' = auxs s /\ length (inps s') = Datatypes.S (length (inps s))) (fun x x' v => x' v = g x).
Proof.
  intro Hw. assert (forall y, step (fun s => Ok (Input (length (inps s)), mkCS (md s) (inps s ++ [y]) (auxs s) (cons s))) s Pre
     (fun s' v => v = Input (length (inps s)) /\ allocated s' v /\ auxs s' = auxs s /\ length (inps s') = Datatypes.S (length (inps s))) (fun x x' v => x' v = g x)) as G.
  { intro y. unfold step. split; [repeat split; cbn; [exists [y]|exists []|exists []]; rewrite ?app_nil_r; reflexivity|].
    split; [apply wf_alloc_inp; exact Hw|]. split; [cbn; rewrite app_length; cbn; split; [reflexivity|]; split; [lia|]; split; [reflexivity|lia]|].
    intros x Hx _. set (v := Input (length (inps s))). exists (set_var x v (g x)).
    assert (continues s x (set_var x v (g x))) as C.
    { intros w Hwd. apply set_var_other. intros <-. cbn in Hwd. lia. }
    split; [exact C|]. split; [|apply set_var_same]. pose proof (sat_continues K s _ _ Hw C Hx) as [A B]. split; [exact A|exact B]. }
  unfold step, alloc_input in *. specialize (G (match f with Ok y => y | _ => 0 end)) as G1. specialize (G 0).
  destruct (md s); [exact G|]. destruct f; [exact G1|exact I|exact I].
Qed.

(** Adding facts read off the run itself. *)
Lemma spec_and {A} (m : M K A) s W S H HR (W' : _ -> _ -> Prop) : spec m s W S H HR ->
  (forall r s', m s = Ok (r, s') -> W' s' r) -> spec m s (fun s' r => W s' r /\ W' s' r) S H HR.
Proof. unfold spec. intros Sp HW. destruct (m s) as [[r s']| |]; auto. destruct Sp as (A1 & A2 & A3 & A4). auto 10. Qed.
Lemma spec_alloc' (f : res K) s : wf s -> f <> Panic ->
  spec (alloc f) s (fun s' v => allocated s' v /\ (v = Aux (length (auxs s)) /\ length (auxs s') = Datatypes.S (length (auxs s)) /\ inps s' = inps s)) (fun _ _ => True)
    (exists y, f = Ok y) (fun s' v => f = Ok (wit s' v)).
Proof.
  intros Hw Hf. apply spec_and.
  - eapply spec_conseq; [apply spec_alloc; assumption|..]; cbn; intuition.
  - intros r s' E. unfold alloc in E. destruct (md s); [|destruct f]; inversion E; subst; cbn; rewrite app_length; cbn; (split; [reflexivity|split; [lia|reflexivity]]).
Qed.
Lemma spec_enforce' (a b c : lc K) s : wf s ->
  vars_in K (allocated s) a -> vars_in K (allocated s) b -> vars_in K (allocated s) c ->
  spec (enforce a b c) s (fun s' _ => True /\ (auxs s' = auxs s /\ inps s' = inps s))
    (fun x _ => x ONE = 1 /\ eval x a * eval x b = eval x c)
    (eval (wit s) a * eval (wit s) b = eval (wit s) c) (fun _ _ => True).
Proof.
  intros. apply spec_and; [apply spec_enforce; assumption|]. intros r s' E. unfold enforce in E. inversion E; subst. auto.
Qed.
Lemma wit_same s s' v : ext s s' -> allocated s v -> wit s' v = wit s v.
Proof. intros E A. apply wit_ext; assumption. Qed.
End R.
Ltac vars := repeat first [apply vars_zero | apply vars_add_var | apply vars_sub_var | apply vars_add_term | apply vars_sub_term | apply vars_add | apply vars_sub | apply one_allocated].
