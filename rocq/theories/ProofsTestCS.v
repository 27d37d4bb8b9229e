(** Proofs about the constraint system for testing: names, refinement, lookup, the search for a violated constraint. *)
From Coq Require Import String Ascii List NArith Lia.
Import ListNotations.
From Verif Require Import Field ModelLC SpecLC ModelCS SpecCS ModelTestCS SpecTestCS.
Local Open Scope list_scope.
Local Open Scope fld_scope.

(** ** Paths *)
Lemma has_slash_iff n : has_slash n = true <-> ~ plain n.
Proof.
  unfold plain. induction n as [|a r IH]; cbn [has_slash list_ascii_of_string In]; [split; [discriminate|intro H; exfalso; apply H; auto]|].
  destruct (Ascii.eqb_spec a "/"%char) as [->|N]; cbn [orb].
  - split; [intros _ H; apply H; left; reflexivity|reflexivity].
  - rewrite IH. split; intros H1 H2; apply H1; intros H3; apply H2; [right; exact H3|destruct H3 as [E|H3]; [contradiction|exact H3]].
Qed.
Lemma plain_dec n : has_slash n = false <-> plain n.
Proof.
  destruct (has_slash n) eqn:E.
  - apply has_slash_iff in E. split; [discriminate|contradiction].
  - split; [|reflexivity]. intros _ H. assert (X : has_slash n = true) by (apply has_slash_iff; intro P; exact (P H)). congruence.
Qed.
Fixpoint tail (l : list string) : string := match l with [] => EmptyString | n :: r => append "/" (append n (tail r)) end.
Lemma append_assoc a b c : append (append a b) c = append a (append b c).
Proof. induction a as [|x a IH]; [reflexivity|]. cbn. rewrite IH. reflexivity. Qed.
Lemma append_nil a : append a EmptyString = a.
Proof. induction a as [|x a IH]; [reflexivity|]. cbn. rewrite IH. reflexivity. Qed.
Lemma join_true l : forall name, join l name true = append name (tail l).
Proof. induction l as [|n r IH]; intro name; cbn [join tail]; [symmetry; apply append_nil|]. rewrite IH, !append_assoc. reflexivity. Qed.
Lemma concat_tail n r : String.concat "/" (n :: r) = append n (tail r).
Proof. revert n. induction r as [|m r IH]; intro n; [symmetry; apply append_nil|]. change (String.concat "/" (n :: m :: r)) with (append n (append "/" (String.concat "/" (m :: r)))). rewrite IH. reflexivity. Qed.
Lemma join_concat l : join l EmptyString false = String.concat "/" l.
Proof. destruct l as [|n r]; [reflexivity|]. rewrite concat_tail. cbn [join]. rewrite join_true. reflexivity. Qed.
Lemma compute_path_eq ns n : compute_path ns n = if has_slash n then Panic else Ok (path_of ns n).
Proof. unfold compute_path, path_of. rewrite join_concat. reflexivity. Qed.
Lemma cut_eq a : forall b r r', plain a -> plain b -> append a (tail r) = append b (tail r') -> a = b /\ tail r = tail r'.
Proof.
  induction a as [|x a IH]; intros [|y b] r r' Pa Pb E; cbn [append] in E.
  - auto.
  - exfalso. destruct r as [|n r]; cbn in E; [discriminate|]. injection E as E1 E2. apply Pb. left. symmetry. exact E1.
  - exfalso. destruct r' as [|n r']; cbn in E; [discriminate|]. injection E as E1 E2. apply Pa. left. exact E1.
  - injection E as -> E. destruct (IH b r r') as [-> H]; [intro; apply Pa; right; assumption|intro; apply Pb; right; assumption|exact E|]. auto.
Qed.
Lemma tail_inj r : forall r', Forall plain r -> Forall plain r' -> tail r = tail r' -> r = r'.
Proof.
  induction r as [|n r IH]; intros [|n' r'] P P' E; try reflexivity; try discriminate.
  cbn [tail append] in E. injection E as E. inversion P; subst. inversion P'; subst. destruct (cut_eq n n' r r') as [-> E']; try assumption. f_equal. apply IH; assumption.
Qed.
Theorem path_inj ns n ns' n' : Forall plain (n :: ns) -> Forall plain (n' :: ns') -> path_of ns n = path_of ns' n' -> ns = ns' /\ n = n'.
Proof.
  unfold path_of. intros P P' E. inversion P as [|? ? A B]; subst. inversion P' as [|? ? A' B']; subst.
  assert (Q : Forall plain (ns ++ [n])) by (apply Forall_app; auto). assert (Q' : Forall plain (ns' ++ [n'])) by (apply Forall_app; auto).
  destruct (ns ++ [n]) as [|x l] eqn:El; [destruct ns; discriminate|]. destruct (ns' ++ [n']) as [|x' l'] eqn:El'; [destruct ns'; discriminate|].
  rewrite !concat_tail in E. inversion Q; subst. inversion Q'; subst. destruct (cut_eq x x' l l') as [-> Et]; try assumption. apply tail_inj in Et; try assumption. subst l'.
  rewrite <- El' in El. apply app_inj_tail in El. exact El.
Qed.

Section T.
Variable K : Fld.
Add Field Kf : (f_laws K).
Notation tcs := (tcs K).
(** ** The map of named objects *)
Lemma look_none m p : look m p = None <-> ~ In p (map fst m).
Proof.
  induction m as [|[q o] r IH]; cbn [look map fst In]; [split; [intros _ []|reflexivity]|].
  destruct (String.eqb_spec q p) as [->|N]; [split; [discriminate|intro H; exfalso; apply H; left; reflexivity]|]. rewrite IH. split; [intros H [E|E]; contradiction|intros H E; apply H; right; exact E].
Qed.
Lemma look_some m p o : NoDup (map fst m) -> (look m p = Some o <-> In (p, o) m).
Proof.
  induction m as [|[q o'] r IH]; cbn [look map fst In]; intro D; [split; [discriminate|intros []]|]. inversion D as [|? ? N D']; subst.
  destruct (String.eqb_spec q p) as [->|Ne].
  - split; [intro E; injection E as ->; left; reflexivity|]. intros [E|E]; [injection E as ->; reflexivity|]. exfalso. apply N. apply (in_map fst) in E. exact E.
  - rewrite IH by exact D'. split; [auto|]. intros [E|E]; [injection E as -> _; contradiction|exact E].
Qed.
Lemma set_named_eq m p o : set_named m p o = if in_dec string_dec p (map fst m) then Panic else Ok ((p, o) :: m).
Proof.
  unfold set_named. destruct (look m p) eqn:E; destruct (in_dec string_dec p (map fst m)) as [I|I]; try reflexivity.
  - apply look_none in I. congruence.
  - apply look_none in E. contradiction.
Qed.
(** ** When an operation panics *)
Lemma alloc_panic n f s : t_alloc K n f s = Panic <-> ~ plain n \/ f = Panic \/ ((exists x, f = Ok x) /\ taken s (path_of (t_ns K s) n)).
Proof.
  unfold t_alloc, taken. rewrite compute_path_eq. destruct (has_slash n) eqn:E; cbn [rbind].
  - apply has_slash_iff in E. split; [left; exact E|reflexivity].
  - apply plain_dec in E. destruct f as [x|e|]; cbn [rbind].
    + rewrite set_named_eq. destruct (in_dec _ _ _) as [I|I]; cbn [rbind].
      * split; [intros _; right; right; split; [exists x; reflexivity|exact I]|reflexivity].
      * split; [discriminate|]. intros [H|[H|[_ H]]]; [contradiction|discriminate|contradiction].
    + split; [discriminate|]. intros [H|[H|[[x H] _]]]; [contradiction|discriminate|discriminate].
    + split; [right; left; reflexivity|reflexivity].
Qed.
Lemma alloc_input_panic n f s : t_alloc_input K n f s = Panic <-> ~ plain n \/ f = Panic \/ ((exists x, f = Ok x) /\ taken s (path_of (t_ns K s) n)).
Proof.
  unfold t_alloc_input, taken. rewrite compute_path_eq. destruct (has_slash n) eqn:E; cbn [rbind].
  - apply has_slash_iff in E. split; [left; exact E|reflexivity].
  - apply plain_dec in E. destruct f as [x|e|]; cbn [rbind].
    + rewrite set_named_eq. destruct (in_dec _ _ _) as [I|I]; cbn [rbind].
      * split; [intros _; right; right; split; [exists x; reflexivity|exact I]|reflexivity].
      * split; [discriminate|]. intros [H|[H|[_ H]]]; [contradiction|discriminate|contradiction].
    + split; [discriminate|]. intros [H|[H|[[x H] _]]]; [contradiction|discriminate|discriminate].
    + split; [right; left; reflexivity|reflexivity].
Qed.
Lemma enforce_panic n a b c s : t_enforce K n a b c s = Panic <-> ~ plain n \/ taken s (path_of (t_ns K s) n).
Proof.
  unfold t_enforce, taken. rewrite compute_path_eq. destruct (has_slash n) eqn:E; cbn [rbind].
  - apply has_slash_iff in E. split; [left; exact E|reflexivity].
  - apply plain_dec in E. rewrite set_named_eq. destruct (in_dec _ _ _) as [I|I]; cbn [rbind]; [split; [intros _; right; exact I|reflexivity]|split; [discriminate|intros [H|H]; contradiction]].
Qed.
Lemma push_panic n s : t_push K n s = Panic <-> ~ plain n \/ taken s (path_of (t_ns K s) n).
Proof.
  unfold t_push, taken. rewrite compute_path_eq. destruct (has_slash n) eqn:E; cbn [rbind].
  - apply has_slash_iff in E. split; [left; exact E|reflexivity].
  - apply plain_dec in E. rewrite set_named_eq. destruct (in_dec _ _ _) as [I|I]; cbn [rbind]; [split; [intros _; right; exact I|reflexivity]|split; [discriminate|intros [H|H]; contradiction]].
Qed.
Lemma pop_panic s : t_pop K s = Panic <-> t_ns K s = [].
Proof. unfold t_pop. destruct (t_ns K s); split; try discriminate; reflexivity. Qed.
(** ** Successful operations *)
Lemma alloc_ok n f s v s' : t_alloc K n f s = Ok (v, s') -> exists x, f = Ok x /\ plain n /\ ~ taken s (path_of (t_ns K s) n) /\ v = Aux (length (t_auxs K s)) /\
  s' = mkT K ((path_of (t_ns K s) n, NVar v) :: t_named K s) (t_ns K s) (t_cons K s) (t_inps K s) (t_auxs K s ++ [(x, path_of (t_ns K s) n)]).
Proof.
  unfold t_alloc, taken. rewrite compute_path_eq. destruct (has_slash n) eqn:E; cbn [rbind]; [discriminate|]. apply plain_dec in E. destruct f as [x|e|]; cbn [rbind]; try discriminate.
  rewrite set_named_eq. destruct (in_dec _ _ _) as [I|I]; cbn [rbind]; [discriminate|]. intro H. injection H as <- <-. exists x. auto.
Qed.
Lemma alloc_input_ok n f s v s' : t_alloc_input K n f s = Ok (v, s') -> exists x, f = Ok x /\ plain n /\ ~ taken s (path_of (t_ns K s) n) /\ v = Input (length (t_inps K s)) /\
  s' = mkT K ((path_of (t_ns K s) n, NVar v) :: t_named K s) (t_ns K s) (t_cons K s) (t_inps K s ++ [(x, path_of (t_ns K s) n)]) (t_auxs K s).
Proof.
  unfold t_alloc_input, taken. rewrite compute_path_eq. destruct (has_slash n) eqn:E; cbn [rbind]; [discriminate|]. apply plain_dec in E. destruct f as [x|e|]; cbn [rbind]; try discriminate.
  rewrite set_named_eq. destruct (in_dec _ _ _) as [I|I]; cbn [rbind]; [discriminate|]. intro H. injection H as <- <-. exists x. auto.
Qed.
Lemma enforce_ok n a b c s u s' : t_enforce K n a b c s = Ok (u, s') -> plain n /\ ~ taken s (path_of (t_ns K s) n) /\
  s' = mkT K ((path_of (t_ns K s) n, NCons (length (t_cons K s))) :: t_named K s) (t_ns K s) (t_cons K s ++ [(mkC a b c, path_of (t_ns K s) n)]) (t_inps K s) (t_auxs K s).
Proof.
  unfold t_enforce, taken. rewrite compute_path_eq. destruct (has_slash n) eqn:E; cbn [rbind]; [discriminate|]. apply plain_dec in E.
  rewrite set_named_eq. destruct (in_dec _ _ _) as [I|I]; cbn [rbind]; [discriminate|]. intro H. injection H as <- <-. auto.
Qed.
Lemma push_ok n s u s' : t_push K n s = Ok (u, s') -> plain n /\ ~ taken s (path_of (t_ns K s) n) /\
  s' = mkT K ((path_of (t_ns K s) n, NNs) :: t_named K s) (t_ns K s ++ [n]) (t_cons K s) (t_inps K s) (t_auxs K s).
Proof.
  unfold t_push, taken. rewrite compute_path_eq. destruct (has_slash n) eqn:E; cbn [rbind]; [discriminate|]. apply plain_dec in E.
  rewrite set_named_eq. destruct (in_dec _ _ _) as [I|I]; cbn [rbind]; [discriminate|]. intro H. injection H as <- <-. auto.
Qed.
Lemma pop_ok s u s' : t_pop K s = Ok (u, s') -> s' = mkT K (t_named K s) (removelast (t_ns K s)) (t_cons K s) (t_inps K s) (t_auxs K s).
Proof. unfold t_pop. destruct (t_ns K s); [discriminate|]. intro H. injection H as _ <-. reflexivity. Qed.
(** ** Refinement *)
Theorem run_refines A (p : prog K A) : forall s, match run_t K p s with Ok (a, s') => run_m K p (erase s) = Ok (a, erase s') | Err e => run_m K p (erase s) = Err e | Panic => True end.
Proof.
  induction p as [a|e|n f k IH|n f k IH|n a b c k IH|n k IH|k IH]; intro s; cbn [run_t run_m].
  - reflexivity.
  - reflexivity.
  - destruct (t_alloc K n f s) as [[v s']|e|] eqn:E; cbn [rbind]; [|unfold t_alloc in E|exact I].
    + apply alloc_ok in E. destruct E as (x & -> & _ & _ & Ev & Es). specialize (IH v s').
      assert (B : bind (alloc (Ok x)) (fun v => run_m K (k v)) (erase s) = run_m K (k v) (erase s')).
      { unfold bind, alloc, erase. cbn [md auxs inps cons]. rewrite map_length, <- Ev. subst s'. cbn [t_inps t_auxs t_cons]. rewrite map_app. reflexivity. }
      rewrite B. exact IH.
    + rewrite compute_path_eq in E. destruct (has_slash n); cbn [rbind] in E; [discriminate|]. destruct f as [x|e0|]; cbn [rbind] in E; try discriminate.
      * rewrite set_named_eq in E. destruct (in_dec _ _ _); discriminate.
      * injection E as ->. reflexivity.
  - destruct (t_alloc_input K n f s) as [[v s']|e|] eqn:E; cbn [rbind]; [|unfold t_alloc_input in E|exact I].
    + apply alloc_input_ok in E. destruct E as (x & -> & _ & _ & Ev & Es). specialize (IH v s').
      assert (B : bind (alloc_input (Ok x)) (fun v => run_m K (k v)) (erase s) = run_m K (k v) (erase s')).
      { unfold bind, alloc_input, erase. cbn [md auxs inps cons]. rewrite map_length, <- Ev. subst s'. cbn [t_inps t_auxs t_cons]. rewrite map_app. reflexivity. }
      rewrite B. exact IH.
    + rewrite compute_path_eq in E. destruct (has_slash n); cbn [rbind] in E; [discriminate|]. destruct f as [x|e0|]; cbn [rbind] in E; try discriminate.
      * rewrite set_named_eq in E. destruct (in_dec _ _ _); discriminate.
      * injection E as ->. reflexivity.
  - destruct (t_enforce K n a b c s) as [[u s']|e|] eqn:E; cbn [rbind]; [|exfalso|exact I].
    + apply enforce_ok in E. destruct E as (_ & _ & Es). specialize (IH s').
      assert (B : bind (enforce a b c) (fun _ => run_m K k) (erase s) = run_m K k (erase s')).
      { unfold bind, enforce, erase. subst s'. cbn [md auxs inps cons t_inps t_auxs t_cons]. rewrite map_app. reflexivity. }
      rewrite B. exact IH.
    + unfold t_enforce in E. rewrite compute_path_eq in E. destruct (has_slash n); cbn [rbind] in E; [discriminate|]. rewrite set_named_eq in E. destruct (in_dec _ _ _); discriminate.
  - destruct (t_push K n s) as [[u s']|e|] eqn:E; cbn [rbind]; [|exfalso|exact I].
    + apply push_ok in E. destruct E as (_ & _ & Es). specialize (IH s'). subst s'. exact IH.
    + unfold t_push in E. rewrite compute_path_eq in E. destruct (has_slash n); cbn [rbind] in E; [discriminate|]. rewrite set_named_eq in E. destruct (in_dec _ _ _); discriminate.
  - destruct (t_pop K s) as [[u s']|e|] eqn:E; cbn [rbind]; [|exfalso|exact I].
    + apply pop_ok in E. specialize (IH s'). subst s'. exact IH.
    + unfold t_pop in E. destruct (t_ns K s); discriminate.
Qed.

(** ** Variables, constraints and paths correspond *)
Lemma nth_error_snoc {A} (l : list A) a i : nth_error (l ++ [a]) i = if Nat.eqb i (length l) then Some a else nth_error l i.
Proof.
  destruct (Nat.eqb_spec i (length l)) as [->|N]; [rewrite nth_error_app2, Nat.sub_diag by lia; reflexivity|].
  destruct (Nat.lt_ge_cases i (length l)) as [H|H]; [apply nth_error_app1; exact H|].
  assert (E1 : nth_error l i = None) by (apply nth_error_None; exact H). rewrite E1. apply nth_error_None. rewrite app_length. cbn [length]. lia.
Qed.
Lemma nth_error_past {A} (l : list A) : nth_error l (length l) = None. Proof. apply nth_error_None. lia. Qed.
Lemma new_tidy : tidy (t_new K).
Proof.
  constructor; cbn [t_new t_named t_ns t_cons map fst].
  - repeat constructor. intros [].
  - intros v p. split.
    + intros [E|[]]. injection E as <- <-. exists 1. reflexivity.
    + intros [x E]. destruct v as [[|i]|i]; cbn in E; [injection E as _ <-; left; reflexivity|destruct i; discriminate|destruct i; discriminate].
  - intros i p. split; [intros [E|[]]; discriminate|]. intros [c E]. destruct i; discriminate.
  - constructor.
Qed.
Lemma alloc_tidy n f s v s' : tidy s -> t_alloc K n f s = Ok (v, s') -> tidy s'.
Proof.
  intros [D V C P] E. apply alloc_ok in E. destruct E as (x & _ & Pn & Nt & -> & ->). constructor; cbn [t_named t_ns t_cons map fst].
  - constructor; assumption.
  - intros v p. split.
    + intros [E|E].
      * injection E as <- <-. exists x. cbn [entry t_auxs]. rewrite nth_error_snoc, Nat.eqb_refl. reflexivity.
      * apply V in E. destruct E as [y E]. exists y. destruct v as [i|i]; cbn [entry t_inps t_auxs] in *; [exact E|]. rewrite nth_error_snoc. destruct (Nat.eqb_spec i (length (t_auxs K s))) as [->|_]; [rewrite nth_error_past in E; discriminate|exact E].
    + intros [y E]. destruct v as [i|i]; cbn [entry t_inps t_auxs] in E; [right; apply V; exists y; exact E|].
      rewrite nth_error_snoc in E. destruct (Nat.eqb_spec i (length (t_auxs K s))) as [->|_]; [injection E as _ <-; left; reflexivity|right; apply V; exists y; exact E].
  - intros i p. rewrite <- C. split; [intros [E|E]; [discriminate|exact E]|intro E; right; exact E].
  - exact P.
Qed.
Lemma alloc_input_tidy n f s v s' : tidy s -> t_alloc_input K n f s = Ok (v, s') -> tidy s'.
Proof.
  intros [D V C P] E. apply alloc_input_ok in E. destruct E as (x & _ & Pn & Nt & -> & ->). constructor; cbn [t_named t_ns t_cons map fst].
  - constructor; assumption.
  - intros v p. split.
    + intros [E|E].
      * injection E as <- <-. exists x. cbn [entry t_inps]. rewrite nth_error_snoc, Nat.eqb_refl. reflexivity.
      * apply V in E. destruct E as [y E]. exists y. destruct v as [i|i]; cbn [entry t_inps t_auxs] in *; [|exact E]. rewrite nth_error_snoc. destruct (Nat.eqb_spec i (length (t_inps K s))) as [->|_]; [rewrite nth_error_past in E; discriminate|exact E].
    + intros [y E]. destruct v as [i|i]; cbn [entry t_inps t_auxs] in E; [|right; apply V; exists y; exact E].
      rewrite nth_error_snoc in E. destruct (Nat.eqb_spec i (length (t_inps K s))) as [->|_]; [injection E as _ <-; left; reflexivity|right; apply V; exists y; exact E].
  - intros i p. rewrite <- C. split; [intros [E|E]; [discriminate|exact E]|intro E; right; exact E].
  - exact P.
Qed.
Lemma enforce_tidy n a b c s u s' : tidy s -> t_enforce K n a b c s = Ok (u, s') -> tidy s'.
Proof.
  intros [D V C P] E. apply enforce_ok in E. destruct E as (Pn & Nt & ->). constructor; cbn [t_named t_ns t_cons map fst].
  - constructor; assumption.
  - intros v p. change (entry (mkT K _ _ _ (t_inps K s) (t_auxs K s)) v) with (entry s v). rewrite <- V. split; [intros [E|E]; [discriminate|exact E]|intro E; right; exact E].
  - intros i p. split.
    + intros [E|E]; [injection E as <- <-; eexists; rewrite nth_error_snoc, Nat.eqb_refl; reflexivity|]. apply C in E. destruct E as [d E]. exists d. rewrite nth_error_snoc.
      destruct (Nat.eqb_spec i (length (t_cons K s))) as [->|_]; [rewrite nth_error_past in E; discriminate|exact E].
    + intros [d E]. rewrite nth_error_snoc in E. destruct (Nat.eqb_spec i (length (t_cons K s))) as [->|_]; [injection E as _ <-; left; reflexivity|right; apply C; exists d; exact E].
  - exact P.
Qed.
Lemma push_tidy n s u s' : tidy s -> t_push K n s = Ok (u, s') -> tidy s'.
Proof.
  intros [D V C P] E. apply push_ok in E. destruct E as (Pn & Nt & ->). constructor; cbn [t_named t_ns t_cons map fst].
  - constructor; assumption.
  - intros v p. change (entry (mkT K _ _ _ (t_inps K s) (t_auxs K s)) v) with (entry s v). rewrite <- V. split; [intros [E|E]; [discriminate|exact E]|intro E; right; exact E].
  - intros i p. rewrite <- C. split; [intros [E|E]; [discriminate|exact E]|intro E; right; exact E].
  - apply Forall_app. auto.
Qed.
Lemma removelast_Forall {A} (P : A -> Prop) l : Forall P l -> Forall P (removelast l).
Proof. induction 1 as [|x l H F IH]; [constructor|]. cbn [removelast]. destruct l; [constructor|constructor; assumption]. Qed.
Lemma pop_tidy s u s' : tidy s -> t_pop K s = Ok (u, s') -> tidy s'.
Proof. intros [D V C P] E. apply pop_ok in E. subst s'. constructor; cbn [t_named t_ns t_cons]; try assumption. apply removelast_Forall. exact P. Qed.
Theorem run_tidy A (p : prog K A) : forall s a s', tidy s -> run_t K p s = Ok (a, s') -> tidy s'.
Proof.
  induction p as [a0|e|n f k IH|n f k IH|n a b c k IH|n k IH|k IH]; intros s r s' T E; cbn [run_t] in E.
  - injection E as _ <-. exact T.
  - discriminate.
  - destruct (t_alloc K n f s) as [[v s1]|e|] eqn:E1; cbn [rbind] in E; try discriminate. exact (IH v s1 r s' (alloc_tidy n f s v s1 T E1) E).
  - destruct (t_alloc_input K n f s) as [[v s1]|e|] eqn:E1; cbn [rbind] in E; try discriminate. exact (IH v s1 r s' (alloc_input_tidy n f s v s1 T E1) E).
  - destruct (t_enforce K n a b c s) as [[u s1]|e|] eqn:E1; cbn [rbind] in E; try discriminate. exact (IH s1 r s' (enforce_tidy n a b c s u s1 T E1) E).
  - destruct (t_push K n s) as [[u s1]|e|] eqn:E1; cbn [rbind] in E; try discriminate. exact (IH s1 r s' (push_tidy n s u s1 T E1) E).
  - destruct (t_pop K s) as [[u s1]|e|] eqn:E1; cbn [rbind] in E; try discriminate. exact (IH s1 r s' (pop_tidy s u s1 T E1) E).
Qed.
(** Paths stay in use. *)
Theorem run_taken A (p : prog K A) : forall s a s' q, run_t K p s = Ok (a, s') -> taken s q -> taken s' q.
Proof.
  induction p as [a0|e|n f k IH|n f k IH|n a b c k IH|n k IH|k IH]; intros s r s' q E T; cbn [run_t] in E.
  - injection E as _ <-. exact T.
  - discriminate.
  - destruct (t_alloc K n f s) as [[v s1]|e|] eqn:E1; cbn [rbind] in E; try discriminate. apply (IH v s1 r s' q E). apply alloc_ok in E1. destruct E1 as (x & _ & _ & _ & _ & ->). right. exact T.
  - destruct (t_alloc_input K n f s) as [[v s1]|e|] eqn:E1; cbn [rbind] in E; try discriminate. apply (IH v s1 r s' q E). apply alloc_input_ok in E1. destruct E1 as (x & _ & _ & _ & _ & ->). right. exact T.
  - destruct (t_enforce K n a b c s) as [[u s1]|e|] eqn:E1; cbn [rbind] in E; try discriminate. apply (IH s1 r s' q E). apply enforce_ok in E1. destruct E1 as (_ & _ & ->). right. exact T.
  - destruct (t_push K n s) as [[u s1]|e|] eqn:E1; cbn [rbind] in E; try discriminate. apply (IH s1 r s' q E). apply push_ok in E1. destruct E1 as (_ & _ & ->). right. exact T.
  - destruct (t_pop K s) as [[u s1]|e|] eqn:E1; cbn [rbind] in E; try discriminate. apply (IH s1 r s' q E). apply pop_ok in E1. subst s1. exact T.
Qed.
Theorem namespace_once A n s u s1 (p : prog K A) a s2 : t_push K n s = Ok (u, s1) -> run_t K p s1 = Ok (a, s2) -> t_ns K s2 = t_ns K s -> t_push K n s2 = Panic.
Proof.
  intros E1 E2 E3. apply push_panic. right. rewrite E3. apply (run_taken A p s1 a s2 _ E2). apply push_ok in E1. destruct E1 as (_ & _ & ->). left. reflexivity.
Qed.
(** ** get and set *)
Lemma var_value_eq s v : var_value K s v = match entry s v with Some e => Ok (fst e) | None => Panic end.
Proof. destruct v as [i|i]; cbn [var_value entry]; unfold index; [destruct (nth_error (t_inps K s) i)|destruct (nth_error (t_auxs K s) i)]; reflexivity. Qed.
Theorem get_exact (s : tcs) p x : tidy s -> (t_get K p s = Ok x <-> exists v, entry s v = Some (x, p)).
Proof.
  intros [D V C P]. unfold t_get. split.
  - destruct (look (t_named K s) p) as [[i|v|]|] eqn:E; try discriminate. apply (look_some _ _ _ D) in E. apply V in E. destruct E as [y E]. rewrite var_value_eq, E. intro H. injection H as <-. exists v. exact E.
  - intros [v E]. assert (I : In (p, NVar v) (t_named K s)) by (apply V; exists x; exact E). apply (look_some _ _ _ D) in I. rewrite I, var_value_eq, E. reflexivity.
Qed.
Theorem get_panics (s : tcs) p : tidy s -> (t_get K p s = Panic <-> forall v x, entry s v <> Some (x, p)).
Proof.
  intros T. split.
  - intros E v x H. assert (t_get K p s = Ok x) by (apply get_exact; [exact T|exists v; exact H]). congruence.
  - intros H. unfold t_get. destruct (look (t_named K s) p) as [[i|v|]|] eqn:E; try reflexivity. exfalso. destruct T as [D V C P]. apply (look_some _ _ _ D) in E. apply V in E. destruct E as [y E]. exact (H v y E).
Qed.
Theorem paths_distinct (s : tcs) v w x y p : tidy s -> entry s v = Some (x, p) -> entry s w = Some (y, p) -> v = w.
Proof.
  intros [D V C P] E1 E2. assert (I1 : In (p, NVar v) (t_named K s)) by (apply V; exists x; exact E1). assert (I2 : In (p, NVar w) (t_named K s)) by (apply V; exists y; exact E2).
  apply (look_some _ _ _ D) in I1. apply (look_some _ _ _ D) in I2. congruence.
Qed.
Theorem constraints_distinct (s : tcs) i j c d p : tidy s -> nth_error (t_cons K s) i = Some (c, p) -> nth_error (t_cons K s) j = Some (d, p) -> i = j.
Proof.
  intros [D V C P] E1 E2. assert (I1 : In (p, NCons i) (t_named K s)) by (apply C; exists c; exact E1). assert (I2 : In (p, NCons j) (t_named K s)) by (apply C; exists d; exact E2).
  apply (look_some _ _ _ D) in I1. apply (look_some _ _ _ D) in I2. congruence.
Qed.
Lemma upd_nth {A} (f : A -> A) l : forall i j, nth_error (upd_at i f l) j = if Nat.eqb j i then option_map f (nth_error l j) else nth_error l j.
Proof.
  induction l as [|x l IH]; intros [|i] [|j]; cbn [upd_at nth_error Nat.eqb option_map]; try reflexivity.
  - destruct (Nat.eqb j i); reflexivity.
  - apply IH.
Qed.
Theorem set_exact (s : tcs) v x p y : tidy s -> entry s v = Some (x, p) -> exists s', t_set K p y s = Ok (tt, s') /\ tidy s' /\
  entry s' v = Some (y, p) /\ (forall w, w <> v -> entry s' w = entry s w) /\ t_cons K s' = t_cons K s /\ t_ns K s' = t_ns K s /\ t_named K s' = t_named K s.
Proof.
  intros T E. destruct T as [D V C P]. assert (I : In (p, NVar v) (t_named K s)) by (apply V; exists x; exact E). apply (look_some _ _ _ D) in I. unfold t_set. rewrite I.
  destruct v as [i|i]; cbn [entry] in E; unfold put; rewrite E; cbn [rbind]; eexists; (split; [reflexivity|]); cbn [entry t_inps t_auxs t_cons t_ns t_named].
  - assert (Ev : nth_error (upd_at i (fun e => (y, snd e)) (t_inps K s)) i = Some (y, p)) by (rewrite upd_nth, Nat.eqb_refl, E; reflexivity).
    assert (Eo : forall w, w <> Input i -> entry (mkT K (t_named K s) (t_ns K s) (t_cons K s) (upd_at i (fun e => (y, snd e)) (t_inps K s)) (t_auxs K s)) w = entry s w).
    { intros [j|j] N; cbn [entry t_inps t_auxs]; [|reflexivity]. rewrite upd_nth. destruct (Nat.eqb_spec j i) as [->|_]; [contradiction|reflexivity]. }
    split; [|repeat split; try assumption]. constructor; cbn [t_named t_cons t_ns]; try assumption. intros w q. rewrite V.
    destruct (var_eqb w (Input i)) eqn:Q.
    + destruct w as [j|j]; [|discriminate]. apply Nat.eqb_eq in Q. subst j. cbn [entry t_inps]. rewrite Ev, E. split; intros [z Z]; injection Z as _ <-; eexists; reflexivity.
    + rewrite Eo; [reflexivity|]. intros ->. cbn in Q. rewrite Nat.eqb_refl in Q. discriminate.
  - assert (Ev : nth_error (upd_at i (fun e => (y, snd e)) (t_auxs K s)) i = Some (y, p)) by (rewrite upd_nth, Nat.eqb_refl, E; reflexivity).
    assert (Eo : forall w, w <> Aux i -> entry (mkT K (t_named K s) (t_ns K s) (t_cons K s) (t_inps K s) (upd_at i (fun e => (y, snd e)) (t_auxs K s))) w = entry s w).
    { intros [j|j] N; cbn [entry t_inps t_auxs]; [reflexivity|]. rewrite upd_nth. destruct (Nat.eqb_spec j i) as [->|_]; [contradiction|reflexivity]. }
    split; [|repeat split; try assumption]. constructor; cbn [t_named t_cons t_ns]; try assumption. intros w q. rewrite V.
    destruct (var_eqb w (Aux i)) eqn:Q.
    + destruct w as [j|j]; [discriminate|]. apply Nat.eqb_eq in Q. subst j. cbn [entry t_auxs]. rewrite Ev, E. split; intros [z Z]; injection Z as _ <-; eexists; reflexivity.
    + rewrite Eo; [reflexivity|]. intros ->. cbn in Q. rewrite Nat.eqb_refl in Q. discriminate.
Qed.
Theorem set_panics (s : tcs) p y : tidy s -> (t_set K p y s = Panic <-> forall v x, entry s v <> Some (x, p)).
Proof.
  intros T. split.
  - intros E v x H. destruct (set_exact s v x p y T H) as (s' & E' & _). congruence.
  - intros H. unfold t_set. destruct (look (t_named K s) p) as [[i|v|]|] eqn:E; try reflexivity. exfalso. destruct T as [D V C P]. apply (look_some _ _ _ D) in E. apply V in E. destruct E as [z E]. exact (H v z E).
Qed.
(** ** The first violated constraint *)
Lemma eval_lc_ok (s : tcs) l : forall acc, Forall (fun t => allocated (erase s) (fst t)) l -> eval_lc K s l acc = Ok (acc + eval (wit (erase s)) l).
Proof.
  induction l as [|[v c] r IH]; intros acc F; cbn [eval_lc]; [unfold eval; cbn [map fsum]; f_equal; ring|].
  inversion F as [|? ? A F']; subst. rewrite var_value_eq.
  assert (E : exists e, entry s v = Some e /\ fst e = wit (erase s) v).
  { destruct v as [i|i]; cbn [fst allocated erase inps auxs] in A; rewrite map_length in A; cbn [entry wit erase inps auxs].
    - destruct (nth_error (t_inps K s) i) as [e|] eqn:E; [|apply nth_error_None in E; lia]. exists e. split; [reflexivity|]. symmetry. apply nth_error_nth. apply map_nth_error. exact E.
    - destruct (nth_error (t_auxs K s) i) as [e|] eqn:E; [|apply nth_error_None in E; lia]. exists e. split; [reflexivity|]. symmetry. apply nth_error_nth. apply map_nth_error. exact E. }
  destruct E as (e & E & Ev). rewrite E. cbn [rbind]. rewrite IH by exact F'. unfold eval. cbn [map fsum fst snd]. rewrite Ev. f_equal. ring.
Qed.
Theorem which_exact (s : tcs) : Forall (c_in (allocated (erase s))) (map fst (t_cons K s)) ->
  match which_is_unsatisfied K s with
  | Ok None => Forall (holds (wit (erase s))) (map fst (t_cons K s))
  | Ok (Some p) => exists pre c post, t_cons K s = pre ++ (c, p) :: post /\ Forall (holds (wit (erase s))) (map fst pre) /\ ~ holds (wit (erase s)) c
  | _ => False
  end.
Proof.
  unfold which_is_unsatisfied. generalize (t_cons K s) as l. induction l as [|[c p] r IH]; intro F; cbn [which_loop]; [constructor|].
  cbn [map fst] in F. inversion F as [|? ? (Fa & Fb & Fc) F']; subst. rewrite !eval_lc_ok by assumption. cbn [rbind]. 
  match goal with |- context [feqb ?a ?b] => destruct (feqb a b) eqn:E end.
  - assert (Hc : holds (wit (erase s)) c).
    { apply feqb_eq in E. unfold holds. etransitivity; [|etransitivity; [exact E|]]; ring. }
    specialize (IH F'). destruct (which_loop K s r) as [[q|]|e|]; try exact IH.
    + destruct IH as (pre & d & post & -> & H1 & H2). exists ((c, p) :: pre), d, post. split; [reflexivity|]. split; [constructor; assumption|exact H2].
    + constructor; assumption.
  - exists [], c, r. split; [reflexivity|]. split; [constructor|]. intro Hc. assert (feqb ((0 + eval (wit (erase s)) (ca c)) * (0 + eval (wit (erase s)) (cb c))) (0 + eval (wit (erase s)) (cc c)) = true); [|congruence].
    apply feqb_eq. unfold holds in Hc. etransitivity; [|etransitivity; [exact Hc|]]; ring.
Qed.
Theorem satisfied_exact (s : tcs) : Forall (c_in (allocated (erase s))) (map fst (t_cons K s)) ->
  exists b, is_satisfied K s = Ok b /\ (b = true <-> Forall (holds (wit (erase s))) (cons (erase s))).
Proof.
  intro F. pose proof (which_exact s F) as W. unfold is_satisfied. destruct (which_is_unsatisfied K s) as [[p|]|e|]; try contradiction; cbn [rbind].
  - exists false. split; [reflexivity|]. split; [discriminate|]. intro H. exfalso. destruct W as (pre & c & post & E & _ & N). cbn [erase cons] in H. rewrite E, map_app in H. apply Forall_app in H. destruct H as [_ H]. inversion H; subst. contradiction.
  - exists true. split; [reflexivity|]. split; [intros _; exact W|reflexivity].
Qed.
(** A circuit run from a fresh system keeps the constant one. *)
Lemma run_one A (p : prog K A) : forall s a s' r, t_inps K s = (1, "ONE"%string) :: r -> run_t K p s = Ok (a, s') -> exists r', t_inps K s' = (1, "ONE"%string) :: r'.
Proof.
  induction p as [a0|e|n f k IH|n f k IH|n a b c k IH|n k IH|k IH]; intros s o s' r T E; cbn [run_t] in E.
  - injection E as _ <-. exists r. exact T.
  - discriminate.
  - destruct (t_alloc K n f s) as [[v s1]|e|] eqn:E1; cbn [rbind] in E; try discriminate. apply (IH v s1 o s' r); [|exact E]. apply alloc_ok in E1. destruct E1 as (x & _ & _ & _ & _ & ->). exact T.
  - destruct (t_alloc_input K n f s) as [[v s1]|e|] eqn:E1; cbn [rbind] in E; try discriminate. apply alloc_input_ok in E1. destruct E1 as (x & _ & _ & _ & _ & E1).
    apply (IH v s1 o s' (r ++ [(x, path_of (t_ns K s) n)])); [|exact E]. subst s1. cbn [t_inps]. rewrite T. reflexivity.
  - destruct (t_enforce K n a b c s) as [[u s1]|e|] eqn:E1; cbn [rbind] in E; try discriminate. apply (IH s1 o s' r); [|exact E]. apply enforce_ok in E1. destruct E1 as (_ & _ & ->). exact T.
  - destruct (t_push K n s) as [[u s1]|e|] eqn:E1; cbn [rbind] in E; try discriminate. apply (IH s1 o s' r); [|exact E]. apply push_ok in E1. destruct E1 as (_ & _ & ->). exact T.
  - destruct (t_pop K s) as [[u s1]|e|] eqn:E1; cbn [rbind] in E; try discriminate. apply (IH s1 o s' r); [|exact E]. apply pop_ok in E1. subst s1. exact T.
Qed.
Theorem circuit_satisfied A (p : prog K A) a s : run_t K p (t_new K) = Ok (a, s) -> Forall (c_in (allocated (erase s))) (cons (erase s)) ->
  run_m K p (cs_new Prove) = Ok (a, erase s) /\ exists b, is_satisfied K s = Ok b /\ (b = true <-> self_sat (erase s)).
Proof.
  intros E F. split; [pose proof (run_refines A p (t_new K)) as R; rewrite E in R; exact R|].
  destruct (satisfied_exact s F) as (b & Eb & Hb). exists b. split; [exact Eb|]. rewrite Hb. unfold self_sat, sat.
  destruct (run_one A p (t_new K) a s [] eq_refl E) as [r Er]. split; [|intros [_ H]; exact H]. intro H. split; [|exact H]. unfold wit, ONE, erase. cbn [inps]. rewrite Er. reflexivity.
Qed.
(** ** verify and get_input *)
Lemma all_eq_iff (a : list K) : forall b, length a = length b -> (all_eq K a b = true <-> a = b).
Proof.
  induction a as [|x a IH]; intros [|y b] L; try discriminate; cbn [all_eq]; [split; reflexivity|]. destruct (feqb x y) eqn:E.
  - apply feqb_eq in E. subst y. rewrite IH by (cbn in L; lia). split; [intros ->; reflexivity|intro H; injection H as ->; reflexivity].
  - split; [discriminate|]. intro H. injection H as -> _. assert (feqb y y = true) by (apply feqb_eq; reflexivity). congruence.
Qed.
Theorem verify_exact e s : (t_verify K e s = Panic <-> S (length e) <> length (t_inps K s)) /\ (t_verify K e s = Ok true <-> exists x, inps (erase s) = x :: e).
Proof.
  unfold t_verify. rewrite Nat.add_1_r. cbn [erase inps]. destruct (Nat.eqb_spec (S (length e)) (length (t_inps K s))) as [E|N]; cbn [negb].
  - split; [split; [discriminate|contradiction]|]. destruct (t_inps K s) as [|[x p] r]; [discriminate|]. cbn [skipn map fst]. cbn [length] in E.
    pose proof (all_eq_iff (map fst r) e ltac:(rewrite map_length; lia)) as A. split.
    + intro H. assert (H' : all_eq K (map fst r) e = true) by congruence. apply A in H'. exists x. rewrite H'. reflexivity.
    + intros [y H]. injection H as _ H. f_equal. apply A. exact H.
  - split; [split; [intros _; exact N|reflexivity]|]. split; [discriminate|]. intros [x H]. exfalso. apply N. apply (f_equal (@length K)) in H. rewrite map_length in H. cbn [length] in H. lia.
Qed.
Theorem get_input_exact i p s x : t_get_input K i p s = Ok x <-> entry s (Input i) = Some (x, p).
Proof.
  unfold t_get_input, index. cbn [entry]. destruct (nth_error (t_inps K s) i) as [[y q]|]; cbn [rbind fst snd]; [|split; discriminate].
  destruct (String.eqb_spec p q) as [->|N]; split; intro H; try discriminate; [injection H as ->; reflexivity|injection H as ->; reflexivity|injection H as _ E; congruence].
Qed.
(** ** The constant can be overwritten *)
Theorem one_can_be_set : exists s s', run_t K (PEnforce K unit "c" [(ONE, 1)] [(ONE, 1)] [] (PRet K unit tt)) (t_new K) = Ok (tt, s) /\ t_set K "ONE" 0 s = Ok (tt, s') /\
  is_satisfied K s' = Ok true /\ (forall a, ~ sat a (erase s')).
Proof.
  eexists. eexists. split; [reflexivity|]. split; [reflexivity|]. set (s' := mkT K _ _ _ _ _).
  assert (F : Forall (c_in (allocated (erase s'))) (map fst (t_cons K s'))) by (repeat constructor).
  destruct (satisfied_exact s' F) as (b & E & H). split.
  - rewrite E. f_equal. apply H. repeat constructor. unfold holds, eval. cbn. ring.
  - intros a [O Q]. inversion Q as [|? ? Hc _]; subst. unfold holds, eval in Hc. cbn in Hc. rewrite O in Hc. apply (f_1_neq_0 K). rewrite <- Hc. ring.
Qed.
End T.
