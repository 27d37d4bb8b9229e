(** Theorems C103, C104: the constraint system for testing circuits. *)
From Coq Require Import String Ascii List NArith Arith Lia ZArith.
Import ListNotations.
From Verif Require Import Field Zp ModelLC SpecLC ModelCS SpecCS ModelTestCS SpecTestCS ProofsTestCS ProofsTestHash ExMarlin.
Local Open Scope list_scope.
Local Open Scope fld_scope.

(** ** C103 *)
Theorem C103_refines_the_provers : forall (K : Fld) A (p : prog K A) s,
  match run_t K p s with Ok (a, s') => run_m K p (erase s) = Ok (a, erase s') | Err e => run_m K p (erase s) = Err e | Panic => True end.
Proof. exact run_refines. Qed.
Print Assumptions C103_refines_the_provers.
Theorem C103_panics_exactly_on_names : forall (K : Fld) (s : tcs K) n f a b c,
  (t_alloc K n f s = Panic <-> ~ plain n \/ f = Panic \/ ((exists x, f = Ok x) /\ taken s (path_of (t_ns K s) n))) /\
  (t_alloc_input K n f s = Panic <-> ~ plain n \/ f = Panic \/ ((exists x, f = Ok x) /\ taken s (path_of (t_ns K s) n))) /\
  (t_enforce K n a b c s = Panic <-> ~ plain n \/ taken s (path_of (t_ns K s) n)) /\
  (t_push K n s = Panic <-> ~ plain n \/ taken s (path_of (t_ns K s) n)) /\
  (t_pop K s = Panic <-> t_ns K s = []).
Proof. intros. split; [apply alloc_panic|]. split; [apply alloc_input_panic|]. split; [apply enforce_panic|]. split; [apply push_panic|apply pop_panic]. Qed.
Print Assumptions C103_panics_exactly_on_names.
Theorem C103_paths_unambiguous : forall ns n ns' n', Forall plain (n :: ns) -> Forall plain (n' :: ns') -> path_of ns n = path_of ns' n' -> ns = ns' /\ n = n'.
Proof. exact path_inj. Qed.
Print Assumptions C103_paths_unambiguous.
Theorem C103_namespace_entered_once : forall (K : Fld) A n s u s1 (p : prog K A) a s2,
  t_push K n s = Ok (u, s1) -> run_t K p s1 = Ok (a, s2) -> t_ns K s2 = t_ns K s -> t_push K n s2 = Panic.
Proof. exact namespace_once. Qed.
Print Assumptions C103_namespace_entered_once.
(** Every state a circuit reaches names each variable and each constraint by its own path. *)
Theorem C103_names_distinct : forall (K : Fld), tidy (t_new K) /\
  (forall A (p : prog K A) s a s', tidy s -> run_t K p s = Ok (a, s') -> tidy s') /\
  (forall s v w x y p, tidy (K := K) s -> entry s v = Some (x, p) -> entry s w = Some (y, p) -> v = w) /\
  (forall s i j c d p, tidy (K := K) s -> nth_error (t_cons K s) i = Some (c, p) -> nth_error (t_cons K s) j = Some (d, p) -> i = j).
Proof. intro K. split; [apply new_tidy|]. split; [apply run_tidy|]. split; [apply paths_distinct|apply constraints_distinct]. Qed.
Print Assumptions C103_names_distinct.
Theorem C103_get : forall (K : Fld) (s : tcs K) p x, tidy s ->
  (t_get K p s = Ok x <-> exists v, entry s v = Some (x, p)) /\ (t_get K p s = Panic <-> forall v y, entry s v <> Some (y, p)) /\
  (forall i, t_get_input K i p s = Ok x <-> entry s (Input i) = Some (x, p)).
Proof. intros K s p x T. split; [apply get_exact; exact T|]. split; [apply get_panics; exact T|]. intro i. apply get_input_exact. Qed.
Print Assumptions C103_get.
Theorem C103_set : forall (K : Fld) (s : tcs K) v x p y, tidy s -> entry s v = Some (x, p) -> exists s', t_set K p y s = Ok (tt, s') /\ tidy s' /\
  entry s' v = Some (y, p) /\ (forall w, w <> v -> entry s' w = entry s w) /\ t_cons K s' = t_cons K s /\ t_ns K s' = t_ns K s /\ t_named K s' = t_named K s.
Proof. exact set_exact. Qed.
Print Assumptions C103_set.
Theorem C103_set_panics : forall (K : Fld) (s : tcs K) p y, tidy s -> (t_set K p y s = Panic <-> forall v x, entry s v <> Some (x, p)).
Proof. exact set_panics. Qed.
Print Assumptions C103_set_panics.
Theorem C103_first_violated : forall (K : Fld) (s : tcs K), Forall (c_in (allocated (erase s))) (map fst (t_cons K s)) ->
  match which_is_unsatisfied K s with
  | Ok None => Forall (holds (wit (erase s))) (map fst (t_cons K s))
  | Ok (Some p) => exists pre c post, t_cons K s = pre ++ (c, p) :: post /\ Forall (holds (wit (erase s))) (map fst pre) /\ ~ holds (wit (erase s)) c
  | _ => False
  end.
Proof. exact which_exact. Qed.
Print Assumptions C103_first_violated.
(** A circuit that runs on the test system runs on the provers' systems with the same result, and [is_satisfied] is their satisfaction. *)
Theorem C103_satisfied : forall (K : Fld) A (p : prog K A) a s, run_t K p (t_new K) = Ok (a, s) -> Forall (c_in (allocated (erase s))) (cons (erase s)) ->
  run_m K p (cs_new Prove) = Ok (a, erase s) /\ exists b, is_satisfied K s = Ok b /\ (b = true <-> self_sat (erase s)).
Proof. exact circuit_satisfied. Qed.
Print Assumptions C103_satisfied.
Theorem C103_verify : forall (K : Fld) (e : list K) s,
  (t_verify K e s = Panic <-> S (length e) <> length (t_inps K s)) /\ (t_verify K e s = Ok true <-> exists x, inps (erase s) = x :: e).
Proof. exact verify_exact. Qed.
Print Assumptions C103_verify.
(** [set] also changes the constant one: then [is_satisfied] can answer yes on a system that nothing satisfies. *)
Definition absurd (K : Fld) : prog K unit := PEnforce K unit "c" [(ONE, 1)] [(ONE, 1)] [] (PRet K unit tt).
Theorem C103_constant_can_be_set : forall (K : Fld), exists s s', run_t K (absurd K) (t_new K) = Ok (tt, s) /\ t_set K "ONE" 0 s = Ok (tt, s') /\ is_satisfied K s' = Ok true /\ (forall a, ~ sat a (erase s')).
Proof. exact one_can_be_set. Qed.
Print Assumptions C103_constant_can_be_set.
(** The trait's method is a placeholder. *)
Theorem C103_num_constraints : forall (K : Fld) (s : tcs K), t_trait_num_constraints K s = Panic /\ t_num_constraints K s = length (cons (erase s)).
Proof. intros K s. split; [reflexivity|]. unfold t_num_constraints, erase. cbn [cons]. rewrite map_length. reflexivity. Qed.
Print Assumptions C103_num_constraints.

(** ** C104 *)
Theorem C104_normal_form : forall (K : Fld) (a b : lc K), proc_lc K a = proc_lc K b <-> same_lc a b.
Proof. exact proc_exact. Qed.
Print Assumptions C104_normal_form.
Theorem C104_digest : forall (K : Fld) (enc : K -> list N) len (s s' : tcs K),
  (len <= 32)%nat -> (forall x, length (enc x) = len) -> (forall x y, enc x = enc y -> x = y) -> sizes_fit s -> sizes_fit s' ->
  ((forall H, t_hash K enc H s = t_hash K enc H s') <->
   length (t_inps K s) = length (t_inps K s') /\ length (t_auxs K s) = length (t_auxs K s') /\ Forall2 same_constraint (map fst (t_cons K s)) (map fst (t_cons K s'))).
Proof. exact hash_exact. Qed.
Print Assumptions C104_digest.

Section EX.
Variable K : Fld.
Add Field Kf39 : (f_laws K).
Lemma ex_same : same_lc (K := K) [(Aux 0, 1); (Aux 0, 1)] [(Aux 0, 1 + 1)].
Proof. intros [n|[|n]]; cbn; ring. Qed.
Lemma ex_other : ~ same_lc (K := K) [(Aux 0, 1); (Aux 1, 1)] [(Aux 0, 1 + 1)].
Proof. intro H. specialize (H (Aux 1)). cbn in H. apply (f_1_neq_0 K). rewrite <- H. ring. Qed.
End EX.
(** The source's own test as a program: a/var * b/var = product, and a/var = b/var. *)
Definition test_cs (K : Fld) (x y z : K) : prog K unit :=
  PPush _ _ "a" (PAlloc _ _ "var" (Ok x) (fun a => PPop _ _ (PPush _ _ "b" (PAlloc _ _ "var" (Ok y) (fun b => PPop _ _
    (PAlloc _ _ "product" (Ok z) (fun c => PEnforce _ _ "mult" [(a, 1)] [(b, 1)] [(c, 1)]
    (PEnforce _ _ "eq" [(a, 1)] [(ONE, 1)] [(b, 1)] (PRet _ _ tt)))))))))%string.
Definition after (K : Fld) (x y z : K) : tcs K := match run_t _ (test_cs K x y z) (t_new _) with Ok (_, s) => s | _ => t_new _ end.
Definition named_bad (x y z : Z) : res (option string) := which_is_unsatisfied _ (after F97 (z97 x) (z97 y) (z97 z)).
Lemma fits_small n : (n <? 10)%nat = true -> fits64 n.
Proof. intro H. apply Nat.ltb_lt in H. unfold fits64. assert (N.of_nat n < 10)%N by lia. apply N.lt_trans with 10%N; [assumption|reflexivity]. Qed.
Definition c1 (K : Fld) : constraint K := mkC [(Aux 0, 1)] [(Aux 1, 1)] [(Aux 2, 1)].
Definition c2 (K : Fld) : constraint K := mkC [(Aux 0, 1)] [(ONE, 1)] [(Aux 1, 1)].
Lemma ex_after (K : Fld) (x y z : K) : run_t _ (test_cs K x y z) (t_new _) = Ok (tt, after K x y z) /\ entry (after K x y z) (Aux 1) = Some (y, "b/var"%string) /\
  tidy (after K x y z) /\ Forall (c_in (allocated (erase (after K x y z)))) (cons (erase (after K x y z))) /\ sizes_fit (after K x y z).
Proof.
  assert (R : run_t _ (test_cs K x y z) (t_new _) = Ok (tt, after K x y z)) by reflexivity.
  split; [exact R|]. split; [reflexivity|]. split; [exact (run_tidy K unit _ _ _ _ (new_tidy K) R)|]. split.
  - assert (E : cons (erase (after K x y z)) = [c1 K; c2 K]) by reflexivity. rewrite E.
    assert (A : forall v, In v [ONE; Aux 0; Aux 1; Aux 2] -> allocated (erase (after K x y z)) v).
    { assert (I : length (inps (erase (after K x y z))) = 1%nat) by reflexivity. assert (X : length (auxs (erase (after K x y z))) = 3%nat) by reflexivity.
      intros v [<-|[<-|[<-|[<-|[]]]]]; unfold allocated; cbv beta iota delta [ONE]; rewrite ?I, ?X; lia. }
    generalize dependent (allocated (erase (after K x y z))). intros P A. repeat constructor; apply A; cbn; tauto.
  - assert (E : t_cons K (after K x y z) = [(c1 K, "mult"%string); (c2 K, "eq"%string)]) by reflexivity.
    assert (I : length (t_inps K (after K x y z)) = 1%nat) by reflexivity. assert (X : length (t_auxs K (after K x y z)) = 3%nat) by reflexivity.
    unfold sizes_fit. rewrite E, I, X. generalize (fits_small 1 eq_refl), (fits_small 3 eq_refl), (fits_small 2 eq_refl), (fits_small 0 eq_refl).
    unfold lc_fits. generalize fits64. intros F F1 F3 F2 F0. cbn [length fst snd c1 c2 ca cb cc]. repeat (assumption || split || constructor).
Qed.
Example ex_C103 : named_bad 10 4 40 = Ok (Some "eq"%string) /\ named_bad 4 4 40 = Ok (Some "mult"%string) /\ named_bad 4 4 16 = Ok None.
Proof. split; [vm_compute; reflexivity|]. split; vm_compute; reflexivity. Qed.
(** x + x and (1+1) x are the same combination, x + y is another. *)
Example ex_C104 : (forall K : Fld, same_lc (K := K) [(Aux 0, 1); (Aux 0, 1)] [(Aux 0, 1 + 1)]) /\ (forall K : Fld, ~ same_lc (K := K) [(Aux 0, 1); (Aux 1, 1)] [(Aux 0, 1 + 1)]) /\
  (forall x : F97, length ([Z.to_N (zv _ x)]) = 1%nat) /\ (forall x y : F97, [Z.to_N (zv _ x)] = [Z.to_N (zv _ y)] -> x = y).
Proof.
  split; [intros K; apply ex_same|]. split; [intros K; apply ex_other|]. split; [intro x; exact (eq_refl 1%nat)|].
  intros x y E. apply zp_eq. assert (R : forall u : F97, (0 <= zv 97 u)%Z) by (intros [u Hu]; cbn [zv]; apply Z.eqb_eq in Hu; rewrite <- Hu; apply (Z.mod_pos_bound u 97); reflexivity). pose proof (R x). pose proof (R y). apply (f_equal (fun l => hd 0%N l)) in E. cbn [hd] in E. lia.
Qed.
