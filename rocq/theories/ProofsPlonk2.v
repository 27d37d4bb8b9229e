(** The wire permutation. *)
From Coq Require Import Permutation.
From Verif Require Import ModelPlonk SpecPlonk ProofsPlonk1.
Local Open Scope fld_scope.
Definition shape (n : nat) (p : list (list wire)) : Prop := length p = 4%nat /\ forall k, (k < 4)%nat -> length (nth k p []) = n.
Definition inr (n : nat) (s : wire) : Prop := (fst s < 4 /\ snd s < n)%nat.
Lemma wire_eq (s u : wire) : {s = u} + {s <> u}. Proof. decide equality; apply Nat.eq_dec. Qed.
Lemma perm_set_ok n p s t : shape n p -> inr n s -> exists p', perm_set p s t = Ok p' /\ shape n p' /\ target p' s = t /\ forall u, u <> s -> target p' u = target p u.
Proof.
  intros [L4 Ln] [H1 H2]. unfold perm_set. destruct (nth_error p (fst s)) as [r|] eqn:E; [|apply nth_error_None in E; lia]. pose proof (nth_error_nth _ _ [] E) as Er.
  destruct (lset_some r (snd s) t) as [r' E1]; [rewrite <- Er, Ln; assumption|]. rewrite E1. cbn [orp rbind]. destruct (lset_some p (fst s) r') as [p' E2]; [lia|]. rewrite E2. cbn [orp].
  exists p'. destruct (lset_inv _ _ _ _ E1) as (A1 & A2 & A3). destruct (lset_inv _ _ _ _ E2) as (B1 & B2 & B3). split; [reflexivity|]. split; [split|split].
  - lia.
  - intros k Hk. rewrite B3. destruct (Nat.eqb_spec k (fst s)) as [->|]; [rewrite A2, <- Er; auto|auto].
  - unfold target. rewrite B3, Nat.eqb_refl, A3, Nat.eqb_refl. reflexivity.
  - intros [k i] D. unfold target. cbn [fst snd]. rewrite B3. destruct (Nat.eqb_spec k (fst s)) as [->|]; [|reflexivity]. rewrite A3. destruct (Nat.eqb_spec i (snd s)) as [->|]; [|rewrite Er; reflexivity].
    exfalso. apply D. destruct s. reflexivity.
Qed.
Lemma sets_ok n L : forall p, shape n p -> (forall st, In st L -> inr n (fst st)) -> NoDup (map fst L) ->
  exists p', fold_left (fun p st => rbind p (fun p => perm_set p (fst st) (snd st))) L (Ok p) = Ok p' /\ shape n p' /\
  (forall s t, In (s, t) L -> target p' s = t) /\ (forall u, ~ In u (map fst L) -> target p' u = target p u).
Proof.
  induction L as [|[s t] L IH]; intros p S R N; cbn [fold_left].
  - exists p. split; [reflexivity|]. split; [exact S|]. split; [intros ? ? []|reflexivity].
  - cbn [rbind fst snd]. destruct (perm_set_ok n p s t S (R _ (or_introl eq_refl))) as (p1 & -> & S1 & T1 & U1). cbn in N. apply NoDup_cons_iff in N. destruct N as [N1 N2].
    destruct (IH p1 S1) as (p' & E & S' & T' & U'); [intros; apply R; right; assumption|exact N2|]. exists p'. split; [exact E|]. split; [exact S'|]. split.
    + intros s0 t0 [H|H]; [|apply T'; exact H]. injection H as <- <-. rewrite U' by exact N1. exact T1.
    + intros u Hu. cbn in Hu. rewrite U' by tauto. apply U1. intro; subst; tauto.
Qed.
Definition rot (ws : list wire) : list wire := match ws with [] => [] | _ => last ws (0, 0)%nat :: removelast ws end.
Lemma length_rot ws : length (rot ws) = length ws.
Proof. destruct ws as [|w ws]; [reflexivity|]. cbn [rot length]. f_equal. rewrite removelast_firstn_len, firstn_length. cbn [length]. lia. Qed.
Lemma rot_perm ws : Permutation (rot ws) ws.
Proof.
  destruct ws as [|w ws]; [constructor|]. cbn [rot]. rewrite (app_removelast_last (0, 0)%nat (l := w :: ws)) at 3 by discriminate. apply Permutation_cons_append.
Qed.
Lemma map_fst_comb {A B} (l : list A) : forall m : list B, length m = length l -> map fst (combine l m) = l.
Proof. induction l as [|a l IH]; intros [|b m] E; cbn in *; try discriminate; [reflexivity|]. f_equal. apply IH. lia. Qed.
Lemma map_comb {A B} (f : A -> B) l : forall m, length m = length l -> (forall s t, In (s, t) (combine l m) -> f s = t) -> map f l = m.
Proof. induction l as [|a l IH]; intros [|b m] E H; cbn in *; try discriminate; [reflexivity|]. f_equal; [apply H; left; reflexivity|]. apply IH; [lia|]. intros; apply H; right; assumption. Qed.
Lemma perm_var_ok n p ws : shape n p -> (forall s, In s ws -> inr n s) -> NoDup ws -> (forall s, In s ws -> target p s = s) ->
  exists p', perm_var p ws = Ok p' /\ shape n p' /\ map (target p') ws = rot ws /\ forall u, ~ In u ws -> target p' u = target p u.
Proof.
  intros S R N I. unfold perm_var. destruct (Nat.leb_spec (length ws) 1) as [L|L].
  - exists p. split; [reflexivity|]. split; [exact S|]. split; [|reflexivity]. destruct ws as [|w [|? ?]]; cbn in *; try lia; [reflexivity|]. rewrite I by (left; reflexivity). reflexivity.
  - assert (E : last ws (0, 0)%nat :: removelast ws = rot ws) by (destruct ws; [cbn in L; lia|reflexivity]). rewrite E.
    pose proof (map_fst_comb ws (rot ws) (length_rot ws)) as MF.
    destruct (sets_ok n (combine ws (rot ws)) p S) as (p' & EQ & S' & T & U).
    + intros [s t] H. apply in_combine_l in H. apply R. exact H.
    + rewrite MF. exact N.
    + exists p'. split; [exact EQ|]. split; [exact S'|]. rewrite MF in U. split; [|exact U]. apply map_comb; [apply length_rot|exact T].
Qed.
Lemma NoDup_concat {A} (L : list (list A)) : (forall i, NoDup (nth i L [])) -> (forall i j x, In x (nth i L []) -> In x (nth j L []) -> i = j) -> NoDup (concat L).
Proof.
  induction L as [|l L IH]; intros N D; [constructor|]. cbn. apply NoDup_app_both.
  - apply (N 0%nat).
  - apply IH; [intro i; apply (N (S i))|]. intros i j x Hi Hj. assert (S i = S j) by (apply (D _ _ x); assumption). lia.
  - intros x I1 I2. apply in_concat in I2. destruct I2 as (m & I2 & I3). apply (In_nth _ _ []) in I2. destruct I2 as (j & _ & <-).
    assert (0%nat = S j) by (apply (D _ _ x); assumption). discriminate.
Qed.
Lemma in_slots n s : In s (slots n) <-> inr n s.
Proof.
  unfold slots, inr. rewrite in_flat_map. split.
  - intros (k & Hk & H). apply in_map_iff in H. destruct H as (i & <- & Hi). apply in_seq in Hk, Hi. cbn [fst snd]. lia.
  - intros [H1 H2]. exists (fst s). split; [apply in_seq; lia|]. apply in_map_iff. exists (snd s). split; [destruct s; reflexivity|apply in_seq; lia].
Qed.
Lemma NoDup_slots n : NoDup (slots n).
Proof.
  unfold slots. assert (H : forall l, NoDup l -> NoDup (flat_map (fun k : nat => map (fun i : nat => (k, i)) (seq 0 n)) l)); [|apply H, seq_NoDup].
  induction 1 as [|k l Hk N IH]; [constructor|]. cbn. apply NoDup_app_both; [|exact IH|].
  - apply FinFun.Injective_map_NoDup; [intros ? ? E; congruence|apply seq_NoDup].
  - intros s I1 I2. apply in_map_iff in I1. destruct I1 as (i & <- & _). apply in_flat_map in I2. destruct I2 as (k' & Hk' & I2). apply in_map_iff in I2. destruct I2 as (j & E & _). inversion E; subst. tauto.
Qed.
Section P.
Variable K : Fld.
Variables (c : composer K) (n : nat) (order : list nat).
Hypothesis W : pwf K c.
Hypothesis L : (c_n c <= n)%nat.
Hypothesis O : Permutation order (seq 0 (length (c_vmap c))).
Notation vm v := (nth v (c_vmap c) []).
Lemma vm_inr v s : In s (vm v) -> inr n s.
Proof. intro H. apply (wf_in K c W) in H. destruct (slot_var_row K c s v W H). split; lia. Qed.
Lemma vm_disj u v s : In s (vm u) -> In s (vm v) -> u = v.
Proof. intros H1 H2. apply (wf_in K c W) in H1, H2. congruence. Qed.
Lemma perm_fold l : forall p, NoDup l -> shape n p -> (forall v s, In v l -> In s (vm v) -> target p s = s) ->
  exists p', fold_left (fun p v => rbind p (fun p => perm_var p (vm v))) l (Ok p) = Ok p' /\ shape n p' /\ (forall v, In v l -> map (target p') (vm v) = rot (vm v)) /\
  (forall s, (forall v, In v l -> ~ In s (vm v)) -> target p' s = target p s).
Proof.
  induction l as [|v l IH]; intros p N S I; cbn [fold_left].
  - exists p. split; [reflexivity|]. split; [exact S|]. split; [intros ? []|reflexivity].
  - cbn [rbind]. inversion N as [|? ? N1 N2]; subst. destruct (perm_var_ok n p (vm v) S (vm_inr v) (wf_nd K c W v)) as (p1 & -> & S1 & M1 & U1); [intros s H; apply (I v s); [left; reflexivity|exact H]|].
    destruct (IH p1 N2 S1) as (p' & E & S' & M' & U').
    { intros u s Hu Hs. rewrite U1; [apply (I u s); [right; exact Hu|exact Hs]|]. intro H. assert (u = v) by (eapply vm_disj; eauto). subst. tauto. }
    exists p'. split; [exact E|]. split; [exact S'|]. split.
    + intros u [<-|Hu]; [|apply M'; exact Hu]. rewrite <- M1. apply map_ext_in. intros s Hs. apply U'. intros u Hu H. assert (u = v) by (eapply vm_disj; eauto). subst. tauto.
    + intros s H. rewrite U' by (intros u Hu; apply H; right; exact Hu). apply U1. apply H. left. reflexivity.
Qed.
Lemma init_shape : shape n (map (fun k : nat => map (fun i : nat => (k, i)) (seq 0 n)) (seq 0 4)).
Proof. split; [reflexivity|]. intros k Hk. destruct k as [|[|[|[|k]]]]; cbn [seq map nth]; try lia; rewrite map_length, seq_length; reflexivity. Qed.
Lemma init_target s : target (map (fun k : nat => map (fun i : nat => (k, i)) (seq 0 n)) (seq 0 4)) s = s.
Proof.
  destruct s as [k i]. unfold target. cbn [fst snd].
  assert (G : forall k : nat, nth i (map (fun i => (k, i)) (seq 0 n)) (k, i) = (k, i)). { intro k0. rewrite (map_nth (fun i => (k0, i)) (seq 0 n) i i). destruct (Nat.lt_ge_cases i n); [rewrite seq_nth by lia; reflexivity|rewrite nth_overflow by (rewrite seq_length; lia); reflexivity]. }
  destruct k as [|[|[|[|k]]]]; cbn [seq map nth]; try apply G. destruct k, i; reflexivity.
Qed.
Lemma wire_perm_spec : exists p, wire_perm c order n = Ok p /\ shape n p /\ (forall v, map (target p) (vm v) = rot (vm v)) /\ (forall s, slot_var c s = None -> target p s = s).
Proof.
  destruct (perm_fold order (map (fun k : nat => map (fun i : nat => (k, i)) (seq 0 n)) (seq 0 4))) as (p & E & S & M & U).
  - eapply Permutation_NoDup; [apply Permutation_sym, O|apply seq_NoDup].
  - apply init_shape.
  - intros. apply init_target.
  - exists p. split; [exact E|]. split; [exact S|]. split.
    + intro v. destruct (Nat.lt_ge_cases v (length (c_vmap c))) as [H|H]; [|rewrite nth_overflow by exact H; reflexivity]. apply M.
      eapply Permutation_in; [apply Permutation_sym, O|]. apply in_seq. lia.
    + intros s H. rewrite U; [apply init_target|]. intros v _ I. apply (wf_in K c W) in I. congruence.
Qed.
Lemma slots_split p : wire_perm c order n = Ok p -> exists rest, Permutation (slots n) (concat (c_vmap c) ++ rest) /\ forall s, In s rest -> target p s = s.
Proof.
  intro E. destruct wire_perm_spec as (p0 & E0 & _ & _ & U). assert (p0 = p) by congruence. subst p0.
  exists (filter (fun s => match slot_var c s with None => true | _ => false end) (slots n)). split.
  - apply NoDup_Permutation; [apply NoDup_slots| |].
    + apply NoDup_app_both; [apply NoDup_concat; [apply (wf_nd K c W)|apply vm_disj]|apply NoDup_filter, NoDup_slots|].
      intros s I1 I2. apply filter_In in I2. destruct I2 as [_ I2]. apply in_concat in I1. destruct I1 as (l & I1 & I3). apply (In_nth _ _ []) in I1. destruct I1 as (v & _ & <-). apply (wf_in K c W) in I3. rewrite I3 in I2. discriminate.
    + intro s. rewrite in_app_iff, filter_In, in_slots. split.
      * intro R. destruct (slot_var c s) as [v|] eqn:V; [left|right; auto]. apply (wf_in K c W) in V. apply in_concat. exists (vm v). split; [|exact V].
        apply nth_In. destruct (Nat.lt_ge_cases v (length (c_vmap c))) as [H|H]; [exact H|]. rewrite nth_overflow in V by exact H. destruct V.
      * intros [I|[R _]]; [|exact R]. apply in_concat in I. destruct I as (l & I1 & I3). apply (In_nth _ _ []) in I1. destruct I1 as (v & _ & <-). eapply vm_inr; eauto.
  - intros s I. apply filter_In in I. apply U. destruct (slot_var c s); [destruct I; discriminate|reflexivity].
Qed.
Lemma wire_perm_bij p : wire_perm c order n = Ok p -> Permutation (map (target p) (slots n)) (slots n).
Proof.
  intro E. destruct (slots_split p E) as (rest & P & R). destruct wire_perm_spec as (p0 & E0 & _ & M & _). assert (p0 = p) by congruence. subst p0.
  rewrite P. rewrite map_app. apply Permutation_app.
  - assert (G : forall l, (forall i, map (target p) (nth i l []) = rot (nth i l [])) -> Permutation (map (target p) (concat l)) (concat l)); [|apply G, M].
    clear. induction l as [|x l IH]; intro H; [constructor|]. cbn. rewrite map_app. apply Permutation_app; [pose proof (H 0%nat) as H0; cbn [nth] in H0; rewrite H0; apply rot_perm|]. apply IH. intro i. apply (H (S i)).
  - rewrite (map_ext_in _ (fun s => s)) by exact R. rewrite map_id. apply Permutation_refl.
Qed.
Lemma wire_perm_var p s : wire_perm c order n = Ok p -> slot_var c (target p s) = slot_var c s.
Proof.
  intro E. destruct wire_perm_spec as (p0 & E0 & _ & M & U). assert (p0 = p) by congruence. subst p0. destruct (slot_var c s) as [v|] eqn:V.
  - apply (wf_in K c W). apply (wf_in K c W) in V. eapply Permutation_in; [apply rot_perm|]. rewrite <- M. apply in_map. exact V.
  - rewrite U by exact V. exact V.
Qed.
Lemma rot_const (f : wire -> K) (g : wire -> wire) ws : map g ws = rot ws -> (forall s, In s ws -> f (g s) = f s) -> forall s t, In s ws -> In t ws -> f s = f t.
Proof.
  intros M H.
  assert (R : map f (rot ws) = map f ws). { rewrite <- M, map_map. apply map_ext_in. exact H. }
  destruct ws as [|w ws]; [intros s t []|]. cbn [rot] in R. 
  assert (G : forall l x y, map f (x :: l) = y :: map f (removelast (x :: l)) -> forall s, In s (x :: l) -> f s = y).
  { induction l as [|z l IH]; intros x y E s I.
    - injection E as E1. destruct I as [<-|[]]. exact E1.
    - change (removelast (x :: z :: l)) with (x :: removelast (z :: l)) in E. change (f x :: map f (z :: l) = y :: f x :: map f (removelast (z :: l))) in E. injection E as E1 E2 E3.
      destruct I as [<-|I]; [exact E1|]. apply (IH z y); [|exact I]. rewrite <- E1. cbn [map]. f_equal; assumption. }
  cbn [map] in R. intros s t Is It. rewrite (G ws w (f (last (w :: ws) (0, 0)%nat))), (G ws w (f (last (w :: ws) (0, 0)%nat)) ltac:(symmetry; exact R) t It); auto.
Qed.
Lemma wire_perm_const p (f : wire -> K) : wire_perm c order n = Ok p ->
  ((forall s, In s (slots n) -> f (target p s) = f s) <-> exists a : nat -> K, forall s v, slot_var c s = Some v -> f s = a v).
Proof.
  intro E. destruct wire_perm_spec as (p0 & E0 & _ & M & U). assert (p0 = p) by congruence. subst p0. split.
  - intro H. exists (fun v => f (hd (0, 0)%nat (vm v))). intros s v V. apply (wf_in K c W) in V. apply (rot_const f (target p) (vm v) (M v)); [intros u Iu; apply H, in_slots; eapply vm_inr; eauto|exact V|].
    destruct (vm v); [destruct V|left; reflexivity].
  - intros (a & A) s _. destruct (slot_var c s) as [v|] eqn:V; [|rewrite U by exact V; reflexivity]. rewrite (A s v V). apply A. rewrite (wire_perm_var p s E). exact V.
Qed.
End P.
Lemma wire_perm_order (K : Fld) (c : composer K) n o1 o2 : pwf K c -> (c_n c <= n)%nat -> Permutation o1 (seq 0 (length (c_vmap c))) -> Permutation o2 (seq 0 (length (c_vmap c))) -> wire_perm c o1 n = wire_perm c o2 n.
Proof.
  intros W L O1 O2. destruct (wire_perm_spec K c n o1 W L O1) as (p & -> & [S4 Sn] & M & U). destruct (wire_perm_spec K c n o2 W L O2) as (q & -> & [R4 Rn] & M' & U').
  f_equal. assert (T : forall s, target p s = target q s).
  { intro s. destruct (slot_var c s) as [v|] eqn:V; [|rewrite U, U' by exact V; reflexivity]. apply (wf_in K c W) in V. specialize (M v). rewrite <- (M' v) in M.
    revert V M. generalize (nth v (c_vmap c) []). induction l as [|x l IH]; intros [] M; inversion M; subst; auto. }
  apply (nth_ext _ _ [] []); [congruence|]. intros k Hk. rewrite S4 in Hk. apply (nth_ext _ _ (0, 0)%nat (0, 0)%nat); [rewrite Sn, Rn; auto|]. intros i Hi. specialize (T (k, i)). unfold target in T. cbn [fst snd] in T.
  transitivity (nth i (nth k p []) (k, i)); [apply nth_indep; exact Hi|]. etransitivity; [exact T|]. apply nth_indep. rewrite Rn by exact Hk. rewrite Sn in Hi; auto.
Qed.
