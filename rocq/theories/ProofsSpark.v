(** Memory checking and product circuits of spartan's SNARK. *)
From Verif Require Import Field Poly Module ModelTranscript ModelBulletproofs ModelMle ModelSigma ModelSpark SpecSpark ProofsMle ProofsLibra ProofsLibra3.
From Coq Require Import Lia.
Local Open Scope fld_scope.
(** ** Lists *)
Lemma mapr_ok {A B} (f : A -> res B) (g : A -> B) l : (forall x, In x l -> f x = Ok (g x)) -> mapr f l = Ok (map g l).
Proof. induction l as [|x l IH]; intro H; [reflexivity|]. cbn [mapr map]. rewrite H by (left; reflexivity). cbn [rbind]. rewrite IH by (intros; apply H; right; assumption). reflexivity. Qed.
Lemma mapr_panic {A B} (f : A -> res B) l x : (forall y, In y l -> (exists z, f y = Ok z) \/ f y = Panic) -> In x l -> f x = Panic -> mapr f l = Panic.
Proof.
  induction l as [|y l IH]; intros H I E; [destruct I|]. cbn [mapr]. destruct (H y (or_introl eq_refl)) as [[z Ez]|Ez]; rewrite Ez; [|reflexivity]. cbn [rbind].
  destruct I as [->|I]; [congruence|]. rewrite IH by (try assumption; intros; apply H; right; assumption). reflexivity.
Qed.
(** ** Time stamps *)
Definition tally (m : nat) (acc : list nat) : list nat := map (times acc) (seq 0 m).
Lemma tally_nil m : tally m [] = repeat 0%nat m.
Proof. unfold tally. assert (Q : forall s, map (times []) (seq s m) = repeat 0%nat m); [|apply Q]. induction m as [|m IH]; intro s; [reflexivity|]. cbn [seq map repeat]. f_equal. apply IH. Qed.
Lemma times_app a b x : times (a ++ b) x = (times a x + times b x)%nat.
Proof. apply count_occ_app. Qed.
Lemma put_tally m acc a : (a < m)%nat -> put (tally m acc) a (S (times acc a)) = tally m (acc ++ [a]).
Proof.
  unfold tally. intro H. assert (Q : forall s n, (s <= a < s + n)%nat -> put (map (times acc) (seq s n)) (a - s) (S (times acc a)) = map (times (acc ++ [a])) (seq s n)).
  { intros s n. revert s. induction n as [|n IH]; intros s Hs; [lia|]. cbn [seq map]. destruct (Nat.eq_dec s a) as [->|N].
    - rewrite Nat.sub_diag. cbn [put]. f_equal; [rewrite times_app; unfold times; cbn [count_occ]; destruct (Nat.eq_dec a a); [lia|congruence]|].
      apply map_ext_in. intros x Hx. apply in_seq in Hx. rewrite times_app. unfold times at 3. cbn [count_occ]. destruct (Nat.eq_dec a x); lia.
    - replace (a - s)%nat with (S (a - S s)) by lia. cbn [put]. rewrite IH by lia. f_equal. rewrite times_app. unfold times at 3. cbn [count_occ]. destruct (Nat.eq_dec a s); lia. }
  specialize (Q 0%nat m). rewrite Nat.sub_0_r in Q. apply Q. lia.
Qed.
Lemma tally_get m acc a : nth_error (tally m acc) a = if Nat.ltb a m then Some (times acc a) else None.
Proof.
  unfold tally. rewrite nth_error_map. destruct (Nat.ltb_spec a m) as [H|H].
  - rewrite (nth_error_nth' (seq 0 m) 0%nat) by (rewrite seq_length; exact H). rewrite seq_nth by exact H. reflexivity.
  - replace (nth_error (seq 0 m) a) with (@None nat); [reflexivity|]. symmetry. apply nth_error_None. rewrite seq_length. exact H.
Qed.
Lemma stamps_cons seen a acc : stamps seen (a :: acc) = times seen a :: stamps (seen ++ [a]) acc.
Proof.
  unfold stamps. cbn [length seq map firstn nth]. rewrite app_nil_r. f_equal. rewrite <- seq_shift, map_map. apply map_ext. intro j. cbn [firstn nth]. rewrite <- app_assoc. reflexivity.
Qed.
Lemma stamps_length seen acc : length (stamps seen acc) = length acc.
Proof. unfold stamps. rewrite map_length, seq_length. reflexivity. Qed.
Lemma mem_ops_ok m acc : forall seen, Forall (fun a => a < m)%nat acc -> mem_ops acc (tally m seen) = Ok (stamps seen acc, tally m (seen ++ acc)).
Proof.
  induction acc as [|a acc IH]; intros seen H; [rewrite app_nil_r; reflexivity|]. cbn [mem_ops]. rewrite tally_get. pose proof (Forall_inv H) as Ha. cbv beta in Ha. destruct (Nat.ltb_spec a m); [|lia].
  rewrite put_tally by assumption. rewrite IH by (exact (Forall_inv_tail H)). rewrite stamps_cons, <- app_assoc. reflexivity.
Qed.
Lemma mem_ops_bad m acc : forall seen, ~ Forall (fun a => a < m)%nat acc -> mem_ops acc (tally m seen) = Panic.
Proof.
  induction acc as [|a acc IH]; intros seen H; [destruct H; constructor|]. cbn [mem_ops]. rewrite tally_get. destruct (Nat.ltb_spec a m) as [L|L]; [|reflexivity].
  rewrite put_tally by assumption. rewrite IH; [reflexivity|]. intro Q. apply H. constructor; assumption.
Qed.
Lemma mem_lists_ok n m lists : forall seen, accesses_ok lists n m -> mem_lists n lists (tally m seen) = Ok (stamps_of seen lists, tally m (seen ++ concat lists)).
Proof.
  induction lists as [|l ls IH]; intros seen H; [cbn [concat]; rewrite app_nil_r; reflexivity|]. cbn [mem_lists stamps_of concat]. destruct (Forall_inv H) as [Hl Hm]. rewrite Hl, Nat.eqb_refl. cbn [negb].
  rewrite mem_ops_ok by exact Hm. cbn [rbind]. rewrite IH by exact (Forall_inv_tail H). cbn [rmap]. rewrite <- app_assoc. reflexivity.
Qed.
Lemma lt_dec_all m acc : {Forall (fun a => a < m)%nat acc} + {~ Forall (fun a => a < m)%nat acc}.
Proof. apply Forall_dec. intro a. destruct (le_lt_dec m a); [right; lia|left; assumption]. Qed.
Lemma mem_lists_bad n m lists : forall seen, ~ accesses_ok lists n m -> mem_lists n lists (tally m seen) = Panic.
Proof.
  induction lists as [|l ls IH]; intros seen H; [destruct H; constructor|]. cbn [mem_lists]. destruct (Nat.eqb_spec (length l) n) as [E|]; [|reflexivity]. cbn [negb].
  destruct (lt_dec_all m l) as [L|L]; [|rewrite mem_ops_bad by exact L; reflexivity]. rewrite mem_ops_ok by exact L. cbn [rbind]. rewrite IH; [reflexivity|]. intro Q. apply H. constructor; [split; assumption|exact Q].
Qed.
Lemma stamps_app seen a b : stamps seen (a ++ b) = stamps seen a ++ stamps (seen ++ a) b.
Proof. revert seen. induction a as [|x a IH]; intro seen; [cbn [app]; rewrite app_nil_r; reflexivity|]. cbn [app]. rewrite !stamps_cons, IH, <- app_assoc. reflexivity. Qed.
Lemma stamps_of_concat lists : forall seen, concat (stamps_of seen lists) = stamps seen (concat lists).
Proof. induction lists as [|l ls IH]; intro seen; [reflexivity|]. cbn [stamps_of concat]. rewrite IH, stamps_app. reflexivity. Qed.
Lemma stamps_of_length lists : forall seen, length (stamps_of seen lists) = length lists.
Proof. induction lists as [|l ls IH]; intro seen; [reflexivity|]. cbn [stamps_of length]. rewrite IH. reflexivity. Qed.
Lemma stamps_of_lengths lists n : forall seen, Forall (fun l => length l = n) lists -> Forall (fun l => length l = n) (stamps_of seen lists).
Proof. induction lists as [|l ls IH]; intros seen H; [constructor|]. cbn [stamps_of]. constructor; [rewrite stamps_length; exact (Forall_inv H)|apply IH; exact (Forall_inv_tail H)]. Qed.

Section S.
Variable K : Fld.
Add Field Kf : (f_laws K).
Lemma memory_in_the_head_ok lists n m : accesses_ok lists n m ->
  memory_in_the_head K lists n m = Ok (mkTs K lists (map (map of_nat) lists) (map (map of_nat) (stamps_of [] lists)) (map (fun a => of_nat (times (concat lists) a)) (seq 0 m))).
Proof. intro H. unfold memory_in_the_head. rewrite <- tally_nil, mem_lists_ok by exact H. cbn [rmap app]. unfold tally. rewrite map_map. reflexivity. Qed.
Lemma memory_in_the_head_bad lists n m : ~ accesses_ok lists n m -> memory_in_the_head K lists n m = Panic.
Proof. intro H. unfold memory_in_the_head. rewrite <- tally_nil, mem_lists_bad by exact H. reflexivity. Qed.

(** ** The identity *)
Lemma of_nat_succ n : of_nat (K := K) (S n) = of_nat n + 1.
Proof. unfold of_nat. rewrite Nat2Z.inj_succ. unfold Z.succ. rewrite of_Z_add. reflexivity. Qed.
Lemma fprod_change (f g : nat -> K) a l : NoDup l -> In a l -> (forall i, i <> a -> f i = g i) -> fprod (map f l) * g a = f a * fprod (map g l).
Proof.
  induction l as [|x l IH]; intros N I H; [destruct I|]. pose proof (NoDup_cons_iff x l) as [Q _]. destruct (Q N) as [Nx Nl]. clear Q. cbn [map fprod fold_right].
  change (fold_right (fun x y => x * y) 1 (map f l)) with (fprod (map f l)). change (fold_right (fun x y => x * y) 1 (map g l)) with (fprod (map g l)). destruct I as [->|I].
  - rewrite (map_ext_in f g); [cbn; ring|]. intros i Hi. apply H. intros ->. contradiction.
  - cbn. rewrite (H x) by (intros ->; contradiction). specialize (IH Nl I H). transitivity (g x * (fprod (map f l) * g a)); [ring|]. rewrite IH. ring.
Qed.
Variables gamma1 gamma2 : K.
Notation finger := (finger K gamma1 gamma2).
(** The accesses to memory [mem], each with its stamp plus [d]. *)
Definition trace (mem : list K) (d : K) (acc ts : list nat) : list K := map (fun '(a, s) => finger (of_nat a) (nth a mem 0) (of_nat s + d)) (combine acc ts).
Definition state (mem : list K) (m : nat) (acc : list nat) : K := fprod (map (fun a => finger (of_nat a) (nth a mem 0) (of_nat (times acc a))) (seq 0 m)).
Lemma times_snoc seen a : times (seen ++ [a]) a = S (times seen a).
Proof. rewrite times_app. unfold times at 2. cbn [count_occ]. destruct (Nat.eq_dec a a); [lia|congruence]. Qed.
Lemma times_other seen a i : i <> a -> times (seen ++ [a]) i = times seen i.
Proof. intro H. rewrite times_app. unfold times at 2. cbn [count_occ]. destruct (Nat.eq_dec a i); [congruence|lia]. Qed.
Theorem memory_identity mem m acc : forall seen, Forall (fun a => a < m)%nat acc ->
  state mem m seen * fprod (trace mem 1 acc (stamps seen acc)) = fprod (trace mem 0 acc (stamps seen acc)) * state mem m (seen ++ acc).
Proof.
  induction acc as [|a acc IH]; intros seen H; [rewrite app_nil_r; cbn; ring|]. rewrite stamps_cons. specialize (IH (seen ++ [a]) (Forall_inv_tail H)). rewrite <- app_assoc in IH. cbn [app] in IH.
  unfold trace in *. cbn [combine map fprod fold_right]. 
  assert (Q : state mem m seen * finger (of_nat a) (nth a mem 0) (of_nat (times seen a) + 1) = finger (of_nat a) (nth a mem 0) (of_nat (times seen a) + 0) * state mem m (seen ++ [a])).
  { unfold state. pose proof (fprod_change (fun a => finger (of_nat a) (nth a mem 0) (of_nat (times seen a))) (fun i => finger (of_nat i) (nth i mem 0) (of_nat (times (seen ++ [a]) i))) a (seq 0 m)) as E.
    cbv beta in E. rewrite times_snoc, of_nat_succ in E. rewrite E; [replace (of_nat (times seen a) + 0) with (of_nat (K := K) (times seen a)) by ring; reflexivity|apply seq_NoDup|apply in_seq; pose proof (Forall_inv H) as Ha; cbv beta in Ha; lia|].
    intros i Hi. rewrite times_other by exact Hi. reflexivity. }
  cbn. match type of IH with _ * ?W = ?R * _ => transitivity ((state mem m seen * finger (of_nat a) (nth a mem 0) (of_nat (times seen a) + 1)) * W) end; [cbn; ring|]. rewrite Q.
  match type of IH with _ * ?W = ?R * _ => transitivity (finger (of_nat a) (nth a mem 0) (of_nat (times seen a) + 0) * (state mem m (seen ++ [a]) * W)) end; [ring|]. rewrite IH. cbn. ring.
Qed.
End S.
