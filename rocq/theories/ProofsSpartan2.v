(** Proofs about spartan's instances and their list form. *)
From Verif Require Import Field Poly Module ModelTranscript ModelMle SpecMle ProofsMle ModelLibra ProofsLibra ModelLC SpecLC ModelCS SpecCS SpecLibra ProofsLibra3 ModelSigma ModelSpartan SpecSpartan ProofsSpartan.
From Coq Require Import List Lia Sorted.
Local Open Scope list_scope.
Local Open Scope fld_scope.
Section S.
Variable K : Fld.
Add Field Kf : (f_laws K).

Lemma row_eval_push (a : var -> K) (l : lc K) : row_eval a (push_constraints K l) = eval a l.
Proof. unfold row_eval, push_constraints, eval. rewrite map_map. apply fsum_map_ext. intros [v c] _. cbn. ring. Qed.
Lemma nth_mat (f : constraint K -> lc K) (cs : list (constraint K)) n j : nth j (map (fun c => push_constraints K (f c)) cs ++ repeat [] n) [] = match nth_error cs j with Some c => push_constraints K (f c) | None => [] end.
Proof.
  destruct (nth_error cs j) as [c|] eqn:E.
  - assert (L : (j < length cs)%nat) by (apply nth_error_Some; congruence). rewrite app_nth1 by (rewrite map_length; exact L).
    rewrite (nth_error_nth (map (fun c => push_constraints K (f c)) cs) j (x := push_constraints K (f c))); [reflexivity|]. rewrite nth_error_map, E. reflexivity.
  - apply nth_error_None in E. rewrite app_nth2 by (rewrite map_length; exact E). apply nth_repeat.
Qed.
Lemma pow2_above_log n : pow2_above n (2 ^ log2c n).
Proof. exact (next_pow2_above n). Qed.
Lemma in_range_mat ni na (f : constraint K -> lc K) (cs : list (constraint K)) n :
  Forall (fun c => Forall (fun t => match fst t with Input i => i < ni | Aux i => i < na end)%nat (f c)) cs ->
  in_range ni na (map (fun c => push_constraints K (f c)) cs ++ repeat [] n).
Proof.
  intro H. apply Forall_app. split.
  - rewrite Forall_map. revert H. apply Forall_impl. intros c H. unfold push_constraints. rewrite Forall_map. revert H. apply Forall_impl. intros [v x] H. exact H.
  - apply Forall_forall. intros l Hl. apply repeat_spec in Hl. subst. constructor.
Qed.
Theorem generate_ok (circuit : M K unit) u s : circuit (cs_new Setup) = Ok (u, s) -> exists i, generate_r1cs K circuit = Ok i /\
  r_inputs K i = length (inps s) /\ r_aux K i = length (auxs s) /\ pow2_above (length (ModelCS.cons s)) (r_cons K i) /\
  (forall a, inst_sat a i <-> sat a s) /\ ((0 < length (inps s))%nat -> Forall (c_in (allocated s)) (ModelCS.cons s) -> wf_inst i).
Proof.
  intro E. unfold generate_r1cs. rewrite E. cbn [rbind]. eexists. split; [reflexivity|]. cbn [r_inputs r_aux r_cons r_a r_b r_c].
  set (n := length (ModelCS.cons s)). set (n' := (2 ^ log2c n)%nat). assert (P : pow2_above n n') by apply pow2_above_log.
  split; [reflexivity|]. split; [reflexivity|]. split; [exact P|]. split.
  - intro a. unfold inst_sat, sat. cbn [r_a r_b r_c]. split; intros [H1 H]; (split; [exact H1|]).
    + apply Forall_forall. intros c Hc. apply In_nth_error in Hc. destruct Hc as [j Hj]. specialize (H j). rewrite !nth_mat, Hj, !row_eval_push in H. exact H.
    + intro j. rewrite !nth_mat. destruct (nth_error (ModelCS.cons s) j) as [c|] eqn:Ej; [|cbn; ring]. rewrite !row_eval_push. rewrite Forall_forall in H. apply (H c). apply (nth_error_In _ _ Ej).
  - intros Hr Hc. unfold wf_inst. cbn [r_inputs r_aux r_cons r_a r_b r_c]. split; [exact Hr|]. destruct P as (k & Ek & Ln & _). split; [exists k; exact Ek|].
    split; [rewrite !app_length, !map_length, !repeat_length; fold n; lia|].
    split; [|split]; apply in_range_mat; revert Hc; apply Forall_impl; intros c (Ha & Hb & Hcc); [revert Ha|revert Hb|revert Hcc]; apply Forall_impl; intros [[x|x] v]; exact (fun H => H).
Qed.

(** ** Lists *)
Definition lsum (ms : list (nat * K)) (col : nat) : K := fsum (map (fun p => if Nat.eqb (fst p) col then snd p else 0) ms).
Lemma lsum_add c v ms col : lsum (bt_add K c v ms) col = lsum ms col + (if Nat.eqb c col then v else 0).
Proof.
  induction ms as [|[c' v'] ms IH]; [cbn; ring|]. cbn [bt_add]. destruct (Nat.compare_spec c c') as [->|L|L]; unfold lsum in *; cbn [map fsum fst snd].
  - destruct (Nat.eqb c' col); ring.
  - ring.
  - rewrite IH. ring.
Qed.
Lemma bt_keys c v ms x : In x (map fst (bt_add K c v ms)) -> x = c \/ In x (map fst ms).
Proof.
  induction ms as [|[c' v'] ms IH]; [cbn; intuition|]. cbn [bt_add]. destruct (Nat.compare_spec c c') as [->|L|L]; cbn [map fst In].
  - intuition.
  - intuition.
  - intros [H|H]; [right; left; exact H|]. destruct (IH H); intuition.
Qed.
Lemma bt_sorted c v ms : StronglySorted lt (map fst ms) -> StronglySorted lt (map fst (bt_add K c v ms)).
Proof.
  induction ms as [|[c' v'] ms IH]; intro H; [repeat constructor|]. cbn [map fst] in H. inversion H as [|? ? H1 H2]; subst. cbn [bt_add]. destruct (Nat.compare_spec c c') as [->|L|L]; cbn [map fst].
  - exact H.
  - constructor; [exact H|]. constructor; [exact L|]. revert H2. apply Forall_impl. intros; lia.
  - constructor; [apply IH, H1|]. apply Forall_forall. intros x Hx. apply bt_keys in Hx. destruct Hx as [->|Hx]; [exact L|]. rewrite Forall_forall in H2. apply H2, Hx.
Qed.
Definition bt_row (off : nat) (mv : list (K * var)) : list (nat * K) := fold_left (fun ms '(val, col) => bt_add K (col_of off col) val ms) mv [].
Lemma bt_row_ok off N mv : cols_lt K off N mv -> StronglySorted lt (map fst (bt_row off mv)) /\ Forall (fun p => fst p < N)%nat (bt_row off mv) /\
  forall col, lsum (bt_row off mv) col = fsum (map fst (filter (fun t => Nat.eqb (column off (snd t)) col) mv)).
Proof.
  intro Hc. unfold bt_row.
  assert (Q : forall ms, StronglySorted lt (map fst ms) -> Forall (fun p => fst p < N)%nat ms -> let r := fold_left (fun ms '(val, col) => bt_add K (col_of off col) val ms) mv ms in
    StronglySorted lt (map fst r) /\ Forall (fun p => fst p < N)%nat r /\ forall col, lsum r col = lsum ms col + fsum (map fst (filter (fun t => Nat.eqb (column off (snd t)) col) mv))).
  { induction mv as [|[v x] mv IH]; intros ms Hs Hn; cbv zeta; cbn [fold_left]; [split; [exact Hs|]; split; [exact Hn|]; intro; cbn; ring|].
    inversion Hc as [|? ? H1 H2]; subst. cbn [snd] in H1. rewrite col_column.
    destruct (IH H2 (bt_add K (column off x) v ms)) as (A & B & C); [apply bt_sorted, Hs| |].
    - rewrite Forall_forall in *. intros p Hp. destruct (bt_keys (column off x) v ms (fst p)) as [->|Hk]; [apply in_map, Hp|exact H1|]. apply in_map_iff in Hk. destruct Hk as (q & <- & Hq). apply Hn, Hq.
    - split; [exact A|]. split; [exact B|]. intro col. rewrite C, lsum_add. cbn [filter snd]. destruct (Nat.eqb (column off x) col); cbn [map fsum fst]; ring. }
  destruct (Q [] (SSorted_nil _) (Forall_nil _)) as (A & B & C). split; [exact A|]. split; [exact B|]. intro col. rewrite C. unfold lsum. cbn. ring.
Qed.
Definition row_list (off : nat) (p : nat * list (K * var)) : list (K * nat * nat) :=
  map (fun '(col, val) => (val, fst p, col)) (filter (fun '(_, val) => negb (feqb val 0)) (bt_row off (snd p))).
Definition esum (es : list (K * nat * nat)) (row col : nat) : K := fsum (map (fun e => if Nat.eqb (snd (fst e)) row && Nat.eqb (snd e) col then fst (fst e) else 0) es).
Lemma listed_esum (es : list (K * nat * nat)) row col :
  listed (map (fun '(v, _, _) => v) es) (map (fun '(_, r, _) => r) es) (map (fun '(_, _, c) => c) es) row col = esum es row col.
Proof. induction es as [|[[v r] c] es IH]; [reflexivity|]. unfold esum in *. cbn [map listed fsum fst snd]. rewrite IH. reflexivity. Qed.
Lemma esum_app a b row col : esum (a ++ b) row col = esum a row col + esum b row col.
Proof. unfold esum. rewrite map_app, fsum_app. reflexivity. Qed.
Lemma row_list_sum off N p row col : cols_lt K off N (snd p) -> esum (row_list off p) row col = if Nat.eqb (fst p) row then fsum (map fst (filter (fun t => Nat.eqb (column off (snd t)) col) (snd p))) else 0.
Proof.
  intro Hc. destruct (bt_row_ok off N (snd p) Hc) as (_ & _ & <-). unfold row_list, esum, lsum. induction (bt_row off (snd p)) as [|[c v] ms IH]; [cbn; destruct (Nat.eqb _ _); reflexivity|].
  cbn [filter]. destruct (feqb_spec K v 0) as [->|N0]; cbn [negb map fsum fst snd]; rewrite IH; destruct (Nat.eqb (fst p) row); cbn [andb]; destruct (Nat.eqb c col); ring.
Qed.
Lemma ss_filter {A} (R : A -> A -> Prop) f (l : list A) : StronglySorted R l -> StronglySorted R (filter f l).
Proof.
  induction l as [|x l IH]; intro H; [constructor|]. inversion H as [|? ? H1 H2]; subst. cbn [filter]. destruct (f x); [|apply IH, H1]. constructor; [apply IH, H1|].
  rewrite Forall_forall in *. intros y Hy. apply filter_In in Hy. apply H2, Hy.
Qed.
Lemma ss_map {A B} (R : A -> A -> Prop) (R' : B -> B -> Prop) (f : A -> B) l : (forall x y, R x y -> R' (f x) (f y)) -> StronglySorted R l -> StronglySorted R' (map f l).
Proof.
  intros Hf. induction l as [|x l IH]; intro H; [constructor|]. inversion H as [|? ? H1 H2]; subst. cbn [map]. constructor; [apply IH, H1|]. rewrite Forall_map. revert H2. apply Forall_impl. intros y. apply Hf.
Qed.
Lemma ss_unmap {A B} (R : B -> B -> Prop) (f : A -> B) l : StronglySorted R (map f l) -> StronglySorted (fun x y => R (f x) (f y)) l.
Proof. induction l as [|x l IH]; intro H; [constructor|]. cbn [map] in H. inversion H as [|? ? H1 H2]; subst. constructor; [apply IH, H1|]. rewrite Forall_map in H2. exact H2. Qed.
Lemma ss_app {A} (R : A -> A -> Prop) l r : StronglySorted R l -> StronglySorted R r -> (forall x y, In x l -> In y r -> R x y) -> StronglySorted R (l ++ r).
Proof.
  induction l as [|x l IH]; intros Hl Hr H; [exact Hr|]. inversion Hl as [|? ? H1 H2]; subst. cbn [app]. constructor.
  - apply IH; [exact H1|exact Hr|]. intros; apply H; [right|]; assumption.
  - apply Forall_app. split; [exact H2|]. apply Forall_forall. intros y Hy. apply H; [left; reflexivity|exact Hy].
Qed.
Definition pos (e : K * nat * nat) : nat * nat := (snd (fst e), snd e).
Lemma row_list_sorted off N p : cols_lt K off N (snd p) -> StronglySorted (fun x y => after (pos x) (pos y)) (row_list off p) /\
  Forall (fun e => fst (pos e) = fst p /\ (snd (pos e) < N)%nat /\ fst (fst e) <> 0) (row_list off p).
Proof.
  intro Hc. destruct (bt_row_ok off N (snd p) Hc) as (A & B & _). split.
  - unfold row_list. apply (ss_map (fun x y : nat * K => (fst x < fst y)%nat)).
    + intros [c v] [c' v'] L. unfold after, pos. cbn in *. lia.
    + apply ss_filter. apply (ss_unmap lt fst). exact A.
  - unfold row_list. rewrite Forall_map. apply Forall_forall. intros [c v] Hv. apply filter_In in Hv. destruct Hv as [Hi Hv]. unfold pos. cbn. split; [reflexivity|]. rewrite Forall_forall in B. split; [apply (B _ Hi)|].
    intros ->. rewrite feqb_refl in Hv. discriminate.
Qed.
Theorem switch_ok m ni na n vals rows cols : in_range ni na m -> (ni <= n)%nat -> (na <= n)%nat -> switch_matrix_to_list K m n = (vals, rows, cols) ->
  length rows = length vals /\ length cols = length vals /\ Forall (fun v => v <> 0) vals /\ Forall (fun r => r < length m)%nat rows /\ Forall (fun c => c < 2 * n)%nat cols /\
  StronglySorted after (combine rows cols) /\ forall row col, listed vals rows cols row col = entry n m row col.
Proof.
  intros Hr Hi Ha E. assert (Hc : forall j, cols_lt K n (2 * n) (nth j m [])) by (intro j; apply (range_cols K ni na); assumption). clear Hr.
  unfold switch_matrix_to_list in E. set (es := concat _) in E. injection E as <- <- <-. rewrite !map_length. split; [reflexivity|]. split; [reflexivity|].
  assert (Es : es = concat (map (row_list n) (combine (seq 0 (length m)) m))).
  { unfold es. f_equal. apply map_ext. intros [r mv]. reflexivity. }
  assert (Q : forall s, (forall j, cols_lt K n (2 * n) (nth j m [])) -> let es := concat (map (row_list n) (combine (seq s (length m)) m)) in
    StronglySorted (fun x y => after (pos x) (pos y)) es /\ Forall (fun e => (s <= fst (pos e) < s + length m)%nat /\ (snd (pos e) < 2 * n)%nat /\ fst (fst e) <> 0) es /\
    forall row col, esum es (s + row) col = entry n m row col).
  { clear es Es Hc. induction m as [|l m IH]; intros s Hc; cbv zeta; [cbn; split; [constructor|]; split; [constructor|]; intros row col; unfold entry; destruct row; reflexivity|].
    cbn [length seq combine map concat]. destruct (IH (S s) (fun j => Hc (S j))) as (A & B & C).
    destruct (row_list_sorted n (2 * n) (s, l) (Hc 0%nat)) as (A0 & B0). cbn [fst] in B0. split; [|split].
    - apply ss_app; [exact A0|exact A|]. intros x y Hx Hy. rewrite Forall_forall in B, B0. specialize (B0 _ Hx). specialize (B _ Hy). unfold after. lia.
    - apply Forall_app. split; [revert B0|revert B]; apply Forall_impl; intros e He; [destruct He as (H1 & H2 & H3)|destruct He as (H1 & H2 & H3)]; (split; [lia|]); split; assumption.
    - intros row col. rewrite esum_app, (row_list_sum n (2 * n)) by apply (Hc 0%nat). cbn [fst snd]. destruct row as [|row].
      + rewrite Nat.add_0_r, Nat.eqb_refl. assert (Z : esum (concat (map (row_list n) (combine (seq (S s) (length m)) m))) s col = 0); [|rewrite Z; unfold entry; cbn [nth]; ring].
        unfold esum. apply fsum_map_0. intros e He. rewrite Forall_forall in B. specialize (B _ He). unfold pos in B. cbn [fst snd] in B. destruct (Nat.eqb_spec (snd (fst e)) s); [lia|reflexivity].
      + destruct (Nat.eqb_spec s (s + S row)); [lia|]. replace (s + S row)%nat with (S s + row)%nat by lia. rewrite C. unfold entry. cbn [nth]. ring. }
  destruct (Q 0%nat Hc) as (A & B & C). cbv zeta in A, B, C. rewrite <- Es in A, B, C. clear Q Es. clearbody es. rename es into es'. rewrite !Forall_map.
  split; [revert B; apply Forall_impl; intros [[v r] c] (_ & _ & H); exact H|].
  split; [revert B; apply Forall_impl; intros [[v r] c] (H & _ & _); cbn in H; lia|].
  split; [revert B; apply Forall_impl; intros [[v r] c] (_ & H & _); exact H|]. split.
  - assert (Ec : combine (map (fun '(_, r, _) => r) es') (map (fun '(_, _, c) => c) es') = map pos es') by (clear; induction es' as [|[[v r] c] es IH]; [reflexivity|]; cbn; rewrite IH; reflexivity).
    rewrite Ec. apply (ss_map (fun x y => after (pos x) (pos y))); [intros x y H; exact H|exact A].
  - intros row col. rewrite listed_esum. apply (C row col).
Qed.
End S.
