(** Marlin: constraint-system processing. *)
From Verif Require Import ModelMarlin SpecLC SpecCS SpecMarlin.
From Coq Require Import Permutation.
From Verif Require Import ModelCS.
Local Open Scope fld_scope.
Section P.
Variable K : Fld.
Add Field Kfm : (f_laws K).
Notation row := (list (K * nat)).
Implicit Types a b : list row.
Lemma density_cons (r : row) a : density (r :: a) = (length r + density a)%nat. Proof. reflexivity. Qed.
Definition swapped (p q : row * row) : Prop := q = p \/ q = (snd p, fst p).
Lemma balance_loop_ok a : forall b da db, (0 <= da < 2 ^ 64)%Z -> (0 <= db < 2 ^ 64)%Z ->
  (Z.of_nat (density a) <= da)%Z -> (Z.of_nat (density b) <= db)%Z -> (da + db < 2 ^ 64)%Z ->
  exists a' b', balance_loop false da db a b = Ok (a', b') /\ length a' = length a /\ length b' = length b /\
    Forall2 swapped (combine a b) (combine a' b') /\ (length a = length b -> density a' + density b' = density a + density b)%nat.
Proof.
  induction a as [|ra a IH]; intros b da db Ha Hb La Lb Hs.
  - exists [], b. cbn. repeat split; auto.
  - destruct b as [|rb b]; [exists (ra :: a), []; cbn; repeat split; auto|]. rewrite !density_cons in La, Lb. cbn [balance_loop].
    destruct (da >? db)%Z eqn:E.
    + unfold usize_sub, usize_add. cbn [andb rbind].
      assert (forall u v t : Z, ((u + (v - t) mod 2 ^ 64) mod 2 ^ 64 = (u + v - t) mod 2 ^ 64)%Z) as W.
      { intros u v t. rewrite Zplus_mod_idemp_r. f_equal. lia. }
      rewrite !W. set (na := Z.of_nat (length ra)) in *. set (nb := Z.of_nat (length rb)) in *.
      rewrite (Z.mod_small (da + nb - na)) by lia. rewrite (Z.mod_small (db + na - nb)) by lia.
      destruct (IH b (da + nb - na)%Z (db + na - nb)%Z) as (a' & b' & E' & L1 & L2 & F & D); try lia.
      rewrite E'. cbn [rbind]. exists (rb :: a'), (ra :: b'). split; [reflexivity|]. cbn [length combine]. repeat split; try congruence.
      * constructor; [right; reflexivity|exact F].
      * intro EL. rewrite !density_cons. specialize (D ltac:(lia)). lia.
    + destruct (IH b da db) as (a' & b' & E' & L1 & L2 & F & D); try lia.
      rewrite E'. cbn [rbind]. exists (ra :: a'), (rb :: b'). split; [reflexivity|]. cbn [length combine]. repeat split; try congruence.
      * constructor; [left; reflexivity|exact F].
      * intro EL. rewrite !density_cons. specialize (D ltac:(lia)). lia.
Qed.
(** Without overflow checks the wrapped arithmetic is exact and balancing only swaps rows between the two matrices. *)
Theorem balance_ok a b : length a = length b -> (Z.of_nat (density a + density b) < 2 ^ 64)%Z ->
  exists a' b', balance false a b = Ok (a', b') /\ length a' = length a /\ length b' = length b /\
    (forall i, (i < length a)%nat -> (nth i a' [] = nth i a [] /\ nth i b' [] = nth i b []) \/ (nth i a' [] = nth i b [] /\ nth i b' [] = nth i a [])) /\
    (density a' + density b' = density a + density b)%nat.
Proof.
  intros L B. unfold balance. destruct (balance_loop_ok a b (Z.of_nat (density a)) (Z.of_nat (density b))) as (a' & b' & E & L1 & L2 & F & D); try lia.
  exists a', b'. repeat split; auto. intros i Hi.
  assert (forall (u v u' v' : list row), length u = length v -> length u' = length u -> length v' = length v -> Forall2 swapped (combine u v) (combine u' v') -> forall i, (i < length u)%nat ->
    (nth i u' [] = nth i u [] /\ nth i v' [] = nth i v []) \/ (nth i u' [] = nth i v [] /\ nth i v' [] = nth i u [])) as G.
  { clear. induction u as [|ru u IH]; intros v u' v' L L1 L2 F i Hi; [cbn in Hi; lia|]. destruct v as [|rv v]; [discriminate|]. destruct u' as [|ru' u']; [discriminate|]. destruct v' as [|rv' v']; [discriminate|].
    cbn [combine] in F. inversion F as [|? ? ? ? S F']; subst. destruct i as [|i]; cbn [nth]; [|apply IH; auto; cbn in *; lia].
    destruct S as [S|S]; injection S as -> ->; [left|right]; cbn; auto. }
  apply G; auto.
Qed.
(** With overflow checks (a debug build) balancing panics exactly when the first matrix is denser. *)
Lemma balance_loop_checks a : forall b da db, length a = length b -> (0 <= da < 2 ^ 64)%Z -> (0 <= db < 2 ^ 64)%Z ->
  balance_loop true da db a b = if (da >? db)%Z then (if forallb (fun p => Nat.eqb (length (fst p)) (length (snd p))) (combine a b) then Ok (b, a) else Panic) else Ok (a, b).
Proof.
  induction a as [|ra a IH]; intros [|rb b] da db L Ha Hb; try discriminate.
  - cbn. destruct (da >? db)%Z; reflexivity.
  - cbn [balance_loop combine forallb fst snd]. destruct (da >? db)%Z eqn:E.
    + unfold usize_sub, usize_add. destruct (Nat.eqb_spec (length ra) (length rb)) as [EL|NE].
      * rewrite EL. rewrite Z.ltb_irrefl. cbn [andb rbind]. rewrite Z.sub_diag, Zmod_0_l, !Z.add_0_r.
        rewrite (proj2 (Z.leb_gt _ _)) by lia. cbn [rbind]. rewrite (proj2 (Z.leb_gt _ _)) by lia. cbn [rbind]. rewrite !Z.mod_small by lia.
        rewrite IH by (auto; cbn in L; lia). rewrite E. cbn [andb]. destruct (forallb _ _); reflexivity.
      * cbn [andb]. destruct (Z.of_nat (length rb) <? Z.of_nat (length ra))%Z eqn:E1; [reflexivity|]. cbn [rbind]. apply Z.ltb_ge in E1.
        match goal with |- context [if ?t then Panic else _] => destruct t end; [reflexivity|]. cbn [rbind].
        rewrite (proj2 (Z.ltb_lt _ _)) by lia. reflexivity.
    + rewrite IH by (auto; cbn in L; lia). rewrite E. reflexivity.
Qed.
Lemma density_eq_lengths a : forall b, length a = length b -> forallb (fun p => Nat.eqb (length (fst p)) (length (snd p))) (combine a b) = true -> density a = density b.
Proof.
  induction a as [|ra a IH]; intros [|rb b] L F; try discriminate; [reflexivity|]. cbn [combine forallb fst snd] in F. apply andb_prop in F. destruct F as (F1 & F2).
  apply Nat.eqb_eq in F1. rewrite !density_cons. rewrite F1, (IH b) by (auto; cbn in L; lia). reflexivity.
Qed.
Theorem balance_checks a b : length a = length b -> (Z.of_nat (density a) < 2 ^ 64)%Z -> (Z.of_nat (density b) < 2 ^ 64)%Z ->
  balance true a b = if Nat.ltb (density b) (density a) then Panic else Ok (a, b).
Proof.
  intros L Ba Bb. unfold balance. rewrite balance_loop_checks by (auto; lia). destruct (Nat.ltb_spec (density b) (density a)) as [H|H].
  - rewrite (proj2 (Z.gtb_lt _ _)) by lia. destruct (forallb _ _) eqn:F; [|reflexivity]. apply density_eq_lengths in F; [lia|exact L].
  - destruct (Z.gtb_spec (Z.of_nat (density a)) (Z.of_nat (density b))); [lia|reflexivity].
Qed.

(** Sorting columns. *)
Lemma col_insert_perm e (r : row) : Permutation (e :: r) (col_insert e r).
Proof. induction r as [|x r IH]; cbn; [constructor; constructor|]. destruct (Nat.leb (snd e) (snd x)); [reflexivity|]. eapply perm_trans; [apply perm_swap|]. constructor. exact IH. Qed.
Lemma sort_row_perm (r : row) : Permutation r (sort_row r).
Proof. induction r as [|x r IH]; cbn; [constructor|]. eapply perm_trans; [constructor; exact IH|apply col_insert_perm]. Qed.
Lemma fsum_perm (l m : list K) : Permutation l m -> fsum l = fsum m.
Proof. induction 1; cbn; try congruence. ring. Qed.
Lemma row_val_perm z (r r' : row) : Permutation r r' -> row_val z r = row_val z r'.
Proof. intro H. apply fsum_perm, Permutation_map, H. Qed.
Lemma row_val_sort z (r : row) : row_val z (sort_row r) = row_val z r.
Proof. symmetry. apply row_val_perm, sort_row_perm. Qed.
Lemma nth_sort_columns m i : nth i (sort_columns m) [] = sort_row (nth i m ([] : row)).
Proof. unfold sort_columns. change ([] : row) with (sort_row ([] : row)) at 1. apply map_nth. Qed.
Lemma length_sort m : length (sort_columns (K := K) m) = length m. Proof. apply map_length. Qed.
Lemma density_sort (m : list row) : density (sort_columns m) = density m.
Proof. induction m as [|r m IH]; [reflexivity|]. cbn [sort_columns map]. rewrite !density_cons. unfold sort_columns in IH. rewrite IH, <- (Permutation_length (sort_row_perm r)). reflexivity. Qed.
Lemma length_reindex ni (ls : list (lc K)) : length (reindex ni ls) = length ls. Proof. apply map_length. Qed.
Lemma row_val_reindex ni (x : var -> K) (l : lc K) : (forall (v : var) (k : K), In (v, k) l -> match v with Input i => (i < ni)%nat | Aux _ => True end) ->
  row_val (columns ni x) (map (fun '(v, c) => (c, match v with Aux i => (i + ni)%nat | Input i => i end)) l) = eval x l.
Proof.
  intro A. unfold row_val, eval. rewrite map_map. f_equal. apply map_ext_in. intros (v, c) Hin. cbn [fst snd]. specialize (A v c Hin). unfold columns. destruct v as [i|i].
  - rewrite (proj2 (Nat.ltb_lt _ _)) by exact A. try ring.
  - rewrite (proj2 (Nat.ltb_ge _ _)) by lia. replace (i + ni - ni)%nat with i by lia. try ring.
Qed.
Lemma in_allocated (s : cs K) (l : lc K) : Forall (fun t => allocated s (fst t)) l -> forall (v : var) (k : K), In (v, k) l -> match v with Input i => (i < length (inps s))%nat | Aux _ => True end.
Proof. intros F v c Hin. rewrite Forall_forall in F. specialize (F _ Hin). cbn in F. destruct v; [exact F|exact I]. Qed.
Lemma nth_reindex_val (x : var -> K) ni (ls : list (lc K)) i :
  Forall (fun l => forall (v : var) (k : K), In (v, k) l -> match v with Input i => (i < ni)%nat | Aux _ => True end) ls ->
  row_val (columns ni x) (nth i (reindex ni ls) []) = eval x (nth i ls []).
Proof.
  intro F. unfold reindex. set (g := fun l : lc K => map (fun '(v, c) => (c, match v with Aux i => (i + ni)%nat | Input i => i end)) l).
  change (@nil (K * nat)) with (g []). rewrite map_nth. unfold g. apply row_val_reindex.
  destruct (Nat.lt_ge_cases i (length ls)) as [H|H]; [|rewrite nth_overflow by exact H; intros ? ? []]. rewrite Forall_forall in F. apply F, nth_In, H.
Qed.
Lemma map_nth_c (f : constraint K -> lc K) (l : list (constraint K)) i : (i < length l)%nat -> nth i (map f l) [] = f (nth i l (mkC [] [] [])).
Proof. intro H. rewrite (nth_indep _ _ (f (mkC [] [] []))) by (rewrite map_length; exact H). apply map_nth. Qed.
Lemma forall_in_cons (s : cs K) (f : constraint K -> lc K) : wf s -> (forall c : constraint K, c_in (allocated s) c -> Forall (fun t => allocated s (fst t)) (f c)) ->
  Forall (fun l => forall (v : var) (k : K), In (v, k) l -> match v with Input i => (i < length (inps s))%nat | Aux _ => True end) (map f (cons s)).
Proof.
  intros (_ & F) Hf. rewrite Forall_map. eapply Forall_impl; [|exact F]. intros c Hc. cbv beta. apply in_allocated, Hf, Hc.
Qed.
(** Whenever balancing succeeds, in either build mode, it only exchanged rows. *)
Lemma balance_any checks a b a' b' : length a = length b -> (Z.of_nat (density a + density b) < 2 ^ 64)%Z -> balance checks a b = Ok (a', b') ->
  length a' = length a /\ length b' = length b /\
  (forall i, (i < length a)%nat -> (nth i a' [] = nth i a [] /\ nth i b' [] = nth i b []) \/ (nth i a' [] = nth i b [] /\ nth i b' [] = nth i a [])) /\
  (density a' + density b' = density a + density b)%nat.
Proof.
  intros L B E. destruct checks.
  - rewrite balance_checks in E by (auto; lia). destruct (Nat.ltb (density b) (density a)); [discriminate|]. injection E as <- <-. split; [reflexivity|]. split; [reflexivity|]. split; [|reflexivity]. intros i _. left. split; reflexivity.
  - destruct (balance_ok a b L B) as (x & y & E' & H). rewrite E in E'. injection E' as <- <-. exact H.
Qed.
Definition cols_in (n : nat) (r : row) : Prop := Forall (fun e => (snd e < n)%nat) r.
Lemma cols_sort n (r : row) : cols_in n r -> cols_in n (sort_row r).
Proof. intro H. eapply Permutation_Forall; [apply sort_row_perm|exact H]. Qed.
Lemma cols_reindex (s : cs K) (ls : list (lc K)) : Forall (Forall (fun t => allocated s (fst t))) ls -> Forall (cols_in (length (inps s) + length (auxs s))) (reindex (length (inps s)) ls).
Proof.
  intro F. unfold reindex. rewrite Forall_map. eapply Forall_impl; [|exact F]. intros l Hl. cbv beta. unfold cols_in. rewrite Forall_map. eapply Forall_impl; [|exact Hl]. intros (v, c) Hv. cbn in Hv |- *. destruct v; cbn in Hv; lia.
Qed.
(** The matrices handed to the protocol define the same relation as the constraints. *)
Theorem process_matrices_any checks (s : cs K) a b c : wf s -> (Z.of_nat (density (reindex (length (inps s)) (map ca (cons s))) + density (reindex (length (inps s)) (map cb (cons s)))) < 2 ^ 64)%Z ->
  process_matrices checks s = Ok (a, b, c) -> length a = length (cons s) /\ length b = length (cons s) /\ length c = length (cons s) /\
    (forall x, msat (columns (length (inps s)) x) a b c <-> Forall (holds x) (cons s)) /\
    Forall (cols_in (length (inps s) + length (auxs s))) a /\ Forall (cols_in (length (inps s) + length (auxs s))) b /\ Forall (cols_in (length (inps s) + length (auxs s))) c.
Proof.
  intros W B. unfold process_matrices. set (ni := length (inps s)) in *. destruct (balance checks (reindex ni (map ca (cons s))) (reindex ni (map cb (cons s)))) as [(a0, b0)| |] eqn:E; try discriminate. cbn [rbind]. intro E0. injection E0 as <- <- <-.
  destruct (balance_any checks (reindex ni (map ca (cons s))) (reindex ni (map cb (cons s))) a0 b0) as (L1 & L2 & Sw & _); [rewrite !length_reindex, !map_length; reflexivity|exact B|exact E|].
  rewrite length_reindex, map_length in L1, L2. rewrite !length_sort, length_reindex, map_length. split; [exact L1|]. split; [exact L2|]. split; [reflexivity|].
  assert (forall i, (i < length (cons s))%nat -> nth i a0 [] = nth i (reindex ni (map ca (cons s))) [] /\ nth i b0 [] = nth i (reindex ni (map cb (cons s))) [] \/ nth i a0 [] = nth i (reindex ni (map cb (cons s))) [] /\ nth i b0 [] = nth i (reindex ni (map ca (cons s))) []) as Sw' by (intros i Hi; apply Sw; rewrite length_reindex, map_length; exact Hi).
  split; [|].
  - intro x. unfold msat. rewrite !length_sort, length_reindex, map_length.
    assert (forall i, (i < length (cons s))%nat -> row_val (columns ni x) (nth i (sort_columns a0) []) * row_val (columns ni x) (nth i (sort_columns b0) []) =
       eval x (ca (nth i (cons s) (mkC [] [] []))) * eval x (cb (nth i (cons s) (mkC [] [] []))) /\
       row_val (columns ni x) (nth i (sort_columns (reindex ni (map cc (cons s)))) []) = eval x (cc (nth i (cons s) (mkC [] [] [])))) as G.
    { intros i Hi. rewrite !nth_sort_columns, !row_val_sort. rewrite <- !map_nth_c by exact Hi.
      rewrite <- !(nth_reindex_val x ni) by (apply forall_in_cons; [exact W|]; intros ? (? & ? & ?); assumption). split; [|reflexivity].
      destruct (Sw' i Hi) as [(-> & ->)|(-> & ->)]; [reflexivity|ring]. }
    split.
    + intros (_ & _ & H). apply Forall_forall. intros c Hc. destruct (In_nth _ _ (mkC [] [] []) Hc) as (i & Hi & <-). destruct (G i Hi) as (G1 & G2). unfold holds. rewrite <- G1, <- G2. apply H, Hi.
    + intro F. split; [exact L1|]. split; [exact L2|]. intros i Hi. destruct (G i Hi) as (-> & ->). rewrite Forall_forall in F. apply F, nth_In, Hi.
  - assert (forall f : constraint K -> lc K, (forall c : constraint K, c_in (allocated s) c -> Forall (fun t => allocated s (fst t)) (f c)) -> Forall (cols_in (ni + length (auxs s))) (reindex ni (map f (cons s)))) as CR.
    { intros f Hf. apply cols_reindex. rewrite Forall_map. eapply Forall_impl; [|exact (proj2 W)]. exact Hf. }
    pose proof (CR ca ltac:(intros ? (? & ? & ?); assumption)) as Ra. pose proof (CR cb ltac:(intros ? (? & ? & ?); assumption)) as Rb. pose proof (CR cc ltac:(intros ? (? & ? & ?); assumption)) as Rc.
    assert (forall m : list row, Forall (cols_in (ni + length (auxs s))) m -> Forall (cols_in (ni + length (auxs s))) (sort_columns m)) as CS by (intros m Hm; unfold sort_columns; rewrite Forall_map; eapply Forall_impl; [|exact Hm]; apply cols_sort).
    rewrite Forall_forall in Ra, Rb. assert (forall f : constraint K -> lc K, length (reindex ni (map f (cons s))) = length (cons s)) as LR by (intro f; rewrite length_reindex, map_length; reflexivity).
    repeat split; apply CS; [| |exact Rc]; apply Forall_forall; intros r Hr; destruct (In_nth _ _ [] Hr) as (i & Hi & <-); rewrite ?L1, ?L2 in Hi.
    + destruct (Sw' i Hi) as [(-> & _)|(-> & _)]; [apply Ra|apply Rb]; apply nth_In; rewrite LR; exact Hi.
    + destruct (Sw' i Hi) as [(_ & ->)|(_ & ->)]; [apply Rb|apply Ra]; apply nth_In; rewrite LR; exact Hi.
Qed.
(** Without overflow checks processing always succeeds. *)
Theorem process_matrices_ok (s : cs K) : wf s -> (Z.of_nat (density (reindex (length (inps s)) (map ca (cons s))) + density (reindex (length (inps s)) (map cb (cons s)))) < 2 ^ 64)%Z ->
  exists a b c, process_matrices false s = Ok (a, b, c) /\ length c = length (cons s) /\
    (forall x, msat (columns (length (inps s)) x) a b c <-> Forall (holds x) (cons s)).
Proof.
  intros W B. destruct (balance_ok (reindex (length (inps s)) (map ca (cons s))) (reindex (length (inps s)) (map cb (cons s)))) as (a & b & E & _); [rewrite !length_reindex, !map_length; reflexivity|exact B|].
  destruct (process_matrices false s) as [((a1, b1), c1)| |] eqn:EP; try (unfold process_matrices in EP; rewrite E in EP; discriminate).
  exists a1, b1, c1. split; [reflexivity|]. destruct (process_matrices_any false s a1 b1 c1 W B EP) as (_ & _ & H1 & H2 & _). split; assumption.
Qed.

(** Squaring the system. *)
Lemma mapM_alloc (f : nat -> res K) l : forall s : cs K, md s = Setup -> exists r, mapM (fun i => alloc (f i)) l s = Ok (r, mkCS (md s) (inps s) (auxs s ++ map (fun _ => 0) l) (cons s)).
Proof.
  induction l as [|i l IH]; intros s M; cbn [mapM map].
  - exists []. unfold ret. rewrite app_nil_r. destruct s; reflexivity.
  - unfold bind at 1. unfold alloc at 1. rewrite M. unfold bind. destruct (IH (mkCS Setup (inps s) (auxs s ++ [0]) (cons s)) eq_refl) as (r & E). cbn [md inps auxs cons] in E. rewrite E.
    eexists. unfold ret. rewrite <- app_assoc. reflexivity.
Qed.
Lemma mapM_alloc_p (f : nat -> K) l : forall s : cs K, md s = Prove -> exists r, mapM (fun i => alloc (Ok (f i))) l s = Ok (r, mkCS (md s) (inps s) (auxs s ++ map f l) (cons s)).
Proof.
  induction l as [|i l IH]; intros s M; cbn [mapM map].
  - exists []. unfold ret. rewrite app_nil_r. destruct s; reflexivity.
  - unfold bind at 1. unfold alloc at 1. rewrite M. unfold bind. destruct (IH (mkCS Prove (inps s) (auxs s ++ [f i]) (cons s)) eq_refl) as (r & E). cbn [md inps auxs cons] in E. rewrite E.
    eexists. unfold ret. rewrite <- app_assoc. reflexivity.
Qed.
Lemma mapM_enforce l : forall s : cs K, exists r, mapM (fun _ : nat => enforce [] [] []) l s = Ok (r, mkCS (md s) (inps s) (auxs s) (cons s ++ map (fun _ => mkC [] [] []) l)).
Proof.
  induction l as [|i l IH]; intros s; cbn [mapM map].
  - exists []. unfold ret. rewrite app_nil_r. destruct s; reflexivity.
  - unfold bind at 1. unfold enforce at 1. unfold bind. destruct (IH (mkCS (md s) (inps s) (auxs s) (cons s ++ [mkC [] [] []]))) as (r & E). cbn [md inps auxs cons] in E. rewrite E.
    eexists. unfold ret. rewrite <- app_assoc. reflexivity.
Qed.
(** Squaring never fails, adds unused variables or trivial constraints only, and depends only on the shape. *)
Theorem make_square_ok (s : cs K) : exists s', make_square s = Ok (tt, s') /\ md s' = md s /\ inps s' = inps s /\
  (exists w, auxs s' = auxs s ++ repeat w (length (cons s) - (length (inps s) + length (auxs s)))) /\
  cons s' = cons s ++ repeat (mkC [] [] []) (length (inps s) + length (auxs s) - length (cons s)) /\
  length (cons s') = (length (inps s') + length (auxs s'))%nat.
Proof.
  unfold make_square. assert (forall A (w : A) (n a : nat), map (fun _ => w) (seq a n) = repeat w n) as R by (intros A w n; induction n; intro a; cbn; [reflexivity|rewrite IHn; reflexivity]).
  destruct (Nat.ltb_spec (length (inps s) + length (auxs s)) (length (cons s))) as [H|H].
  - assert (exists w r, mapM (fun _ : nat => alloc (Ok 1)) (seq 0 (length (cons s) - (length (inps s) + length (auxs s)))) s =
       Ok (r, mkCS (md s) (inps s) (auxs s ++ repeat w (length (cons s) - (length (inps s) + length (auxs s)))) (cons s))) as (w & r & E).
    { destruct (md s) eqn:M.
      - destruct (mapM_alloc (fun _ => Ok 1) (seq 0 (length (cons s) - (length (inps s) + length (auxs s)))) s M) as (r & E). exists 0, r. rewrite E, R, M. reflexivity.
      - destruct (mapM_alloc_p (fun _ => 1) (seq 0 (length (cons s) - (length (inps s) + length (auxs s)))) s M) as (r & E). exists 1, r. rewrite E, R, M. reflexivity. }
    unfold bind. rewrite E. unfold ret. eexists. split; [reflexivity|]. cbn [md inps auxs cons]. repeat split; [exists w; reflexivity| |].
    + replace (length (inps s) + length (auxs s) - length (cons s))%nat with 0%nat by lia. cbn. rewrite app_nil_r. reflexivity.
    + rewrite app_length, repeat_length. lia.
  - destruct (mapM_enforce (seq 0 (length (inps s) + length (auxs s) - length (cons s))) s) as (r & E). unfold bind. rewrite E. unfold ret. eexists. split; [reflexivity|]. cbn [md inps auxs cons]. repeat split.
    + exists 0. replace (length (cons s) - (length (inps s) + length (auxs s)))%nat with 0%nat by lia. cbn. rewrite app_nil_r. reflexivity.
    + rewrite R. reflexivity.
    + rewrite app_length, map_length, seq_length. lia.
Qed.
Lemma holds_nil (x : var -> K) : holds x (mkC [] [] []).
Proof. unfold holds, eval. cbn. ring. Qed.
Lemma allocated_mono (s : cs K) (s' : cs K) : (length (inps s) <= length (inps s'))%nat -> (length (auxs s) <= length (auxs s'))%nat -> forall v, allocated s v -> allocated s' v.
Proof. intros H1 H2 [n|n]; cbn; lia. Qed.
Theorem make_square_sat (s s' : cs K) : make_square s = Ok (tt, s') -> (wf s -> wf s') /\ (forall x, sat x s' <-> sat x s) /\ (wf s -> self_sat s -> self_sat s').
Proof.
  intro E. destruct (make_square_ok s) as (s2 & E2 & M & I & (w & A) & C & L). rewrite E in E2. injection E2 as <-.
  assert (forall x, sat x s' <-> sat x s) as SS.
  { intro x. unfold sat. rewrite C, Forall_app. split; [intros (H & F & _); auto|]. intros (H & F). repeat split; auto. apply Forall_forall. intros c Hc. apply repeat_spec in Hc. subst c. apply holds_nil. }
  split; [|split; [exact SS|]].
  - intros ((r & R) & F). split; [exists r; rewrite I; exact R|]. rewrite C. apply Forall_app. split.
    + eapply Forall_impl; [|exact F]. intros c (F1 & F2 & F3). assert (forall v, allocated s v -> allocated s' v) as AM by (apply allocated_mono; [rewrite I; lia|rewrite A, app_length; lia]).
      repeat split; (eapply Forall_impl; [|eassumption]); intros; apply AM; assumption.
    + apply Forall_forall. intros c Hc. apply repeat_spec in Hc. subst c. repeat split; constructor.
  - intros (R & F) (H1 & H2). apply SS. split.
    + unfold wit, ONE in *. rewrite I. exact H1.
    + rewrite Forall_forall in *. intros c Hc. specialize (H2 c Hc). specialize (F c Hc). unfold holds in *.
      assert (forall l, Forall (fun t => allocated s (fst t)) l -> eval (wit s') l = eval (wit s) l) as EV.
      { intros l Fl. unfold eval. f_equal. apply map_ext_in. intros t Ht. f_equal. rewrite Forall_forall in Fl. specialize (Fl t Ht). destruct (fst t) as [n|n]; cbn in Fl |- *; [rewrite I; reflexivity|]. rewrite A, app_nth1 by exact Fl. reflexivity. }
      destruct F as (F1 & F2 & F3). rewrite !EV by assumption. exact H2.
Qed.
End P.

(** Positions of the columns in the evaluation domain. *)
Definition pos (h x j : nat) : nat := let p := Nat.div h x in if Nat.ltb j x then (j * p)%nat else (let i := (j - x) in i + Nat.div i (p - 1) + 1)%nat.
Lemma reidx_ok p x j : (0 < x)%nat -> (0 < p)%nat -> (j < x * p)%nat -> reidx (x * p) x j = Ok (pos (x * p) x j) /\ (pos (x * p) x j < x * p)%nat.
Proof.
  intros Hx Hp Hj. unfold reidx, pos. rewrite (Nat.mul_comm x p), Nat.div_mul by lia. rewrite (proj2 (Nat.ltb_ge _ _)) by nia.
  destruct (Nat.ltb_spec j x) as [H|H]; [split; [reflexivity|nia]|]. destruct (Nat.eqb_spec (p - 1) 0) as [E|E]; [assert (p = 1)%nat by lia; nia|].
  split; [reflexivity|]. set (i := (j - x)%nat). assert (i < x * (p - 1))%nat by nia. pose proof (Nat.div_lt_upper_bound i (p - 1) x E ltac:(nia)). nia.
Qed.
Lemma pos_mod p x j : (0 < x)%nat -> (1 < p)%nat -> (x <= j)%nat -> let k := pos (x * p) x j in
  Nat.modulo k p <> 0%nat /\ (k - Nat.div k p - 1 = j - x)%nat.
Proof.
  intros Hx Hp Hj k. unfold k, pos. rewrite (Nat.mul_comm x p), Nat.div_mul by lia. rewrite (proj2 (Nat.ltb_ge _ _)) by lia. cbv zeta. set (i := (j - x)%nat).
  pose proof (Nat.div_mod i (p - 1) ltac:(lia)) as D. pose proof (Nat.mod_upper_bound i (p - 1) ltac:(lia)) as U. set (q := Nat.div i (p - 1)) in *. set (r := Nat.modulo i (p - 1)) in *.
  assert (i + q + 1 = p * q + (r + 1))%nat as E by nia. rewrite E. split.
  - rewrite Nat.add_comm, Nat.mul_comm, Nat.mod_add by lia. rewrite Nat.mod_small by lia. lia.
  - replace (p * q + (r + 1))%nat with ((r + 1) + q * p)%nat by lia. rewrite Nat.div_add by lia. rewrite Nat.div_small by lia. nia.
Qed.
Lemma pos_inj p x i j : (0 < x)%nat -> (0 < p)%nat -> (i < x * p)%nat -> (j < x * p)%nat -> pos (x * p) x i = pos (x * p) x j -> i = j.
Proof.
  intros Hx Hp Hi Hj E. destruct (Nat.eq_dec p 1) as [->|N].
  - unfold pos in E. rewrite Nat.mul_1_r, Nat.div_same in E by lia. rewrite !(proj2 (Nat.ltb_lt _ _)) in E by lia. nia.
  - destruct (Nat.lt_ge_cases i x) as [I|I], (Nat.lt_ge_cases j x) as [J|J].
    + unfold pos in E. rewrite (Nat.mul_comm x p), Nat.div_mul in E by lia. rewrite !(proj2 (Nat.ltb_lt _ _)) in E by lia. nia.
    + exfalso. destruct (pos_mod p x j Hx ltac:(lia) J) as (M & _). apply M. rewrite <- E. unfold pos. rewrite (Nat.mul_comm x p), Nat.div_mul by lia. rewrite (proj2 (Nat.ltb_lt _ _)) by lia. apply Nat.mod_mul. lia.
    + exfalso. destruct (pos_mod p x i Hx ltac:(lia) I) as (M & _). apply M. rewrite E. unfold pos. rewrite (Nat.mul_comm x p), Nat.div_mul by lia. rewrite (proj2 (Nat.ltb_lt _ _)) by lia. apply Nat.mod_mul. lia.
    + destruct (pos_mod p x i Hx ltac:(lia) I) as (_ & M1). destruct (pos_mod p x j Hx ltac:(lia) J) as (_ & M2). rewrite E in M1. lia.
Qed.
