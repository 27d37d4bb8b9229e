(** Proofs about spartan's matrices. *)
From Verif Require Import Field Poly Module ModelTranscript ModelMle SpecMle ProofsMle ModelLibra ProofsLibra ModelLC SpecLC ModelCS SpecCS SpecLibra ProofsLibra3 ModelSigma ProofsSigma3 ModelSpartan SpecSpartan.
From Coq Require Import List Lia Sorted.
Local Open Scope list_scope.
Local Open Scope fld_scope.
Section S.
Variable K : Fld.
Add Field Kf : (f_laws K).

Lemma foldr_add {A} (f : K -> A -> res K) (g : A -> K) (l : list A) : (forall s x, In x l -> f s x = Ok (s + g x)) -> forall s, foldr f s l = Ok (s + fsum (map g l)).
Proof.
  induction l as [|x l IH]; intros H s; [cbn; f_equal; ring|]. cbn [foldr map fsum]. rewrite H by (left; reflexivity). cbn [rbind].
  rewrite IH by (intros; apply H; right; assumption). f_equal. ring.
Qed.
Lemma combine_seq_in {A} (d : A) (m : list A) : forall s p, In p (combine (seq s (length m)) m) -> exists j, (j < length m)%nat /\ p = ((s + j)%nat, nth j m d).
Proof.
  induction m as [|x m IH]; intros s p H; [destruct H|]. cbn [length seq combine] in H. destruct H as [<-|H].
  - exists 0%nat. split; [cbn; lia|]. rewrite Nat.add_0_r. reflexivity.
  - destruct (IH _ _ H) as (j & L & ->). exists (S j). split; [cbn; lia|]. rewrite Nat.add_succ_r. reflexivity.
Qed.
Lemma fsum_combine_seq {A} (d : A) (g : nat -> A -> K) (m : list A) : forall s,
  fsum (map (fun p => g (fst p) (snd p)) (combine (seq s (length m)) m)) = sumn (length m) (fun j => g (s + j)%nat (nth j m d)).
Proof.
  induction m as [|x m IH]; intro s; [reflexivity|]. cbn [length seq combine map fsum fst snd]. rewrite IH.
  rewrite sumn_S. cbn [nth]. rewrite Nat.add_0_r. f_equal. apply sumn_ext. intros i _. rewrite Nat.add_succ_r. reflexivity.
Qed.

Lemma col_column off v : col_of off v = column off v.
Proof. destruct v; cbn; lia. Qed.
Definition cols_lt (off N : nat) (l : list (K * var)) : Prop := Forall (fun t => (column off (snd t) < N)%nat) l.
Lemma range_cols ni na off m j : in_range ni na m -> (ni <= off)%nat -> (na <= off)%nat -> cols_lt off (2 * off) (nth j m []).
Proof.
  intros H Hi Ha. destruct (Nat.lt_ge_cases j (length m)) as [L|L]; [|rewrite nth_overflow by exact L; constructor].
  unfold in_range in H. rewrite Forall_forall in H. specialize (H _ (nth_In m [] L)). revert H. apply Forall_impl. intros [c [i|i]]; cbn [snd column]; lia.
Qed.
Lemma row_entries off N (l : list (K * var)) (Y : nat -> K) : cols_lt off N l ->
  fsum (map (fun t => fst t * Y (column off (snd t))) l) = sumn N (fun c => fsum (map fst (filter (fun t => Nat.eqb (column off (snd t)) c) l)) * Y c).
Proof.
  induction l as [|[v x] l IH]; intro H; [cbn [map filter fsum]; symmetry; apply sumn_0; intros; cbn; ring|].
  inversion H as [|? ? H1 H2]; subst. cbn [map fsum fst snd] in *. rewrite IH by exact H2.
  rewrite (sumn_ext K N (fun c => fsum (map fst (filter (fun t => Nat.eqb (column off (snd t)) c) ((v, x) :: l))) * Y c) (fun c => (if Nat.eqb (column off x) c then v * Y c else 0) + fsum (map fst (filter (fun t => Nat.eqb (column off (snd t)) c) l)) * Y c)).
  - rewrite sumn_add. f_equal. symmetry. rewrite (sumn_one K N _ (column off x) H1); [rewrite Nat.eqb_refl; reflexivity|]. intros i _ Ni. destruct (Nat.eqb_spec (column off x) i); [congruence|reflexivity].
  - intros c _. cbn [filter snd]. destruct (Nat.eqb (column off x) c); cbn [map fsum fst]; ring.
Qed.
(** The bilinear form of a matrix. *)
Definition bil (off : nat) (m : list (list (K * var))) (X Y : nat -> K) : K := sumn (length m) (fun r => fsum (map (fun t => fst t * Y (column off (snd t))) (nth r m [])) * X r).
Lemma bil_entries off N m X Y : (forall j, cols_lt off N (nth j m [])) -> bil off m X Y = sumn (length m) (fun r => sumn N (fun c => entry off m r c * Y c) * X r).
Proof. intro H. unfold bil. apply sumn_ext. intros r _. f_equal. apply row_entries, H. Qed.

Lemma evaluate_mle_bil m (rx ry : list K) off : (length m <= 2 ^ length rx)%nat -> (2 ^ length ry = 2 * off)%nat -> (forall j, cols_lt off (2 * off) (nth j m [])) ->
  evaluate_mle K m rx ry = Ok (bil off m (fun r => nth r (eval_eq K rx) 0) (fun c => nth c (eval_eq K ry) 0)).
Proof.
  intros Lm Ly Hc. unfold evaluate_mle. set (ex := eval_eq K rx). set (ey := eval_eq K ry).
  assert (Lex : length ex = (2 ^ length rx)%nat) by apply eval_eq_length. assert (Ley : length ey = (2 * off)%nat) by (unfold ey; rewrite eval_eq_length; exact Ly).
  assert (Lh : (length ey / 2)%nat = off) by (rewrite Ley, Nat.mul_comm, Nat.div_mul by lia; reflexivity). rewrite Lh.
  rewrite (foldr_add _ (fun p => fsum (map (fun t => fst t * nth (column off (snd t)) ey 0) (snd p)) * nth (fst p) ex 0)).
  - f_equal. rewrite (fsum_combine_seq [] (fun r l => fsum (map (fun t => fst t * nth (column off (snd t)) ey 0) l) * nth r ex 0) m 0). cbn [Nat.add]. unfold bil. ring.
  - intros s p Hp. destruct (combine_seq_in [] m 0 p Hp) as (j & Lj & ->). cbn [fst snd Nat.add].
    rewrite (foldr_add _ (fun t => nth (column off (snd t)) ey 0 * nth j ex 0 * fst t)).
    + f_equal. f_equal. rewrite <- fsum_map_mul_r. apply fsum_map_ext. intros [v x] _. cbn [fst snd]. ring.
    + intros s' [v x] Hin. rewrite col_column. specialize (Hc j). unfold cols_lt in Hc. rewrite Forall_forall in Hc. specialize (Hc _ Hin). cbn [snd] in Hc.
      rewrite !kget_ok by lia. cbn [rbind rmap fst snd]. reflexivity.
Qed.
Lemma mle_table off m rx ry rows : (rows <= 2 ^ length rx)%nat -> (length m <= rows)%nat -> (2 ^ length ry = 2 * off)%nat -> (forall j, cols_lt off (2 * off) (nth j m [])) ->
  mle (table off m rows (2 * off)) (rx ++ ry) = bil off m (fun r => nth r (eval_eq K rx) 0) (fun c => nth c (eval_eq K ry) 0).
Proof.
  intros Lr Lm Ly Hc. rewrite mle_app, (bil_entries off (2 * off)) by exact Hc. rewrite Ly.
  assert (Po : (0 < 2 * off)%nat) by (rewrite <- Ly; apply Nat.neq_0_lt_0, Nat.pow_nonzero; lia).
  assert (Nt : forall i j, (j < 2 * off)%nat -> nth (i * (2 * off) + j) (table off m rows (2 * off)) 0 = if Nat.ltb i rows then entry off m i j else 0).
  { intros i j Hj. unfold table. rewrite nth_map_seq. rewrite Nat.div_add_l, Nat.div_small, Nat.add_0_r by lia. rewrite Nat.add_comm, Nat.mod_add, Nat.mod_small by lia.
    destruct (Nat.ltb_spec i rows) as [L|L]; destruct (Nat.ltb_spec (j + i * (2 * off)) (rows * (2 * off))) as [L'|L']; try reflexivity; nia. }
  rewrite (sumn_trunc K (length m) (2 ^ length rx)).
  - apply sumn_ext. intros i Li. rewrite (sumn_ext K (2 * off) _ (fun j => entry off m i j * nth j (eval_eq K ry) 0)); [ring|].
    intros j Lj. rewrite Nt by exact Lj. destruct (Nat.ltb_spec i rows); [reflexivity|lia].
  - lia.
  - intros i Hi. rewrite (sumn_0 K (2 * off)); [ring|]. intros j Lj. rewrite Nt by exact Lj. destruct (Nat.ltb i rows); [|ring].
    unfold entry. rewrite nth_overflow by lia. cbn. ring.
Qed.
Theorem evaluate_mle_ok m rx ry k ni na : length ry = S k -> (length m <= 2 ^ length rx)%nat -> in_range ni na m -> (ni <= 2 ^ k)%nat -> (na <= 2 ^ k)%nat ->
  evaluate_mle K m rx ry = Ok (mle (table (2 ^ k) m (2 ^ length rx) (2 ^ S k)) (rx ++ ry)).
Proof.
  intros Ly Lm Hr Hi Ha. assert (E2 : (2 ^ length ry = 2 * 2 ^ k)%nat) by (rewrite Ly; reflexivity).
  assert (Hc : forall j, cols_lt (2 ^ k) (2 * 2 ^ k) (nth j m [])) by (intro j; apply (range_cols ni na); assumption).
  rewrite (evaluate_mle_bil m rx ry (2 ^ k)) by assumption. f_equal. symmetry. change (2 ^ S k)%nat with (2 * 2 ^ k)%nat. apply mle_table; try assumption. lia.
Qed.

Lemma nth_aux_inputs n (aux inputs : list K) v : length aux = n -> (column n v < 2 * n)%nat -> match v with Aux i => (i < n)%nat | Input _ => True end -> nth (column n v) (aux ++ inputs) 0 = assign inputs aux v.
Proof.
  intros La L Hv. destruct v as [i|i]; cbn [column assign] in *.
  - rewrite app_nth2 by lia. f_equal. lia.
  - apply app_nth1. lia.
Qed.
Theorem matrix_vec_ok m (aux inputs : list K) ni na n : length aux = n -> length inputs = n -> in_range ni na m -> (ni <= n)%nat -> (na <= n)%nat ->
  evaluate_matrix_vec K m (aux ++ inputs) = Ok (map (row_eval (assign inputs aux)) m).
Proof.
  intros La Li Hr Hi Ha. unfold evaluate_matrix_vec.
  assert (Lh : (length (aux ++ inputs) / 2 = n)%nat) by (rewrite app_length, La, Li; replace (n + n)%nat with (n * 2)%nat by lia; apply Nat.div_mul; lia). rewrite Lh.
  assert (Q : forall acc, foldr (fun ms mv => rmap (fun s => ms ++ [s]) (foldr (fun s '(val, col) => rmap (fun y => s + val * y) (kget K (aux ++ inputs) (col_of n col))) 0 mv)) acc m = Ok (acc ++ map (row_eval (assign inputs aux)) m)); [|apply Q].
  induction Hr as [|l m Hl Hm IH]; intro acc; [cbn; rewrite app_nil_r; reflexivity|]. cbn [foldr map].
  rewrite (foldr_add _ (fun t => fst t * assign inputs aux (snd t))).
  - cbn [rmap rbind]. rewrite IH, <- app_assoc. cbn [app]. do 2 f_equal. f_equal. unfold row_eval. ring.
  - intros s [v x] Hin. rewrite Forall_forall in Hl. specialize (Hl _ Hin). cbn [fst snd] in *. rewrite col_column. assert (Cx : (column n x < 2 * n)%nat) by (destruct x; cbn in *; lia).
    rewrite kget_ok by (rewrite app_length; lia). cbn [rmap rbind]. rewrite nth_aux_inputs; [reflexivity|exact La|exact Cx|destruct x; [exact I|lia]].
Qed.

Lemma col_row_ok (coeffs : list K) row off N : (row < length coeffs)%nat -> forall (mv : list (K * var)) ms, length ms = N -> cols_lt off N mv ->
  exists w, foldr (fun ms '(val, col) => rbind (kget K coeffs row) (fun c => add_at K ms (col_of off col) (val * c))) ms mv = Ok w /\ length w = N /\
    forall j, nth j w 0 = nth j ms 0 + fsum (map fst (filter (fun t => Nat.eqb (column off (snd t)) j) mv)) * nth row coeffs 0.
Proof.
  intros Lr. rewrite kget_ok by exact Lr. cbn [rbind]. induction mv as [|[v x] mv IH]; intros ms L Hc; [exists ms; cbn; split; [reflexivity|]; split; [exact L|]; intro; ring|].
  inversion Hc as [|? ? H1 H2]; subst. cbn [snd] in H1. cbn [foldr]. rewrite col_column.
  destruct (add_at_ok K ms (column off x) (v * nth row coeffs 0) H1) as (w & -> & Lw & Nw). cbn [rbind].
  destruct (IH w Lw H2) as (w' & -> & Lw' & Nw'). exists w'. split; [reflexivity|]. split; [congruence|]. intro j. rewrite Nw', Nw. cbn [filter snd]. rewrite (Nat.eqb_sym j).
  destruct (Nat.eqb (column off x) j); cbn [map fsum fst]; ring.
Qed.
Theorem matrix_col_ok m (coeffs : list K) ni na n : (length m <= length coeffs)%nat -> in_range ni na m -> (ni <= n)%nat -> (na <= n)%nat ->
  exists w, evaluate_matrix_vec_col K m coeffs (2 * n) = Ok w /\ length w = (2 * n)%nat /\ forall j, nth j w 0 = sumn (length m) (fun row => entry n m row j * nth row coeffs 0).
Proof.
  intros Lm Hr Hi Ha. assert (Hc : forall j, cols_lt n (2 * n) (nth j m [])) by (intro j; apply (range_cols ni na); assumption). clear Hr.
  unfold evaluate_matrix_vec_col. replace (2 * n / 2)%nat with n by (rewrite Nat.mul_comm, Nat.div_mul; lia).
  assert (Q : forall s ms, length ms = (2 * n)%nat -> (s + length m <= length coeffs)%nat -> exists w, foldr (fun ms '(row, mv) => foldr (fun ms '(val, col) => rbind (kget K coeffs row) (fun c => add_at K ms (col_of n col) (val * c))) ms mv) ms (combine (seq s (length m)) m) = Ok w /\ length w = (2 * n)%nat /\
    forall j, nth j w 0 = nth j ms 0 + sumn (length m) (fun row => entry n m row j * nth (s + row) coeffs 0)).
  { clear Lm. induction m as [|l m IH]; intros s ms L Ls; [exists ms; split; [reflexivity|]; split; [exact L|]; intro j; cbn; ring|]. cbn [length] in Ls. cbn [length seq combine foldr].
    destruct (col_row_ok coeffs s n (2 * n) ltac:(lia) l ms L (Hc 0%nat)) as (w & -> & Lw & Nw). cbn [rbind].
    destruct (IH (fun j => Hc (S j)) (S s) w Lw ltac:(lia)) as (w' & -> & Lw' & Nw'). exists w'. split; [reflexivity|]. split; [exact Lw'|]. intro j. rewrite Nw', Nw, sumn_S, Nat.add_0_r.
    unfold entry at 2. cbn [nth]. rewrite (sumn_ext K (length m) (fun i => entry n (l :: m) (S i) j * nth (s + S i) coeffs 0) (fun row => entry n m row j * nth (S s + row) coeffs 0)); [ring|].
    intros i _. unfold entry. cbn [nth]. rewrite Nat.add_succ_r. reflexivity. }
  destruct (Q 0%nat (repeat 0 (2 * n)) (repeat_length _ _) ltac:(lia)) as (w & E & Lw & Nw). exists w. split; [exact E|]. split; [exact Lw|]. intro j. rewrite Nw, nth_repeat. cbn [Nat.add]. ring.
Qed.
End S.
