(** Proofs about the multilinear-extension helpers. *)
From Verif Require Import Field Poly ModelBulletproofs ProofsIPP SpecMle ModelMle.
From Coq Require Import List.
Local Open Scope fld_scope.
Section P.
Variable K : Fld.
Add Field KfMle : (f_laws K).
Notation eval_eq := (eval_eq K). Notation comb := (comb K).

(** ** Bits and the cube *)
Lemma bits_val_acc bs : forall n : nat, fold_left (fun (n : nat) (b : bool) => (2 * n + (if b then 1 else 0))%nat) bs n = (n * 2 ^ length bs + bits_val bs)%nat.
Proof.
  unfold bits_val. induction bs as [|b bs IH]; intro n; [cbn; lia|]. cbn [fold_left length]. rewrite IH. symmetry. rewrite IH. symmetry. cbn [Nat.pow]. destruct b; nia.
Qed.
Lemma bits_val_cons b bs : bits_val (b :: bs) = ((if b then 2 ^ length bs else 0) + bits_val bs)%nat.
Proof. unfold bits_val at 1. cbn [fold_left]. rewrite bits_val_acc. destruct b; cbn [Nat.mul Nat.add]; lia. Qed.
Lemma bits_val_snoc bs b : bits_val (bs ++ [b]) = (2 * bits_val bs + (if b then 1 else 0))%nat.
Proof. unfold bits_val. rewrite fold_left_app. reflexivity. Qed.
Lemma bits_val_lt bs : (bits_val bs < 2 ^ length bs)%nat.
Proof. induction bs as [|b bs IH]; [cbn; lia|]. rewrite bits_val_cons. cbn [length Nat.pow]. destruct b; lia. Qed.
Lemma cube_length k : length (cube k) = (2 ^ k)%nat.
Proof. induction k as [|k IH]; [reflexivity|]. cbn [cube Nat.pow]. rewrite app_length, !map_length, IH. lia. Qed.
Lemma cube_in k bs : In bs (cube k) <-> length bs = k.
Proof.
  revert bs. induction k as [|k IH]; intro bs.
  - cbn. split; [intros [<-|[]]; reflexivity|]. intro H. left. destruct bs; [reflexivity|discriminate].
  - cbn [cube]. rewrite in_app_iff, !in_map_iff. split.
    + intros [(x & <- & H)|(x & <- & H)]; apply IH in H; cbn; lia.
    + intro H. destruct bs as [|b bs]; [discriminate|]. injection H as H. destruct b; [right|left]; exists bs; (split; [reflexivity|]); apply IH; assumption.
Qed.
Lemma map_add_seq a n : forall s, map (fun i => (a + i)%nat) (seq s n) = seq (a + s) n.
Proof. induction n as [|n I]; intro s; [reflexivity|]. cbn [seq map]. f_equal. rewrite I. f_equal. lia. Qed.
Lemma nth_firstn {A} (l : list A) n i d : nth i (firstn n l) d = if Nat.ltb i n then nth i l d else d.
Proof.
  revert n i. induction l as [|x l IH]; intros n i.
  - rewrite firstn_nil. destruct i; cbn [nth]; destruct (Nat.ltb _ _); reflexivity.
  - destruct n as [|n]; [destruct i; reflexivity|]. destruct i as [|i]; [reflexivity|]. cbn [firstn nth]. rewrite IH. change (Nat.ltb (S i) (S n)) with (Nat.ltb i n). reflexivity.
Qed.
Lemma nth_skipn {A} (l : list A) n i d : nth i (skipn n l) d = nth (n + i) l d.
Proof. revert n. induction l as [|x l IH]; intros [|n]; cbn [skipn Nat.add]; try reflexivity; [destruct i; reflexivity|]. rewrite IH. reflexivity. Qed.
Lemma cube_vals k : map bits_val (cube k) = seq 0 (2 ^ k).
Proof.
  induction k as [|k IH]; [reflexivity|]. cbn [cube Nat.pow]. rewrite map_app, !map_map.
  rewrite (map_ext_in (fun x => bits_val (false :: x)) bits_val), (map_ext_in (fun x => bits_val (true :: x)) (fun x => (2 ^ k + bits_val x)%nat)).
  - rewrite <- (map_map bits_val (fun n => (2 ^ k + n)%nat)), IH. replace (2 * 2 ^ k)%nat with (2 ^ k + 2 ^ k)%nat by lia. rewrite seq_app, map_add_seq. cbn [Nat.add]. rewrite Nat.add_0_r. reflexivity.
  - intros x H. apply cube_in in H. rewrite bits_val_cons, H. reflexivity.
  - intros x H. rewrite bits_val_cons. reflexivity.
Qed.
Lemma cube_nth k bs : length bs = k -> nth (bits_val bs) (cube k) [] = bs.
Proof.
  revert bs. induction k as [|k IH]; intros bs H; [destruct bs; [reflexivity|discriminate]|]. destruct bs as [|b bs]; [discriminate|]. injection H as H.
  rewrite bits_val_cons. cbn [cube]. pose proof (bits_val_lt bs) as L. rewrite H in L. destruct b.
  - rewrite app_nth2 by (rewrite map_length, cube_length, H; lia). rewrite map_length, cube_length, H. replace (2 ^ k + bits_val bs - 2 ^ k)%nat with (bits_val bs) by lia.
    rewrite (nth_indep _ [] (true :: [])) by (rewrite map_length, cube_length; lia). rewrite map_nth, IH by assumption. reflexivity.
  - cbn [Nat.add]. rewrite app_nth1 by (rewrite map_length, cube_length; lia).
    rewrite (nth_indep _ [] (false :: [])) by (rewrite map_length, cube_length; lia). rewrite map_nth, IH by assumption. reflexivity.
Qed.

(** ** The table *)
Implicit Types v r e : list K. Implicit Types x y : K.
Lemma eval_eq_cons x r : eval_eq (x :: r) = eq_step K (eval_eq r) x.
Proof. unfold ModelMle.eval_eq. cbn [rev]. rewrite fold_left_app. reflexivity. Qed.
Lemma eval_eq_chi r : eval_eq r = map (fun bs => chi bs r) (cube (length r)).
Proof.
  induction r as [|x r IH]; [reflexivity|]. rewrite eval_eq_cons. unfold eq_step. rewrite IH. cbn [length cube]. rewrite map_app, !map_map. reflexivity.
Qed.
Lemma eval_eq_length r : length (eval_eq r) = (2 ^ length r)%nat.
Proof. rewrite eval_eq_chi, map_length, cube_length. reflexivity. Qed.
Lemma eval_eq_nth r bs : length bs = length r -> nth (bits_val bs) (eval_eq r) 0 = chi bs r.
Proof.
  intro H. pose proof (bits_val_lt bs) as L. rewrite eval_eq_chi. rewrite (nth_indep _ 0 (chi [] r)) by (rewrite map_length, cube_length, <- H; exact L).
  rewrite (map_nth (fun bs => chi bs r)), cube_nth by assumption. reflexivity.
Qed.
Lemma dot_seq (v e : list K) : (length v <= length e)%nat -> dot v e = fsum (map (fun i => nth i v 0 * nth i e 0) (seq 0 (length e))).
Proof.
  intro L. rewrite <- sumn_fsum, dot_sumn. symmetry. apply sumn_trunc; [assumption|]. intros i H. rewrite nth_overflow by lia. ring.
Qed.
Lemma mle_dot v r : (length v <= 2 ^ length r)%nat -> mle v r = dot v (eval_eq r).
Proof.
  intro L. rewrite dot_seq by (rewrite eval_eq_length; exact L). rewrite eval_eq_length, <- cube_vals, map_map. unfold mle. f_equal. apply map_ext_in. intros bs H. apply cube_in in H.
  rewrite eval_eq_nth by assumption. reflexivity.
Qed.
Lemma eval_value_ok v r : eval_value K v r = if Nat.leb (length v) (2 ^ length r) then Ok (mle v r) else Panic.
Proof. unfold eval_value. rewrite eval_eq_length. destruct (Nat.leb_spec (length v) (2 ^ length r)) as [H|H]; [rewrite mle_dot by assumption; reflexivity|reflexivity]. Qed.

(** ** Recursion *)
Lemma mle_cons v x r : mle v (x :: r) = (1 - x) * mle (firstn (2 ^ length r) v) r + x * mle (skipn (2 ^ length r) v) r.
Proof.
  unfold mle. cbn [length cube]. rewrite map_app, fsum_app, !map_map, <- !fsum_map_mul_l. f_equal; f_equal; apply map_ext_in; intros bs H; apply cube_in in H; rewrite bits_val_cons; cbn [chi].
  - rewrite nth_firstn. destruct (Nat.ltb_spec (bits_val bs) (2 ^ length r)) as [L|L]; [cbn [Nat.add]; ring|]. pose proof (bits_val_lt bs) as Q. rewrite H in Q. lia.
  - rewrite nth_skipn, H. ring.
Qed.
Lemma mle_nth v w r : (forall i, (i < 2 ^ length r)%nat -> nth i v 0 = nth i w 0) -> mle v r = mle w r.
Proof. intro H. unfold mle. apply fsum_map_ext. intros bs B. apply cube_in in B. rewrite H; [reflexivity|]. rewrite <- B. apply bits_val_lt. Qed.
Lemma mle_pad v n r : mle (v ++ repeat 0 n) r = mle v r.
Proof.
  apply mle_nth. intros i _. destruct (Nat.lt_ge_cases i (length v)) as [H|H]; [rewrite app_nth1 by assumption; reflexivity|]. rewrite app_nth2, (nth_overflow v) by assumption. apply nth_repeat.
Qed.
Lemma mle_nil v : mle v [] = nth 0 v 0.
Proof. unfold mle. cbn [length cube map fsum bits_val fold_left chi]. change (bits_val []) with 0%nat. ring. Qed.
Lemma mle_lin (a b : K) u v w r : (forall i, (i < 2 ^ length r)%nat -> nth i w 0 = a * nth i u 0 + b * nth i v 0) -> mle w r = a * mle u r + b * mle v r.
Proof.
  intro H. unfold mle. rewrite <- !fsum_map_mul_l, <- fsum_map_add. apply fsum_map_ext. intros bs B. apply cube_in in B. rewrite H; [ring|]. rewrite <- B. apply bits_val_lt.
Qed.

(** ** Multilinear extension and uniqueness *)
Lemma mle_affine v pre x post : mle v (pre ++ x :: post) = (1 - x) * mle v (pre ++ 0 :: post) + x * mle v (pre ++ 1 :: post).
Proof.
  revert v. induction pre as [|y pre IH]; intro v.
  - cbn [app]. rewrite !mle_cons. ring.
  - cbn [app]. rewrite !mle_cons. rewrite !app_length. cbn [length]. rewrite (IH (firstn _ v)), (IH (skipn _ v)). ring.
Qed.
Lemma chi_bits b c : length b = length c -> chi b (map bit c) = if list_eq_dec Bool.bool_dec b c then 1 else (0 : K).
Proof.
  revert c. induction b as [|x b IH]; intros [|y c] H; try discriminate; [destruct (list_eq_dec _ _ _) as [|N]; [reflexivity|destruct N; reflexivity]|].
  injection H as H. cbn [map chi]. rewrite IH by assumption. destruct (list_eq_dec Bool.bool_dec b c) as [->|N].
  - destruct (list_eq_dec Bool.bool_dec (x :: c) (y :: c)) as [E|N].
    + injection E as ->. destruct y; cbn [bit]; ring.
    + destruct x, y; cbn [bit]; try ring; destruct N; reflexivity.
  - destruct (list_eq_dec Bool.bool_dec (x :: b) (y :: c)) as [E|_]; [congruence|]. ring.
Qed.
Lemma cube_NoDup k : NoDup (cube k).
Proof.
  apply (NoDup_map_inv bits_val). rewrite cube_vals. apply seq_NoDup.
Qed.
Lemma fsum_pick {A} (d : forall a b : A, {a = b} + {a <> b}) (l : list A) a (f : A -> K) : NoDup l -> In a l -> fsum (map (fun z : A => f z * (if d z a then 1 else 0)) l) = f a.
Proof.
  induction l as [|z l IH]; intros N I; [destruct I|]. inversion N as [|? ? N1 N2]; subst. cbn [map fsum]. destruct I as [->|I].
  - destruct (d a a) as [_|Q]; [|destruct Q; reflexivity]. rewrite fsum_map_0; [ring|]. intros y Hy. destruct (d y a) as [->|_]; [contradiction|ring].
  - rewrite IH by assumption. destruct (d z a) as [->|_]; [contradiction|ring].
Qed.
Lemma mle_bits v bs : mle v (map bit bs) = nth (bits_val bs) v 0.
Proof.
  unfold mle. rewrite map_length. rewrite <- (fsum_pick (list_eq_dec Bool.bool_dec) (cube (length bs)) bs (fun b => nth (bits_val b) v 0)) by (try apply cube_NoDup; apply cube_in; reflexivity).
  apply fsum_map_ext. intros b B. apply cube_in in B. rewrite chi_bits by assumption. reflexivity.
Qed.
Lemma mle_extends k v : extends k v (mle v).
Proof. split; [intros pre post x _; apply mle_affine|]. intros bs _. apply mle_bits. Qed.
Lemma extends_unique k v f g : extends k v f -> extends k v g -> forall r, length r = k -> f r = g r.
Proof.
  intros [Mf Ef] [Mg Eg]. assert (forall r pre, length (map bit pre ++ r) = k -> f (map bit pre ++ r) = g (map bit pre ++ r)) as Q.
  - induction r as [|x r IH]; intros pre H.
    + rewrite app_nil_r in *. rewrite map_length in H. rewrite Ef, Eg by assumption. reflexivity.
    + rewrite (Mf _ _ x H), (Mg _ _ x H). rewrite app_length in H. cbn [length] in H.
      assert (forall b, f (map bit pre ++ bit b :: r) = g (map bit pre ++ bit b :: r)) as E.
      { intro b. change (bit b :: r) with ([bit b] ++ r). rewrite app_assoc. change [bit b] with (map (bit (K := K)) [b]). rewrite <- map_app. apply IH. rewrite app_length, map_length, app_length. cbn [length]. rewrite map_length in H. lia. }
      pose proof (E false) as E0. pose proof (E true) as E1. cbn [bit] in E0, E1. rewrite E0, E1. reflexivity.
  - intros r H. exact (Q r [] H).
Qed.

(** ** Partial evaluation *)
Lemma half_pow k : (2 ^ S k / 2 = 2 ^ k)%nat.
Proof. cbn [Nat.pow]. rewrite Nat.mul_comm. apply Nat.div_mul. lia. Qed.
Lemma is_pow2_pow k : is_pow2 (2 ^ k) = true.
Proof. unfold is_pow2. rewrite Nat.log2_pow2 by lia. rewrite Nat.eqb_refl. pose proof (Nat.pow_nonzero 2 k). destruct (Nat.eqb_spec (2 ^ k) 0) as [E|]; [lia|reflexivity]. Qed.
Lemma comb_length x v k : length v = (2 ^ S k)%nat -> length (comb x v) = (2 ^ k)%nat.
Proof. intro H. unfold ModelMle.comb. rewrite map_length, seq_length, H. apply half_pow. Qed.
Lemma nth_map_seq (f : nat -> K) n i : nth i (map f (seq 0 n)) 0 = if Nat.ltb i n then f i else 0.
Proof.
  destruct (Nat.ltb_spec i n) as [H|H]; [|apply nth_overflow; rewrite map_length, seq_length; assumption].
  rewrite (nth_indep _ 0 (f 0%nat)) by (rewrite map_length, seq_length; assumption). rewrite map_nth, seq_nth by assumption. reflexivity.
Qed.
Lemma comb_nth x v k i : length v = (2 ^ S k)%nat -> (i < 2 ^ k)%nat -> nth i (comb x v) 0 = x * nth (i + 2 ^ k) v 0 + (1 - x) * nth i v 0.
Proof. intros H L. unfold ModelMle.comb. rewrite H, half_pow, nth_map_seq. destruct (Nat.ltb_spec i (2 ^ k)); [reflexivity|lia]. Qed.
Lemma combine_ok x v k : length v = (2 ^ S k)%nat -> combine_with_r K v x = Ok (comb x v).
Proof. intro H. unfold combine_with_r. rewrite H, half_pow, is_pow2_pow. reflexivity. Qed.
Lemma comb_mle x v r : length v = (2 ^ S (length r))%nat -> mle (comb x v) r = mle v (x :: r).
Proof.
  intro H. rewrite mle_cons. rewrite (mle_lin (1 - x) x (firstn (2 ^ length r) v) (skipn (2 ^ length r) v)); [reflexivity|]. intros i L. rewrite (comb_nth x v (length r)) by assumption.
  rewrite nth_firstn, nth_skipn. destruct (Nat.ltb_spec i (2 ^ length r)); [|lia]. rewrite (Nat.add_comm i). ring.
Qed.
Lemma cube_snoc (F : list bool -> K) k : fsum (map F (cube (S k))) = fsum (map (fun bs => F (bs ++ [false]) + F (bs ++ [true])) (cube k)).
Proof.
  revert F. induction k as [|k IH]; intro F; [cbn; ring|]. change (cube (S (S k))) with (map (cons false) (cube (S k)) ++ map (cons true) (cube (S k))). rewrite map_app, fsum_app, !map_map.
  rewrite (IH (fun z => F (false :: z))), (IH (fun z => F (true :: z))). cbn [cube]. rewrite map_app, fsum_app, !map_map. reflexivity.
Qed.
Lemma chi_snoc bs r b x : length bs = length r -> chi (bs ++ [b]) (r ++ [x]) = chi bs r * (if b then x else 1 - x).
Proof. revert r. induction bs as [|c bs IH]; intros [|y r] H; try discriminate; [cbn; ring|]. injection H as H. cbn [app chi]. rewrite IH by assumption. ring. Qed.
Lemma bot_ok x v k : length v = (2 ^ S k)%nat -> exists w, bound_poly_var_bot K v x = Ok w /\ length w = (2 ^ k)%nat /\ forall r, length r = k -> mle w r = mle v (r ++ [x]).
Proof.
  intro H. unfold bound_poly_var_bot. rewrite H, half_pow, is_pow2_pow. eexists. split; [reflexivity|]. split; [rewrite map_length, seq_length; reflexivity|].
  intros r R. unfold mle. rewrite app_length. cbn [length]. rewrite Nat.add_1_r, cube_snoc, R. apply fsum_map_ext. intros bs B. apply cube_in in B. rewrite !bits_val_snoc, !chi_snoc by congruence.
  rewrite nth_map_seq. pose proof (bits_val_lt bs) as L. rewrite B in L. destruct (Nat.ltb_spec (bits_val bs) (2 ^ k)); [|lia]. rewrite Nat.add_0_r. ring.
Qed.
Lemma eval_eq_x_y_ok rx ry : length rx = length ry -> eval_eq_x_y K rx ry = Ok (fsum (map (fun bs => chi bs rx * chi bs ry) (cube (length rx)))).
Proof.
  intro H. unfold eval_eq_x_y. rewrite H, Nat.eqb_refl. f_equal. rewrite <- H. revert ry H. induction rx as [|x rx IH]; intros [|y ry] H; try discriminate; [cbn; ring|].
  injection H as H. cbn [combine map fprod fst snd length cube]. rewrite map_app, fsum_app, !map_map, (IH ry H). cbn [chi].
  rewrite (fsum_map_ext _ (fun z => (1 - x) * chi z rx * ((1 - y) * chi z ry)) (fun z => ((1 - x) * (1 - y)) * (chi z rx * chi z ry))) by (intros; ring).
  rewrite (fsum_map_ext _ (fun z => x * chi z rx * (y * chi z ry)) (fun z => (x * y) * (chi z rx * chi z ry))) by (intros; ring). rewrite !fsum_map_mul_l. ring.
Qed.

(** ** Sparse evaluation *)
Lemma testbit_hi (b : bool) n a : (a < 2 ^ n)%nat -> Nat.testbit ((if b then 2 ^ n else 0) + a) n = b.
Proof.
  intro H. rewrite Nat.testbit_eqb. destruct b.
  - replace (2 ^ n + a)%nat with (a + 1 * 2 ^ n)%nat by lia. rewrite Nat.div_add by (apply Nat.pow_nonzero; lia). rewrite Nat.div_small by assumption. reflexivity.
  - cbn [Nat.add]. rewrite Nat.div_small by assumption. reflexivity.
Qed.
Lemma testbit_lo (b : bool) n a p : (p < n)%nat -> Nat.testbit ((if b then 2 ^ n else 0) + a) p = Nat.testbit a p.
Proof.
  intro H. destruct b; [|reflexivity]. rewrite !Nat.testbit_eqb. replace n with (S (n - p - 1) + p)%nat at 1 by lia. rewrite Nat.pow_add_r, Nat.add_comm, Nat.div_add by (apply Nat.pow_nonzero; lia).
  cbn [Nat.pow]. rewrite (Nat.mul_comm 2), Nat.mod_add by lia. reflexivity.
Qed.
Lemma testbit_bits bs j : (j < length bs)%nat -> Nat.testbit (bits_val bs) (length bs - j - 1) = nth j bs false.
Proof.
  revert j. induction bs as [|b bs IH]; intros j H; [inversion H|]. rewrite bits_val_cons. cbn [length] in *. destruct j as [|j].
  - replace (S (length bs) - 0 - 1)%nat with (length bs) by lia. apply testbit_hi, bits_val_lt.
  - rewrite testbit_lo by lia. cbn [nth]. rewrite <- IH by lia. reflexivity.
Qed.
Lemma eq_at_chi bs r : length bs = length r -> eq_at K (bits_val bs) r = chi bs r.
Proof.
  intro H. unfold eq_at. transitivity (fprod (map (fun j => if nth j bs false then nth j r 0 else 1 - nth j r 0) (seq 0 (length r)))).
  - f_equal. apply map_ext_in. intros j J. apply in_seq in J. rewrite <- H. rewrite testbit_bits by lia. reflexivity.
  - revert r H. induction bs as [|b bs IH]; intros [|x r] H; try discriminate; [reflexivity|]. injection H as H. cbn [length seq map fprod nth chi]. rewrite <- seq_shift, map_map. cbn [nth]. rewrite IH by assumption. reflexivity.
Qed.
Definition squeeze v : list K := filter (fun c => negb (feqb c 0)) v.
Lemma sparse_ok v r : (length (squeeze v) <= 2 ^ length r)%nat -> sparse_evaluate_value K v r = mle (squeeze v) r.
Proof.
  intro L. unfold sparse_evaluate_value. fold (squeeze v). generalize dependent (squeeze v). intros w L. rewrite mle_dot by assumption.
  rewrite dot_sumn, sumn_fsum. f_equal. transitivity (map (fun i => eq_at K i r * nth i w 0) (seq 0 (length w))).
  - clear L. assert (forall s, map (fun p => eq_at K (fst p) r * snd p) (combine (seq s (length w)) w) = map (fun i => eq_at K (s + i) r * nth i w 0) (seq 0 (length w))) as Q; [|rewrite Q; reflexivity].
    induction w as [|c w IH]; intro s; [reflexivity|]. cbn [length seq combine map fst snd nth]. rewrite Nat.add_0_r. f_equal. rewrite IH, <- seq_shift, map_map. apply map_ext. intro i. cbn [nth]. rewrite Nat.add_succ_r. reflexivity.
  - apply map_ext_in. intros i I. apply in_seq in I. assert (i < 2 ^ length r)%nat as J by lia. assert (In i (map bits_val (cube (length r)))) as Q by (rewrite cube_vals; apply in_seq; lia).
    apply in_map_iff in Q. destruct Q as (bs & <- & B). apply cube_in in B. rewrite eq_at_chi, eval_eq_nth by assumption. ring.
Qed.
Lemma squeeze_length v : (length (squeeze v) <= length v)%nat.
Proof. induction v as [|c v IH]; [cbn; lia|]. cbn [squeeze filter]. fold (squeeze v). destruct (feqb c 0); cbn [negb length]; lia. Qed.
Lemma squeeze_idem v : squeeze (squeeze v) = squeeze v.
Proof.
  unfold squeeze. induction v as [|c v IH]; [reflexivity|]. cbn [filter]. destruct (feqb c 0) eqn:E; cbn [negb]; [exact IH|]. cbn [filter]. rewrite E. cbn [negb]. rewrite IH. reflexivity.
Qed.
(** No zero stands before a nonzero entry. *)
Lemma squeeze_trailing v : (forall i j, (i < j)%nat -> nth i v 0 = 0 -> nth j v 0 = 0) <-> forall i, nth i (squeeze v) 0 = nth i v 0.
Proof.
  split.
  - induction v as [|c v IH]; intros H i; [destruct i; reflexivity|]. cbn [squeeze filter]. fold (squeeze v). destruct (feqb_spec K c 0) as [->|N]; cbn [negb].
    + assert (forall j, nth j v 0 = 0) as Z by (intro j; apply (H 0%nat (S j)); [lia|reflexivity]). assert (squeeze v = []) as ->.
      { clear IH H. induction v as [|d v IH]; [reflexivity|]. cbn [squeeze filter]. fold (squeeze v). pose proof (Z 0%nat) as Z0. cbn [nth] in Z0. rewrite Z0, feqb_refl. cbn [negb]. apply IH. intro j. exact (Z (S j)). }
      destruct i; cbn [nth]; [reflexivity|]. rewrite Z. reflexivity.
    + destruct i; cbn [nth]; [reflexivity|]. apply IH. intros a b L E. apply (H (S a) (S b)); [lia|exact E].
  - intros H i j L E. assert (length (squeeze v) <= i)%nat as Q.
    { destruct (Nat.le_gt_cases (length (squeeze v)) i) as [|G]; [assumption|]. exfalso. rewrite <- H in E. assert (In (nth i (squeeze v) 0) (squeeze v)) as I by (apply nth_In; assumption).
      unfold squeeze in I at 2. apply filter_In in I. destruct I as [_ I]. rewrite E, feqb_refl in I. discriminate. }
    rewrite <- H. apply nth_overflow. lia.
Qed.
Lemma sparse_exact v k : (length v <= 2 ^ k)%nat ->
  (forall r, length r = k -> sparse_evaluate_value K v r = mle v r) <-> (forall i j, (i < j)%nat -> nth i v 0 = 0 -> nth j v 0 = 0).
Proof.
  intro L. pose proof (squeeze_length v) as S. rewrite squeeze_trailing. split.
  - intros H i. destruct (Nat.lt_ge_cases i (2 ^ k)) as [B|B].
    + assert (In i (map bits_val (cube k))) as Q by (rewrite cube_vals; apply in_seq; lia). apply in_map_iff in Q. destruct Q as (bs & <- & Q). apply cube_in in Q.
      specialize (H (map bit bs)). rewrite map_length in H. specialize (H Q). rewrite sparse_ok in H by (rewrite map_length, Q; lia). rewrite !mle_bits in H. exact H.
    + rewrite !nth_overflow by lia. reflexivity.
  - intros H r R. rewrite sparse_ok by (rewrite R; lia). apply mle_nth. intros i _. apply H.
Qed.
End P.
