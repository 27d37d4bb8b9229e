(** Proofs about the comparison gadget. *)
From Verif Require Import Field ModelLC SpecLC ProofsLC ModelCS SpecCS ProofsCS ModelBoolean SpecBoolean ProofsBoolean ModelUint32 SpecUint32 ProofsUint32 ModelOperator SpecOperator ProofsOperator.
Local Open Scope Z_scope.

(** ** Explicit runs *)
Section X.
Context {K : Fld}.
Local Open Scope fld_scope.
Implicit Types (s : cs K).
(** What a mode records for a witness value. *)
Definition ph (m : mode) (y : K) : K := match m with Setup => 0 | Prove => y end.
Definition st (s : cs K) (iv av : list K) (cv : list (constraint K)) : cs K :=
  mkCS (md s) (inps s ++ iv) (auxs s ++ av) (cons s ++ cv).
Lemma st_nil s : st s [] [] [] = s.
Proof. unfold st. rewrite !app_nil_r. destruct s; reflexivity. Qed.
Lemma bind_ok {A B} (m : M K A) (k : A -> M K B) s a s' : m s = Ok (a, s') -> bind m k s = k a s'.
Proof. intro E. unfold bind. rewrite E. reflexivity. Qed.
Lemma alloc_st f y s iv av cv : md s = Setup \/ f = Ok y -> alloc f (st s iv av cv) = Ok (Aux (length (auxs s) + length av), st s iv (av ++ [ph (md s) y]) cv).
Proof.
  intro H. unfold alloc, st. cbn [md inps auxs cons]. rewrite app_length.
  destruct (md s) eqn:Em; [rewrite <- app_assoc; reflexivity|]. destruct H as [H| ->]; [discriminate H|]. rewrite <- app_assoc. reflexivity.
Qed.
Lemma alloc_input_st f y s iv av cv : md s = Setup \/ f = Ok y -> alloc_input f (st s iv av cv) = Ok (Input (length (inps s) + length iv), st s (iv ++ [ph (md s) y]) av cv).
Proof.
  intro H. unfold alloc_input, st. cbn [md inps auxs cons]. rewrite app_length.
  destruct (md s) eqn:Em; [rewrite <- app_assoc; reflexivity|]. destruct H as [H| ->]; [discriminate H|]. rewrite <- app_assoc. reflexivity.
Qed.
Lemma enforce_st a b c s iv av cv : enforce a b c (st s iv av cv) = Ok (tt, st s iv av (cv ++ [mkC a b c])).
Proof. unfold enforce, st. cbn [md inps auxs cons]. rewrite <- app_assoc. reflexivity. Qed.
Lemma alloc_all_st ys : forall s iv av cv, mapM (fun b => alloc (Ok b)) ys (st s iv av cv) =
  Ok (map Aux (seq (length (auxs s) + length av) (length ys)), st s iv (av ++ map (ph (md s)) ys) cv).
Proof.
  induction ys as [|y ys IH]; intros s iv av cv; cbn [mapM map length seq].
  - rewrite app_nil_r. reflexivity.
  - erewrite bind_ok by (apply (alloc_st _ y); right; reflexivity). erewrite bind_ok by apply IH.
    rewrite app_length, <- app_assoc. cbn [length app ret]. unfold ret. repeat f_equal. lia.
Qed.
Lemma enforce_all_st (A B C : var -> lc K) vs : forall s iv av cv, mapM (fun b => enforce (A b) (B b) (C b)) vs (st s iv av cv) =
  Ok (map (fun _ => tt) vs, st s iv av (cv ++ map (fun b => mkC (A b) (B b) (C b)) vs)).
Proof.
  induction vs as [|v vs IH]; intros s iv av cv; cbn [mapM map].
  - rewrite app_nil_r. reflexivity.
  - erewrite bind_ok by apply enforce_st. erewrite bind_ok by apply IH. rewrite <- app_assoc. reflexivity.
Qed.
Lemma bind_err {A B} (m : M K A) (k : A -> M K B) s e : m s = Err e -> bind m k s = Err e.
Proof. intro E. unfold bind. rewrite E. reflexivity. Qed.
End X.

Section R.
Variable K : PFld.
Local Open Scope fld_scope.
Add Field Kf : (f_laws K).
Implicit Types (s : cs K) (x : var -> K).

(** The constraints, for variables counted from [k] and the public input [m]. *)
Definition rp_cons (n k m : nat) : list (constraint K) :=
  let l := Aux k in let r := Aux (k + 1) in let t := Input m in let p := Aux (k + 2) in
  let alpha := map Aux (seq (k + 3) n) in let le := Aux (k + 3 + n) in let inv := Aux (k + 4 + n) in
  let out := Aux (k + 5 + n) in let less := Aux (k + 6 + n) in
  [mkC (lc_add_var lc_zero ONE) (lc_sub_var (lc_add_var (lc_add_var lc_zero t) r) l) (lc_add_var lc_zero p)] ++
  map (fun b => mkC (lc_sub_term (lc_add_var lc_zero ONE) 1 b) (lc_add_term lc_zero 1 b) lc_zero) (alpha ++ [le]) ++
  [mkC (lc_add_var lc_zero inv) (rp_sum K alpha) (lc_add_var lc_zero out);
   mkC (lc_sub_var (lc_add_var lc_zero ONE) out) (rp_sum K alpha) lc_zero;
   mkC (lc_add_var lc_zero le) (lc_add_var lc_zero out) (lc_add_var lc_zero less);
   mkC (lc_sub_var (lc_add_var lc_zero ONE) out) (lc_add_var lc_zero out) lc_zero;
   mkC (lc_add_var lc_zero ONE) (rp_pack K lc_zero 1 (alpha ++ [le])) (lc_add_var lc_zero p);
   mkC (lc_add_var lc_zero less) (lc_add_var lc_zero ONE) (lc_add_var lc_zero ONE)].
(** The values recorded by the prover. *)
Definition rp_vals (n : nat) (a b : K) : list K :=
  let av := of_Z 2 ^ n + b - a in
  let bits := map (rp_bit K av) (seq 0 n) in
  let sum := rp_count K bits in
  let nz : K := if feqb sum 0 then 0 else 1 in
  [a; b; av] ++ bits ++ [rp_bit K av n; (if feqb sum 0 then 0 else finv sum); nz;
    (if feqb (rp_bit K av n) 0 || feqb nz 0 then 0 else 1)].

Lemma rp_run rb lhs rhs n s :
  (md s = Setup \/ (lhs <> None /\ rhs <> None)) -> (n < rb)%nat ->
  exists iv av, rangeproof rb lhs rhs n s = Ok (tt, st s iv av (rp_cons n (length (auxs s)) (length (inps s)))) /\
    length iv = 1%nat /\ length av = (n + 7)%nat /\
    (forall a b, md s = Prove -> lhs = Some a -> rhs = Some b -> iv = [of_Z 2 ^ n] /\ av = rp_vals n a b).
Proof.
  intros HA Hn. assert (rangeproof rb lhs rhs n s = rangeproof rb lhs rhs n (st s [] [] [])) as R0 by (rewrite st_nil; reflexivity).
  rewrite R0. clear R0. unfold rangeproof.
  set (a := match lhs with Some a => a | None => 0 end). set (b := match rhs with Some a => a | None => 0 end).
  assert (md s = Setup \/ ok_or lhs AssignmentMissing = Ok a) as HL.
  { destruct HA as [?|[A B]]; [auto|]. destruct lhs; [right; reflexivity|congruence]. }
  assert (md s = Setup \/ ok_or rhs AssignmentMissing = Ok b) as HR.
  { destruct HA as [?|[A B]]; [auto|]. destruct rhs; [right; reflexivity|congruence]. }
  erewrite bind_ok by (apply alloc_st; exact HL). erewrite bind_ok by (apply alloc_st; exact HR).
  erewrite bind_ok by (apply (alloc_input_st _ (of_Z 2 ^ n)); right; reflexivity). cbv zeta.
  set (packed := match rhs with Some r => _ | None => _ end).
  set (av := match packed with Some i => i | None => 0 end).
  assert (md s = Setup \/ ok_or packed AssignmentMissing = Ok av) as HP.
  { destruct HA as [?|[A B]]; [auto|]. right. unfold packed, av. destruct lhs, rhs; try congruence. reflexivity. }
  erewrite bind_ok by (apply alloc_st; exact HP).
  destruct (Nat.ltb_spec rb (n + 1)) as [|_]; [lia|].
  erewrite bind_ok by apply alloc_all_st.
  erewrite bind_ok by (eapply alloc_st; right; reflexivity).
  erewrite bind_ok by (eapply alloc_st; right; reflexivity).
  erewrite bind_ok by (eapply alloc_st; right; reflexivity).
  erewrite bind_ok by apply enforce_st.
  erewrite bind_ok by apply enforce_all_st.
  erewrite bind_ok by apply enforce_st.
  erewrite bind_ok by apply enforce_st.
  erewrite bind_ok by (eapply alloc_st; right; reflexivity).
  do 3 erewrite bind_ok by apply enforce_st. rewrite enforce_st.
  eexists _, _. split; [f_equal; f_equal|].
  - match goal with |- st s ?i ?w ?c = st s _ _ ?d => replace c with d; [reflexivity|] end.
    unfold rp_cons. rewrite !app_length, !map_length, !seq_length. cbn [length app Nat.add].
    replace (length (auxs s) + 1)%nat with (length (auxs s) + 1)%nat by reflexivity.
    rewrite Nat.add_0_r. 
    replace (length (auxs s) + S (S (S (n + 1))))%nat with (length (auxs s) + 4 + n)%nat by lia.
    replace (length (auxs s) + S (S (S (n + 1 + 1))))%nat with (length (auxs s) + 5 + n)%nat by lia.
    replace (length (auxs s) + S (S (S (n + 1 + 1 + 1))))%nat with (length (auxs s) + 6 + n)%nat by lia.
    replace (length (auxs s) + S (S (S n)))%nat with (length (auxs s) + 3 + n)%nat by lia.
    rewrite <- !app_assoc. cbn [app]. rewrite ?Nat.add_0_r. reflexivity.
  - rewrite !app_length, !map_length, seq_length. cbn [length]. split; [reflexivity|]. split; [lia|].
    intros a' b' Em -> ->. cbn in a, b, packed, av. rewrite Em. cbn [ph]. split; [reflexivity|].
    unfold rp_vals. rewrite map_ext with (g := fun y => y) by reflexivity. rewrite map_id, <- !app_assoc. reflexivity.
Qed.

(** Reading bit [n] needs [n + 1] bits of representation. *)
Lemma rangeproof_panics_eq rb lhs rhs n s : md s = Setup \/ (lhs <> None /\ rhs <> None) -> (rb <= n)%nat ->
  rangeproof rb lhs rhs n s = Panic.
Proof.
  intros HA Hn. rewrite <- (st_nil s). unfold rangeproof.
  set (a := match lhs with Some a => a | None => 0 end). set (b := match rhs with Some a => a | None => 0 end).
  assert (md s = Setup \/ ok_or lhs AssignmentMissing = Ok a) as HL.
  { destruct HA as [?|[A B]]; [auto|]. destruct lhs; [right; reflexivity|congruence]. }
  assert (md s = Setup \/ ok_or rhs AssignmentMissing = Ok b) as HR.
  { destruct HA as [?|[A B]]; [auto|]. destruct rhs; [right; reflexivity|congruence]. }
  erewrite bind_ok by (apply alloc_st; exact HL). erewrite bind_ok by (apply alloc_st; exact HR).
  erewrite bind_ok by (apply (alloc_input_st _ (of_Z 2 ^ n)); right; reflexivity). cbv zeta.
  set (packed := match rhs with Some r => _ | None => _ end).
  set (av := match packed with Some i => i | None => 0 end).
  assert (md s = Setup \/ ok_or packed AssignmentMissing = Ok av) as HP.
  { destruct HA as [?|[A B]]; [auto|]. right. unfold packed, av. destruct lhs, rhs; try congruence. reflexivity. }
  erewrite bind_ok by (apply alloc_st; exact HP).
  destruct (Nat.ltb_spec rb (n + 1)) as [_|]; [reflexivity|lia].
Qed.
Lemma rangeproof_panics rb lhs rhs n s r : md s = Setup \/ (lhs <> None /\ rhs <> None) -> (rb <= n)%nat ->
  rangeproof rb lhs rhs n s = Ok r -> False.
Proof. intros A B. rewrite (rangeproof_panics_eq rb lhs rhs n s A B). discriminate. Qed.

Definition bitv (t : bool) : K := if t then 1 else 0.
Lemma eval_sum x vs : forall l, eval x (fold_left (fun l v => lc_add_term l 1 v) vs l) = eval x l + fsum (map x vs).
Proof.
  induction vs as [|v vs IH]; intro l; cbn [fold_left map fsum]; [ring|]. rewrite IH. autorewrite with lcdb. ring.
Qed.
Fixpoint packv (vs : list K) : K := match vs with [] => 0 | v :: r => v + (1 + 1) * packv r end.
Lemma eval_pack x vs : forall l c, eval x (rp_pack K l c vs) = eval x l + c * packv (map x vs).
Proof.
  induction vs as [|v vs IH]; intros l c; cbn [rp_pack map packv]; [ring|]. rewrite IH. autorewrite with lcdb. ring.
Qed.
Lemma packv_bits bs : packv (map bitv bs) = of_Z (Z_of_bits bs).
Proof.
  induction bs as [|b bs IH]; [reflexivity|]. cbn [map packv]. rewrite IH. change (Z_of_bits (b :: bs)) with (Z.b2z b + 2 * Z_of_bits bs)%Z.
  rewrite of_Z_add, of_Z_mul. destruct b; cbn; ring.
Qed.
Definition countZ (bs : list bool) : Z := fold_right (fun b a => Z.b2z b + a)%Z 0%Z bs.
Lemma fsum_bits bs : fsum (map bitv bs) = of_Z (countZ bs).
Proof.
  induction bs as [|b bs IH]; [reflexivity|]. cbn [map fsum]. rewrite IH. change (countZ (b :: bs)) with (Z.b2z b + countZ bs)%Z.
  rewrite of_Z_add. destruct b; cbn; ring.
Qed.
Lemma count_pos bs : (0 <= countZ bs <= Z.of_nat (length bs))%Z /\ ((countZ bs = 0 <-> Z_of_bits bs = 0)%Z).
Proof.
  induction bs as [|b bs IH]; [cbn; lia|]. change (countZ (b :: bs)) with (Z.b2z b + countZ bs)%Z.
  change (Z_of_bits (b :: bs)) with (Z.b2z b + 2 * Z_of_bits bs)%Z. pose proof (Z_of_bits_range bs). cbn [length]. destruct b; cbn [Z.b2z]; lia.
Qed.
Lemma bits_of_forall (vs : list K) : Forall (fun y => (1 - y) * y = 0) vs -> exists bs, vs = map bitv bs.
Proof.
  intro H. induction H as [|y vs Hy _ [bs ->]]; [exists []; reflexivity|].
  apply bool_cases in Hy. destruct Hy as [-> | ->]; [exists (false :: bs)|exists (true :: bs)]; reflexivity.
Qed.
Lemma packv_app a b : packv (a ++ b) = packv a + of_Z 2 ^ length a * packv b.
Proof. induction a as [|y a IH]; cbn [app packv length fpow]; [cbn; ring|]. rewrite IH. change (of_Z 2) with (1 + 1 : K). ring. Qed.

Section Facts.
Variables (x : var -> K) (n k m : nat).
Let l := Aux k. Let r := Aux (k + 1). Let t := Input m. Let p := Aux (k + 2).
Let alpha := map Aux (seq (k + 3) n). Let le := Aux (k + 3 + n). Let inv := Aux (k + 4 + n).
Let out := Aux (k + 5 + n). Let less := Aux (k + 6 + n).
Lemma rp_iff : x ONE = 1 -> (Forall (holds x) (rp_cons n k m) <->
  x t + x r - x l = x p /\ Forall (fun y => (1 - y) * y = 0) (map x alpha ++ [x le]) /\
  x inv * fsum (map x alpha) = x out /\ (1 - x out) * fsum (map x alpha) = 0 /\
  x le * x out = x less /\ (1 - x out) * x out = 0 /\ packv (map x alpha ++ [x le]) = x p /\ x less = 1).
Proof.
  intro Hx. unfold rp_cons. fold alpha l r t p le inv out less. cbv zeta.
  change ([x le]) with (map x [le]). rewrite <- !map_app. rewrite !Forall_app.
  rewrite !Forall_cons_iff, !Forall_map. unfold holds. cbn [ca cb cc]. unfold rp_sum.
  autorewrite with lcdb. rewrite !eval_sum, !eval_pack, !eval_zero, Hx.
  assert (forall vs, Forall (fun v => eval x (lc_sub_term (lc_add_var lc_zero ONE) 1 v) * eval x (lc_add_term lc_zero 1 v) = 0) vs <->
     Forall (fun v => (1 - x v) * x v = 0) vs) as EB.
  { intro vs. split; apply Forall_impl; intro v; autorewrite with lcdb; rewrite Hx; intro E.
    - etransitivity; [|exact E]. ring.
    - etransitivity; [|exact E]. ring. }
  rewrite EB.
  assert (forall a b c d : K, a = c -> b = d -> (a = b <-> c = d)) as EQ by (intros; subst; tauto).
  rewrite (EQ _ _ (x t + x r - x l) (x p)) by ring.
  rewrite (EQ ((0 + x inv) * _) _ (x inv * fsum (map x alpha)) (x out)) by ring.
  rewrite (EQ ((0 + 1 - x out) * (0 + fsum _)) _ ((1 - x out) * fsum (map x alpha)) 0) by ring.
  rewrite (EQ ((0 + x le) * _) _ (x le * x out) (x less)) by ring.
  rewrite (EQ ((0 + 1 - x out) * _) _ ((1 - x out) * x out) 0) by ring.
  rewrite (EQ ((0 + 1) * _) _ (packv (map x (alpha ++ [le]))) (x p)) by ring.
  rewrite (EQ ((0 + x less) * _) _ (x less) 1) by ring.
  split; intro H; decompose [and] H; repeat split; auto; try constructor.
Qed.
(** Soundness. *)
Lemma rp_sound : x ONE = 1 -> (2 ^ Z.of_nat n <= pmod K)%Z -> Forall (holds x) (rp_cons n k m) ->
  exists v, (1 <= v < 2 ^ Z.of_nat n)%Z /\ x t + x r - x l = of_Z (2 ^ Z.of_nat n + v).
Proof.
  intros Hx Hp H. apply (rp_iff Hx) in H. destruct H as (H1 & H2 & H3 & H4 & H5 & H6 & H7 & H8).
  apply Forall_app in H2. destruct H2 as [H2 H2']. apply bits_of_forall in H2. destruct H2 as [bs Eb].
  assert (length bs = n) as Lb. { rewrite <- (map_length bitv), <- Eb. unfold alpha. rewrite !map_length, seq_length. reflexivity. }
  assert (x out = 1) as Eo.
  { apply bool_cases in H6. destruct H6 as [E|E]; [|exact E]. exfalso. apply (f_1_neq_0 K). rewrite <- H8, <- H5, E. ring. }
  assert (x le = 1) as El. { rewrite Eo in H5. rewrite <- H8, <- H5. ring. }
  rewrite Eb, fsum_bits, Eo in H3.
  assert (countZ bs <> 0%Z) as Nz. { intro C. rewrite C in H3. apply (f_1_neq_0 K). rewrite <- H3. cbn. ring. }
  destruct (count_pos bs) as [_ CP]. pose proof (Z_of_bits_range bs) as RB. rewrite Lb in RB.
  exists (Z_of_bits bs). split; [lia|]. rewrite H1, <- H7, packv_app, Eb, packv_bits, map_length, Lb, El.
  rewrite of_Z_add. cbn [packv]. rewrite <- (of_Z_pow2 K n). ring.
Qed.
(** Completeness. *)
Lemma rp_complete v : x ONE = 1 -> (1 <= v < 2 ^ Z.of_nat n)%Z -> (2 ^ Z.of_nat n <= pmod K)%Z ->
  x t + x r - x l = of_Z (2 ^ Z.of_nat n + v) -> x p = of_Z (2 ^ Z.of_nat n + v) ->
  map x alpha = map (fun i => bitv (Z.testbit v (Z.of_nat i))) (seq 0 n) ->
  x le = 1 -> x inv * fsum (map x alpha) = 1 -> x out = 1 -> x less = 1 ->
  Forall (holds x) (rp_cons n k m).
Proof.
  intros Hx Hv Hp E1 E2 E3 E4 E5 E6 E7. apply (rp_iff Hx). rewrite E1, E2, E4, E6, E7, E5.
  split; [reflexivity|]. split.
  { rewrite E3. apply Forall_app. split; [|constructor; [ring|constructor]].
    apply Forall_map, Forall_forall. intros i _. unfold bitv. destruct (Z.testbit v _); ring. }
  split; [reflexivity|]. split; [ring|]. split; [ring|]. split; [ring|]. split; [|reflexivity].
  rewrite packv_app, E3. rewrite <- (map_map (fun i => Z.testbit v (Z.of_nat i)) bitv), packv_bits.
  rewrite Z_of_bits_of by lia. rewrite map_length, map_length, seq_length. cbn [packv]. rewrite of_Z_add, <- (of_Z_pow2 K n). ring.
Qed.
End Facts.

Lemma map_nth_seq (x : var -> K) (vals : list K) k j d :
  (forall i, (i < length vals)%nat -> x (Aux (k + i)) = nth i vals 0) -> (d + j <= length vals)%nat ->
  map x (map Aux (seq (k + j) d)) = firstn d (skipn j vals).
Proof.
  intros H L. revert j L. induction d as [|d IH]; intros j L; [reflexivity|]. cbn [seq map].
  rewrite H by lia. replace (S (k + j)) with (k + S j)%nat by lia. rewrite (IH (S j)) by lia.
  assert (j < length vals)%nat as Lj by lia. clear -Lj. revert j Lj. induction vals as [|v vals IH]; intros j Lj; [cbn in Lj; lia|].
  destruct j as [|j]; [reflexivity|]. cbn [nth skipn]. apply IH. cbn in Lj. lia.
Qed.

(** Values making the constraints hold. *)
Definition good_vals (n : nat) (a b : K) (v : Z) : list K :=
  let bits := map (fun i => bitv (Z.testbit v (Z.of_nat i))) (seq 0 n) in
  [a; b; of_Z (2 ^ Z.of_nat n + v)] ++ bits ++ [1; finv (fsum bits); 1; 1].
Lemma good_holds x n k m a b v : x ONE = 1 -> (1 <= v < 2 ^ Z.of_nat n)%Z -> (2 ^ Z.of_nat n <= pmod K)%Z ->
  (forall i, (i < n + 7)%nat -> x (Aux (k + i)) = nth i (good_vals n a b v) 0) ->
  x (Input m) + b - a = of_Z (2 ^ Z.of_nat n + v) -> Forall (holds x) (rp_cons n k m).
Proof.
  intros Hx Hv Hp HN HT.
  assert (length (good_vals n a b v) = (n + 7)%nat) as LG. { unfold good_vals. rewrite !app_length, map_length, seq_length. cbn [length]. lia. }
  assert (forall j, nth (3 + n + j) (good_vals n a b v) 0 = nth j [1; finv (fsum (map (fun i => bitv (Z.testbit v (Z.of_nat i))) (seq 0 n))); 1; 1] 0) as NT.
  { intro j. unfold good_vals. rewrite app_nth2 by (cbn [length]; lia). cbn [length]. rewrite app_nth2 by (rewrite map_length, seq_length; lia).
    rewrite map_length, seq_length. f_equal. lia. }
  assert (map x (map Aux (seq (k + 3) n)) = map (fun i => bitv (Z.testbit v (Z.of_nat i))) (seq 0 n)) as EA.
  { rewrite (map_nth_seq x (good_vals n a b v)) by (rewrite ?LG; auto; lia).
    unfold good_vals. cbn [app skipn]. rewrite firstn_app, map_length, seq_length, Nat.sub_diag. cbn [firstn]. rewrite app_nil_r.
    apply firstn_all2. rewrite map_length, seq_length. lia. }
  apply (rp_complete x n k m v); auto.
  - pose proof (HN 0%nat ltac:(lia)) as E0. pose proof (HN 1%nat ltac:(lia)) as E1. rewrite Nat.add_0_r in E0. cbn in E0, E1. rewrite E0, E1. exact HT.
  - pose proof (HN 2%nat ltac:(lia)) as E2. cbn in E2. exact E2.
  - replace (k + 3 + n)%nat with (k + (3 + n + 0))%nat by lia. rewrite HN, NT by lia. reflexivity.
  - rewrite EA. replace (k + 4 + n)%nat with (k + (3 + n + 1))%nat by lia. rewrite HN, NT by lia. cbn [nth].
    apply finv_l. rewrite <- (map_map (fun i => Z.testbit v (Z.of_nat i)) bitv), fsum_bits.
    set (bs := map (fun i => Z.testbit v (Z.of_nat i)) (seq 0 n)). intro C. change 0 with (of_Z (K:=K) 0) in C.
    destruct (count_pos bs) as [R1 R2]. assert (length bs = n) as Lb by (unfold bs; rewrite map_length, seq_length; reflexivity).
    pose proof (Z.pow_gt_lin_r 2 (Z.of_nat n) ltac:(lia) ltac:(lia)) as G.
    apply of_Z_inj_small in C; [|lia|lia]. apply R2 in C. unfold bs in C. rewrite Z_of_bits_of in C; lia.
  - replace (k + 5 + n)%nat with (k + (3 + n + 2))%nat by lia. rewrite HN, NT by lia. reflexivity.
  - replace (k + 6 + n)%nat with (k + (3 + n + 3))%nat by lia. rewrite HN, NT by lia. reflexivity.
Qed.
(** The prover's values are these when the difference is in range. *)
Lemma vals_good n (a b : K) : (2 ^ (Z.of_nat n + 1) <= pmod K)%Z -> (1 <= toZ (b - a)%fld < 2 ^ Z.of_nat n)%Z ->
  rp_vals n a b = good_vals n a b (toZ (b - a)).
Proof.
  intros Hp Hv. set (v := toZ (b - a)) in *. rewrite Z.pow_add_r in Hp by lia. change (2 ^ 1)%Z with 2%Z in Hp.
  assert (of_Z 2 ^ n + b - a = of_Z (2 ^ Z.of_nat n + v)) as E.
  { rewrite of_Z_add, <- (of_Z_pow2 K n). unfold v. rewrite of_toZ. ring. }
  assert (toZ (of_Z 2 ^ n + b - a)%fld = 2 ^ Z.of_nat n + v)%Z as EZ. { rewrite E. apply to_of_Z_small. lia. }
  assert (map (rp_bit K (of_Z 2 ^ n + b - a)) (seq 0 n) = map (fun i => bitv (Z.testbit v (Z.of_nat i))) (seq 0 n)) as EB.
  { apply map_ext_in. intros i I. apply in_seq in I. unfold rp_bit. rewrite EZ. unfold of_bool, bitv.
    rewrite Z.add_comm. replace (2 ^ Z.of_nat n)%Z with (2 ^ Z.of_nat i * 2 ^ (Z.of_nat n - Z.of_nat i))%Z by (rewrite <- Z.pow_add_r by lia; f_equal; lia).
    rewrite !Z.testbit_eqb by lia. rewrite Z.mul_comm, Z.div_add by (apply Z.pow_nonzero; lia).
    replace (2 ^ (Z.of_nat n - Z.of_nat i))%Z with (2 ^ (Z.of_nat n - Z.of_nat i - 1) * 2)%Z by (rewrite <- (Z.pow_1_r 2) at 2; rewrite <- Z.pow_add_r by lia; f_equal; lia).
    rewrite Z.mod_add by lia. reflexivity. }
  assert (rp_bit K (of_Z 2 ^ n + b - a) n = 1) as ET.
  { unfold rp_bit. rewrite EZ. rewrite Z.testbit_eqb by lia.
    replace (2 ^ Z.of_nat n + v)%Z with (v + 1 * 2 ^ Z.of_nat n)%Z by lia. rewrite Z.div_add, Z.div_small by lia. reflexivity. }
  assert (forall l, rp_count K (map bitv l) = fsum (map bitv l)) as EC.
  { intro lb. unfold rp_count.
    assert (forall acc : K, fold_left (fun acc b => if feqb b 0 then acc else acc + 1) (map bitv lb) acc = acc + fsum (map bitv lb)) as G.
    { induction lb as [|c lb IH]; intro acc; cbn [map fold_left fsum]; [ring|]. rewrite IH. destruct c; cbn [bitv].
      - destruct (feqb_spec K 1 0) as [C|_]; [destruct (f_1_neq_0 K C)|ring].
      - rewrite feqb_refl. ring. }
    rewrite G. ring. }
  set (bs := map (fun i => Z.testbit v (Z.of_nat i)) (seq 0 n)).
  assert (fsum (map bitv bs) <> 0) as NZ.
  { rewrite fsum_bits. intro C. change 0 with (of_Z (K:=K) 0) in C.
    destruct (count_pos bs) as [R1 R2]. assert (length bs = n) as Lb by (unfold bs; rewrite map_length, seq_length; reflexivity).
    pose proof (Z.pow_gt_lin_r 2 (Z.of_nat n) ltac:(lia) ltac:(lia)) as G.
    apply of_Z_inj_small in C; [|lia|lia]. apply R2 in C. unfold bs in C. rewrite Z_of_bits_of in C; lia. }
  assert (map (fun i => bitv (Z.testbit v (Z.of_nat i))) (seq 0 n) = map bitv bs) as EM by (unfold bs; rewrite map_map; reflexivity).
  unfold rp_vals, good_vals. rewrite EB, EM, EC, ET, E. destruct (feqb_spec K (fsum (map bitv bs)) 0) as [C|_]; [congruence|].
  destruct (feqb_spec K 1 0) as [C|_]; [destruct (f_1_neq_0 K C)|]. reflexivity.
Qed.
Lemma sat_st x s iv av cv : sat x (st s iv av cv) <-> sat x s /\ Forall (holds x) cv.
Proof. unfold sat, st. cbn [cons]. rewrite Forall_app. tauto. Qed.

Definition cont_x (s : cs K) (x0 : var -> K) (T : K) (vals : list K) : var -> K := fun v =>
  match v with
  | Input i => if Nat.ltb i (length (inps s)) then x0 v else T
  | Aux i => if Nat.ltb i (length (auxs s)) then x0 v else nth (i - length (auxs s)) vals 0
  end.
Lemma cont_x_continues s x0 T vals : continues s x0 (cont_x s x0 T vals).
Proof.
  intros [i|i] A; cbn [allocated] in A; unfold cont_x; (destruct (Nat.ltb_spec i (length (inps s))); destruct (Nat.ltb_spec i (length (auxs s)))); try lia; reflexivity.
Qed.
Lemma exists_x s x0 n a b v T : wf s -> sat x0 s -> (1 <= v < 2 ^ Z.of_nat n)%Z -> (2 ^ Z.of_nat n <= pmod K)%Z ->
  T + b - a = of_Z (2 ^ Z.of_nat n + v) ->
  exists x, continues s x0 x /\ sat x s /\ Forall (holds x) (rp_cons n (length (auxs s)) (length (inps s))) /\
    x (rp_L s) = a /\ x (rp_R s) = b /\ x (rp_T s) = T.
Proof.
  intros Hw Hs Hv Hp HT. pose (x := cont_x s x0 T (good_vals n a b v)). exists x.
  pose proof (cont_x_continues s x0 T (good_vals n a b v)) as C. fold x in C.
  pose proof (sat_continues K s x0 x Hw C Hs) as Sx.
  assert (forall i, x (Aux (length (auxs s) + i)) = nth i (good_vals n a b v) 0) as XA.
  { intro i. unfold x, cont_x. destruct (Nat.ltb_spec (length (auxs s) + i) (length (auxs s))); [lia|]. f_equal. lia. }
  assert (x (Input (length (inps s))) = T) as XT.
  { unfold x, cont_x. rewrite Nat.ltb_irrefl. reflexivity. }
  split; [exact C|]. split; [exact Sx|]. split; [|split; [|split; [|exact XT]]].
  - eapply (good_holds x n _ _ a b v); auto; [apply Sx|]. rewrite XT. exact HT.
  - unfold rp_L. rewrite <- (Nat.add_0_r (length (auxs s))), XA. reflexivity.
  - unfold rp_R. rewrite XA. reflexivity.
Qed.

Lemma rangeproof_st rb lhs rhs n s s' : rangeproof rb lhs rhs n s = Ok (tt, s') ->
  exists iv av, s' = st s iv av (rp_cons n (length (auxs s)) (length (inps s))) /\ length iv = 1%nat /\ length av = (n + 7)%nat /\
    (forall a b, md s = Prove -> lhs = Some a -> rhs = Some b -> iv = [of_Z 2 ^ n] /\ av = rp_vals n a b) /\
    (md s = Setup \/ (lhs <> None /\ rhs <> None)) /\ (n < rb)%nat.
Proof.
  intro H. assert (md s = Setup \/ (lhs <> None /\ rhs <> None)) as HA.
  { destruct (md s) eqn:Em; [left; reflexivity|]. right. unfold rangeproof, bind, alloc in H. rewrite Em in H.
    destruct lhs as [a|]; cbn in H; [|discriminate]. rewrite ?Em in H. destruct rhs as [b|]; cbn in H; [|discriminate]. split; discriminate. }
  destruct (Nat.lt_ge_cases n rb) as [Hn|Hn].
  - destruct (rp_run rb lhs rhs n s HA Hn) as (iv & av & E & L1 & L2 & V). rewrite E in H. injection H as <-.
    exists iv, av. auto 10.
  - exfalso. exact (rangeproof_panics rb lhs rhs n s _ HA Hn H).
Qed.
Theorem rangeproof_exact rb lhs rhs n s s' : wf s -> rangeproof rb lhs rhs n s = Ok (tt, s') ->
  (2 ^ (Z.of_nat n + 1) <= pmod K)%Z -> forall x0 : var -> K, sat x0 s -> forall a b : K,
  (exists x, continues s x0 x /\ sat x s' /\ x (rp_L s) = a /\ x (rp_R s) = b /\ x (rp_T s) = of_Z (2 ^ Z.of_nat n)) <->
  (1 <= toZ (b - a)%fld < 2 ^ Z.of_nat n)%Z.
Proof.
  intros Hw HR Hp x0 H0 a b. destruct (rangeproof_st _ _ _ _ _ _ HR) as (iv & av & -> & _).
  rewrite Z.pow_add_r in Hp by lia. change (2 ^ 1)%Z with 2%Z in Hp.
  split.
  - intros (x & _ & Sx & <- & <- & Et). apply sat_st in Sx. destruct Sx as [Sx Hc].
    destruct (rp_sound x n _ _ (proj1 Sx) ltac:(lia) Hc) as (v & Hv & E). fold (rp_L s) (rp_R s) (rp_T s) in E.
    rewrite Et in E. assert (x (rp_R s) - x (rp_L s) = of_Z v) as E'.
    { rewrite of_Z_add in E. apply fsub_0. match type of E with ?l = ?r0 => transitivity (l - r0); [ring|] end. apply fsub_0. exact E. }
    rewrite E', to_of_Z_small by lia. exact Hv.
  - intro Hv. destruct (exists_x s x0 n a b _ (of_Z (2 ^ Z.of_nat n)) Hw H0 Hv ltac:(lia)) as (x & C & Sx & Hc & E).
    { rewrite of_Z_add, of_toZ. ring. }
    exists x. split; [exact C|]. split; [apply sat_st; auto|exact E].
Qed.
(** Without a check of the public width input every pair is accepted. *)
Theorem rangeproof_width_unchecked rb lhs rhs n s s' : wf s -> rangeproof rb lhs rhs n s = Ok (tt, s') ->
  (1 <= n)%nat -> (2 ^ Z.of_nat n <= pmod K)%Z -> forall x0 : var -> K, sat x0 s -> forall a b : K,
  exists x, continues s x0 x /\ sat x s' /\ x (rp_L s) = a /\ x (rp_R s) = b.
Proof.
  intros Hw HR Hn Hp x0 H0 a b. destruct (rangeproof_st _ _ _ _ _ _ HR) as (iv & av & -> & _).
  pose proof (Z.pow_gt_1 2 (Z.of_nat n) ltac:(lia)) as G.
  destruct (exists_x s x0 n a b 1 (of_Z (2 ^ Z.of_nat n + 1) - b + a) Hw H0 ltac:(lia) Hp) as (x & C & Sx & Hc & E & E' & _); [ring|].
  exists x. split; [exact C|]. split; [apply sat_st; auto|auto].
Qed.
(** Honest runs. *)
Theorem rangeproof_honest rb a b n s s' : wf s -> md s = Prove -> self_sat s -> (2 ^ (Z.of_nat n + 1) <= pmod K)%Z ->
  rangeproof rb (Some a) (Some b) n s = Ok (tt, s') ->
  wit s' (rp_L s) = a /\ wit s' (rp_R s) = b /\ wit s' (rp_T s) = of_Z (2 ^ Z.of_nat n) /\
  (self_sat s' <-> (1 <= toZ (b - a)%fld < 2 ^ Z.of_nat n)%Z).
Proof.
  intros Hw Hm Hs Hp HR. destruct (rangeproof_st _ _ _ _ _ _ HR) as (iv & av & -> & L1 & L2 & V & _).
  destruct (V a b Hm eq_refl eq_refl) as [-> ->]. clear V.
  set (s' := st s _ _ _).
  assert (forall i, wit s' (Aux (length (auxs s) + i)) = nth i (rp_vals n a b) 0) as XA.
  { intro i. unfold s', wit, st. cbn [auxs]. rewrite app_nth2 by lia. f_equal. lia. }
  assert (wit s' (rp_T s) = of_Z (2 ^ Z.of_nat n)) as XT.
  { unfold rp_T, s', wit, st. cbn [inps]. rewrite app_nth2, Nat.sub_diag by lia. cbn [nth]. symmetry. apply of_Z_pow2. }
  assert (wit s' (rp_L s) = a) as XL. { unfold rp_L. rewrite <- (Nat.add_0_r (length (auxs s))), XA. reflexivity. }
  assert (wit s' (rp_R s) = b) as XR. { unfold rp_R. rewrite XA. reflexivity. }
  split; [exact XL|]. split; [exact XR|]. split; [exact XT|].
  assert (continues s (wit s) (wit s')) as C.
  { intros [i|i] A; unfold s', wit, st; cbn [inps auxs] in *; cbn in A; rewrite app_nth1 by lia; reflexivity. }
  assert (sat (wit s') s) as S' by exact (sat_continues K s _ _ Hw C Hs).
  assert (Hp' := Hp). rewrite Z.pow_add_r in Hp' by lia. change (2 ^ 1)%Z with 2%Z in Hp'.
  split; intro H.
  - apply (proj1 (rangeproof_exact rb (Some a) (Some b) n s s' Hw HR Hp (wit s) Hs a b)). exists (wit s'). auto 10.
  - apply sat_st. split; [exact S'|].
    apply (good_holds _ n _ _ a b (toZ (b - a)%fld)); [apply S'|exact H|lia| |].
    + intros i Hi. rewrite XA, (vals_good n a b Hp H). reflexivity.
    + fold (rp_T s). rewrite XT, of_Z_add, of_toZ. ring.
Qed.

Theorem rangeproof_runs rb lhs rhs n s : md s = Setup \/ (lhs <> None /\ rhs <> None) ->
  ((n < rb)%nat -> exists s', rangeproof rb lhs rhs n s = Ok (tt, s')) /\ ((rb <= n)%nat -> rangeproof rb lhs rhs n s = Panic).
Proof.
  intro HA. split; intro Hn.
  - destruct (rp_run rb lhs rhs n s HA Hn) as (iv & av & E & _). eexists. exact E.
  - exact (rangeproof_panics_eq rb lhs rhs n s HA Hn).
Qed.
Theorem rangeproof_wraps rb lhs rhs n s s' : wf s -> rangeproof rb lhs rhs n s = Ok (tt, s') ->
  (1 <= n)%nat -> (2 ^ (Z.of_nat n + 1) <= pmod K)%Z -> forall x0 : var -> K, sat x0 s ->
  exists x, continues s x0 x /\ sat x s' /\ x (rp_T s) = of_Z (2 ^ Z.of_nat n) /\ (toZ (x (rp_R s)) < toZ (x (rp_L s)))%Z.
Proof.
  intros Hw HR Hn Hp x0 H0.
  destruct (proj2 (rangeproof_exact rb lhs rhs n s s' Hw HR Hp x0 H0 (of_Z (-1)) (of_Z 0))) as (x & C & Sx & EL & ER & ET).
  - rewrite <- of_Z_sub. change (0 - -1)%Z with 1%Z. pose proof (Z.pow_gt_1 2 (Z.of_nat n) ltac:(lia)) as G.
    rewrite Z.pow_add_r in Hp by lia. change (2 ^ 1)%Z with 2%Z in Hp. rewrite to_of_Z_small by lia. lia.
  - exists x. split; [exact C|]. split; [exact Sx|]. split; [exact ET|]. rewrite EL, ER.
    rewrite !to_of_Z. pose proof (pmod_gt1 K) as P1. rewrite Z.mod_0_l by lia.
    assert ((-1) mod pmod K = pmod K - 1)%Z as ->; [|lia].
    symmetry. apply (Z.mod_unique (-1) (pmod K) (-1)); lia.
Qed.
End R.
