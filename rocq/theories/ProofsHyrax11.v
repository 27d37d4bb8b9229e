(** Hyrax: the layer polynomial has degree three in each variable and sums to the claim. *)
From Verif Require Import Field Poly SpecMle ProofsMle ModelLibra ModelHyrax SpecHyrax2 SpecHyrax3 SpecSumcheck ProofsSumcheck ProofsHyrax3.
From Coq Require Import List Lia Bool.
Import ListNotations.
Local Open Scope fld_scope.
Section S.
Variable K : Fld.
Add Field Kf : (f_laws K).
Lemma chi_affine bs : forall (pre : list K) x post, chi bs (pre ++ x :: post) = (1 - x) * chi bs (pre ++ 0 :: post) + x * chi bs (pre ++ 1 :: post).
Proof.
  induction bs as [|b bs IH]; intros pre x post; [destruct pre; cbn [app chi]; ring|]. destruct pre as [|y pre]; cbn [app chi]; [destruct b; ring|]. rewrite IH. ring.
Qed.
Lemma pick_chi (r : list K) i : pick r i = if Nat.ltb i (2 ^ length r) then chi (nth i (cube (length r)) []) r else 0.
Proof.
  unfold pick. destruct (Nat.ltb_spec i (2 ^ length r)) as [H|H]; [|apply nth_overflow; rewrite map_length, cube_length; exact H].
  rewrite (nth_indep _ 0 (chi [] r)) by (rewrite map_length, cube_length; exact H). apply (map_nth (fun bs => chi bs r)).
Qed.
Lemma pick_affine i (pre : list K) x post : pick (pre ++ x :: post) i = (1 - x) * pick (pre ++ 0 :: post) i + x * pick (pre ++ 1 :: post) i.
Proof. rewrite !pick_chi. rewrite !app_length. cbn [length]. destruct (Nat.ltb i _); [apply chi_affine|ring]. Qed.
Lemma batch_affine_a vs (b pre : list K) x post : batch_mle vs (pre ++ x :: post) b = (1 - x) * batch_mle vs (pre ++ 0 :: post) b + x * batch_mle vs (pre ++ 1 :: post) b.
Proof. unfold batch_mle. apply mle_affine. Qed.
Lemma batch_affine_b vs (a pre : list K) x post : batch_mle vs a (pre ++ x :: post) = (1 - x) * batch_mle vs a (pre ++ 0 :: post) + x * batch_mle vs a (pre ++ 1 :: post).
Proof.
  unfold batch_mle. apply mle_lin. intros i _.
  assert (Q : forall b, nth i (map (fun v => mle v b) vs) 0 = mle (nth i vs []) b) by (intro b; rewrite <- (mle_empty K b) at 1; apply (map_nth (fun v => mle v b))).
  rewrite !Q. apply mle_affine.
Qed.
Definition phi (vs : list (list K)) (qa ql qr : list K) (u0 u1 : K) (gates : list gate) (v1 v2 v3 : list K) : K :=
  wiring 0 qa v1 ql qr v2 v3 u0 u1 gates * (batch_mle vs v1 v2 + batch_mle vs v1 v3) + wiring 1 qa v1 ql qr v2 v3 u0 u1 gates * (batch_mle vs v1 v2 * batch_mle vs v1 v3).
Lemma phi_1 vs qa ql qr u0 u1 gates pre post v2 v3 : poly_fun 3 (fun x => phi vs qa ql qr u0 u1 gates (pre ++ x :: post) v2 v3).
Proof.
  assert (B : forall b, poly_fun 1 (fun x => batch_mle vs (pre ++ x :: post) b)) by (intro b; apply pf_affine; intro x; apply batch_affine_a).
  assert (W : forall op, poly_fun 1 (fun x => wiring op qa (pre ++ x :: post) ql qr v2 v3 u0 u1 gates)).
  { intro op. unfold wiring. apply (pf_mul K 1 0); [|apply pf_const]. apply (pf_sum K 1 (fun bs x => chi bs qa * chi bs (pre ++ x :: post))). intros bs _. apply (pf_mul K 0 1); [apply pf_const|]. apply pf_affine. intro x. apply chi_affine. }
  unfold phi. apply pf_add.
  - apply (pf_le K 2); [lia|]. apply (pf_mul K 1 1); [apply W|]. apply pf_add; apply B.
  - apply (pf_mul K 1 2); [apply W|]. apply (pf_mul K 1 1); apply B.
Qed.
Lemma phi_2 vs qa ql qr u0 u1 gates v1 pre post v3 : poly_fun 2 (fun x => phi vs qa ql qr u0 u1 gates v1 (pre ++ x :: post) v3).
Proof.
  assert (B : poly_fun 1 (fun x => batch_mle vs v1 (pre ++ x :: post))) by (apply pf_affine; intro x; apply batch_affine_b).
  assert (W : forall op, poly_fun 1 (fun x => wiring op qa v1 ql qr (pre ++ x :: post) v3 u0 u1 gates)).
  { intro op. unfold wiring. apply (pf_mul K 0 1); [apply pf_const|]. set (f := fun (g : gate) x => if Nat.eqb (gt_op g) op then pick (pre ++ x :: post) (gt_l g) * pick v3 (gt_r g) * (pick ql (gt_g g) * u0 + pick qr (gt_g g) * u1) else 0). apply (pf_sum K 1 f). intros g _. unfold f. destruct (Nat.eqb (gt_op g) op); [|apply pf_const]. apply (pf_mul K 1 0); [|apply pf_const]. apply (pf_mul K 1 0); [|apply pf_const]. apply pf_affine. intro x. apply pick_affine. }
  unfold phi. apply pf_add.
  - apply (pf_mul K 1 1); [apply W|]. apply pf_add; [apply B|apply pf_const].
  - apply (pf_mul K 1 1); [apply W|]. apply (pf_mul K 1 0); [apply B|apply pf_const].
Qed.
Lemma phi_3 vs qa ql qr u0 u1 gates v1 v2 pre post : poly_fun 2 (fun x => phi vs qa ql qr u0 u1 gates v1 v2 (pre ++ x :: post)).
Proof.
  assert (B : poly_fun 1 (fun x => batch_mle vs v1 (pre ++ x :: post))) by (apply pf_affine; intro x; apply batch_affine_b).
  assert (W : forall op, poly_fun 1 (fun x => wiring op qa v1 ql qr v2 (pre ++ x :: post) u0 u1 gates)).
  { intro op. unfold wiring. apply (pf_mul K 0 1); [apply pf_const|]. set (f := fun (g : gate) x => if Nat.eqb (gt_op g) op then pick v2 (gt_l g) * pick (pre ++ x :: post) (gt_r g) * (pick ql (gt_g g) * u0 + pick qr (gt_g g) * u1) else 0). apply (pf_sum K 1 f). intros g _. unfold f. destruct (Nat.eqb (gt_op g) op); [|apply pf_const]. apply (pf_mul K 1 0); [|apply pf_const]. apply (pf_mul K 0 1); [apply pf_const|]. apply pf_affine. intro x. apply pick_affine. }
  unfold phi. apply pf_add.
  - apply (pf_mul K 1 1); [apply W|]. apply pf_add; [apply pf_const|apply B].
  - apply (pf_mul K 1 1); [apply W|]. apply (pf_mul K 0 1); [apply pf_const|apply B].
Qed.
Lemma layer_poly_phi ln lg vs qa ql qr u0 u1 gates v1 v2 v3 : length v1 = ln -> length v2 = lg -> layer_poly ln lg vs qa ql qr u0 u1 gates (v1 ++ v2 ++ v3) = phi vs qa ql qr u0 u1 gates v1 v2 v3.
Proof.
  intros <- <-. unfold layer_poly. rewrite firstn_app, Nat.sub_diag, firstn_all. cbn [firstn]. rewrite app_nil_r.
  assert (E : skipn (length v1) (v1 ++ v2 ++ v3) = v2 ++ v3) by (rewrite skipn_app, skipn_all, Nat.sub_diag; reflexivity). rewrite E.
  rewrite firstn_app, Nat.sub_diag, firstn_all. cbn [firstn]. rewrite app_nil_r.
  assert (E2 : skipn (length v1 + length v2) (v1 ++ v2 ++ v3) = v3). { rewrite app_assoc, <- app_length, skipn_app, skipn_all, Nat.sub_diag. reflexivity. }
  rewrite E2. reflexivity.
Qed.
Lemma split_at {A} (l : list A) n : (n <= length l)%nat -> exists a b, l = a ++ b /\ length a = n.
Proof. intro H. exists (firstn n l), (skipn n l). split; [symmetry; apply firstn_skipn|]. rewrite firstn_length. lia. Qed.
Lemma layer_low_degree ln lg vs qa ql qr u0 u1 gates : low_degree (K := K) 3 (ln + 2 * lg) (layer_poly ln lg vs qa ql qr u0 u1 gates).
Proof.
  intros pre post L. destruct (Nat.ltb_spec (length pre) ln) as [H|H]; [|destruct (Nat.ltb_spec (length pre) (ln + lg)) as [H2|H2]].
  - destruct (split_at post (ln - length pre - 1)) as (p1 & rest & -> & L1); [lia|]. rewrite app_length in L. destruct (split_at rest lg) as (v2 & v3 & -> & L2); [lia|].
    apply (pf_ext K 3 _ (fun x => phi vs qa ql qr u0 u1 gates (pre ++ x :: p1) v2 v3)); [|apply phi_1]. intro x. rewrite <- (layer_poly_phi ln lg) by (rewrite ?app_length; cbn [length]; lia). rewrite <- app_assoc. reflexivity.
  - destruct (split_at pre ln) as (v1 & p & -> & L1); [lia|]. rewrite app_length in *. destruct (split_at post (lg - length p - 1)) as (p2 & v3 & -> & L2); [lia|]. rewrite app_length in L.
    apply (pf_ext K 3 _ (fun x => phi vs qa ql qr u0 u1 gates v1 (p ++ x :: p2) v3)); [|apply (pf_le K 2); [lia|apply phi_2]]. intro x. rewrite <- (layer_poly_phi ln lg) by (rewrite ?app_length; cbn [length]; lia). rewrite <- !app_assoc. reflexivity.
  - destruct (split_at pre ln) as (v1 & p & -> & L1); [lia|]. rewrite app_length in *. destruct (split_at p lg) as (v2 & p2 & -> & L2); [lia|].
    apply (pf_ext K 3 _ (fun x => phi vs qa ql qr u0 u1 gates v1 v2 (p2 ++ x :: post))); [|apply (pf_le K 2); [lia|apply phi_3]]. intro x. rewrite <- (layer_poly_phi ln lg) by lia. rewrite <- !app_assoc. reflexivity.
Qed.
Lemma layer_low_degree0 lg vs qa ql qr u0 u1 gates : low_degree (K := K) 2 (2 * lg) (layer_poly 0 lg vs qa ql qr u0 u1 gates).
Proof.
  intros pre post L. destruct (Nat.ltb_spec (length pre) lg) as [H2|H2].
  - destruct (split_at post (lg - length pre - 1)) as (p2 & v3 & -> & L2); [lia|]. rewrite app_length in L.
    apply (pf_ext K 2 _ (fun x => phi vs qa ql qr u0 u1 gates [] (pre ++ x :: p2) v3)); [|apply phi_2]. intro x. rewrite <- (layer_poly_phi 0 lg) by (rewrite ?app_length; cbn [length]; lia). cbn [app]. rewrite <- !app_assoc. reflexivity.
  - destruct (split_at pre lg) as (v2 & p2 & -> & L2); [lia|]. rewrite app_length in *.
    apply (pf_ext K 2 _ (fun x => phi vs qa ql qr u0 u1 gates [] v2 (p2 ++ x :: post))); [|apply phi_3]. intro x. rewrite <- (layer_poly_phi 0 lg) by (reflexivity || lia). cbn [app]. rewrite <- !app_assoc. reflexivity.
Qed.
Lemma cube_app_sum (F : list bool -> K) a b : fsum (map F (cube (a + b))) = fsum (map (fun x => fsum (map (fun y => F (x ++ y)) (cube b))) (cube a)).
Proof.
  revert F. induction a as [|a IH]; intro F; [cbn [Nat.add cube map fsum app]; transitivity (fsum (map F (cube b)) + 0); [ring|reflexivity]|]. cbn [Nat.add cube]. rewrite !map_app, !fsum_app, !map_map. rewrite !IH. reflexivity.
Qed.
(** On the corners of the cube. *)
Lemma pick_bits bs i : pick (map (@bit K) bs) i = if Nat.eqb i (bits_val bs) then 1 else 0.
Proof.
  rewrite pick_chi, map_length. destruct (Nat.ltb_spec i (2 ^ length bs)) as [H|H].
  - assert (L : length (nth i (cube (length bs)) []) = length bs) by (apply cube_in, nth_In; rewrite cube_length; exact H).
    rewrite chi_bits by exact L. assert (B : bits_val (nth i (cube (length bs)) []) = i).
    { change 0%nat with (bits_val []) || idtac. rewrite <- (map_nth bits_val). rewrite cube_vals, seq_nth by exact H. reflexivity. }
    destruct (list_eq_dec Bool.bool_dec (nth i (cube (length bs)) []) bs) as [E|E]; destruct (Nat.eqb_spec i (bits_val bs)) as [Q|Q]; try reflexivity; exfalso.
    + apply Q. rewrite <- B, E. reflexivity.
    + apply E. rewrite Q. apply cube_nth. reflexivity.
  - destruct (Nat.eqb_spec i (bits_val bs)) as [Q|Q]; [|reflexivity]. pose proof (bits_val_lt bs). lia.
Qed.
Lemma batch_bits vs a b : batch_mle vs (map (@bit K) a) (map bit b) = nth (bits_val b) (nth (bits_val a) vs []) 0.
Proof.
  unfold batch_mle. rewrite mle_bits. rewrite <- (mle_empty K (map bit b)) at 1. rewrite (map_nth (fun v => mle v (map bit b))). apply mle_bits.
Qed.
Lemma fsum_scale {A} (c : K) (f : A -> K) l : fsum (map (fun x => c * f x) l) = c * fsum (map f l).
Proof. induction l as [|x l IH]; cbn [map fsum]; [ring|]. rewrite IH. ring. Qed.
Lemma fsum_zero {A} (f : A -> K) l : (forall x, In x l -> f x = 0) -> fsum (map f l) = 0.
Proof. induction l as [|x l IH]; intro H; [reflexivity|]. cbn [map fsum]. rewrite H by (left; reflexivity). rewrite IH by (intros; apply H; right; assumption). ring. Qed.
(** A sum over a cube with one term. *)
Lemma sum_at lg i (f : list bool -> K) (F : nat -> K) : (i < 2 ^ lg)%nat -> (forall b, f b = F (bits_val b)) -> fsum (map (fun b => (if Nat.eqb i (bits_val b) then 1 else 0) * f b) (cube lg)) = F i.
Proof.
  intros H E. transitivity (fsum (map (fun s => (if Nat.eqb i s then 1 else 0) * F s) (seq 0 (2 ^ lg)))).
  - rewrite <- cube_vals, map_map. f_equal. apply map_ext. intro b. rewrite E. reflexivity.
  - rewrite <- (sum_onehot K lg i F H). apply fsum_map_ext. intros s Hs. apply in_seq in Hs. unfold onehot. rewrite nth_map_seq. destruct (Nat.ltb_spec s (2 ^ lg)); [|lia]. rewrite Nat.eqb_sym. reflexivity.
Qed.
Lemma phi_corner lg vs qa ql qr u0 u1 gates b1 : layer_legal lg gates -> length b1 = length qa ->
  fsum (map (fun b2 => fsum (map (fun b3 => phi vs qa ql qr u0 u1 gates (map bit b1) (map bit b2) (map bit b3)) (cube lg))) (cube lg)) =
  chi b1 qa * fsum (map (fun g => (pick ql (gt_g g) * u0 + pick qr (gt_g g) * u1) * gate_out (nth (bits_val b1) vs []) g) gates).
Proof.
  intros [_ HL] Lb. set (v := nth (bits_val b1) vs []).
  assert (E1 : fsum (map (fun bs => chi bs qa * chi bs (map bit b1)) (cube (length qa))) = chi b1 qa).
  { transitivity (fsum (map (fun bs => chi bs qa * (if list_eq_dec Bool.bool_dec bs b1 then 1 else 0)) (cube (length qa)))); [apply fsum_map_ext; intros bs Hb; apply cube_in in Hb; rewrite chi_bits by lia; reflexivity|].
    apply (fsum_pick K (list_eq_dec Bool.bool_dec) (cube (length qa)) b1 (fun bs => chi bs qa)); [apply cube_NoDup|apply cube_in; exact Lb]. }
  assert (P : forall b2 b3, phi vs qa ql qr u0 u1 gates (map bit b1) (map bit b2) (map bit b3) =
    chi b1 qa * fsum (map (fun g => (if Nat.eqb (gt_l g) (bits_val b2) then 1 else 0) * ((if Nat.eqb (gt_r g) (bits_val b3) then 1 else 0) *
      ((pick ql (gt_g g) * u0 + pick qr (gt_g g) * u1) * match gt_op g with O => nth (bits_val b2) v 0 + nth (bits_val b3) v 0 | _ => nth (bits_val b2) v 0 * nth (bits_val b3) v 0 end))) gates)).
  { intros b2 b3. unfold phi, wiring. rewrite E1, !batch_bits. fold v. induction HL as [|g gs (Ho & _ & _) _ IH]; [cbn [map fsum]; ring|]. cbn [map fsum]. rewrite !pick_bits.
    match goal with |- chi b1 qa * (?A0 + ?S0) * ?X + chi b1 qa * (?A1 + ?S1) * ?Y = chi b1 qa * (?T + ?R) => transitivity (chi b1 qa * (A0 * X + A1 * Y) + (chi b1 qa * S0 * X + chi b1 qa * S1 * Y)); [ring|]; rewrite IH end.
    destruct Ho as [-> | ->]; cbn [Nat.eqb]; ring. }
  transitivity (fsum (map (fun b2 => fsum (map (fun b3 => chi b1 qa * fsum (map (fun g => (if Nat.eqb (gt_l g) (bits_val b2) then 1 else 0) * ((if Nat.eqb (gt_r g) (bits_val b3) then 1 else 0) *
      ((pick ql (gt_g g) * u0 + pick qr (gt_g g) * u1) * match gt_op g with O => nth (bits_val b2) v 0 + nth (bits_val b3) v 0 | _ => nth (bits_val b2) v 0 * nth (bits_val b3) v 0 end))) gates)) (cube lg))) (cube lg))).
  { apply fsum_map_ext. intros b2 _. apply fsum_map_ext. intros b3 _. apply P. }
  clear P. rewrite (fsum_map_ext K _ (fun b2 => chi b1 qa * fsum (map (fun b3 => fsum (map (fun g => (if Nat.eqb (gt_l g) (bits_val b2) then 1 else 0) * ((if Nat.eqb (gt_r g) (bits_val b3) then 1 else 0) *
      ((pick ql (gt_g g) * u0 + pick qr (gt_g g) * u1) * match gt_op g with O => nth (bits_val b2) v 0 + nth (bits_val b3) v 0 | _ => nth (bits_val b2) v 0 * nth (bits_val b3) v 0 end))) gates)) (cube lg)))) by (intros b2 _; apply fsum_scale).
  rewrite fsum_scale. f_equal.
  induction HL as [|g gs (Ho & Hl & Hr) _ IH]; [cbn [map fsum]; apply fsum_zero; intros b2 _; apply fsum_zero; reflexivity|]. cbn [map fsum]. rewrite <- IH. clear IH.
  assert (AD : forall {A} (f h : A -> K) l, fsum (map (fun x => f x + h x) l) = fsum (map f l) + fsum (map h l)) by (clear; intros A f h l; induction l as [|x l IH]; cbn [map fsum]; [ring|]; rewrite IH; ring).
  rewrite (fsum_map_ext K _ _ _ (fun b2 _ => AD _ _ _ (cube lg))). rewrite AD. f_equal.
  set (w := pick ql (gt_g g) * u0 + pick qr (gt_g g) * u1).
  set (op := fun a b : nat => match gt_op g with O => nth a v 0 + nth b v 0 | _ => nth a v 0 * nth b v 0 end).
  transitivity (fsum (map (fun b2 => (if Nat.eqb (gt_l g) (bits_val b2) then 1 else 0) * (w * op (bits_val b2) (gt_r g))) (cube lg))).
  - apply fsum_map_ext. intros b2 _. rewrite fsum_scale. f_equal. apply (sum_at lg (gt_r g) _ (fun s => w * op (bits_val b2) s) Hr). reflexivity.
  - apply (sum_at lg (gt_l g) _ (fun s => w * op s (gt_r g)) Hl). reflexivity.
Qed.
Lemma mle_out (v q : list K) gates : map gt_g gates = seq 0 (length gates) -> (length gates <= 2 ^ length q)%nat -> mle (map (gate_out v) gates) q = fsum (map (fun g => pick q (gt_g g) * gate_out v g) gates).
Proof.
  intros Hg L. rewrite mle_dot by (rewrite map_length; exact L). rewrite eval_eq_chi.
  assert (Q : forall gs s, map gt_g gs = seq s (length gs) -> (s + length gs <= 2 ^ length q)%nat -> dot (map (gate_out v) gs) (skipn s (map (fun bs => chi bs q) (cube (length q)))) = fsum (map (fun g => pick q (gt_g g) * gate_out v g) gs)).
  { induction gs as [|g gs IH]; intros s E H; [reflexivity|]. cbn [map length seq] in E. injection E as E1 E2. cbn [length] in H.
    assert (LL : (s < length (map (fun bs => chi bs q) (cube (length q))))%nat) by (rewrite map_length, cube_length; lia).
    assert (X : skipn s (map (fun bs => chi bs q) (cube (length q))) = pick q s :: skipn (S s) (map (fun bs => chi bs q) (cube (length q)))).
    { unfold pick. revert LL. generalize (map (fun bs => chi bs q) (cube (length q))) as l. clear. induction s as [|s IH]; intros [|x l] H; cbn [length] in H; try lia; [reflexivity|]. cbn [skipn nth]. apply IH. lia. }
    rewrite X. cbn [map dot fsum]. rewrite IH by (try exact E2; lia). rewrite E1. ring. }
  exact (Q gates 0%nat Hg L).
Qed.
Lemma layer_sum ln lg (vs : list (list K)) (qa ql qr : list K) (u0 u1 : K) gates : layer_legal lg gates -> length qa = ln -> (length gates <= 2 ^ length ql)%nat -> (length gates <= 2 ^ length qr)%nat ->
  csum (ln + 2 * lg) (layer_poly ln lg vs qa ql qr u0 u1 gates) [] = batch_mle (layer_out gates vs) qa ql * u0 + batch_mle (layer_out gates vs) qa qr * u1.
Proof.
  intros HL La Ll Lr. unfold csum. cbn [app]. replace (2 * lg)%nat with (lg + lg)%nat by lia. rewrite cube_app_sum.
  transitivity (fsum (map (fun b1 => chi b1 qa * fsum (map (fun g => (pick ql (gt_g g) * u0 + pick qr (gt_g g) * u1) * gate_out (nth (bits_val b1) vs []) g) gates)) (cube ln))).
  { apply fsum_map_ext. intros b1 H1. apply cube_in in H1. rewrite cube_app_sum. rewrite <- (phi_corner lg) by (try exact HL; lia). apply fsum_map_ext. intros b2 H2. apply cube_in in H2. apply fsum_map_ext. intros b3 _. rewrite !map_app. apply layer_poly_phi; rewrite map_length; assumption. }
  assert (B : forall q, (length gates <= 2 ^ length q)%nat -> batch_mle (layer_out gates vs) qa q = fsum (map (fun b1 => chi b1 qa * fsum (map (fun g => pick q (gt_g g) * gate_out (nth (bits_val b1) vs []) g) gates)) (cube ln))).
  { intros q Lq. unfold batch_mle, mle at 1. rewrite La. apply fsum_map_ext. intros b1 _. rewrite <- mle_out by (try exact (proj1 HL); exact Lq).
    unfold layer_out. rewrite map_map. rewrite <- (map_nth (fun v => mle (map (gate_out v) gates) q)).
    assert (Z : mle (map (gate_out (@nil K)) gates) q = 0). { rewrite mle_out by (try exact (proj1 HL); exact Lq). apply fsum_zero. intros g _. unfold gate_out. assert (N : forall i, nth i (@nil K) 0 = 0) by (intros [|i]; reflexivity). rewrite !N. destruct (gt_op g); ring. }
    rewrite Z. ring. }
  rewrite (B ql Ll), (B qr Lr). generalize (cube ln) as l. induction l as [|b l IH]; [cbn [map fsum]; ring|]. cbn [map fsum]. rewrite IH.
  assert (S2 : fsum (map (fun g => (pick ql (gt_g g) * u0 + pick qr (gt_g g) * u1) * gate_out (nth (bits_val b) vs []) g) gates) = fsum (map (fun g => pick ql (gt_g g) * gate_out (nth (bits_val b) vs []) g) gates) * u0 + fsum (map (fun g => pick qr (gt_g g) * gate_out (nth (bits_val b) vs []) g) gates) * u1).
  { generalize gates as gs. induction gs as [|g gs IHg]; cbn [map fsum]; [ring|]. rewrite IHg. ring. }
  rewrite S2. ring.
Qed.
End S.
