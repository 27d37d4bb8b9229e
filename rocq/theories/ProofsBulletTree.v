(** Extraction from a tree of accepted runs of the log-size dot-product proof. *)
From Verif Require Import Field Poly Module ModTac ModelTranscript ModelSigma ModelMle SpecMle ModelBulletproofs ModelHyrax SpecSigma SpecBulletTree SpecRewind ProofsMle ProofsIPP ProofsBulletproofs ProofsSigma ProofsSigma2 ProofsSigma3 ProofsHyrax ProofsRewind.
From Coq Require Import String List Lia.
Import ListNotations.
Local Open Scope string_scope.
Local Open Scope list_scope.
Local Open Scope fld_scope.
Section S.
Variable K : Fld.
Variable G : Grp K.
Add Field Kfbt : (f_laws K).
(** The vector a, spread over 2^|xs| copies as the folding does. *)
Fixpoint tens (xs a : list K) : list K := match xs with [] => a | x :: r => map (fmul (finv x)) (tens r a) ++ map (fmul x) (tens r a) end.
Lemma tens_length xs a : length (tens xs a) = (2 ^ length xs * length a)%nat.
Proof. induction xs as [|x r IH]; [cbn; lia|]. cbn [tens length Nat.pow]. rewrite app_length, !map_length, IH. lia. Qed.
Lemma tens_last xs x a : tens (xs ++ [x]) a = tens xs (map (fmul (finv x)) a ++ map (fmul x) a).
Proof. induction xs as [|y r IH]; [reflexivity|]. cbn [app tens]. rewrite IH. reflexivity. Qed.
Lemma tens_one xs y : tens xs [y] = map (fmul y) (svec K xs).
Proof.
  induction xs as [|x r IH]; [cbn; f_equal; ring|]. cbn [tens svec]. rewrite IH, map_app, !map_map. f_equal; apply map_ext; intro z; ring.
Qed.
Lemma lin2_app x y (a b c d : list K) : length a = length c -> lin2 K x y (a ++ b) (c ++ d) = lin2 K x y a c ++ lin2 K x y b d.
Proof. revert c. induction a as [|p a IH]; intros [|q c] L; try discriminate; [reflexivity|]. unfold lin2 in *. cbn [app combine map]. f_equal. apply IH. injection L as L. exact L. Qed.
Lemma lin2_map x y z (a b : list K) : lin2 K x y (map (fmul z) a) (map (fmul z) b) = map (fmul z) (lin2 K x y a b).
Proof. revert b. induction a as [|p a IH]; intros [|q b]; try reflexivity. unfold lin2 in *. cbn [map combine]. f_equal; [ring|apply IH]. Qed.
Lemma tens_lin2 xs x y a b : length a = length b -> tens xs (lin2 K x y a b) = lin2 K x y (tens xs a) (tens xs b).
Proof.
  intro L. induction xs as [|z r IH]; [reflexivity|]. cbn [tens]. rewrite IH, lin2_app by (rewrite !map_length, !tens_length, L; reflexivity). rewrite !lin2_map. reflexivity.
Qed.
Lemma msm_scale (gs : list G) y : forall v, msm gs (map (fmul y) v) = gsm y (msm gs v).
Proof. induction gs as [|g gs IH]; intros [|k v]; cbn [map msm]; try (gmod; ring). rewrite IH. gmod; ring. Qed.
Lemma dot_scale (b : list K) y : forall v, dot (map (fmul y) v) b = y * dot v b.
Proof. induction b as [|x b IH]; intros [|k v]; cbn [map dot]; try ring. rewrite IH. ring. Qed.
(** The sum of x^2 L + x^-2 R along a path. *)
Definition side (ls rs : list G) (xs : list K) : G := gadd (msm ls (map (fun x => x * x) xs)) (msm rs (map (fun x => finv x * finv x) xs)).
Lemma side_last ls rs xs L R x : length ls = length xs -> length rs = length xs -> side (ls ++ [L]) (rs ++ [R]) (xs ++ [x]) = gadd (side ls rs xs) (gadd (gsm (x * x) L) (gsm (finv x * finv x) R)).
Proof.
  intros L1 L2. unfold side. rewrite !map_app, !msm_app by (rewrite map_length; assumption). cbn [map msm]. gmod; ring.
Qed.
(** Challenges of a run. *)
Lemma challenges_ok (ch : oracle K G) : forall ls rs t xs t1, bullet_challenges K G ch ls rs t = Ok (xs, t1) -> Forall (fun x => x <> 0) xs /\ length t1 = (length t + 3 * length xs)%nat /\ (length ls = length rs -> length xs = length ls).
Proof.
  induction ls as [|l ls IH]; intros rs t xs t1 E.
  - injection E as <- <-. repeat split; [constructor|cbn; lia].
  - destruct rs as [|r rs]; [injection E as <- <-; repeat split; [constructor|cbn; lia|discriminate]|]. cbn [bullet_challenges] in E. unfold draw in E. cbv beta iota zeta in E. set (x := ch "x" _) in E.
    destruct (feqb_spec K x 0) as [|Nx]; [discriminate|]. match type of E with rbind ?X _ = _ => destruct X as [[xs0 t0]| |] eqn:E0; cbn [rbind] in E; try discriminate end. injection E as <- <-.
    destruct (IH _ _ _ _ E0) as (A & B & C). split; [constructor; assumption|]. cbn [length] in *. split; [lia|]. intro Q. rewrite C by lia. reflexivity.
Qed.
Lemma challenges_agree (ch ch' : oracle K G) n : (forall l t, (length t < n)%nat -> ch l t = ch' l t) -> forall ls rs t xs t1, bullet_challenges K G ch ls rs t = Ok (xs, t1) -> (length t1 <= n)%nat -> bullet_challenges K G ch' ls rs t = Ok (xs, t1).
Proof.
  intro A. induction ls as [|l ls IH]; intros rs t xs t1 E Ln; [exact E|]. destruct rs as [|r rs]; [exact E|]. cbn [bullet_challenges] in *. unfold draw in *. cbv beta iota zeta in *.
  assert (Q : (length t + 3 <= length t1)%nat).
  { destruct (feqb_spec K (ch "x" (MG "R" r :: MG "L" l :: t)) 0); [discriminate|]. match type of E with rbind ?X _ = _ => destruct X as [[xs0 t0]| |] eqn:E0; cbn [rbind] in E; try discriminate end. injection E as <- <-.
    destruct (challenges_ok _ _ _ _ _ _ E0) as (_ & -> & _). cbn [length]. lia. }
  rewrite <- A by (cbn [length]; lia). set (x := ch "x" _) in *. destruct (feqb x 0); [discriminate|]. match type of E with rbind ?X _ = _ => destruct X as [[xs0 t0]| |] eqn:E0; cbn [rbind] in E; try discriminate end. injection E as <- <-.
  rewrite (IH _ _ _ _ E0 Ln). reflexivity.
Qed.
(** The folded values. *)
Lemma bullet_inv (ch : oracle K G) g ls rs gamma b t bs gh ga t1 : bullet_verify K G ch g ls rs gamma b t = Ok (bs, gh, ga, t1) ->
  exists xs, bullet_challenges K G ch ls rs t = Ok (xs, t1) /\ length ls = length xs /\ length rs = length xs /\ bs = dot (svec K xs) b /\ gh = msm g (svec K xs) /\ ga = gadd (side ls rs xs) gamma /\
    (2 ^ length xs <= length b)%nat /\ (2 ^ length xs <= length g)%nat /\ Forall (fun x => x <> 0) xs.
Proof.
  intro E. unfold bullet_verify in E. destruct (Nat.eqb_spec (length ls) (length rs)) as [L|]; [|discriminate]. cbn [negb] in E.
  match type of E with rbind ?X _ = _ => destruct X as [[xs t0]| |] eqn:E0; cbn [rbind] in E; try discriminate end. destruct (challenges_ok _ _ _ _ _ _ E0) as (NZ & _ & Lx). specialize (Lx L).
  destruct (Nat.ltb_spec (length b) (2 ^ length ls)); [discriminate|]. destruct (Nat.ltb_spec (length g) (2 ^ length ls)); [discriminate|]. cbn [orb] in E. injection E as <- <- <- <-.
  exists xs. split; [reflexivity|]. split; [congruence|]. split; [congruence|]. change (fold_left (fun acc x : K => acc * finv x) xs 1) with (invprod K xs). rewrite <- Lx, s_vec_ok by exact NZ.
  split; [apply dot_comm|]. split; [reflexivity|]. split; [reflexivity|]. rewrite Lx. repeat split; assumption.
Qed.
Section Tree.
Variable lbl : string.
Variable p : pcp K G.
Variables Cx Cy : G.
Variable r_eq : list K.
Variable t : transcript K G.
Notation gs := (mc_gens K G (pc_gen_n K G p)).
Notation q := (hd g0 (mc_gens K G (pc_gen_1 K G p))).
Notation h := (mc_h K G (pc_gen_1 K G p)).
Notation val w := (gadd (msm gs w) (gsm (dot w r_eq) q)).
Lemma val_lin2 x y a b : length a = length b -> val (lin2 K x y a b) = gadd (gsm x (val a)) (gsm y (val b)).
Proof. intro L. rewrite msm_lin2, dot_lin2_l by exact L. gmod; ring. Qed.
Lemma leaf_extract ls rs xs T : bt_ok lbl p Cx Cy r_eq t 0 ls rs xs T ->
  {y : K & {r : K | length ls = length xs /\ length rs = length xs /\ (2 ^ length xs <= length r_eq)%nat /\ (2 ^ length xs <= length gs)%nat /\ Forall (fun x => x <> 0) xs /\
    gadd (side ls rs xs) (gadd Cx Cy) = gadd (val (tens xs [y])) (gsm r h)}}.
Proof.
  destruct T as [ch ch' pf pf'|]; [|intros []]. cbn [bt_ok]. intros (<- & <- & L' & R' & Ed & Eb & V & V' & Q). cbv zeta in Q.
  destruct (bullet_verify K G ch gs (dp_l K G pf) (dp_r K G pf) (gadd Cx Cy) r_eq (MG "Cy" Cy :: MG "Cx" Cx :: t)) as [[[[bs gh] ga] t1]| |] eqn:EB.
  2,3: exfalso; destruct Q as (? & ? & ? & ? & _ & Q & _); discriminate.
  assert (Q' : bullet_challenges K G ch (dp_l K G pf) (dp_r K G pf) (MG "Cy" Cy :: MG "Cx" Cx :: t) = Ok (xs, t1) /\ bs <> 0 /\ forks ch ch' lbl (MG "beta" (dp_beta _ _ pf) :: MG "delta" (dp_delta _ _ pf) :: t1)).
  { destruct Q as (bs0 & gh0 & ga0 & t0 & A & B & C & D). injection B as <- <- <- <-. auto. }
  clear Q. destruct Q' as (EC & Nb & Fk).
  set (T1 := MG "beta" (dp_beta K G pf) :: MG "delta" (dp_delta K G pf) :: t1) in *. set (c := ch lbl T1). set (c' := ch' lbl T1).
  exists ((dp_z1 K G pf - dp_z1 K G pf') / (bs * (c - c'))), ((dp_z2 K G pf - dp_z2 K G pf') / (bs * (c - c'))).
  destruct (bullet_inv _ _ _ _ _ _ _ _ _ _ _ EB) as (xs0 & EC0 & La & Lb & Ebs & Egh & Ega & Hb & Hg & NZ). rewrite EC in EC0. injection EC0 as <-.
  do 5 (split; [assumption|]).
  assert (EB' : bullet_verify K G ch' gs (dp_l K G pf') (dp_r K G pf') (gadd Cx Cy) r_eq (MG "Cy" Cy :: MG "Cx" Cx :: t) = Ok (bs, gh, ga, t1)).
  { rewrite L', R'. unfold bullet_verify in EB |- *. destruct (negb _); [discriminate|]. rewrite EC in EB. rewrite (challenges_agree ch ch' (length T1)) with (xs := xs) (t1 := t1); [exact EB|exact (proj2 Fk)|exact EC|unfold T1; cbn [length]; lia]. }
  destruct V as (t2 & V). destruct V' as (t2' & V'). unfold log_dot_verify, draw in V, V'. rewrite EB in V. rewrite EB' in V'. cbn [rbind] in V, V'. rewrite <- Ed, <- Eb in V'. fold T1 in V, V'. fold c in V. fold c' in V'.
  destruct (mc_gens K G (pc_gen_1 K G p)) as [|q0 qs] eqn:Eq; [discriminate|]. cbn [hd]. injection V as V _. injection V' as V' _.
  apply geqb_true in V. apply geqb_true in V'.
  assert (Nc : c - c' <> 0). { destruct Fk as [N _]. fold c c' in N. intro E. apply N. transitivity (c - c' + c'); [ring|]. rewrite E. ring. }
  assert (Nd : bs * (c - c') <> 0) by (intro E; destruct (f_integral K _ _ E); contradiction).
  assert (E : ga = gadd (gsm ((dp_z1 K G pf - dp_z1 K G pf') / (bs * (c - c'))) (gadd gh (gsm bs q0))) (gsm ((dp_z2 K G pf - dp_z2 K G pf') / (bs * (c - c'))) h)).
  { transitivity (gsm (finv (bs * (c - c'))) (gadd (gadd (gsm bs (gadd (gsm c ga) (dp_beta K G pf))) (dp_delta K G pf)) (gopp (gadd (gsm bs (gadd (gsm c' ga) (dp_beta K G pf))) (dp_delta K G pf))))).
    - gmod; field; split; assumption.
    - rewrite V, V'. gmod; field; split; assumption. }
  rewrite <- Ega, E. rewrite tens_one, msm_scale, dot_scale, <- Egh, <- Ebs. gmod; ring.
Qed.
Lemma tree_extract : forall k ls rs xs T, bt_ok lbl p Cx Cy r_eq t k ls rs xs T ->
  {a : list K & {r : K | length a = (2 ^ k)%nat /\ length ls = length xs /\ length rs = length xs /\ (2 ^ (length xs + k) <= length r_eq)%nat /\ (2 ^ (length xs + k) <= length gs)%nat /\ Forall (fun x => x <> 0) xs /\
    gadd (side ls rs xs) (gadd Cx Cy) = gadd (val (tens xs a)) (gsm r h)}}.
Proof.
  induction k as [|k IH]; intros ls rs xs T H.
  - destruct (leaf_extract ls rs xs T H) as (y & r & L1 & L2 & L3 & L4 & NZ & E). exists [y], r. rewrite Nat.add_0_r. repeat split; assumption.
  - destruct T as [|L R x1 x2 x3 T1 T2 T3]; [destruct H|]. cbn [bt_ok] in H. destruct H as (N12 & N13 & N23 & H1 & H2 & H3).
    destruct (IH _ _ _ _ H1) as (a1 & r1 & La1 & Ll & Lr & Lb & Lg & NZ1 & E1). destruct (IH _ _ _ _ H2) as (a2 & r2 & La2 & _ & _ & _ & _ & NZ2 & E2). destruct (IH _ _ _ _ H3) as (a3 & r3 & La3 & _ & _ & _ & _ & NZ3 & E3).
    repeat rewrite app_length in Ll; repeat rewrite app_length in Lr; rewrite app_length in Lb, Lg. cbn [length] in Ll, Lr, Lb, Lg. apply Forall_app in NZ1, NZ2, NZ3. destruct NZ1 as [NZ X1], NZ2 as [_ X2], NZ3 as [_ X3]. apply Forall_inv in X1, X2, X3. rename X1 into Z1, X2 into Z2, X3 into Z3.
    assert (Ll' : length ls = length xs) by lia. assert (Lr' : length rs = length xs) by lia. rewrite (side_last ls rs xs L R) in E1, E2, E3 by assumption. rewrite !tens_last in E1, E2, E3.
    set (v1 := map (fmul (finv x1)) a1 ++ map (fmul x1) a1) in *. set (v2 := map (fmul (finv x2)) a2 ++ map (fmul x2) a2) in *. set (v3 := map (fmul (finv x3)) a3 ++ map (fmul x3) a3) in *.
    assert (W1 : length v1 = (2 ^ S k)%nat) by (unfold v1; rewrite app_length, !map_length, La1; cbn [Nat.pow]; lia). assert (W2 : length v2 = (2 ^ S k)%nat) by (unfold v2; rewrite app_length, !map_length, La2; cbn [Nat.pow]; lia).
    assert (W3 : length v3 = (2 ^ S k)%nat) by (unfold v3; rewrite app_length, !map_length, La3; cbn [Nat.pow]; lia). clearbody v1 v2 v3.
    assert (M : forall x y : K, x <> y -> x - y <> 0) by (intros x y N E; apply N; transitivity (x - y + y); [ring|]; rewrite E; ring).
    pose (m1 := - (x1 * x1) * (x2 * x2 + x3 * x3) / ((x1 * x1 - x2 * x2) * (x1 * x1 - x3 * x3))). pose (m2 := - (x2 * x2) * (x1 * x1 + x3 * x3) / ((x2 * x2 - x1 * x1) * (x2 * x2 - x3 * x3))).
    pose (m3 := - (x3 * x3) * (x1 * x1 + x2 * x2) / ((x3 * x3 - x1 * x1) * (x3 * x3 - x2 * x2))).
    pose proof (M _ _ N12) as M12. pose proof (M _ _ N13) as M13. pose proof (M _ _ N23) as M23. pose proof (M _ _ (not_eq_sym N12)) as M21. pose proof (M _ _ (not_eq_sym N13)) as M31. pose proof (M _ _ (not_eq_sym N23)) as M32.
    assert (S1 : m1 + m2 + m3 = 1) by (unfold m1, m2, m3; field; repeat split; assumption).
    assert (S2 : m1 * (x1 * x1) + m2 * (x2 * x2) + m3 * (x3 * x3) = 0) by (unfold m1, m2, m3; field; repeat split; assumption).
    assert (S3 : m1 * (finv x1 * finv x1) + m2 * (finv x2 * finv x2) + m3 * (finv x3 * finv x3) = 0) by (unfold m1, m2, m3; field; repeat split; assumption).
    exists (lin2 K 1 m3 (lin2 K m1 m2 v1 v2) v3), (m1 * r1 + m2 * r2 + m3 * r3).
    assert (W12 : length (lin2 K m1 m2 v1 v2) = (2 ^ S k)%nat) by (rewrite length_lin2 by congruence; exact W1).
    split; [rewrite length_lin2 by congruence; exact W12|]. split; [lia|]. split; [lia|]. replace (length xs + S k)%nat with (length xs + 1 + k)%nat by lia. split; [exact Lb|]. split; [exact Lg|]. split; [exact NZ|].
    rewrite !tens_lin2 by congruence. rewrite !val_lin2 by (rewrite ?length_lin2 by (rewrite !tens_length; congruence); rewrite !tens_length; congruence).
    set (D := gadd (side ls rs xs) (gadd Cx Cy)). set (w1 := val (tens xs v1)) in *. set (w2 := val (tens xs v2)) in *. set (w3 := val (tens xs v3)) in *. set (sd := side ls rs xs) in *. clearbody m1 m2 m3 w1 w2 w3.
    assert (F1 : w1 = gadd (gadd D (gadd (gsm (x1 * x1) L) (gsm (finv x1 * finv x1) R))) (gopp (gsm r1 h))). { transitivity (gadd (gadd w1 (gsm r1 h)) (gopp (gsm r1 h))); [gmod; ring|]. rewrite <- E1. unfold D. gmod; ring. }
    assert (F2 : w2 = gadd (gadd D (gadd (gsm (x2 * x2) L) (gsm (finv x2 * finv x2) R))) (gopp (gsm r2 h))). { transitivity (gadd (gadd w2 (gsm r2 h)) (gopp (gsm r2 h))); [gmod; ring|]. rewrite <- E2. unfold D. gmod; ring. }
    assert (F3 : w3 = gadd (gadd D (gadd (gsm (x3 * x3) L) (gsm (finv x3 * finv x3) R))) (gopp (gsm r3 h))). { transitivity (gadd (gadd w3 (gsm r3 h)) (gopp (gsm r3 h))); [gmod; ring|]. rewrite <- E3. unfold D. gmod; ring. }
    rewrite F1, F2, F3. clearbody D.
    transitivity (gadd (gadd (gsm (m1 + m2 + m3) D) (gsm (m1 * (x1 * x1) + m2 * (x2 * x2) + m3 * (x3 * x3)) L)) (gsm (m1 * (finv x1 * finv x1) + m2 * (finv x2 * finv x2) + m3 * (finv x3 * finv x3)) R)).
    + rewrite S1, S2, S3. gmod; ring.
    + set (i1 := finv x1). set (i2 := finv x2). set (i3 := finv x3). clearbody i1 i2 i3. gmod; ring.
Qed.
(** The statement proved: some vector opens Cx + Cy, its product with r_eq over q. *)
Theorem bullet_extract k T : bt_ok lbl p Cx Cy r_eq t k [] [] [] T ->
  {x : list K & {r : K | length x = (2 ^ k)%nat /\ (2 ^ k <= length r_eq)%nat /\ (2 ^ k <= length gs)%nat /\ gadd Cx Cy = gadd (gadd (msm gs x) (gsm (dot x r_eq) q)) (gsm r h)}}.
Proof.
  intro H. destruct (tree_extract k [] [] [] T H) as (a & r & La & _ & _ & L1 & L2 & _ & E). exists a, r. cbn [length Nat.add] in L1, L2. do 3 (split; [assumption|]). cbn [tens] in E. rewrite <- E. unfold side. cbn [msm map]. gmod; ring.
Qed.
(** With openings of Cx and of Cy, these are the vector and its product with r_eq. *)
Theorem bullet_sound k T w rw y ry : mc_h K G (pc_gen_n K G p) = h -> (length w <= length gs)%nat -> bt_ok lbl p Cx Cy r_eq t k [] [] [] T ->
  opens_vec gs h Cx w rw -> opens q h Cy y ry -> relation (q :: gs) h + {y = dot w r_eq}.
Proof.
  intros Eh Lw H Ox Oy. destruct (bullet_extract k T H) as (x & r & Lx & L1 & L2 & E).
  set (pad := fun v => v ++ repeat (0 : K) (length gs - length v)).
  destruct (two_openings_vec K G (q :: gs) h (gadd Cx Cy) (dot x r_eq :: pad x) (y :: pad w) r (rw + ry)) as [Q|Q].
  - unfold pad. cbn [length]. rewrite app_length, repeat_length. lia.
  - unfold pad. cbn [length]. rewrite app_length, repeat_length. lia.
  - unfold opens_vec. cbn [msm]. unfold pad. rewrite msm_app_zeros, E. gmod; ring.
  - unfold opens_vec, opens in *. cbn [msm]. unfold pad. rewrite msm_app_zeros, Ox, Oy. gmod; ring.
  - left. exact Q.
  - right. injection Q as Qy Qw. rewrite <- Qy. assert (P : forall v b, dot (pad v) b = dot v b). { intros v. unfold pad. generalize (length gs - length v)%nat as n. induction v as [|z v IH]; intros n b.
      - cbn [app dot]. revert b. induction n as [|n IH]; intros [|z b]; try reflexivity. cbn [repeat dot]. rewrite IH. ring.
      - destruct b as [|u b]; [reflexivity|]. cbn [app dot]. rewrite IH. reflexivity. }
    rewrite <- (P x), <- (P w), Qw. reflexivity.
Qed.
End Tree.
(** ** Evaluation of a committed polynomial *)
Lemma msm_nth : forall (ks : list K) (gs : list G), msm gs ks = msm (map (fun i => nth i gs g0) (seq 0 (length ks))) ks.
Proof.
  induction ks as [|k ks IH]; intros [|g gs]; try reflexivity.
  - cbn [length seq map msm nth]. rewrite <- seq_shift, map_map. rewrite (map_ext _ (fun i => nth i [] g0)) by (intros [|i]; reflexivity). rewrite <- (IH []). cbn [msm]. gmod; ring.
  - cbn [length seq map msm nth]. rewrite <- seq_shift, map_map. cbn [nth]. rewrite <- (IH gs). reflexivity.
Qed.
Lemma rows_comb (gs : list G) h R cw v bs (l : list K) : rows_open gs h R cw v bs -> poly_commit_vec K G cw l h 0 = poly_commit_vec K G gs (row_comb K l v R) h (dot l bs).
Proof.
  intros (Lv & Lb & H). unfold poly_commit_vec. rewrite msm_nth. rewrite (map_ext_in _ (fun i => gadd (msm gs (ProofsBulletproofs.tab K R (fun j => nth (i * R + j) v 0))) (gsm (nth i bs 0) h))).
  - rewrite (list_tab K l (length l) eq_refl) at 2. rewrite msm_rows, row_comb_tab, dot_sumn. cbv beta. gmod; ring.
  - intros i _. destruct (Nat.ltb_spec i (length cw)) as [Hi|Hi].
    + rewrite (H i Hi). f_equal. f_equal. assert (Li : length (firstn R (skipn (i * R) v)) = R) by (rewrite firstn_length, skipn_length, Lv; nia).
      rewrite (list_tab K _ R Li). apply tab_ext. intros j Hj. rewrite nth_firstn, nth_skipn. destruct (Nat.ltb_spec j R); [reflexivity|lia].
    + rewrite !nth_overflow by lia. rewrite (tab_ext K R _ (fun _ => 0)); [rewrite msm_tab_0; gmod; ring|]. intros j _. apply nth_overflow. nia.
Qed.
Theorem eval_sound lbl (p : pcp K G) cw v bs pt Cy t k T y ry : let half := (length pt / 2)%nat in let R := (2 ^ (length pt - half))%nat in
  let gs := mc_gens K G (pc_gen_n K G p) in let q := hd g0 (mc_gens K G (pc_gen_1 K G p)) in let h := mc_h K G (pc_gen_1 K G p) in
  mc_h K G (pc_gen_n K G p) = h -> (R <= length gs)%nat -> rows_open gs h R cw v bs ->
  bt_ok lbl p (poly_commit_vec K G cw (eval_eq K (firstn half pt)) h 0) Cy (eval_eq K (skipn half pt)) t k [] [] [] T ->
  opens q h Cy y ry -> relation (q :: gs) h + {y = mle v pt}.
Proof.
  intros half R gs q h Eh LR Rw Tr Oy. assert (LS : length (skipn half pt) = (length pt - half)%nat) by apply skipn_length.
  destruct (bullet_sound lbl p (poly_commit_vec K G cw (eval_eq K (firstn half pt)) h 0) Cy (eval_eq K (skipn half pt)) t k T (row_comb K (eval_eq K (firstn half pt)) v R) (dot (eval_eq K (firstn half pt)) bs) y ry) as [Q|Q]; try assumption.
  - rewrite row_comb_tab, length_tab. exact LR.
  - exact (rows_comb gs h R cw v bs _ Rw).
  - left. exact Q.
  - right. rewrite Q. unfold R. rewrite <- LS, row_comb_dot, firstn_skipn. reflexivity.
Qed.
(** The two verifiers of the repository are this proof at the halves of the point. *)
Lemma verifiers (ch : oracle K G) (p : pcp K G) pt cw Cy pf t : let half := (length pt / 2)%nat in let Cx := poly_commit_vec K G cw (eval_eq K (firstn half pt)) (mc_h K G (pc_gen_1 K G p)) 0 in
  reduce_verifier K G ch p pt cw Cy pf t = log_dot_verify K G ch "c" p Cx Cy (eval_eq K (skipn half pt)) pf t /\
  inner_product_verify K G ch p pt cw Cy pf t = log_dot_verify K G ch "challenge_tau" p Cx Cy (eval_eq K (skipn half pt)) pf (MU "protocol-name:polynomial evaluation proof" 0 :: t).
Proof. split; reflexivity. Qed.
(** ** A proof without rounds at a point with a coordinate 1 *)
Lemma eval_eq_hd : forall r : list K, In 1 r -> exists l, eval_eq K r = 0 :: l.
Proof.
  intros r H. assert (E : nth 0 (eval_eq K r) 0 = 0).
  { pose proof (eval_eq_nth K r (repeat false (length r)) (repeat_length _ _)) as Q. replace (bits_val (repeat false (length r))) with 0%nat in Q; [|clear; unfold bits_val; induction (length r) as [|n IH]; [reflexivity|exact IH]].
    rewrite Q. clear Q. induction r as [|x r IH]; [destruct H|]. cbn [length repeat chi]. destruct H as [->|H]; [ring|]. rewrite IH by exact H. ring. }
  pose proof (eval_eq_length K r) as L. destruct (eval_eq K r) as [|x l]; [cbn in L; pose proof (PeanoNat.Nat.pow_nonzero 2 (length r)); lia|]. cbn in E. subst x. eauto.
Qed.
Theorem void_proof (ch : oracle K G) lbl (p : pcp K G) Cx Cy r t beta : In 1 r -> (0 < length (mc_gens K G (pc_gen_n K G p)))%nat -> mc_gens K G (pc_gen_1 K G p) <> [] ->
  exists t', log_dot_verify K G ch lbl p Cx Cy (eval_eq K r) (mkDP K G [] [] g0 beta 0 0) t = Ok (true, t').
Proof.
  intros H Lg N. destruct (eval_eq_hd r H) as (l & E). rewrite E. unfold log_dot_verify, bullet_verify. cbn [dp_l dp_r length PeanoNat.Nat.pow PeanoNat.Nat.eqb negb bullet_challenges rbind map fold_left].
  destruct (PeanoNat.Nat.ltb_spec (length (mc_gens K G (pc_gen_n K G p))) 1); [lia|]. change (PeanoNat.Nat.ltb (S (length l)) 1) with false. cbn [orb rbind]. unfold draw.
  destruct (mc_gens K G (pc_gen_1 K G p)) as [|q qs]; [destruct (N eq_refl)|]. eexists. f_equal. f_equal. apply (geqb_true K G). cbn [dp_delta dp_beta dp_z1 dp_z2].
  match goal with |- context [dot (0 :: l) ?s] => change s with [1 : K] end. cbn [dot]. assert (Z : dot l [] = 0) by (destruct l; reflexivity). try rewrite Z. gmod; ring.
Qed.
End S.
