(** Proofs about the plain Libra protocol: sumcheck rounds and gate sums. *)
From Verif Require Import Field Poly ProofsPC SpecMle ProofsMle.
From Verif Require Import ModelLibra.
Local Open Scope string_scope.
Local Open Scope list_scope.
Local Open Scope fld_scope.
Section P.
Variable K : Fld.
Variable G : Type.
Variable ch : oracle K G.
Add Field KfLib : (f_laws K).
Notation tr := (transcript K G).

(** ** Quadratic functions *)
Definition quadf (f : K -> K) : Prop := exists a b c, forall X, f X = c + b * X + a * X * X.
Definition afff (f : K -> K) : Prop := exists b c, forall X, f X = c + b * X.
Lemma aff_quad f : afff f -> quadf f.
Proof. intros (b & c & H). exists 0, b, c. intro X. rewrite H. ring. Qed.
Lemma aff_mul f g : afff f -> afff g -> quadf (fun X => f X * g X).
Proof. intros (b & c & H) (b' & c' & H'). exists (b * b'), (b * c' + c * b'), (c * c'). intro X. rewrite H, H'. ring. Qed.
Lemma quad_add f g : quadf f -> quadf g -> quadf (fun X => f X + g X).
Proof. intros (a & b & c & H) (a' & b' & c' & H'). exists (a + a'), (b + b'), (c + c'). intro X. rewrite H, H'. ring. Qed.
Lemma quad_scale f k : quadf f -> quadf (fun X => f X * k).
Proof. intros (a & b & c & H). exists (a * k), (b * k), (c * k). intro X. rewrite H. ring. Qed.
Lemma quad_sum {A} (l : list A) (f : A -> K -> K) : (forall x, In x l -> quadf (f x)) -> quadf (fun X => fsum (map (fun x => f x X) l)).
Proof.
  induction l as [|x l IH]; intro H; [exists 0, 0, 0; intro X; cbn; ring|]. cbn [map fsum]. apply (quad_add (f x)); [apply H; left; reflexivity|]. apply IH. intros y Hy. apply H. right. exact Hy.
Qed.
Lemma quad_ext f g : (forall X, f X = g X) -> quadf f -> quadf g.
Proof. intros E (a & b & c & H). exists a, b, c. intro X. rewrite <- E. apply H. Qed.
Lemma quad_poly_ok f : quadf f -> (1 + 1 : K) <> 0 -> exists p, quad_poly K (f 0) (f 1) (f (1 + 1)) = Ok p /\ forall X, peval p X = f X.
Proof.
  intros (a & b & c & H) T. unfold quad_poly. destruct (feqb_spec K (1 + 1) 0) as [E|_]; [contradiction|]. eexists. split; [reflexivity|].
  intro X. rewrite peval_ptrim. cbn [peval]. rewrite !H. field. exact T.
Qed.

(** ** Summands *)
Definition interp (X : K) (u w : list K) : list K := map (fun p => X * snd p + (1 - X) * fst p) (combine u w).
Definition quadT (T : list K -> K) : Prop := forall u w, quadf (fun X => T (interp X u w)).
Lemma interp_nth u w i : afff (fun X => nth i (interp X u w) 0).
Proof.
  unfold interp. destruct (nth_error (combine u w) i) as [[p q]|] eqn:E.
  - exists (q - p), p. intro X. assert (nth_error (map (fun p => X * snd p + (1 - X) * fst p) (combine u w)) i = Some (X * q + (1 - X) * p)) as Q by (rewrite nth_error_map, E; reflexivity).
    rewrite (nth_error_nth _ _ 0 Q). ring.
  - exists 0, 0. intro X. rewrite nth_overflow; [ring|]. rewrite map_length. apply nth_error_None. exact E.
Qed.
Lemma term_one_quad : quadT (term_one K).
Proof.
  intros u w. unfold term_one. apply quad_add; [apply quad_add; apply (aff_mul (fun X => nth 0 (interp X u w) 0))|apply aff_quad]; apply interp_nth.
Qed.
Lemma term_two_quad fu : quadT (term_two K fu).
Proof.
  intros u w. unfold term_two. apply quad_add; [apply quad_add|].
  - apply (quad_scale (fun X => nth 1 (interp X u w) 0 * nth 0 (interp X u w) 0)). apply aff_mul; apply interp_nth.
  - apply (quad_scale (fun X => nth 2 (interp X u w) 0)), aff_quad, interp_nth.
  - apply aff_mul; apply interp_nth.
Qed.

(** ** The rounds *)
Definition total (T : list K -> K) (ts : list (list K)) (n : nat) : K := fsum (map (fun j => T (at_j K ts j)) (seq 0 (2 ^ n))).
Lemma combine_all_ok n ts r : Forall (fun v => length v = (2 ^ S n)%nat) ts -> combine_all K ts r = Ok (map (comb K r) ts).
Proof.
  induction ts as [|v ts IH]; intro H; [reflexivity|]. inversion H as [|? ? Hv Ht]; subst. cbn [combine_all map]. rewrite (combine_ok K r v n Hv). cbn [rbind]. rewrite (IH Ht). reflexivity.
Qed.
Lemma at_comb n ts r j : Forall (fun v => length v = (2 ^ S n)%nat) ts -> (j < 2 ^ n)%nat -> at_j K (map (comb K r) ts) j = interp r (at_j K ts j) (at_j K ts (j + 2 ^ n)).
Proof.
  intros H L. unfold at_j, interp. rewrite map_map. induction H as [|v ts Hv _ IH]; [reflexivity|]. cbn [map combine fst snd]. rewrite IH. rewrite (comb_nth K r v n j Hv L). reflexivity.
Qed.
Lemma interp_0 u w : length u = length w -> interp 0 u w = u.
Proof. revert w. induction u as [|x u IH]; intros [|y w] H; try discriminate; [reflexivity|]. injection H as H. unfold interp in *. cbn [combine map fst snd]. rewrite IH by assumption. f_equal. ring. Qed.
Lemma interp_1 u w : length u = length w -> interp 1 u w = w.
Proof. revert w. induction u as [|x u IH]; intros [|y w] H; try discriminate; [reflexivity|]. injection H as H. unfold interp in *. cbn [combine map fst snd]. rewrite IH by assumption. f_equal. ring. Qed.
Lemma at_j_length ts j : length (at_j K ts j) = length ts.
Proof. unfold at_j. apply map_length. Qed.
Lemma total_split T ts n : total T ts (S n) = fsum (map (fun j => T (at_j K ts j)) (seq 0 (2 ^ n))) + fsum (map (fun j => T (at_j K ts (j + 2 ^ n))) (seq 0 (2 ^ n))).
Proof.
  unfold total. cbn [Nat.pow]. replace (2 * 2 ^ n)%nat with (2 ^ n + 2 ^ n)%nat by lia. rewrite seq_app, map_app, fsum_app. f_equal. cbn [Nat.add]. f_equal.
  rewrite <- (Nat.add_0_r (2 ^ n)) at 1. rewrite <- map_add_seq, map_map. apply map_ext. intro a. rewrite Nat.add_comm. reflexivity.
Qed.
Lemma comb_lengths n ts r : Forall (fun v => length v = (2 ^ S n)%nat) ts -> Forall (fun v => length v = (2 ^ n)%nat) (map (comb K r) ts).
Proof. intro H. rewrite Forall_map. revert H. apply Forall_impl. intros v Hv. apply (comb_length K r v n Hv). Qed.
Lemma sc_rounds_ok T (HT : quadT T) (two : (1 + 1 : K) <> 0) n : forall ts claim (t : tr), Forall (fun v => length v = (2 ^ n)%nat) ts -> claim = total T ts n ->
  exists polys rs ts' t', sc_rounds K G ch T n ts claim t = Ok (polys, rs, ts', t') /\ length rs = n /\ at_j K ts' 0 = map (fun v => mle v rs) ts /\
    sc_check K G ch n polys claim t = Ok (rs, T (at_j K ts' 0), t').
Proof.
  induction n as [|n IH]; intros ts claim t L E.
  - exists [], [], ts, t. repeat apply conj; try reflexivity.
    + unfold at_j. apply map_ext. intro v. rewrite mle_nil. reflexivity.
    + cbn [sc_check]. rewrite E. unfold total. cbn [Nat.pow seq map fsum]. do 3 f_equal. ring.
  - set (f := fun X => fsum (map (fun j => T (interp X (at_j K ts j) (at_j K ts (j + 2 ^ n)))) (seq 0 (2 ^ n)))).
    assert (quadf f) as Q by (apply (quad_sum _ (fun j X => T (interp X (at_j K ts j) (at_j K ts (j + 2 ^ n))))); intros j _; apply HT).
    assert (forall X, fsum (map (fun j => T (at_j K (map (comb K X) ts) j)) (seq 0 (2 ^ n))) = f X) as F.
    { intro X. apply fsum_map_ext. intros j J. apply in_seq in J. rewrite (at_comb n) by (try assumption; lia). reflexivity. }
    assert (fsum (map (fun j => T (at_j K ts j)) (seq 0 (2 ^ n))) = f 0) as F0.
    { apply fsum_map_ext. intros j _. rewrite interp_0 by (rewrite !at_j_length; reflexivity). reflexivity. }
    assert (claim - f 0 = f 1) as F1.
    { rewrite E, total_split, F0. assert (fsum (map (fun j => T (at_j K ts (j + 2 ^ n))) (seq 0 (2 ^ n))) = f 1) as ->; [|ring]. apply fsum_map_ext. intros j _. rewrite interp_1 by (rewrite !at_j_length; reflexivity). reflexivity. }
    destruct (quad_poly_ok f Q two) as (p & Hp & Ep). cbn [sc_rounds]. rewrite F0, F1, (combine_all_ok n) by assumption. cbn [rbind]. rewrite F, Hp. cbn [rbind].
    unfold draw. cbv beta iota zeta. set (r := ch "challenge_nextround" (MFs "poly" p :: t)). rewrite (combine_all_ok n) by assumption. cbn [rbind].
    destruct (IH (map (comb K r) ts) (peval p r) (MCh "challenge_nextround" :: MFs "poly" p :: t)) as (polys & rs & ts' & t' & R & Lr & A & C).
    + apply comb_lengths, L.
    + rewrite Ep, <- F. reflexivity.
    + rewrite R. cbn [rbind]. exists (p :: polys), (r :: rs), ts', t'. split; [reflexivity|]. split; [cbn; lia|]. split.
      * rewrite A, map_map. apply map_ext_in. intros v Hv. apply comb_mle. rewrite Lr. rewrite Forall_forall in L. apply L, Hv.
      * cbn [sc_check]. rewrite (Ep 0), (Ep 1). replace (f 0 + f 1) with claim by (rewrite <- F1; ring). rewrite feqb_refl. cbn [negb]. unfold draw. fold r. rewrite C. reflexivity.
Qed.

(** ** Gate sums *)
Definition wsum (n : nat) (v : list K) (W : nat -> K) : K := sumn n (fun x => nth x v 0 * W x).
Lemma add_at_ok v i x : (i < length v)%nat -> exists w, add_at K v i x = Ok w /\ length w = length v /\ (forall j, nth j w 0 = nth j v 0 + (if Nat.eqb j i then x else 0)).
Proof.
  intro H. unfold add_at. destruct (nth_error v i) as [y|] eqn:E; [|apply nth_error_None in E; lia]. eexists. split; [reflexivity|].
  assert (length (firstn i v) = i) as Lf by (rewrite firstn_length; lia). split.
  - rewrite app_length, Lf. cbn [length]. rewrite skipn_length. lia.
  - intro j. pose proof (nth_error_nth _ _ 0 E) as Ey. destruct (Nat.eqb_spec j i) as [->|N].
    + rewrite app_nth2 by lia. rewrite Lf, Nat.sub_diag. cbn [nth]. rewrite <- Ey. reflexivity.
    + destruct (Nat.lt_ge_cases j i) as [B|B].
      * rewrite app_nth1 by lia. rewrite nth_firstn. destruct (Nat.ltb_spec j i); [ring|lia].
      * rewrite app_nth2 by lia. rewrite Lf. replace (j - i)%nat with (S (j - i - 1)) by lia. cbn [nth]. rewrite nth_skipn. replace (S i + (j - i - 1))%nat with j by lia. ring.
Qed.
Lemma wsum_add n v w W i x : (i < n)%nat -> (forall j, nth j w 0 = nth j v 0 + (if Nat.eqb j i then x else 0)) -> wsum n w W = wsum n v W + x * W i.
Proof.
  intros L H. unfold wsum. rewrite (sumn_ext _ n _ (fun j => nth j v 0 * W j + (if Nat.eqb j i then x else 0) * W j)) by (intros j _; rewrite H; ring).
  rewrite sumn_add. f_equal. rewrite (sumn_one _ n _ i L); [rewrite Nat.eqb_refl; reflexivity|]. intros j _ N. destruct (Nat.eqb_spec j i); [contradiction|ring].
Qed.
Lemma wsum_repeat n m W : wsum n (repeat 0 m) W = 0.
Proof. unfold wsum. apply sumn_0. intros i _. rewrite nth_repeat. ring. Qed.
Definition isop (o : nat) (g : gate) (x : K) : K := if Nat.eqb (gt_op g) o then x else 0.
Lemma isop_eq o g x : gt_op g = o -> isop o g x = x. Proof. intros <-. unfold isop. rewrite Nat.eqb_refl. reflexivity. Qed.
Lemma isop_ne o o' g x : gt_op g = o' -> o' <> o -> isop o g x = 0. Proof. intros <- N. unfold isop. destruct (Nat.eqb_spec (gt_op g) o); [contradiction|reflexivity]. Qed.
Definition gate_ok (ng nv : nat) (g : gate) : Prop := (gt_op g = 0 \/ gt_op g = 1)%nat /\ (gt_g g < ng)%nat /\ (gt_l g < nv)%nat /\ (gt_r g < nv)%nat.
Lemma kget_ok (l : list K) i : (i < length l)%nat -> kget K l i = Ok (nth i l 0).
Proof. intro H. unfold kget. destruct (nth_error l i) as [y|] eqn:E; [rewrite (nth_error_nth _ _ 0 E); reflexivity|apply nth_error_None in E; lia]. Qed.
Lemma hg_ok eg v gs : forall m a1 a2, length m = length v -> length a1 = length v -> length a2 = length v -> Forall (gate_ok (length eg) (length v)) gs ->
  exists m' a1' a2', foldr (hg_gate K eg v) (m, a1, a2) gs = Ok (m', a1', a2') /\ length m' = length v /\ length a1' = length v /\ length a2' = length v /\ forall W,
    wsum (length v) m' W = wsum (length v) m W + fsum (map (fun g => isop 1 g (nth (gt_g g) eg 0 * nth (gt_r g) v 0 * W (gt_l g))) gs) /\
    wsum (length v) a1' W = wsum (length v) a1 W + fsum (map (fun g => isop 0 g (nth (gt_g g) eg 0 * W (gt_l g))) gs) /\
    wsum (length v) a2' W = wsum (length v) a2 W + fsum (map (fun g => isop 0 g (nth (gt_g g) eg 0 * nth (gt_r g) v 0 * W (gt_l g))) gs).
Proof.
  induction gs as [|g gs IH]; intros m a1 a2 Lm L1 L2 H.
  - exists m, a1, a2. repeat (split; [first [reflexivity|assumption]|]). intro W. cbn [map fsum]. repeat split; ring.
  - inversion H as [|? ? (Ho & Hg & Hl & Hr) Ht]; subst. cbn [foldr]. destruct Ho as [Ho|Ho]; unfold hg_gate at 1; rewrite Ho; cbn [Nat.eqb]; rewrite (kget_ok eg) by assumption; cbn [rbind].
    + destruct (add_at_ok a1 (gt_l g) (nth (gt_g g) eg 0)) as (b1 & -> & Lb1 & N1); [lia|]. cbn [rbind]. rewrite (kget_ok v) by assumption. cbn [rbind].
      destruct (add_at_ok a2 (gt_l g) (nth (gt_g g) eg 0 * nth (gt_r g) v 0)) as (b2 & -> & Lb2 & N2); [lia|]. cbn [rmap rbind].
      destruct (IH m b1 b2) as (m' & a1' & a2' & E & M1 & M2 & M3 & S); try assumption; try lia. exists m', a1', a2'. repeat (split; [assumption|]). intro W. destruct (S W) as (S1 & S2 & S3). rewrite S1, S2, S3.
      rewrite (wsum_add _ a1 b1 W (gt_l g) _ Hl N1), (wsum_add _ a2 b2 W (gt_l g) _ Hl N2). cbn [map fsum]. rewrite ?(fun x => isop_eq 0 g x Ho), ?(fun x => isop_ne 1 0 g x Ho (ltac:(lia))).  repeat split; ring.
    + rewrite (kget_ok v) by assumption. cbn [rbind]. destruct (add_at_ok m (gt_l g) (nth (gt_g g) eg 0 * nth (gt_r g) v 0)) as (b & -> & Lb & N); [lia|]. cbn [rmap rbind].
      destruct (IH b a1 a2) as (m' & a1' & a2' & E & M1 & M2 & M3 & S); try assumption; try lia. exists m', a1', a2'. repeat (split; [assumption|]). intro W. destruct (S W) as (S1 & S2 & S3). rewrite S1, S2, S3.
      rewrite (wsum_add _ m b W (gt_l g) _ Hl N). cbn [map fsum]. rewrite ?(fun x => isop_eq 1 g x Ho), ?(fun x => isop_ne 0 1 g x Ho (ltac:(lia))).  repeat split; ring.
Qed.
Lemma fgu_ok eg v n gs : forall m a, length m = n -> length a = n -> length v = n -> Forall (gate_ok (length eg) n) gs ->
  exists m' a', foldr (fgu_gate K eg v) (m, a) gs = Ok (m', a') /\ length m' = n /\ length a' = n /\ forall W,
    wsum n m' W = wsum n m W + fsum (map (fun g => isop 1 g (nth (gt_g g) eg 0 * nth (gt_l g) v 0 * W (gt_r g))) gs) /\
    wsum n a' W = wsum n a W + fsum (map (fun g => isop 0 g (nth (gt_g g) eg 0 * nth (gt_l g) v 0 * W (gt_r g))) gs).
Proof.
  induction gs as [|g gs IH]; intros m a Lm La Lv H.
  - exists m, a. repeat (split; [first [reflexivity|assumption]|]). intro W. cbn [map fsum]. repeat split; ring.
  - inversion H as [|? ? (Ho & Hg & Hl & Hr) Ht]; subst. cbn [foldr]. destruct Ho as [Ho|Ho]; unfold fgu_gate at 1; rewrite Ho; cbn [Nat.eqb]; rewrite (kget_ok eg) by assumption; cbn [rbind]; rewrite (kget_ok v) by lia; cbn [rbind].
    + destruct (add_at_ok a (gt_r g) (nth (gt_g g) eg 0 * nth (gt_l g) v 0)) as (b & -> & Lb & N); [lia|]. cbn [rmap rbind].
      destruct (IH m b) as (m' & a' & E & M1 & M2 & S); try assumption; try lia. exists m', a'. repeat (split; [assumption|]). intro W. destruct (S W) as (S1 & S2). rewrite S1, S2.
      rewrite (wsum_add _ a b W (gt_r g) _ Hr N). cbn [map fsum]. rewrite ?(fun x => isop_eq 0 g x Ho), ?(fun x => isop_ne 1 0 g x Ho (ltac:(lia))).  repeat split; ring.
    + destruct (add_at_ok m (gt_r g) (nth (gt_g g) eg 0 * nth (gt_l g) v 0)) as (b & -> & Lb & N); [lia|]. cbn [rmap rbind].
      destruct (IH b a) as (m' & a' & E & M1 & M2 & S); try assumption; try lia. exists m', a'. repeat (split; [assumption|]). intro W. destruct (S W) as (S1 & S2). rewrite S1, S2.
      rewrite (wsum_add _ m b W (gt_r g) _ Hr N). cbn [map fsum]. rewrite ?(fun x => isop_eq 1 g x Ho), ?(fun x => isop_ne 0 1 g x Ho (ltac:(lia))).  repeat split; ring.
Qed.
End P.
