(** Polynomial facts behind the vector commitment: division, root polynomials, interpolation. *)
From Verif Require Import Field Poly Module ModTac ModelPC SpecPC ProofsPC ModelAsvc SpecAsvc.
Local Open Scope fld_scope.
Section P.
Variable K : Fld.
Add Field Kf : (f_laws K).
Notation ptrim := (ptrim K).
Implicit Types p q d : list K.
(** ** division *)
Lemma nth_over (p : list K) i : (length p <= i)%nat -> nth i p 0 = 0.
Proof. apply nth_overflow. Qed.
Lemma nth_firstn0 (p : list K) m i : nth i (firstn m p) 0 = if Nat.ltb i m then nth i p 0 else 0.
Proof.
  revert p i. induction m as [|m IH]; intros p i; [destruct i; reflexivity|]. destruct p as [|a p]; cbn [firstn].
  - destruct (Nat.ltb i (S m)); destruct i; reflexivity.
  - destruct i as [|i]; [reflexivity|]. cbn [nth]. rewrite IH. reflexivity.
Qed.
Lemma last_nth (d : list K) : last d 0 = nth (length d - 1) d 0.
Proof.
  induction d as [|a d IH]; [reflexivity|]. destruct d as [|b d]; [reflexivity|].
  change (last (a :: b :: d) 0) with (last (b :: d) 0). rewrite IH. cbn [length]. replace (S (S (length d)) - 1)%nat with (S (length d)) by lia.
  replace (S (length d) - 1)%nat with (length d) by lia. reflexivity.
Qed.
Lemma pdivl_length d p : d <> [] -> length (fst (pdivl d p)) = length p /\ length (snd (pdivl d p)) = (length d - 1)%nat.
Proof.
  intro Hd. induction p as [|c p IH]; cbn [pdivl].
  - cbn [fst snd]. rewrite repeat_length. split; reflexivity.
  - destruct (pdivl d p) as [q r]. destruct IH as [IH1 IH2]. cbn [fst snd] in *. split; [cbn [length]; rewrite IH1; reflexivity|].
    rewrite firstn_length, length_psub. cbn [length]. rewrite length_pscale, IH2. lia.
Qed.
Lemma pdivl_coeff d p : d <> [] -> last d 0 <> 0 -> forall i, nth i p 0 = nth i (pmul (fst (pdivl d p)) d) 0 + nth i (snd (pdivl d p)) 0.
Proof.
  intros Hd Hl. induction p as [|c p IH]; intro i.
  - cbn [pdivl fst snd pmul]. rewrite nth_repeat. destruct i; cbn [nth]; ring.
  - pose proof (pdivl_length d p Hd) as [_ L]. cbn [pdivl]. destruct (pdivl d p) as [q r]. cbn [fst snd] in *.
    set (m := (length d - 1)%nat) in *. set (t := nth m (c :: r) 0 * finv (last d 0)).
    cbn [pmul]. rewrite nth_padd, nth_pscale, nth_firstn0, nth_psub, nth_pscale.
    assert (Ht : t * nth m d 0 = nth m (c :: r) 0).
    { unfold t. rewrite last_nth. fold m. rewrite last_nth in Hl. fold m in Hl. field. exact Hl. }
    destruct (Nat.ltb_spec i m) as [Hi|Hi].
    + destruct i as [|i]; cbn [nth]; [ring|]. rewrite (IH i). ring.
    + destruct (Nat.eq_dec i m) as [->|Hn].
      * rewrite Ht. destruct m as [|m']; cbn [nth]; [ring|]. rewrite (IH m'). ring.
      * rewrite (nth_over d i) by (unfold m in *; lia). destruct i as [|i]; [lia|]. cbn [nth]. rewrite (IH i), (nth_over r i) by lia. ring.
Qed.
Lemma pdivl_eval d p : d <> [] -> last d 0 <> 0 -> forall x, peval p x = peval (fst (pdivl d p)) x * peval d x + peval (snd (pdivl d p)) x.
Proof.
  intros Hd Hl x. rewrite <- peval_pmul, <- peval_padd. apply nth_eq_peval. intro i. rewrite nth_padd. apply pdivl_coeff; assumption.
Qed.
Lemma length_ptrim_le p n : (forall i, (n <= i)%nat -> nth i p 0 = 0) -> (length (ptrim p) <= n)%nat.
Proof.
  intro H. destruct (Nat.leb_spec (length (ptrim p)) n) as [|L]; [assumption|exfalso]. pose proof (ptrim_canonical K p) as C.
  apply C; [intro E; rewrite E in L; cbn in L; lia|]. rewrite last_nth, nth_ptrim. apply H. lia.
Qed.
(** ** linear factors *)
Lemma pmul_lin_S p b i : nth (S i) (pmul p [b; 1]) 0 = nth i p 0 + b * nth (S i) p 0.
Proof.
  revert i. induction p as [|a p IH]; intro i; [destruct i; cbn; ring|]. cbn [pmul]. rewrite nth_padd, nth_pscale. cbn [nth].
  destruct i as [|i]; cbn [nth].
  - destruct p as [|a' p]; cbn [pmul nth]; [ring|]. rewrite nth_padd, nth_pscale. cbn [nth]. ring.
  - rewrite (IH i). destruct i; cbn [nth]; ring.
Qed.
Lemma pmul_lin_0 p b : nth 0 (pmul p [b; 1]) 0 = b * nth 0 p 0.
Proof. destruct p as [|a p]; cbn [pmul]; [cbn; ring|]. rewrite nth_padd, nth_pscale. cbn [nth]. ring. Qed.
Lemma pmul_lin_ext p q b : (forall i, nth i p 0 = nth i q 0) -> forall i, nth i (pmul p [b; 1]) 0 = nth i (pmul q [b; 1]) 0.
Proof. intros H [|i]; rewrite ?pmul_lin_0, ?pmul_lin_S, ?H; reflexivity. Qed.
Lemma pmul_lin_comm p a b : forall i, nth i (pmul (pmul p [a; 1]) [b; 1]) 0 = nth i (pmul (pmul p [b; 1]) [a; 1]) 0.
Proof. intros [|[|i]]; rewrite ?pmul_lin_0, ?pmul_lin_S, ?pmul_lin_0, ?pmul_lin_S; ring. Qed.
Lemma pmul_lin_cancel p q b : (forall i, nth i (pmul p [b; 1]) 0 = nth i (pmul q [b; 1]) 0) -> forall i, nth i p 0 = nth i q 0.
Proof.
  intros H. set (n := Nat.max (length p) (length q)).
  assert (D : forall k i, (n <= i + k)%nat -> nth i p 0 = nth i q 0).
  { induction k as [|k IH]; intros i Hi.
    - rewrite !nth_over by (unfold n in Hi; lia). reflexivity.
    - specialize (H (S i)). rewrite !pmul_lin_S in H. rewrite (IH (S i)) in H by lia.
      transitivity (nth i p 0 + b * nth (S i) q 0 - b * nth (S i) q 0); [ring|]. rewrite H. ring. }
  intro i. apply (D n). lia.
Qed.
Lemma lin_poly_eq (omega : K) pt : lin_poly omega pt = [- (omega ^ pt); 1].
Proof. unfold lin_poly. apply ptrim_id. intros _. cbn. apply f_1_neq_0. Qed.
Lemma one_poly : ptrim [1] = [1].
Proof. apply ptrim_id. intros _. cbn. apply f_1_neq_0. Qed.
(** ** the root polynomial *)
Section R.
Variable omega : K.
Notation pw := (fun i : nat => omega ^ i).
Lemma root_snoc l pt i : nth i (root_poly omega (l ++ [pt])) 0 = nth i (pmul (root_poly omega l) [- (omega ^ pt); 1]) 0.
Proof. unfold root_poly. rewrite fold_left_app. cbn [fold_left]. rewrite nth_ptrim, lin_poly_eq. reflexivity. Qed.
Lemma root_move l1 pt l2 : forall i, nth i (root_poly omega (l1 ++ pt :: l2)) 0 = nth i (pmul (root_poly omega (l1 ++ l2)) [- (omega ^ pt); 1]) 0.
Proof.
  induction l2 as [|x l2 IH] using rev_ind; intro i.
  - rewrite app_nil_r. apply root_snoc.
  - change (pt :: l2 ++ [x]) with ((pt :: l2) ++ [x]). rewrite !app_assoc, root_snoc.
    rewrite (pmul_lin_ext _ _ _ IH). rewrite pmul_lin_comm. apply pmul_lin_ext. intro k. symmetry. apply root_snoc.
Qed.
Lemma root_shape l : exists p, root_poly omega l = p ++ [1] /\ length p = length l.
Proof.
  induction l as [|x l IH] using rev_ind.
  - exists []. unfold root_poly. cbn [fold_left]. rewrite one_poly. split; reflexivity.
  - destruct IH as (p & E & L). unfold root_poly. rewrite fold_left_app. cbn [fold_left]. change (fold_left _ l _) with (root_poly omega l).
    rewrite lin_poly_eq, E.
    assert (H : forall p : list K, exists q, pmul (p ++ [1]) [- omega ^ x; 1] = q ++ [1] /\ length q = S (length p)).
    { clear. induction p as [|a p (q & E & L)].
      - exists [- omega ^ x]. cbn [app pmul pscale map padd length]. split; [|reflexivity]. cbn [app]. f_equal; [ring|]. f_equal. ring.
      - change ((a :: p) ++ [1]) with (a :: (p ++ [1])). cbn [pmul]. rewrite E. destruct q as [|b q]; [cbn in L; lia|].
        cbn [pscale map padd app]. exists ((a * - omega ^ x + 0) :: (a * 1 + b) :: q). cbn [app length] in *. split; [|lia].
        destruct q; reflexivity. }
    destruct (H p) as (q & E2 & L2). rewrite E2. exists q. split.
    + apply ptrim_id. intros _. rewrite last_last. apply f_1_neq_0.
    + rewrite app_length. cbn [length]. lia.
Qed.
Lemma root_length l : length (root_poly omega l) = S (length l).
Proof. destruct (root_shape l) as (p & -> & L). rewrite app_length. cbn [length]. lia. Qed.
Lemma root_last l : last (root_poly omega l) 0 = 1.
Proof. destruct (root_shape l) as (p & -> & _). apply last_last. Qed.
Lemma root_nonnil l : root_poly omega l <> [].
Proof. intro E. pose proof (root_length l) as H. rewrite E in H. discriminate. Qed.
Lemma root_eval l t : peval (root_poly omega l) t = van (map pw l) t.
Proof.
  induction l as [|x l IH] using rev_ind.
  - unfold root_poly. cbn [fold_left]. rewrite one_poly. cbn. ring.
  - rewrite (nth_eq_peval K _ _ (root_snoc l x)), peval_pmul, IH. unfold van. rewrite map_app, map_app, fprod_app. cbn. ring.
Qed.
Lemma nonzero_ok p : last p 0 <> 0 -> forallb (fun c => feqb c 0) p = false.
Proof.
  intro H. destruct (forallb _ p) eqn:E; [exfalso|reflexivity]. apply forallb_zero in E. apply H. rewrite last_nth. apply (proj1 (zero_nth K p) E).
Qed.
(** Division of the root polynomial by one of its factors is exact. *)
Lemma pquot_root l1 pt l2 : exists q, pquot (root_poly omega (l1 ++ pt :: l2)) (lin_poly omega pt) = Ok q /\
  (length q <= S (length (l1 ++ l2)))%nat /\ forall t, peval q t = van (map pw (l1 ++ l2)) t.
Proof.
  set (A := root_poly omega (l1 ++ pt :: l2)). set (d := [- (omega ^ pt); 1] : list K).
  assert (Hl : last d 0 <> 0) by (cbn; apply f_1_neq_0). assert (Hd : d <> []) by discriminate.
  unfold pquot. rewrite lin_poly_eq. fold d. rewrite nonzero_ok by exact Hl. exists (ptrim (fst (pdivl d A))). split; [reflexivity|].
  pose proof (pdivl_length d A Hd) as [L1 L2]. pose proof (pdivl_coeff d A Hd Hl) as C.
  (* the remainder is the value at the root, which is zero *)
  assert (R0 : nth 0 (snd (pdivl d A)) 0 = 0).
  { pose proof (pdivl_eval d A Hd Hl (omega ^ pt)) as E. unfold A at 1 in E. rewrite root_eval in E.
    assert (V : van (map pw (l1 ++ pt :: l2)) (omega ^ pt) = 0). { unfold van. rewrite !map_app, fprod_app. cbn. ring. }
    rewrite V in E. destruct (snd (pdivl d A)) as [|r [|]]; [reflexivity| |discriminate]. unfold d in E at 2. cbn [nth peval] in *.
    transitivity (0 : K); [|reflexivity]. rewrite E. ring. }
  assert (Q : forall i, nth i (fst (pdivl d A)) 0 = nth i (root_poly omega (l1 ++ l2)) 0).
  { apply (pmul_lin_cancel _ _ (- (omega ^ pt))). intro i. rewrite <- root_move. fold A. rewrite C. fold d.
    assert (Z : nth i (snd (pdivl d A)) 0 = 0). { destruct i as [|i]; [exact R0|]. apply nth_over. rewrite L2. cbn [length d]. lia. }
    rewrite Z. ring. }
  split.
  - apply length_ptrim_le. intros i Hi. rewrite Q. apply nth_over. rewrite root_length. exact Hi.
  - intro t. rewrite peval_ptrim, (nth_eq_peval K _ _ Q), root_eval. reflexivity.
Qed.
End R.
(** ** interpolation *)
Lemma van_cons (x : K) xs t : van (x :: xs) t = (t - x) * van xs t.
Proof. reflexivity. Qed.
Lemma van_app (xs ys : list K) t : van (xs ++ ys) t = van xs t * van ys t.
Proof. unfold van. rewrite map_app. apply fprod_app. Qed.
Lemma van_root (xs : list K) x : In x xs -> van xs x = 0.
Proof. intro H. apply in_split in H. destruct H as (a & b & ->). rewrite van_app, van_cons. ring. Qed.
Lemma van_nz (xs : list K) t : ~ In t xs -> van xs t <> 0.
Proof.
  induction xs as [|x xs IH]; intro H; [cbn; apply f_1_neq_0|]. rewrite van_cons. apply f_mul_nz; [|apply IH; intro; apply H; right; assumption].
  intro E. apply H. left. transitivity (x + (t - x)); [rewrite E; ring|ring].
Qed.
Lemma others_id (x : K) xs : ~ In x xs -> others x xs = xs.
Proof.
  induction xs as [|y xs IH]; intro H; [reflexivity|]. unfold others in *. cbn [filter]. destruct (feqb_spec _ y x) as [->|N]; [exfalso; apply H; left; reflexivity|].
  cbn [negb]. f_equal. apply IH. intro; apply H; right; assumption.
Qed.
Lemma others_split (x : K) a b : NoDup (a ++ x :: b) -> others x (a ++ x :: b) = a ++ b.
Proof.
  intro N. apply NoDup_remove in N. destruct N as [_ N]. unfold others. rewrite filter_app. cbn [filter]. rewrite feqb_refl. cbn [negb].
  rewrite <- filter_app. apply others_id. exact N.
Qed.
Lemma lag_self (xs : list K) x : NoDup xs -> In x xs -> lag xs x x = 1.
Proof.
  intros N I. apply in_split in I. destruct I as (a & b & ->). unfold lag. rewrite others_split by exact N.
  apply NoDup_remove in N. destruct N as [_ N]. apply van_nz in N. field. exact N.
Qed.
Lemma lag_other (xs : list K) x y : NoDup xs -> In x xs -> In y xs -> y <> x -> lag xs x y = 0.
Proof.
  intros N I J D. apply in_split in I. destruct I as (a & b & ->). unfold lag. rewrite others_split by exact N.
  rewrite van_root. { pose proof (NoDup_remove_2 _ _ _ N) as N2. apply van_nz in N2. field. exact N2. }
  apply in_app_iff in J. apply in_app_iff. destruct J as [J|[J|J]]; [left; exact J|congruence|right; exact J].
Qed.
(** The interpolant as a polynomial. *)
Definition ipoly (xs : list K) (l : list (K * K)) : list K :=
  fold_right (fun '(x, v) p => padd (pscale (v * finv (van (others x xs) x)) (pvanish (others x xs))) p) [] l.
Lemma length_pvanish (xs : list K) : (length (pvanish xs) <= S (length xs))%nat.
Proof.
  unfold pvanish. induction xs as [|x xs IH]; cbn [fold_right length]; [lia|].
  match goal with |- (length (pmul ?a ?b) <= _)%nat => pose proof (length_pmul1 K a b) as P end.
  match type of P with ?H -> _ => assert H as Q end.
  { clear. induction xs as [|x xs IH]; cbn [fold_right]; [cbn; lia|]. cbn [pmul]. rewrite length_padd. cbn [length]. lia. }
  specialize (P Q). cbn [length] in P. lia.
Qed.
Lemma length_others (x : K) xs : NoDup xs -> In x xs -> S (length (others x xs)) = length xs.
Proof. intros N I. apply in_split in I. destruct I as (a & b & ->). rewrite others_split by exact N. rewrite !app_length. cbn [length]. lia. Qed.
Lemma ipoly_eval xs l t : peval (ipoly xs l) t = fsum (map (fun '(x, v) => v * lag xs x t) l).
Proof.
  induction l as [|[x v] l IH]; [reflexivity|]. cbn [ipoly fold_right map]. rewrite peval_padd, peval_pscale. fold (ipoly xs l). rewrite IH.
  unfold fsum. cbn [fold_right]. f_equal. rewrite peval_pvanish. unfold lag, van. rewrite (Fdiv_def (f_laws K)). ring.
Qed.
Lemma ipoly_length xs l : NoDup xs -> (forall x, In x (map fst l) -> In x xs) -> (length (ipoly xs l) <= length xs)%nat.
Proof.
  intros N. induction l as [|[x v] l IH]; intro H; [cbn; lia|]. cbn [ipoly fold_right]. rewrite length_padd, length_pscale. fold (ipoly xs l).
  pose proof (length_pvanish (others x xs)) as L. rewrite (length_others x xs N) in L by (apply H; left; reflexivity).
  specialize (IH (fun y I => H y (or_intror I))). lia.
Qed.
Lemma fsum_cons (x : K) l : fsum (x :: l) = x + fsum l. Proof. reflexivity. Qed.
(** Lagrange: a polynomial shorter than the list of points is its own interpolant. *)
Lemma lagrange (xs : list K) p t : NoDup xs -> (length p <= length xs)%nat -> peval p t = fsum (map (fun x => peval p x * lag xs x t) xs).
Proof.
  intros N L. set (l := map (fun x => (x, peval p x)) xs).
  assert (M : forall u, peval (ipoly xs l) u = fsum (map (fun x => peval p x * lag xs x u) xs)).
  { intro u. rewrite ipoly_eval. unfold l. rewrite map_map. reflexivity. }
  rewrite <- M. apply nth_eq_peval. apply (agree_eq K xs); auto.
  - apply ipoly_length; [exact N|]. unfold l. rewrite map_map. cbn [fst]. rewrite map_id. auto.
  - intros x I. rewrite M. symmetry. apply in_split in I. destruct I as (a & b & E). pose proof N as N'. rewrite E in N' at 1.
    apply NoDup_remove in N'. destruct N' as [_ N'].
    assert (Ix : In x xs) by (rewrite E; apply in_elt).
    assert (EE : forall ys, ys = a ++ x :: b -> fsum (map (fun y => peval p y * lag xs y x) ys) = peval p x); [|apply (EE xs E)].
    intros ys ->. rewrite map_app, fsum_app. cbn [map]. rewrite fsum_cons, lag_self by assumption.
    rewrite !fsum_map_0; [ring| |].
    + intros y I. rewrite (lag_other xs y x); [ring|exact N| | exact Ix|].
      * rewrite E. apply in_app_iff. right. right. exact I.
      * intros ->. apply N'. apply in_app_iff. right. exact I.
    + intros y I. rewrite (lag_other xs y x); [ring|exact N| | exact Ix|].
      * rewrite E. apply in_app_iff. left. exact I.
      * intros ->. apply N'. apply in_app_iff. left. exact I.
Qed.
Lemma combine_self {A B} (f : A -> B) l : combine l (map f l) = map (fun x => (x, f x)) l.
Proof. induction l as [|a l IH]; cbn; [reflexivity|]. rewrite IH. reflexivity. Qed.
Lemma interp_self (xs : list K) p t : NoDup xs -> (length p <= length xs)%nat -> interp_at xs (map (peval p) xs) t = peval p t.
Proof. intros N L. rewrite (lagrange xs p t N L). unfold interp_at. rewrite combine_self, map_map. reflexivity. Qed.
End P.
