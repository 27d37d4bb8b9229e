(** Finite sums, coefficient-list polynomials (lowest degree first), roots, evaluation domains. *)
From Verif Require Import Field.
Local Open Scope fld_scope.

Section Sums.
Variable K : Fld.
Add Field KfS : (f_laws K).
Fixpoint sumn (n : nat) (f : nat -> K) : K := match n with O => 0 | S m => sumn m f + f m end.
Definition of_nat (n : nat) : K := of_Z (Z.of_nat n).
Lemma sumn_ext n f g : (forall i, (i < n)%nat -> f i = g i) -> sumn n f = sumn n g.
Proof. induction n as [|n IH]; intro H; [reflexivity|]. cbn [sumn]. rewrite IH by (intros; apply H; lia). rewrite H by lia. reflexivity. Qed.
Lemma sumn_0 n f : (forall i, (i < n)%nat -> f i = 0) -> sumn n f = 0.
Proof. induction n as [|n IH]; intro H; [reflexivity|]. cbn [sumn]. rewrite IH by (intros; apply H; lia). rewrite H by lia. ring. Qed.
Lemma sumn_add n f g : sumn n (fun i => f i + g i) = sumn n f + sumn n g.
Proof. induction n as [|n IH]; cbn [sumn]; [ring|]. rewrite IH. ring. Qed.
Lemma sumn_sub n f g : sumn n (fun i => f i - g i) = sumn n f - sumn n g.
Proof. induction n as [|n IH]; cbn [sumn]; [ring|]. rewrite IH. ring. Qed.
Lemma sumn_mul_l n c f : sumn n (fun i => c * f i) = c * sumn n f.
Proof. induction n as [|n IH]; cbn [sumn]; [ring|]. rewrite IH. ring. Qed.
Lemma sumn_mul_r n c f : sumn n (fun i => f i * c) = sumn n f * c.
Proof. induction n as [|n IH]; cbn [sumn]; [ring|]. rewrite IH. ring. Qed.
Lemma sumn_swap n m f : sumn n (fun i => sumn m (fun j => f i j)) = sumn m (fun j => sumn n (fun i => f i j)).
Proof.
  induction n as [|n IH]; cbn [sumn]; [symmetry; apply sumn_0; reflexivity|]. rewrite IH, <- sumn_add. reflexivity.
Qed.
Lemma sumn_app n m f : sumn (n + m) f = sumn n f + sumn m (fun i => f (n + i)%nat).
Proof.
  induction m as [|m IH]; [rewrite Nat.add_0_r; cbn [sumn]; ring|]. rewrite Nat.add_succ_r. cbn [sumn]. rewrite IH. ring.
Qed.
Lemma sumn_S n f : sumn (S n) f = f 0%nat + sumn n (fun i => f (S i)).
Proof. change (S n) with (1 + n)%nat. rewrite sumn_app. cbn [sumn Nat.add]. ring. Qed.
Lemma sumn_one n f j : (j < n)%nat -> (forall i, (i < n)%nat -> i <> j -> f i = 0) -> sumn n f = f j.
Proof.
  induction n as [|n IH]; intros Hj H; [lia|]. cbn [sumn]. destruct (Nat.eq_dec j n) as [->|N].
  - rewrite sumn_0 by (intros; apply H; lia). ring.
  - rewrite IH by (try lia; intros; apply H; lia). rewrite (H n) by lia. ring.
Qed.
Lemma sumn_trunc n m f : (n <= m)%nat -> (forall i, (n <= i < m)%nat -> f i = 0) -> sumn m f = sumn n f.
Proof.
  intros L H. replace m with (n + (m - n))%nat by lia. rewrite sumn_app, (sumn_0 (m - n)); [ring|]. intros i Hi. apply H. lia.
Qed.
Lemma sumn_fsum n f : sumn n f = fsum (map f (seq 0 n)).
Proof. induction n as [|n IH]; [reflexivity|]. rewrite seq_S, map_app, fsum_app. cbn [sumn map fsum Nat.add]. rewrite IH. ring. Qed.
Lemma sumn_const n c : sumn n (fun _ => c) = of_nat n * c.
Proof.
  induction n as [|n IH]; [unfold of_nat; cbn; ring|]. cbn [sumn]. rewrite IH. unfold of_nat. rewrite Nat2Z.inj_succ. unfold Z.succ. rewrite of_Z_add.
  change (of_Z 1) with (1 : K). ring.
Qed.
Lemma dot_sumn (a b : list K) : dot a b = sumn (length a) (fun i => nth i a 0 * nth i b 0).
Proof.
  revert b. induction a as [|x a IH]; intro b; [reflexivity|]. destruct b as [|y b].
  - cbn [dot]. symmetry. apply sumn_0. intros i _. destruct i; cbn [nth]; ring.
  - cbn [dot length]. rewrite sumn_S, IH. reflexivity.
Qed.
Lemma geom n (x : K) : (x - 1) * sumn n (fun i => x ^ i) = x ^ n - 1.
Proof. induction n as [|n IH]; [cbn; ring|]. cbn [sumn fpow]. replace ((x - 1) * (sumn n (fun i => x ^ i) + x ^ n)) with ((x - 1) * sumn n (fun i => x ^ i) + (x - 1) * x ^ n) by ring. rewrite IH. ring. Qed.
End Sums.
Arguments sumn {K}. Arguments of_nat {K}.

Section Poly.
Variable K : Fld.
Add Field KfP : (f_laws K).
Definition poly := list K.
Implicit Types p q : list K.
Fixpoint peval p (x : K) : K := match p with [] => 0 | c :: r => c + x * peval r x end.
Fixpoint padd p q : list K := match p, q with [], _ => q | _, [] => p | a :: p', b :: q' => (a + b) :: padd p' q' end.
Definition pscale (c : K) p : list K := map (fmul c) p.
Definition popp p : list K := map fopp p.
Definition psub p q : list K := padd p (popp q).
Fixpoint pmul p q : list K := match p with [] => [] | a :: p' => padd (pscale a q) (0 :: pmul p' q) end.
Definition is_zero p : Prop := Forall (fun c => c = 0) p.

Lemma peval_padd p : forall q x, peval (padd p q) x = peval p x + peval q x.
Proof. induction p as [|a p IH]; intros [|b q] x; cbn [padd peval]; try ring. rewrite IH. ring. Qed.
Lemma peval_pscale c p x : peval (pscale c p) x = c * peval p x.
Proof. induction p as [|a p IH]; cbn [pscale map peval]; [ring|]. fold (pscale c p). rewrite IH. ring. Qed.
Lemma peval_popp p x : peval (popp p) x = - peval p x.
Proof. induction p as [|a p IH]; cbn [popp map peval]; [ring|]. fold (popp p). rewrite IH. ring. Qed.
Lemma peval_psub p q x : peval (psub p q) x = peval p x - peval q x.
Proof. unfold psub. rewrite peval_padd, peval_popp. ring. Qed.
Lemma peval_pmul p q x : peval (pmul p q) x = peval p x * peval q x.
Proof. induction p as [|a p IH]; cbn [pmul peval]; [ring|]. rewrite peval_padd, peval_pscale. cbn [peval]. rewrite IH. ring. Qed.
Lemma peval_app p q x : peval (p ++ q) x = peval p x + x ^ length p * peval q x.
Proof. induction p as [|a p IH]; cbn [app peval length fpow]; [ring|]. rewrite IH. ring. Qed.
Lemma peval_zero p x : is_zero p -> peval p x = 0.
Proof. induction 1 as [|c p Hc H IH]; [reflexivity|]. cbn [peval]. rewrite Hc, IH. ring. Qed.
Lemma peval_repeat0 n x : peval (repeat 0 n) x = 0.
Proof. apply peval_zero. apply Forall_forall. intros c Hc. apply repeat_spec in Hc. exact Hc. Qed.
Lemma peval_sum p x : peval p x = sumn (length p) (fun i => nth i p 0 * x ^ i).
Proof.
  induction p as [|c p IH]; [reflexivity|]. cbn [peval length]. rewrite sumn_S, IH. cbn [nth fpow].
  rewrite <- sumn_mul_l. replace (c * 1) with c by ring. f_equal. apply sumn_ext. intros i _. ring.
Qed.
Lemma peval_map_seq n (f : nat -> K) x : peval (map f (seq 0 n)) x = sumn n (fun i => f i * x ^ i).
Proof.
  rewrite peval_sum, map_length, seq_length. apply sumn_ext. intros i Hi. rewrite (nth_indep _ _ (f 0%nat)) by (rewrite map_length, seq_length; exact Hi).
  rewrite map_nth, seq_nth by exact Hi. reflexivity.
Qed.
Lemma length_padd p : forall q, length (padd p q) = Nat.max (length p) (length q).
Proof. induction p as [|a p IH]; intros [|b q]; cbn [padd length Nat.max]; try reflexivity. rewrite IH. reflexivity. Qed.
Lemma length_pscale c p : length (pscale c p) = length p. Proof. apply map_length. Qed.
Lemma length_popp p : length (popp p) = length p. Proof. apply map_length. Qed.
Lemma length_psub p q : length (psub p q) = Nat.max (length p) (length q).
Proof. unfold psub. rewrite length_padd, length_popp. reflexivity. Qed.
Lemma length_pmul p q : (length (pmul p q) <= length p + length q)%nat.
Proof. induction p as [|a p IH]; cbn [pmul length]; [lia|]. rewrite length_padd, length_pscale. cbn [length]. lia. Qed.
Lemma length_pmul1 p q : (0 < length q)%nat -> (length (pmul p q) <= length p + length q - 1)%nat.
Proof.
  intro Hq. induction p as [|a p IH]; cbn [pmul length]; [lia|]. rewrite length_padd, length_pscale. cbn [length].
  destruct p; cbn [length pmul] in *; lia.
Qed.
Lemma nth_padd p : forall q i, nth i (padd p q) 0 = nth i p 0 + nth i q 0.
Proof. induction p as [|a p IH]; intros [|b q] [|i]; cbn [padd nth]; try ring; apply IH. Qed.
Lemma nth_pscale c p i : nth i (pscale c p) 0 = c * nth i p 0.
Proof. revert i. induction p as [|a p IH]; intros [|i]; cbn [pscale map nth]; try ring; apply IH. Qed.
Lemma nth_popp p i : nth i (popp p) 0 = - nth i p 0.
Proof. revert i. induction p as [|a p IH]; intros [|i]; cbn [popp map nth]; try ring; apply IH. Qed.
Lemma nth_psub p q i : nth i (psub p q) 0 = nth i p 0 - nth i q 0.
Proof. unfold psub. rewrite nth_padd, nth_popp. ring. Qed.
Lemma zero_nth p : is_zero p <-> forall i, nth i p 0 = 0.
Proof.
  split.
  - intro H. induction H as [|c p Hc H IH]; intros [|i]; cbn [nth]; auto.
  - induction p as [|c p IH]; intro H; constructor; [apply (H 0%nat)|]. apply IH. intro i. apply (H (S i)).
Qed.

(** Division by X - a. *)
Fixpoint pdivx (a : K) p : list K * K :=
  match p with
  | [] => ([], 0)
  | c :: r => match r with [] => ([], c) | _ => let '(q, v) := pdivx a r in (v :: q, c + a * v) end
  end.
Lemma pdivx_ok a p : let '(q, v) := pdivx a p in length q = (length p - 1)%nat /\ v = peval p a /\
  forall x, peval p x = (x - a) * peval q x + v.
Proof.
  induction p as [|c p IH]; cbn [pdivx]; [repeat split; intros; cbn; ring|].
  destruct p as [|d p]; [repeat split; intros; cbn; ring|].
  set (r := d :: p) in *. destruct (pdivx a r) as [q v]. destruct IH as (L & V & E). split; [cbn [length]; rewrite L; unfold r; cbn [length]; lia|]. split.
  - cbn [peval]. fold r. rewrite <- V. reflexivity.
  - intro x. cbn [peval]. rewrite (E x). ring.
Qed.

Lemma pdivx_zero a p : is_zero (fst (pdivx a p)) -> snd (pdivx a p) = 0 -> is_zero p.
Proof.
  induction p as [|c p IH]; intros Z V; [constructor|]. cbn [pdivx] in Z, V. destruct p as [|d p].
  - constructor; [exact V|constructor].
  - set (r := d :: p) in *. destruct (pdivx a r) as [q v]. cbn [fst snd] in *. inversion Z as [|? ? Hv Zq]; subst.
    constructor; [|apply IH; auto]. transitivity (c + a * 0); [ring|exact V].
Qed.
(** A coefficient list vanishing at as many distinct points as its length is zero. *)
Theorem roots_zero xs : NoDup xs -> forall p, (length p <= length xs)%nat -> (forall x, In x xs -> peval p x = 0) -> is_zero p.
Proof.
  induction xs as [|a xs IH]; intros N p L R.
  - destruct p; [constructor|cbn in L; lia].
  - inversion N as [|? ? Na N']; subst. apply (pdivx_zero a).
    + pose proof (pdivx_ok a p) as D. destruct (pdivx a p) as [q v]. destruct D as (Lq & V & E). cbn [fst].
      assert (v = 0) as Vz by (rewrite V; apply R; left; reflexivity).
      apply IH; [exact N'|rewrite Lq; cbn [length] in *; lia|]. intros x Hx. specialize (R x (or_intror Hx)). rewrite E, Vz in R.
      replace ((x - a) * peval q x + 0) with ((x - a) * peval q x) in R by ring. apply f_integral in R. destruct R as [R|R]; [|exact R].
      apply (proj1 (fsub_0 K _ _)) in R. destruct Na. rewrite <- R. exact Hx.
    + pose proof (pdivx_ok a p) as D. destruct (pdivx a p) as [q v]. destruct D as (_ & V & _). cbn [snd]. rewrite V. apply R. left. reflexivity.
Qed.
Lemma agree_eq xs p q : NoDup xs -> (length p <= length xs)%nat -> (length q <= length xs)%nat -> (forall x, In x xs -> peval p x = peval q x) ->
  forall i, nth i p 0 = nth i q 0.
Proof.
  intros N Lp Lq H i. apply fsub_0. rewrite <- nth_psub. revert i. apply zero_nth, (roots_zero xs N).
  - rewrite length_psub. lia.
  - intros x Hx. rewrite peval_psub, H by exact Hx. ring.
Qed.
Lemma nth_eq_peval p q : (forall i, nth i p 0 = nth i q 0) -> forall x, peval p x = peval q x.
Proof.
  intros H x. apply fsub_0. rewrite <- peval_psub. apply peval_zero, zero_nth. intro i. rewrite nth_psub, H. ring.
Qed.
(** Division by X^m - 1 of something of length at most 2m. *)
Definition pdivz (m : nat) p : list K * list K := (skipn m p, padd (firstn m p) (skipn m p)).
Lemma pdivz_ok m p x : let '(q, r) := pdivz m p in peval p x = (x ^ m - 1) * peval q x + peval r x.
Proof.
  unfold pdivz. rewrite peval_padd. rewrite <- (firstn_skipn m p) at 1. rewrite peval_app, firstn_length.
  destruct (Nat.le_gt_cases m (length p)) as [H|H].
  - rewrite Nat.min_l by exact H. ring.
  - rewrite (skipn_all2 p) by lia. cbn [peval]. ring.
Qed.
(** The product of X - a over a list. *)
Definition pvanish (xs : list K) : list K := fold_right (fun a p => pmul [- a; 1] p) [1] xs.
Lemma peval_pvanish xs x : peval (pvanish xs) x = fprod (map (fun a => x - a) xs).
Proof. induction xs as [|a xs IH]; [cbn; ring|]. unfold pvanish in *. cbn [fold_right map fprod]. rewrite peval_pmul, IH. cbn [peval]. ring. Qed.
End Poly.
Arguments peval {K}. Arguments padd {K}. Arguments pscale {K}. Arguments popp {K}. Arguments psub {K}. Arguments pmul {K}. Arguments is_zero {K}.
Arguments pdivx {K}. Arguments pdivz {K}. Arguments pvanish {K}.

(** ** Evaluation domains: the powers of an element of multiplicative order [dsize]. *)
Record dom (K : Fld) := mkDom { dsize : nat; dgen : K; dshift : K }.
Arguments mkDom {K}. Arguments dsize {K}. Arguments dgen {K}. Arguments dshift {K}.
Section Dom.
Variable K : Fld.
Add Field KfD : (f_laws K).
Definition dpts (d : dom K) : list K := map (fun i => dgen d ^ i) (seq 0 (dsize d)).
(** What the library's domains guarantee; [dshift] is the coset shift (a multiplicative generator). *)
Definition valid_dom (d : dom K) : Prop :=
  (0 < dsize d)%nat /\ dgen d ^ dsize d = 1 /\ NoDup (dpts d) /\ @of_nat K (dsize d) <> 0 /\ dshift d <> 0 /\ dshift d ^ dsize d <> 1.
Definition dft (d : dom K) (p : list K) : list K := map (peval p) (dpts d).
Definition idft (d : dom K) (v : list K) : list K :=
  map (fun j => finv (of_nat (dsize d)) * sumn (dsize d) (fun i => nth i v 0 * finv (dgen d) ^ (i * j))) (seq 0 (dsize d)).
Lemma length_dpts d : length (dpts d) = dsize d. Proof. unfold dpts. rewrite map_length, seq_length. reflexivity. Qed.
Lemma length_idft d v : length (idft d v) = dsize d. Proof. unfold idft. rewrite map_length, seq_length. reflexivity. Qed.
Lemma length_dft d v : length (dft d v) = dsize d. Proof. unfold dft. rewrite map_length, length_dpts. reflexivity. Qed.
Lemma nth_dpts d i : (i < dsize d)%nat -> nth i (dpts d) 0 = dgen d ^ i.
Proof.
  intro H. unfold dpts. rewrite (nth_indep _ _ (dgen d ^ 0)) by (rewrite map_length, seq_length; exact H).
  rewrite (map_nth (fun i => dgen d ^ i)), seq_nth by exact H. reflexivity.
Qed.
Section V.
Variable d : dom K.
Hypothesis V : valid_dom d.
Let m := dsize d.
Let w := dgen d.
Lemma w_nz : w <> 0.
Proof.
  destruct V as (Hm & H1 & _). intro E. fold w in H1. rewrite E in H1. fold m in H1, Hm. destruct m; [lia|]. cbn in H1. apply (f_1_neq_0 K). rewrite <- H1. ring.
Qed.
Lemma pow_inj i j : (i < m)%nat -> (j < m)%nat -> w ^ i = w ^ j -> i = j.
Proof.
  intros Hi Hj E. destruct V as (_ & _ & N & _). apply (proj1 (NoDup_nth (dpts d) 0)) with (i := i) (j := j) in N; rewrite ?length_dpts; auto.
  rewrite !nth_dpts by assumption. exact E.
Qed.
Lemma in_dpts x : In x (dpts d) -> x ^ m = 1.
Proof.
  intro H. unfold dpts in H. apply in_map_iff in H. destruct H as (i & <- & _). rewrite <- fpow_mul, Nat.mul_comm, fpow_mul.
  destruct V as (_ & E & _). fold m in E. fold w in E. fold w. rewrite E. apply fpow_1.
Qed.
Lemma dpts_iff x : In x (dpts d) <-> x ^ m = 1.
Proof.
  split; [apply in_dpts|]. intro E. destruct (in_dec (feq_dec K) x (dpts d)) as [I|I]; [exact I|exfalso].
  (* X^m - 1 would have m + 1 roots *)
  assert (NoDup (x :: dpts d)) as N by (constructor; [exact I|apply V]).
  pose proof (roots_zero K (x :: dpts d) N ((- (1)) :: repeat 0 (m - 1) ++ [1])) as R. destruct V as (Hm & _). fold m in Hm.
  assert (forall y : K, peval ((- (1)) :: repeat 0 (m - 1) ++ [1]) y = y ^ m - 1) as P.
  { intro y. cbn [peval]. rewrite peval_app, peval_repeat0, repeat_length. cbn [peval]. replace m with (S (m - 1)) at 2 by lia. cbn [fpow]. ring. }
  assert (is_zero ((- (1)) :: repeat 0 (m - 1) ++ [1 : K])) as Z.
  { apply R.
    - cbn [length]. rewrite app_length, repeat_length, length_dpts. cbn [length]. fold m. lia.
    - intros y [<-|Hy]; rewrite P; [rewrite E|rewrite in_dpts by exact Hy]; ring. }
  inversion Z as [|? ? Z1 _]; subst. apply (f_1_neq_0 K). transitivity (- (- (1) : K)); [ring|]. rewrite Z1. ring.
Qed.
Lemma winv i : finv w ^ i * w ^ i = 1.
Proof. rewrite <- fpow_mul_base, finv_l by exact w_nz. apply fpow_1. Qed.
(** Evaluation of an inverse transform anywhere, as one sum over the domain. *)
Lemma idft_eval v x : peval (idft d v) x = finv (of_nat m) * sumn m (fun k => nth k v 0 * sumn m (fun j => (x * finv w ^ k) ^ j)).
Proof.
  unfold idft. fold m. fold w. rewrite peval_map_seq.
  transitivity (finv (of_nat m) * sumn m (fun j => sumn m (fun k => nth k v 0 * (x * finv w ^ k) ^ j))).
  - rewrite <- sumn_mul_l. apply sumn_ext. intros j _. match goal with |- _ * ?a * ?b = _ * ?c => transitivity (finv (of_nat m) * (a * b)); [ring|]; f_equal end.
    rewrite <- sumn_mul_r. apply sumn_ext. intros k _. rewrite fpow_mul_base, fpow_mul. ring.
  - f_equal. rewrite sumn_swap. apply sumn_ext. intros k _. apply sumn_mul_l.
Qed.
Lemma idft_dom v i : (i < m)%nat -> peval (idft d v) (w ^ i) = nth i v 0.
Proof.
  intro Hi. rewrite idft_eval. rewrite (sumn_one K m _ i Hi).
  - rewrite (sumn_ext K m _ (fun _ => 1)).
    + rewrite sumn_const. destruct V as (_ & _ & _ & Hn & _). fold m in Hn. field. exact Hn.
    + intros j _. replace (w ^ i * finv w ^ i) with (finv w ^ i * w ^ i) by ring. rewrite winv. apply fpow_1.
  - intros k Hk N. pose proof (geom K m (w ^ i * finv w ^ k)) as G.
    assert ((w ^ i * finv w ^ k) ^ m = 1) as E1.
    { rewrite fpow_mul_base, <- !fpow_mul, (Nat.mul_comm i), (Nat.mul_comm k), !fpow_mul. destruct V as (_ & E & _). fold m in E. fold w in E. rewrite E.
      assert (finv w ^ m = 1) as ->. { transitivity (finv w ^ m * w ^ m); [rewrite E; ring|apply winv]. } rewrite !fpow_1. ring. }
    rewrite E1 in G. replace (1 - 1 : K) with (0 : K) in G by ring. apply f_integral in G. destruct G as [G|G]; [|rewrite G; ring].
    exfalso. apply N. apply (proj1 (fsub_0 K _ _)) in G. symmetry. apply pow_inj; [exact Hi|exact Hk|]. transitivity (w ^ i * finv w ^ k * w ^ k); [|rewrite G; ring].
    replace (w ^ i * finv w ^ k * w ^ k) with (w ^ i * (finv w ^ k * w ^ k)) by ring. rewrite winv. ring.
Qed.
Lemma dft_idft v : length v = m -> dft d (idft d v) = v.
Proof.
  intro L. apply nth_ext with (d := 0) (d' := 0); [rewrite length_dft; auto|]. intros i Hi. rewrite length_dft in Hi. unfold dft.
  rewrite (nth_indep _ _ (peval (idft d v) 0)) by (rewrite map_length, length_dpts; exact Hi). rewrite map_nth, nth_dpts by exact Hi. apply idft_dom, Hi.
Qed.
Lemma idft_dft p : (length p <= m)%nat -> forall i, nth i (idft d (dft d p)) 0 = nth i p 0.
Proof.
  intros L. apply (agree_eq K (dpts d)); [apply V|rewrite length_idft, length_dpts; lia|rewrite length_dpts; exact L|].
  intros x Hx. apply in_map_iff in Hx. destruct Hx as (i & <- & Hi). apply in_seq in Hi. change (peval (idft d (dft d p)) (w ^ i) = peval p (w ^ i)). rewrite idft_dom by (fold m in Hi; lia). unfold dft.
  rewrite (nth_indep _ _ (peval p 0)) by (rewrite map_length, length_dpts; lia). rewrite map_nth, nth_dpts by lia. reflexivity.
Qed.
(** Lagrange coefficients: value at [t] of the polynomials that are 1 at one domain point. *)
Lemma lagrange_eval v t : t ^ m <> 1 -> peval (idft d v) t = sumn m (fun i => nth i v 0 * ((t ^ m - 1) * w ^ i / (of_nat m * (t - w ^ i)))).
Proof.
  intro Ht. rewrite idft_eval, <- sumn_mul_l. apply sumn_ext. intros i Hi.
  pose proof (geom K m (t * finv w ^ i)) as G. assert ((t * finv w ^ i) ^ m = t ^ m) as E1.
  { rewrite fpow_mul_base, <- fpow_mul, Nat.mul_comm, fpow_mul. destruct V as (_ & E & _). fold m in E. fold w in E.
    assert (finv w ^ m = 1) as ->. { transitivity (finv w ^ m * w ^ m); [rewrite E; ring|apply winv]. } rewrite fpow_1. ring. }
  rewrite E1 in G. set (S := sumn m _) in *. pose proof (winv i) as Wi.
  assert (t - w ^ i <> 0) as N. { intro Z. apply (proj1 (fsub_0 K _ _)) in Z. apply Ht. rewrite Z. apply in_dpts. unfold dpts. apply in_map_iff. exists i. split; [reflexivity|]. apply in_seq. fold m. lia. }
  assert ((t - w ^ i) * S = (t ^ m - 1) * w ^ i) as Q.
  { rewrite <- G. transitivity ((t * (finv w ^ i * w ^ i) - w ^ i) * S); [rewrite Wi; ring|ring]. }
  rewrite <- Q. destruct V as (_ & _ & _ & Hn & _). fold m in Hn. field. split; assumption.
Qed.
End V.
(** Transforms on the coset [dshift * domain]. *)
Definition shift_coeffs (g : K) (p : list K) : list K := map (fun i => nth i p 0 * g ^ i) (seq 0 (length p)).
Lemma length_shift g p : length (shift_coeffs g p) = length p.
Proof. unfold shift_coeffs. rewrite map_length, seq_length. reflexivity. Qed.
Lemma nth_shift g p i : nth i (shift_coeffs g p) 0 = nth i p 0 * g ^ i.
Proof.
  unfold shift_coeffs. destruct (Nat.lt_ge_cases i (length p)) as [H|H].
  - rewrite (nth_indep _ _ ((fun i => nth i p 0 * g ^ i) 0%nat)) by (rewrite map_length, seq_length; exact H).
    rewrite (map_nth (fun i => nth i p 0 * g ^ i)), seq_nth by exact H. reflexivity.
  - rewrite !nth_overflow; [ring|exact H|]. rewrite map_length, seq_length. lia.
Qed.
Lemma peval_shift g p x : peval (shift_coeffs g p) x = peval p (g * x).
Proof. rewrite !peval_sum, length_shift. apply sumn_ext. intros i _. rewrite nth_shift, fpow_mul_base. ring. Qed.
Definition coset_dft (d : dom K) (p : list K) : list K := dft d (shift_coeffs (dshift d) p).
Definition coset_idft (d : dom K) (v : list K) : list K := shift_coeffs (finv (dshift d)) (idft d v).
Lemma coset_roundtrip d p : valid_dom d -> (length p <= dsize d)%nat -> forall i, nth i (coset_idft d (coset_dft d p)) 0 = nth i p 0.
Proof.
  intros V L i. unfold coset_idft, coset_dft. rewrite nth_shift, idft_dft by (try exact V; rewrite length_shift; exact L). rewrite nth_shift.
  destruct V as (_ & _ & _ & _ & Hg & _). transitivity (nth i p 0 * (finv (dshift d) ^ i * dshift d ^ i)); [ring|]. rewrite <- fpow_mul_base, finv_l by exact Hg. rewrite fpow_1. ring.
Qed.
Lemma nth_coset_dft d p i : (i < dsize d)%nat -> nth i (coset_dft d p) 0 = peval p (dshift d * dgen d ^ i).
Proof.
  intro Hi. unfold coset_dft, dft. rewrite (nth_indep _ _ (peval (shift_coeffs (dshift d) p) 0)) by (rewrite map_length, length_dpts; exact Hi).
  rewrite map_nth, nth_dpts by exact Hi. apply peval_shift.
Qed.
Lemma coset_vanish d i : valid_dom d -> (dshift d * dgen d ^ i) ^ dsize d = dshift d ^ dsize d.
Proof.
  intros (_ & E & _). rewrite fpow_mul_base, <- fpow_mul, Nat.mul_comm, fpow_mul, E, fpow_1. ring.
Qed.
End Dom.
Arguments dpts {K}. Arguments valid_dom {K}. Arguments dft {K}. Arguments idft {K}. Arguments coset_dft {K}. Arguments coset_idft {K}. Arguments shift_coeffs {K}.
