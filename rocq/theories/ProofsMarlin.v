(** Marlin: polynomial lemmas, the rounds, completeness of the algebraic protocol. *)
From Verif Require Import ModelMarlin SpecLC SpecCS SpecMarlin SpecPC ProofsPC ProofsMarlinCS.
From Verif Require Import ModelCS.
Local Open Scope fld_scope.
Section P.
Variable K : Fld.
Add Field Kfm2 : (f_laws K).
Implicit Types p q : list K.
Notation trim := (trim K).
Lemma peval_trim p x : peval (trim p) x = peval p x. Proof. apply peval_ptrim. Qed.
Lemma length_trim p : (length (trim p) <= length p)%nat. Proof. apply length_ptrim. Qed.
Lemma nth_trim p i : nth i (trim p) 0 = nth i p 0. Proof. apply nth_ptrim. Qed.
Lemma canonical_nth p : canonical p -> forall n, (length p <= S n)%nat -> nth n p 0 <> 0 -> length p = S n.
Proof. intros _ n L N. destruct (Nat.lt_ge_cases n (length p)) as [H|H]; [lia|]. rewrite nth_overflow in N by exact H. contradiction. Qed.
(** Division by X^m - 1. *)
Lemma pdivv_n_ok m : (0 < m)%nat -> forall f p, (length p <= f)%nat -> let '(q, r) := pdivv_n K f m p in
  (length r <= m)%nat /\ (length q <= length p - m)%nat /\ forall x, peval p x = (x ^ m - 1) * peval q x + peval r x.
Proof.
  intros Hm f. induction f as [|f IH]; intros p L; cbn [pdivv_n].
  - split; [lia|]. split; [cbn; lia|]. intro x. cbn [peval]. ring.
  - destruct (Nat.leb_spec (length p) m) as [H|H]; [split; [exact H|split; [cbn; lia|intro x; cbn [peval]; ring]]|].
    specialize (IH (skipn m p)). rewrite skipn_length in IH. specialize (IH ltac:(lia)). destruct (pdivv_n K f m (skipn m p)) as (q, r) eqn:E. destruct IH as (L1 & L2 & IH).
    rewrite !length_padd, skipn_length, firstn_length. split; [lia|]. split; [lia|]. intro x. rewrite !peval_padd. specialize (IH x).
    transitivity (peval (firstn m p ++ skipn m p) x); [rewrite firstn_skipn; reflexivity|]. rewrite peval_app, firstn_length, Nat.min_l by lia. rewrite IH. ring.
Qed.
Lemma pdivv_ok m p : (0 < m)%nat -> let '(q, r) := pdivv K m p in canonical q /\ canonical r /\
  (length r <= m)%nat /\ (length q <= length p - m)%nat /\ forall x, peval p x = (x ^ m - 1) * peval q x + peval r x.
Proof.
  intro Hm. unfold pdivv. pose proof (pdivv_n_ok m Hm (length p) p (Nat.le_refl _)) as H. destruct (pdivv_n K (length p) m p) as (q, r). destruct H as (H1 & H2 & H3).
  split; [apply ptrim_canonical|]. split; [apply ptrim_canonical|]. pose proof (length_trim q). pose proof (length_trim r). split; [lia|]. split; [lia|]. intro x. rewrite !peval_trim. apply H3.
Qed.
(** Sums over a domain. *)
Section D.
Variable d : dom K.
Hypothesis V : valid_dom d.
Notation n := (dsize d).
Notation w := (dgen d).
Lemma dpos : (0 < n)%nat. Proof. apply V. Qed.
Lemma nnz : @of_nat K n <> 0. Proof. apply V. Qed.
Lemma w_pow i : (w ^ i) ^ n = 1.
Proof. destruct V as (_ & E & _). rewrite <- fpow_mul, Nat.mul_comm, fpow_mul, E. apply fpow_1. Qed.
Lemma const_coeff (r : list K) : (length r <= n)%nat -> nth 0 r 0 = finv (of_nat n) * sumn n (fun i => peval r (w ^ i)).
Proof.
  intro L. pose proof dpos as Hn. rewrite <- (idft_dft K d V r L 0). unfold idft. rewrite (nth_indep _ _ ((fun j => finv (of_nat n) * sumn n (fun i => nth i (dft d r) 0 * finv w ^ (i * j))) 0%nat)) by (rewrite map_length, seq_length; exact Hn).
  rewrite (map_nth (fun j => finv (of_nat n) * sumn n (fun i => nth i (dft d r) 0 * finv w ^ (i * j)))), seq_nth by exact Hn. f_equal. apply sumn_ext. intros i Hi. rewrite Nat.add_0_l, Nat.mul_0_r. cbn [fpow].
  unfold dft. rewrite (nth_indep _ _ (peval r 0)) by (rewrite map_length, length_dpts; exact Hi). rewrite map_nth, nth_dpts by exact Hi. ring.
Qed.
(** The remainder of a polynomial modulo X^n - 1 has constant term the average of the values on the domain. *)
Lemma rem_const p : nth 0 (snd (pdivv K n p)) 0 = finv (of_nat n) * sumn n (fun i => peval p (w ^ i)).
Proof.
  pose proof (pdivv_ok n p dpos) as H. destruct (pdivv K n p) as (q, r). destruct H as (_ & _ & L & _ & E). cbn [snd]. rewrite (const_coeff r L). f_equal. apply sumn_ext. intros i _. rewrite E, w_pow. ring.
Qed.
Lemma rem_zero p : (forall i, (i < n)%nat -> peval p (w ^ i) = 0) -> snd (pdivv K n p) = [].
Proof.
  intro H. pose proof (pdivv_ok n p dpos) as E. destruct (pdivv K n p) as (q, r). destruct E as (_ & Cr & L & _ & E). cbn [snd].
  assert (is_zero r) as Z.
  { apply (roots_zero K (dpts d)); [apply V|rewrite length_dpts; exact L|]. intros y Hy. unfold dpts in Hy. apply in_map_iff in Hy. destruct Hy as (i & <- & Hi). apply in_seq in Hi. specialize (E (w ^ i)). rewrite w_pow, H in E by lia.
    transitivity (0 : K); [rewrite E; ring|reflexivity]. }
  destruct r as [|c r]; [reflexivity|]. exfalso. apply (Cr ltac:(discriminate)). rewrite (zero_nth K) in Z. rewrite <- (Z (length r)). clear. revert c. induction r as [|e r IH]; intro c; [reflexivity|]. change (last (c :: e :: r) 0) with (last (e :: r) 0). cbn [length nth]. apply IH.
Qed.
(** Interpolation is exact for polynomials that fit. *)
Lemma interp_exact (f : K -> K) p : (length p <= n)%nat -> (forall x, peval p x = f x) -> forall x, peval (interp K d (map f (dpts d))) x = f x.
Proof.
  intros L E x. unfold interp. rewrite peval_trim. transitivity (peval (idft d (dft d p)) x).
  - f_equal. f_equal. unfold dft. apply map_ext. intro y. symmetry. apply E.
  - rewrite (nth_eq_peval K _ p); [apply E|]. apply idft_dft; assumption.
Qed.
Lemma interp_dom v i : (i < n)%nat -> peval (interp K d v) (w ^ i) = nth i v 0.
Proof. intro H. unfold interp. rewrite peval_trim. apply (idft_dom K d V v i H). Qed.
Lemma length_interp v : (length (interp K d v) <= n)%nat.
Proof. unfold interp. pose proof (length_trim (idft d v)). rewrite length_idft in *. lia. Qed.
(** Blinded interpolations. *)
Lemma peval_vpoly x : peval (vpoly K n) x = x ^ n - 1.
Proof.
  unfold vpoly. rewrite peval_trim. cbn [peval]. rewrite peval_app, peval_repeat0, repeat_length. cbn [peval]. pose proof dpos. replace n with (S (n - 1)) at 2 by lia. cbn [fpow]. ring.
Qed.
Lemma peval_blind v r x : peval (blind K d v r) x = peval (interp K d v) x + r * (x ^ n - 1).
Proof. unfold blind. rewrite peval_trim, peval_padd, peval_trim, peval_pmul, peval_vpoly, peval_trim. cbn [peval]. ring. Qed.
Lemma blind_dom v r i : (i < n)%nat -> peval (blind K d v r) (w ^ i) = nth i v 0.
Proof. intro H. rewrite peval_blind, interp_dom by exact H. rewrite w_pow. ring. Qed.
Lemma length_blind v r : (length (blind K d v r) <= S n)%nat.
Proof.
  unfold blind. pose proof dpos. eapply Nat.le_trans; [apply length_trim|]. rewrite length_padd. pose proof (length_interp v). pose proof (length_trim (pmul (trim [r]) (vpoly K n))).
  assert (length (vpoly K n) <= S n)%nat as L1. { unfold vpoly. eapply Nat.le_trans; [apply length_trim|]. cbn [length]. rewrite app_length, repeat_length. cbn. lia. }
  pose proof (length_trim [r]) as L2. cbn [length] in L2. destruct (trim [r]) as [|c [|c' l]]; [cbn in *; lia| |cbn in L2; lia].
  assert (length (pmul [c] (vpoly K n)) <= S n)%nat. { destruct (vpoly K n) as [|y l]; [cbn; lia|]. pose proof (length_pmul1 K [c] (y :: l) ltac:(cbn; lia)). cbn [length] in *. lia. }
  lia.
Qed.
Lemma nth_blind_top v r : nth n (blind K d v r) 0 = r.
Proof.
  (* the top coefficient from the value identity: the difference with r X^n has length <= n and equals the interpolation minus r *)
  assert (forall i, nth i (padd (blind K d v r) (popp (pscale r (vpoly K n)))) 0 = nth i (interp K d v) 0) as H.
  { assert (forall i, nth i (blind K d v r) 0 = nth i (padd (interp K d v) (pscale r (vpoly K n))) 0) as B.
    { intro i. unfold blind. rewrite nth_trim, !nth_padd. f_equal. rewrite nth_trim. destruct (feq_dec K r 0) as [->|N].
      - unfold ModelMarlin.trim. cbn [ptrim fold_right]. rewrite feqb_refl. cbn [pmul]. rewrite nth_pscale. destruct i; cbn [nth]; ring.
      - unfold ModelMarlin.trim at 1. cbn [ptrim fold_right]. rewrite (proj2 (feqb_neq K _ _) N). cbn [pmul]. rewrite nth_padd. destruct i as [|i]; cbn [nth]; [ring|destruct i; ring]. }
    intro i. rewrite nth_padd, B, nth_padd, nth_popp. ring. }
  specialize (H n). rewrite nth_padd, nth_popp, nth_pscale in H. rewrite (nth_overflow (interp K d v)) in H by apply length_interp.
  assert (nth n (vpoly K n) 0 = 1) as E1.
  { unfold vpoly. rewrite nth_trim. pose proof dpos as Hn. destruct n as [|m] eqn:En; [lia|]. cbn [nth]. rewrite app_nth2; rewrite repeat_length; [|lia]. replace (m - (S m - 1))%nat with 0%nat by lia. reflexivity. }
  rewrite E1 in H. transitivity (r + (nth n (blind K d v r) 0 + - (r * 1))); [ring|]. rewrite H. ring.
Qed.
Lemma length_blind_nz v r : r <> 0 -> length (blind K d v r) = S n.
Proof. intro N. apply canonical_nth; [apply ptrim_canonical|apply length_blind|]. rewrite nth_blind_top. exact N. Qed.
(** r(alpha, X). *)
Definition rpoly (al : K) : list K := map (fun i => al ^ (n - 1 - i)) (seq 0 n).
Lemma rpoly_eq al y : (al - y) * peval (rpoly al) y = al ^ n - y ^ n.
Proof.
  unfold rpoly. rewrite peval_map_seq. clear V. induction n as [|m IH]; [cbn; ring|]. cbn [sumn]. replace (S m - 1 - m)%nat with 0%nat by lia.
  assert (sumn m (fun i => al ^ (S m - 1 - i) * y ^ i) = al * sumn m (fun i => al ^ (m - 1 - i) * y ^ i)) as ->.
  { rewrite <- sumn_mul_l. apply sumn_ext. intros i Hi. replace (S m - 1 - i)%nat with (S (m - 1 - i)) by lia. cbn [fpow]. ring. }
  cbn [fpow]. transitivity (al * ((al - y) * sumn m (fun i => al ^ (m - 1 - i) * y ^ i)) + (al - y) * y ^ m); [ring|]. rewrite IH. ring.
Qed.
Lemma rpoly_bivariate al y : peval (rpoly al) y = bivariate_eval K d al y.
Proof.
  unfold bivariate_eval. destruct (feqb_spec K al y) as [<-|N].
  - unfold rpoly. rewrite peval_map_seq. transitivity (sumn n (fun _ => al ^ (n - 1))).
    + apply sumn_ext. intros i Hi. rewrite <- fpow_add. f_equal. lia.
    + apply sumn_const.
  - unfold vh. assert (al - y <> 0) as N1 by (intro E; apply N; apply (proj1 (fsub_0 K _ _) E)). pose proof (rpoly_eq al y) as E. transitivity ((al - y) * peval (rpoly al) y / (al - y)); [field; exact N1|]. rewrite E. field. exact N1.
Qed.
Lemma nth_batch al i : (i < n)%nat -> nth i (batch_evals K d al) 0 = finv (al - w ^ i) * vh K d al.
Proof.
  intro H. unfold batch_evals. rewrite (nth_indep _ _ ((fun u => finv (al - u) * vh K d al) 0)) by (rewrite map_length, length_dpts; exact H). rewrite (map_nth (fun u => finv (al - u) * vh K d al)), nth_dpts by exact H. reflexivity.
Qed.
Lemma out_dom al i : al ^ n <> 1 -> al - w ^ i <> 0.
Proof. intros N E. apply N. apply (proj1 (fsub_0 K _ _)) in E. rewrite E. apply w_pow. Qed.
Lemma r_alpha_eval al y : al ^ n <> 1 -> peval (trim (idft d (batch_evals K d al))) y = bivariate_eval K d al y.
Proof.
  intro N. rewrite peval_trim, <- rpoly_bivariate. apply nth_eq_peval. apply (agree_eq K (dpts d)); [apply V|rewrite length_idft, length_dpts; lia|unfold rpoly; rewrite map_length, seq_length, length_dpts; lia|].
  intros x Hx. unfold dpts in Hx. apply in_map_iff in Hx. destruct Hx as (i & <- & Hi). apply in_seq in Hi. rewrite (idft_dom K d V) by lia. rewrite nth_batch by lia.
  pose proof (rpoly_eq al (w ^ i)) as E. rewrite w_pow in E. pose proof (out_dom al i N) as N1. unfold vh. rewrite <- E. field. exact N1.
Qed.
End D.
(** Top coefficients. *)
Lemma pdivv_top m p : (0 < m)%nat -> (m < length p)%nat -> nth (length p - 1 - m) (fst (pdivv K m p)) 0 = nth (length p - 1) p 0.
Proof.
  intros Hm L. unfold pdivv. destruct (length p) as [|f] eqn:EL; [lia|]. cbn [pdivv_n]. destruct (Nat.leb_spec (length p) m); [lia|].
  pose proof (pdivv_n_ok m Hm f (skipn m p)) as H0. rewrite skipn_length in H0. specialize (H0 ltac:(lia)). destruct (pdivv_n K f m (skipn m p)) as (q, r). destruct H0 as (_ & Lq & _). cbn [fst].
  rewrite nth_trim, nth_padd. rewrite (nth_overflow q) by lia. transitivity (nth (S f - 1 - m) (skipn m p) 0); [ring|]. rewrite <- (firstn_skipn m p) at 2. rewrite app_nth2; rewrite firstn_length, Nat.min_l by lia; [reflexivity|lia].
Qed.
Lemma nth_pmul_top (a : list K) : forall (b : list K) i j, length a = S i -> length b = S j -> nth (i + j) (pmul a b) 0 = nth i a 0 * nth j b 0.
Proof.
  induction a as [|c a IH]; intros b i j La Lb; [discriminate|]. cbn [length] in La. injection La as La. cbn [pmul]. rewrite nth_padd, nth_pscale. destruct i as [|i].
  - destruct a; [|discriminate]. cbn [pmul nth Nat.add]. destruct j; cbn [nth]; [ring|destruct j; ring].
  - cbn [Nat.add nth]. rewrite (IH b i j La Lb). rewrite nth_overflow by lia. ring.
Qed.
Lemma length_ge_nth p i : nth i p 0 <> 0 -> (i < length p)%nat.
Proof. intro N. destruct (Nat.lt_ge_cases i (length p)) as [H|H]; [exact H|]. rewrite nth_overflow in N by exact H. contradiction. Qed.
Lemma zip_add_padd p : forall q, (length q <= length p)%nat -> zip_add K p q = padd p q.
Proof. induction p as [|a p IH]; intros [|b q] L; cbn in *; try reflexivity; [lia|]. rewrite IH by lia. reflexivity. Qed.
Lemma zip_m_eval (ea eb : K) : forall (m a b : list K) x, length a = length b -> (length a <= length m)%nat -> peval (zip_m K ea eb m a b) x = peval m x + (ea * peval a x + eb * peval b x).
Proof.
  induction m as [|c m IH]; intros [|x1 a] [|y b] x E L; cbn in E, L; try discriminate; try lia; cbn [zip_m peval]; try ring. rewrite IH by lia. ring.
Qed.
Lemma m_poly_eval v (za zb : list K) h x : length za = S h -> length zb = S h -> nth h za 0 <> 0 -> nth h zb 0 <> 0 ->
  peval (m_poly K v za zb) x = v_a K v * peval za x + v_b K v * peval zb x + v_c K v * peval za x * peval zb x.
Proof.
  intros La Lb Na Nb. unfold m_poly. rewrite peval_trim, zip_m_eval; [|congruence|].
  - assert (forall (l : list K) y, peval (map (fun c => c * v_c K v) l) y = peval l y * v_c K v) as E by (induction l as [|c l IH]; intro y; cbn [map peval]; [ring|rewrite IH; ring]).
    rewrite E, peval_trim, peval_pmul. ring.
  - rewrite map_length. assert (h + h < length (trim (pmul za zb)))%nat; [|lia]. apply length_ge_nth. rewrite nth_trim, (nth_pmul_top za zb h h La Lb). apply f_mul_nz; assumption.
Qed.
Lemma peval_mulv m p x : peval (mulv K m p) x = (x ^ m - 1) * peval p x.
Proof. unfold mulv. rewrite peval_trim, peval_psub, peval_app, peval_repeat0, repeat_length. ring. Qed.
Lemma length_mulv m p : (0 < m)%nat -> canonical p -> p <> [] -> (m < length (mulv K m p))%nat.
Proof.
  intros Hm C N. destruct (exists_last N) as (l & c & E). specialize (C N). rewrite E, last_last in C.
  assert (m + length l < length (mulv K m p))%nat; [|lia]. apply length_ge_nth. unfold mulv. rewrite nth_trim, nth_psub, E. rewrite app_nth2; rewrite repeat_length; [|lia]. replace (m + length l - m)%nat with (length l) by lia. rewrite app_nth2 by lia. rewrite Nat.sub_diag. cbn [nth].
  rewrite (nth_overflow (l ++ [c])) by (rewrite app_length; cbn; lia). intro Z. apply C. rewrite <- Z. ring.
Qed.
Lemma z_poly_eval m w xp x : (0 < m)%nat -> canonical w -> w <> [] -> (length xp <= m)%nat -> peval (z_poly K m w xp) x = (x ^ m - 1) * peval w x + peval xp x.
Proof. intros Hm C N L. unfold z_poly. pose proof (length_mulv m w Hm C N). rewrite zip_add_padd by lia. rewrite peval_padd, peval_mulv. reflexivity. Qed.

(** Accumulation of the matrix entries, tested against arbitrary weights. *)
Notation row := (list (K * nat)).
Definition wsum (t : list K) (g : nat -> K) : K := sumn (length t) (fun k => nth k t 0 * g k).
Lemma nth_upd (a : list K) : forall j f i, nth i (upd_at j f a) 0 = if Nat.eqb i j && Nat.ltb j (length a) then f (nth j a 0) else nth i a 0.
Proof.
  induction a as [|b a IH]; intros [|j] f [|i]; cbn [upd_at nth length]; try reflexivity.
  - rewrite Bool.andb_false_r. reflexivity.
  - rewrite IH. reflexivity.
Qed.
Lemma len_upd (f : K -> K) : forall a j, length (upd_at j f a) = length a.
Proof. induction a as [|b a IH]; intros [|j]; cbn [upd_at length]; auto. Qed.
Lemma wsum_upd t j c g : (j < length t)%nat -> wsum (upd_at j (fun y => y + c) t) g = wsum t g + c * g j.
Proof.
  intro H. unfold wsum. rewrite len_upd.
  transitivity (sumn (length t) (fun k => nth k t 0 * g k + (if Nat.eqb k j then c * g j else 0))).
  - apply sumn_ext. intros k Hk. rewrite nth_upd, (proj2 (Nat.ltb_lt _ _) H), Bool.andb_true_r. destruct (Nat.eqb_spec k j) as [->|N]; ring.
  - rewrite sumn_add. f_equal. rewrite (sumn_one K _ _ j H); [rewrite Nat.eqb_refl; reflexivity|]. intros i _ N. rewrite (proj2 (Nat.eqb_neq _ _) N). reflexivity.
Qed.
Lemma row_val_cons z e (r : row) : row_val z (e :: r) = fst e * z (snd e) + row_val z r. Proof. reflexivity. Qed.
Definition cols_lt (n : nat) (r : row) : Prop := Forall (fun e => snd e < n)%nat r.
Section T.
Variables x p : nat.
Hypothesis Hx : (0 < x)%nat.
Hypothesis Hp : (0 < p)%nat.
Notation h := (x * p)%nat.
Notation ps := (pos h x).
Lemma t_row_ok eta ri (r : row) : cols_lt h r -> forall t, length t = h -> exists t', t_row K h x eta ri r t = Ok t' /\ length t' = h /\
  forall g, wsum t' g = wsum t g + eta * ri * row_val (fun j => g (ps j)) r.
Proof.
  induction r as [|(c, j) r IH]; intros C t L; cbn [t_row].
  - exists t. repeat split; auto. intro g. unfold row_val. cbn. ring.
  - inversion C as [|? ? Hj C']; subst. cbn [snd] in Hj. destruct (reidx_ok p x j Hx Hp Hj) as (-> & Hl). cbn [rbind]. rewrite L, (proj2 (Nat.ltb_lt _ _) Hl).
    destruct (IH C' (upd_at (ps j) (fun y => y + eta * c * ri) t)) as (t' & E & L' & W); [rewrite len_upd; exact L|]. exists t'. split; [exact E|]. split; [exact L'|]. intro g. rewrite W, wsum_upd by lia. rewrite row_val_cons. cbn [fst snd]. ring.
Qed.
Lemma t_rows_ok eta ral (m : list row) : Forall (cols_lt h) m -> forall i t, (i + length m <= length ral)%nat -> length t = h ->
  exists t', t_rows K h x eta ral i m t = Ok t' /\ length t' = h /\
  forall g, wsum t' g = wsum t g + eta * sumn (length m) (fun l => nth (i + l) ral 0 * row_val (fun j => g (ps j)) (nth l m [])).
Proof.
  induction m as [|r m IH]; intros C i t L Lt; cbn [t_rows].
  - exists t. repeat split; auto. intro g. cbn [length sumn]. ring.
  - pose proof (Forall_inv C) as Cr. pose proof (Forall_inv_tail C) as Cm. cbn [length] in L.
    assert (exists t1, (match r with [] => Ok t | _ => rbind (get K ral i) (fun ri => t_row K h x eta ri r t) end) = Ok t1 /\ length t1 = h /\ forall g, wsum t1 g = wsum t g + eta * nth i ral 0 * row_val (fun j => g (ps j)) r) as (t1 & E1 & L1 & W1).
    { assert (get K ral i = Ok (nth i ral 0)) as G. { unfold get. rewrite (nth_error_nth' ral 0) by lia. reflexivity. }
      destruct r as [|e r']; [exists t; repeat split; auto; intro g; unfold row_val; cbn; ring|]. rewrite G. cbn [rbind]. apply t_row_ok; assumption. }
    destruct (IH Cm (S i) t1 ltac:(lia) L1) as (t' & E & L' & W). exists t'. split.
    + destruct r as [|e r']; [injection E1 as <-; exact E|]. destruct (get K ral i) as [ri| |]; cbn [rbind] in *; try discriminate. rewrite E1. cbn [rbind]. exact E.
    + split; [exact L'|]. intro g. rewrite W, W1. cbn [length]. rewrite sumn_S. cbn [nth]. rewrite Nat.add_0_r.
      assert (forall l, (S i + l = i + S l)%nat) as A by (intro; lia). rewrite (sumn_ext K (length m) (fun l => nth (S i + l) ral 0 * _) (fun l => nth (i + S l) ral 0 * row_val (fun j => g (ps j)) (nth l m []))) by (intros; rewrite A; reflexivity). ring.
Qed.
(** The value of a matrix on weights for its rows and columns. *)
Definition mform (m : list row) (u : nat -> K) (g : nat -> K) : K := sumn (length m) (fun l => u l * row_val g (nth l m [])).
Lemma t_evals_ok ix v ral : Forall (cols_lt h) (ix_a K ix) -> Forall (cols_lt h) (ix_b K ix) -> Forall (cols_lt h) (ix_c K ix) ->
  (length (ix_a K ix) <= length ral)%nat -> (length (ix_b K ix) <= length ral)%nat -> (length (ix_c K ix) <= length ral)%nat ->
  exists t, t_evals K ix h x v ral = Ok t /\ length t = h /\
  forall g, wsum t g = v_a K v * mform (ix_a K ix) (fun l => nth l ral 0) (fun j => g (ps j)) + v_b K v * mform (ix_b K ix) (fun l => nth l ral 0) (fun j => g (ps j)) + v_c K v * mform (ix_c K ix) (fun l => nth l ral 0) (fun j => g (ps j)).
Proof.
  intros A B C LA LB LC. unfold t_evals.
  destruct (t_rows_ok (v_a K v) ral (ix_a K ix) A 0 (repeat 0 h) LA (repeat_length _ _)) as (t1 & -> & L1 & W1). cbn [rbind].
  destruct (t_rows_ok (v_b K v) ral (ix_b K ix) B 0 t1 LB L1) as (t2 & -> & L2 & W2). cbn [rbind].
  destruct (t_rows_ok (v_c K v) ral (ix_c K ix) C 0 t2 LC L2) as (t3 & -> & L3 & W3). exists t3. split; [reflexivity|]. split; [exact L3|]. intro g. rewrite W3, W2, W1. unfold mform, wsum. rewrite repeat_length. rewrite (sumn_0 K (x * p)); [cbn [Nat.add]; ring|]. intros i _. rewrite nth_repeat. ring.
Qed.
End T.
Lemma mapR_ok {A B} (f : A -> res B) (g : A -> B) (l : list A) : (forall a, In a l -> f a = Ok (g a)) -> mapR f l = Ok (map g l).
Proof. induction l as [|a l IH]; intro H; [reflexivity|]. cbn [mapR map]. rewrite H by (left; reflexivity). cbn [rbind]. rewrite IH by (intros; apply H; right; assumption). reflexivity. Qed.
Lemma nth_map_seq {A} (f : nat -> A) (d : A) n i : (i < n)%nat -> nth i (map f (seq 0 n)) d = f i.
Proof. intro H. rewrite (nth_indep _ _ (f 0%nat)) by (rewrite map_length, seq_length; exact H). rewrite map_nth, seq_nth by exact H. reflexivity. Qed.
Lemma get_ok (l : list K) i : (i < length l)%nat -> get K l i = Ok (nth i l 0).
Proof. intro H. unfold get. rewrite (nth_error_nth' l 0) by exact H. reflexivity. Qed.
Section R1.
Variables dx dh : dom K.
Variable p : nat.
Hypothesis Vx : valid_dom dx.
Hypothesis Vh : valid_dom dh.
Hypothesis Hs : dsize dh = (dsize dx * p)%nat.
Hypothesis Hg : dgen dx = dgen dh ^ p.
Notation x := (dsize dx).
Notation h := (dsize dh).
Lemma x_pos : (0 < x)%nat. Proof. apply Vx. Qed.
Lemma p_pos : (0 < p)%nat. Proof. destruct Vh as (H & _). rewrite Hs in H. destruct p; lia. Qed.
Lemma ratio_p : Nat.div h x = p. Proof. rewrite Hs, Nat.mul_comm. apply Nat.div_mul. pose proof x_pos. lia. Qed.
(** The vector the prover interpolates: inputs at the multiples of the ratio, the witness in between. *)
Definition zvec (xs ws : list K) (k : nat) : K := if Nat.eqb (Nat.modulo k p) 0 then nth (Nat.div k p) xs 0 else nth (k - Nat.div k p - 1) ws 0.
Lemma w_evals_ok (wext xh : list K) : length wext = (h - x)%nat -> length xh = h -> exists we, w_evals K h x wext xh = Ok we /\ length we = h /\
  forall k, (k < h)%nat -> nth k we 0 = if Nat.eqb (Nat.modulo k p) 0 then 0 else nth (k - Nat.div k p - 1) wext 0 - nth k xh 0.
Proof.
  intros Lw Lx. unfold w_evals. rewrite ratio_p. pose proof p_pos as Hp. pose proof x_pos as Hx.
  rewrite (mapR_ok _ (fun k => if Nat.eqb (Nat.modulo k p) 0 then 0 else nth (k - Nat.div k p - 1) wext 0 - nth k xh 0)).
  - eexists. split; [reflexivity|]. split; [rewrite map_length, seq_length; reflexivity|]. intros k Hk. apply (nth_map_seq (fun k => if Nat.eqb (Nat.modulo k p) 0 then 0 else nth (k - Nat.div k p - 1) wext 0 - nth k xh 0)), Hk.
  - intros k Hk. apply in_seq in Hk. destruct (Nat.eqb_spec (Nat.modulo k p) 0) as [E|N]; [reflexivity|]. rewrite !get_ok; [reflexivity|lia|].
    rewrite Lw, Hs. pose proof (Nat.div_mod k p ltac:(lia)) as D. pose proof (Nat.mod_upper_bound k p ltac:(lia)) as U. assert (Nat.div k p < x)%nat by (apply Nat.div_lt_upper_bound; nia). nia.
Qed.
Lemma x_on_h (xs : list K) k : (k < h)%nat -> Nat.modulo k p = 0%nat -> peval (interp K dx xs) (dgen dh ^ k) = nth (Nat.div k p) xs 0.
Proof.
  intros Hk M. pose proof p_pos as Hp. pose proof (Nat.div_mod k p ltac:(lia)) as D. rewrite M, Nat.add_0_r in D. rewrite D at 1. rewrite fpow_mul, <- Hg. apply (interp_dom dx Vx). apply Nat.div_lt_upper_bound; [lia|]. nia.
Qed.
(** What the first round guarantees about w: together with the input polynomial it interpolates [zvec]; honest runs pass the remainder assertion. *)
Lemma first_w (xs ws : list K) (rw : K) : (x + length ws <= h)%nat ->
  exists we, w_evals K h x (ws ++ repeat 0 (h - x - length ws)) (dft dh (interp K dx xs)) = Ok we /\
  let '(w, r) := pdivv K x (blind K dh we rw) in r = [] /\ canonical w /\ (rw <> 0 -> w <> []) /\ (length w <= S h - x)%nat /\
    (forall k, (k < h)%nat -> ((dgen dh ^ k) ^ x - 1) * peval w (dgen dh ^ k) + peval (interp K dx xs) (dgen dh ^ k) = zvec xs ws k).
Proof.
  intro L. pose proof x_pos as Hx. pose proof p_pos as Hp.
  destruct (w_evals_ok (ws ++ repeat 0 (h - x - length ws)) (dft dh (interp K dx xs))) as (we & E & Le & W); [rewrite app_length, repeat_length; lia|apply length_dft|].
  exists we. split; [exact E|].
  pose proof (pdivv_ok x (blind K dh we rw) Hx) as Q. pose proof (rem_zero dx Vx (blind K dh we rw)) as Z. destruct (pdivv K x (blind K dh we rw)) as (w, r) eqn:Ed. destruct Q as (Cw & _ & _ & Lw & Q). cbn [snd] in Z.
  assert (r = []) as R.
  { apply Z. intros i Hi. rewrite Hg, <- fpow_mul. assert (p * i < h)%nat as Hpi by (rewrite Hs; nia). rewrite (blind_dom dh Vh) by exact Hpi. rewrite W by exact Hpi. rewrite Nat.mul_comm, Nat.mod_mul by lia. reflexivity. }
  subst r. repeat split; auto.
  - intros N E0. subst w. pose proof (length_blind_nz dh Vh we rw N) as LB. pose proof (pdivv_top x (blind K dh we rw) Hx) as T. rewrite LB, Ed in T. cbn [fst] in T. assert (x < S h)%nat as Hxh by (rewrite Hs; nia). specialize (T Hxh). replace (S h - 1)%nat with h in T by lia. rewrite (nth_blind_top dh Vh) in T. apply N. rewrite <- T. destruct (h - x)%nat; reflexivity.
  - pose proof (length_blind dh Vh we rw). lia.
  - intros k Hk. specialize (Q (dgen dh ^ k)). cbn [peval] in Q. rewrite (blind_dom dh Vh) in Q by exact Hk. rewrite W in Q by exact Hk. unfold zvec.
    destruct (Nat.eqb_spec (Nat.modulo k p) 0) as [M|M].
    + rewrite (x_on_h xs k Hk M). set (pe := nth (Nat.div k p) xs 0). transitivity (0 + pe); [rewrite Q; ring|ring].
    + assert (nth (k - Nat.div k p - 1) (ws ++ repeat 0 (h - x - length ws)) 0 = nth (k - Nat.div k p - 1) ws 0) as A.
      { destruct (Nat.lt_ge_cases (k - Nat.div k p - 1) (length ws)) as [H|H]; [apply app_nth1, H|]. rewrite app_nth2 by exact H. rewrite nth_repeat. symmetry. apply nth_overflow, H. }
      rewrite A in Q. assert (nth k (dft dh (interp K dx xs)) 0 = peval (interp K dx xs) (dgen dh ^ k)) as B.
      { unfold dft. rewrite (nth_indep _ _ (peval (interp K dx xs) 0)) by (rewrite map_length, length_dpts; exact Hk). rewrite map_nth, nth_dpts by exact Hk. reflexivity. }
      rewrite B in Q. set (u := nth (k - Nat.div k p - 1) ws 0) in *. set (pe := peval (interp K dx xs) (dgen dh ^ k)) in *. transitivity (u - pe + pe); [rewrite Q; ring|ring].
Qed.
(** Where the columns end up: exactly the assignment when the inputs fill their domain, shifted otherwise. *)
Lemma zvec_pos (xs ws : list K) j : (length xs <= x)%nat -> (j < h)%nat ->
  zvec xs ws (pos h x j) = if Nat.ltb j x then nth j xs 0 else nth (j - x) ws 0.
Proof.
  intros Lx Hj. pose proof x_pos as Hx. pose proof p_pos as Hp. unfold zvec. destruct (Nat.ltb_spec j x) as [H|H].
  - unfold pos. rewrite ratio_p. rewrite (proj2 (Nat.ltb_lt _ _) H). rewrite Nat.mod_mul, Nat.div_mul by lia. reflexivity.
  - assert (1 < p)%nat as H1. { destruct p as [|[|q]] eqn:Ep; [lia| |lia]. rewrite Hs in Hj. lia. }
    rewrite Hs. destruct (pos_mod p x j Hx H1 H) as (M & E). rewrite (proj2 (Nat.eqb_neq _ _) M), E. reflexivity.
Qed.
End R1.
End P.
