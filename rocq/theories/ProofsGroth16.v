(** Groth16: the arithmetic program is exact, honest proofs verify, arity is checked. *)
From Verif Require Import Field Poly Module ModelLC SpecLC ModelCS SpecCS ModelGroth16 SpecGroth16.
Local Open Scope fld_scope.

Section P.
Variable K : Fld.
Add Field KfQ : (f_laws K).
Implicit Types (s : cs K) (x : var -> K) (d : dom K).
Arguments acc_row {K}. Arguments acc_rows {K}. Arguments evaluate_constraint {K}. Arguments at_ {K}. Arguments bt_ {K}. Arguments ct_ {K}.
Arguments num_inputs {K}. Arguments num_aux {K}. Arguments num_constraints {K}. Arguments push_constraints {K}. Arguments lagrange_at {K}. Arguments input_row {K}.
Arguments vanish_at {K}. Arguments fill_to {K}. Arguments instance_map {K}. Arguments witness_map {K}.

(** ** Rows *)
Lemma length_full x s : length (full_vector x s) = (length (inps s) + length (auxs s))%nat.
Proof. unfold full_vector. rewrite app_length, !map_length, !seq_length. reflexivity. Qed.
Lemma nth_map_seq {A} (f : nat -> A) n i (d0 : A) : (i < n)%nat -> nth i (map f (seq 0 n)) d0 = f i.
Proof. intro H. rewrite (nth_indep _ _ (f 0%nat)) by (rewrite map_length, seq_length; exact H). rewrite map_nth, seq_nth by exact H. reflexivity. Qed.
Lemma nth_full x s v : allocated s v -> nth (var_pos (length (inps s)) v) (full_vector x s) 0 = x v /\ (var_pos (length (inps s)) v < length (full_vector x s))%nat.
Proof.
  rewrite length_full. unfold full_vector. destruct v as [i|i]; cbn [allocated var_pos]; intro H; (split; [|lia]).
  - rewrite app_nth1 by (rewrite map_length, seq_length; exact H). rewrite nth_map_seq by exact H. reflexivity.
  - rewrite app_nth2 by (rewrite map_length, seq_length; lia). rewrite map_length, seq_length. replace (length (inps s) + i - length (inps s))%nat with i by lia. rewrite nth_map_seq by exact H. reflexivity.
Qed.
Lemma full_wit s : full_vector (wit s) s = inps s ++ auxs s.
Proof.
  unfold full_vector. f_equal; (apply nth_ext with (d := 0) (d' := 0); [rewrite map_length, seq_length; reflexivity|]; intros i Hi;
    rewrite map_length, seq_length in Hi; rewrite nth_map_seq by exact Hi; reflexivity).
Qed.
Lemma eval_row_ok s l : forall acc, Forall (fun t => allocated s (fst t)) l ->
  evaluate_constraint (push_constraints l) (inps s ++ auxs s) (length (inps s)) acc = Ok (acc + eval (wit s) l).
Proof.
  induction l as [|[v c] l IH]; intros acc H; cbn [push_constraints map evaluate_constraint].
  - unfold eval. cbn [map fsum]. f_equal. ring.
  - inversion H as [|? ? Hv H']; subst. cbn [fst] in Hv. destruct (nth_full (wit s) s v Hv) as [N L]. rewrite full_wit in N, L.
    rewrite (nth_error_nth' _ 0 L), N. fold (push_constraints l). rewrite IH by exact H'. f_equal. unfold eval. cbn [map fsum fst snd].
    destruct (feqb_spec K c 1) as [->|_]; ring.
Qed.
Lemma eval_rows_ok s (f : constraint K -> lc K) cl : Forall (fun c => Forall (fun t => allocated s (fst t)) (f c)) cl ->
  res_list (fun row => evaluate_constraint row (inps s ++ auxs s) (length (inps s)) 0) (map (fun c => push_constraints (f c)) cl) = Ok (map (fun c => eval (wit s) (f c)) cl).
Proof.
  induction 1 as [|c cl Hc H IH]; [reflexivity|]. cbn [map res_list]. rewrite eval_row_ok by exact Hc. cbn [rbind]. rewrite IH. cbn [rbind]. do 2 f_equal. ring.
Qed.
Lemma dot_upd (z : list K) : forall (a : list K) j f, (j < length a)%nat -> length z = length a ->
  dot (upd_at j f a) z = dot a z + (f (nth j a 0) - nth j a 0) * nth j z 0.
Proof.
  induction z as [|y z IH]; intros a j f Hj L; destruct a as [|b a]; cbn [length] in *; try lia.
  destruct j as [|j]; cbn [upd_at dot nth]; [ring|]. rewrite IH by lia. ring.
Qed.
Lemma length_upd {A} (f : A -> A) : forall a j, length (upd_at j f a) = length a.
Proof. induction a as [|b a IH]; intros [|j]; cbn [upd_at length]; auto. Qed.
Lemma acc_row_ok s (ui : K) l : forall a, Forall (fun t => allocated s (fst t)) l -> length a = (length (inps s) + length (auxs s))%nat ->
  exists a', acc_row ui (length (inps s)) (push_constraints l) a = Ok a' /\ length a' = length a /\
    forall x, dot a' (full_vector x s) = dot a (full_vector x s) + ui * eval x l.
Proof.
  induction l as [|[v c] l IH]; intros a H L; cbn [push_constraints map acc_row].
  - exists a. repeat split. intro x. unfold eval. cbn [map fsum]. ring.
  - inversion H as [|? ? Hv H']; subst. cbn [fst] in Hv. pose proof (nth_full (wit s) s v Hv) as [_ Lv]. rewrite length_full, <- L in Lv.
    apply Nat.ltb_lt in Lv as Lb. rewrite Lb. fold (push_constraints l). destruct (IH (upd_at (var_pos (length (inps s)) v) (fun y => y + ui * c) a) H') as (a' & E & L' & D).
    + rewrite length_upd. exact L.
    + exists a'. split; [exact E|]. split; [rewrite L', length_upd; reflexivity|]. intro x. rewrite D, dot_upd by (try exact Lv; rewrite length_full; auto).
      destruct (nth_full x s v Hv) as [-> _]. unfold eval. cbn [map fsum fst snd]. ring.
Qed.
Lemma acc_rows_ok s (f : constraint K -> lc K) (u : list K) cl : Forall (fun c => Forall (fun t => allocated s (fst t)) (f c)) cl -> forall i a,
  (i + length cl <= length u)%nat -> length a = (length (inps s) + length (auxs s))%nat ->
  exists a', acc_rows u (length (inps s)) i (map (fun c => push_constraints (f c)) cl) a = Ok a' /\ length a' = length a /\
    forall x, dot a' (full_vector x s) = dot a (full_vector x s) + sumn (length cl) (fun k => nth (i + k) u 0 * nth k (map (fun c => eval x (f c)) cl) 0).
Proof.
  induction 1 as [|c cl Hc H IH]; intros i a Lu La; cbn [map acc_rows].
  - exists a. repeat split. intro x. cbn [length sumn]. ring.
  - cbn [length] in Lu. rewrite (nth_error_nth' u 0) by lia. destruct (acc_row_ok s (nth i u 0) (f c) a Hc La) as (a1 & E1 & L1 & D1).
    rewrite E1. cbn [rbind]. destruct (IH (S i) a1) as (a2 & E2 & L2 & D2); [lia|rewrite L1; exact La|].
    exists a2. split; [exact E2|]. split; [rewrite L2; exact L1|]. intro x. rewrite D2, D1. cbn [length]. rewrite sumn_S. cbn [nth]. rewrite Nat.add_0_r.
    rewrite (sumn_ext K (length cl) (fun k => nth (S i + k) u 0 * _) (fun k => nth (i + S k) u 0 * nth k (map (fun c => eval x (f c)) cl) 0)); [ring|].
    intros k _. do 2 f_equal. lia.
Qed.

(** ** The polynomials of an assignment *)
Definition avx x s : list K := map (fun c => eval x (ca c)) (cons s) ++ map (fun i => x (Input i)) (seq 0 (length (inps s))).
Definition bvx x s : list K := map (fun c => eval x (cb c)) (cons s).
Definition cvx x s : list K := map (fun c => eval x (cc c)) (cons s).
Lemma length_lagrange d (t : K) : length (lagrange_at d t) = dsize d.
Proof. unfold lagrange_at. destruct (feqb _ _); rewrite map_length, length_dpts; reflexivity. Qed.
Lemma lagrange_sum d (v : list K) t : valid_dom d -> sumn (dsize d) (fun i => nth i (lagrange_at d t) 0 * nth i v 0) = peval (idft d v) t.
Proof.
  intro V. unfold lagrange_at. destruct (feqb_spec K (t ^ dsize d) 1) as [E|N].
  - apply (dpts_iff K d V) in E. unfold dpts in E. apply in_map_iff in E. destruct E as (k & <- & Hk). apply in_seq in Hk.
    rewrite (idft_dom K d V) by lia. rewrite (sumn_one K _ _ k); [|lia|].
    + unfold dpts. rewrite map_map, nth_map_seq by lia. rewrite feqb_refl. ring.
    + intros i Hi Nk. unfold dpts. rewrite map_map, nth_map_seq by lia. destruct (feqb_spec K (dgen d ^ i) (dgen d ^ k)) as [E|_]; [|ring].
      exfalso. apply Nk. apply (pow_inj K d V); try lia. exact E.
  - rewrite (lagrange_eval K d V) by exact N. apply sumn_ext. intros i Hi. unfold dpts. rewrite map_map, nth_map_seq by exact Hi. ring.
Qed.
Lemma wf_rows s : wf s -> Forall (fun c => Forall (fun t => allocated s (fst t)) (ca c)) (cons s) /\
  Forall (fun c => Forall (fun t => allocated s (fst t)) (cb c)) (cons s) /\ Forall (fun c => Forall (fun t => allocated s (fst t)) (cc c)) (cons s).
Proof. intros [_ H]. split; [|split]; (eapply Forall_impl; [|exact H]); intros c (A & B & C); assumption. Qed.
Lemma inps_pos s : wf s -> (0 < length (inps s))%nat.
Proof. intros [[r ->] _]. cbn. lia. Qed.
Section D.
Variable dnew : nat -> option (dom K).
Hypothesis DF : dom_family dnew.
Lemma instance_ok s d (t : K) : wf s -> dnew (length (cons s) + length (inps s)) = Some d ->
  exists a b c, instance_map dnew s t = Ok (a, b, c, t ^ dsize d - 1, dsize d) /\
    length a = (length (inps s) + length (auxs s))%nat /\ length b = (length (inps s) + length (auxs s))%nat /\ length c = (length (inps s) + length (auxs s))%nat /\
    forall x, dot a (full_vector x s) = peval (idft d (avx x s)) t /\ dot b (full_vector x s) = peval (idft d (bvx x s)) t /\ dot c (full_vector x s) = peval (idft d (cvx x s)) t.
Proof.
  intros W E. destruct (DF _ _ E) as [V Ld]. pose proof (inps_pos s W) as Hi. destruct (wf_rows s W) as (Wa & Wb & Wc).
  unfold instance_map, num_inputs, num_aux, num_constraints. replace (length (cons s) + (length (inps s) - 1) + 1)%nat with (length (cons s) + length (inps s))%nat by lia.
  rewrite E. set (u := lagrange_at d t). assert (length u = dsize d) as Lu by apply length_lagrange.
  set (ni := length (inps s)) in *. set (nc := length (cons s)) in *. set (nv := (ni + length (auxs s))%nat).
  assert (length (input_row u nc ni nv) = nv) as Lr.
  { unfold input_row. rewrite app_length, map_length, seq_length, repeat_length. unfold nv. lia. }
  destruct (acc_rows_ok s ca u (cons s) Wa 0 (input_row u nc ni nv)) as (a & Ea & La & Da); [fold nc; lia|exact Lr|].
  destruct (acc_rows_ok s cb u (cons s) Wb 0 (repeat 0 nv)) as (b & Eb & Lb & Db); [fold nc; lia|apply repeat_length|].
  destruct (acc_rows_ok s cc u (cons s) Wc 0 (repeat 0 nv)) as (c & Ec & Lc & Dc); [fold nc; lia|apply repeat_length|].
  exists a, b, c. unfold at_, bt_, ct_. fold ni in Ea, Eb, Ec. rewrite Ea. cbn [rbind]. rewrite Eb. cbn [rbind]. rewrite Ec. cbn [rbind].
  split; [reflexivity|]. rewrite repeat_length in Lb, Lc. split; [congruence|]. split; [exact Lb|]. split; [exact Lc|].
  assert (forall l, dot (repeat (0 : K) nv) l = 0) as Z0.
  { clear. induction nv as [|n IH]; intros [|y l]; cbn [repeat dot]; auto. rewrite IH. ring. }
  assert (forall f x, sumn nc (fun k => nth (0 + k) u 0 * nth k (map (fun c => eval x (f c)) (cons s)) 0) = peval (idft d (map (fun c => eval x (f c)) (cons s))) t) as BC.
  { intros f x. rewrite <- (lagrange_sum d _ t V). symmetry. apply sumn_trunc; [lia|]. intros i Hin. rewrite (nth_overflow (map _ (cons s))) by (rewrite map_length; fold nc; lia). ring. }
  intro x. rewrite Da, Db, Dc, !Z0. split; [|split].
  - rewrite <- (lagrange_sum d _ t V). fold u.
    assert (dot (input_row u nc ni nv) (full_vector x s) = sumn ni (fun i => nth (nc + i) u 0 * x (Input i))) as ->.
    { rewrite dot_sumn, Lr. rewrite (sumn_trunc K ni nv).
      - apply sumn_ext. intros i Hin. unfold input_row, full_vector. rewrite !app_nth1 by (rewrite map_length, seq_length; exact Hin). rewrite !nth_map_seq by exact Hin. reflexivity.
      - unfold nv. lia.
      - intros i Hin. unfold input_row. rewrite app_nth2 by (rewrite map_length, seq_length; lia). rewrite nth_repeat. ring. }
    rewrite (sumn_trunc K (nc + ni) (dsize d)); [|exact Ld|].
    + rewrite sumn_app. fold nc. match goal with |- ?p + ?q = ?r + ?v => assert (p = v) as -> end.
      { apply sumn_ext. intros i Hin. unfold avx. rewrite app_nth2 by (rewrite map_length; fold nc; lia). rewrite map_length. fold nc.
        replace (nc + i - nc)%nat with i by lia. rewrite nth_map_seq by exact Hin. reflexivity. }
      match goal with |- ?v + ?q = ?r + ?v => assert (q = r) as -> end; [|ring].
      apply sumn_ext. intros i Hin. unfold avx. rewrite app_nth1 by (rewrite map_length; exact Hin). reflexivity.
    + intros i Hin. unfold avx. rewrite (nth_overflow (_ ++ _)) by (rewrite app_length, !map_length, seq_length; fold nc; fold ni; lia). ring.
  - fold nc. rewrite (BC cb). unfold bvx. ring.
  - fold nc. rewrite (BC cc). unfold cvx. ring.
Qed.

(** ** The quotient *)
Definition zpoly (m : nat) : list K := (- (1)) :: repeat 0 (m - 1) ++ [1].
Lemma peval_zpoly m y : (0 < m)%nat -> peval (zpoly m) y = y ^ m - 1.
Proof.
  intro Hm. unfold zpoly. cbn [peval]. rewrite peval_app, peval_repeat0, repeat_length. cbn [peval]. replace m with (S (m - 1)) at 2 by lia. cbn [fpow]. ring.
Qed.
Lemma length_zpoly m : (0 < m)%nat -> length (zpoly m) = S m.
Proof. intro. unfold zpoly. cbn [length]. rewrite app_length, repeat_length. cbn [length]. lia. Qed.
Lemma sat_rows x s : x ONE = 1 -> (sat x s <-> forall i, (i < length (cons s))%nat -> nth i (avx x s) 0 * nth i (bvx x s) 0 = nth i (cvx x s) 0).
Proof.
  intro H1. unfold sat, avx, bvx, cvx. generalize (map (fun i => x (Input i)) (seq 0 (length (inps s)))) as tl. intro tl.
  assert (Forall (holds x) (cons s) <-> forall i, (i < length (cons s))%nat -> nth i (map (fun c => eval x (ca c)) (cons s) ++ tl) 0 * nth i (map (fun c => eval x (cb c)) (cons s)) 0 = nth i (map (fun c => eval x (cc c)) (cons s)) 0) as E.
  { induction (cons s) as [|c cl IH]; [split; [intros _ i Hi; cbn in Hi; lia|constructor]|]. split.
    - intros H i Hi. inversion H as [|? ? Hc Hr]; subst. destruct i as [|i]; [exact Hc|]. cbn [map app nth length] in *. apply IH; [exact Hr|lia].
    - intro H. constructor; [apply (H 0%nat); cbn; lia|]. apply IH. intros i Hi. apply (H (S i)). cbn; lia. }
  rewrite E. tauto.
Qed.
(** The polynomials satisfy the identity on the domain whatever the padding rows: there B and C vanish. *)
Lemma rows_all x s d : (length (cons s) + length (inps s) <= dsize d)%nat -> (forall i, (i < length (cons s))%nat -> nth i (avx x s) 0 * nth i (bvx x s) 0 = nth i (cvx x s) 0) ->
  forall i, nth i (avx x s) 0 * nth i (bvx x s) 0 = nth i (cvx x s) 0.
Proof.
  intros L H i. destruct (Nat.lt_ge_cases i (length (cons s))) as [Hi|Hi]; [apply H, Hi|].
  unfold bvx, cvx. rewrite !(nth_overflow (map _ (cons s))) by (rewrite map_length; exact Hi). ring.
Qed.
Lemma quotient_exists d (A B C : list K) : valid_dom d -> length A = dsize d -> length B = dsize d -> length C = dsize d ->
  (forall z, In z (dpts d) -> peval A z * peval B z = peval C z) ->
  exists H, (length H <= dsize d - 1)%nat /\ forall t, peval A t * peval B t - peval C t = (t ^ dsize d - 1) * peval H t.
Proof.
  intros V LA LB LC Hz. set (m := dsize d) in *. assert (0 < m)%nat as Hm by apply V.
  set (P := psub (pmul A B) C). assert (length P <= 2 * m - 1)%nat as LP.
  { unfold P. rewrite length_psub. pose proof (length_pmul1 K A B ltac:(lia)). lia. }
  pose proof (pdivz_ok K m P) as D. unfold pdivz in D. set (q := skipn m P) in *. set (r := padd (firstn m P) q) in *.
  assert (length q <= m - 1)%nat as Lq by (unfold q; rewrite skipn_length; lia).
  assert (is_zero r) as Zr.
  { apply (roots_zero K (dpts d)); [apply V| |].
    - rewrite length_dpts. unfold r. rewrite length_padd, firstn_length. fold m. lia.
    - intros z Iz. specialize (D z). pose proof (in_dpts K d V z Iz) as Ez. fold m in Ez. rewrite Ez in D. unfold P in D. rewrite peval_psub, peval_pmul, (Hz z Iz) in D.
      transitivity ((1 - 1) * peval q z + peval r z); [ring|]. rewrite <- D. ring. }
  exists q. split; [exact Lq|]. intro t. specialize (D t). unfold P in D. rewrite peval_psub, peval_pmul, (peval_zero K r) in D by exact Zr. rewrite D. ring.
Qed.
Lemma nth_zipw (f : K -> K -> K) a b i : (i < length a)%nat -> (i < length b)%nat -> nth i (zipw f a b) 0 = f (nth i a 0) (nth i b 0).
Proof.
  revert b i. induction a as [|x a IH]; intros [|y b] [|i] La Lb; cbn [length] in *; try lia; [reflexivity|]. change (nth i (zipw f a b) 0 = f (nth i a 0) (nth i b 0)). apply IH; lia.
Qed.
Lemma length_zipw {A} (f : A -> A -> A) a b : length (zipw f a b) = Nat.min (length a) (length b).
Proof. unfold zipw. rewrite map_length, combine_length. reflexivity. Qed.
Lemma idft_fill d (v : list K) : idft d (fill_to (dsize d) v) = idft d v.
Proof.
  unfold idft. apply map_ext. intro j. f_equal. apply sumn_ext. intros i _. f_equal. unfold fill_to.
  destruct (Nat.lt_ge_cases i (length v)) as [H|H]; [rewrite app_nth1 by exact H; reflexivity|].
  rewrite app_nth2 by exact H. rewrite nth_repeat, nth_overflow by exact H. reflexivity.
Qed.
Lemma witness_ok s d : wf s -> dnew (length (cons s) + length (inps s)) = Some d -> self_sat s ->
  exists h, witness_map dnew s = Ok h /\ length h = dsize d /\ nth (dsize d - 1) h 0 = 0 /\
    forall t, peval (idft d (avx (wit s) s)) t * peval (idft d (bvx (wit s) s)) t - peval (idft d (cvx (wit s) s)) t = (t ^ dsize d - 1) * peval h t.
Proof.
  intros W E Sat. destruct (DF _ _ E) as [V Ld]. destruct (wf_rows s W) as (Wa & Wb & Wc).
  unfold witness_map, num_inputs, num_aux, num_constraints. rewrite E. unfold at_, bt_, ct_.
  rewrite (eval_rows_ok s ca) by exact Wa. cbn [rbind]. rewrite (eval_rows_ok s cb) by exact Wb. cbn [rbind]. rewrite (eval_rows_ok s cc) by exact Wc. cbn [rbind].
  rewrite firstn_app, Nat.sub_diag, firstn_O, app_nil_r, firstn_all.
  assert (map (fun c => eval (wit s) (ca c)) (cons s) ++ inps s = avx (wit s) s) as ->.
  { unfold avx. f_equal. pose proof (full_wit s) as F. unfold full_vector in F. apply (f_equal (firstn (length (inps s)))) in F.
    rewrite !firstn_app, map_length, seq_length, !Nat.sub_diag, !firstn_O, !app_nil_r, firstn_all in F. rewrite <- F at 1. rewrite firstn_all2; [reflexivity|]. rewrite map_length, seq_length. lia. }
  fold (bvx (wit s) s). fold (cvx (wit s) s). rewrite !idft_fill.
  set (A := idft d (avx (wit s) s)). set (B := idft d (bvx (wit s) s)). set (C := idft d (cvx (wit s) s)).
  destruct (quotient_exists d A B C V) as (H & LH & QH); try apply length_idft.
  { intros z Iz. unfold dpts in Iz. apply in_map_iff in Iz. destruct Iz as (i & <- & Hi). apply in_seq in Hi. unfold A, B, C. rewrite !(idft_dom K d V) by lia.
    apply (rows_all (wit s) s d Ld). apply sat_rows; [apply Sat|exact Sat]. }
  match goal with |- exists h, Ok ?e = Ok h /\ _ => set (h := e) end.
  assert (forall i, nth i h 0 = nth i H 0) as Eh.
  { intro i. unfold h. rewrite <- (coset_roundtrip K d H V) by lia. f_equal. f_equal.
    apply nth_ext with (d := 0) (d' := 0).
    - rewrite map_length, !length_zipw. unfold coset_dft. rewrite !length_dft. lia.
    - intros k Hk. rewrite map_length, !length_zipw in Hk. unfold coset_dft in Hk. rewrite !length_dft in Hk. assert (k < dsize d)%nat as Hk' by lia.
      rewrite (nth_indep _ _ (0 * finv (vanish_at d (dshift d)))) by (rewrite map_length, !length_zipw; unfold coset_dft; rewrite !length_dft; lia).
      rewrite (map_nth (fun y : K => y * finv (vanish_at d (dshift d)))).
      rewrite nth_zipw, nth_zipw by (rewrite ?length_zipw; unfold coset_dft; rewrite ?length_dft; lia). rewrite !nth_coset_dft by exact Hk'.
      rewrite QH. rewrite (coset_vanish K d k V). unfold vanish_at. destruct V as (_ & _ & _ & _ & _ & Ng). field. intro Z. apply Ng. apply (proj1 (fsub_0 K _ _)) in Z. exact Z. }
  exists h. split; [reflexivity|]. split; [unfold h, coset_idft; rewrite length_shift, length_idft; reflexivity|]. split.
  - rewrite Eh. apply nth_overflow. lia.
  - intro t. rewrite QH. f_equal. apply nth_eq_peval. intro i. symmetry. apply Eh.
Qed.
(** ** Soundness of the reduction: enough evaluation points force satisfaction. *)
Lemma qap_sound s d x (h ts : list K) : wf s -> dnew (length (cons s) + length (inps s)) = Some d -> x ONE = 1 ->
  (length h <= dsize d - 1)%nat -> NoDup ts -> (2 * dsize d - 1 <= length ts)%nat ->
  (forall t, In t ts -> peval (idft d (avx x s)) t * peval (idft d (bvx x s)) t - peval (idft d (cvx x s)) t = (t ^ dsize d - 1) * peval h t) -> sat x s.
Proof.
  intros W E H1 Lh N Lt HT. destruct (DF _ _ E) as [V Ld]. set (m := dsize d) in *. assert (0 < m)%nat as Hm by apply V.
  apply (sat_rows x s H1). set (A := idft d (avx x s)) in *. set (B := idft d (bvx x s)) in *. set (C := idft d (cvx x s)) in *.
  set (P := psub (psub (pmul A B) C) (pmul h (zpoly m))).
  assert (length A = m /\ length B = m /\ length C = m) as (LA & LB & LC) by (unfold A, B, C; rewrite !length_idft; auto).
  assert (forall t, peval P t = peval A t * peval B t - peval C t - (t ^ m - 1) * peval h t) as EP.
  { intro t. unfold P. rewrite !peval_psub, !peval_pmul, peval_zpoly by exact Hm. ring. }
  assert (is_zero P) as Z.
  { apply (roots_zero K ts N).
    - unfold P. rewrite !length_psub. pose proof (length_pmul1 K A B ltac:(lia)). pose proof (length_zpoly m Hm). pose proof (length_pmul1 K h (zpoly m) ltac:(lia)). lia.
    - intros t It. rewrite EP, (HT t It). ring. }
  intros i Hi. pose proof (peval_zero K P (dgen d ^ i) Z) as Pz. rewrite EP in Pz. unfold A, B, C in Pz. rewrite !(idft_dom K d V) in Pz by (fold m; lia).
  assert ((dgen d ^ i) ^ m = 1) as Ew.
  { apply (in_dpts K d V). unfold dpts. apply in_map_iff. exists i. split; [reflexivity|]. apply in_seq. fold m. lia. }
  rewrite Ew in Pz. apply fsub_0. etransitivity; [|exact Pz]. ring.
Qed.

(** ** Completeness *)
Lemma shape_instance s1 s2 t : same_shape s1 s2 -> instance_map dnew s1 t = instance_map dnew s2 t.
Proof.
  intros (E1 & E2 & E3). unfold instance_map, num_inputs, num_aux, num_constraints, at_, bt_, ct_. rewrite E1, E2, E3. reflexivity.
Qed.
Lemma dot_w (be al : K) a : forall b c z, length b = length a -> length c = length a ->
  dot (map (fun '((x, y), z) => be * x + al * y + z) (combine (combine a b) c)) z = be * dot a z + al * dot b z + dot c z.
Proof.
  induction a as [|x a IH]; intros [|y b] [|w c] z Lb Lc; cbn [length] in *; try discriminate; [cbn; ring|].
  destruct z as [|v z]; cbn [combine map dot]; [ring|]. rewrite IH by congruence. ring.
Qed.
Lemma dot_scale_l (k : K) a : forall z, dot (map (fun x : K => x * k) a) z = k * dot a z.
Proof. induction a as [|x a IH]; intros [|y z]; cbn [map dot]; try ring. rewrite IH. ring. Qed.
Lemma dot_split (n : nat) : forall w u v : list K, length u = n -> dot w (u ++ v) = dot (firstn n w) u + dot (skipn n w) v.
Proof.
  induction n as [|n IH]; intros w u v L.
  - destruct u; [|discriminate]. cbn [firstn skipn app dot]. ring.
  - destruct u as [|y u]; [discriminate|]. destruct w as [|x w]; cbn [firstn skipn app dot]; [ring|]. rewrite IH by (cbn in L; lia). ring.
Qed.
Lemma dot_powers (k t : K) m h : length h = m -> nth (m - 1) h 0 = 0 -> dot (map (fun i => k * t ^ i) (seq 0 (m - 1))) h = k * peval h t.
Proof.
  intros L Z. rewrite dot_sumn, map_length, seq_length, peval_sum, L.
  rewrite (sumn_trunc K (m - 1) m) by (try lia; intros i Hi; replace i with (m - 1)%nat by lia; rewrite Z; ring).
  rewrite <- sumn_mul_l. apply sumn_ext. intros i Hi. rewrite nth_map_seq by exact Hi. ring.
Qed.
Section G.
Variable PR : Pairing K.
Arguments g_ic_loop {K PR}. Arguments calculate_coeff {K G}.
Lemma ic_base (g : G1 PR) : forall ys y0 xs, length ys = length xs -> g_ic_loop (gsm y0 g) xs (map (fun x : K => gsm x g) ys) = gsm (y0 + dot ys xs) g.
Proof.
  induction ys as [|y ys IH]; intros y0 [|x xs] L; try discriminate; cbn [g_ic_loop map dot].
  - f_equal. ring.
  - rewrite <- gsm_mul, <- gsm_add_l, IH by (cbn in L; lia). f_equal. ring.
Qed.
Lemma coeff_base (G : Grp K) (g : G) i a v z : a <> [] -> calculate_coeff (gsm i g) (map (fun x : K => gsm x g) a) (gsm v g) z = Ok (gsm (i + dot a (1 :: z) + v) g).
Proof.
  intro N. destruct a as [|x a]; [contradiction|]. cbn [calculate_coeff map dot]. rewrite msm_base, <- !gsm_add_l. do 2 f_equal. ring.
Qed.
Lemma coeff_base0 (G : Grp K) (g : G) i a v z : a <> [] -> calculate_coeff (gsm i g) (map (fun x : K => gsm x g) a) (gsm v g) z = Ok (gsm (i + dot a (1 :: z) + v) g).
Proof. apply coeff_base. Qed.
Theorem groth16_complete (circuit : M K unit) s1 s2 (al be ga de t r s : K) (h1 : G1 PR) (h2 : G2 PR) :
  circuit (cs_new Setup) = Ok (tt, s1) -> circuit (cs_new Prove) = Ok (tt, s2) -> same_shape s1 s2 -> wf s2 -> self_sat s2 ->
  dnew (length (cons s2) + length (inps s2)) <> None -> ga <> 0 -> de <> 0 ->
  exists p pf, generate_parameters K PR dnew circuit al be ga de t h1 h2 = Ok p /\ create_proof K PR dnew p circuit r s = Ok pf /\
    verify_proof K PR (prepare K PR (pvk K PR p)) pf (skipn 1 (inps s2)) = Ok true.
Proof.
  intros R1 R2 Sh W Sat Hd Hg Hde. destruct (dnew (length (cons s2) + length (inps s2))) as [d|] eqn:Ed; [clear Hd|contradiction].
  pose proof (inps_pos s2 W) as Hi. destruct (instance_ok s2 d t W Ed) as (a & b & c & Ei & La & Lb & Lc & Dx).
  destruct (witness_ok s2 d W Ed Sat) as (h & Eh & Lh & Zh & Qh).
  specialize (Dx (wit s2)). rewrite full_wit in Dx. destruct Dx as (DA & DB & DC). specialize (Qh t). rewrite <- DA, <- DB, <- DC in Qh.
  unfold generate_parameters. rewrite R1. cbn [rbind]. pose proof Sh as (S1 & S2 & S3).
  unfold num_inputs, num_constraints. rewrite S1, S2. replace (length (cons s2) + (length (inps s2) - 1) + 1)%nat with (length (cons s2) + length (inps s2))%nat by lia.
  rewrite Ed, (shape_instance s1 s2 t Sh), Ei. cbn [rbind].
  destruct (feqb_spec K ga 0) as [E|_]; [contradiction|]. destruct (feqb_spec K de 0) as [E|_]; [contradiction|].
  set (w := map (fun '((x, y), z) => be * x + al * y + z) (combine (combine a b) c)).
  assert (length w = length (inps s2) + length (auxs s2))%nat as Lw by (unfold w; rewrite map_length, !combine_length, La, Lb, Lc; lia).
  assert (map (fun '((x, y), z) => (be * x + al * y + z) * finv ga) (firstn (length (inps s2)) (combine (combine a b) c)) = map (fun x : K => x * finv ga) (firstn (length (inps s2)) w)) as ->.
  { unfold w. rewrite firstn_map, map_map. apply map_ext. intros [[? ?] ?]. reflexivity. }
  assert (map (fun '((x, y), z) => (be * x + al * y + z) * finv de) (combine (combine a b) c) = map (fun x : K => x * finv de) w) as ->.
  { unfold w. rewrite map_map. apply map_ext. intros [[? ?] ?]. reflexivity. }
  match goal with |- exists p pf, Ok ?e = Ok p /\ _ => exists e end. unfold create_proof. rewrite R2. cbn [rbind]. rewrite Eh. cbn [rbind delta_g1 a_query pvk alpha_g1 b_g1_query beta_g1 b_g2_query beta_g2 delta_g2 h_query l_query].
  destruct W as [[rest Er] W]. set (z := skipn 1 (inps s2) ++ auxs s2).
  assert (inps s2 ++ auxs s2 = 1 :: z) as Ez by (unfold z; rewrite Er; reflexivity).
  assert (a <> []) as Na by (intro E; rewrite E in La; cbn in La; lia). assert (b <> []) as Nb by (intro E; rewrite E in Lb; cbn in Lb; lia).
  rewrite <- !gsm_mul. rewrite !coeff_base by assumption. cbn [rbind]. rewrite <- Ez.
  set (A := dot a (inps s2 ++ auxs s2)) in *. set (B := dot b (inps s2 ++ auxs s2)) in *. set (C := dot c (inps s2 ++ auxs s2)) in *.
  assert (dot w (inps s2 ++ auxs s2) = be * A + al * B + C) as Dw by (apply dot_w; congruence).
  rewrite (dot_split (length (inps s2)) w (inps s2) (auxs s2) eq_refl) in Dw.
  assert (exists B1, (if negb (feqb r 0) then Ok (gsm (s * de + B + be) h1) else Ok g0) = Ok (gsm B1 h1) /\ r * B1 = r * (s * de + B + be)) as (B1 & EB & EB1).
  { destruct (feqb_spec K r 0) as [->|_]; cbn [negb]; [exists 0; rewrite gsm_0; split; [reflexivity|ring]|eexists; split; reflexivity]. }
  rewrite EB. cbn [rbind]. eexists. split; [reflexivity|]. split; [reflexivity|].
  unfold verify_proof, prepare. cbn [pv_abc gamma_abc_g1 pvk pa pb pc gamma_g2_neg delta_g2_neg gamma_g2 delta_g2 alpha_g1_beta_g2 alpha_g1 beta_g2].
  rewrite !map_length, firstn_length, skipn_length, Lw. replace (length (inps s2) - 1 + 1)%nat with (Nat.min (length (inps s2)) (length (inps s2) + length (auxs s2))) by lia.
  rewrite Nat.eqb_refl. cbn [negb].
  set (wi := firstn (length (inps s2)) w) in *. assert (length wi = length (inps s2)) as Lwi by (unfold wi; rewrite firstn_length; lia).
  clearbody wi. destruct wi as [|w0 wi]; [cbn in Lwi; lia|]. cbn [map].
  rewrite ic_base by (rewrite map_length, Er; rewrite Er in Lwi; cbn in Lwi |- *; lia). rewrite dot_scale_l.
  assert (dot (w0 :: wi) (inps s2) = w0 + dot wi (skipn 1 (inps s2))) as Di by (rewrite Er; cbn [dot skipn]; ring).
  rewrite Di in Dw. set (I := dot wi (skipn 1 (inps s2))) in *. set (L := dot (skipn (length (inps s2)) w) (auxs s2)) in *.
  rewrite (skipn_map (fun x : K => gsm x h1)), skipn_map, msm_base, dot_scale_l. fold L.
  assert (forall n, map (fun i => gsm ((t ^ dsize d - 1) * finv de * t ^ i) h1) (seq 0 n) = map (fun x : K => gsm x h1) (map (fun i => (t ^ dsize d - 1) * finv de * t ^ i) (seq 0 n))) as Em by (intro n; rewrite map_map; reflexivity).
  rewrite Em, msm_base, (dot_powers _ t (dsize d) h Lh Zh).
  f_equal. apply geqb_eq. rewrite <- !gsm_mul, EB1. rewrite <- !gsm_opp, <- !gsm_add_l.
  rewrite !pair_sm_l, !pair_sm_r, <- !gsm_mul, <- !gsm_add_l. f_equal.
  assert (C = A * B - (t ^ dsize d - 1) * peval h t) as EC by (rewrite <- Qh; ring).
  assert (L = be * A + al * B + C - (w0 + I)) as EL by (rewrite <- Dw; ring). rewrite EL, EC. field. split; assumption.
Qed.

(** ** Arity *)
Lemma verify_arity pk pf xs : (length xs + 1)%nat <> length (pv_abc K PR pk) -> verify_proof K PR pk pf xs = Err MalformedVerifyingKey.
Proof. intro H. unfold verify_proof. apply Nat.eqb_neq in H. rewrite H. reflexivity. Qed.
Lemma verify_total pk pf xs : (length xs + 1)%nat = length (pv_abc K PR pk) -> exists b, verify_proof K PR pk pf xs = Ok b.
Proof. intro H. unfold verify_proof. rewrite H, Nat.eqb_refl. cbn [negb]. destruct (pv_abc K PR pk); [cbn in H; lia|]. eexists. reflexivity. Qed.
Definition key_sum (pk : pvkey K PR) (xs : list K) : G1 PR := msm (pv_abc K PR pk) (1 :: xs).
Lemma ic_msm : forall bs xs (g : G1 PR), g_ic_loop g xs bs = gadd g (msm bs xs).
Proof.
  induction bs as [|b bs IH]; intros [|x xs] g; cbn [g_ic_loop msm]; try (symmetry; apply gadd_0r). rewrite IH. symmetry. apply gadd_assoc.
Qed.
Lemma verify_exact pk pf xs : verify_proof K PR pk pf xs = Ok true <-> (length xs + 1)%nat = length (pv_abc K PR pk) /\
  gadd (gadd (pair_e (pa K PR pf) (pb K PR pf)) (pair_e (key_sum pk xs) (gamma_g2_neg K PR pk))) (pair_e (pc K PR pf) (delta_g2_neg K PR pk)) = alpha_g1_beta_g2 K PR pk.
Proof.
  destruct (Nat.eq_dec (length xs + 1) (length (pv_abc K PR pk))) as [E|N].
  - unfold verify_proof, key_sum. rewrite E, Nat.eqb_refl. cbn [negb]. destruct (pv_abc K PR pk) as [|b0 bs]; [cbn in E; lia|].
    rewrite ic_msm. cbn [msm]. rewrite gsm_1. split.
    + intro H. injection H as H. split; [reflexivity|]. apply geqb_eq in H. exact H.
    + intros [_ H]. f_equal. apply geqb_eq. exact H.
  - rewrite verify_arity by exact N. split; [discriminate|intros [E _]; contradiction].
Qed.
Lemma verify_same_sum pk pf xs ys : verify_proof K PR pk pf xs = Ok true -> verify_proof K PR pk pf ys = Ok true ->
  pair_e (key_sum pk xs) (gamma_g2_neg K PR pk) = pair_e (key_sum pk ys) (gamma_g2_neg K PR pk).
Proof.
  intros H1 H2. apply verify_exact in H1, H2. destruct H1 as [_ H1], H2 as [_ H2]. rewrite <- H2 in H1.
  rewrite !(gadd_comm _ _ _ (pair_e (pc K PR pf) _)) in H1. apply gadd_cancel in H1. apply gadd_cancel in H1. exact H1.
Qed.
(** ** Malleability *)
Lemma verify_rescale pk pf xs k : k <> 0 -> verify_proof K PR pk pf xs = Ok true ->
  verify_proof K PR pk (mkPrf K PR (gsm k (pa K PR pf)) (gsm (finv k) (pb K PR pf)) (pc K PR pf)) xs = Ok true.
Proof.
  intros Hk H. apply verify_exact in H. destruct H as [L H]. apply verify_exact. split; [exact L|]. cbn [pa pb pc]. rewrite <- H. do 2 f_equal.
  rewrite pair_sm_l, pair_sm_r, <- gsm_mul, finv_r by exact Hk. apply gsm_1.
Qed.
Lemma pair_opp_r (a : G1 PR) (b : G2 PR) : pair_e a (gopp b) = gopp (pair_e a b).
Proof. rewrite !gopp_sm, pair_sm_r. reflexivity. Qed.
Lemma verify_shift vk pf xs k : verify_proof K PR (prepare K PR vk) pf xs = Ok true ->
  verify_proof K PR (prepare K PR vk) (mkPrf K PR (pa K PR pf) (gadd (pb K PR pf) (gsm k (delta_g2 K PR vk))) (gadd (pc K PR pf) (gsm k (pa K PR pf)))) xs = Ok true.
Proof.
  intro H. apply verify_exact in H. destruct H as [L H]. apply verify_exact. split; [exact L|]. rewrite <- H. cbn [pa pb pc prepare delta_g2_neg].
  rewrite pair_add_r, pair_add_l, pair_sm_r, pair_sm_l, !pair_opp_r.
  set (p := pair_e (pa K PR pf) (pb K PR pf)). set (q := pair_e (pa K PR pf) (delta_g2 K PR vk)). set (u := pair_e (key_sum _ _) _). set (v := gopp (pair_e (pc K PR pf) _)).
  rewrite <- (gadd_assoc _ _ p), (gadd_comm _ _ (gsm k q)), (gadd_assoc _ _ p u), gadd4. etransitivity; [apply f_equal|apply gadd_0r].
  rewrite gopp_sm, <- gsm_mul, <- gsm_add_l. rewrite <- (gsm_0 K _ q). f_equal. ring.
Qed.
End G.
End D.
End P.
Section Q.
Variable K : Fld.
Variable dnew : nat -> option (dom K).
Hypothesis DF : dom_family dnew.
Theorem qap_complete (s : cs K) d : wf s -> dnew (length (cons s) + length (inps s)) = Some d -> self_sat s ->
  exists h, witness_map K dnew s = Ok h /\ length h = dsize d /\ nth (dsize d - 1) h 0 = 0 /\
    forall t, exists a b c, instance_map K dnew s t = Ok (a, b, c, t ^ dsize d - 1, dsize d) /\
      let z := full_vector (wit s) s in dot a z * dot b z - dot c z = (t ^ dsize d - 1) * peval h t.
Proof.
  intros W E S. destruct (witness_ok K dnew DF s d W E S) as (h & Eh & Lh & Zh & Q). exists h. split; [exact Eh|]. split; [exact Lh|]. split; [exact Zh|].
  intro t. destruct (instance_ok K dnew DF s d t W E) as (a & b & c & Ei & _ & _ & _ & D). exists a, b, c. split; [exact Ei|].
  cbv zeta. destruct (D (wit s)) as (-> & -> & ->). apply Q.
Qed.
Theorem qap_sound_inst (s : cs K) d (x : var -> K) (h ts : list K) : wf s -> dnew (length (cons s) + length (inps s)) = Some d -> x ONE = 1 ->
  (length h <= dsize d - 1)%nat -> NoDup ts -> (2 * dsize d - 1 <= length ts)%nat ->
  (forall t, In t ts -> exists a b c zt m, instance_map K dnew s t = Ok (a, b, c, zt, m) /\
     let z := full_vector x s in dot a z * dot b z - dot c z = zt * peval h t) -> sat x s.
Proof.
  intros W E H1 Lh N L H. apply (qap_sound K dnew DF s d x h ts W E H1 Lh N L). intros t It. destruct (H t It) as (a & b & c & zt & m & Ei & Q).
  destruct (instance_ok K dnew DF s d t W E) as (a' & b' & c' & Ei' & _ & _ & _ & D). rewrite Ei in Ei'. injection Ei' as -> -> -> -> ->.
  cbv zeta in Q. destruct (D x) as (<- & <- & <-). exact Q.
Qed.
Lemma qap_too_large (s : cs K) t : wf s -> dnew (length (cons s) + length (inps s)) = None ->
  witness_map K dnew s = Err PolynomialDegreeTooLarge /\ instance_map K dnew s t = Err PolynomialDegreeTooLarge.
Proof.
  intros W E. unfold witness_map, instance_map, num_inputs, num_constraints. rewrite E. pose proof (inps_pos K s W).
  replace (length (cons s) + (length (inps s) - 1) + 1)%nat with (length (cons s) + length (inps s))%nat by lia. rewrite E. auto.
Qed.
End Q.
