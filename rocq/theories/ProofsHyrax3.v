(** Hyrax: the sums that the three sum-checks of one layer are about. *)
From Verif Require Import Field Poly Module ModTac ProofsPC ModelTranscript ModelMle SpecMle ProofsMle ModelLibra ProofsLibra ProofsLibra2 ModelSigma ProofsSigma ModelSpartan ProofsSpartan3 ModelSnark ModelHyrax.
From Coq Require Import String List Lia.
Import ListNotations.
Local Open Scope string_scope.
Local Open Scope list_scope.
Local Open Scope fld_scope.
Section S.
Variable K : Fld.
Add Field Kf : (f_laws K).
Notation gval := (gval K).
Notation eval_eq := (eval_eq K).

(** ** Values of a layer *)
(** The layer's values in all instances, at the point (a, b): a selects the instance, b the node. *)
Definition V (vs : list (list K)) (a b : list K) : K := mle (map (fun v => mle v b) vs) a.
Definition col (vs : list (list K)) (i : nat) : list K := map (fun v => nth i v 0) vs.
Lemma mle_empty (r : list K) : mle [] r = 0.
Proof. unfold mle. apply fsum_map_0. intros bs _. destruct (bits_val bs); cbn [nth]; ring. Qed.
Lemma V_cols vs a b : mle (map (fun i => mle (col vs i) a) (seq 0 (2 ^ length b))) b = V vs a b.
Proof.
  unfold V, mle at 1 3.
  transitivity (fsum (map (fun bs => fsum (map (fun cs => nth (bits_val bs) (nth (bits_val cs) vs []) 0 * chi cs a * chi bs b) (cube (length a)))) (cube (length b)))).
  - apply fsum_map_ext. intros bs Hb. apply cube_in in Hb. rewrite (nth_map_seq K). pose proof (bits_val_lt bs) as L. rewrite Hb in L. destruct (Nat.ltb_spec (bits_val bs) (2 ^ length b)); [|lia]. unfold mle. rewrite <- fsum_map_mul_r. apply fsum_map_ext. intros cs _. unfold col.
    assert (nth (bits_val cs) (map (fun v => nth (bits_val bs) v 0) vs) 0 = nth (bits_val bs) (nth (bits_val cs) vs []) 0) as ->; [|ring].
    assert (nth (bits_val bs) (@nil K) 0 = 0) as E0 by (destruct (bits_val bs); reflexivity). rewrite <- E0 at 1. apply (map_nth (fun v => nth (bits_val bs) v 0) vs []).
  - rewrite (fsum_swap K (fun bs cs => nth (bits_val bs) (nth (bits_val cs) vs []) 0 * chi cs a * chi bs b)). apply fsum_map_ext. intros cs _.
    rewrite <- (mle_empty b) at 1. rewrite (map_nth (fun v => mle v b)). unfold mle. rewrite <- fsum_map_mul_r. apply fsum_map_ext. intros bs _. ring.
Qed.
Lemma V_dot vs a b : (length vs <= 2 ^ length a)%nat -> V vs a b = fsum (map (fun s => mle (nth s vs []) b * nth s (eval_eq a) 0) (seq 0 (2 ^ length a))).
Proof.
  intro L. unfold V. rewrite mle_dot by (rewrite map_length; exact L). rewrite (dot_seq K) by (rewrite map_length, eval_eq_length; exact L). rewrite eval_eq_length. apply fsum_map_ext. intros s _. rewrite <- (mle_empty b) at 1. rewrite (map_nth (fun v => mle v b)). reflexivity.
Qed.

(** ** Gates in order *)
Section Gates.
Variable gates : list gate.
Hypothesis Hg : map gt_g gates = seq 0 (length gates).
Lemma combine_idx : combine (seq 0 (length gates)) gates = map (fun g => (gt_g g, g)) gates.
Proof. rewrite <- Hg. clear Hg. induction gates as [|g gs IH]; [reflexivity|]. cbn [map combine]. rewrite IH. reflexivity. Qed.
Lemma nth_idx (f : gate -> K) g : In g gates -> nth (gt_g g) (map f gates) 0 = f g.
Proof.
  intro H. assert (Q : forall gs s, map gt_g gs = seq s (length gs) -> In g gs -> nth (gt_g g - s) (map f gs) 0 = f g /\ (s <= gt_g g)%nat).
  { clear. induction gs as [|h gs IH]; intros s E H; [destruct H|]. cbn [length seq map] in E. injection E as E1 E2. destruct H as [-> | H].
    - rewrite E1, Nat.sub_diag. split; [reflexivity|lia].
    - destruct (IH (S s) E2 H) as [A B]. split; [|lia]. replace (gt_g g - s)%nat with (S (gt_g g - S s)) by lia. exact A. }
  destruct (Q gates 0%nat Hg H) as [A _]. rewrite Nat.sub_0_r in A. exact A.
Qed.
Lemma idx_lt g : In g gates -> (gt_g g < length gates)%nat.
Proof. intro H. apply (in_map gt_g) in H. rewrite Hg in H. apply in_seq in H. lia. Qed.
Definition gop (g : gate) (a b : K) : K := if Nat.eqb (gt_op g) 0 then a + b else a * b.
Lemma gval_gop v g : gval v g = gop g (nth (gt_l g) v 0) (nth (gt_r g) v 0).
Proof. reflexivity. Qed.
Lemma term_1_app (A B : list K) : length A = length gates -> term_1 K gates (A ++ B) = fsum (map (fun g => nth (gt_g g) A 0 * gval B g) gates).
Proof.
  intro L. unfold term_1. rewrite combine_idx, map_map. apply fsum_map_ext. intros g Hin. rewrite app_nth1 by (rewrite L; apply idx_lt, Hin). rewrite !app_nth2 by lia. rewrite L.
  replace (length gates + gt_l g - length gates)%nat with (gt_l g) by lia. replace (length gates + gt_r g - length gates)%nat with (gt_r g) by lia. reflexivity.
Qed.
Hypothesis Hop : Forall (fun g => gt_op g = 0 \/ gt_op g = 1)%nat gates.
Lemma term_2_app (p c A : list K) v : length A = length gates -> term_2 K gates p c (A ++ [v]) = fsum (map (fun g => nth (gt_g g) A 0 * nth (gt_g g) p 0 * gop g v (nth (gt_g g) c 0)) gates).
Proof.
  intro L. unfold term_2. rewrite combine_idx, map_map. apply fsum_map_ext. intros g Hin. rewrite app_nth1 by (rewrite L; apply idx_lt, Hin). rewrite app_nth2 by lia. rewrite L, Nat.sub_diag. cbn [nth].
  rewrite Forall_forall in Hop. unfold gop. destruct (Hop g Hin) as [-> | ->]; reflexivity.
Qed.
Lemma gop_comm g a b : gop g a b = gop g b a.
Proof. unfold gop. destruct (Nat.eqb _ _); ring. Qed.

(** ** The summands have small degree *)
Lemma term_1_cubic : cubicT K (term_1 K gates).
Proof.
  intros u w. unfold term_1. apply (cubic_sum K (combine (seq 0 (length gates)) gates) (fun x X => let '(i, g) := x in nth i (interp K X u w) 0 * (if Nat.eqb (gt_op g) 0 then nth (length gates + gt_l g) (interp K X u w) 0 + nth (length gates + gt_r g) (interp K X u w) 0 else nth (length gates + gt_l g) (interp K X u w) 0 * nth (length gates + gt_r g) (interp K X u w) 0))).
  intros [i g] _. destruct (interp_nth K u w i) as (b0 & c0 & H0). destruct (interp_nth K u w (length gates + gt_l g)) as (b1 & c1 & H1). destruct (interp_nth K u w (length gates + gt_r g)) as (b2 & c2 & H2). destruct (Nat.eqb (gt_op g) 0).
  - exists 0, (b0 * (b1 + b2)), (b0 * (c1 + c2) + c0 * (b1 + b2)), (c0 * (c1 + c2)). intro X. rewrite H0, H1, H2. ring.
  - exists (b0 * b1 * b2), (b0 * (b1 * c2 + c1 * b2) + c0 * b1 * b2), (b0 * c1 * c2 + c0 * (b1 * c2 + c1 * b2)), (c0 * c1 * c2). intro X. rewrite H0, H1, H2. ring.
Qed.
Lemma term_2_quad p c : quadT K (term_2 K gates p c).
Proof.
  intros u w. unfold term_2. apply (quad_sum K (combine (seq 0 (length gates)) gates) (fun x X => let '(i, g) := x in if Nat.eqb (gt_op g) 0 then nth i (interp K X u w) 0 * nth i p 0 * (nth (length gates) (interp K X u w) 0 + nth i c 0) else if Nat.eqb (gt_op g) 1 then nth i (interp K X u w) 0 * nth i p 0 * (nth (length gates) (interp K X u w) 0 * nth i c 0) else 0)).
  intros [i g] _. destruct (interp_nth K u w i) as (b0 & c0 & H0). destruct (interp_nth K u w (length gates)) as (b1 & c1 & H1). set (q := nth i p 0). set (d := nth i c 0). destruct (Nat.eqb (gt_op g) 0); [|destruct (Nat.eqb (gt_op g) 1)].
  - exists (b0 * q * b1), (b0 * q * (c1 + d) + c0 * q * b1), (c0 * q * (c1 + d)). intro X. rewrite H0, H1. ring.
  - exists (b0 * q * b1 * d), (b0 * q * c1 * d + c0 * q * b1 * d), (c0 * q * c1 * d). intro X. rewrite H0, H1. ring.
  - exists 0, 0, 0. intro X. ring.
Qed.

(** ** The bits of a gate number *)
Definition onehot (k i : nat) : list K := map (fun j => if Nat.eqb j i then 1 else 0) (seq 0 (2 ^ k)).
Lemma mle_onehot k i r : (i < 2 ^ k)%nat -> length r = k -> mle (onehot k i) r = nth i (eval_eq r) 0.
Proof.
  intros Hi L. rewrite mle_dot by (unfold onehot; rewrite map_length, seq_length, L; lia). rewrite (dot_seq K) by (unfold onehot; rewrite map_length, seq_length, eval_eq_length, L; lia). rewrite eval_eq_length, L.
  rewrite (fsum_map_ext K _ (fun j => nth j (eval_eq r) 0 * (if Nat.eq_dec j i then 1 else 0))).
  - apply (fsum_pick K Nat.eq_dec); [apply seq_NoDup|]. apply in_seq. lia.
  - intros j Hj. apply in_seq in Hj. unfold onehot. rewrite (nth_map_seq K). destruct (Nat.ltb_spec j (2 ^ k)); [|lia]. destruct (Nat.eqb_spec j i), (Nat.eq_dec j i); try lia; ring.
Qed.
Lemma sum_onehot k i (F : nat -> K) : (i < 2 ^ k)%nat -> fsum (map (fun s => nth s (onehot k i) 0 * F s) (seq 0 (2 ^ k))) = F i.
Proof.
  intro Hi. rewrite (fsum_map_ext K _ (fun j => F j * (if Nat.eq_dec j i then 1 else 0))).
  - apply (fsum_pick K Nat.eq_dec); [apply seq_NoDup|]. apply in_seq. lia.
  - intros j Hj. apply in_seq in Hj. unfold onehot. rewrite (nth_map_seq K). destruct (Nat.ltb_spec j (2 ^ k)); [|lia]. destruct (Nat.eqb_spec j i), (Nat.eq_dec j i); try lia; ring.
Qed.
End Gates.
Lemma digits_ok : forall fuel n, (n <= fuel)%nat -> forall k, (n < 2 ^ k)%nat -> (length (digits K fuel n) <= k)%nat /\ exists bs, length bs = k /\ bits_val bs = n /\ rev (digits K fuel n ++ repeat 0 (k - length (digits K fuel n))) = map bit bs.
Proof.
  induction fuel as [|f IH]; intros n Hn k Hk.
  - assert (n = 0)%nat by lia. subst n. cbn [digits length app]. split; [lia|]. exists (repeat false k). rewrite Nat.sub_0_r, repeat_length. split; [reflexivity|]. split.
    + clear. induction k as [|k IH]; [reflexivity|]. cbn [repeat]. rewrite bits_val_cons. exact IH.
    + clear. induction k as [|k IH]; [reflexivity|]. cbn [repeat map]. rewrite <- IH. cbn [rev]. assert (forall n (x : K), rev (repeat x n) = repeat x n) as Q. { clear. intros n x. induction n as [|n IH]; [reflexivity|]. cbn [repeat rev]. rewrite IH. symmetry. apply repeat_cons. } rewrite Q. symmetry. apply (repeat_cons k 0).
  - destruct n as [|n'].
    + cbn [digits length app]. split; [lia|]. exists (repeat false k). rewrite Nat.sub_0_r, repeat_length. split; [reflexivity|]. split.
      * clear. induction k as [|k IH]; [reflexivity|]. cbn [repeat]. rewrite bits_val_cons. exact IH.
      * clear. assert (forall n (x : K), rev (repeat x n) = repeat x n) as Q. { clear. intros n x. induction n as [|n IH]; [reflexivity|]. cbn [repeat rev]. rewrite IH. symmetry. apply repeat_cons. } rewrite Q. induction k as [|k IH]; [reflexivity|]. cbn [repeat map]. rewrite <- IH. reflexivity.
    + set (n := S n') in *. destruct k as [|k]; [cbn in Hk; lia|]. assert (Hh : (n / 2 <= f)%nat) by (pose proof (Nat.div_lt n 2); lia).
      assert (Hk' : (n / 2 < 2 ^ k)%nat) by (apply Nat.div_lt_upper_bound; [lia|]; cbn [Nat.pow] in Hk; lia).
      destruct (IH (n / 2)%nat Hh k Hk') as (L & bs & Lb & Vb & E). change (digits K (S f) n) with ((if Nat.even n then 0 else 1) :: digits K f (n / 2)). cbn [length]. split; [lia|].
      exists (bs ++ [negb (Nat.even n)]). rewrite app_length, Lb. split; [cbn; lia|]. split.
      * rewrite bits_val_snoc, Vb. pose proof (Nat.div_mod n 2 ltac:(lia)) as D. destruct (Nat.even n) eqn:Ev; cbn [negb].
        -- apply Nat.even_spec in Ev. destruct Ev as [q ->]. rewrite (Nat.mul_comm 2 q), Nat.div_mul by lia. lia.
        -- assert (Od : Nat.odd n = true) by (unfold Nat.odd; rewrite Ev; reflexivity). apply Nat.odd_spec in Od. destruct Od as [q ->]. replace ((2 * q + 1) / 2)%nat with q; [lia|]. apply (Nat.div_unique _ 2 q 1); lia.
      * cbn [app rev]. rewrite map_app. cbn [map]. replace (S k - S (length (digits K f (n / 2))))%nat with (k - length (digits K f (n / 2)))%nat by lia. rewrite E. f_equal. destruct (Nat.even n); reflexivity.
Qed.
Lemma convert_ok i k : (i < 2 ^ k)%nat -> exists bs, convert_to_bit K i k = Ok (map bit bs) /\ length bs = k /\ bits_val bs = i.
Proof.
  intro H. unfold convert_to_bit. destruct (digits_ok i i ltac:(lia) k H) as (L & bs & Lb & Vb & E). destruct (Nat.ltb_spec k (length (digits K i i))); [lia|]. exists bs. rewrite E. repeat split; assumption.
Qed.
Lemma eval_eq_onehot bs : eval_eq (map bit bs) = onehot (length bs) (bits_val bs).
Proof.
  apply (nth_ext _ _ 0 0); [unfold onehot; rewrite eval_eq_length, !map_length, seq_length; reflexivity|]. intros j Hj. rewrite eval_eq_length, map_length in Hj. unfold onehot. rewrite (nth_map_seq K). destruct (Nat.ltb_spec j (2 ^ length bs)); [|lia].
  assert (exists cs, length cs = length bs /\ bits_val cs = j) as (cs & Lc & <-).
  { assert (I : In j (map bits_val (cube (length bs)))) by (rewrite cube_vals; apply in_seq; lia). apply in_map_iff in I. destruct I as (cs & E & Hc). exists cs. apply cube_in in Hc. split; assumption. }
  rewrite eval_eq_nth by (rewrite map_length; exact Lc). rewrite chi_bits by exact Lc. destruct (list_eq_dec _ cs bs) as [->|N]; [rewrite Nat.eqb_refl; reflexivity|]. destruct (Nat.eqb_spec (bits_val cs) (bits_val bs)) as [E|_]; [|reflexivity].
  exfalso. apply N. rewrite <- (cube_nth (length bs) cs Lc), E. apply cube_nth. reflexivity.
Qed.
Lemma selectors_ok (lf : gate -> nat) k gates : (forall g, In g gates -> (lf g < 2 ^ k)%nat) -> mapr (fun g => rmap eval_eq (convert_to_bit K (lf g) k)) gates = Ok (map (fun g => onehot k (lf g)) gates).
Proof.
  induction gates as [|g gates IH]; intro H; [reflexivity|]. cbn [mapr map]. destruct (convert_ok (lf g) k (H g (or_introl eq_refl))) as (bs & E & L & B). rewrite E. cbn [rmap rbind]. rewrite IH by (intros h Hh; apply H; right; exact Hh). cbn [rmap rbind]. rewrite eval_eq_onehot, L, B. reflexivity.
Qed.
End S.
