(** Hyrax: one layer. *)
From Verif Require Import Field Poly Module ModTac ProofsPC ModelTranscript ModelMle SpecMle ProofsMle ModelLibra ProofsLibra ProofsLibra2 ModelSigma ProofsSigma ModelSpartan ProofsSpartan3 ModelSnark ModelHyrax ProofsHyrax ProofsHyrax2 ProofsHyrax3.
From Coq Require Import String List Lia.
Import ListNotations.
Local Open Scope string_scope.
Local Open Scope list_scope.
Local Open Scope fld_scope.
Section S.
Variable K : Fld.
Variable G : Grp K.
Variable ch : oracle K G.
Add Field Kf : (f_laws K).
Notation tr := (transcript K G).
Notation com p x b := (poly_commit_vec K G (mc_gens K G p) x (mc_h K G p) b).
Notation gval := (gval K).
Notation eval_eq := (eval_eq K).
Notation V := (V K).
Notation col := (col K).
Notation onehot := (onehot K).
Notation gop := (gop K).

Lemma nth_map2 (f : K -> K -> K) : forall (a b : list K) i, length a = length b -> (i < length a)%nat -> nth i (map (fun '(x, y) => f x y) (combine a b)) 0 = f (nth i a 0) (nth i b 0).
Proof. induction a as [|x a IH]; intros [|y b] i H L; cbn [length] in *; try lia. destruct i as [|i]; [reflexivity|]. cbn [combine map nth]. apply IH; lia. Qed.
Section Layer.
Variables (p : hparams K G) (vs : list (list K)) (gates : list gate) (log_n log_ng : nat) (u0 u1 : K) (qa ql qr : list K).
Hypothesis two : (1 + 1 : K) <> 0.
Hypothesis three : (1 + 1 + 1 : K) <> 0.
Hypothesis Hg : map gt_g gates = seq 0 (length gates).
Hypothesis Hop : Forall (fun g => gt_op g = 0 \/ gt_op g = 1)%nat gates.
Hypothesis Hlr : forall g, In g gates -> (gt_l g < 2 ^ log_ng /\ gt_r g < 2 ^ log_ng)%nat.
Hypothesis Lvs : length vs = (2 ^ log_n)%nat.
Hypothesis Lqa : length qa = log_n.
Hypothesis Lq : length ql = length qr.
Hypothesis Lg : length gates = (2 ^ length ql)%nat.
Definition xg : list K := map (fun '(a, b) => a * u0 + b * u1) (combine (eval_eq ql) (eval_eq qr)).
Definition temp : list (list K) := map (fun x => map (fun e => e * x) (eval_eq qa)) xg.
Definition cols : list (list K) := map (col vs) (seq 0 (2 ^ log_ng)).
Definition his : list (list K) := map (fun v => map (gval v) gates) vs.
Lemma xg_length : length xg = length gates.
Proof. unfold xg. rewrite map_length, combine_length, !eval_eq_length, <- Lq, Nat.min_id. symmetry. exact Lg. Qed.
Lemma xg_nth i : (i < length gates)%nat -> nth i xg 0 = nth i (eval_eq ql) 0 * u0 + nth i (eval_eq qr) 0 * u1.
Proof.
  intro H. unfold xg. apply (nth_map2 (fun a b => a * u0 + b * u1)); rewrite !eval_eq_length; [rewrite Lq; reflexivity|lia].
Qed.
Lemma temp_length : length temp = length gates.
Proof. unfold temp. rewrite map_length. exact xg_length. Qed.
Lemma tables_1 : Forall (fun v => length v = (2 ^ log_n)%nat) (temp ++ cols).
Proof.
  rewrite Forall_forall. intros v H. apply in_app_or in H. destruct H as [H|H]; apply in_map_iff in H; destruct H as (x & <- & _); [rewrite map_length, eval_eq_length, Lqa; reflexivity|]. unfold ProofsHyrax3.col. rewrite map_length. exact Lvs.
Qed.
Lemma gval_cut (v : list K) g : In g gates -> gval (map (fun i => nth i v 0) (seq 0 (2 ^ log_ng))) g = gval v g.
Proof.
  intro H. destruct (Hlr g H) as [A B]. rewrite !gval_gop. rewrite !(nth_map_seq K). destruct (Nat.ltb_spec (gt_l g) (2 ^ log_ng)); [|lia]. destruct (Nat.ltb_spec (gt_r g) (2 ^ log_ng)); [|lia]. reflexivity.
Qed.
Lemma nth_nil_0 i : nth i (@nil K) 0 = 0.
Proof. destruct i; reflexivity. Qed.
Lemma total_1 : total K (term_1 K gates) (temp ++ cols) log_n = V his qa ql * u0 + V his qa qr * u1.
Proof.
  rewrite !V_dot by (unfold his; rewrite map_length, Lvs, Lqa; lia). rewrite Lqa, <- !fsum_map_mul_r, <- fsum_map_add. unfold total. apply fsum_map_ext. intros s Hs. apply in_seq in Hs.
  assert (E : at_j K (temp ++ cols) s = map (fun x => nth s (eval_eq qa) 0 * x) xg ++ map (fun i => nth i (nth s vs []) 0) (seq 0 (2 ^ log_ng))).
  { unfold at_j, temp, cols. rewrite map_app, !map_map. f_equal; apply map_ext; intro x.
    - rewrite (nth_indep _ 0 (0 * x)) by (rewrite map_length, eval_eq_length, Lqa; lia). rewrite (map_nth (fun e => e * x)). reflexivity.
    - unfold ProofsHyrax3.col. rewrite <- (nth_nil_0 x) at 1. apply (map_nth (fun v => nth x v 0) vs []). }
  rewrite E, term_1_app by (try exact Hg; rewrite map_length; exact xg_length).
  assert (Eh : nth s his [] = map (gval (nth s vs [])) gates).
  { unfold his. rewrite (nth_indep _ [] ((fun v => map (gval v) gates) [])) by (rewrite map_length; lia). apply (map_nth (fun v => map (gval v) gates)). }
  rewrite Eh. rewrite !mle_dot by (rewrite map_length, ?Lq, ?Lg, ?Lq; lia). rewrite !gates_dot by exact Hg.
  transitivity (fsum (map (fun g => (gval (nth s vs []) g * nth (gt_g g) (eval_eq ql) 0 * (nth s (eval_eq qa) 0 * u0) + gval (nth s vs []) g * nth (gt_g g) (eval_eq qr) 0 * (nth s (eval_eq qa) 0 * u1))) gates)).
  - apply fsum_map_ext. intros g Hin. pose proof (idx_lt gates Hg g Hin) as Li. rewrite (nth_indep _ 0 (nth s (eval_eq qa) 0 * 0)) by (rewrite map_length, xg_length; exact Li). rewrite (map_nth (fun x => nth s (eval_eq qa) 0 * x)), xg_nth by exact Li. rewrite gval_cut by exact Hin. ring.
  - rewrite fsum_map_add, !fsum_map_mul_r. ring.
Qed.

(** After the first sum-check. *)
Section After1.
Variable rs : list K.
Hypothesis Lrs : length rs = log_n.
Definition e0 : K := mle (eval_eq qa) rs.
Definition pxg : list K := map (fun x => e0 * x) xg.
Definition vv : list K := map (fun i => mle (col vs i) rs) (seq 0 (2 ^ log_ng)).
Lemma heads_1 : map (fun v => mle v rs) (temp ++ cols) = pxg ++ vv.
Proof.
  rewrite map_app. unfold temp, cols, pxg, vv. rewrite !map_map. f_equal. apply map_ext. intro x. unfold e0. rewrite (mle_lin K x 0 (eval_eq qa) [] (map (fun e => e * x) (eval_eq qa)) rs); [ring|].
  intros i Hi. rewrite (nth_indep _ 0 (0 * x)) by (rewrite map_length, eval_eq_length, Lqa, <- Lrs; exact Hi). rewrite (map_nth (fun e => e * x)). ring.
Qed.
Lemma pxg_length : length pxg = length gates.
Proof. unfold pxg. rewrite map_length. exact xg_length. Qed.
Lemma vv_length : length vv = (2 ^ log_ng)%nat.
Proof. unfold vv. rewrite map_length, seq_length. reflexivity. Qed.
Lemma pxg_nth g : In g gates -> nth (gt_g g) pxg 0 = e0 * (nth (gt_g g) (eval_eq ql) 0 * u0 + nth (gt_g g) (eval_eq qr) 0 * u1).
Proof. intro H. pose proof (idx_lt gates Hg g H) as Li. unfold pxg. rewrite (nth_indep _ 0 (e0 * 0)) by (rewrite map_length, xg_length; exact Li). rewrite (map_nth (fun x => e0 * x)), xg_nth by exact Li. reflexivity. Qed.
Lemma claim_1 : term_1 K gates (map (fun v => mle v rs) (temp ++ cols)) = fsum (map (fun g => nth (gt_g g) pxg 0 * gop g (nth (gt_l g) vv 0) (nth (gt_r g) vv 0)) gates).
Proof. rewrite heads_1, term_1_app by (try exact Hg; exact pxg_length). reflexivity. Qed.
Lemma e0_ok : eval_eq_x_y K qa rs = Ok e0.
Proof.
  rewrite eval_eq_x_y_ok by (rewrite Lqa, Lrs; reflexivity). f_equal. unfold e0, mle. rewrite Lqa, Lrs. apply fsum_map_ext. intros bs Hb. apply cube_in in Hb. rewrite eval_eq_nth by (rewrite Hb, Lqa; reflexivity). reflexivity.
Qed.
(** The second and third. *)
Section Two.
Variables (lf : gate -> nat) (pp c : list K).
Hypothesis Hlf : forall g, In g gates -> (lf g < 2 ^ log_ng)%nat.
Definition sel : list (list K) := map (fun g => onehot log_ng (lf g)) gates.
Lemma tables_2 : Forall (fun v => length v = (2 ^ log_ng)%nat) (sel ++ [vv]).
Proof.
  rewrite Forall_forall. intros v H. apply in_app_or in H. destruct H as [H|[<-|[]]]; [|exact vv_length]. apply in_map_iff in H. destruct H as (g & <- & _). unfold ProofsHyrax3.onehot. rewrite map_length, seq_length. reflexivity.
Qed.
Lemma total_2 : total K (term_2 K gates pp c) (sel ++ [vv]) log_ng = fsum (map (fun g => nth (gt_g g) pp 0 * gop g (nth (lf g) vv 0) (nth (gt_g g) c 0)) gates).
Proof.
  unfold total. transitivity (fsum (map (fun s => fsum (map (fun g => nth s (onehot log_ng (lf g)) 0 * (nth (gt_g g) pp 0 * gop g (nth s vv 0) (nth (gt_g g) c 0))) gates)) (seq 0 (2 ^ log_ng)))).
  - apply fsum_map_ext. intros s _. unfold at_j, sel. rewrite map_app, map_map. cbn [map]. rewrite term_2_app by (try exact Hg; try exact Hop; rewrite map_length; reflexivity). apply fsum_map_ext. intros g Hin. rewrite (nth_idx K gates Hg (fun g => nth s (onehot log_ng (lf g)) 0) g Hin). ring.
  - rewrite (fsum_swap K (fun s g => nth s (onehot log_ng (lf g)) 0 * (nth (gt_g g) pp 0 * gop g (nth s vv 0) (nth (gt_g g) c 0)))). apply fsum_map_ext. intros g Hin.
    apply (sum_onehot K log_ng (lf g) (fun s => nth (gt_g g) pp 0 * gop g (nth s vv 0) (nth (gt_g g) c 0))). apply Hlf, Hin.
Qed.
Variable r : list K.
Hypothesis Lr : length r = log_ng.
Lemma heads_2 : map (fun v => mle v r) (sel ++ [vv]) = map (fun g => nth (lf g) (eval_eq r) 0) gates ++ [mle vv r].
Proof. unfold sel. rewrite map_app, map_map. cbn [map]. f_equal. apply map_ext_in. intros g Hin. apply mle_onehot; [apply Hlf, Hin|exact Lr]. Qed.
Lemma claim_2 : term_2 K gates pp c (map (fun v => mle v r) (sel ++ [vv])) = fsum (map (fun g => nth (lf g) (eval_eq r) 0 * nth (gt_g g) pp 0 * gop g (mle vv r) (nth (gt_g g) c 0)) gates).
Proof.
  rewrite heads_2, term_2_app by (try exact Hg; try exact Hop; rewrite map_length; reflexivity). apply fsum_map_ext. intros g Hin. rewrite (nth_idx K gates Hg (fun g => nth (lf g) (eval_eq r) 0) g Hin). reflexivity.
Qed.
Lemma mle_vv : mle vv r = V vs rs r.
Proof. unfold vv. rewrite <- Lr. apply V_cols. Qed.
End Two.
Definition r_of (g : gate) (v : list K) : K := nth (gt_r g) v 0.
(** The factor of the third sum-check. *)
Lemma pxg'_nth r0 x g : length r0 = log_ng -> In g gates ->
  nth (gt_g g) (map (fun '(a, b) => a * b) (combine (map (fun g => nth (gt_l g) (eval_eq r0) 0) gates ++ [x]) pxg)) 0 = nth (gt_l g) (eval_eq r0) 0 * nth (gt_g g) pxg 0.
Proof.
  intros L Hin. pose proof (idx_lt gates Hg g Hin) as Li.
  assert (E : combine (map (fun g => nth (gt_l g) (eval_eq r0) 0) gates ++ [x]) pxg = combine (map (fun g => nth (gt_l g) (eval_eq r0) 0) gates) pxg).
  { assert (Q : forall (a b c : list K), length a = length c -> combine (a ++ b) c = combine a c) by (clear; induction a as [|u a IH]; intros b [|w c] H; try discriminate; [destruct b; reflexivity|]; cbn; rewrite IH by (injection H as H; exact H); reflexivity). apply Q. rewrite map_length, pxg_length. reflexivity. }
  rewrite E, (nth_map2 (fun a b => a * b)) by (rewrite ?map_length, ?pxg_length; try reflexivity; exact Li). rewrite (nth_idx K gates Hg (fun g => nth (gt_l g) (eval_eq r0) 0) g Hin). reflexivity.
Qed.
(** The wiring coefficients. *)
Lemma gate_evals_ok r0 r1 gs : length r0 = log_ng -> length r1 = log_ng -> (forall g, In g gs -> In g gates) -> forall a m, exists a' m',
  foldr (gate_step K e0 (eval_eq ql) (eval_eq qr) (eval_eq r0) (eval_eq r1) u0 u1) (a, m) gs = Ok (a', m') /\
  forall x y, a' * (x + y) + m' * (x * y) = a * (x + y) + m * (x * y) + fsum (map (fun g => nth (gt_r g) (eval_eq r1) 0 * (nth (gt_l g) (eval_eq r0) 0 * nth (gt_g g) pxg 0) * gop g y x) gs).
Proof.
  intros L0 L1. induction gs as [|g gs IH]; intros Hin a m; [exists a, m; split; [reflexivity|]; intros x y; cbn [map fsum]; ring|].
  pose proof (Hin g (or_introl eq_refl)) as Hi. pose proof (idx_lt gates Hg g Hi) as Li. destruct (Hlr g Hi) as [Hl Hr]. cbn [foldr]. unfold gate_step at 1.
  rewrite !(kget_ok K) by (rewrite eval_eq_length, ?L0, ?L1, <- ?Lq; lia). cbn [rbind]. rewrite Forall_forall in Hop.
  destruct (Hop g Hi) as [E|E]; rewrite E; cbn [Nat.eqb rbind fst snd]; match goal with |- context [foldr _ (?a1, ?m1) gs] => destruct (IH (fun h Hh => Hin h (or_intror Hh)) a1 m1) as (a' & m' & F & Q) end; exists a', m'; (split; [exact F|]); intros x y; rewrite Q; cbn [map fsum]; unfold gop at 2, ProofsHyrax3.gop; rewrite E; cbn [Nat.eqb]; rewrite pxg_nth by exact Hi; ring.
Qed.
End After1.
End Layer.
End S.
