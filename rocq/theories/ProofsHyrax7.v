(** Hyrax: the two openings of the committed witness, and how padded vectors line up. *)
From Verif Require Import Field Poly Module ModTac ProofsPC ModelTranscript ModelMle SpecMle ProofsMle ModelBulletproofs ProofsIPP ProofsBulletproofs ModelLibra SpecLibra ProofsLibra ProofsLibra2 ProofsLibra3 ProofsLibra4 ModelSigma ProofsSigma ProofsSigma3 ProofsSigma4 ModelSpartan ModelSnark ModelHyrax AttackHyrax ProofsHyrax ProofsHyrax2 ProofsHyrax3 ProofsHyrax6.
From Coq Require Import String List Lia.
Import ListNotations.
Local Open Scope string_scope.
Local Open Scope list_scope.
Local Open Scope fld_scope.
Section S.
Variable K : Fld.
Variable G : Grp K.
Variable ch : oracle K G.
Add Field Kf : (f_laws K).
Notation tr := (transcript K G).
Notation com p x b := (poly_commit_vec K G (mc_gens K G p) x (mc_h K G p) b).
Notation V := (V K).
Notation padded := (padded K).

(** ** Padded vectors *)
Lemma padded_length S (vs : list (list K)) : Forall (fun v => next_pow2 (length v) = S) vs -> length (padded vs) = (length vs * S)%nat.
Proof.
  unfold ModelHyrax.padded. induction vs as [|v vs IH]; intro H; [reflexivity|]. inversion H as [|? ? A B]; subst. cbn [map concat length]. rewrite app_length, app_length, repeat_length. specialize (IH B). pose proof (np_le (length v)). cbn [Nat.mul]. lia.
Qed.
Lemma padded_short S (vs : list (list K)) : Forall (fun v => length v <= S)%nat vs -> next_pow2 S = S -> length (padded vs) = (length vs * S)%nat -> Forall (fun v => next_pow2 (length v) = S) vs.
Proof.
  intros H P. induction vs as [|v vs IH]; intro E; [constructor|]. inversion H as [|? ? A B]; subst.
  assert (L : (next_pow2 (length v) <= S)%nat) by (rewrite <- P; apply np_mono, A).
  assert (L2 : (length (padded vs) <= length vs * S)%nat) by (apply padded_le; revert B; apply Forall_impl; intros a Q; rewrite <- P; apply np_mono, Q).
  unfold ModelHyrax.padded in *. cbn [map concat length] in E. rewrite app_length, app_length, repeat_length in E. pose proof (np_le (length v)). cbn [Nat.mul] in E. constructor; [lia|]. apply IH; [exact B|lia].
Qed.
Lemma padded_nth S (vs : list (list K)) : Forall (fun v => next_pow2 (length v) = S) vs -> forall i j, (j < S)%nat -> nth (i * S + j) (padded vs) 0 = nth j (nth i vs []) 0.
Proof.
  unfold ModelHyrax.padded. induction vs as [|v vs IH]; intros H i j Hj; [cbn [map concat]; destruct i, j; cbn [nth]; destruct (_ * _ + _)%nat; reflexivity|]. inversion H as [|? ? A B]; subst. pose proof (np_le (length v)) as L. cbn [map concat].
  assert (Lp : length (v ++ repeat (0 : K) (next_pow2 (length v) - length v)) = next_pow2 (length v)) by (rewrite app_length, repeat_length; lia).
  destruct i as [|i].
  - rewrite app_nth1 by (rewrite Lp; cbn [Nat.mul]; lia). cbn [Nat.mul nth Nat.add]. destruct (le_lt_dec (length v) j) as [C|C]; [|apply app_nth1, C]. rewrite app_nth2 by exact C. rewrite (nth_overflow v) by exact C. apply nth_repeat.
  - rewrite app_nth2 by (rewrite Lp; cbn [Nat.mul]; lia). rewrite Lp. cbn [nth]. rewrite <- (IH B i j Hj). f_equal. cbn [Nat.mul]. lia.
Qed.
Lemma padded_mle s (vs : list (list K)) qa qt : Forall (fun v => next_pow2 (length v) = 2 ^ s)%nat vs -> (length vs <= 2 ^ length qa)%nat -> length qt = s -> mle (padded vs) (qa ++ qt) = V vs qa qt.
Proof.
  intros H L Lt. rewrite mle_app, V_dot by exact L. rewrite sumn_fsum. apply fsum_map_ext. intros i Hi. rewrite Lt, sumn_fsum.
  rewrite (fsum_map_ext K _ (fun j => nth j (nth i vs []) 0 * nth j (eval_eq K qt) 0)).
  - rewrite mle_dot, (dot_seq K), eval_eq_length, Lt; [ring|rewrite eval_eq_length, Lt|rewrite Lt].
    all: destruct (le_lt_dec (length vs) i) as [C|C]; [rewrite nth_overflow by exact C; cbn [length]; lia|].
    all: rewrite Forall_forall in H; rewrite <- (H (nth i vs []) (nth_In _ _ C)); apply np_le.
  - intros j Hj. apply in_seq in Hj. rewrite padded_nth by (assumption || lia). reflexivity.
Qed.
(** The input layers against the two padded vectors. *)
Lemma V_split s (ins ws : list (list K)) qa q0 qt : length ins = length ws -> (length ws <= 2 ^ length qa)%nat -> length qt = s -> Forall (fun v => length v <= 2 ^ s)%nat ins -> Forall (fun v => length v <= 2 ^ s)%nat ws ->
  V (map (fun '(i, w) => intended_layer (2 ^ s) i w) (combine ins ws)) qa (q0 :: qt) = (1 - q0) * V ws qa qt + q0 * V ins qa qt.
Proof.
  intros E L Lt Hi Hw. unfold ProofsHyrax3.V. apply mle_lin. intros i Hlt. rewrite map_map.
  destruct (le_lt_dec (length ws) i) as [C|C]; [rewrite !nth_overflow by (rewrite ?map_length, ?combine_length; lia); ring|].
  rewrite (nth_indep _ 0 (mle (intended_layer (2 ^ s) [] []) (q0 :: qt))) by (rewrite map_length, combine_length; lia).
  rewrite (nth_indep (map _ ws) 0 (mle [] qt)) by (rewrite map_length; lia). rewrite (nth_indep (map _ ins) 0 (mle [] qt)) by (rewrite map_length; lia).
  rewrite !(map_nth (fun v => mle v qt)).
  transitivity ((fun x : list K * list K => mle (let '(i, w) := x in intended_layer (2 ^ s) i w) (q0 :: qt)) (nth i (combine ins ws) ([], []))).
  - exact (map_nth (fun x : list K * list K => mle (let '(i, w) := x in intended_layer (2 ^ s) i w) (q0 :: qt)) (combine ins ws) ([], []) i).
  - cbv beta. rewrite combine_nth by exact E. rewrite Forall_forall in Hi, Hw. rewrite intended_split; [reflexivity|exact Lt| |]; [apply Hi, nth_In; lia|apply Hw, nth_In; lia].
Qed.

(** ** The openings *)
Variable p : hparams K G.
Hypothesis E1 : hp_1 K G p = pc_gen_1 K G (hp_pc K G p).
Hypothesis Eh : mc_h K G (pc_gen_n K G (hp_pc K G p)) = mc_h K G (pc_gen_1 K G (hp_pc K G p)).
Hypothesis En : length (mc_gens K G (pc_gen_n K G (hp_pc K G p))) = pc_n K G (hp_pc K G p).
Notation gn := (mc_gens K G (pc_gen_n K G (hp_pc K G p))).
Notation hn := (mc_h K G (pc_gen_n K G (hp_pc K G p))).
Lemma com_mix (m : mcp K G) a b x y r : gadd (gsm a (com m [x] r)) (gsm b (com m [y] 0)) = com m [a * x + b * y] (a * r).
Proof. unfold poly_commit_vec. destruct (mc_gens K G m) as [|g gs]; [|rewrite !msm1; cbn [hd]]; cbn [msm]; gmod; try ring. Qed.
Lemma open_complete wv wr cw wb inputs qa q v bv e (t : tr) pf cy eq t' :
  packing_poly_commit K G gn wv hn wr true = Ok (cw, wb) -> hx_open K G ch p wv wb qa q v bv e t = Ok (pf, cy, eq, t') ->
  (forall q0 qt, q = q0 :: qt -> (length (padded inputs) <= 2 ^ length (qa ++ qt))%nat /\ v = (1 - q0) * mle wv (qa ++ qt) + q0 * mle (padded inputs) (qa ++ qt)) ->
  hx_opened K G ch p inputs cw qa q (com (hp_1 K G p) [v] bv) pf cy eq t = Ok t'.
Proof.
  intros Ec E Hv. unfold hx_open in E. destruct q as [|q0 qt]; [discriminate|]. destruct (Hv q0 qt eq_refl) as [Lp Ev]. unfold hx_opened. set (ry := qa ++ qt) in *.
  rewrite eval_value_ok in E. destruct (Nat.leb_spec (length wv) (2 ^ length ry)) as [Lw|]; [|discriminate]. cbn [rbind] in E. unfold reduce_prover, log2c in E.
  destruct (Nat.eqb_spec (length ry) (Nat.log2_up (length wv))) as [Ls|]; [|discriminate]. cbn [negb] in E. rewrite <- Ls in E. set (k := length ry) in *.
  destruct (negb (Nat.eqb (2 ^ (k / 2)) _)) eqn:Eb; [discriminate|].
  destruct (Nat.ltb_spec (length wv) (2 ^ (k / 2) * 2 ^ (k - k / 2))) as [|Ln]; [discriminate|].
  assert (Hk : (k / 2 <= k)%nat) by apply half_le.
  assert (Lv : length wv = (2 ^ k)%nat). { apply Nat.le_antisymm; [exact Lw|]. rewrite <- Nat.pow_add_r in Ln. replace (k / 2 + (k - k / 2))%nat with k in Ln by lia. exact Ln. }
  set (a := firstn (k / 2) ry) in *. set (b := skipn (k / 2) ry) in *.
  assert (La : length a = (k / 2)%nat) by (unfold a; rewrite firstn_length; fold k; lia). assert (Lb : length b = (k - k / 2)%nat) by (unfold b; rewrite skipn_length; reflexivity).
  destruct (packing_ok K G _ _ _ _ _ k _ _ Lv Ec a b La Lb) as [Lbl EC].
  assert (EB : match wb with [] => repeat 0 (2 ^ (k / 2)) | _ => wb end = wb). { destruct wb; [|reflexivity]. cbn [length] in Lbl. exfalso. symmetry in Lbl. revert Lbl. apply Nat.pow_nonzero. lia. }
  rewrite EB in E. destruct (Nat.ltb_spec (pc_n K G (hp_pc K G p)) (length (eval_eq K b))) as [|Lr]; [discriminate|]. rewrite eval_eq_length in Lr. rewrite <- Lb in E.
  match type of E with context [log_dot_prove ?a1 ?a2 ?a3 ?a4 ?a5 ?a6 ?a7 ?a8 ?a9 ?b1 ?b2 ?b3 ?b4 ?b5 ?b6] => destruct (log_dot_prove a1 a2 a3 a4 a5 a6 a7 a8 a9 b1 b2 b3 b4 b5 b6) as [[[[pf0 Cl] Cr] t0]| |] eqn:E0; cbn [rmap] in E; try discriminate end.
  destruct (eq_proof K G ch (pc_gen_1 K G (hp_pc K G p)) v bv v ((1 - q0) * er_blind K e) (er_eq K e) t0) as [eq0 t1] eqn:Eq. injection E as <- <- <- <-.
  assert (Q : exists q qs, mc_gens K G (pc_gen_1 K G (hp_pc K G p)) = q :: qs). { unfold log_dot_prove in E0. destruct (mc_gens K G (pc_gen_1 K G (hp_pc K G p))) as [|q qs]; [discriminate|eauto]. }
  destruct Q as (q & qs & Eg).
  assert (ECl : Cl = poly_commit_vec K G gn (row_comb K (eval_eq K a) wv (2 ^ length b)) hn (dot (eval_eq K a) wb) /\ Cr = com (pc_gen_1 K G (hp_pc K G p)) [mle wv ry] (er_blind K e)).
  { unfold log_dot_prove, draw in E0. rewrite Eg in E0. match type of E0 with rbind ?X _ = _ => destruct X as [[[[[[[? ?] ?] ?] ?] ?] ?]| |]; cbn [rbind] in E0; try discriminate end.
    injection E0 as _ <- <- _. rewrite Eg. split; reflexivity. }
  destruct ECl as [ECl ECr].
  apply log_dot_exact with (q := q) (qs := qs) in E0; [|exact Eg|exact Eh|rewrite row_comb_tab, length_tab, En; exact Lr].
  destruct E0 as (bs & gh & ga & t2 & _ & EV). rewrite row_comb_dot in EV. replace (a ++ b) with ry in EV by (symmetry; apply firstn_skipn).
  unfold reduce_verifier. fold k a b. rewrite <- Eh, EC, <- ECl, EV. cbn [rbind].
  match goal with |- context [geqb (gsm ?x q) g0] => replace (geqb (gsm x q) g0) with true end.
  2:{ symmetry. apply geqb_true. match goal with |- gsm (?x * (?y - ?y)) _ = _ => replace (x * (y - y)) with (0 : K) by ring end. apply gsm_0. }
  cbn [negb]. rewrite eval_value_ok. destruct (Nat.leb_spec (length (padded inputs)) (2 ^ length ry)) as [_|Q]; [|exfalso; apply (Nat.lt_irrefl (length (padded inputs))); eapply Nat.le_lt_trans; [exact Lp|exact Q]]. cbn [rbind].
  rewrite ECr, ?Eh, com_mix, E1, <- Ev. apply eq_complete in Eq; [|reflexivity]. rewrite Eq. reflexivity.
Qed.
Lemma open_total (NZ : forall l t, ch l t <> 0) (N1 : mc_gens K G (pc_gen_1 K G (hp_pc K G p)) <> []) wv wb qa q0 qt v bv e (t : tr) : length wv = (2 ^ length (qa ++ qt))%nat -> length wb = (2 ^ (length (qa ++ qt) / 2))%nat ->
  (2 ^ (length (qa ++ qt) - length (qa ++ qt) / 2) <= pc_n K G (hp_pc K G p))%nat -> exists r, hx_open K G ch p wv wb qa (q0 :: qt) v bv e t = Ok r.
Proof.
  intros Lw Lb Ln. unfold hx_open. set (ry := qa ++ qt) in *. rewrite eval_value_ok, Lw, Nat.leb_refl. cbn [rbind]. unfold reduce_prover, log2c. rewrite Lw, Nat.log2_up_pow2, Nat.eqb_refl by lia. cbn [negb]. set (k := length ry) in *.
  assert (Hk : (k / 2 <= k)%nat) by apply half_le.
  assert (EB : match wb with [] => repeat 0 (2 ^ (k / 2)) | _ => wb end = wb). { destruct wb; [|reflexivity]. cbn [length] in Lb. exfalso. symmetry in Lb. revert Lb. apply Nat.pow_nonzero. lia. }
  rewrite EB, Lb, Nat.eqb_refl. cbn [negb]. rewrite <- Nat.pow_add_r. replace (k / 2 + (k - k / 2))%nat with k by lia. rewrite Nat.ltb_irrefl.
  assert (Ls : length (skipn (k / 2) ry) = (k - k / 2)%nat) by (rewrite skipn_length; reflexivity). rewrite eval_eq_length, Ls. destruct (Nat.ltb_spec (pc_n K G (hp_pc K G p)) (2 ^ (k - k / 2))); [lia|].
  rewrite Nat.log2_up_pow2 by lia.
  edestruct (log_dot_total K G ch) with (k := (k - k / 2)%nat) as [[[[pf Cl] Cr] t'] E]; [exact NZ| | | | | |rewrite E; cbn [rmap]; destruct (eq_proof _ _ _ _ _ _ _ _ _ _); eauto].
  - unfold row_comb. rewrite map_length, seq_length. reflexivity.
  - rewrite eval_eq_length, Ls. reflexivity.
  - rewrite En. exact Ln.
  - exact N1.
  - rewrite map_length, seq_length. lia.
Qed.
Lemma open_size wv wb qa q0 qt v bv e (t : tr) r : hx_open K G ch p wv wb qa (q0 :: qt) v bv e t = Ok r ->
  length wv = (2 ^ length (qa ++ qt))%nat /\ (2 ^ (length (qa ++ qt) - length (qa ++ qt) / 2) <= pc_n K G (hp_pc K G p))%nat.
Proof.
  intro E. unfold hx_open in E. set (ry := qa ++ qt) in *. rewrite eval_value_ok in E. destruct (Nat.leb_spec (length wv) (2 ^ length ry)) as [Lw|]; [|discriminate]. cbn [rbind] in E. unfold reduce_prover, log2c in E.
  destruct (Nat.eqb_spec (length ry) (Nat.log2_up (length wv))) as [Ls|]; [|discriminate]. cbn [negb] in E. rewrite <- Ls in E. set (k := length ry) in *.
  destruct (negb (Nat.eqb (2 ^ (k / 2)) _)); [discriminate|]. destruct (Nat.ltb_spec (length wv) (2 ^ (k / 2) * 2 ^ (k - k / 2))) as [|Ln]; [discriminate|].
  pose proof (half_le k). rewrite <- Nat.pow_add_r in Ln. replace (k / 2 + (k - k / 2))%nat with k in Ln by lia. split; [lia|].
  destruct (Nat.ltb_spec (pc_n K G (hp_pc K G p)) (length (eval_eq K (skipn (k / 2) ry)))) as [|Lr]; [discriminate|]. rewrite eval_eq_length, skipn_length in Lr. exact Lr.
Qed.
End S.
