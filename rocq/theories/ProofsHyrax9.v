(** Hyrax: what two accepted proofs of a layer that differ after the last challenge give. *)
From Verif Require Import Field Poly Module ModTac ProofsPC ModelTranscript ModelMle SpecMle ProofsMle ModelLibra ProofsLibra ModelSigma SpecSigma ProofsSigma ModelSpartan ProofsSpartan3 ModelSnark ModelHyrax SpecHyrax2 ProofsHyrax ProofsHyrax2.
From Coq Require Import String List Lia Bool.
Import ListNotations.
Local Open Scope string_scope.
Local Open Scope list_scope.
Local Open Scope fld_scope.
(** Consecutive pieces of a table. *)
Fixpoint blocks {A} (f : nat -> A) (off : nat) (ws : list nat) : list (list A) :=
  match ws with [] => [] | w :: ws => map f (seq off w) :: blocks f (off + w) ws end.
Lemma blocks_concat {A} (f : nat -> A) ws : forall off, concat (blocks f off ws) = map f (seq off (list_sum ws)).
Proof.
  induction ws as [|w ws IH]; intro off; [reflexivity|]. cbn [blocks concat]. rewrite IH. change (list_sum (w :: ws)) with (w + list_sum ws)%nat. rewrite seq_app, map_app. reflexivity.
Qed.
Lemma blocks_widths {A} (f : nat -> A) ws : forall off, map (@length A) (blocks f off ws) = ws.
Proof. induction ws as [|w ws IH]; intro off; [reflexivity|]. cbn [blocks map]. rewrite map_length, seq_length, IH. reflexivity. Qed.
Lemma blocks_nth {A} (f : nat -> A) ws : forall off j, (j < length ws)%nat -> nth j (blocks f off ws) [] = map f (seq (off + list_sum (firstn j ws)) (nth j ws 0%nat)).
Proof.
  induction ws as [|w ws IH]; intros off [|j] H; cbn [length] in H; try lia.
  - cbn [blocks nth firstn]. change (list_sum []) with 0%nat. rewrite Nat.add_0_r. reflexivity.
  - cbn [blocks nth firstn]. rewrite IH by lia. change (list_sum (w :: firstn j ws)) with (w + list_sum (firstn j ws))%nat. rewrite Nat.add_assoc. reflexivity.
Qed.
Section S.
Variable K : Fld.
Variable G : Grp K.
Add Field Kf : (f_laws K).
Notation tr := (transcript K G).
Notation com p x b := (poly_commit_vec K G (mc_gens K G p) x (mc_h K G p) b).
Lemma kget_nth (l : list K) i v : kget K l i = Ok v -> nth i l 0 = v.
Proof. unfold kget. intro H. destruct (nth_error l i) eqn:E; [|discriminate]. injection H as <-. apply nth_error_nth, E. Qed.
Lemma pick_eval_eq (r : list K) i : pick r i = nth i (eval_eq K r) 0.
Proof. unfold pick. rewrite eval_eq_chi. reflexivity. Qed.
Lemma gate_evals_inv e0 ql qr r0 r1 u0 u1 gates : forall a m a' m',
  foldr (gate_step K e0 (eval_eq K ql) (eval_eq K qr) (eval_eq K r0) (eval_eq K r1) u0 u1) (a, m) gates = Ok (a', m') ->
  a' = a + e0 * fsum (map (fun g => if Nat.eqb (gt_op g) 0 then pick r0 (gt_l g) * pick r1 (gt_r g) * (pick ql (gt_g g) * u0 + pick qr (gt_g g) * u1) else 0) gates) /\
  m' = m + e0 * fsum (map (fun g => if Nat.eqb (gt_op g) 1 then pick r0 (gt_l g) * pick r1 (gt_r g) * (pick ql (gt_g g) * u0 + pick qr (gt_g g) * u1) else 0) gates).
Proof.
  induction gates as [|g gates IH]; intros a m a' m' H; cbn [foldr map fsum] in *; [injection H as <- <-; split; ring|].
  unfold gate_step at 1 in H. rewrite !pick_eval_eq.
  destruct (kget K (eval_eq K ql) (gt_g g)) as [x| |] eqn:Ex; [|discriminate|discriminate]. apply kget_nth in Ex. cbn [rbind] in H.
  destruct (kget K (eval_eq K qr) (gt_g g)) as [y| |] eqn:Ey; [|discriminate|discriminate]. apply kget_nth in Ey. cbn [rbind] in H. rewrite Ex, Ey.
  destruct (Nat.eqb_spec (gt_op g) 0) as [E0|E0].
  - destruct (kget K (eval_eq K r0) (gt_l g)) as [l| |] eqn:El; [|discriminate|discriminate]. apply kget_nth in El. cbn [rbind] in H.
    destruct (kget K (eval_eq K r1) (gt_r g)) as [r| |] eqn:Er; [|discriminate|discriminate]. apply kget_nth in Er. cbn [rbind] in H. rewrite El, Er, E0. cbn [Nat.eqb fst snd] in *.
    apply IH in H. destruct H as [-> ->]. split; ring.
  - destruct (Nat.eqb_spec (gt_op g) 1) as [E1|E1].
    + destruct (kget K (eval_eq K r0) (gt_l g)) as [l| |] eqn:El; [|discriminate|discriminate]. apply kget_nth in El. cbn [rbind] in H.
      destruct (kget K (eval_eq K r1) (gt_r g)) as [r| |] eqn:Er; [|discriminate|discriminate]. apply kget_nth in Er. cbn [rbind] in H. rewrite El, Er. cbn [fst snd] in *.
      apply IH in H. destruct H as [-> ->]. split; ring.
    + cbn [rbind] in H. apply IH in H. destruct H as [-> ->]. split; ring.
Qed.
Lemma construct_inv rs r0 r1 qa ql qr gates u0 u1 log_n log_g m : construct_matrix K rs r0 r1 qa ql qr gates u0 u1 log_n log_g = Ok m ->
  (1 <= log_n)%nat /\ exists add mul, add = wiring 0 qa rs ql qr r0 r1 u0 u1 gates /\ mul = wiring 1 qa rs ql qr r0 r1 u0 u1 gates /\
  m = map (widen K (4 * log_n + 6 * log_g + 3)) (ends K 4 :: mat_rows K 0 (widths log_n log_g) (rs ++ r0 ++ r1) [add; add; mul]).
Proof.
  unfold construct_matrix. destruct (Nat.eqb_spec log_n 0) as [E|E]; [discriminate|]. destruct (eval_eq_x_y K qa rs) as [e0| |] eqn:E0; [|discriminate|discriminate]. cbn [rbind]. unfold gate_evals.
  destruct (foldr _ (0, 0) gates) as [[add mul]| |] eqn:F; [|discriminate|discriminate]. cbn [rbind]. intro H. injection H as <-. split; [lia|].
  destruct (Nat.eq_dec (length qa) (length rs)) as [L|L]; [|unfold eval_eq_x_y in E0; destruct (Nat.eqb_spec (length qa) (length rs)); [contradiction|discriminate]].
  rewrite eval_eq_x_y_ok in E0 by exact L. injection E0 as <-. apply gate_evals_inv in F. destruct F as [F1 F2].
  exists add, mul. split; [rewrite F1; unfold wiring; ring|]. split; [rewrite F2; unfold wiring; ring|reflexivity].
Qed.
(** The rows of the matrix applied to any polynomials and final values are the gaps. *)
Lemma mat_rows_gaps (ps : list (list K)) : forall ws rs a fin3 tail pre, Forall (fun w => 0 < w)%nat ws -> map (@length K) ps = ws -> length ps = length rs -> ps <> [] ->
  gaps a ps rs (dot fin3 tail) = (dot (ends K (hd 0%nat ws)) (concat ps ++ tail) - a) :: map (fun row => dot row (pre ++ concat ps ++ tail)) (mat_rows K (length pre) ws rs fin3).
Proof.
  induction ps as [|p ps IH]; intros ws rs a fin3 tail pre Hw E L N; [contradiction|]. destruct rs as [|r rs]; [discriminate|]. cbn [map] in E. subst ws. inversion Hw as [|? ? W1 W2]; subst.
  cbn [mat_rows hd concat gaps map]. rewrite <- !app_assoc. injection L as L.
  assert (E1 : forall (u q rest : list K), length u = length q -> dot u (q ++ rest) = dot u q) by (intros u q rest Hl; rewrite <- (app_nil_r u) at 1; rewrite dot_app by exact Hl; cbn [dot]; ring).
  assert (Le : length (ends K (length p)) = length p) by (unfold ends; cbn [length]; rewrite repeat_length; lia).
  f_equal; [rewrite E1, (dot_ends K (length p)) by (try reflexivity; assumption); reflexivity|].
  destruct ps as [|p' ps].
  - destruct rs; [|discriminate]. cbn [gaps map mat_rows concat app]. f_equal. rewrite dot_app by (rewrite repeat_length; reflexivity). rewrite dot_zeros_l. rewrite dot_app by (unfold neg_pows; rewrite map_length, seq_length; reflexivity). rewrite dot_neg_pows. ring.
  - rewrite (IH (map (@length K) (p' :: ps)) rs (peval p r) fin3 tail (pre ++ p)) by (try exact W2; try reflexivity; try exact L; discriminate). cbn [map hd]. f_equal.
    + rewrite dot_app by (rewrite repeat_length; reflexivity). rewrite dot_zeros_l. rewrite dot_app by (unfold neg_pows; rewrite map_length, seq_length; reflexivity). rewrite dot_neg_pows. ring.
    + rewrite app_length. apply map_ext. intro row. rewrite <- !app_assoc. reflexivity.
Qed.
Lemma sum_gaps (rou : list K) : forall (gs : list K) s, (s + length gs <= length rou)%nat -> fsum (map (fun j => nth j rou 0 * nth (j - s) gs 0) (seq s (length gs))) = dot (skipn s rou) gs.
Proof.
  induction gs as [|g gs IH]; intros s H; [destruct (skipn s rou); reflexivity|]. cbn [length seq map fsum] in *.
  assert (skipn s rou = nth s rou 0 :: skipn (S s) rou) as ->. { clear - H. revert rou H. induction s as [|s IH]; intros [|x rou] H; cbn [length] in H; try lia; [reflexivity|]. cbn [skipn nth]. apply IH. lia. }
  cbn [dot]. rewrite Nat.sub_diag. cbn [nth]. f_equal. rewrite <- IH by lia. f_equal. apply map_ext_in. intros j Hj. apply in_seq in Hj. replace (j - s)%nat with (S (j - S s)) by lia. reflexivity.
Qed.
(** The combined rows applied to the round polynomials and the final values. *)
Lemma comb_gaps ws (ps : list (list K)) rs add mul a x y z (rou : list K) log_n log_g :
  let m := map (widen K (4 * log_n + 6 * log_g + 3)) (ends K 4 :: mat_rows K 0 (widths log_n log_g) rs [add; add; mul]) in
  let rounds := (log_n + 2 * log_g)%nat in let base := (4 * log_n + 6 * log_g)%nat in
  let jv := map (fun k => fsum (map (fun j => nth j rou 0 * nth k (nth j m []) 0) (seq 0 (rounds + 1)))) (seq 0 (base + 3)) in
  (1 <= log_n)%nat -> ws = widths log_n log_g -> map (@length K) ps = ws -> length rs = rounds -> length rou = (rounds + 1)%nat ->
  fsum (map (fun k => nth k jv 0 * nth k (concat ps) 0) (seq 0 base)) + nth base jv 0 * x + nth (base + 1) jv 0 * y + nth (base + 2) jv 0 * z - nth 0 rou 0 * a =
  dot rou (gaps a ps rs (add * (x + y) + mul * z)).
Proof.
  intros m rounds base jv Hn -> Hw Lr Lrou.
  set (pie := concat ps ++ [x; y; z]).
  assert (Lc : length (concat ps) = base) by (rewrite concat_length_sum, Hw; unfold widths, base; rewrite list_sum_app, !sum_repeat; lia).
  assert (Lp : length pie = (base + 3)%nat) by (unfold pie; rewrite app_length, Lc; reflexivity).
  assert (Lps : length ps = rounds) by (rewrite <- (map_length (@length K)), Hw; apply widths_length).
  assert (Nz : ps <> []) by (intro E; rewrite E in Lps; cbn in Lps; unfold rounds in Lps; lia).
  assert (Lrow : length (mat_rows K 0 (widths log_n log_g) rs [add; add; mul]) = rounds) by (rewrite mat_rows_length; [apply widths_length|rewrite widths_length, Lr; reflexivity]).
  assert (Lm : length m = (rounds + 1)%nat) by (unfold m; cbn [map length]; rewrite map_length, Lrow; lia).
  assert (Wp : Forall (fun w => 0 < w)%nat (widths log_n log_g)) by (apply widths_pos; exact Hn).
  assert (Wm : Forall (fun row => length row = base + 3)%nat m).
  { unfold m. rewrite Forall_forall. intros row H. apply in_map_iff in H. destruct H as (l & <- & Hl). apply widen_length. destruct Hl as [<- | Hl]; [unfold ends; cbn; lia|].
    assert (Q : Forall (fun row => length row <= 4 * log_n + 6 * log_g + 3)%nat (mat_rows K 0 (widths log_n log_g) rs [add; add; mul])) by (apply mat_rows_width; [reflexivity|exact Wp|unfold widths; rewrite list_sum_app, !sum_repeat; lia]).
    rewrite Forall_forall in Q. apply Q, Hl. }
  pose proof (rows_comb K m rou pie rounds (base + 3) Lp Wm Lm) as C.
  assert (E4 : hd 0%nat (widths log_n log_g) = 4%nat) by (clear - Hn; unfold widths; destruct log_n; [lia|reflexivity]).
  pose proof (mat_rows_gaps ps (widths log_n log_g) rs a [add; add; mul] [x; y; z] [] Wp Hw ltac:(lia) Nz) as Q. rewrite E4 in Q. cbn [app length] in Q. fold pie in Q.
  assert (EF : dot [add; add; mul] [x; y; z] = add * (x + y) + mul * z) by (cbn [dot]; ring). rewrite EF in Q.
  assert (EM : map (fun row => dot row pie) m = dot (ends K 4) pie :: map (fun row => dot row pie) (mat_rows K 0 (widths log_n log_g) rs [add; add; mul])).
  { unfold m. cbn [map]. rewrite dot_widen. f_equal. rewrite map_map. apply map_ext. intro row. apply dot_widen. }
  assert (R : fsum (map (fun j => nth j rou 0 * dot (nth j m []) pie) (seq 0 (rounds + 1))) = dot rou (map (fun row => dot row pie) m)).
  { pose proof (sum_gaps rou (map (fun row => dot row pie) m) 0 ltac:(rewrite map_length, Lm, Lrou; lia)) as SG. cbn [skipn] in SG. rewrite <- SG. clear SG. rewrite map_length, Lm. f_equal. apply map_ext_in. intros j Hj. apply in_seq in Hj. rewrite Nat.sub_0_r. f_equal.
    rewrite (nth_indep _ 0 (dot (@nil K) pie)) by (rewrite map_length, Lm; lia). rewrite (map_nth (fun row => dot row pie)). reflexivity. }
  rewrite R, EM in C. rewrite Q. destruct rou as [|r0 rou]; [cbn in Lrou; lia|]. cbn [dot nth] in *.
  transitivity (r0 * dot (ends K 4) pie + dot rou (map (fun row => dot row pie) (mat_rows K 0 (widths log_n log_g) rs [add; add; mul])) - r0 * a); [|ring].
  rewrite <- C. clear C R EM Q.
  assert (J : forall k, (k < base + 3)%nat -> nth k jv 0 = fsum (map (fun j => nth j (r0 :: rou) 0 * nth k (nth j m []) 0) (seq 0 (rounds + 1)))).
  { intros k Hk. unfold jv. set (f := fun k => fsum _). rewrite (nth_indep _ 0 (f 0%nat)) by (rewrite map_length, seq_length; exact Hk). rewrite map_nth, seq_nth by exact Hk. reflexivity. }
  rewrite (seq_app base 3 0), map_app, fsum_app. cbn [Nat.add]. change (seq base 3) with [base; S base; S (S base)]. cbn [map fsum].
  assert (P : forall i, (i < 3)%nat -> nth (base + i) pie 0 = nth i [x; y; z] 0) by (intros i Hi; unfold pie; rewrite app_nth2 by (rewrite Lc; lia); rewrite Lc; f_equal; lia).
  pose proof (P 0%nat ltac:(lia)) as P0. pose proof (P 1%nat ltac:(lia)) as P1. pose proof (P 2%nat ltac:(lia)) as P2. rewrite Nat.add_0_r in P0. cbn [nth] in P0, P1, P2.
  replace (S base) with (base + 1)%nat by lia. replace (S (base + 1)) with (base + 2)%nat by lia. rewrite P0, P1, P2, <- !J by lia.
  assert (S0 : fsum (map (fun k => fsum (map (fun j => nth j (r0 :: rou) 0 * nth k (nth j m []) 0) (seq 0 (rounds + 1))) * nth k pie 0) (seq 0 base)) = fsum (map (fun k => nth k jv 0 * nth k (concat ps) 0) (seq 0 base))).
  { f_equal. apply map_ext_in. intros k Hk. apply in_seq in Hk. rewrite J by lia. f_equal. unfold pie. rewrite app_nth1 by (rewrite Lc; lia). reflexivity. }
  rewrite <- S0. cbn [nth]. ring.
Qed.
End S.
