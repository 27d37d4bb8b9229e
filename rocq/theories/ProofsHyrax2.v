(** Hyrax: completeness of the final check of one layer. *)
From Verif Require Import Field Poly Module ModTac ProofsPC ModelTranscript ModelMle SpecMle ProofsMle ModelLibra ProofsLibra ModelSigma ProofsSigma ModelSpartan ProofsSpartan3 ModelSnark ModelHyrax ProofsHyrax.
From Coq Require Import String List Lia.
Import ListNotations.
Local Open Scope string_scope.
Local Open Scope list_scope.
Local Open Scope fld_scope.
Section S.
Variable K : Fld.
Variable G : Grp K.
Variable ch : oracle K G.
Add Field Kf : (f_laws K).
Notation tr := (transcript K G).
Notation com p x b := (poly_commit_vec K G (mc_gens K G p) x (mc_h K G p) b).
Notation chain := (chain K).

Definition widths (log_n log_g : nat) : list nat := repeat 4%nat log_n ++ repeat 3%nat (2 * log_g).
Lemma sum_repeat a n : list_sum (repeat a n) = (n * a)%nat.
Proof. induction n as [|n IH]; [reflexivity|]. cbn [repeat list_sum fold_right]. change (fold_right Nat.add 0%nat (repeat a n)) with (list_sum (repeat a n)). rewrite IH. lia. Qed.
Lemma firstn_repeat {A} (x : A) n j : firstn j (repeat x n) = repeat x (Nat.min j n).
Proof. revert n. induction j as [|j IH]; intros [|n]; try reflexivity. cbn [repeat firstn Nat.min]. rewrite IH. reflexivity. Qed.
Lemma widths_off log_n log_g j : (j <= log_n + 2 * log_g)%nat -> list_sum (firstn j (widths log_n log_g)) = if Nat.ltb j log_n then (j * 4)%nat else (log_n + j * 3)%nat.
Proof. intro H. unfold widths. rewrite firstn_app, repeat_length, !firstn_repeat, list_sum_app, !sum_repeat. destruct (Nat.ltb_spec j log_n); lia. Qed.
Lemma widths_nth log_n log_g j : (j < log_n + 2 * log_g)%nat -> nth j (widths log_n log_g) 0%nat = if Nat.ltb j log_n then 4%nat else 3%nat.
Proof.
  intro H. unfold widths. destruct (Nat.ltb_spec j log_n).
  - rewrite app_nth1 by (rewrite repeat_length; lia). apply nth_repeat_lt || (apply nth_error_nth; clear H; revert j H0; induction log_n as [|a IH]; intros [|j] L; try lia; [reflexivity|cbn; apply IH; lia]).
  - rewrite app_nth2 by (rewrite repeat_length; lia). rewrite repeat_length. assert (L : (j - log_n < 2 * log_g)%nat) by lia. apply nth_error_nth. revert L. generalize (j - log_n)%nat as i, (2 * log_g)%nat as b. clear. intros i b. revert i. induction b as [|b IH]; intros [|i] L; try lia; [reflexivity|cbn; apply IH; lia].
Qed.
Lemma widths_length log_n log_g : length (widths log_n log_g) = (log_n + 2 * log_g)%nat.
Proof. unfold widths. rewrite app_length, !repeat_length. reflexivity. Qed.
Lemma concat_length_sum (ps : list (list K)) : length (concat ps) = list_sum (map (@length K) ps).
Proof. induction ps as [|p ps IH]; [reflexivity|]. cbn [concat map list_sum fold_right]. rewrite app_length, IH. reflexivity. Qed.
Lemma concat_slice (ps : list (list K)) tail : forall j, (j < length ps)%nat -> firstn (length (nth j ps [])) (skipn (length (concat (firstn j ps))) (concat ps ++ tail)) = nth j ps [].
Proof.
  induction ps as [|p ps IH]; intros [|j] H; cbn [length] in H; try lia; cbn [concat firstn nth length]; cbn [skipn].
  - rewrite <- app_assoc, firstn_app, Nat.sub_diag, firstn_all. cbn [firstn]. apply app_nil_r.
  - rewrite <- app_assoc, app_length, skipn_app, skipn_all2 by lia. cbn [app]. replace (length p + length (concat (firstn j ps)) - length p)%nat with (length (concat (firstn j ps))) by lia. apply IH. lia.
Qed.
Lemma skipn_map {A B} (f : A -> B) l n : skipn n (map f l) = map f (skipn n l).
Proof. revert l. induction n as [|n IH]; intros [|x l]; try reflexivity. cbn. apply IH. Qed.
Lemma slice_seq (f : nat -> K) base off w : (off + w <= base)%nat -> firstn w (skipn off (map f (seq 0 base))) = map f (seq off w).
Proof.
  intro H. replace base with (off + (w + (base - off - w)))%nat by lia. rewrite seq_app, map_app, skipn_app, map_length, seq_length, Nat.sub_diag, skipn_all2 by (rewrite map_length, seq_length; lia). cbn [app skipn].
  rewrite Nat.add_0_l, seq_app, map_app, firstn_app, map_length, seq_length, Nat.sub_diag, firstn_all2 by (rewrite map_length, seq_length; lia). cbn [firstn]. apply app_nil_r.
Qed.
Lemma list_tab (l : list K) off w : (off + w <= length l)%nat -> firstn w (skipn off l) = map (fun k => nth k l 0) (seq off w).
Proof.
  intro H. assert (E : l = map (fun k => nth k l 0) (seq 0 (length l))).
  { clear. induction l as [|x l IH]; [reflexivity|]. cbn [length seq map nth]. f_equal. rewrite <- seq_shift, map_map. cbn [nth]. exact IH. }
  rewrite E at 1. rewrite slice_seq by exact H. reflexivity.
Qed.
Lemma msm_lin (gs : list G) (c : K) (f g : nat -> K) (l : list nat) : msm gs (map (fun k => c * f k + g k) l) = gadd (gsm c (msm gs (map f l))) (msm gs (map g l)).
Proof. revert gs. induction l as [|k l IH]; intros [|x gs]; cbn [map msm]; [gmod; ring|gmod; ring|gmod; ring|]. rewrite IH. gmod; ring. Qed.
Lemma com_lin (p : mcp K G) (c : K) (f g : nat -> K) (l : list nat) b b' : com p (map (fun k => c * f k + g k) l) (c * b + b') = gadd (gsm c (com p (map f l) b)) (com p (map g l) b').
Proof. unfold poly_commit_vec. rewrite msm_lin. gmod; ring. Qed.

Section L.
Variable p : hparams K G.
Variables (x y claim rc0 add mul : K) (log_n log_g : nat) (polys : list (list K)) (rs : list K) (z : zrand K) (cps ces : list G).
Hypothesis Hn : (1 <= log_n)%nat.
Hypothesis Hw : map (@length K) polys = widths log_n log_g.
Hypothesis Hc : chain claim polys rs (add * x + add * y + mul * (x * y)).
Hypothesis Hp : forall j, (j < log_n + 2 * log_g)%nat -> nth_error cps j = Some (com (if Nat.ltb j log_n then hp_4 K G p else hp_3 K G p) (nth j polys []) (zr_poly K z j)).
Let rounds := (log_n + 2 * log_g)%nat.
Let base := (4 * log_n + 6 * log_g)%nat.
Let pie := concat polys ++ [x; y; x * y].
Let m := map (widen K (4 * log_n + 6 * log_g + 3)) (ends K 4 :: mat_rows K 0 (widths log_n log_g) rs [add; add; mul]).
Lemma polys_length : length polys = rounds.
Proof. rewrite <- (map_length (@length K)), Hw. apply widths_length. Qed.
Lemma concat_base : length (concat polys) = base.
Proof. rewrite concat_length_sum, Hw. unfold widths, base. rewrite list_sum_app, !sum_repeat. lia. Qed.
Lemma pie_length : length pie = (base + 3)%nat.
Proof. unfold pie. rewrite app_length, concat_base. reflexivity. Qed.
Lemma chain_lengths : forall ps (rs : list K) a b, chain a ps rs b -> length ps = length rs.
Proof. clear. induction ps as [|q ps IH]; intros [|r rs] a b; cbn [ProofsHyrax.chain]; try contradiction; [reflexivity|]. intros [_ H]. cbn. f_equal. apply (IH _ _ _ H). Qed.
Lemma mat_rows_length : forall ws (rs fin : list K) off, length ws = length rs -> length (mat_rows K off ws rs fin) = length ws.
Proof. clear. induction ws as [|w ws IH]; intros [|r rs] fin off H; try discriminate; [reflexivity|]. cbn [mat_rows length]. injection H as H. rewrite IH by exact H. reflexivity. Qed.
Lemma m_length : length m = (rounds + 1)%nat.
Proof. unfold m. cbn [map length]. rewrite map_length, mat_rows_length; [rewrite widths_length; unfold rounds; lia|]. rewrite <- Hw, map_length. apply (chain_lengths _ _ _ _ Hc). Qed.
Lemma mat_rows_width : forall ws (rs fin : list K) off W, (length fin = 3)%nat -> Forall (fun w => 0 < w)%nat ws -> (off + list_sum ws + 3 <= W)%nat -> Forall (fun row => length row <= W)%nat (mat_rows K off ws rs fin).
Proof.
  clear. induction ws as [|w ws IH]; intros [|r rs] fin off W H P L; try constructor; inversion P as [|? ? P1 P2]; subst; cbn [list_sum fold_right] in L; fold (list_sum ws) in L; change (fold_right Nat.add 0%nat ws) with (list_sum ws) in L.
  - rewrite !app_length, repeat_length. unfold neg_pows. rewrite map_length, seq_length. destruct ws as [|w' ws]; [cbn [list_sum fold_right] in L; lia|]. unfold ends. cbn [length]. rewrite repeat_length. cbn [list_sum fold_right] in L. inversion P2; subst. lia.
  - apply IH; [exact H|exact P2|lia].
Qed.
Lemma widths_pos : Forall (fun w => 0 < w)%nat (widths log_n log_g).
Proof. unfold widths. rewrite Forall_forall. intros w H. apply in_app_or in H. destruct H as [H|H]; apply repeat_spec in H; lia. Qed.
Lemma m_width : Forall (fun row => length row = base + 3)%nat m.
Proof.
  unfold m. rewrite Forall_forall. intros row H. apply in_map_iff in H. destruct H as (l & <- & Hl). apply widen_length. destruct Hl as [<- | Hl]; [unfold ends; cbn; lia|].
  assert (Q : Forall (fun row => length row <= 4 * log_n + 6 * log_g + 3)%nat (mat_rows K 0 (widths log_n log_g) rs [add; add; mul])) by (apply mat_rows_width; [reflexivity|exact widths_pos|unfold widths; rewrite list_sum_app, !sum_repeat; lia]).
  rewrite Forall_forall in Q. apply Q, Hl.
Qed.
Lemma rows_pie : dot (nth 0 m []) pie = claim /\ forall j, (1 <= j < rounds + 1)%nat -> dot (nth j m []) pie = 0.
Proof.
  assert (Nz : polys <> []) by (intro E; pose proof polys_length as L; rewrite E in L; cbn in L; unfold rounds in L; lia).
  destruct (mat_rows_dot K polys (widths log_n log_g) rs claim [add; add; mul] [x; y; x * y] (add * x + add * y + mul * (x * y)) [] widths_pos Hw Hc ltac:(cbn [dot]; ring) Nz) as [R1 R2].
  assert (hd 0%nat (widths log_n log_g) = 4%nat) as E4. { clear - Hn. unfold widths. destruct log_n; [lia|reflexivity]. }
  rewrite E4 in R2. unfold m. split; [cbn [map nth]; rewrite dot_widen; exact R2|]. intros j Hj. destruct j as [|j]; [lia|]. cbn [map nth length] in *.
  set (rows := mat_rows K 0 (widths log_n log_g) rs [add; add; mul]) in *.
  assert (L : length rows = rounds) by (unfold rows; rewrite mat_rows_length; [apply widths_length|]; rewrite <- Hw, map_length; apply (chain_lengths _ _ _ _ Hc)).
  rewrite (nth_indep _ [] (widen K (4 * log_n + 6 * log_g + 3) [])) by (rewrite map_length; lia). rewrite map_nth, dot_widen. rewrite Forall_forall in R1. apply R1. apply nth_In. lia.
Qed.
Lemma combination rou : let jv := map (fun k => fsum (map (fun j => nth j rou 0 * nth k (nth j m []) 0) (seq 0 (rounds + 1)))) (seq 0 (base + 3)) in
  fsum (map (fun k => nth k jv 0 * nth k pie 0) (seq 0 base)) = nth 0 rou 0 * claim - nth base jv 0 * x - nth (base + 1) jv 0 * y - nth (base + 2) jv 0 * (x * y).
Proof.
  intro jv. pose proof (rows_comb K m rou pie rounds (base + 3) pie_length m_width m_length) as R. destruct rows_pie as [R0 R1].
  assert (E : fsum (map (fun k => nth k jv 0 * nth k pie 0) (seq 0 (base + 3))) = nth 0 rou 0 * claim).
  { transitivity (fsum (map (fun j => nth j rou 0 * dot (nth j m []) pie) (seq 0 (rounds + 1)))).
    - rewrite <- R. apply fsum_map_ext. intros k Hk. apply in_seq in Hk. unfold jv. rewrite (nth_map_seq K). destruct (Nat.ltb_spec k (base + 3)); [reflexivity|lia].
    - rewrite (Nat.add_comm rounds 1), seq_app, map_app, fsum_app. cbn [seq map fsum]. rewrite R0. rewrite fsum_map_0; [ring|]. intros j Hj. apply in_seq in Hj. rewrite R1 by lia. ring. }
  rewrite seq_app, map_app, fsum_app in E. cbn [Nat.add seq map fsum] in E.
  assert (P : forall i, (i < 3)%nat -> nth (base + i) pie 0 = nth i [x; y; x * y] 0) by (intros i Hi; unfold pie; rewrite app_nth2 by (rewrite concat_base; lia); rewrite concat_base; f_equal; lia).
  pose proof (P 0%nat ltac:(lia)) as P0. pose proof (P 1%nat ltac:(lia)) as P1. pose proof (P 2%nat ltac:(lia)) as P2. rewrite Nat.add_0_r in P0. cbn [nth] in P0, P1, P2.
  replace (S base) with (base + 1)%nat in E by lia. replace (S (base + 1)) with (base + 2)%nat in E by lia. rewrite P0, P1, P2 in E. rewrite <- E. ring.
Qed.
Lemma nth_error_map_seq {A} (f : nat -> A) n j : (j < n)%nat -> nth_error (map f (seq 0 n)) j = Some (f j).
Proof. intro H. rewrite nth_error_map. assert (nth_error (seq 0 n) j = Some j) as ->; [|reflexivity]. rewrite (nth_error_nth' _ 0%nat) by (rewrite seq_length; exact H). rewrite seq_nth by exact H. reflexivity. Qed.
Lemma off_bound j : (j < rounds)%nat -> ((if Nat.ltb j log_n then j * 4 else log_n + j * 3) + (if Nat.ltb j log_n then 4 else 3) <= base)%nat.
Proof. unfold rounds, base. intro H. destruct (Nat.ltb_spec j log_n); lia. Qed.
Lemma poly_slice j : (j < rounds)%nat -> nth j polys [] = map (fun k => nth k pie 0) (seq (if Nat.ltb j log_n then j * 4 else log_n + j * 3) (if Nat.ltb j log_n then 4 else 3)).
Proof.
  intro H. pose proof (off_bound j H) as B. rewrite <- list_tab by (rewrite pie_length; lia).
  pose proof (concat_slice polys [x; y; x * y] j ltac:(rewrite polys_length; exact H)) as C. fold pie in C.
  assert (E1 : length (nth j polys []) = if Nat.ltb j log_n then 4%nat else 3%nat).
  { rewrite <- (widths_nth log_n log_g j H), <- Hw. change 0%nat with (length (@nil K)). symmetry. apply map_nth. }
  assert (E2 : length (concat (firstn j polys)) = if Nat.ltb j log_n then (j * 4)%nat else (log_n + j * 3)%nat).
  { rewrite concat_length_sum, <- firstn_map, Hw. apply widths_off. unfold rounds in H. lia. }
  rewrite E1, E2 in C. symmetry. exact C.
Qed.
Definition dl : list G := map (fun j => if Nat.ltb j log_n then com (hp_4 K G p) (firstn 4 (skipn (j * 4) (map (zr_d K z) (seq 0 base)))) (zr_delta K z j)
    else com (hp_3 K G p) (firstn 3 (skipn (log_n + j * 3) (map (zr_d K z) (seq 0 base)))) (zr_delta K z j)) (seq 0 rounds).
Definition zsl (c : K) : list K := map (fun k => c * nth k pie 0 + nth k (map (zr_d K z) (seq 0 base)) 0) (seq 0 base).
Definition zdl (c : K) : list K := map (fun k => c * zr_poly K z k + zr_delta K z k) (seq 0 rounds).
Lemma deltas_ok c pp a0 cc cx cy cz zc : forall js, (forall j, In j js -> (j < rounds)%nat) -> delta_checks K G p (mkZk K G pp a0 cc cx cy cz cps ces dl (zsl c) (zdl c) zc) log_n c js = Ok true.
Proof.
  induction js as [|j js IH]; intro H; [reflexivity|]. pose proof (H j (or_introl eq_refl)) as Hj. cbn [delta_checks zk_polys zk_deltas zk_zs zk_zdeltas]. unfold gget at 1. rewrite (Hp j Hj). cbn [rbind]. unfold gget, dl at 1. rewrite nth_error_map_seq by exact Hj. cbn [rbind].
  unfold kget at 1 2. unfold zdl at 1 2. rewrite nth_error_map_seq by exact Hj.
  pose proof (off_bound j Hj) as B. pose proof (poly_slice j Hj) as P.
  assert (Zs : forall off w, (off + w <= base)%nat -> slice K (zsl c) off w = Ok (map (fun k => c * nth k pie 0 + zr_d K z k) (seq off w))).
  { intros off w L. unfold slice, zsl. rewrite map_length, seq_length. destruct (Nat.ltb_spec base (off + w)); [lia|]. rewrite slice_seq by exact L. f_equal. apply map_ext_in. intros k Hk. apply in_seq in Hk. rewrite (nth_map_seq K). destruct (Nat.ltb_spec k base); [reflexivity|lia]. }
  destruct (Nat.ltb j log_n).
  - rewrite Zs by exact B. cbn [rbind rmap]. rewrite slice_seq by exact B. rewrite com_lin, P. rewrite (proj2 (geqb_true K G _ _) eq_refl).
    apply IH. intros i Hi. apply H. right. exact Hi.
  - rewrite Zs by exact B. cbn [rbind rmap]. rewrite slice_seq by exact B. rewrite com_lin, P. rewrite (proj2 (geqb_true K G _ _) eq_refl).
    apply IH. intros i Hi. apply H. right. exact Hi.
Qed.
Theorem sumcheck_complete (t : tr) : exists pp cz cc zc deltas zs zds t',
  sumcheck_prover K G ch p x y log_g log_n m pie rc0 z t = (pp, com (hp_1 K G p) [x] (zr_x K z), com (hp_1 K G p) [y] (zr_y K z), cz, deltas, cc, zs, zds, zc, t') /\
  sumcheck_verify K G ch p (mkZk K G pp (com (hp_1 K G p) [claim] rc0) cc (com (hp_1 K G p) [x] (zr_x K z)) (com (hp_1 K G p) [y] (zr_y K z)) cz cps ces deltas zs zds zc) m log_g log_n t = Ok (true, t').
Proof.
  unfold sumcheck_prover. destruct (product_proof _ _ _ _ _ _ _ _ _ _ _ _ _ _ _ _) as [[[[pp cx] cy] cz] t1] eqn:Epp.
  assert (Ec : cx = com (hp_1 K G p) [x] (zr_x K z) /\ cy = com (hp_1 K G p) [y] (zr_y K z) /\ cz = com (hp_1 K G p) [x * y] (zr_z K z)) by (unfold product_proof, draw in Epp; injection Epp as _ <- <- <- _; repeat split).
  destruct Ec as (-> & -> & ->). cbv zeta. fold rounds. fold base. change (map (fun j => if Nat.ltb j log_n then _ else _) (seq 0 rounds)) with dl.
  set (t2 := rev (map (MG "comm_delta") dl) ++ t1). destruct (draws K G ch "challenge_nextround" (rounds + 1) t2) as [rou t3] eqn:Er.
  set (jv := map (fun k => fsum (map (fun j => nth j rou 0 * nth k (nth j m []) 0) (seq 0 (rounds + 1)))) (seq 0 (base + 3))).
  set (D := fsum (map (fun k => nth k jv 0 * nth k (map (zr_d K z) (seq 0 base)) 0) (seq 0 base))). set (cc := com (hp_1 K G p) [D] (zr_c K z)). unfold draw.
  set (c := ch "challenge_nextround" (MG "comm_c" cc :: t3)). change (map (fun k => c * nth k pie 0 + nth k (map (zr_d K z) (seq 0 base)) 0) (seq 0 base)) with (zsl c). change (map (fun k => c * zr_poly K z k + zr_delta K z k) (seq 0 rounds)) with (zdl c).
  do 8 eexists. split; [reflexivity|]. unfold sumcheck_verify. cbn [zk_prod zk_x zk_y zk_z zk_deltas zk_c]. rewrite (product_complete K G ch _ _ _ _ _ _ _ _ _ _ _ _ _ _ _ _ _ _ eq_refl Epp). cbn [rbind negb]. fold t2 rounds base. rewrite Er. unfold draw. fold c.
  rewrite deltas_ok by (intros j Hj; apply in_seq in Hj; lia). cbn [rbind negb zk_a0 zk_x zk_y zk_z zk_c zk_zs zk_zc]. fold jv. unfold zsl at 1. rewrite map_length, seq_length, Nat.ltb_irrefl. do 2 f_equal. apply geqb_true.
  assert (E : fsum (map (fun k => nth k jv 0 * nth k (zsl c) 0) (seq 0 base)) = c * (nth 0 rou 0 * claim - nth base jv 0 * x - nth (base + 1) jv 0 * y - nth (base + 2) jv 0 * (x * y)) + D).
  { pose proof (combination rou) as C. cbv zeta in C. fold jv in C. rewrite <- C. unfold D. transitivity (fsum (map (fun k => c * (nth k jv 0 * nth k pie 0) + nth k jv 0 * nth k (map (zr_d K z) (seq 0 base)) 0) (seq 0 base))).
    - apply fsum_map_ext. intros k Hk. apply in_seq in Hk. unfold zsl. rewrite (nth_map_seq K (fun k => c * nth k pie 0 + nth k (map (zr_d K z) (seq 0 base)) 0)). destruct (Nat.ltb_spec k base); [ring|lia].
    - generalize (map (zr_d K z) (seq 0 base)) as d. generalize (seq 0 base) as l. intros l d. induction l as [|k l IH]; cbn [map fsum]; [ring|]. rewrite IH. ring. }
  rewrite E. unfold cc, poly_commit_vec. rewrite !msm1. generalize c D. intros c0 D0. gmod; ring.
Qed.
End L.
End S.
