(** Hyrax: special soundness of the argument for one layer. *)
From Verif Require Import Field Poly Module ModTac ProofsPC ModelTranscript ModelMle SpecMle ProofsMle ModelLibra ProofsLibra ModelSigma SpecSigma ProofsSigma ModelSpartan ProofsSpartan3 ModelSnark ModelHyrax SpecHyrax2 ProofsHyrax ProofsHyrax2 ProofsHyrax9.
From Coq Require Import String List Lia Bool.
Import ListNotations.
Local Open Scope string_scope.
Local Open Scope list_scope.
Local Open Scope fld_scope.
Section S.
Variable K : Fld.
Variable G : Grp K.
Add Field Kf : (f_laws K).
Notation tr := (transcript K G).
Notation com p x b := (poly_commit_vec K G (mc_gens K G p) x (mc_h K G p) b).
(** Oracles that agree on short transcripts. *)
Definition agree (ch ch' : oracle K G) (n : nat) : Prop := forall l (t : tr), (length t < n)%nat -> ch l t = ch' l t.
Lemma draws_shape (ch : oracle K G) l n : forall t, snd (draws K G ch l n t) = repeat (MCh l) n ++ t /\ length (fst (draws K G ch l n t)) = n.
Proof.
  induction n as [|n IH]; intro t; [split; reflexivity|]. cbn [draws]. unfold draw. destruct (draws K G ch l n (MCh l :: t)) as [xs u] eqn:E. pose proof (IH (MCh l :: t)) as Q. rewrite E in Q. cbn [fst snd] in *. destruct Q as [-> Q].
  split; [|cbn [length]; rewrite Q; reflexivity]. change (MCh l :: t) with ([MCh l] ++ t). rewrite app_assoc. cbn [repeat]. rewrite (repeat_cons n (MCh l)). reflexivity.
Qed.
Lemma draws_agree (ch ch' : oracle K G) N l n : agree ch ch' N -> forall t, (n + length t <= N)%nat -> draws K G ch l n t = draws K G ch' l n t.
Proof.
  intro A. induction n as [|n IH]; intros t H; [reflexivity|]. cbn [draws]. unfold draw. rewrite A by lia. rewrite IH by (cbn [length]; lia). reflexivity.
Qed.
Lemma product_agree (ch ch' : oracle K G) N p pf x y z t b t1 : product_verify K G ch p pf x y z t = Ok (b, t1) -> (length t1 <= N)%nat -> agree ch ch' N -> product_verify K G ch' p pf x y z t = Ok (b, t1).
Proof.
  intros H L A. unfold product_verify in *. destruct (pp_z K G pf) as [|z1 [|z2 [|z3 [|z4 [|z5 zs]]]]]; try discriminate. unfold draw in *. injection H as <- <-. rewrite <- A by (cbn [length] in *; lia). reflexivity.
Qed.
Lemma challenges_agree (ch ch' : oracle K G) N n : forall cps ces cc t rs t1, zk_challenges K G ch n cps ces cc t = Ok (rs, t1) ->
  (length t <= length t1)%nat /\ length rs = n /\ ((length t1 <= N)%nat -> agree ch ch' N -> zk_challenges K G ch' n cps ces cc t = Ok (rs, t1)).
Proof.
  induction n as [|n IH]; intros cps ces cc t rs t1 H; cbn [zk_challenges] in *; [injection H as <- <-; split; [lia|split; reflexivity]|].
  destruct cps as [|cp cps]; [discriminate|]. destruct ces as [|ce ces]; [discriminate|]. unfold draw in *.
  destruct (zk_challenges K G ch n cps ces ce _) as [[rs' u]| |] eqn:E; try discriminate. cbn [rmap rbind] in H. injection H as <- <-.
  destruct (IH _ _ _ _ _ _ E) as (L & Lr & Q). cbn [length] in *. split; [lia|]. split; [lia|]. intros LN A. rewrite <- A by (cbn [length]; lia). rewrite (Q LN A). reflexivity.
Qed.
(** The checks behind an accepted layer. *)
Lemma deltas_inv p pf log_n c js : delta_checks K G p pf log_n c js = Ok true -> forall j, In j js -> exists cp d zd,
  nth_error (zk_polys K G pf) j = Some cp /\ nth_error (zk_deltas K G pf) j = Some d /\ nth_error (zk_zdeltas K G pf) j = Some zd /\
  let '(off, w, mp) := if Nat.ltb j log_n then ((j * 4)%nat, 4%nat, hp_4 K G p) else ((log_n + j * 3)%nat, 3%nat, hp_3 K G p) in
  (off + w <= length (zk_zs K G pf))%nat /\ gadd (gsm c cp) d = com mp (map (fun k => nth k (zk_zs K G pf) 0) (seq off w)) zd.
Proof.
  induction js as [|i js IH]; intros H j Hj; [destruct Hj|]. cbn [delta_checks] in H. unfold gget, kget, slice in H.
  destruct (nth_error (zk_polys K G pf) i) as [cp|] eqn:Ec; [|discriminate]. cbn [rbind] in H.
  destruct (nth_error (zk_deltas K G pf) i) as [d|] eqn:Ed; [|discriminate]. cbn [rbind] in H.
  destruct (Nat.ltb i log_n) eqn:Li.
  - destruct (Nat.ltb_spec (length (zk_zs K G pf)) (i * 4 + 4)) as [L|L]; [discriminate|]. cbn [rbind rmap] in H.
    destruct (nth_error (zk_zdeltas K G pf) i) as [zd|] eqn:Ez; [|discriminate]. cbn [rbind rmap] in H.
    destruct (geqb _ _) eqn:Eq in H; [|discriminate]. apply geqb_true in Eq. destruct Hj as [<-|Hj]; [|apply IH; assumption].
    exists cp, d, zd. rewrite Li. repeat (split; [assumption|]). rewrite <- list_tab by exact L. symmetry. exact Eq.
  - destruct (Nat.ltb_spec (length (zk_zs K G pf)) (log_n + i * 3 + 3)) as [L|L]; [discriminate|]. cbn [rbind rmap] in H.
    destruct (nth_error (zk_zdeltas K G pf) i) as [zd|] eqn:Ez; [|discriminate]. cbn [rbind rmap] in H.
    destruct (geqb _ _) eqn:Eq in H; [|discriminate]. apply geqb_true in Eq. destruct Hj as [<-|Hj]; [|apply IH; assumption].
    exists cp, d, zd. rewrite Li. repeat (split; [assumption|]). rewrite <- list_tab by exact L. symmetry. exact Eq.
Qed.
Lemma com_diff (p : mcp K G) (i : K) (f g : nat -> K) (l : list nat) b b' : com p (map (fun k => (f k - g k) * i) l) ((b - b') * i) = gsm i (gadd (com p (map f l) b) (gopp (com p (map g l) b'))).
Proof.
  assert (E : map (fun k => (f k - g k) * i) l = map (fun k => i * f k + (- i * g k)) l) by (apply map_ext; intro; ring).
  replace ((b - b') * i) with (i * b + - i * b') by ring. rewrite E, com_lin. clear E.
  assert (E : forall l, map (fun k => - i * g k) l = map (fun k => - i * g k + 0) l) by (intro; apply map_ext; intro; ring).
  rewrite E. replace (- i * b') with (- i * b' + 0) by ring. rewrite (com_lin K G p (- i) g (fun _ => 0)).
  assert (Z : com p (map (fun _ : nat => 0) l) 0 = g0) by (unfold poly_commit_vec; generalize (mc_gens K G p) as gs; intro gs; assert (Q : msm gs (map (fun _ : nat => 0) l) = g0) by (clear; revert gs; induction l as [|k l IH]; intros [|x gs]; cbn [map msm]; [reflexivity|reflexivity|reflexivity|]; rewrite IH; gmod; ring); rewrite Q; gmod; ring).
  rewrite Z. gmod; ring.
Qed.
(** What an accepted check at the end of a layer says. *)
Lemma sumcheck_verify_inv (ch : oracle K G) p pf m log_g log_n t t1 t2 :
  product_verify K G ch (hp_1 K G p) (zk_prod K G pf) (zk_x K G pf) (zk_y K G pf) (zk_z K G pf) t = Ok (true, t1) ->
  let rounds := (log_n + 2 * log_g)%nat in let base := (4 * log_n + 6 * log_g)%nat in
  let D := draws K G ch "challenge_nextround" (rounds + 1) (rev (map (MG "comm_delta") (zk_deltas K G pf)) ++ t1) in
  let rou := fst D in let T := MG "comm_c" (zk_c K G pf) :: snd D in
  let c := ch "challenge_nextround" T in
  let jv := map (fun k => fsum (map (fun j => nth j rou 0 * nth k (nth j m []) 0) (seq 0 (rounds + 1)))) (seq 0 (base + 3)) in
  sumcheck_verify K G ch p pf m log_g log_n t = Ok (true, t2) ->
  delta_checks K G p pf log_n c (seq 0 rounds) = Ok true /\ (base <= length (zk_zs K G pf))%nat /\
  gadd (gsm c (gadd (gadd (gadd (gsm (nth 0 rou 0) (zk_a0 K G pf)) (gsm (- nth base jv 0) (zk_x K G pf))) (gsm (- nth (base + 1) jv 0) (zk_y K G pf))) (gsm (- nth (base + 2) jv 0) (zk_z K G pf)))) (zk_c K G pf) =
  com (hp_1 K G p) [fsum (map (fun k => nth k jv 0 * nth k (zk_zs K G pf) 0) (seq 0 base))] (zk_zc K G pf).
Proof.
  intros HP rounds base D rou T c jv H. unfold sumcheck_verify in H. rewrite HP in H. cbn [rbind negb] in H.
  fold rounds in H. fold base in H. fold D in H. destruct D as [rou' T'] eqn:ED. cbn [fst snd] in rou, T. unfold draw in H. fold T in H. change (ch "challenge_nextround" T) with c in H. 
  destruct (delta_checks K G p pf log_n c (seq 0 rounds)) as [ok| |] eqn:Ed; [|discriminate|discriminate]. cbn [rbind] in H. destruct ok; [|discriminate]. cbn [negb] in H.
  destruct (Nat.ltb_spec (length (zk_zs K G pf)) base) as [L|L]; [discriminate|]. injection H as H _. apply geqb_true in H. split; [reflexivity|]. split; [exact L|]. exact H.
Qed.
Lemma layer_sound (ch ch' : oracle K G) p pf pf' rs r0 r1 qa ql qr gates u0 u1 log_n log_g m t t1 t2 t2' :
  construct_matrix K rs r0 r1 qa ql qr gates u0 u1 log_n log_g = Ok m -> length (rs ++ r0 ++ r1) = (log_n + 2 * log_g)%nat ->
  product_verify K G ch (hp_1 K G p) (zk_prod K G pf) (zk_x K G pf) (zk_y K G pf) (zk_z K G pf) t = Ok (true, t1) ->
  let D := draws K G ch "challenge_nextround" (log_n + 2 * log_g + 1) (rev (map (MG "comm_delta") (zk_deltas K G pf)) ++ t1) in
  forks ch ch' "challenge_nextround" (MG "comm_c" (zk_c K G pf) :: snd D) -> same_first pf pf' ->
  sumcheck_verify K G ch p pf m log_g log_n t = Ok (true, t2) -> sumcheck_verify K G ch' p pf' m log_g log_n t = Ok (true, t2') ->
  {ps : list (list K) & {bs : list K & {_ : length ps = (log_n + 2 * log_g)%nat /\
    forall j, (j < log_n + 2 * log_g)%nat -> let mp := if Nat.ltb j log_n then hp_4 K G p else hp_3 K G p in exists C,
       nth_error (zk_polys K G pf) j = Some C /\ length (nth j ps []) = (if Nat.ltb j log_n then 4%nat else 3%nat) /\ opens_vec (mc_gens K G mp) (mc_h K G mp) C (nth j ps []) (nth j bs 0) &
    forall a ba x bx y b_y z bz, let g := hd g0 (mc_gens K G (hp_1 K G p)) in let h := mc_h K G (hp_1 K G p) in
      opens g h (zk_a0 K G pf) a ba -> opens g h (zk_x K G pf) x bx -> opens g h (zk_y K G pf) y b_y -> opens g h (zk_z K G pf) z bz ->
      {b : K | opens g h g0 (dot (fst D) (gaps a ps (rs ++ r0 ++ r1) (wiring 0 qa rs ql qr r0 r1 u0 u1 gates * (x + y) + wiring 1 qa rs ql qr r0 r1 u0 u1 gates * z))) b}}}}.
Proof.
  intros HM LR HP D [N A] (E1 & E2 & E3 & E4 & E5 & E6 & E7 & E8 & E9) V V'.
  assert (HM' : (1 <= log_n)%nat /\ m = map (widen K (4 * log_n + 6 * log_g + 3)) (ends K 4 :: mat_rows K 0 (widths log_n log_g) (rs ++ r0 ++ r1) [wiring 0 qa rs ql qr r0 r1 u0 u1 gates; wiring 0 qa rs ql qr r0 r1 u0 u1 gates; wiring 1 qa rs ql qr r0 r1 u0 u1 gates])).
  { apply construct_inv in HM. destruct HM as (Hn & add & mul & -> & -> & Em). split; assumption. }
  clear HM. destruct HM' as [Hn Em].
  destruct (draws_shape ch "challenge_nextround" (log_n + 2 * log_g + 1) (rev (map (MG "comm_delta") (zk_deltas K G pf)) ++ t1)) as [DS DL]. fold D in DS, DL.
  assert (LT : (length t1 <= length (MG "comm_c" (zk_c K G pf) :: snd D))%nat) by (rewrite DS; cbn [length]; rewrite !app_length; lia).
  pose proof (product_agree ch ch' _ _ _ _ _ _ _ _ _ HP LT A) as HP'. rewrite E1, E4, E5, E6 in HP'.
  pose proof (sumcheck_verify_inv ch p pf m log_g log_n t t1 t2 HP V) as Q. pose proof (sumcheck_verify_inv ch' p pf' m log_g log_n t t1 t2' HP' V') as Q'.
  cbv zeta in Q, Q'. fold D in Q. rewrite <- E9, <- E3 in Q'.
  assert (DD : draws K G ch' "challenge_nextround" (log_n + 2 * log_g + 1) (rev (map (MG "comm_delta") (zk_deltas K G pf)) ++ t1) = D).
  { unfold D. symmetry. eapply draws_agree; [exact A|]. rewrite DS. cbn [length]. rewrite !app_length, repeat_length. lia. }
  rewrite DD in Q'. set (T := MG "comm_c" (zk_c K G pf) :: snd D) in *. set (c := ch "challenge_nextround" T) in *. set (c' := ch' "challenge_nextround" T) in *.
  set (rou := fst D) in *. clearbody rou. clear DD DS HP HP' V V' LT A. clearbody c c' T. clear D.
  set (base := (4 * log_n + 6 * log_g)%nat) in *. set (rounds := (log_n + 2 * log_g)%nat) in *.
  set (jv := map (fun k => fsum (map (fun j => nth j rou 0 * nth k (nth j m []) 0) (seq 0 (rounds + 1)))) (seq 0 (base + 3))) in *.
  destruct Q as (QD & QL & QE). destruct Q' as (QD' & QL' & QE').
  rewrite <- E2, <- E4, <- E5, <- E6 in QE'.
  set (i := finv (c - c')). set (pi := fun k => (nth k (zk_zs K G pf) 0 - nth k (zk_zs K G pf') 0) * i).
  set (ps := blocks pi 0 (widths log_n log_g)).
  set (bs := map (fun j => (nth j (zk_zdeltas K G pf) 0 - nth j (zk_zdeltas K G pf') 0) * i) (seq 0 rounds)).
  assert (Pw : map (@length K) ps = widths log_n log_g) by apply blocks_widths.
  exists ps, bs. unshelve eexists; [split; [rewrite <- (map_length (@length K)), Pw; apply widths_length|]|].
  - intros j Hj. cbv zeta. destruct (deltas_inv _ _ _ _ _ QD j ltac:(apply in_seq; lia)) as (cp & d & zd & F1 & F2 & F3 & F4). destruct (deltas_inv _ _ _ _ _ QD' j ltac:(apply in_seq; lia)) as (cp' & d' & zd' & F1' & F2' & F3' & F4').
    rewrite <- E7, F1 in F1'. rewrite <- E9, F2 in F2'. injection F1' as <-. injection F2' as <-. exists cp. split; [exact F1|].
    assert (Pj : nth j ps [] = map pi (seq (if Nat.ltb j log_n then (j * 4)%nat else (log_n + j * 3)%nat) (if Nat.ltb j log_n then 4%nat else 3%nat))).
    { unfold ps. rewrite blocks_nth by (rewrite widths_length; exact Hj). rewrite widths_off, widths_nth by (unfold rounds in Hj; lia). reflexivity. }
    assert (Bj : nth j bs 0 = (zd - zd') * i).
    { unfold bs. set (f := fun j => _). rewrite (nth_indep _ 0 (f 0%nat)) by (rewrite map_length, seq_length; exact Hj). rewrite map_nth, seq_nth by exact Hj. unfold f. cbn [Nat.add]. rewrite (nth_error_nth _ _ 0 F3), (nth_error_nth _ _ 0 F3'). reflexivity. }
    rewrite Pj, map_length, seq_length. split; [reflexivity|]. rewrite Bj. unfold opens_vec.
    destruct (Nat.ltb j log_n); destruct F4 as [_ F4]; destruct F4' as [_ F4'];
      (pose proof (fork_solve K G c c' cp d _ _ N F4 F4') as S; fold i in S; rewrite <- com_diff in S; exact S).
  - intros a ba x bx y b_y z bz g h Oa Ox Oy Oz.
    pose proof (comb_gaps K (widths log_n log_g) ps (rs ++ r0 ++ r1) (wiring 0 qa rs ql qr r0 r1 u0 u1 gates) (wiring 1 qa rs ql qr r0 r1 u0 u1 gates) a x y z rou log_n log_g) as CG. cbv zeta in CG.
    fold base rounds in CG. rewrite <- Em in CG. fold jv in CG. specialize (CG Hn eq_refl Pw LR DL). rewrite <- CG. clear CG.
    pose proof (fork_solve K G c c' _ _ _ _ N QE QE') as S. fold i in S.
    assert (Pc : forall k, (k < base)%nat -> nth k (concat ps) 0 = pi k).
    { intros k Hk. unfold ps. rewrite blocks_concat. assert (list_sum (widths log_n log_g) = base) as -> by (unfold widths, base; rewrite list_sum_app, !sum_repeat; lia). rewrite (nth_indep _ 0 (pi 0%nat)) by (rewrite map_length, seq_length; exact Hk). rewrite map_nth, seq_nth by exact Hk. reflexivity. }
    assert (SS : fsum (map (fun k => nth k jv 0 * nth k (concat ps) 0) (seq 0 base)) =
      i * (fsum (map (fun k => nth k jv 0 * nth k (zk_zs K G pf) 0) (seq 0 base)) - fsum (map (fun k => nth k jv 0 * nth k (zk_zs K G pf') 0) (seq 0 base)))).
    { transitivity (fsum (map (fun k => nth k jv 0 * pi k) (seq 0 base))); [f_equal; apply map_ext_in; intros k Hk; apply in_seq in Hk; rewrite Pc by lia; reflexivity|].
      unfold pi. generalize (seq 0 base) as l. clear. induction l as [|k l IH]; cbn [map fsum]; [ring|]. rewrite IH. ring. }
    rewrite SS. unfold opens in *. clear SS Pc.
    assert (CO : forall v b, com (hp_1 K G p) [v] b = gadd (gsm v g) (gsm b h)).
    { intros v b. unfold poly_commit_vec, g, h. destruct (mc_gens K G (hp_1 K G p)) as [|gg gs]; cbn [msm hd]; [gmod; ring|]. destruct gs; cbn [msm]; gmod; ring. }
    rewrite !CO in S. set (s := fsum (map (fun k => nth k jv 0 * nth k (zk_zs K G pf) 0) (seq 0 base))) in *. set (s' := fsum (map (fun k => nth k jv 0 * nth k (zk_zs K G pf') 0) (seq 0 base))) in *.
    clearbody g h s s'. rewrite Oa, Ox, Oy, Oz in S.
    exists (i * (zk_zc K G pf - zk_zc K G pf') + nth base jv 0 * bx + nth (base + 1) jv 0 * b_y + nth (base + 2) jv 0 * bz - nth 0 rou 0 * ba).
    match type of S with ?L = ?R => assert (Z : gadd R (gopp L) = g0) by (rewrite <- S; gmod; ring) end.
    rewrite <- Z. gmod; ring.
Qed.
Lemma firstn_skipn_3 {A} (l : list A) a b : firstn a l ++ firstn b (skipn a l) ++ skipn (a + b) l = l.
Proof. replace (skipn (a + b) l) with (skipn b (skipn a l)); [rewrite firstn_skipn; apply firstn_skipn|]. revert l. induction a as [|a IH]; intro l; [reflexivity|]. destruct l as [|x l]; [destruct b; reflexivity|]. cbn [skipn Nat.add]. apply IH. Qed.
Theorem zk_sound (ch ch' : oracle K G) p pf pf' cc u0 u1 qa ql qr gates n ng t t0 t1 cx cy rs r0 r1 t2 cx' cy' rs' r0' r1' t2' all :
  zk_challenges K G ch (log2c n + 2 * log2c ng) (zk_polys K G pf) (zk_evals K G pf) cc t = Ok (all, t0) ->
  product_verify K G ch (hp_1 K G p) (zk_prod K G pf) (zk_x K G pf) (zk_y K G pf) (zk_z K G pf) t0 = Ok (true, t1) ->
  let D := draws K G ch "challenge_nextround" (log2c n + 2 * log2c ng + 1) (rev (map (MG "comm_delta") (zk_deltas K G pf)) ++ t1) in
  forks ch ch' "challenge_nextround" (MG "comm_c" (zk_c K G pf) :: snd D) -> same_first pf pf' ->
  zk_verify K G ch p pf cc u0 u1 qa ql qr gates n ng t = Ok (cx, cy, rs, r0, r1, t2) -> zk_verify K G ch' p pf' cc u0 u1 qa ql qr gates n ng t = Ok (cx', cy', rs', r0', r1', t2') ->
  {_ : all = rs ++ r0 ++ r1 /\ (cx, cy, rs, r0, r1) = (cx', cy', rs', r0', r1') /\ cx = zk_x K G pf /\ cy = zk_y K G pf &
  {ps : list (list K) & {bs : list K & {_ : length ps = (log2c n + 2 * log2c ng)%nat /\
    forall j, (j < log2c n + 2 * log2c ng)%nat -> let mp := if Nat.ltb j (log2c n) then hp_4 K G p else hp_3 K G p in exists C,
       nth_error (zk_polys K G pf) j = Some C /\ length (nth j ps []) = (if Nat.ltb j (log2c n) then 4%nat else 3%nat) /\ opens_vec (mc_gens K G mp) (mc_h K G mp) C (nth j ps []) (nth j bs 0) &
    forall a ba x bx y b_y z bz, let g := hd g0 (mc_gens K G (hp_1 K G p)) in let h := mc_h K G (hp_1 K G p) in
      opens g h (zk_a0 K G pf) a ba -> opens g h (zk_x K G pf) x bx -> opens g h (zk_y K G pf) y b_y -> opens g h (zk_z K G pf) z bz ->
      {b : K | opens g h g0 (dot (fst D) (gaps a ps all (wiring 0 qa rs ql qr r0 r1 u0 u1 gates * (x + y) + wiring 1 qa rs ql qr r0 r1 u0 u1 gates * z))) b}}}}}.
Proof.
  intros HC HP D F S V V'. unfold zk_verify in V, V'. rewrite HC in V. cbn [rbind] in V.
  destruct (draws_shape ch "challenge_nextround" (log2c n + 2 * log2c ng + 1) (rev (map (MG "comm_delta") (zk_deltas K G pf)) ++ t1)) as [DS DL]. fold D in DS, DL.
  assert (L1 : (length t1 < length (MG "comm_c" (zk_c K G pf) :: snd D))%nat) by (rewrite DS; cbn [length]; rewrite !app_length; lia).
  assert (L0 : (length t0 <= length t1)%nat).
  { unfold product_verify in HP. destruct (pp_z K G (zk_prod K G pf)) as [|z1 [|z2 [|z3 [|z4 [|z5 zs]]]]]; try discriminate. unfold draw in HP. injection HP as _ <-. cbn [length]. lia. }
  pose proof S as (S1 & S2 & S3 & S4 & S5 & S6 & S7 & S8 & S9). pose proof F as [_ FA].
  destruct (challenges_agree ch ch' (length (MG "comm_c" (zk_c K G pf) :: snd D)) _ _ _ _ _ _ _ HC) as (_ & LA & HC'). specialize (HC' ltac:(lia) FA). rewrite <- S7, <- S8, HC' in V'. cbn [rbind] in V'.
  set (ln := log2c n) in *. set (lg := log2c ng) in *.
  destruct (construct_matrix K _ _ _ qa ql qr gates u0 u1 ln lg) as [m| |] eqn:EM; [|discriminate|discriminate]. cbn [rbind] in V, V'.
  destruct (sumcheck_verify K G ch p pf m lg ln t0) as [[ok u]| |] eqn:E; [|discriminate|discriminate]. cbn [rbind] in V. destruct ok; [|discriminate]. cbn [negb] in V.
  destruct (sumcheck_verify K G ch' p pf' m lg ln t0) as [[ok' u']| |] eqn:E'; [|discriminate|discriminate]. cbn [rbind] in V'. destruct ok'; [|discriminate]. cbn [negb] in V'.
  injection V as <- <- <- <- <- <-. injection V' as <- <- <- <- <- <-.
  unshelve eexists; [split; [symmetry; apply firstn_skipn_3|]; split; [rewrite S4, S5; reflexivity|]; split; reflexivity|].
  pose proof (layer_sound ch ch' p pf pf' _ _ _ qa ql qr gates u0 u1 ln lg m t0 t1 u u' EM ltac:(rewrite firstn_skipn_3; exact LA) HP F S E E') as Q. rewrite firstn_skipn_3 in Q. exact Q.
Qed.
End S.
