(** Soundness of the committed sum-check step; the evaluation proof of a committed multilinear polynomial; libra's DotProductProof. *)
From Verif Require Import Field Poly Module ModTac ModelTranscript ModelBulletproofs ModelSigma SpecSigma SpecMle ProofsMle ProofsIPP ProofsBulletproofs ProofsSigma ProofsSigma2.
Local Open Scope string_scope.
Local Open Scope list_scope.
Local Open Scope fld_scope.
Section P.
Variable K : Fld.
Variable G : Grp K.
Add Field Kf : (f_laws K).
Notation tab := (tab K).

Theorem sum_check_eval_sound (ch ch' : oracle K G) (g1 gn : mcp K G) CP CE CC pf pf' r size t t1 t1' :
  let w0 := ch "combine_two_claims_to_one" t in
  let w1 := ch "combine_two_claims_to_one" (MCh "combine_two_claims_to_one" :: t) in
  let CV := gadd (gsm w0 CC) (gsm w1 CE) in
  let tt := MG "beta" (se_dot _ _ pf) :: MG "delta" (se_d _ _ pf) :: MG "Cy" CV :: MG "Cx" CP :: MCh "combine_two_claims_to_one" :: MCh "combine_two_claims_to_one" :: t in
  (0 < size)%nat -> (length (mc_gens _ _ gn) <= size)%nat ->
  forks ch ch' "c" tt -> se_d _ _ pf = se_d _ _ pf' -> se_dot _ _ pf = se_dot _ _ pf' ->
  sum_check_eval_verify K G ch g1 gn CP CE CC pf r size t = Ok (true, t1) ->
  sum_check_eval_verify K G ch' g1 gn CP CE CC pf' r size t = Ok (true, t1') ->
  {p : list K & {rp : K & {rv : K | length p = size /\ opens_vec (mc_gens _ _ gn) (mc_h _ _ gn) CP p rp /\
    opens (hd g0 (mc_gens _ _ g1)) (mc_h _ _ g1) CV (w0 * (peval p 0 + peval p 1) + w1 * peval p r) rv}}}.
Proof.
  intros w0 w1 CV tt Hs Lg [N Ag] Ed Eb E E'. unfold sum_check_eval_verify, draw in E, E'. rewrite <- Ed, <- Eb in E'.
  rewrite <- (Ag "combine_two_claims_to_one" t) in E' by (unfold tt; cbn [length]; lia).
  rewrite <- (Ag "combine_two_claims_to_one" (MCh "combine_two_claims_to_one" :: t)) in E' by (unfold tt; cbn [length]; lia).
  fold w0 w1 CV in E, E'. fold tt in E, E'.
  destruct (Nat.ltb (length (se_z _ _ pf)) size) eqn:Lz; [discriminate|]. destruct (Nat.ltb (length (se_z _ _ pf')) size) eqn:Lz'; [discriminate|]. rewrite Nat.ltb_ge in Lz, Lz'.
  injection E as E _. injection E' as E' _. rewrite Bool.andb_true_iff, !geqb_true in E, E'. destruct E as [E1 E2], E' as [F1 F2].
  pose proof (fork_solve _ _ _ _ _ _ _ _ N E1 F1) as S1. pose proof (fork_solve _ _ _ _ _ _ _ _ N E2 F2) as S2.
  unfold poly_commit_vec in S1, S2. rewrite !msm1 in S2. set (d := finv _) in *. set (z := se_z _ _ pf) in *. set (z' := se_z _ _ pf') in *.
  set (f := fun i => d * (nth i z 0 + (- (1)) * nth i z' 0)).
  exists (tab size f), (d * (se_zdelta _ _ pf - se_zdelta _ _ pf')), (d * (se_zbeta _ _ pf - se_zbeta _ _ pf')).
  split; [apply length_tab|]. split.
  - unfold opens_vec. rewrite (msm_trunc K G _ z size Lg), (msm_trunc K G _ z' size Lg) in S1. unfold f.
    rewrite msm_tab_mul, msm_tab_add, msm_tab_mul. rewrite S1 at 1. gmod; ring.
  - unfold opens. rewrite <- sc_coeffs_dot by exact Hs. rewrite S2 at 1.
    assert (Ef : dot (sc_coeffs K w0 w1 r size) (tab size f) = d * (dot (sc_coeffs K w0 w1 r size) z - dot (sc_coeffs K w0 w1 r size) z')).
    { rewrite !dot_sumn, sc_coeffs_length, <- sumn_sub, <- sumn_mul_l. apply sumn_ext. intros i Hi. rewrite nth_tab by exact Hi. unfold f. ring. }
    rewrite Ef. gmod; ring.
Qed.

Section One.
Variable ch : oracle K G.
(** ** The folded inner-product proof *)
Lemma pow2_log n : is_pow2 n = true -> exists k, n = (2 ^ k)%nat /\ (k < n)%nat.
Proof.
  unfold is_pow2. intro E. apply andb_prop in E. destruct E as [_ E]. apply Nat.eqb_eq in E. exists (Nat.log2 n). split; [congruence|].
  rewrite <- E at 2. apply Nat.pow_gt_lin_r. lia.
Qed.
Lemma bullet_ok (g : list G) q h (a b : list K) gb blinds t ls rs x y z bf t' : (length a <= length g)%nat ->
  bullet_proof K G ch g q h a b gb blinds t = Ok (ls, rs, x, y, z, bf, t') ->
  forall gamma, exists Q, bullet_verify K G ch g ls rs gamma b t = Ok (y, z, gadd Q gamma, t') /\
    gadd Q (gadd (gadd (msm g a) (gsm (dot a b) q)) (gsm gb h)) = gadd (gadd (gsm x z) (gsm (x * y) q)) (gsm bf h).
Proof.
  intros Lg E gamma. unfold bullet_proof in E. destruct (is_pow2 (length a)) eqn:E2; [|discriminate]. cbn [negb] in E.
  destruct (Nat.eqb_spec (length a) (length b)) as [Lb|]; [|discriminate]. cbn [negb] in E.
  destruct (pow2_log _ E2) as (k & Ek & Hk).
  match type of E with rbind ?X _ = _ => destruct X as [[[[[[[ls0 rs0] a0] b0] g1] bf0] t0]| |] eqn:E0; cbn [rbind] in E; try discriminate end.
  destruct (bullet_loop_ok K G ch k (length a) g q h a b gb blinds t) with (5 := E0) as (xs & x0 & y0 & z0 & gt & -> & -> & -> & Lx & LL & LR & NZ & Ec & Qy & Qz & Q); try lia.
  injection E as <- <- <- <- <- <- <-.
  exists (gadd (msm ls0 (map (fun x => x * x) xs)) (msm rs0 (map (fun x => finv x * finv x) xs))). split; [|symmetry; exact Q].
  unfold bullet_verify. rewrite LL, LR, Nat.eqb_refl. cbn [negb]. rewrite Ec. cbn [rbind].
  change (fold_left (fun acc x : K => acc * finv x) xs 1) with (invprod K xs). rewrite <- Lx, s_vec_ok by exact NZ.
  destruct (Nat.ltb_spec (length b) (2 ^ length xs)) as [|_]; [rewrite Lx in *; lia|]. destruct (Nat.ltb_spec (length g) (2 ^ length xs)) as [|_]; [rewrite Lx in *; lia|].
  cbn [orb]. rewrite <- Qy, <- Qz. reflexivity.
Qed.
(** The challenges of a run, read off the verifier. *)
Theorem log_dot_exact lbl (p : pcp K G) q qs lz r_eq lzb ryb eval d rd rb blinds t pf Clz Cry t' :
  mc_gens _ _ (pc_gen_1 _ _ p) = q :: qs -> mc_h _ _ (pc_gen_n _ _ p) = mc_h _ _ (pc_gen_1 _ _ p) -> (length lz <= length (mc_gens _ _ (pc_gen_n _ _ p)))%nat ->
  log_dot_prove K G ch lbl p lz r_eq lzb ryb eval d rd rb blinds t = Ok (pf, Clz, Cry, t') ->
  exists bs gh ga t1, bullet_verify K G ch (mc_gens _ _ (pc_gen_n _ _ p)) (dp_l _ _ pf) (dp_r _ _ pf) (gadd Clz Cry) r_eq (MG "Cy" Cry :: MG "Cx" Clz :: t) = Ok (bs, gh, ga, t1) /\
    log_dot_verify K G ch lbl p Clz Cry r_eq pf t =
      Ok (geqb (gsm (bs * ch lbl (MG "beta" (dp_beta _ _ pf) :: MG "delta" (dp_delta _ _ pf) :: t1) * (eval - dot lz r_eq)) q) g0, t').
Proof.
  intros Eq Eh Lg E. unfold log_dot_prove, draw in E. rewrite Eq in E.
  match type of E with rbind ?X _ = _ => destruct X as [[[[[[[ls rs] x] y] z] bf] t1]| |] eqn:E0; cbn [rbind] in E; try discriminate end.
  injection E as <- <- <- <-.
  set (Clz := poly_commit_vec K G (mc_gens _ _ (pc_gen_n _ _ p)) lz (mc_h _ _ (pc_gen_n _ _ p)) lzb) in *.
  set (Cry := poly_commit_vec K G (q :: qs) [eval] (mc_h _ _ (pc_gen_1 _ _ p)) ryb) in *.
  destruct (bullet_ok _ _ _ _ _ _ _ _ _ _ _ _ _ _ _ Lg E0 (gadd Clz Cry)) as (Q & EV & EQ).
  exists y, z, (gadd Q (gadd Clz Cry)), t1. split; [exact EV|].
  unfold log_dot_verify, draw. cbn [dp_l dp_r dp_delta dp_beta dp_z1 dp_z2]. rewrite EV. cbn [rbind]. rewrite Eq.
  set (T := MG "beta" _ :: _). do 2 f_equal. set (c := ch lbl T). clearbody c.
  assert (EG : gadd Q (gadd Clz Cry) = gadd (gadd (gadd (gsm x z) (gsm (x * y) q)) (gsm bf (mc_h _ _ (pc_gen_1 _ _ p)))) (gsm (eval - dot lz r_eq) q)).
  { rewrite <- Eh, <- EQ. unfold Clz, Cry, poly_commit_vec. rewrite !msm1, <- Eh. cbn [hd]. gmod; ring. }
  rewrite EG. unfold poly_commit_vec. rewrite !msm1. cbn [hd]. set (h := mc_h _ _ (pc_gen_1 _ _ p)). set (e := eval - dot lz r_eq).
  match goal with |- geqb ?l ?r = _ => assert (EL : l = gadd r (gsm (y * c * e) q)) by (gmod; ring) end. rewrite EL.
  match goal with |- geqb (gadd ?r ?w) _ = _ => destruct (geqb_spec _ _ w g0) as [Ew|Nw] end.
  - rewrite Ew, gadd_0r. apply geqb_refl.
  - match goal with |- geqb ?l ?r = _ => destruct (geqb_spec _ _ l r) as [Ee|]; [|reflexivity] end. exfalso. apply Nw.
    match type of Ee with gadd ?r ?w = _ => apply (gadd_cancel K G r) end. rewrite gadd_0r. exact Ee.
Qed.

Lemma bullet_loop_total : (forall l t, ch l t <> 0) -> forall k fuel (g : list G) (q h : G) (a b : list K) blind blinds t, length a = (2 ^ k)%nat -> length b = (2 ^ k)%nat -> (2 ^ k <= length g)%nat ->
  (k < fuel)%nat -> (k <= length blinds)%nat -> exists r, bullet_loop K G ch fuel g q h a b blind blinds t = Ok r.
Proof.
  intro NZ. induction k as [|k IH]; intros fuel g q h a b blind blinds t La Lb Lg Hf Hb; destruct fuel as [|f]; try lia; cbn [bullet_loop].
  - rewrite La. cbn. eauto.
  - assert (P2 : (1 <= 2 ^ k)%nat) by (apply Nat.neq_0_lt_0, Nat.pow_nonzero; lia).
    assert (Ln : Nat.leb (length a) 1 = false) by (apply Nat.leb_gt; rewrite La; cbn; lia). rewrite Ln.
    assert (Hd : Nat.div2 (length a) = (2 ^ k)%nat) by (rewrite La; replace (2 ^ S k)%nat with (2 * 2 ^ k)%nat by (cbn; lia); apply Nat.div2_double).
    rewrite Hd. set (n := (2 ^ k)%nat) in *. cbn [Nat.pow] in La, Lb, Lg. fold n in La, Lb, Lg.
    assert (Fa : length (firstn n a) = n) by (rewrite firstn_length; lia). assert (Sa : length (skipn n a) = n) by (rewrite skipn_length; lia).
    assert (Fb : length (firstn n b) = n) by (rewrite firstn_length; lia). assert (Sb : length (skipn n b) = n) by (rewrite skipn_length; lia).
    assert (Fg : length (firstn n g) = n) by (rewrite firstn_length; lia). assert (Sg : (n <= length (skipn n g))%nat) by (rewrite skipn_length; lia).
    unfold inner_product. rewrite Fa, Sb, Sa, Fb, Nat.eqb_refl. cbn [rbind].
    destruct (Nat.ltb_spec (length g) (2 * n)) as [?|_]; [lia|].
    destruct blinds as [|[bl br] blinds]; [cbn in Hb; lia|]. cbv zeta. unfold draw.
    match goal with |- context [feqb ?x 0] => destruct (feqb x 0) eqn:Ex; [apply feqb_eq in Ex; exfalso; exact (NZ _ _ Ex)|] end.
    match goal with |- exists r, rbind ?X _ = _ => assert (S : exists r, X = Ok r) end.
    { apply IH; try (rewrite length_lin2; lia); [|lia|cbn in Hb; lia]. unfold glin2. rewrite map_length, combine_length. lia. }
    destruct S as [[[[[[[l0 r0] a0] b0] g1] bf0] t0] ->]. cbn [rbind]. eauto.
Qed.
Lemma log_dot_total lbl (p : pcp K G) lz r_eq lzb ryb eval d rd rb blinds t k : (forall l t, ch l t <> 0) -> length lz = (2 ^ k)%nat -> length r_eq = (2 ^ k)%nat ->
  (2 ^ k <= length (mc_gens _ _ (pc_gen_n _ _ p)))%nat -> mc_gens _ _ (pc_gen_1 _ _ p) <> [] -> (k <= length blinds)%nat ->
  exists r, log_dot_prove K G ch lbl p lz r_eq lzb ryb eval d rd rb blinds t = Ok r.
Proof.
  intros NZ Ll Lr Lg Hq Hb. unfold log_dot_prove, draw. destruct (mc_gens _ _ (pc_gen_1 _ _ p)) as [|q qs] eqn:Eq; [congruence|].
  unfold bullet_proof. rewrite Ll, Lr, is_pow2_pow, Nat.eqb_refl. cbn [negb].
  match goal with |- context [bullet_loop K G ch ?f ?g ?q ?h ?a ?b ?bl ?bs ?t] => destruct (bullet_loop_total NZ k f g q h a b bl bs t) as [[[[[[[ls rs] a0] b0] g1] bf] t0] E] end;
    try lia; [apply Nat.pow_gt_lin_r; lia|]. rewrite E. cbn [rbind].
  destruct (bullet_loop_ok K G ch k _ _ _ _ _ _ _ _ _ Ll Lr Lg (Nat.pow_gt_lin_r 2 k ltac:(lia)) _ _ _ _ _ _ _ E) as (xs & x & y & z & gt & -> & -> & -> & _).
  cbn [rbind]. eauto.
Qed.

(** ** Rows *)
Lemma bits_val_app bs cs : bits_val (bs ++ cs) = (bits_val bs * 2 ^ length cs + bits_val cs)%nat.
Proof. unfold bits_val at 1. rewrite fold_left_app. apply bits_val_acc. Qed.
Lemma chi_app bs : forall a cs b, length bs = length a -> chi (bs ++ cs) (a ++ b) = chi bs a * chi cs b :> K.
Proof. induction bs as [|x bs IH]; intros [|y a] cs b L; cbn in L; try lia; cbn [app chi]; [ring|]. rewrite IH by lia. ring. Qed.
Lemma cube_app (F : list bool -> K) m : forall n, fsum (map F (cube (n + m))) = fsum (map (fun bs => fsum (map (fun cs => F (bs ++ cs)) (cube m))) (cube n)).
Proof.
  intro n. revert F. induction n as [|n IH]; intro F; [cbn [plus]; change (cube 0) with [@nil bool]; cbn [map]; change (map (fun cs => F ([] ++ cs)) (cube m)) with (map F (cube m)); generalize (fsum (map F (cube m))) as y; intro y; change (y = y + 0); ring|]. cbn [plus cube]. rewrite !map_app, !fsum_app, !map_map, !IH. reflexivity.
Qed.
Lemma fsum_cube_seq (F : nat -> K) (r : list K) : fsum (map (fun bs => F (bits_val bs) * chi bs r) (cube (length r))) = sumn (2 ^ length r) (fun i => F i * nth i (eval_eq K r) 0).
Proof.
  rewrite sumn_fsum, <- (cube_vals (length r)), map_map. f_equal. apply map_ext_in. intros bs Hb. apply cube_in in Hb. rewrite eval_eq_nth by exact Hb. reflexivity.
Qed.
Lemma mle_app (v a b : list K) : mle v (a ++ b) = sumn (2 ^ length a) (fun i => nth i (eval_eq K a) 0 * sumn (2 ^ length b) (fun j => nth (i * 2 ^ length b + j) v 0 * nth j (eval_eq K b) 0)).
Proof.
  unfold mle. rewrite app_length, cube_app.
  rewrite (sumn_ext K (2 ^ length a) _ (fun i => sumn (2 ^ length b) (fun j => nth (i * 2 ^ length b + j) v 0 * nth j (eval_eq K b) 0) * nth i (eval_eq K a) 0)) by (intros; ring).
  rewrite <- (fsum_cube_seq (fun i => sumn (2 ^ length b) (fun j => nth (i * 2 ^ length b + j) v 0 * nth j (eval_eq K b) 0)) a).
  f_equal. apply map_ext_in. intros bs Hb. apply cube_in in Hb.
  rewrite <- (fsum_cube_seq (fun j => nth (bits_val bs * 2 ^ length b + j) v 0) b), <- fsum_map_mul_r. f_equal. apply map_ext_in. intros cs Hc. apply cube_in in Hc.
  rewrite bits_val_app, Hc, chi_app by exact Hb. ring.
Qed.
Lemma row_comb_tab (l v : list K) r : row_comb K l v r = tab r (fun j => sumn (length l) (fun i => nth i l 0 * nth (i * r + j) v 0)).
Proof. unfold row_comb, ProofsBulletproofs.tab. apply map_ext. intro j. symmetry. apply sumn_fsum. Qed.
Lemma row_comb_dot (v a b : list K) : dot (row_comb K (eval_eq K a) v (2 ^ length b)) (eval_eq K b) = mle v (a ++ b).
Proof.
  rewrite row_comb_tab, eval_eq_length, mle_app, dot_sumn, length_tab.
  rewrite (sumn_ext K (2 ^ length b) _ (fun j => sumn (2 ^ length a) (fun i => nth i (eval_eq K a) 0 * (nth (i * 2 ^ length b + j) v 0 * nth j (eval_eq K b) 0)))).
  - rewrite sumn_swap. apply sumn_ext. intros i _. apply sumn_mul_l.
  - intros j Hj. rewrite nth_tab by exact Hj. rewrite <- sumn_mul_r. apply sumn_ext. intros. ring.
Qed.
Lemma msm_rows (gs : list G) (h : G) (R : nat) (row : nat -> nat -> K) (b l : nat -> K) : forall L,
  msm (map (fun i => gadd (msm gs (tab R (row i))) (gsm (b i) h)) (seq 0 L)) (tab L l) =
  gadd (msm gs (tab R (fun j => sumn L (fun i => l i * row i j)))) (gsm (sumn L (fun i => l i * b i)) h).
Proof.
  induction L as [|L IH].
  - cbn [seq map msm sumn]. rewrite msm_tab_0. gmod; ring.
  - unfold ProofsBulletproofs.tab at 2. rewrite seq_S, !map_app, msm_app by (rewrite !map_length; reflexivity). cbn [plus map]. rewrite msm1. cbn [hd].
    change (map l (seq 0 L)) with (tab L l). rewrite IH. cbn [sumn]. rewrite msm_tab_add, msm_tab_mul. gmod; ring.
Qed.
Lemma packing_ok gens (v : list K) h rnd isb k commits blinds : length v = (2 ^ k)%nat ->
  packing_poly_commit K G gens v h rnd isb = Ok (commits, blinds) -> forall a b : list K, length a = (k / 2)%nat -> length b = (k - k / 2)%nat ->
  length blinds = (2 ^ (k / 2))%nat /\
  poly_commit_vec K G commits (eval_eq K a) h 0 = poly_commit_vec K G gens (row_comb K (eval_eq K a) v (2 ^ length b)) h (dot (eval_eq K a) blinds).
Proof.
  intros Lv E a b La Lb. unfold packing_poly_commit, log2c in E. rewrite Lv, Nat.log2_up_pow2 in E by lia.
  destruct (negb _) eqn:En; [discriminate|].
  apply Bool.negb_false_iff, Nat.eqb_eq in En. rewrite Lb. set (R := (2 ^ (k - k / 2))%nat) in *. set (L := (2 ^ (k / 2))%nat) in *.
  injection E as <- <-. rewrite map_length, seq_length. split; [reflexivity|].
  assert (Le : length (eval_eq K a) = L) by (rewrite eval_eq_length, La; reflexivity).
  set (bl := map (fun i => if isb then rnd i else 0) (seq 0 L)).
  unfold poly_commit_vec. rewrite (map_ext_in _ (fun i => gadd (msm gens (tab R (fun j => nth (i * R + j) v 0))) (gsm (nth i bl 0) h))).
  - rewrite (list_tab K (eval_eq K a) L Le) at 1. rewrite msm_rows, row_comb_tab, Le, dot_sumn, Le. cbv beta. gmod; ring.
  - intros i Hi. apply in_seq in Hi. do 2 f_equal. 
    assert (Li : length (firstn R (skipn (i * R) v)) = R) by (rewrite firstn_length, skipn_length, Lv; nia).
    rewrite (list_tab K _ R Li). apply tab_ext. intros j Hj. rewrite nth_firstn, nth_skipn. destruct (Nat.ltb_spec j R); [reflexivity|lia].
Qed.
Lemma zeros_map n : forall s, repeat (0 : K) n = map (fun _ => 0) (seq s n).
Proof. induction n as [|n IH]; intro s; [reflexivity|]. cbn. f_equal. apply IH. Qed.
Theorem inner_product_exact (p : pcp K G) q qs poly rnd isb commits blinds bp ry ryb eval d rd rb bv t pf Cry t' :
  mc_gens _ _ (pc_gen_1 _ _ p) = q :: qs -> mc_h _ _ (pc_gen_n _ _ p) = mc_h _ _ (pc_gen_1 _ _ p) ->
  (2 ^ (length ry - length ry / 2) <= length (mc_gens _ _ (pc_gen_n _ _ p)))%nat ->
  packing_poly_commit K G (mc_gens _ _ (pc_gen_n _ _ p)) poly (mc_h _ _ (pc_gen_n _ _ p)) rnd isb = Ok (commits, blinds) ->
  bp = blinds \/ bp = [] /\ isb = false ->
  inner_product_proof K G ch p poly bp ry ryb eval d rd rb bv t = Ok (pf, Cry, t') ->
  Cry = poly_commit_vec K G (q :: qs) [eval] (mc_h _ _ (pc_gen_1 _ _ p)) ryb /\
  exists bs gh ga t1, let Clz := poly_commit_vec K G commits (eval_eq K (firstn (length ry / 2) ry)) (mc_h _ _ (pc_gen_1 _ _ p)) 0 in
    bullet_verify K G ch (mc_gens _ _ (pc_gen_n _ _ p)) (dp_l _ _ pf) (dp_r _ _ pf) (gadd Clz Cry) (eval_eq K (skipn (length ry / 2) ry))
      (MG "Cy" Cry :: MG "Cx" Clz :: MU "protocol-name:polynomial evaluation proof" 0 :: t) = Ok (bs, gh, ga, t1) /\
    inner_product_verify K G ch p ry commits Cry pf t =
      Ok (geqb (gsm (bs * ch "challenge_tau" (MG "beta" (dp_beta _ _ pf) :: MG "delta" (dp_delta _ _ pf) :: t1) * (eval - mle poly ry)) q) g0, t').
Proof.
  intros Eq Eh Lg Ec Hb E. unfold inner_product_proof, log2c in E. set (T := MU _ _ :: t) in *.
  destruct (Nat.eqb_spec (length ry) (Nat.log2_up (length poly))) as [Ls|]; [|discriminate]. cbn [negb] in E. rewrite <- Ls in E. set (k := length ry) in *.
  destruct (negb (Nat.eqb (2 ^ (k / 2)) _)) eqn:En; [discriminate|].
  destruct (Nat.ltb_spec (length poly) (2 ^ (k / 2) * 2 ^ (k - k / 2))) as [|Ln]; [discriminate|].
  assert (Hk : (k / 2 <= k)%nat) by (apply Nat.div_le_upper_bound; lia).
  assert (Lv : length poly = (2 ^ k)%nat).
  { unfold packing_poly_commit, log2c in Ec. rewrite <- Ls in Ec. destruct (Nat.eqb_spec (length poly) (2 ^ (k / 2) * 2 ^ (k - k / 2))) as [El|]; [|discriminate].
    rewrite El, <- Nat.pow_add_r. f_equal. lia. }
  set (a := firstn (k / 2) ry) in *. set (b := skipn (k / 2) ry) in *.
  assert (La : length a = (k / 2)%nat) by (unfold a; rewrite firstn_length; fold k; lia). assert (Lb : length b = (k - k / 2)%nat) by (unfold b; rewrite skipn_length; reflexivity).
  destruct (packing_ok _ _ _ _ _ k _ _ Lv Ec a b La Lb) as [Lbl EC].
  match type of E with rbind (log_dot_prove _ _ _ _ _ _ _ (dot _ ?B) _ _ _ _ _ _ _) _ = _ => assert (EB : B = blinds) end.
  { destruct Hb as [->|[-> ->]].
    - destruct blinds; [|reflexivity]. cbn [length] in Lbl. exfalso. symmetry in Lbl. revert Lbl. apply Nat.pow_nonzero. lia.
    - unfold packing_poly_commit, log2c in Ec. rewrite <- Ls in Ec. destruct (negb (Nat.eqb (length poly) _)); [discriminate|].
      assert (Eb : blinds = map (fun _ => 0) (seq 0 (2 ^ (k / 2)))) by (revert Ec; generalize (2 ^ (k / 2))%nat; intros ? Ec; congruence).
      rewrite Eb. apply zeros_map. }
  rewrite EB in E. rewrite <- Lb in E.
  match type of E with rbind ?X _ = _ => destruct X as [[[[pf0 Cl] Cr] t0]| |] eqn:E0; cbn [rbind] in E; try discriminate end.
  injection E as <- <- <-.
  assert (ECl : Cl = poly_commit_vec K G (mc_gens _ _ (pc_gen_n _ _ p)) (row_comb K (eval_eq K a) poly (2 ^ length b)) (mc_h _ _ (pc_gen_n _ _ p)) (dot (eval_eq K a) blinds)
     /\ Cr = poly_commit_vec K G (q :: qs) [eval] (mc_h _ _ (pc_gen_1 _ _ p)) ryb).
  { unfold log_dot_prove, draw in E0. rewrite Eq in E0. match type of E0 with rbind ?X _ = _ => destruct X as [[[[[[[? ?] ?] ?] ?] ?] ?]| |]; cbn [rbind] in E0; try discriminate end.
    injection E0 as _ <- <- _. split; reflexivity. }
  destruct ECl as [ECl ECr]. split; [exact ECr|].
  apply log_dot_exact with (q := q) (qs := qs) in E0; [|exact Eq|exact Eh|rewrite row_comb_tab, length_tab, Lb; exact Lg].
  destruct E0 as (bs & gh & ga & t1 & EB' & EV). rewrite row_comb_dot in EV.
  replace (a ++ b) with ry in EV by (symmetry; apply firstn_skipn).
  exists bs, gh, ga, t1. cbv zeta. fold k a b T. rewrite <- Eh, EC, <- ECl. split; [exact EB'|].
  unfold inner_product_verify. fold k a b T. rewrite <- Eh, EC, <- ECl. exact EV.
Qed.
End One.
End P.
