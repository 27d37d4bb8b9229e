(** Proofs about the evaluation step of the committed sum-check, and the folded inner-product proof. *)
From Verif Require Import Field Poly Module ModTac ModelTranscript ModelBulletproofs ModelSigma SpecSigma SpecMle ProofsMle ProofsIPP ProofsBulletproofs ProofsSigma.
Local Open Scope string_scope.
Local Open Scope list_scope.
Local Open Scope fld_scope.
Section P.
Variable K : Fld.
Variable G : Grp K.
Add Field Kf : (f_laws K).
Notation tab := (tab K).

Lemma msm_trunc : forall (gs : list G) (z : list K) n, (length gs <= n)%nat -> msm gs z = msm gs (tab n (fun i => nth i z 0)).
Proof.
  induction gs as [|g gs IH]; intros z n L; [reflexivity|]. destruct n; [cbn in L; lia|]. rewrite tab_S.
  destruct z as [|x z].
  - rewrite msm_nil_r. cbn [msm]. rewrite (tab_ext K n _ (fun _ => 0)) by (intros i _; reflexivity). rewrite msm_tab_0. cbn [nth]. gmod; ring.
  - cbn [msm nth]. rewrite <- (IH z n) by (cbn in L; lia). reflexivity.
Qed.
Lemma firstn_add {A} n m : forall l : list A, firstn (n + m) l = firstn n l ++ firstn m (skipn n l).
Proof. induction n as [|n IH]; intros l; [reflexivity|]. destruct l as [|y l]; [cbn; rewrite firstn_nil; reflexivity|]. cbn. f_equal. apply IH. Qed.
Lemma dot_nth (a z : list K) : dot a z = sumn (length a) (fun i => nth i a 0 * nth i z 0).
Proof. apply dot_sumn. Qed.
(** <coeffs, p> = w0 (p(0) + p(1)) + w1 p(r). *)
Lemma sc_coeffs_dot w0 w1 r n (f : nat -> K) : (0 < n)%nat ->
  dot (sc_coeffs K w0 w1 r n) (tab n f) = w0 * (peval (tab n f) 0 + peval (tab n f) 1) + w1 * peval (tab n f) r.
Proof.
  intro Hn. change (sc_coeffs K w0 w1 r n) with (tab n (fun i => w0 + w1 * fpow r i + (if Nat.eqb i 0 then w0 else 0))). rewrite dot_tab.
  unfold ProofsBulletproofs.tab. rewrite !peval_map_seq.
  rewrite (sumn_ext K n _ (fun i => w0 * (f i * 1 ^ i) + w1 * (f i * r ^ i) + w0 * (f i * 0 ^ i))).
  - rewrite !sumn_add, !sumn_mul_l. ring.
  - intros i _. assert (O : (1 : K) ^ i = 1) by (induction i as [|i IH]; [reflexivity|]; cbn; rewrite IH; ring).
    rewrite O. destruct i as [|i]; cbn [Nat.eqb]; [cbn; ring|]. replace ((0 : K) ^ S i) with (0 : K) by (cbn; ring). ring.
Qed.
Lemma sc_coeffs_length w0 w1 r n : length (sc_coeffs K w0 w1 r n) = n.
Proof. unfold sc_coeffs. rewrite map_length, seq_length. reflexivity. Qed.
Lemma peval_tab_pad (p : list K) n x : (length p <= n)%nat -> peval (tab n (fun i => nth i p 0)) x = peval p x.
Proof.
  intro L. unfold ProofsBulletproofs.tab. rewrite peval_map_seq, peval_sum. apply sumn_trunc; [exact L|].
  intros i Hi. rewrite nth_overflow by lia. ring.
Qed.

Section One.
Variable ch : oracle K G.
Theorem sum_check_eval_complete g1 gn poly bp claim bc eval be size r d rd rb t pf t' :
  let com1 x b := poly_commit_vec K G (mc_gens _ _ g1) [x] (mc_h _ _ g1) b in
  let C := poly_commit_vec K G (mc_gens _ _ gn) poly (mc_h _ _ gn) bp in
  (0 < size)%nat -> length d = size -> claim = peval poly 0 + peval poly 1 -> eval = peval poly r ->
  sum_check_eval_prover K G ch g1 gn poly C bp claim bc eval be size r d rd rb t = Ok (pf, t') ->
  sum_check_eval_verify K G ch g1 gn C (com1 eval be) (com1 claim bc) pf r size t = Ok (true, t').
Proof.
  intros com1 C Hs Ld -> -> E. unfold sum_check_eval_prover, draw in E.
  destruct (Nat.ltb_spec size (length poly)) as [|Lp]; [discriminate|]. injection E as <- <-.
  unfold sum_check_eval_verify, draw. cbn [se_d se_dot se_z se_zdelta se_zbeta].
  set (w0 := ch "combine_two_claims_to_one" t). set (w1 := ch "combine_two_claims_to_one" (MCh "combine_two_claims_to_one" :: t)).
  assert (EC : poly_commit_vec K G (mc_gens _ _ g1) [w0 * (peval poly 0 + peval poly 1) + w1 * peval poly r] (mc_h _ _ g1) (w0 * bc + w1 * be) =
    gadd (gsm w0 (com1 (peval poly 0 + peval poly 1) bc)) (gsm w1 (com1 (peval poly r) be))).
  { unfold com1, poly_commit_vec. rewrite !msm1. gmod; ring. }
  rewrite EC. set (CV := gadd (gsm w0 _) _) in *. set (T := MG "beta" _ :: _). set (c := ch "c" T).
  assert (Ez : map (fun '(x, d0) => c * x + d0) (combine (poly ++ repeat 0 (size - length poly)) d) = tab size (fun i => c * nth i poly 0 + nth i d 0)).
  { rewrite (list_tab K (poly ++ repeat 0 (size - length poly)) size) by (rewrite app_length, repeat_length; lia).
    rewrite (list_tab K d size) at 1 by exact Ld. rewrite (map_combine_tab K (fun x d0 => c * x + d0)). apply tab_ext. intros i Hi. f_equal. f_equal.
    destruct (Nat.ltb_spec i (length poly)); [apply app_nth1; lia|]. rewrite app_nth2, nth_repeat, nth_overflow by lia. reflexivity. }
  rewrite Ez, length_tab, Nat.ltb_irrefl. do 2 f_equal. apply andb_true_intro. split; apply geqb_true.
  - unfold C, poly_commit_vec. rewrite (msm_pad K G poly _ size), (msm_pad K G d _ size) by lia.
    rewrite msm_tab_add, msm_tab_mul. gmod; ring.
  - rewrite <- EC. unfold poly_commit_vec. rewrite !msm1. rewrite sc_coeffs_dot by exact Hs.
    rewrite (list_tab K d size) at 1 by exact Ld. rewrite sc_coeffs_dot by exact Hs.
    assert (Ep : forall x, peval (tab size (fun i => c * nth i poly 0 + nth i d 0)) x = c * peval poly x + peval (tab size (fun i => nth i d 0)) x).
    { intro x. rewrite <- (peval_tab_pad poly size x) by lia. unfold ProofsBulletproofs.tab. rewrite !peval_map_seq, <- sumn_mul_l, <- sumn_add. apply sumn_ext. intros. ring. }
    rewrite !Ep. gmod; ring.
Qed.
Lemma sum_check_eval_total g1 gn poly C bp claim bc eval be size r d rd rb t : (length poly <= size)%nat ->
  exists pf t', sum_check_eval_prover K G ch g1 gn poly C bp claim bc eval be size r d rd rb t = Ok (pf, t').
Proof. intro L. unfold sum_check_eval_prover, draw. destruct (Nat.ltb_spec size (length poly)); [lia|]. eauto. Qed.

(** ** Folding *)
Lemma bullet_loop_ok : forall k fuel (g : list G) (q h : G) (a b : list K) blind blinds t, length a = (2 ^ k)%nat -> length b = (2 ^ k)%nat -> (2 ^ k <= length g)%nat ->
  (k < fuel)%nat -> forall ls rs a' b' g' bf t', bullet_loop K G ch fuel g q h a b blind blinds t = Ok (ls, rs, a', b', g', bf, t') ->
  exists xs x y z gt, a' = [x] /\ b' = [y] /\ g' = z :: gt /\ length xs = k /\ length ls = k /\ length rs = k /\ Forall (fun x => x <> 0) xs /\
    bullet_challenges K G ch ls rs t = Ok (xs, t') /\ y = dot b (svec K xs) /\ z = msm g (svec K xs) /\
    gadd (gadd (gsm x z) (gsm (x * y) q)) (gsm bf h) =
    gadd (gadd (msm ls (map (fun x => x * x) xs)) (msm rs (map (fun x => finv x * finv x) xs))) (gadd (gadd (msm g a) (gsm (dot a b) q)) (gsm blind h)).
Proof.
  induction k as [|k IH]; intros fuel g q h a b blind blinds t La Lb Lg Hf ls rs a' b' g' bf t' E; destruct fuel as [|f]; try lia; cbn [bullet_loop] in E.
  - rewrite La in E. cbn in E. injection E as <- <- <- <- <- <- <-.
    destruct a as [|x [|? ?]]; cbn in La; try lia. destruct b as [|y [|? ?]]; cbn in Lb; try lia.
    destruct g as [|z gt]; cbn in Lg; try lia.
    exists [], x, y, z, gt. repeat (split; [first [reflexivity|constructor]|]). cbn [svec]. split; [cbn; ring|].
    rewrite !msm1. cbn [hd]. split; [symmetry; apply gsm_1|]. cbn [map msm dot]. rewrite ?msm1. cbn [hd]. cbn. gmod; ring.
  - assert (P2 : (1 <= 2 ^ k)%nat) by (apply Nat.neq_0_lt_0, Nat.pow_nonzero; lia).
    assert (Ln : Nat.leb (length a) 1 = false) by (apply Nat.leb_gt; rewrite La; cbn; lia). rewrite Ln in E.
    assert (Hd : Nat.div2 (length a) = (2 ^ k)%nat) by (rewrite La; replace (2 ^ S k)%nat with (2 * 2 ^ k)%nat by (cbn; lia); apply Nat.div2_double).
    rewrite Hd in E. set (n := (2 ^ k)%nat) in *. cbn [Nat.pow] in La, Lb, Lg. fold n in La, Lb, Lg.
    assert (Fa : length (firstn n a) = n) by (rewrite firstn_length; lia). assert (Sa : length (skipn n a) = n) by (rewrite skipn_length; lia).
    assert (Fb : length (firstn n b) = n) by (rewrite firstn_length; lia). assert (Sb : length (skipn n b) = n) by (rewrite skipn_length; lia).
    assert (Fg : length (firstn n g) = n) by (rewrite firstn_length; lia).
    unfold inner_product in E. rewrite Fa, Sb, Sa, Fb, Nat.eqb_refl in E. cbn [rbind] in E.
    destruct (Nat.ltb_spec (length g) (2 * n)) as [?|_]; [lia|].
    destruct blinds as [|[bL' bR'] blinds]; [discriminate E|].
    assert (Ea : a = firstn n a ++ skipn n a) by (symmetry; apply firstn_skipn). assert (Eb : b = firstn n b ++ skipn n b) by (symmetry; apply firstn_skipn).
    assert (Eg : g = firstn n g ++ skipn n g) by (symmetry; apply firstn_skipn).
    set (aL := firstn n a) in *. set (aR := skipn n a) in *. set (bL := firstn n b) in *. set (bR := skipn n b) in *.
    set (gL := firstn n g) in *.
    assert (ER : glin2 K G (finv (ch "x" (MG "R" (gadd (msm gL aR) (msm [q; h] [dot aR bL; bR'])) :: MG "L" (gadd (msm (skipn n g) aL) (msm [q; h] [dot aL bR; bL'])) :: t)))
       (ch "x" (MG "R" (gadd (msm gL aR) (msm [q; h] [dot aR bL; bR'])) :: MG "L" (gadd (msm (skipn n g) aL) (msm [q; h] [dot aL bR; bL'])) :: t)) gL (skipn n g) =
       glin2 K G (finv (ch "x" (MG "R" (gadd (msm gL aR) (msm [q; h] [dot aR bL; bR'])) :: MG "L" (gadd (msm (skipn n g) aL) (msm [q; h] [dot aL bR; bL'])) :: t)))
       (ch "x" (MG "R" (gadd (msm gL aR) (msm [q; h] [dot aR bL; bR'])) :: MG "L" (gadd (msm (skipn n g) aL) (msm [q; h] [dot aL bR; bL'])) :: t)) gL (firstn n (skipn n g))).
    { unfold glin2. f_equal. rewrite (combine_firstn_l gL (skipn n g)), Fg. reflexivity. }
    cbv zeta in E. unfold draw in E. rewrite ER in E. clear ER.
    assert (Sg : length (firstn n (skipn n g)) = n) by (rewrite firstn_length, skipn_length; lia).
    assert (EL : msm (skipn n g) aL = msm (firstn n (skipn n g)) aL) by (symmetry; apply msm_firstn; lia).
    rewrite EL in E.
    assert (Eg2 : forall ks : list K, length ks = (n + n)%nat -> msm g ks = msm (gL ++ firstn n (skipn n g)) ks).
    { intros ks Hk. rewrite <- (msm_firstn K G ks g (n + n)) by lia. f_equal. unfold gL. apply firstn_add. }
    set (gR := firstn n (skipn n g)) in *.
    set (L := gadd (msm gR aL) _) in *. set (R := gadd (msm gL aR) _) in *.
    set (t1 := MG "R" R :: MG "L" L :: t) in *. set (x := ch "x" t1) in *.
    destruct (feqb x 0) eqn:Ex; [discriminate E|].
    match type of E with rbind ?X _ = _ => destruct X as [[[[[[[ls0 rs0] a0] b0] g1] bf0] t0]| |] eqn:E0; cbn [rbind] in E; try discriminate end.
    injection E as <- <- -> -> -> -> ->.
    destruct (IH f (glin2 K G (finv x) x gL gR) q h (lin2 K x (finv x) aL aR) (lin2 K (finv x) x bL bR) (blind + x * x * bL' + finv x * finv x * bR') blinds (MCh "x" :: t1)) with (5 := E0)
      as (xs & p & y & z & gt & -> & -> & -> & Lx & LL & LR & NZ & Ec & Qy & Qz & Q); try (rewrite ?length_lin2, ?length_glin2; lia).
    exists (x :: xs), p, y, z, gt. do 3 (split; [reflexivity|]). cbn [length]. split; [lia|]. split; [lia|]. split; [lia|].
    assert (Nx : x <> 0) by (apply feqb_neq; exact Ex).
    split; [constructor; assumption|].
    assert (LS : length (svec K xs) = n) by (rewrite length_svec, Lx; reflexivity).
    split; [cbn [bullet_challenges]; unfold draw; fold t1; fold x; rewrite Ex, Ec; reflexivity|].
    rewrite dot_lin2_l in Qy by lia. rewrite msm_glin2 in Qz by lia.
    split; [|split].
    + rewrite Qy, Eb. cbn [svec]. rewrite dot_app by (rewrite map_length; lia). rewrite (dot_comm K bL), (dot_comm K bR), (dot_comm K bL (map _ _)), (dot_comm K bR (map _ _)), !dot_scale_l. ring.
    + rewrite Qz, Eg2 by (rewrite length_svec; cbn [length Nat.pow]; rewrite Lx; fold n; lia). cbn [svec]. rewrite msm_app by (rewrite map_length; lia). rewrite !msm_scale. reflexivity.
    + rewrite Q. rewrite (Eg2 a) by lia. rewrite Ea, Eb. rewrite msm_app, dot_app by lia. rewrite !msm_glin2 by lia. rewrite !msm_lin2 by lia.
      rewrite !dot_lin2_l by lia. rewrite (dot_comm K aL (lin2 _ _ _ _ _)), (dot_comm K aR (lin2 _ _ _ _ _)), !dot_lin2_l by lia. cbn [map msm]. unfold L, R. cbn [msm].
      rewrite (dot_comm K bL aL), (dot_comm K bL aR), (dot_comm K bR aL), (dot_comm K bR aR).
      gmod; try ring; field; exact Nx.
Qed.
End One.
End P.
