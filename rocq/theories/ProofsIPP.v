(** Proofs about the inner-product argument. *)
From Verif Require Import Field Poly Module ModTac ModelTranscript ModelLC ModelCS ModelBulletproofs SpecBulletproofs.
Local Open Scope fld_scope.
Section P.
Variable K : Fld.
Variable G : Grp K.
Variable ch : oracle K G.
Add Field Kf : (f_laws K).

(** ** Folded exponents *)
Fixpoint svec (xs : list K) : list K :=
  match xs with [] => [1] | x :: r => map (fmul (finv x)) (svec r) ++ map (fmul x) (svec r) end.
Lemma length_svec xs : length (svec xs) = (2 ^ length xs)%nat.
Proof. induction xs as [|x r IH]; [reflexivity|]. cbn [svec length]. rewrite app_length, !map_length, IH. cbn. lia. Qed.
Lemma rev_svec x r : rev (svec (x :: r)) = map (fmul x) (rev (svec r)) ++ map (fmul (finv x)) (rev (svec r)).
Proof. cbn [svec]. rewrite rev_app_distr, !map_rev. reflexivity. Qed.
Lemma firstn_succ {A} (d : A) : forall m s, (m < length s)%nat -> firstn (S m) s = firstn m s ++ [nth m s d].
Proof. induction m; intros [|a s] L; cbn in L; try lia; [reflexivity|]. cbn [firstn nth app]. f_equal. apply IHm. lia. Qed.
Lemma s_block lg xsq j : forall m s, length s = (2 ^ j)%nat -> (m <= 2 ^ j)%nat ->
  fold_left (s_step K lg xsq) (seq (2 ^ j) m) s = s ++ map (fun y => y * nth (lg - 1 - j) xsq 0) (firstn m s).
Proof.
  induction m as [|m IH]; intros s Ls Lm; [cbn; rewrite app_nil_r; reflexivity|].
  rewrite seq_S, fold_left_app, IH by lia. cbn [fold_left]. unfold s_step.
  assert (Lg : Nat.log2 (2 ^ j + m) = j) by (apply Nat.log2_unique; cbn; lia). rewrite Lg.
  replace (2 ^ j + m - 2 ^ j)%nat with m by lia. rewrite app_nth1 by lia.
  rewrite <- app_assoc. f_equal. rewrite (firstn_succ 0 m s) by lia. rewrite map_app. reflexivity.
Qed.
Definition invprod (xs : list K) : K := fold_left (fun acc x => acc * finv x) xs 1.
Lemma invprod_app_one xs x : invprod (xs ++ [x]) = invprod xs * finv x.
Proof. unfold invprod. rewrite fold_left_app. reflexivity. Qed.
Lemma s_vec_gen : forall suf pre, Forall (fun x => x <> 0) suf ->
  let lg := (length pre + length suf)%nat in
  fold_left (s_step K lg (map (fun x => x * x) (pre ++ suf))) (seq 1 (2 ^ length suf - 1)) [invprod (pre ++ suf)] = map (fmul (invprod pre)) (svec suf).
Proof.
  induction suf as [|x r IH]; intros pre NZ lg.
  - cbn. rewrite app_nil_r. f_equal. ring.
  - inversion NZ as [|? ? Nx Nr]; subst. specialize (IH (pre ++ [x]) Nr). cbv zeta in IH.
    rewrite app_length, <- app_assoc in IH. cbn [length app] in IH. replace (length pre + 1 + length r)%nat with lg in IH by (unfold lg; cbn; lia).
    set (j := length r) in *. assert (P2 : (1 <= 2 ^ j)%nat) by (apply Nat.neq_0_lt_0, Nat.pow_nonzero; lia).
    assert (E : (2 ^ length (x :: r) - 1 = (2 ^ j - 1) + 2 ^ j)%nat) by (cbn [length Nat.pow]; fold j; lia).
    rewrite E, seq_app, fold_left_app, IH. replace (1 + (2 ^ j - 1))%nat with (2 ^ j)%nat by lia.
    rewrite s_block by (rewrite ?map_length, ?length_svec; fold j; lia).
    rewrite firstn_all2 by (rewrite map_length, length_svec; fold j; lia).
    replace (lg - 1 - j)%nat with (length pre) by (unfold lg; cbn [length]; fold j; lia).
    assert (En : nth (length pre) (map (fun x0 : K => x0 * x0) (pre ++ x :: r)) 0 = x * x).
    { rewrite map_app, app_nth2 by (rewrite map_length; lia). rewrite map_length, Nat.sub_diag. reflexivity. }
    rewrite En, invprod_app_one. cbn [svec]. rewrite map_app, !map_map. f_equal; apply map_ext; intro y.
    + ring.
    + field. exact Nx.
Qed.
Lemma s_vec_ok xs : Forall (fun x => x <> 0) xs ->
  s_vec K (length xs) (invprod xs) (map (fun x => x * x) xs) = svec xs.
Proof.
  intro NZ. unfold s_vec. pose proof (s_vec_gen xs [] NZ) as H. cbn [app length plus] in H. cbv zeta in H. rewrite H.
  rewrite <- (map_id (svec xs)) at 2. apply map_ext. intro y. unfold invprod. cbn. ring.
Qed.

(** ** Module identities for one folding step *)
Lemma msm_lin2 (gs : list G) x y : forall k l, length k = length l -> msm gs (lin2 K x y k l) = gadd (gsm x (msm gs k)) (gsm y (msm gs l)).
Proof.
  induction gs as [|g gs IH]; intros [|p k] [|q l] L; cbn in L; try discriminate; cbn [msm lin2 combine map]; try (gmod; ring).
  change (map (fun '(p, q) => (p * x + q * y)) (combine k l)) with (lin2 K x y k l).
  rewrite IH by lia. gmod; ring.
Qed.
Lemma msm_glin2 x y : forall (gs hs : list G) k, length gs = length hs -> msm (glin2 K G x y gs hs) k = gadd (gsm x (msm gs k)) (gsm y (msm hs k)).
Proof.
  induction gs as [|g gs IH]; intros [|h hs] [|p k] L; cbn in L; try discriminate; cbn [msm glin2 combine map]; try (gmod; ring).
  change (map (fun '(p, q) => gadd (gsm x p) (gsm y q)) (combine gs hs)) with (glin2 K G x y gs hs).
  rewrite IH by lia. gmod; ring.
Qed.
Lemma dot_lin2_l x y : forall k l m : list K, length k = length l -> dot (lin2 K x y k l) m = x * dot k m + y * dot l m.
Proof.
  induction k as [|p k IH]; intros [|q l] [|r m] L; cbn in L; try discriminate; cbn [dot lin2 combine map]; try ring.
  change (map (fun '(p, q) => (p * x + q * y)) (combine k l)) with (lin2 K x y k l). rewrite IH by lia. ring.
Qed.
Lemma length_lin2 x y (k l : list K) : length k = length l -> length (lin2 K x y k l) = length k.
Proof. intro. unfold lin2. rewrite map_length, combine_length. lia. Qed.
Lemma length_glin2 x y (k l : list G) : length k = length l -> length (glin2 K G x y k l) = length k.
Proof. intro. unfold glin2. rewrite map_length, combine_length. lia. Qed.

(** ** The folding loop *)
Lemma ipp_loop_ok : forall k fuel t g h u (a b : list K), length a = (2 ^ k)%nat -> length b = (2 ^ k)%nat -> length g = (2 ^ k)%nat -> length h = (2 ^ k)%nat ->
  (k < fuel)%nat -> forall Ls Rs a' b', ipp_loop K G ch fuel t g h u a b = Ok (Ls, Rs, a', b') ->
  exists xs x y, a' = [x] /\ b' = [y] /\ length xs = k /\ length Ls = k /\ length Rs = k /\ Forall (fun x => x <> 0) xs /\
    ipp_challenges K G ch t Ls Rs = Ok xs /\
    gadd (gadd (msm g (map (fmul x) (svec xs))) (msm h (map (fmul y) (rev (svec xs))))) (gsm (x * y) u) =
    gadd (gadd (msm Ls (map (fun x => x * x) xs)) (msm Rs (map (fun x => finv x * finv x) xs))) (ip_commit g h u a b).
Proof.
  induction k as [|k IH]; intros fuel t g h u a b La Lb Lg Lh Hf Ls Rs a' b' E; destruct fuel as [|f]; try lia; cbn [ipp_loop] in E.
  - rewrite La in E. cbn in E. injection E as <- <- <- <-.
    destruct a as [|x [|? ?]]; cbn in La; try lia. destruct b as [|y [|? ?]]; cbn in Lb; try lia.
    destruct g as [|g1 [|? ?]]; cbn in Lg; try lia. destruct h as [|h1 [|? ?]]; cbn in Lh; try lia.
    exists [], x, y. repeat (split; [try reflexivity; constructor|]). unfold ip_commit. cbn [svec rev app map msm dot]. gmod; ring.
  - assert (P2 : (1 <= 2 ^ k)%nat) by (apply Nat.neq_0_lt_0, Nat.pow_nonzero; lia).
    assert (Ln : Nat.leb (length a) 1 = false) by (apply Nat.leb_gt; rewrite La; cbn; lia). rewrite Ln in E.
    assert (Hd : Nat.div2 (length a) = (2 ^ k)%nat) by (rewrite La; replace (2 ^ S k)%nat with (2 * 2 ^ k)%nat by (cbn; lia); apply Nat.div2_double).
    rewrite Hd in E. set (n := (2 ^ k)%nat) in *. cbn [Nat.pow] in La, Lb, Lg, Lh. fold n in La, Lb, Lg, Lh.
    assert (Fa : length (firstn n a) = n) by (rewrite firstn_length; lia). assert (Sa : length (skipn n a) = n) by (rewrite skipn_length; lia).
    assert (Fb : length (firstn n b) = n) by (rewrite firstn_length; lia). assert (Sb : length (skipn n b) = n) by (rewrite skipn_length; lia).
    assert (Fg : length (firstn n g) = n) by (rewrite firstn_length; lia). assert (Sg : length (skipn n g) = n) by (rewrite skipn_length; lia).
    assert (Fh : length (firstn n h) = n) by (rewrite firstn_length; lia). assert (Sh : length (skipn n h) = n) by (rewrite skipn_length; lia).
    unfold inner_product in E. rewrite Fa, Sb, Sa, Fb, Nat.eqb_refl in E. cbn [rbind] in E.
    destruct (Nat.ltb_spec (length g) (2 * n)) as [?|_]; [lia|]. destruct (Nat.ltb_spec (length h) (2 * n)) as [?|_]; [lia|].
    cbn [orb] in E.
    assert (Ea : a = firstn n a ++ skipn n a) by (symmetry; apply firstn_skipn). assert (Eb : b = firstn n b ++ skipn n b) by (symmetry; apply firstn_skipn).
    assert (Eg : g = firstn n g ++ skipn n g) by (symmetry; apply firstn_skipn). assert (Eh : h = firstn n h ++ skipn n h) by (symmetry; apply firstn_skipn).
    set (aL := firstn n a) in *. set (aR := skipn n a) in *. set (bL := firstn n b) in *. set (bR := skipn n b) in *.
    set (gL := firstn n g) in *. set (gR := skipn n g) in *. set (hL := firstn n h) in *. set (hR := skipn n h) in *.
    set (L := gadd (gadd (quick_multiexp K G aL gR) (quick_multiexp K G bR hL)) (gsm (dot aL bR) u)) in *.
    set (R := gadd (gadd (quick_multiexp K G aR gL) (quick_multiexp K G bL hR)) (gsm (dot aR bL) u)) in *.
    cbv zeta in E. set (t1 := MG "R" R :: MG "L" L :: t) in *. set (x := ch "x"%string t1) in *.
    destruct (feqb x 0) eqn:Ex; [discriminate E|]. apply feqb_neq in Ex.
    destruct (ipp_loop K G ch f (MCh "x" :: t1) (glin2 K G (finv x) x gL gR) (glin2 K G x (finv x) hL hR) u (lin2 K x (finv x) aL aR) (lin2 K (finv x) x bL bR))
      as [[[[Ls0 Rs0] a0] b0]| |] eqn:E0; cbn [rbind] in E; try discriminate. injection E as <- <- -> ->.
    destruct (IH f (MCh "x" :: t1) (glin2 K G (finv x) x gL gR) (glin2 K G x (finv x) hL hR) u (lin2 K x (finv x) aL aR) (lin2 K (finv x) x bL bR)) with (6 := E0)
      as (xs & p & q & -> & -> & Lx & LL & LR & NZ & Ec & Q); try (rewrite ?length_lin2, ?length_glin2; lia).
    exists (x :: xs), p, q. split; [reflexivity|]. split; [reflexivity|]. cbn [length]. split; [lia|]. split; [lia|]. split; [lia|].
    split; [constructor; assumption|]. split.
    + cbn [ipp_challenges]. fold t1. fold x. apply feqb_neq in Ex. rewrite Ex, Ec. reflexivity.
    + rewrite Eg, Eh, Ea, Eb. rewrite rev_svec. cbn [svec]. rewrite !map_app.
      assert (LS : length (svec xs) = n) by (rewrite length_svec, Lx; reflexivity).
      unfold ip_commit. rewrite !msm_app by (rewrite ?map_length, ?rev_length; lia). rewrite dot_app by lia.
      cbn [map msm].
      unfold ip_commit in Q. rewrite !msm_glin2 in Q by lia. rewrite !msm_lin2 in Q by lia. rewrite !dot_lin2_l in Q by lia.
      rewrite (dot_comm K aL), (dot_comm K aR), !dot_lin2_l in Q by lia.
      rewrite !msm_scale. rewrite !msm_scale in Q.
      unfold L, R, quick_multiexp.
      rewrite (dot_comm K aL bR), (dot_comm K aR bL), (dot_comm K aL bL), (dot_comm K aR bR).
      set (A1 := msm gL (svec xs)) in *. set (A2 := msm gR (svec xs)) in *.
      set (B1 := msm hL (rev (svec xs))) in *. set (B2 := msm hR (rev (svec xs))) in *.
      match type of Q with ?l = _ => transitivity l end; [gmod; ring|].
      rewrite Q. gmod; try ring; try (field; exact Ex).
Qed.

Theorem ipp_exact t g h u P a b pf : length g = length a -> length h = length a ->
  ipp_prove K G ch t g h u P a b = Ok pf -> ipp_verify K G ch t g h u P pf = Ok (geqb P (ip_commit g h u a b)).
Proof.
  intros Lg Lh E. unfold ipp_prove in E. destruct (is_pow2 (length a)) eqn:E2; [|discriminate]. cbn [negb] in E.
  destruct (Nat.eqb_spec (length a) (length b)) as [Lb|]; [|discriminate]. cbn [negb] in E.
  unfold is_pow2 in E2. apply andb_prop in E2. destruct E2 as [_ E2]. apply Nat.eqb_eq in E2. set (k := Nat.log2 (length a)) in *.
  destruct (ipp_loop K G ch (length a) (ipp_header K G t (length a) u P g h) g h u a b) as [[[[Ls Rs] a'] b']| |] eqn:E0; try discriminate. cbn [rbind] in E.
  assert (Hk : (k < length a)%nat) by (rewrite <- E2; apply Nat.pow_gt_lin_r; lia).
  destruct (ipp_loop_ok k (length a) (ipp_header K G t (length a) u P g h) g h u a b) with (6 := E0)
    as (xs & p & q & -> & -> & Lx & LL & LR & NZ & Ec & Q); try lia.
  injection E as <-. unfold ipp_verify. cbn [L_vec R_vec ip_a ip_b]. rewrite LL, LR, Nat.eqb_refl. cbn [negb].
  rewrite E2, Ec. cbn [rbind]. change (fold_left (fun acc x : K => acc * finv x) xs 1) with (invprod xs).
  rewrite <- Lx, s_vec_ok by exact NZ. unfold quick_multiexp.
  change (map (fun y => p * y) (svec xs)) with (map (fmul p) (svec xs)). change (map (fun y => q * y) (rev (svec xs))) with (map (fmul q) (rev (svec xs))).
  rewrite Q. f_equal. set (X := gadd (msm Ls _) (msm Rs _)).
  destruct (geqb_spec _ _ P (ip_commit g h u a b)) as [->|N]; [apply geqb_refl|].
  apply geqb_neq. intro H. apply N. apply gadd_cancel in H. symmetry. exact H.
Qed.
(** With nonzero challenges the prover does not panic. *)
Lemma ipp_loop_total : (forall l t, ch l t <> 0) -> forall k fuel t g h u (a b : list K), length a = (2 ^ k)%nat -> length b = (2 ^ k)%nat -> length g = (2 ^ k)%nat -> length h = (2 ^ k)%nat ->
  (k < fuel)%nat -> exists r, ipp_loop K G ch fuel t g h u a b = Ok r.
Proof.
  intro NZ. induction k as [|k IH]; intros fuel t g h u a b La Lb Lg Lh Hf; destruct fuel as [|f]; try lia; cbn [ipp_loop].
  - rewrite La. cbn. eauto.
  - assert (P2 : (1 <= 2 ^ k)%nat) by (apply Nat.neq_0_lt_0, Nat.pow_nonzero; lia).
    assert (Ln : Nat.leb (length a) 1 = false) by (apply Nat.leb_gt; rewrite La; cbn; lia). rewrite Ln.
    assert (Hd : Nat.div2 (length a) = (2 ^ k)%nat) by (rewrite La; replace (2 ^ S k)%nat with (2 * 2 ^ k)%nat by (cbn; lia); apply Nat.div2_double).
    rewrite Hd. set (n := (2 ^ k)%nat) in *. cbn [Nat.pow] in La, Lb, Lg, Lh. fold n in La, Lb, Lg, Lh.
    assert (Fa : length (firstn n a) = n) by (rewrite firstn_length; lia). assert (Sa : length (skipn n a) = n) by (rewrite skipn_length; lia).
    assert (Fb : length (firstn n b) = n) by (rewrite firstn_length; lia). assert (Sb : length (skipn n b) = n) by (rewrite skipn_length; lia).
    assert (Fg : length (firstn n g) = n) by (rewrite firstn_length; lia). assert (Sg : length (skipn n g) = n) by (rewrite skipn_length; lia).
    assert (Fh : length (firstn n h) = n) by (rewrite firstn_length; lia). assert (Sh : length (skipn n h) = n) by (rewrite skipn_length; lia).
    unfold inner_product. rewrite Fa, Sb, Sa, Fb, Nat.eqb_refl. cbn [rbind].
    destruct (Nat.ltb_spec (length g) (2 * n)) as [?|_]; [lia|]. destruct (Nat.ltb_spec (length h) (2 * n)) as [?|_]; [lia|]. cbn [orb].
    set (L := gadd (gadd (quick_multiexp K G (firstn n a) _) _) _). set (R := gadd (gadd (quick_multiexp K G (skipn n a) _) _) _). cbv zeta.
    set (t1 := MG "R" R :: MG "L" L :: t). destruct (feqb (ch "x"%string t1) 0) eqn:Ex; [apply feqb_eq in Ex; destruct (NZ _ _ Ex)|].
    edestruct (IH f (MCh "x" :: t1)) as [[[[Ls Rs] a'] b'] E]; [| | | | |rewrite E; cbn [rbind]; eauto]; rewrite ?length_lin2, ?length_glin2; lia.
Qed.
Lemma ipp_prove_total t g h u P (a b : list K) k : (forall l t, ch l t <> 0) -> length a = (2 ^ k)%nat -> length b = length a -> length g = length a -> length h = length a ->
  exists pf, ipp_prove K G ch t g h u P a b = Ok pf.
Proof.
  intros NZ La Lb Lg Lh. unfold ipp_prove.
  assert (E2 : is_pow2 (length a) = true).
  { unfold is_pow2. rewrite La, Nat.log2_pow2 by lia. rewrite Nat.eqb_refl, andb_true_r. apply negb_true_iff, Nat.eqb_neq, Nat.pow_nonzero. lia. }
  rewrite E2, Lb, Nat.eqb_refl. cbn [negb].
  assert (Hk : (k < length a)%nat) by (rewrite La; apply Nat.pow_gt_lin_r; lia).
  destruct (ipp_loop_total NZ k (length a) (ipp_header K G t (length a) u P g h) g h u a b) as [[[[Ls Rs] a'] b'] E]; try lia.
  rewrite E. cbn [rbind]. edestruct (ipp_loop_ok k (length a)) with (6 := E) as (xs & p & q & -> & -> & _); try lia. eauto.
Qed.
End P.
