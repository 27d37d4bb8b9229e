(** The log-size dot-product proof: coins correspond one to one to the accepted proofs. *)
From Verif Require Import Field Poly Module ModTac ModelTranscript ModelBulletproofs ModelSigma SpecSigma SpecMle ProofsMle ProofsIPP ProofsBulletproofs ProofsSigma ProofsSigma2 ProofsSigma3 ProofsSigmaZk SpecSigmaZk.
Local Open Scope string_scope.
Local Open Scope list_scope.
Local Open Scope fld_scope.
Section P.
Variable K : Fld.
Variable G : Grp K.
Add Field Kf : (f_laws K).
Variable ch : oracle K G.

Lemma spans_inj (h : G) : spans h -> forall x y : K, gsm x h = gsm y h -> x = y.
Proof. intros S x y E. destruct (S (gsm x h)) as (k & _ & U). rewrite <- (U x eq_refl), <- (U y E). reflexivity. Qed.
Lemma spans_sub (h A P : G) : spans h -> exists k : K, gadd A (gsm k h) = P /\ forall k', gadd A (gsm k' h) = P -> k' = k.
Proof.
  intro S. destruct (S (gadd P (gopp A))) as (k & E & U). exists k. split.
  - rewrite <- E. gmod; ring.
  - intros k' E'. symmetry. apply U. rewrite <- E'. gmod; ring.
Qed.
Lemma bullet_loop_coins : forall k fuel (g : list G) (q h : G) (a b : list K) blind t ls rs xs t', spans h -> length a = (2 ^ k)%nat -> length b = (2 ^ k)%nat -> (2 ^ k <= length g)%nat -> (k < fuel)%nat ->
  length ls = k -> length rs = k -> bullet_challenges K G ch ls rs t = Ok (xs, t') ->
  exists blinds, length blinds = k /\ (exists a' b' g' bf, bullet_loop K G ch fuel g q h a b blind blinds t = Ok (ls, rs, a', b', g', bf, t')) /\
    forall blinds' a' b' g' bf t'', length blinds' = k -> bullet_loop K G ch fuel g q h a b blind blinds' t = Ok (ls, rs, a', b', g', bf, t'') -> blinds' = blinds.
Proof.
  induction k as [|k IH]; intros fuel g q h a b blind t ls rs xs t' Sp La Lb Lg Hf Ll Lr Ec; destruct fuel as [|f]; try lia; cbn [bullet_loop].
  - rewrite La. cbn [Nat.pow Nat.leb]. destruct ls; [|discriminate]. destruct rs; [|discriminate]. injection Ec as <- <-. exists []. split; [reflexivity|]. split; [repeat eexists|].
    intros [|? ?] ? ? ? ? ? L; [reflexivity|discriminate L].
  - assert (P2 : (1 <= 2 ^ k)%nat) by (apply Nat.neq_0_lt_0, Nat.pow_nonzero; lia).
    assert (Ln : Nat.leb (length a) 1 = false) by (apply Nat.leb_gt; rewrite La; cbn; lia). rewrite Ln.
    assert (Hd : Nat.div2 (length a) = (2 ^ k)%nat) by (rewrite La; replace (2 ^ S k)%nat with (2 * 2 ^ k)%nat by (cbn; lia); apply Nat.div2_double).
    rewrite Hd. set (n := (2 ^ k)%nat) in *. cbn [Nat.pow] in La, Lb, Lg. fold n in La, Lb, Lg.
    assert (Fa : length (firstn n a) = n) by (rewrite firstn_length; lia). assert (Sa : length (skipn n a) = n) by (rewrite skipn_length; lia).
    assert (Fb : length (firstn n b) = n) by (rewrite firstn_length; lia). assert (Sb : length (skipn n b) = n) by (rewrite skipn_length; lia).
    assert (Fg : length (firstn n g) = n) by (rewrite firstn_length; lia). assert (Sg : (n <= length (skipn n g))%nat) by (rewrite skipn_length; lia).
    unfold inner_product. rewrite Fa, Sb, Sa, Fb, Nat.eqb_refl. cbn [rbind].
    destruct (Nat.ltb_spec (length g) (2 * n)) as [?|_]; [lia|].
    destruct ls as [|L ls]; [discriminate|]. destruct rs as [|R rs]; [discriminate|]. cbn [length] in Ll, Lr.
    cbn [bullet_challenges] in Ec. unfold draw in *. cbv beta iota zeta in Ec.
    destruct (feqb (ch "x" (MG "R" R :: MG "L" L :: t)) 0) eqn:Ex; [discriminate|]. set (x := ch "x" (MG "R" R :: MG "L" L :: t)) in *.
    match type of Ec with rbind ?X _ = _ => destruct X as [[xs0 t0]| |] eqn:E0; cbn [rbind] in Ec; try discriminate end. injection Ec as <- <-.
    set (AL := msm (skipn n g) (firstn n a)) in *. set (AR := msm (firstn n g) (skipn n a)) in *. set (cl := dot (firstn n a) (skipn n b)) in *. set (cr := dot (skipn n a) (firstn n b)) in *.
    assert (M2 : forall c u, msm [q; h] [c; u] = gadd (gsm c q) (gsm u h)) by (intros; cbn [msm]; gmod; ring).
    destruct (spans_sub h (gadd AL (gsm cl q)) L Sp) as (bL & EL & UL). destruct (spans_sub h (gadd AR (gsm cr q)) R Sp) as (bR & ER & UR).
    assert (Q : forall (A B C : G), gadd A (gadd B C) = gadd (gadd A B) C) by (intros; gmod; ring).
    destruct (IH f (glin2 K G (finv x) x (firstn n g) (skipn n g)) q h (lin2 K x (finv x) (firstn n a) (skipn n a)) (lin2 K (finv x) x (firstn n b) (skipn n b))
      (blind + x * x * bL + finv x * finv x * bR) (MCh "x" :: MG "R" R :: MG "L" L :: t) ls rs xs0 t0 Sp) as (bs & Lbs & (a' & b' & g' & bf & Er) & U); try (rewrite ?length_lin2; lia); [unfold glin2; rewrite map_length, combine_length; lia|exact E0|].
    + exists ((bL, bR) :: bs). split; [cbn; lia|]. split.
      * rewrite !M2, !Q, EL, ER. fold x. rewrite Ex, Er. cbn [rbind]. repeat eexists.
      * intros [|[bL' bR'] bs'] a2 b2 g2 bf2 t2 L2 E2; [discriminate L2|]. cbn [length] in L2.
        rewrite !M2, !Q in E2. match type of E2 with (if feqb ?y 0 then _ else _) = _ => destruct (feqb y 0); [discriminate|] end.
        match type of E2 with rbind ?X _ = _ => destruct X as [[[[[[[ls1 rs1] a1] b1] g1] bf1] t1]| |] eqn:E3; cbn [rbind] in E2; try discriminate end.
        injection E2 as H1 H2 H3 H4 _ _ _ _ _. apply UL in H1 as HL. apply UR in H3 as HR. subst bL' bR' ls1 rs1. rewrite EL, ER in E3. fold x in E3.
        f_equal. refine (U _ _ _ _ _ _ _ E3). lia.
Qed.
Lemma log_dot_coins lbl (p : pcp K G) q qs lz r_eq lzb ryb ev t pf t' k :
  mc_gens _ _ (pc_gen_1 _ _ p) = q :: qs -> mc_h _ _ (pc_gen_n _ _ p) = mc_h _ _ (pc_gen_1 _ _ p) -> spans (mc_h _ _ (pc_gen_1 _ _ p)) ->
  length lz = (2 ^ k)%nat -> length r_eq = (2 ^ k)%nat -> (2 ^ k <= length (mc_gens _ _ (pc_gen_n _ _ p)))%nat -> ev = dot lz r_eq ->
  let Clz := poly_commit_vec K G (mc_gens _ _ (pc_gen_n _ _ p)) lz (mc_h _ _ (pc_gen_n _ _ p)) lzb in
  let Cry := poly_commit_vec K G (mc_gens _ _ (pc_gen_1 _ _ p)) [ev] (mc_h _ _ (pc_gen_1 _ _ p)) ryb in
  (length (dp_l K G pf) = k /\ log_dot_verify K G ch lbl p Clz Cry r_eq pf t = Ok (true, t')) <->
  exists! x : list (K * K) * K * K * K, let '(blinds, d, rd, rb) := x in length blinds = k /\ log_dot_prove K G ch lbl p lz r_eq lzb ryb ev d rd rb blinds t = Ok (pf, Clz, Cry, t').
Proof.
  intros Eq Eh Sp Ll Lr Lg Ev Clz Cry. assert (Llg : (length lz <= length (mc_gens _ _ (pc_gen_n _ _ p)))%nat) by lia. assert (Hf : (k < length lz)%nat) by (rewrite Ll; apply Nat.pow_gt_lin_r; lia). assert (Pw : is_pow2 (length lz) = true) by (rewrite Ll; apply is_pow2_pow). split.
  - destruct pf as [ls rs delta beta z1 z2]. cbn [dp_l]. intros [Lk V]. unfold log_dot_verify, draw in V. cbn [dp_l dp_r dp_delta dp_beta dp_z1 dp_z2] in V. rewrite Eq in V.
    assert (B : exists xs t1, length rs = k /\ bullet_challenges K G ch ls rs (MG "Cy" Cry :: MG "Cx" Clz :: t) = Ok (xs, t1)).
    { unfold bullet_verify in V. rewrite Lk in V. destruct (Nat.eqb_spec k (length rs)) as [E|]; cbn [negb] in V; [|discriminate].
      destruct (bullet_challenges K G ch ls rs _) as [[xs t1]| |] eqn:Ec; cbn [rbind] in V; try discriminate. exists xs, t1. split; [congruence|reflexivity]. }
    destruct B as (xs & t1 & Lk' & Ec).
    pose proof Sp as Sp'. rewrite <- Eh in Sp'.
    destruct (bullet_loop_coins k (length lz) (mc_gens _ _ (pc_gen_n _ _ p)) q (mc_h _ _ (pc_gen_n _ _ p)) lz r_eq (lzb + ryb) _ ls rs xs t1 Sp' Ll Lr Lg Hf Lk Lk' Ec) as (blinds & Lb & (a' & b' & g' & bf & Er) & U).
    destruct (bullet_loop_ok K G ch k _ _ _ _ _ _ _ _ _ Ll Lr Lg Hf _ _ _ _ _ _ _ Er) as (xs' & x & y & z & gt & -> & -> & -> & _).
    assert (Eb : bullet_proof K G ch (mc_gens _ _ (pc_gen_n _ _ p)) q (mc_h _ _ (pc_gen_n _ _ p)) lz r_eq (lzb + ryb) blinds (MG "Cy" Cry :: MG "Cx" Clz :: t) = Ok (ls, rs, x, y, z, bf, t1)).
    { unfold bullet_proof. rewrite Pw, Ll, Lr, Nat.eqb_refl. cbn [negb]. rewrite <- Ll. rewrite Er. reflexivity. }
    destruct (bullet_ok K G ch _ _ _ _ _ _ _ _ _ _ _ _ _ _ _ Llg Eb (gadd Clz Cry)) as (Q & EV & EQ). rewrite EV in V. cbn [rbind] in V.
    injection V as V Et. apply geqb_true in V. set (c := ch lbl _) in *.
    set (h := mc_h _ _ (pc_gen_1 _ _ p)) in V |- *.
    assert (EG : gadd Q (gadd Clz Cry) = gadd (gadd (gsm x z) (gsm (x * y) q)) (gsm bf h)).
    { rewrite Eh in EQ. fold h in EQ. rewrite <- EQ. unfold Clz, Cry, poly_commit_vec. rewrite Eh, Eq, !msm1, Ev. fold h. cbn [hd]. gmod; ring. }
    rewrite EG in V. set (d := z1 - c * (x * y)).
    destruct (spans_sub h (gsm d q) beta Sp) as (rb & Erb & Urb). set (rd := z2 - y * (c * bf + rb)).
    assert (ED : gadd (gsm d z) (gsm rd h) = delta).
    { transitivity (gadd (gadd (gsm z1 (gadd z (gsm y q))) (gsm z2 h)) (gopp (gsm y (gadd (gsm c (gadd (gadd (gsm x z) (gsm (x * y) q)) (gsm bf h))) beta)))).
      - rewrite <- Erb. unfold rd, d. gmod; ring.
      - rewrite <- V. gmod; ring. }
    assert (C1 : forall (g w : G) u v, poly_commit_vec K G [g] [u] w v = gadd (gsm u g) (gsm v w)) by (intros; unfold poly_commit_vec; rewrite msm1; reflexivity).
    assert (C2 : forall (w : G) u v, poly_commit_vec K G (q :: qs) [u] w v = gadd (gsm u q) (gsm v w)) by (intros; unfold poly_commit_vec; rewrite msm1; reflexivity).
    exists (blinds, d, rd, rb). split.
    + split; [exact Lb|]. unfold log_dot_prove, draw. fold Clz Cry. rewrite Eq, Eb. cbn [rbind]. fold h. rewrite C1, C2, ED, Erb. fold c. rewrite Et. do 4 f_equal.
      f_equal; unfold rd, d; ring.
    + intros [[[blinds' d'] rd'] rb'] [Lb' E']. unfold log_dot_prove, draw in E'. fold Clz Cry in E'. rewrite Eq in E'.
      match type of E' with rbind ?X _ = _ => destruct X as [[[[[[[ls' rs'] x'] y'] z'] bf'] t1']| |] eqn:E2; cbn [rbind] in E'; try discriminate end.
      injection E' as H1 H2 H3 H4 H5 H6 Ht. subst ls' rs'.
      assert (Qb : blinds' = blinds).
      { unfold bullet_proof in E2. rewrite Pw, Ll, Lr, Nat.eqb_refl in E2. cbn [negb] in E2. rewrite <- Ll in E2.
        match type of E2 with rbind ?X _ = _ => destruct X as [[[[[[[ls1 rs1] a1] b1] g1] bf1] t2]| |] eqn:E3; cbn [rbind] in E2; try discriminate end.
        destruct a1 as [|? [|? ?]]; try discriminate. destruct b1 as [|? [|? ?]]; try discriminate. destruct g1 as [|? ?]; try discriminate. injection E2 as -> -> _ _ _ _ _.
        exact (U _ _ _ _ _ _ Lb' E3). }
      subst blinds'. rewrite Eb in E2. injection E2 as <- <- <- <- <-. fold h in H3, H4, H5, H6. rewrite H3, H4 in H5, H6. fold c in H5, H6.
      rewrite C2 in H4. assert (Qd : d' = d) by (unfold d; rewrite <- H5; ring). subst d'. apply Urb in H4. subst rb'. assert (Qr : rd = rd') by (unfold rd; rewrite <- H6; ring). rewrite Qr. reflexivity.
  - intros ([[[blinds d] rd] rb] & [Lb E] & _). destruct (log_dot_exact K G ch lbl p q qs lz r_eq lzb ryb ev d rd rb blinds t pf Clz Cry t' Eq Eh Llg E) as (bs & gh & ga & t1 & EV & Ver).
    split.
    + unfold log_dot_prove, draw in E. rewrite Eq in E. match type of E with rbind ?X _ = _ => destruct X as [[[[[[[ls rs] x] y] z] bf] t2]| |] eqn:E0; cbn [rbind] in E; try discriminate end.
      injection E as <- _ . cbn [dp_l]. unfold bullet_proof in E0. rewrite Pw, Ll, Lr, Nat.eqb_refl in E0. cbn [negb] in E0. rewrite <- Ll in E0.
      match type of E0 with rbind ?X _ = _ => destruct X as [[[[[[[ls1 rs1] a1] b1] g1] bf1] t3]| |] eqn:E3; cbn [rbind] in E0; try discriminate end.
      destruct (bullet_loop_ok K G ch k _ _ _ _ _ _ _ _ _ Ll Lr Lg Hf _ _ _ _ _ _ _ E3) as (xs' & x' & y' & z' & gt & -> & -> & -> & _ & L1 & _).
      injection E0 as -> _ _ _ _ _ _. exact L1.
    + rewrite Ver. do 2 f_equal. apply geqb_true. rewrite Ev. match goal with |- gsm ?k _ = _ => replace k with (0 : K) by ring end. apply gsm_0.
Qed.
End P.
