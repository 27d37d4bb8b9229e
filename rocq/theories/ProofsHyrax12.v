(** Hyrax: the argument for one layer is sound, up to commitments and unlucky challenges. *)
From Verif Require Import Field Poly Module ModelTranscript ModelMle SpecMle ProofsMle ModelLibra ModelSigma SpecSigma ModelHyrax SpecHyrax2 SpecHyrax3 SpecSumcheck ProofsSumcheck ProofsHyrax2 ProofsHyrax9 ProofsHyrax10 ProofsHyrax11.
From Coq Require Import String List Lia Bool.
Import ListNotations.
Local Open Scope string_scope.
Local Open Scope list_scope.
Local Open Scope fld_scope.
Section S.
Variable K : Fld.
Variable G : Grp K.
Lemma all_zero_or (l : list K) : Forall (fun x => x = 0) l \/ exists j, nth j l 0 <> 0.
Proof.
  induction l as [|x l IH]; [left; constructor|]. destruct (feqb_spec K x 0) as [E|E]; [|right; exists 0%nat; exact E]. destruct IH as [IH|[j IH]]; [left; constructor; assumption|right; exists (S j); exact IH].
Qed.
Lemma verify_sizes (ch : oracle K G) p pf cc u0 u1 qa ql qr gates n ng t r : zk_verify K G ch p pf cc u0 u1 qa ql qr gates n ng t = Ok r ->
  let '(cx, cy, rs, r0, r1, t2) := r in length qa = log2c n /\ length rs = log2c n /\ length r0 = log2c ng /\ length r1 = log2c ng.
Proof.
  intro V. unfold zk_verify in V. set (ln := log2c n) in *. set (lg := log2c ng) in *.
  destruct (zk_challenges K G ch (ln + 2 * lg) _ _ cc t) as [[all t0]| |] eqn:EC; [|discriminate|discriminate]. cbn [rbind] in V.
  destruct (challenges_agree K G ch ch 0 _ _ _ _ _ _ _ EC) as (_ & LA & _).
  destruct (construct_matrix K _ _ _ qa ql qr gates u0 u1 ln lg) as [m| |] eqn:EM; [|discriminate|discriminate]. cbn [rbind] in V.
  destruct (sumcheck_verify K G ch p pf m lg ln t0) as [[ok u]| |]; [|discriminate|discriminate]. cbn [rbind] in V. destruct ok; [|discriminate]. cbn [negb] in V. injection V as <-.
  assert (L1 : length (firstn ln all) = ln) by (rewrite firstn_length; lia). split; [|split; [exact L1|split; [rewrite firstn_length, skipn_length; lia|rewrite skipn_length; lia]]].
  unfold construct_matrix in EM. destruct (Nat.eqb ln 0); [discriminate|]. unfold eval_eq_x_y in EM. destruct (Nat.eqb_spec (length qa) (length (firstn ln all))) as [E|E]; [|discriminate]. lia.
Qed.
Theorem layer_soundness (ch ch' : oracle K G) p pf pf' cc u0 u1 qa ql qr gates n ng t t0 t1 cx cy rs r0 r1 t2 w' all :
  zk_challenges K G ch (log2c n + 2 * log2c ng) (zk_polys K G pf) (zk_evals K G pf) cc t = Ok (all, t0) ->
  product_verify K G ch (hp_1 K G p) (zk_prod K G pf) (zk_x K G pf) (zk_y K G pf) (zk_z K G pf) t0 = Ok (true, t1) ->
  let D := draws K G ch "challenge_nextround" (log2c n + 2 * log2c ng + 1) (rev (map (MG "comm_delta") (zk_deltas K G pf)) ++ t1) in
  forks ch ch' "challenge_nextround" (MG "comm_c" (zk_c K G pf) :: snd D) -> same_first pf pf' ->
  zk_verify K G ch p pf cc u0 u1 qa ql qr gates n ng t = Ok (cx, cy, rs, r0, r1, t2) -> zk_verify K G ch' p pf' cc u0 u1 qa ql qr gates n ng t = Ok w' ->
  layer_legal (log2c ng) gates -> (length gates <= 2 ^ length ql)%nat -> (length gates <= 2 ^ length qr)%nat ->
  {ps : list (list K) & {bs : list K & {_ : length ps = (log2c n + 2 * log2c ng)%nat /\
    forall j, (j < log2c n + 2 * log2c ng)%nat -> let mp := if Nat.ltb j (log2c n) then hp_4 K G p else hp_3 K G p in exists C,
       nth_error (zk_polys K G pf) j = Some C /\ opens_vec (mc_gens K G mp) (mc_h K G mp) C (nth j ps []) (nth j bs 0) &
    forall vs a ba x bx y b_y z bz, let g := hd g0 (mc_gens K G (hp_1 K G p)) in let h := mc_h K G (hp_1 K G p) in
      opens g h (zk_a0 K G pf) a ba -> opens g h (zk_x K G pf) x bx -> opens g h (zk_y K G pf) y b_y -> opens g h (zk_z K G pf) z bz ->
      a <> batch_mle (layer_out gates vs) qa ql * u0 + batch_mle (layer_out gates vs) qa qr * u1 ->
      let gs := gaps a ps all (wiring 0 qa rs ql qr r0 r1 u0 u1 gates * (x + y) + wiring 1 qa rs ql qr r0 r1 u0 u1 gates * z) in
      {v : K & {b : K | v <> 0 /\ opens g h g0 v b}} +
      {((exists j, nth j gs 0 <> 0) /\ dot (fst D) gs = 0) \/
       bad_challenge 3 (log2c n + 2 * log2c ng) (layer_poly (log2c n) (log2c ng) vs qa ql qr u0 u1 gates) ps all \/
       x <> batch_mle vs rs r0 \/ y <> batch_mle vs rs r1 \/ z <> x * y}}}}.
Proof.
  intros HC HP D F S V V' HL Ll Lr. destruct w' as [[[[[cx' cy'] rs'] r0'] r1'] t2'].
  destruct (zk_sound K G ch ch' p pf pf' cc u0 u1 qa ql qr gates n ng t t0 t1 cx cy rs r0 r1 t2 cx' cy' rs' r0' r1' t2' all HC HP F S V V') as ((Ea & _) & ps & bs & [Lp OP] & Q).
  exists ps, bs. unshelve eexists; [split; [exact Lp|]; intros j Hj; destruct (OP j Hj) as (C & C1 & _ & C2); exists C; split; assumption|].
  intros vs a ba x bx y b_y z bz g h Oa Ox Oy Oz Na gs. destruct (Q a ba x bx y b_y z bz Oa Ox Oy Oz) as (b & Hb). fold gs in Hb. fold D in Hb. fold g h in Hb.
  destruct (feqb_spec K (dot (fst D) gs) 0) as [E|E]; [right|left; exists (dot (fst D) gs), b; split; [exact E|exact Hb]].
  destruct (all_zero_or gs) as [Z|Z]; [right|left; split; assumption].
  destruct (feqb_spec K x (batch_mle vs rs r0)) as [Ex|Ex]; [|right; left; exact Ex]. destruct (feqb_spec K y (batch_mle vs rs r1)) as [Ey|Ey]; [|right; right; left; exact Ey]. destruct (feqb_spec K z (x * y)) as [Ez|Ez]; [|right; right; right; exact Ez].
  left. pose proof (verify_sizes _ _ _ _ _ _ _ _ _ _ _ _ _ _ V) as (La & L1 & L2 & L3).
  assert (LA : length all = (log2c n + 2 * log2c ng)%nat) by (rewrite Ea, !app_length; lia). rewrite <- LA.
  apply (gaps_sound K 3 _ ps all a).
  - rewrite LA. apply layer_low_degree.
  - rewrite Lp, LA. reflexivity.
  - rewrite Forall_forall. intros q Hq. apply (In_nth _ _ []) in Hq. destruct Hq as (j & Hj & <-). destruct (OP j ltac:(lia)) as (C & _ & C1 & _). rewrite C1. destruct (Nat.ltb j (log2c n)); lia.
  - unfold gs in Z. rewrite Ea at 2. rewrite layer_poly_phi by assumption. unfold phi. rewrite <- Ex, <- Ey, <- Ez. exact Z.
  - rewrite LA, layer_sum by assumption. exact Na.
Qed.
End S.
