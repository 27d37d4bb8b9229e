(** Theorem C89: hyrax's argument for one layer is sound when its claim is the committed one. *)
From Verif Require Import Field Zp Poly Module ModelTranscript ModelMle SpecMle ModelLibra ModelSigma SpecSigma ModelSpartan ModelSnark ModelHyrax SpecHyrax2 SpecHyrax3 SpecSumcheck ProofsSumcheck ProofsHyrax11 ProofsHyrax12 ExMarlin Properties20 Properties24 Properties25.
From Coq Require Import String List Lia ZArith.
Import ListNotations.
Local Open Scope string_scope.
Local Open Scope list_scope.
Local Open Scope fld_scope.

(** ** C89 *)
(** The conclusion is in Type, as in C76: a nonzero opening of the neutral element is computed, not just said to exist. *)
Theorem C89_layer_sound : forall (K : Fld) (G : Grp K) (ch ch' : oracle K G) p pf pf' cc u0 u1 qa ql qr gates n ng t t0 t1 cx cy rs r0 r1 t2 w' all,
  zk_challenges K G ch (log2c n + 2 * log2c ng) (zk_polys K G pf) (zk_evals K G pf) cc t = Ok (all, t0) ->
  product_verify K G ch (hp_1 K G p) (zk_prod K G pf) (zk_x K G pf) (zk_y K G pf) (zk_z K G pf) t0 = Ok (true, t1) ->
  let D := draws K G ch "challenge_nextround" (log2c n + 2 * log2c ng + 1) (rev (map (MG "comm_delta") (zk_deltas K G pf)) ++ t1) in
  forks ch ch' "challenge_nextround" (MG "comm_c" (zk_c K G pf) :: snd D) -> same_first pf pf' ->
  zk_verify K G ch p pf cc u0 u1 qa ql qr gates n ng t = Ok (cx, cy, rs, r0, r1, t2) -> zk_verify K G ch' p pf' cc u0 u1 qa ql qr gates n ng t = Ok w' ->
  layer_legal (log2c ng) gates -> (length gates <= 2 ^ length ql)%nat -> (length gates <= 2 ^ length qr)%nat ->
  {ps : list (list K) & {bs : list K & {_ : length ps = (log2c n + 2 * log2c ng)%nat /\
    forall j, (j < log2c n + 2 * log2c ng)%nat -> let mp := if Nat.ltb j (log2c n) then hp_4 K G p else hp_3 K G p in exists C,
       nth_error (zk_polys K G pf) j = Some C /\ opens_vec (mc_gens K G mp) (mc_h K G mp) C (nth j ps []) (nth j bs 0) &
    forall vs a ba x bx y b_y z bz, let g := hd g0 (mc_gens K G (hp_1 K G p)) in let h := mc_h K G (hp_1 K G p) in
      opens g h (zk_a0 K G pf) a ba -> opens g h (zk_x K G pf) x bx -> opens g h (zk_y K G pf) y b_y -> opens g h (zk_z K G pf) z bz ->
      a <> batch_mle (layer_out gates vs) qa ql * u0 + batch_mle (layer_out gates vs) qa qr * u1 ->
      let gs := gaps a ps all (wiring 0 qa rs ql qr r0 r1 u0 u1 gates * (x + y) + wiring 1 qa rs ql qr r0 r1 u0 u1 gates * z) in
      {v : K & {b : K | v <> 0 /\ opens g h g0 v b}} +
      {((exists j, nth j gs 0 <> 0) /\ dot (fst D) gs = 0) \/
       bad_challenge 3 (log2c n + 2 * log2c ng) (layer_poly (log2c n) (log2c ng) vs qa ql qr u0 u1 gates) ps all \/
       x <> batch_mle vs rs r0 \/ y <> batch_mle vs rs r1 \/ z <> x * y}}}}.
Proof. exact layer_soundness. Qed.
Print Assumptions C89_layer_sound.
Theorem C89_sumcheck_sound : forall (K : Fld) d (F : list K -> K) ps rs a, low_degree d (length rs) F -> length ps = length rs -> Forall (fun p => length p <= d + 1)%nat ps ->
  Forall (fun x => x = 0) (gaps a ps rs (F rs)) -> a <> csum (length rs) F [] -> bad_challenge d (length rs) F ps rs.
Proof. exact gaps_sound. Qed.
Print Assumptions C89_sumcheck_sound.
Theorem C89_layer_polynomial : forall (K : Fld) ln lg (vs : list (list K)) (qa ql qr : list K) (u0 u1 : K) gates, low_degree 3 (ln + 2 * lg) (layer_poly ln lg vs qa ql qr u0 u1 gates) /\
  (layer_legal lg gates -> length qa = ln -> (length gates <= 2 ^ length ql)%nat -> (length gates <= 2 ^ length qr)%nat ->
   csum (ln + 2 * lg) (layer_poly ln lg vs qa ql qr u0 u1 gates) [] = batch_mle (layer_out gates vs) qa ql * u0 + batch_mle (layer_out gates vs) qa qr * u1).
Proof. intros. split; [apply layer_low_degree|apply layer_sum]. Qed.
Print Assumptions C89_layer_polynomial.
Theorem C89_few_combinations : forall (K : Fld) (gs u w : list K) v v', nth (length u) gs 0 <> 0 -> dot (u ++ v :: w) gs = 0 -> dot (u ++ v' :: w) gs = 0 -> v = v'.
Proof. exact dot_one_value. Qed.
Print Assumptions C89_few_combinations.
Lemma legal89 : layer_legal 1 gates88.
Proof. split; [reflexivity|]. repeat constructor; cbn; lia. Qed.
Add Field Kf97 : (f_laws F97).
(** In this group every commitment opens to every value. *)
Lemma open89 (C v : F97) : exists b, opens (hd (g0 : S97') (mc_gens _ _ (hp_1 _ _ hp87))) (mc_h _ _ (hp_1 _ _ hp87)) (C : S97') v b.
Proof.
  set (g := hd (g0 : S97') (mc_gens _ _ (hp_1 _ _ hp87))). set (h := mc_h _ _ (hp_1 _ _ hp87)).
  assert (N : (h : F97) <> 0) by (intro E; apply (f_equal (fun y : F97 => zv _ y)) in E; vm_compute in E; discriminate). clearbody g h.
  exists (((C : F97) - v * (g : F97)) / (h : F97)). unfold opens. change (C = v * (g : F97) + (C - v * (g : F97)) / (h : F97) * (h : F97)). field. exact N.
Qed.
(** The pair of proofs of C88 with the claim opened to a wrong value: the conclusion applies (and the commitment is broken). *)
Example ex_C89 : exists pf vs a ba x bx y b_y z bz, let g := hd (g0 : S97') (mc_gens _ _ (hp_1 _ _ hp87)) in let h := mc_h _ _ (hp_1 _ _ hp87) in
  opens g h (zk_a0 F97 S97' pf) a ba /\ opens g h (zk_x _ _ pf) x bx /\ opens g h (zk_y _ _ pf) y b_y /\ opens g h (zk_z _ _ pf) z bz /\
  a <> batch_mle (layer_out gates88 vs) [z97 3] [z97 5] * z97 1 + batch_mle (layer_out gates88 vs) [z97 3] [z97 6] * z97 2 /\
  (exists r, ver88 ch88 pf = Ok r) /\ exists ps : list (list F97), length ps = 3%nat.
Proof.
  destruct ex_C88 as (pf & pf' & all & t0 & t1 & r & r' & H1 & H2 & H3 & H4 & _ & H5 & H6). destruct r as [[[[[cx cy] rs] r0] r1] t2].
  destruct (C89_layer_sound F97 S97' ch88 (fork88 27) hp87 pf pf' a88 (z97 1) (z97 2) [z97 3] [z97 5] [z97 6] gates88 2 2 [] t0 t1 cx cy rs r0 r1 t2 r' all H1 H2 H3 H4 H5 H6 legal89 ltac:(cbn; lia) ltac:(cbn; lia)) as (ps & bs & [L _] & _).
  destruct (open89 (zk_a0 _ _ pf) (z97 15)) as [ba Oa]. destruct (open89 (zk_x _ _ pf) 0) as [bx Ox]. destruct (open89 (zk_y _ _ pf) 0) as [b_y Oy]. destruct (open89 (zk_z _ _ pf) 0) as [bz Oz].
  exists pf, [[z97 3; z97 5]; [z97 4; z97 6]], (z97 15), ba, 0, bx, 0, b_y, 0, bz. cbv zeta. repeat (split; [assumption|]).
  split; [intro E; apply (f_equal (fun y : F97 => zv _ y)) in E; vm_compute in E; discriminate|]. split; [eexists; exact H5|]. exists ps. exact L.
Qed.
(** F(x) = x has the sum 1; the polynomial 1 proves the sum 2 if the challenge is 1. *)
Example ex_C89_sumcheck : low_degree 3 1 (fun v : list F97 => hd 0 v) /\ Forall (fun x : F97 => x = 0) (gaps (1 + 1) [[1]] [1] (hd 0 [1])) /\ (1 + 1 : F97) <> csum 1 (fun v => hd 0 v) [] /\ bad_challenge 3 1 (fun v : list F97 => hd 0 v) [[1]] [1].
Proof.
  assert (LD : low_degree 3 1 (fun v : list F97 => hd 0 v)). { intros pre post L. destruct pre as [|? pre]; [|cbn in L; lia]. exists [0; 1]. split; [cbn; lia|]. intro x. cbn [app hd peval]. ring. }
  assert (Z : Forall (fun x : F97 => x = 0) (gaps (1 + 1) [[1]] [1] (hd 0 [1]))) by (cbn [gaps hd peval]; repeat (constructor; [ring|]); constructor).
  assert (N : (1 + 1 : F97) <> csum 1 (fun v => hd 0 v) []) by (intro E; apply (f_equal (fun y : F97 => zv _ y)) in E; vm_compute in E; discriminate).
  split; [exact LD|]. split; [exact Z|]. split; [exact N|]. apply (C89_sumcheck_sound F97 3 (fun v => hd 0 v) [[1]] [1] (1 + 1) LD eq_refl); [repeat constructor|exact Z|exact N].
Qed.
