(** Totality of the evaluation prover; libra's DotProductProof does not do what it is for. *)
From Verif Require Import Field Poly Module ModTac ModelTranscript ModelBulletproofs ModelSigma SpecSigma SpecMle ProofsMle ProofsIPP ProofsBulletproofs ProofsSigma ProofsSigma2 ProofsSigma3.
Local Open Scope string_scope.
Local Open Scope list_scope.
Local Open Scope fld_scope.
Section P.
Variable K : Fld.
Variable G : Grp K.
Add Field Kf : (f_laws K).
Notation tab := (tab K).
Variable ch : oracle K G.
Lemma half_le k : (k / 2 <= k)%nat. Proof. apply Nat.div_le_upper_bound; lia. Qed.
Lemma packing_total gens (v : list K) (h : G) rnd isb k : length v = (2 ^ k)%nat -> exists r, packing_poly_commit K G gens v h rnd isb = Ok r.
Proof.
  intro L. unfold packing_poly_commit, log2c. rewrite L, Nat.log2_up_pow2 by lia.
  rewrite <- Nat.pow_add_r. replace (k / 2 + (k - k / 2))%nat with k by (pose proof (half_le k); lia). rewrite Nat.eqb_refl. cbn [negb]. eauto.
Qed.
Lemma inner_product_total (p : pcp K G) poly bp ry ryb eval d rd rb bv t : (forall l t, ch l t <> 0) -> length poly = (2 ^ length ry)%nat ->
  bp = [] \/ length bp = (2 ^ (length ry / 2))%nat -> (2 ^ (length ry - length ry / 2) <= length (mc_gens _ _ (pc_gen_n _ _ p)))%nat ->
  mc_gens _ _ (pc_gen_1 _ _ p) <> [] -> (length ry - length ry / 2 <= length bv)%nat ->
  exists r, inner_product_proof K G ch p poly bp ry ryb eval d rd rb bv t = Ok r.
Proof.
  intros NZ L Hb Lg Hq Hv. unfold inner_product_proof, log2c. rewrite L, Nat.log2_up_pow2 by lia. rewrite Nat.eqb_refl. cbn [negb]. set (k := length ry) in *.
  assert (EB : Nat.eqb (2 ^ (k / 2)) (length (match bp with [] => repeat 0 (2 ^ (k / 2)) | _ :: _ => bp end)) = true).
  { apply Nat.eqb_eq. destruct bp as [|x bp]; [rewrite repeat_length; reflexivity|]. destruct Hb as [Hb|Hb]; [discriminate Hb|rewrite Hb; reflexivity]. }
  rewrite EB. cbn [negb]. rewrite <- Nat.pow_add_r. replace (k / 2 + (k - k / 2))%nat with k by (pose proof (half_le k); lia). rewrite Nat.ltb_irrefl.
  match goal with |- exists r, rbind (log_dot_prove _ _ _ ?l ?p ?a ?b ?c ?d ?e ?f ?g ?h ?i ?j) _ = _ => destruct (log_dot_total K G ch l p a b c d e f g h i j (k - k / 2)) as [[[[pf cl] cr] t1] E] end; try assumption.
  - rewrite row_comb_tab, length_tab. reflexivity.
  - rewrite eval_eq_length, skipn_length. reflexivity.
  - rewrite E. cbn [rbind]. eauto.
Qed.

(** ** DotProductProof *)
Theorem dot_product_honest (p : pcp K G) x bx a y by_ d rb rd t pf Cx Cy t1 t2 : length d = length x ->
  dot_product_prover K G ch p x bx a y by_ d rb rd t = Ok (pf, Cx, Cy, t1) -> dot_product_verify K G ch p pf Cx Cy a t = Ok (true, t2) ->
  gsm (ch "c" (MG "beta" (ld_beta _ _ pf) :: MG "delta" (ld_delta _ _ pf) :: MG "Cy" Cy :: MG "Cx" Cx :: t) -
       ch "c" (MG "beta" Cy :: MG "delta" Cx :: MG "Cy" Cy :: MG "Cx" Cx :: t)) Cx = g0.
Proof.
  intros Ld E V. unfold dot_product_prover, draw in E. destruct (negb _); [discriminate|]. destruct (Nat.ltb _ _); [discriminate|].
  injection E as <- <- <- <-. unfold dot_product_verify, draw in V. cbn [ld_beta ld_delta ld_z ld_zdelta ld_zbeta] in *.
  set (Cx := poly_commit_vec K G _ x _ bx) in *. set (Cy := poly_commit_vec K G _ [y] _ by_) in *.
  set (c := ch "c" (MG "beta" Cy :: _)) in *. set (c' := ch "c" (MG "beta" (poly_commit_vec _ _ _ _ _ _) :: _)) in *.
  destruct (Nat.ltb _ _); [discriminate|]. injection V as V _. apply andb_prop in V. destruct V as [V _]. apply geqb_true in V.
  assert (Ez : map (fun '(x0, d0) => c * x0 + d0) (combine x d) = tab (length x) (fun i => c * nth i x 0 + nth i d 0)).
  { rewrite (list_tab K x (length x)) at 1 by reflexivity. rewrite (list_tab K d (length x)) at 1 by exact Ld. apply (map_combine_tab K (fun x0 d0 => c * x0 + d0)). }
  rewrite Ez in V. unfold poly_commit_vec in V at 2. rewrite msm_tab_add, msm_tab_mul in V. rewrite <- (msm_pad K G x), <- (msm_pad K G d) in V by lia.
  transitivity (gadd (gadd (gsm c' Cx) (poly_commit_vec K G (mc_gens _ _ (pc_gen_n _ _ p)) d (mc_h _ _ (pc_gen_n _ _ p)) rd))
     (gopp (gadd (gsm c Cx) (poly_commit_vec K G (mc_gens _ _ (pc_gen_n _ _ p)) d (mc_h _ _ (pc_gen_n _ _ p)) rd)))); [gmod; ring|].
  rewrite V. unfold Cx, poly_commit_vec. gmod; ring.
Qed.
Lemma fprod_ones : forall a : list K, fprod (map (fun '(x, z) => z * x) (combine a (repeat 1 (length a)))) = fprod a.
Proof. induction a as [|x a IH]; [reflexivity|]. cbn [length repeat combine map]. change (1 * x * fprod (map (fun '(x, z) => z * x) (combine a (repeat 1 (length a)))) = x * fprod a). rewrite IH. ring. Qed.
(** Any value passes as the inner product of a committed vector with [a]. *)
Theorem dot_product_forgery (p : pcp K G) x1 bx a1 a2 a y by_ t : x1 <> 0 -> fprod (a1 :: a2 :: a) <> 0 -> mc_h _ _ (pc_gen_n _ _ p) = mc_h _ _ (pc_gen_1 _ _ p) ->
  let xs := x1 :: repeat 0 (S (length a)) in
  exists pf t', dot_product_verify K G ch p pf (poly_commit_vec K G (mc_gens _ _ (pc_gen_n _ _ p)) xs (mc_h _ _ (pc_gen_n _ _ p)) bx)
    (poly_commit_vec K G (mc_gens _ _ (pc_gen_1 _ _ p)) [y] (mc_h _ _ (pc_gen_1 _ _ p)) by_) (a1 :: a2 :: a) t = Ok (true, t').
Proof.
  intros N1 Na Eh xs. set (gn := mc_gens _ _ (pc_gen_n _ _ p)). set (hn := mc_h _ _ (pc_gen_n _ _ p)) in *. rewrite <- Eh. set (Cx := poly_commit_vec K G gn xs hn bx).
  set (Cy := poly_commit_vec K G _ [y] hn by_). set (P := fprod (a1 :: a2 :: a)) in *.
  set (d2 := y * finv (x1 * P)). set (ds := 0 :: d2 :: repeat 1 (length a)).
  set (delta := poly_commit_vec K G gn ds hn 0). set (c := ch "c" (MG "beta" g0 :: MG "delta" delta :: MG "Cy" Cy :: MG "Cx" Cx :: t)).
  exists (mkLPf K G (c * x1 :: d2 :: repeat 1 (length a)) delta g0 (c * bx) (c * by_)). eexists.
  unfold dot_product_verify, draw. cbn [ld_beta ld_delta ld_z ld_zdelta ld_zbeta]. fold c. cbn [length]. rewrite repeat_length, Nat.ltb_irrefl. do 2 f_equal.
  apply andb_true_intro. split; apply geqb_true.
  - unfold delta, Cx, poly_commit_vec. fold gn hn.
    set (n := S (S (length a))). rewrite (msm_pad K G xs gn n), (msm_pad K G ds gn n), (msm_pad K G (c * x1 :: _) gn n) by (unfold xs, ds, n; cbn [length]; rewrite ?repeat_length; lia).
    rewrite (tab_ext K n (fun i => nth i (c * x1 :: d2 :: repeat 1 (length a)) 0) (fun i => c * nth i xs 0 + nth i ds 0)).
    + rewrite msm_tab_add, msm_tab_mul. gmod; ring.
    + unfold xs, ds. intros [|[|i]] Hi; cbn [nth repeat]; try ring. rewrite nth_repeat. ring.
  - cbn [combine map].
    match goal with |- context [fprod ?l] => change (fprod l) with (c * x1 * a1 * (d2 * a2 * fprod (map (fun '(x, z) => z * x) (combine a (repeat 1 (length a)))))) end.
    rewrite fprod_ones.
    assert (EP : c * x1 * a1 * (d2 * a2 * fprod a) = c * y).
    { transitivity (c * x1 * d2 * P); [unfold P; change (fprod (a1 :: a2 :: a)) with (a1 * (a2 * fprod a)); ring|]. unfold d2. field. split; assumption. }
    rewrite EP. unfold Cy, poly_commit_vec. rewrite !msm1. fold hn. gmod; ring.
Qed.
End P.
