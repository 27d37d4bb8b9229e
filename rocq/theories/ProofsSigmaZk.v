(** The sigma protocols of spartan, libra and hyrax: the coins of the prover correspond one to one to the accepted proofs. *)
From Verif Require Import Field Poly Module ModTac ModelTranscript ModelBulletproofs ModelSigma SpecSigma SpecMle ProofsMle ProofsIPP ProofsBulletproofs ProofsSigma ProofsSigma2.
Local Open Scope string_scope.
Local Open Scope list_scope.
Local Open Scope fld_scope.
Section P.
Variable K : Fld.
Variable G : Grp K.
Add Field Kf : (f_laws K).
Variable ch : oracle K G.
Notation tab := (tab K).
Implicit Types (p : mcp K G).
Notation com p x b := (poly_commit_vec K G (mc_gens K G p) [x] (mc_h K G p) b).

Lemma com_back p (c x bx z1 z2 : K) (A : G) : gadd A (gsm c (com p x bx)) = com p z1 z2 -> com p (z1 - c * x) (z2 - c * bx) = A.
Proof.
  unfold poly_commit_vec. rewrite !msm1. set (g := hd g0 _). set (h := mc_h _ _ p). intro E.
  transitivity (gadd (gadd (gsm z1 g) (gsm z2 h)) (gopp (gsm c (gadd (gsm x g) (gsm bx h))))); [gmod; ring|]. rewrite <- E. gmod; ring.
Qed.
Lemma knowledge_coins p claim blind t pf t' :
  knowledge_verify K G ch p pf (com p claim blind) t = (true, t') <-> exists! x : K * K, knowledge_proof K G ch p claim blind (fst x) (snd x) t = (pf, com p claim blind, t').
Proof.
  split.
  - destruct pf as [a z1 z2]. unfold knowledge_verify, draw. cbn [kp_t kp_z1 kp_z2]. intro E. injection E as E Et. apply geqb_true in E. set (c := ch "c" _) in *.
    assert (Ea : com p (z1 - c * claim) (z2 - c * blind) = a). { apply com_back. rewrite E. apply gadd_comm. }
    exists (z1 - c * claim, z2 - c * blind). split.
    + unfold knowledge_proof, draw. cbn [fst snd]. rewrite Ea. fold c. f_equal; [|exact Et]. do 2 f_equal; ring.
    + intros [t1 t2]. unfold knowledge_proof, draw. cbn [fst snd]. intro E'. injection E' as E1 E2 E3 _. rewrite E1 in E2, E3. fold c in E2, E3. rewrite <- E2, <- E3. f_equal; ring.
  - intros ([t1 t2] & E & _). exact (knowledge_complete K G ch _ _ _ _ _ _ _ _ _ E).
Qed.
Lemma eq_coins p v b1 b2 t pf t' :
  eq_verify K G ch p (com p v b1) (com p v b2) pf t = (true, t') <-> exists! r, eq_proof K G ch p v b1 v b2 r t = (pf, t').
Proof.
  split.
  - destruct pf as [a z]. unfold eq_verify, draw. cbn [ep_alpha ep_z]. intro E. injection E as E Et. apply geqb_true in E. set (c := ch "c" _) in *.
    assert (Ea : gsm (z - c * (b1 - b2)) (mc_h _ _ p) = a).
    { transitivity (gadd (gsm z (mc_h _ _ p)) (gopp (gsm (c * (b1 - b2)) (mc_h _ _ p)))); [gmod; ring|]. rewrite E. unfold poly_commit_vec. rewrite !msm1. gmod; ring. }
    exists (z - c * (b1 - b2)). split.
    + unfold eq_proof, draw. rewrite Ea. fold c. f_equal; [|exact Et]. f_equal. ring.
    + intros r. unfold eq_proof, draw. intro E'. injection E' as E1 E2 _. rewrite E1 in E2. fold c in E2. rewrite <- E2. ring.
  - intros (r & E & _). exact (eq_complete K G ch _ _ _ _ _ _ _ _ _ eq_refl E).
Qed.
Lemma product_coins p a ba b bb bpr t pf t' :
  (length (pp_z K G pf) = 5%nat /\ product_verify K G ch p pf (com p a ba) (com p b bb) (com p (a * b) bpr) t = Ok (true, t')) <->
  exists! x : K * K * K * K * K, let '(b1, b2, b3, b4, b5) := x in product_proof K G ch p a ba b bb (a * b) bpr b1 b2 b3 b4 b5 t = (pf, com p a ba, com p b bb, com p (a * b) bpr, t').
Proof.
  split.
  - destruct pf as [al be de z]. cbn [pp_z]. intros [L E]. unfold product_verify, draw in E. cbn [pp_z pp_alpha pp_beta pp_delta] in E.
    destruct z as [|z1 [|z2 [|z3 [|z4 [|z5 [|? ?]]]]]]; try discriminate L. injection E as E Et. set (c := ch "c" _) in *.
    apply andb_prop in E. destruct E as [E E3]. apply andb_prop in E. destruct E as [E1 E2]. apply geqb_true in E1, E2, E3.
    apply com_back in E1, E2.
    assert (Ed : poly_commit_vec K G [com p a ba] [z3 - c * b] (mc_h _ _ p) (z5 - c * (bpr - ba * b)) = de).
    { unfold poly_commit_vec in *. rewrite !msm1 in *. cbn [hd] in *. set (g := hd g0 _) in *. set (h := mc_h _ _ p) in *.
      transitivity (gadd (gadd (gsm z3 (gadd (gsm a g) (gsm ba h))) (gsm z5 h)) (gopp (gsm c (gadd (gsm (a * b) g) (gsm bpr h))))); [gmod; ring|]. rewrite <- E3. gmod; ring. }
    exists (z1 - c * a, z2 - c * ba, z3 - c * b, z4 - c * bb, z5 - c * (bpr - ba * b)). split.
    + unfold product_proof, draw. rewrite E1, E2, Ed. fold c. rewrite Et. repeat f_equal; ring.
    + intros [[[[b1 b2] b3] b4] b5]. unfold product_proof, draw. intro E'. injection E' as F1 F2 F3 G1 G2 G3 G4 G5 _. rewrite F1, F2, F3 in G1, G2, G3, G4, G5. fold c in G1, G2, G3, G4, G5.
      rewrite <- G1, <- G2, <- G3, <- G4, <- G5. repeat f_equal; ring.
  - intros ([[[[b1 b2] b3] b4] b5] & E & _). split; [|exact (product_complete K G ch _ _ _ _ _ _ _ _ _ _ _ _ _ _ _ _ _ _ eq_refl E)].
    unfold product_proof, draw in E. injection E as <- _. reflexivity.
Qed.
Lemma eval_coins g1 gn poly bp claim bc ev be size r t pf t' :
  let C := poly_commit_vec K G (mc_gens _ _ gn) poly (mc_h _ _ gn) bp in
  (0 < size)%nat -> (length poly <= size)%nat -> claim = peval poly 0 + peval poly 1 -> ev = peval poly r ->
  (length (se_z K G pf) = size /\ sum_check_eval_verify K G ch g1 gn C (com g1 ev be) (com g1 claim bc) pf r size t = Ok (true, t')) <->
  exists! x : list K * K * K, let '(d, rd, rb) := x in length d = size /\ sum_check_eval_prover K G ch g1 gn poly C bp claim bc ev be size r d rd rb t = Ok (pf, t').
Proof.
  intros C Hs Lp Hc He. split.
  - destruct pf as [D B z zd zb]. cbn [se_z]. intros [L E].
    unfold sum_check_eval_verify, draw in E. cbn [se_d se_dot se_z se_zdelta se_zbeta] in E. rewrite L, Nat.ltb_irrefl in E.
    set (w0 := ch "combine_two_claims_to_one" t) in *. set (w1 := ch "combine_two_claims_to_one" (MCh "combine_two_claims_to_one" :: t)) in *.
    assert (EC : com g1 (w0 * claim + w1 * ev) (w0 * bc + w1 * be) = gadd (gsm w0 (com g1 claim bc)) (gsm w1 (com g1 ev be))).
    { unfold poly_commit_vec. rewrite !msm1. gmod; ring. }
    rewrite <- EC in E. injection E as E Et. set (c := ch "c" _) in *. apply andb_prop in E. destruct E as [E1 E2]. apply geqb_true in E1, E2.
    set (pad := poly ++ repeat 0 (size - length poly)). assert (Lpad : length pad = size) by (unfold pad; rewrite app_length, repeat_length; lia).
    set (d := tab size (fun i => nth i z 0 - c * nth i poly 0)). assert (Ld : length d = size) by apply length_tab.
    assert (Npad : forall i, nth i pad 0 = nth i poly 0).
    { intro i. unfold pad. destruct (Nat.ltb_spec i (length poly)); [apply app_nth1; lia|]. rewrite app_nth2, nth_repeat, nth_overflow by lia. reflexivity. }
    assert (Ez : map (fun '(x, y) => c * x + y) (combine pad d) = z).
    { rewrite (list_tab K pad size Lpad). unfold d. rewrite (map_combine_tab K (fun x y => c * x + y)). symmetry. rewrite (list_tab K z size L) at 1. apply tab_ext. intros i Hi. rewrite Npad. ring. }
    assert (ED : poly_commit_vec K G (mc_gens _ _ gn) d (mc_h _ _ gn) (zd - c * bp) = D).
    { unfold C, poly_commit_vec in E1 |- *. rewrite (msm_pad K G poly _ size), (msm_pad K G z _ size) in E1 by lia. unfold d.
      assert (Q : tab size (fun i => nth i z 0 - c * nth i poly 0) = tab size (fun i => nth i z 0 + (- c) * nth i poly 0)) by (apply tab_ext; intros; ring). rewrite Q, msm_tab_add, msm_tab_mul.
      set (M1 := msm _ (tab size (fun i => nth i z 0))) in *. set (M2 := msm _ (tab size (fun i => nth i poly 0))) in *.
      transitivity (gadd (gadd M1 (gsm zd (mc_h _ _ gn))) (gopp (gsm c (gadd M2 (gsm bp (mc_h _ _ gn)))))); [gmod; ring|]. rewrite <- E1. gmod; ring. }
    assert (Edot : dot (sc_coeffs K w0 w1 r size) d = dot (sc_coeffs K w0 w1 r size) z - c * (w0 * claim + w1 * ev)).
    { replace (dot (sc_coeffs K w0 w1 r size) z) with (dot (sc_coeffs K w0 w1 r size) (tab size (fun i => nth i z 0))) by (rewrite <- (list_tab K z size L); reflexivity).
      unfold d. rewrite !sc_coeffs_dot by exact Hs. rewrite Hc, He.
      assert (Ep : forall x, peval (tab size (fun i => nth i z 0 - c * nth i poly 0)) x = peval (tab size (fun i => nth i z 0)) x - c * peval poly x).
      { intro x. rewrite <- (peval_tab_pad K poly size x) by lia. unfold ProofsBulletproofs.tab. rewrite !peval_map_seq.
        transitivity (sumn size (fun i => nth i z 0 * x ^ i) + sumn size (fun i => (- c) * (nth i poly 0 * x ^ i))); [rewrite <- sumn_add; apply sumn_ext; intros; ring|rewrite sumn_mul_l; ring]. }
      rewrite !Ep. ring. }
    assert (EB : com g1 (dot (sc_coeffs K w0 w1 r size) d) (zb - c * (w0 * bc + w1 * be)) = B).
    { rewrite Edot. apply com_back. rewrite <- E2. apply gadd_comm. }
    exists (d, zd - c * bp, zb - c * (w0 * bc + w1 * be)). split.
    + split; [exact Ld|]. unfold sum_check_eval_prover, draw. destruct (Nat.ltb_spec size (length poly)) as [?|_]; [lia|]. fold w0 w1 pad. rewrite ED, EB. fold c. rewrite Ez, Et. do 3 f_equal; ring.
    + intros [[d' rd'] rb'] [Ld' E']. unfold sum_check_eval_prover, draw in E'. destruct (Nat.ltb_spec size (length poly)) as [?|_]; [lia|]. fold w0 w1 pad in E'.
      injection E' as F1 F2 F3 F4 F5 _. rewrite F1, F2 in F3, F4, F5. fold c in F3, F4, F5. rewrite <- F4, <- F5. assert (Q : d = d').
      { unfold d. rewrite (list_tab K d' size Ld'). apply tab_ext. intros i Hi. rewrite <- F3. rewrite (list_tab K pad size Lpad), (list_tab K d' size Ld') at 1.
        rewrite (map_combine_tab K (fun x y => c * x + y)), nth_tab by exact Hi. rewrite Npad. ring. }
      rewrite Q. f_equal; [f_equal|]; ring.
  - intros ([[d rd] rb] & [Ld E] & _). split; [|exact (sum_check_eval_complete K G ch g1 gn poly bp claim bc ev be size r d rd rb t pf t' Hs Ld Hc He E)].
    unfold sum_check_eval_prover, draw in E. destruct (Nat.ltb_spec size (length poly)) as [?|_]; [lia|]. injection E as <- _. cbn [se_z]. rewrite map_length, combine_length, app_length, repeat_length, Ld. lia.
Qed.
End P.
