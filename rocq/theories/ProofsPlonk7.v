(** Evaluations, linear combinations and the verifier, unfolded. *)
From Verif Require Import ModelPlonk SpecPlonk.
Local Open Scope fld_scope.
Section P.
Variable K : Fld.
Add Field Kf : (f_laws K).
Lemma single_eval (ps : list (string * list K)) l p pt : find_label l ps = Some p -> poly_eval_lc ps (single l) pt = Ok (peval p pt).
Proof. intro E. unfold poly_eval_lc, single. cbn [l_terms mapR fst snd]. rewrite E. cbn [rbind fsum fold_right]. f_equal. unfold fsum. cbn. ring. Qed.
Section V.
Variables (i : info K) (alpha beta gamma zeta : K) (w0 w1 w2 w3 zs s0 s1 s2 qa : K).
Notation d := (i_dn i). Notation ks := (i_ks i).
Definition znum : K := nfac beta gamma w0 zeta (nth 0 ks 0) * nfac beta gamma w1 zeta (nth 1 ks 0) * nfac beta gamma w2 zeta (nth 2 ks 0) * nfac beta gamma w3 zeta (nth 3 ks 0).
Definition zden : K := dfac beta gamma w0 s0 * dfac beta gamma w1 s1 * dfac beta gamma w2 s2 * beta * zs.
Definition the_lcs (l1 : K) : list (lcomb K) :=
  [single "q_arith"; mkLC "r" (arith_lc w0 w1 w2 w3 qa ++ [(znum * alpha + l1 * (alpha * alpha), "z"%string); (- zden * alpha, "sigma_3"%string)]); single "sigma_0"; single "sigma_1"; single "sigma_2"; t_lc (i_n i) zeta;
   single "w_0"; single "w_1"; single "w_2"; single "w_3"; single "z"].
Lemma lin_combs_eq ev : ev (single "w_0") zeta = Ok w0 -> ev (single "w_1") zeta = Ok w1 -> ev (single "w_2") zeta = Ok w2 -> ev (single "w_3") zeta = Ok w3 -> ev (single "z") (zeta * dgen d) = Ok zs ->
  ev (single "sigma_0") zeta = Ok s0 -> ev (single "sigma_1") zeta = Ok s1 -> ev (single "sigma_2") zeta = Ok s2 -> ev (single "q_arith") zeta = Ok qa ->
  lin_combs i alpha beta gamma zeta ev = rbind (l1_at d zeta) (fun l1 => Ok (the_lcs l1)).
Proof.
  intros E0 E1 E2 E3 Ez F0 F1 F2 Eq. unfold lin_combs. cbv zeta. rewrite E0. cbn [rbind]. rewrite E1. cbn [rbind]. rewrite E2. cbn [rbind]. rewrite E3. cbn [rbind]. rewrite Ez. cbn [rbind]. rewrite F0. cbn [rbind]. rewrite F1. cbn [rbind]. rewrite F2. cbn [rbind]. rewrite Eq. cbn [rbind].
  unfold perm_lc. destruct (l1_at d zeta) as [l1| |]; reflexivity.
Qed.
End V.
Section E.
Variables (x : index K) (w0 w1 w2 w3 z t0 t1 t2 t3 : list K).
Definition all_polys : list (string * list K) := index_polys x ++ combine w_labels [w0; w1; w2; w3] ++ [("z"%string, z)] ++ combine t_labels [t0; t1; t2; t3].
Variables (i : info K) (alpha beta gamma zeta l1 : K).
Notation pw0 := (peval w0 zeta). Notation pw1 := (peval w1 zeta). Notation pw2 := (peval w2 zeta). Notation pw3 := (peval w3 zeta).
Notation pzs := (peval z (zeta * dgen (i_dn i))). Notation ps0 := (peval (t_poly (x_s0 x)) zeta). Notation ps1 := (peval (t_poly (x_s1 x)) zeta). Notation ps2 := (peval (t_poly (x_s2 x)) zeta). Notation pqa := (peval (t_poly (x_qa x)) zeta).
Definition lcs_of : list (lcomb K) := the_lcs i alpha beta gamma zeta pw0 pw1 pw2 pw3 pzs ps0 ps1 ps2 pqa l1.
Definition r_of : K :=
  pqa * (peval (t_poly (x_q0 x)) zeta * pw0 + peval (t_poly (x_q1 x)) zeta * pw1 + peval (t_poly (x_q2 x)) zeta * pw2 + peval (t_poly (x_q3 x)) zeta * pw3 + peval (t_poly (x_qm x)) zeta * pw1 * pw2 + peval (t_poly (x_qc x)) zeta)
  + (znum i beta gamma zeta pw0 pw1 pw2 pw3 * alpha + l1 * (alpha * alpha)) * peval z zeta - zden beta gamma pw0 pw1 pw2 pzs ps0 ps1 ps2 * alpha * peval (t_poly (x_s3 x)) zeta.
Definition t_of : K := let zn := zeta ^ i_n i in peval t0 zeta + zn * peval t1 zeta + zn * zn * peval t2 zeta + zn * (zn * zn) * peval t3 zeta.
Definition evs_of : list K := [pqa; r_of; ps0; ps1; ps2; t_of; pw0; pw1; pw2; pw3; pzs].
Lemma prover_lcs : lin_combs i alpha beta gamma zeta (poly_eval_lc all_polys) = rbind (l1_at (i_dn i) zeta) (fun l => Ok (the_lcs i alpha beta gamma zeta pw0 pw1 pw2 pw3 pzs ps0 ps1 ps2 pqa l)).
Proof. apply lin_combs_eq; apply single_eval; reflexivity. Qed.
Lemma prover_evs : eval_all lcs_of all_polys (query_set i zeta) = Ok evs_of.
Proof.
  unfold eval_all, query_set. 
  assert (R : poly_eval_lc all_polys (mkLC "r" (arith_lc pw0 pw1 pw2 pw3 pqa ++ [(znum i beta gamma zeta pw0 pw1 pw2 pw3 * alpha + l1 * (alpha * alpha), "z"%string); (- zden beta gamma pw0 pw1 pw2 pzs ps0 ps1 ps2 * alpha, "sigma_3"%string)])) zeta = Ok r_of).
  { unfold poly_eval_lc, arith_lc. cbn [l_terms app mapR fst snd]. repeat match goal with |- context [find_label ?l all_polys] => let v := eval cbv [find_label all_polys index_polys w_labels t_labels combine app find fst snd String.eqb Ascii.eqb Bool.eqb] in (find_label l all_polys) in change (find_label l all_polys) with v; cbn [rbind] end.
    f_equal. unfold fsum, r_of. cbn [fold_right]. ring. }
  assert (T : poly_eval_lc all_polys (t_lc (i_n i) zeta) zeta = Ok t_of).
  { unfold poly_eval_lc, t_lc. cbv zeta. cbn [l_terms app mapR fst snd]. repeat match goal with |- context [find_label ?l all_polys] => let v := eval cbv [find_label all_polys index_polys w_labels t_labels combine app find fst snd String.eqb Ascii.eqb Bool.eqb] in (find_label l all_polys) in change (find_label l all_polys) with v; cbn [rbind] end.
    f_equal. unfold fsum, t_of. cbn [fold_right]. ring. }
  unfold lcs_of, the_lcs. cbn [mapR fst snd find l_label single t_lc String.eqb Ascii.eqb Bool.eqb].
  change (mkLC "q_arith" [(1, "q_arith"%string)]) with (@single K "q_arith"). change (mkLC "sigma_0" [(1, "sigma_0"%string)]) with (@single K "sigma_0"). change (mkLC "sigma_1" [(1, "sigma_1"%string)]) with (@single K "sigma_1"). change (mkLC "sigma_2" [(1, "sigma_2"%string)]) with (@single K "sigma_2").
  change (mkLC "w_0" [(1, "w_0"%string)]) with (@single K "w_0"). change (mkLC "w_1" [(1, "w_1"%string)]) with (@single K "w_1"). change (mkLC "w_2" [(1, "w_2"%string)]) with (@single K "w_2"). change (mkLC "w_3" [(1, "w_3"%string)]) with (@single K "w_3"). change (mkLC "z" [(1, "z"%string)]) with (@single K "z").
  change (mkLC "t" _) with (t_lc (i_n i) zeta). rewrite R, T.
  rewrite (single_eval all_polys "q_arith" (t_poly (x_qa x)) zeta eq_refl), (single_eval all_polys "sigma_0" (t_poly (x_s0 x)) zeta eq_refl), (single_eval all_polys "sigma_1" (t_poly (x_s1 x)) zeta eq_refl), (single_eval all_polys "sigma_2" (t_poly (x_s2 x)) zeta eq_refl),
    (single_eval all_polys "w_0" w0 zeta eq_refl), (single_eval all_polys "w_1" w1 zeta eq_refl), (single_eval all_polys "w_2" w2 zeta eq_refl), (single_eval all_polys "w_3" w3 zeta eq_refl), (single_eval all_polys "z" z _ eq_refl). reflexivity.
Qed.
End E.
(** *** the verifier *)
Section W.
Variable PC : pcs K.
Variable ro : oracle K PC.
Variables (vk : vkey K PC) (pub : list K) (c1 c2 c3 : list (p_comm PC)) (rest : list (list (p_comm PC))) (pf : p_proof PC).
Notation i := (v_info vk). Notation d := (i_dn i).
Notation beta := (fst (o_bg ro pub c1)). Notation gamma := (snd (o_bg ro pub c1)). Notation alpha := (o_alpha ro pub c1 c2). Notation zeta := (o_zeta ro pub c1 c2 c3).
Lemma eq_check_eq (qa r s0 s1 s2 t w0 w1 w2 w3 zs : K) (al be ga ze : K) more : equality_check i al be ga ze (combine (query_set i ze) (qa :: r :: s0 :: s1 :: s2 :: t :: w0 :: w1 :: w2 :: w3 :: zs :: more)) pub =
  if Nat.ltb (dsize d) (length pub) then Panic else rbind (l1_at d ze) (fun l1 => Ok (feqb (t * (ze ^ dsize d - 1)) (r + qa * peval (interp d (pub ++ repeat 0 (dsize d - length pub))) ze - zs * dfac be ga w0 s0 * dfac be ga w1 s1 * dfac be ga w2 s2 * (w3 + ga) * al - l1 * (al * al)))).
Proof.
  unfold equality_check, pad_to. cbv zeta. destruct (Nat.ltb (dsize d) (length pub)); [reflexivity|]. cbn [rbind]. unfold query_set. cbn [combine].
  unfold ev_get. cbn [find fst snd String.eqb Ascii.eqb Bool.eqb andb]. rewrite !feqb_refl. cbn [rbind snd]. reflexivity.
Qed.
Lemma verify_eq (qa r s0 s1 s2 t w0 w1 w2 w3 zs : K) more :
  let evs := qa :: r :: s0 :: s1 :: s2 :: t :: w0 :: w1 :: w2 :: w3 :: zs :: more in
  verify ro vk pub (mkProof K PC (c1 :: c2 :: c3 :: rest) evs pf) =
  if Nat.ltb (dsize d) (length pub) then Panic else rbind (l1_at d zeta) (fun l1 =>
  if feqb (t * (zeta ^ dsize d - 1)) (r + qa * peval (interp d (pub ++ repeat 0 (dsize d - length pub))) zeta - zs * dfac beta gamma w0 s0 * dfac beta gamma w1 s1 * dfac beta gamma w2 s2 * (w3 + gamma) * alpha - l1 * (alpha * alpha))
  then p_check PC (v_rk vk) (the_lcs i alpha beta gamma zeta w0 w1 w2 w3 zs s0 s1 s2 qa l1) (combine (v_labels vk ++ plonk_labels) (v_comms vk ++ c1 ++ c2 ++ c3)) (query_set i zeta) (combine (query_set i zeta) evs) pf (o_eps ro pub c1 c2 c3 evs)
  else Ok false).
Proof.
  cbv zeta. unfold verify. cbn [f_comms f_evals f_pc nth_error orp rbind]. destruct (o_bg ro pub c1) as [be ga]. cbn [fst snd]. cbv zeta. rewrite eq_check_eq. destruct (Nat.ltb (dsize d) (length pub)); [reflexivity|].
  destruct (l1_at d zeta) as [l1|e|] eqn:E1; cbn [rbind]; try reflexivity. destruct (feqb _ _); cbn [negb]; [|reflexivity].
  rewrite (lin_combs_eq i alpha be ga zeta w0 w1 w2 w3 zs s0 s1 s2 qa); [rewrite E1; reflexivity|..]; unfold query_set, ev_get; cbn [combine find fst snd single l_label String.eqb Ascii.eqb Bool.eqb andb]; rewrite !feqb_refl; reflexivity.
Qed.
End W.
End P.
