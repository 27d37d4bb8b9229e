(** Soundness of the polynomial protocol with an ideal commitment. *)
From Coq Require Import Permutation.
From Verif Require Import ModelPlonk SpecPlonk ProofsPC ProofsPlonk1 ProofsPlonk2 ProofsPlonk3 ProofsPlonk4 ProofsPlonk5 ProofsPlonk6 ProofsPlonk7 ProofsPlonk8.
Local Open Scope fld_scope.
Section P.
Variable K : Fld.
Add Field Kf : (f_laws K).
(** *** the verifier with the ideal commitment *)
Lemma ev_get_missing (e : list ((string * K) * K)) l pt : (forall x, In x e -> String.eqb (fst (fst x)) l = false) -> ev_get e l pt = Err MissingEval.
Proof.
  intro H. unfold ev_get. destruct (find _ e) as [x|] eqn:E; [|reflexivity]. apply find_some in E. destruct E as [I E]. rewrite (H x I) in E. discriminate.
Qed.
Lemma short_evals (PC : pcs K) (ro : oracle K PC) vk pub c1 c2 c3 rest evs pf : (length evs < 11)%nat -> verify ro vk pub (mkProof K PC (c1 :: c2 :: c3 :: rest) evs pf) <> Ok true.
Proof.
  intros L. unfold verify. cbn [f_comms f_evals f_pc nth_error orp rbind]. destruct (o_bg ro pub c1) as [be ga]. cbv zeta. set (ze := o_zeta ro pub c1 c2 c3). set (al := o_alpha ro pub c1 c2).
  assert (NZ : forall pt, ev_get (combine (query_set (v_info vk) ze) evs) "z" pt = Err MissingEval).
  { intro pt. apply ev_get_missing. intros [[l q] v] I. unfold query_set in I. do 11 (destruct evs as [|? evs]; [cbn [combine In] in I; repeat (destruct I as [I|I]; [injection I as <- <- <-; reflexivity|]); destruct I|]). cbn [length] in L. lia. }
  unfold equality_check. cbv zeta. destruct (pad_to _ pub); cbn [rbind]; try discriminate. do 4 (match goal with |- context [ev_get ?e ?l ze] => destruct (ev_get e l ze); cbn [rbind]; try discriminate end). rewrite NZ. discriminate.
Qed.
Lemma ok_inj {A} (x y : A) : Ok x = Ok y -> x = y. Proof. congruence. Qed.
Lemma same_eq (l m : list K) : same l m = true <-> l = m.
Proof.
  revert m. induction l as [|x l IH]; intros [|y m]; cbn [same]; try (split; congruence). rewrite Bool.andb_true_iff, IH. split; [intros [E ->]; apply feqb_eq in E; congruence|intro E; injection E as -> ->; rewrite feqb_refl; auto].
Qed.
Lemma commit_ideal ck ps crs : committed K (ideal_pcs K) ck ps crs -> map fst crs = map snd ps.
Proof.
  unfold committed. induction 1 as [|p cr ps crs (r & E) H IH]; [reflexivity|]. cbn [map]. f_equal; [|exact IH]. cbn in E. destruct (_ <=? S ck)%nat; [|discriminate]. injection E as <-. reflexivity.
Qed.
Lemma combine_fs {A B} (l : list (A * B)) : combine (map fst l) (map snd l) = l.
Proof. induction l as [|[a b] l IH]; [reflexivity|]. cbn. rewrite IH. reflexivity. Qed.
Lemma ideal_accept dnew (c : composer K) ks d d4 p x comms vk rk pub w0 w1 w2 w3 z t0 t1 t2 t3 evs pf beta gamma alpha zeta eps : valid_dom d -> good_index K dnew c ks d d4 p x ->
  comms = map snd (index_polys x) -> vk = mkVk K (ideal_pcs K) (x_info x) comms (map fst (index_polys x)) rk ->
  verify (fixed_oracle (ideal_pcs K) beta gamma alpha zeta eps) vk pub (mkProof K (ideal_pcs K) [[w0; w1; w2; w3]; [z]; [t0; t1; t2; t3]] evs pf) = Ok true ->
  (length pub <= dsize d)%nat /\ zeta <> 1 /\ t_of K t0 t1 t2 t3 (x_info x) zeta * (zeta ^ dsize d - 1) = iev K ks d x [w0; w1; w2; w3] z (interp d (pub ++ repeat 0 (dsize d - length pub))) alpha beta gamma zeta.
Proof.
  intros V G EC EV A. destruct (Nat.lt_ge_cases (length evs) 11) as [S|S]; [exfalso; exact (short_evals _ _ _ _ _ _ _ _ _ _ S A)|].
  do 11 (destruct evs as [|? evs]; [cbn [length] in S; lia|]). rename c0 into qa. match type of A with context [mkProof _ _ _ (qa :: ?b :: ?b1 :: ?b2 :: ?b3 :: ?b4 :: ?b5 :: ?b6 :: ?b7 :: ?b8 :: ?b9 :: _)] => set (r := b) in *; set (v0 := b1) in *; set (v1 := b2) in *; set (v2 := b3) in *; set (t := b4) in *; set (u0 := b5) in *; set (u1 := b6) in *; set (u2 := b7) in *; set (u3 := b8) in *; set (zs := b9) in * end.
  rewrite verify_eq in A. cbn [fixed_oracle o_bg o_alpha o_zeta o_eps fst snd] in A. rewrite EV in A. cbn [v_info v_comms v_labels v_rk] in A. pose proof (gi_info _ _ _ _ _ _ _ _ G) as GI. assert (ED : i_dn (x_info x) = d) by (rewrite GI; reflexivity). rewrite ED in A.
  destruct (Nat.ltb_spec (dsize d) (length pub)) as [|LP]; [discriminate|]. split; [exact LP|]. destruct (feq_dec K zeta 1) as [E1|ZN]; [rewrite E1, l1_at_one in A; discriminate|]. split; [exact ZN|].
  rewrite (l1_at_ok K d zeta V ZN) in A. cbn [rbind] in A. destruct (feqb _ _) eqn:FE; [|discriminate]. apply feqb_eq in FE. cbn [ideal_pcs p_check] in A.
  rewrite EC in A. match type of A with context [@combine string ?T ?l ?m] => change (@combine string T l m) with (all_polys K x w0 w1 w2 w3 z t0 t1 t2 t3) in A end.
  match type of A with rbind ?m _ = _ => destruct m as [ev| |] eqn:EA; try discriminate end. cbn [rbind] in A. pose proof (ok_inj _ _ A) as EE. clear A. apply (proj1 (same_eq _ _)) in EE.
  unfold query_set in EE. cbn [combine map snd] in EE. subst ev.
  unfold eval_all, query_set, the_lcs in EA. cbn [mapR fst snd find l_label single t_lc String.eqb Ascii.eqb Bool.eqb] in EA.
  change (mkLC "q_arith" [(1, "q_arith"%string)]) with (@single K "q_arith") in EA. change (mkLC "sigma_0" [(1, "sigma_0"%string)]) with (@single K "sigma_0") in EA. change (mkLC "sigma_1" [(1, "sigma_1"%string)]) with (@single K "sigma_1") in EA. change (mkLC "sigma_2" [(1, "sigma_2"%string)]) with (@single K "sigma_2") in EA.
  change (mkLC "w_0" [(1, "w_0"%string)]) with (@single K "w_0") in EA. change (mkLC "w_1" [(1, "w_1"%string)]) with (@single K "w_1") in EA. change (mkLC "w_2" [(1, "w_2"%string)]) with (@single K "w_2") in EA. change (mkLC "w_3" [(1, "w_3"%string)]) with (@single K "w_3") in EA. change (mkLC "z" [(1, "z"%string)]) with (@single K "z") in EA.
  set (ps := all_polys K x w0 w1 w2 w3 z t0 t1 t2 t3) in *.
  rewrite (single_eval K ps "q_arith" (t_poly (x_qa x)) zeta eq_refl), (single_eval K ps "sigma_0" (t_poly (x_s0 x)) zeta eq_refl), (single_eval K ps "sigma_1" (t_poly (x_s1 x)) zeta eq_refl), (single_eval K ps "sigma_2" (t_poly (x_s2 x)) zeta eq_refl),
    (single_eval K ps "w_0" w0 zeta eq_refl), (single_eval K ps "w_1" w1 zeta eq_refl), (single_eval K ps "w_2" w2 zeta eq_refl), (single_eval K ps "w_3" w3 zeta eq_refl), (single_eval K ps "z" z _ eq_refl) in EA.
  cbn [rbind] in EA.
  match type of EA with context [poly_eval_lc ps ?l zeta] => destruct (poly_eval_lc ps l zeta) as [rr| |] eqn:ER; try discriminate end. cbn [rbind] in EA.
  match type of EA with context [poly_eval_lc ps ?l zeta] => destruct (poly_eval_lc ps l zeta) as [tt| |] eqn:ET; try discriminate end. cbn [rbind] in EA.
  injection EA as X0 X1 X2 X3 X4 X5 X6 X7 X8 X9 X10. rewrite ED in X10.
  pose proof (prover_evs K x w0 w1 w2 w3 z t0 t1 t2 t3 (x_info x) alpha beta gamma zeta (peval (first_lagrange_poly d) zeta)) as PE. fold ps in PE.
  assert (RR : rr = r_of K x w0 w1 w2 w3 z (x_info x) alpha beta gamma zeta (peval (first_lagrange_poly d) zeta)).
  { clear PE. rewrite <- X0, <- X2, <- X3, <- X4, <- X6, <- X7, <- X8, <- X9, <- X10 in ER. unfold poly_eval_lc, arith_lc in ER. cbn [l_terms app mapR fst snd] in ER. unfold ps in ER.
    repeat match type of ER with context [find_label ?l (all_polys K x w0 w1 w2 w3 z t0 t1 t2 t3)] => let v := eval cbv [find_label all_polys index_polys w_labels t_labels combine app find fst snd String.eqb Ascii.eqb Bool.eqb] in (find_label l (all_polys K x w0 w1 w2 w3 z t0 t1 t2 t3)) in change (find_label l (all_polys K x w0 w1 w2 w3 z t0 t1 t2 t3)) with v in ER; cbn [rbind] in ER end.
    injection ER as <-. unfold r_of. rewrite ED. unfold fsum. cbn [fold_right]. ring. }
  assert (TT : tt = t_of K t0 t1 t2 t3 (x_info x) zeta).
  { clear PE. unfold poly_eval_lc, t_lc in ET. cbv zeta in ET. cbn [l_terms app mapR fst snd] in ET. unfold ps in ET.
    repeat match type of ET with context [find_label ?l (all_polys K x w0 w1 w2 w3 z t0 t1 t2 t3)] => let v := eval cbv [find_label all_polys index_polys w_labels t_labels combine app find fst snd String.eqb Ascii.eqb Bool.eqb] in (find_label l (all_polys K x w0 w1 w2 w3 z t0 t1 t2 t3)) in change (find_label l (all_polys K x w0 w1 w2 w3 z t0 t1 t2 t3)) with v in ET; cbn [rbind] in ET end.
    injection ET as <-. unfold t_of. cbv zeta. unfold fsum. cbn [fold_right]. ring. }
  rewrite <- TT, X5, FE. rewrite <- X1, RR, <- X0, <- X2, <- X3, <- X4, <- X6, <- X7, <- X8, <- X9, <- X10.
  unfold iev, ident, r_of, znum, zden. rewrite GI. cbn [i_ks i_dn nth]. unfold dfac. ring.
Qed.
End P.
