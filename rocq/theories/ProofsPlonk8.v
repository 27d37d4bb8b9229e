(** Completeness of Plonk. *)
From Coq Require Import Permutation.
From Verif Require Import ModelPlonk SpecPlonk ProofsPC ProofsPlonk1 ProofsPlonk2 ProofsPlonk3 ProofsPlonk4 ProofsPlonk5 ProofsPlonk6 ProofsPlonk7.
Local Open Scope fld_scope.
Section P.
Variable K : Fld.
Add Field Kf : (f_laws K).
Variable dnew : nat -> option (dom K).
Variable PC : pcs K.
Variable ro : oracle K PC.
Hypothesis F : fft_ok dnew.
Definition committed (ck : p_ck PC) (ps : list (string * list K)) (crs : list (p_comm PC * p_rand PC)) : Prop := Forall2 (fun p cr => exists r, p_commit PC ck (snd p) r = Ok cr) ps crs.
Lemma commit_all_inv ck ps rng crs : commit_all ck ps rng = Ok crs -> committed ck ps crs.
Proof.
  revert crs. induction ps as [|p ps IH]; intros crs E; unfold commit_all in E; cbn [mapR] in E; [inversion E; constructor|]. fold (commit_all ck ps rng) in E.
  destruct (p_commit PC ck (snd p) rng) as [cr| |] eqn:E1; try discriminate. cbn [rbind] in E. destruct (commit_all ck ps rng) as [crs'| |]; try discriminate. cbn [rbind] in E. inversion E; subst. constructor; [eauto|]. apply IH. reflexivity.
Qed.
Lemma committed_length ck ps crs : committed ck ps crs -> length crs = length ps.
Proof. unfold committed. intro H. induction H; cbn [length]; congruence. Qed.
Lemma keygen_inv srs c order ks rng pk vk : keygen dnew srs c order ks rng = Ok (pk, vk) -> exists x ck rk crs,
  plonk_index dnew c order ks = Ok x /\ (i_n (x_info x) <= p_max PC srs)%nat /\ p_trim PC srs (i_n (x_info x)) = Ok (ck, rk) /\ committed ck (index_polys x) crs /\
  vk = mkVk K PC (x_info x) (map fst crs) (map fst (index_polys x)) rk /\ pk = mkPk K PC vk (map snd crs) x ck.
Proof.
  intro E. unfold keygen in E. destruct (plonk_index dnew c order ks) as [x| |]; try discriminate. cbn [rbind] in E. destruct (Nat.ltb_spec (p_max PC srs) (i_n (x_info x))); [discriminate|].
  destruct (p_trim PC srs (i_n (x_info x))) as [[ck rk]| |] eqn:T; try discriminate. cbn [rbind] in E. destruct (commit_all ck (index_polys x) rng) as [crs| |] eqn:C; try discriminate. cbn [rbind] in E. apply commit_all_inv in C.
  inversion E; subst. exists x, ck, rk, crs. repeat split; auto.
Qed.
Lemma plonk_names x w0 w1 w2 w3 z t0 t1 t2 t3 : map fst (all_polys K x w0 w1 w2 w3 z t0 t1 t2 t3) = map fst (index_polys x) ++ plonk_labels.
Proof. reflexivity. Qed.
Lemma plonk_nodup x w0 w1 w2 w3 z t0 t1 t2 t3 : NoDup (map fst (all_polys K x w0 w1 w2 w3 z t0 t1 t2 t3)).
Proof.
  rewrite plonk_names. assert (E : map fst (index_polys x) ++ plonk_labels = ["q_0"; "q_1"; "q_2"; "q_3"; "q_m"; "q_c"; "q_arith"; "sigma_0"; "sigma_1"; "sigma_2"; "sigma_3"; "w_0"; "w_1"; "w_2"; "w_3"; "z"; "t_0"; "t_1"; "t_2"; "t_3"]%string) by reflexivity.
  rewrite E. clear. repeat (constructor; [cbn; intuition discriminate|]). constructor.
Qed.
Lemma final_eq (c : composer K) ks d d4 p x wp zp pip t0 t1 t2 t3 alpha beta gamma zeta w0 w1 w2 w3 : good_index K dnew c ks d d4 p x -> wp = [w0; w1; w2; w3] ->
  t_of K t0 t1 t2 t3 (x_info x) zeta * (zeta ^ dsize d - 1) = iev K ks d x wp zp pip alpha beta gamma zeta ->
  t_of K t0 t1 t2 t3 (x_info x) zeta * (zeta ^ dsize d - 1) = r_of K x w0 w1 w2 w3 zp (x_info x) alpha beta gamma zeta (peval (first_lagrange_poly d) zeta) + peval (t_poly (x_qa x)) zeta * peval pip zeta
   - peval zp (zeta * dgen d) * dfac beta gamma (peval w0 zeta) (peval (t_poly (x_s0 x)) zeta) * dfac beta gamma (peval w1 zeta) (peval (t_poly (x_s1 x)) zeta) * dfac beta gamma (peval w2 zeta) (peval (t_poly (x_s2 x)) zeta) * (peval w3 zeta + gamma) * alpha
   - peval (first_lagrange_poly d) zeta * (alpha * alpha).
Proof.
  intros G -> ->. unfold iev, ident, r_of, znum, zden. rewrite (gi_info _ _ _ _ _ _ _ _ G). cbn [i_ks i_dn nth]. unfold dfac. ring.
Qed.
(** One accepting run from polynomials that satisfy the identity, whatever the split of the commitments into rounds. *)
Lemma accept_run srs (c : composer K) ks d d4 p x ck rk crs vk pub cm c1 c2 c3 rest w0 w1 w2 w3 z t0 t1 t2 t3 pf rng :
  pc_complete PC -> valid_dom d -> good_index K dnew c ks d d4 p x -> p_trim PC srs (i_n (x_info x)) = Ok (ck, rk) -> committed ck (index_polys x) crs ->
  vk = mkVk K PC (x_info x) (map fst crs) (map fst (index_polys x)) rk -> (length pub <= dsize d)%nat ->
  committed ck (combine w_labels [w0; w1; w2; w3] ++ [("z"%string, z)] ++ combine t_labels [t0; t1; t2; t3]) cm -> map fst cm = c1 ++ c2 ++ c3 ->
  let beta := fst (o_bg ro pub c1) in let gamma := snd (o_bg ro pub c1) in let alpha := o_alpha ro pub c1 c2 in let zeta := o_zeta ro pub c1 c2 c3 in
  zeta <> 1 ->
  t_of K t0 t1 t2 t3 (x_info x) zeta * (zeta ^ dsize d - 1) = iev K ks d x [w0; w1; w2; w3] z (interp d (pub ++ repeat 0 (dsize d - length pub))) alpha beta gamma zeta ->
  let l1 := peval (first_lagrange_poly d) zeta in
  let ps := all_polys K x w0 w1 w2 w3 z t0 t1 t2 t3 in
  let lcs := lcs_of K x w0 w1 w2 w3 z (x_info x) alpha beta gamma zeta l1 in
  let evs := evs_of K x w0 w1 w2 w3 z t0 t1 t2 t3 (x_info x) alpha beta gamma zeta l1 in
  p_open PC ck lcs ps (combine (map fst ps) (map fst (crs ++ cm))) (query_set (x_info x) zeta) (o_eps ro pub c1 c2 c3 evs) (map snd (crs ++ cm)) rng = Ok pf ->
  verify ro vk pub (mkProof K PC (c1 :: c2 :: c3 :: rest) evs pf) = Ok true.
Proof.
  intros PCC V G T C EV LP CM EM beta gamma alpha zeta ZN ID l1 ps lcs evs OP. unfold evs, evs_of. rewrite verify_eq. rewrite EV. cbn [v_info v_comms v_labels v_rk]. pose proof (gi_info _ _ _ _ _ _ _ _ G) as GI. 
  assert (ED : i_dn (x_info x) = d) by (rewrite GI; reflexivity). rewrite ED. destruct (Nat.ltb_spec (dsize d) (length pub)); [lia|]. fold beta gamma alpha zeta. rewrite (l1_at_ok K d zeta V ZN). cbn [rbind]. fold l1.
  pose proof (final_eq c ks d d4 p x _ _ _ _ _ _ _ _ _ _ _ _ _ _ _ G eq_refl ID) as FE. fold l1 in FE. rewrite FE, feqb_refl.
  assert (EE : [peval (t_poly (x_qa x)) zeta; r_of K x w0 w1 w2 w3 z (x_info x) alpha beta gamma zeta l1; peval (t_poly (x_s0 x)) zeta; peval (t_poly (x_s1 x)) zeta; peval (t_poly (x_s2 x)) zeta; t_of K t0 t1 t2 t3 (x_info x) zeta; peval w0 zeta; peval w1 zeta; peval w2 zeta; peval w3 zeta; peval z (zeta * dgen d)] = evs) by (unfold evs, evs_of; rewrite ED; reflexivity).
  rewrite EE. assert (EL : the_lcs K (x_info x) alpha beta gamma zeta (peval w0 zeta) (peval w1 zeta) (peval w2 zeta) (peval w3 zeta) (peval z (zeta * dgen d)) (peval (t_poly (x_s0 x)) zeta) (peval (t_poly (x_s1 x)) zeta) (peval (t_poly (x_s2 x)) zeta) (peval (t_poly (x_qa x)) zeta) l1 = lcs) by (unfold lcs, lcs_of; rewrite ED; reflexivity).
  rewrite EL. rewrite <- EM, <- map_app, <- (plonk_names x w0 w1 w2 w3 z t0 t1 t2 t3). fold ps.
  apply (PCC srs _ ck rk ps (crs ++ cm) lcs _ evs _ pf rng T); [apply Forall2_app; [exact C|exact CM]|apply plonk_nodup|apply prover_evs|exact OP].
Qed.
Lemma firstn_app_exact {A} (l m : list A) n : length l = n -> firstn n (l ++ m) = l.
Proof. intros <-. rewrite firstn_app, Nat.sub_diag, firstn_O, app_nil_r, firstn_all. reflexivity. Qed.
Lemma combine_app' {A B} (l l' : list A) (m m' : list B) : length l = length m -> combine (l ++ l') (m ++ m') = combine l m ++ combine l' m'.
Proof. revert m. induction l as [|a l IH]; intros [|b m] E; cbn in *; try lia; [reflexivity|]. f_equal. apply IH. lia. Qed.
Section C.
Variables (ops : list (op K)) (c : composer K) (order : list nat) (ks : list K) (srs : p_srs PC) (rng0 : p_rng PC) (pk : pkey K PC) (vk : vkey K PC).
Hypothesis RO : run_ops (c_new K) ops = Ok c.
Hypothesis O : Permutation order (seq 0 (length (c_vmap c))).
Hypothesis KG : keygen dnew srs c order ks rng0 = Ok (pk, vk).
Lemma wfc : pwf K c. Proof. eapply pwf_ops; [apply pwf_new|exact RO]. Qed.
Lemma setup : exists x ck rk crs d d4 p, good_index K dnew c ks d d4 p x /\ wire_perm c order (dsize d) = Ok p /\ p_trim PC srs (i_n (x_info x)) = Ok (ck, rk) /\ committed ck (index_polys x) crs /\
  vk = mkVk K PC (x_info x) (map fst crs) (map fst (index_polys x)) rk /\ pk = mkPk K PC vk (map snd crs) x ck /\ dnew (c_n c) = Some d /\ valid_dom d /\ valid_dom d4 /\ dsize d4 = (4 * dsize d)%nat /\ dgen d4 ^ 4 = dgen d /\ (c_n c <= dsize d)%nat.
Proof.
  destruct (keygen_inv _ _ _ _ _ _ _ KG) as (x & ck & rk & crs & X & _ & T & C & EV & EP). destruct (index_inv K dnew c order ks x wfc F O X) as (d & d4 & p & D & D4 & P & G).
  destruct (proj1 F _ _ D) as (V & L & D'). destruct (proj1 F _ _ D4) as (V4 & _). destruct (proj2 F _ _ _ D D4) as (S4 & G4). exists x, ck, rk, crs, d, d4, p. repeat (split; [assumption|]). assumption.
Qed.
Lemma third_list (x : index K) wp zp pip alpha beta gamma : exists t0 t1 t2 t3, third_round x wp zp pip alpha beta gamma = [t0; t1; t2; t3].
Proof. unfold third_round, quad_split. cbn [seq map]. eauto. Qed.
Lemma plonk_complete rng pf : pc_complete PC -> Forall (rel (asg c)) ops -> prove dnew ro pk c rng = Ok pf -> verify ro vk (c_pi c) pf = Ok true.
Proof.
  intros PCC R PR. destruct setup as (x & ck & rk & crs & d & d4 & p & G & P & T & C & EV & EP & D & V & V4 & S4 & G4 & L). pose proof wfc as W. pose proof (gi_info _ _ _ _ _ _ _ _ G) as GI.
  assert (ED : i_dn (x_info x) = d) by (rewrite GI; reflexivity). destruct (wf_q K c W) as (_ & _ & _ & _ & _ & _ & LPI). apply (new_rows K ops c (asg c) RO) in R.
  unfold prove in PR. rewrite EP, EV in PR. cbn [k_vk k_index k_ck k_rands v_info v_labels v_comms] in PR. cbv zeta in PR. rewrite ED in PR. unfold pad_to in PR. destruct (Nat.ltb_spec (dsize d) (length (c_pi c))); [lia|]. cbn [rbind] in PR.
  rewrite (synthesize_ok K dnew c d W D L) in PR. cbn [rbind] in PR. fold (wit K c d) in PR.
  destruct (commit_all ck (combine w_labels (map (interp d) (wit K c d))) rng) as [cr1| |] eqn:C1; try discriminate. cbn [rbind] in PR. apply commit_all_inv in C1.
  destruct (o_bg ro (c_pi c) (map fst cr1)) as [beta gamma] eqn:BG. destruct (compute_z x (wit K c d) beta gamma) as [z| |] eqn:Z; try discriminate. cbn [rbind] in PR.
  match type of PR with rbind ?m _ = _ => destruct m as [cr2| |] eqn:C2; try discriminate end. cbn [rbind] in PR. apply commit_all_inv in C2.
  set (alpha := o_alpha ro (c_pi c) (map fst cr1) (map fst cr2)) in *. set (pip := interp d (c_pi c ++ repeat 0 (dsize d - length (c_pi c)))) in *.
  destruct (third_list x (map (interp d) (wit K c d)) (interp d z) pip alpha beta gamma) as (t0 & t1 & t2 & t3 & ET). rewrite ET in PR.
  match type of PR with rbind ?m _ = _ => destruct m as [cr3| |] eqn:C3; try discriminate end. cbn [rbind] in PR. apply commit_all_inv in C3.
  set (zeta := o_zeta ro (c_pi c) (map fst cr1) (map fst cr2) (map fst cr3)) in *.
  set (w0 := interp d (wvals K c (dsize d) 0%nat)) in *. set (w1 := interp d (wvals K c (dsize d) 1%nat)) in *. set (w2 := interp d (wvals K c (dsize d) 2%nat)) in *. set (w3 := interp d (wvals K c (dsize d) 3%nat)) in *.
  change (map (interp d) (wit K c d)) with [w0; w1; w2; w3] in *. fold (all_polys K x w0 w1 w2 w3 (interp d z) t0 t1 t2 t3) in PR. rewrite prover_lcs, ED in PR.
  destruct (feq_dec K zeta 1) as [E1|ZN]; [rewrite E1, l1_at_one in PR; discriminate|]. rewrite (l1_at_ok K d zeta V ZN) in PR. cbn [rbind] in PR. 
  pose proof (prover_evs K x w0 w1 w2 w3 (interp d z) t0 t1 t2 t3 (x_info x) alpha beta gamma zeta (peval (first_lagrange_poly d) zeta)) as PE. unfold lcs_of in PE. rewrite ED in PE. rewrite PE in PR. cbn [rbind] in PR. clear PE.
  match type of PR with rbind ?m _ = _ => destruct m as [pp| |] eqn:OP; try discriminate end. cbn [rbind] in PR. inversion PR; subst pf. clear PR.
  pose proof (accept_run srs c ks d d4 p x ck rk crs vk (c_pi c) (cr1 ++ cr2 ++ cr3) (map fst cr1) (map fst cr2) (map fst cr3) [] w0 w1 w2 w3 (interp d z) t0 t1 t2 t3 pp rng) as A. rewrite BG in A. cbn [fst snd] in A.
  apply A; auto; try lia.
  - apply Forall2_app; [exact C1|]. apply Forall2_app; [exact C2|exact C3].
  - rewrite !map_app. reflexivity.
  - fold alpha zeta pip. unfold t_of. cbv zeta. replace (i_n (x_info x)) with (dsize d) by (rewrite GI; reflexivity).
    pose proof (third_ok K dnew c ks d d4 p x V V4 S4 G4 G [w0; w1; w2; w3] (interp d z) pip alpha beta gamma) as TO. rewrite ET in TO. cbn [nth] in TO. cbv zeta in TO. apply TO.
    + intros k Hk. destruct k as [|[|[|[|k]]]]; cbn [nth]; try lia; apply length_interp.
    + apply length_interp.
    + apply length_interp.
    + intros i Hi. change [w0; w1; w2; w3] with (map (interp d) (wit K c d)). unfold pip. eapply honest_iev; eauto. unfold pad. rewrite LPI. reflexivity.
  - fold alpha zeta. rewrite <- OP. f_equal.
    + unfold lcs_of. rewrite ED. reflexivity.
    + rewrite !map_app. rewrite plonk_names. change plonk_labels with (w_labels ++ ["z"%string] ++ t_labels). pose proof (committed_length _ _ _ C) as LC. pose proof (committed_length _ _ _ C1) as LC1. pose proof (committed_length _ _ _ C2) as LC2.
      rewrite combine_app' by (rewrite !map_length, LC; reflexivity). rewrite combine_app' by (rewrite map_length, LC1; reflexivity). rewrite combine_app' by (rewrite map_length, LC2; reflexivity). reflexivity.
    + rewrite !map_app. reflexivity.
Qed.
End C.
End P.
