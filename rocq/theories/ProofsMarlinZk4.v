(** Marlin: proofs made from different private assignments show the same, once the coins are carried over. *)
From Coq Require Import String Bool Lia List.
From Verif Require Import ModelMarlin SpecLC SpecCS SpecMarlin SpecPC ProofsPC ProofsPC2 ProofsMarlinCS ProofsMarlin ProofsMarlin2 ProofsMarlin3 ProofsMarlin4 ProofsMarlin5 ProofsMarlin8.
From Verif Require Import Field Poly Module ModTac ModelLC ModelCS SpecMarlinZk ProofsMarlinZk ProofsMarlinZk2 ProofsMarlinZk3.
From Coq Require Import List.
Import ListNotations.
Local Open Scope list_scope.
Local Open Scope fld_scope.
Section P.
Variable K : Fld.
Variable PR : Pairing K.
Add Field Kfzk4 : (f_laws K).
Notation G := (G1 PR).
Variables (tau a : K) (g gam : G) (h2 : G2 PR).
Hypothesis Ega : g = gsm a gam.
(** Commitments in closed form. *)
Definition drawn (hb : option nat) (d : list K) : list K := match hb with None => [] | Some b => ptrim K (firstn (S b) d) end.
Definition rnd (x : lpoly K * (list K * list K)) : randomness K :=
  mkRn K (drawn (lp_hb K (fst x)) (fst (snd x))) (match lp_db K (fst x) with None => None | Some _ => Some (drawn (lp_hb K (fst x)) (snd (snd x))) end).
Definition cmt (sd : nat) (x : lpoly K * (list K * list K)) : commitment K PR :=
  mkCm K PR (ped g gam (peval (lp_poly K (fst x)) tau) (peval (drawn (lp_hb K (fst x)) (fst (snd x))) tau))
    (match lp_db K (fst x) with None => None | Some b => Some (ped g gam (tau ^ (sd - b) * peval (lp_poly K (fst x)) tau) (peval (drawn (lp_hb K (fst x)) (snd (snd x))) tau)) end).
Lemma kzg_rand pw p hb d c r : kzg_commit K PR pw p hb d = Ok (c, r) -> r = drawn hb d.
Proof.
  unfold kzg_commit. destruct (degree K p) as [n| |]; try discriminate. cbn [rbind]. destruct (check_degree n _) as [u| |]; try discriminate. cbn [rbind]. destruct (msm_from _ _ _ _) as [w| |]; try discriminate. cbn [rbind].
  destruct hb as [b|]; [|intro E; injection E as <- <-; reflexivity]. destruct (check_hiding b _) as [u'| |]; try discriminate. cbn [rbind]. intro E. injection E as <- <-. reflexivity.
Qed.
Lemma commit_form ck sd l : good_pw K PR tau g gam (ck_pw K PR ck) 0 (S sd) (S sd) -> ck_sd K PR ck = sd ->
  Forall (fun x => match lp_hb K (fst x) with Some b => (b <= sd)%nat | None => True end) l -> forall cs rs, pc_commit K PR ck l = Ok (cs, rs) -> rs = map rnd l /\ map (lc_cm K PR) cs = map (cmt sd) l.
Proof.
  intros Hp Hs F. induction F as [|(q, (d1, d2)) l Hq F IH]; intros cs rs E; cbn [pc_commit] in E; [injection E as <- <-; split; reflexivity|].
  destruct (commit_one K PR ck q d1 d2) as [(c, r)| |] eqn:E1; try discriminate. cbn [rbind] in E. destruct (pc_commit K PR ck l) as [(cs', rs')| |]; try discriminate. cbn [rbind] in E. injection E as <- <-.
  destruct (IH cs' rs' eq_refl) as (-> & IH2). cbn [map fst snd] in *. rewrite IH2. clear IH IH2 F. unfold commit_one in E1.
  destruct (kzg_commit K PR (ck_pw K PR ck) (lp_poly K q) (lp_hb K q) d1) as [(c0, r1)| |] eqn:Ec; try discriminate. cbn [rbind] in E1.
  assert (Hb : (match lp_hb K q with Some b => b < S sd | None => True end)%nat) by (destruct (lp_hb K q); [lia|exact I]).
  destruct (commit_ok K PR tau g gam _ 0 (S sd) (S sd) _ _ _ _ _ Hp Hb Ec) as (-> & _). apply kzg_rand in Ec. subst r1. unfold rnd, cmt. cbn [fst snd].
  assert (X : forall u w, ped g gam (tau ^ 0 * u) w = ped g gam u w) by (intros u w0; f_equal; cbn [fpow]; ring).
  destruct (lp_db K q) as [b|] eqn:Eb.
  - unfold shifted_powers in E1. rewrite Hs in E1. destruct (Nat.ltb_spec sd b) as [|Lb]; [discriminate|].
    match type of E1 with context [kzg_commit K PR ?sp _ _ _] => set (spw := sp) in E1 end.
    assert (Hss : good_pw K PR tau g gam spw (sd - b) (S b) (S sd)).
    { destruct Hp as [P1 P2]. split; [|exact P2]. unfold spw. cbn [pg]. rewrite P1, skipn_map_seq. do 2 f_equal. lia. }
    destruct (kzg_commit K PR spw (lp_poly K q) (lp_hb K q) d2) as [(sc, sr)| |] eqn:Es; try discriminate. cbn [rbind] in E1. injection E1 as <- <-.
    destruct (commit_ok K PR tau g gam _ _ _ _ _ _ _ _ _ Hss Hb Es) as (-> & _). apply kzg_rand in Es. subst sr. cbn [lc_cm]. rewrite X. split; reflexivity.
  - injection E1 as <- <-. cbn [lc_cm]. rewrite X. split; reflexivity.
Qed.
Lemma ped_eq u r u' r' : a * u + r = a * u' + r' -> ped g gam u r = ped g gam u' r'.
Proof. intro E. unfold ped. rewrite Ega. transitivity (gsm (a * u + r) gam); [gmod; ring|]. rewrite E. gmod; ring. Qed.
(** Drawing from a bumped stream. *)
Lemma drawn_bump be k d y : length d = 2%nat -> peval (drawn (Some 1%nat) (bump K be k d)) y = peval (drawn (Some 1%nat) d) y + k * (y - be).
Proof. intro L. unfold drawn. rewrite !peval_ptrim. destruct d as [|d0 [|d1 [|]]]; try discriminate. cbn [bump firstn peval]. ring. Qed.
Lemma drawn_len d : (length (drawn (Some 1%nat) d) <= 2)%nat.
Proof. unfold drawn. pose proof (length_ptrim K (firstn 2 d)) as L. rewrite firstn_length in L. lia. Qed.
Definition still (x : lpoly K * randomness K) : Prop := rn K (snd x) = [] /\ match rn_shift K (snd x) with None => True | Some s => s = [] end.
Lemma alike_still sd qs x : still x -> alike K tau a sd qs x x.
Proof.
  intros (E & Es). split; [reflexivity|]. intros z _. split; [|right; reflexivity]. unfold twin, tw. rewrite E. cbn [length]. repeat split; try lia. destruct (lp_db K (fst x)); [|exact I]. destruct (rn_shift K (snd x)); [|exact I]. rewrite Es. cbn [length]. repeat split; lia.
Qed.
Section Run.
Variable dnew : nat -> option (dom K).
Variable ro : fs K PR.
Lemma third_same ps ps' v be : ps_ix K ps = ps_ix K ps' -> ps_dh K ps = ps_dh K ps' -> ps_dk K ps = ps_dk K ps' -> third_round K dnew ps v be = third_round K dnew ps' v be.
Proof. intros E1 E2 E3. unfold third_round. rewrite E1, E2, E3. reflexivity. Qed.
(** The pieces of a run. *)
Record ran (ipk : ipkey K PR) (circ : M K unit) (co : coins K) (dh dk : dom K) (pf : proof K PR) (ps : pstate K) (o1 : oracles1 K) (o2 : oracles2 K) (o3 : oracles3 K) (c1 c2 c3 : list (lcomm K PR)) (r1 r2 r3 : list (randomness K)) (v : vmsg K) (be ga : K) : Prop := {
  rn_1 : first_round K ps (c_w K co) (c_za K co) (c_zb K co) (c_mask K co) = Ok o1;
  rn_c1 : pc_commit K PR (ip_ck K PR ipk) (combine (polys1 K o1) (firstn 4 (c_draw K co))) = Ok (c1, r1);
  rn_v : v = fs_msg K PR ro dh (FComms K PR (map (lc_cm K PR) c1) :: [FSeed K PR (ip_ivk K PR ipk) (tl (ps_x K ps))]);
  rn_2 : second_round K dnew ps o1 v = Ok o2;
  rn_c2 : pc_commit K PR (ip_ck K PR ipk) (combine (polys2 K (dsize (ps_dh K ps)) o2) (firstn 3 (skipn 4 (c_draw K co)))) = Ok (c2, r2);
  rn_b : be = fs_beta K PR ro dh (FComms K PR (map (lc_cm K PR) c2) :: FComms K PR (map (lc_cm K PR) c1) :: [FSeed K PR (ip_ivk K PR ipk) (tl (ps_x K ps))]);
  rn_3 : third_round K dnew ps v be = Ok o3;
  rn_c3 : pc_commit K PR (ip_ck K PR ipk) (combine (polys3 K (dsize (ps_dk K ps)) o3) (firstn 2 (skipn 7 (c_draw K co)))) = Ok (c3, r3);
  rn_g : ga = fs_gamma K PR ro (FComms K PR (map (lc_cm K PR) c3) :: FComms K PR (map (lc_cm K PR) c2) :: FComms K PR (map (lc_cm K PR) c1) :: [FSeed K PR (ip_ivk K PR ipk) (tl (ps_x K ps))]);
  rn_e : mapR (eval_query K (all_polys K (ip_ix K PR ipk) (ps_dh K ps) (ps_dk K ps) o1 o2 o3)) (query_set K be ga) = Ok (pf_evals K PR pf);
  rn_o : batch_open K PR (ip_ck K PR ipk) (all_polys K (ip_ix K PR ipk) (ps_dh K ps) (ps_dk K ps) o1 o2 o3) (query_set K be ga)
    (fs_xi K PR ro (FEvals K PR (pf_evals K PR pf) :: FComms K PR (map (lc_cm K PR) c3) :: FComms K PR (map (lc_cm K PR) c2) :: FComms K PR (map (lc_cm K PR) c1) :: [FSeed K PR (ip_ivk K PR ipk) (tl (ps_x K ps))]))
    (ip_rands K PR ipk ++ r1 ++ r2 ++ r3) = Ok (pf_open K PR pf);
  rn_c : pf_comms K PR pf = [map (lc_cm K PR) c1; map (lc_cm K PR) c2; map (lc_cm K PR) c3] }.
Lemma unpack ipk circ co pf dh dk : verifier_doms K dnew (iv_info K PR (ip_ivk K PR ipk)) = Ok (dh, dk) -> create_proof K PR dnew ro ipk circ co = Ok pf ->
  exists ps o1 o2 o3 c1 c2 c3 r1 r2 r3 v be ga, prover_init K dnew (ip_ix K PR ipk) circ = Ok ps /\ ran ipk circ co dh dk pf ps o1 o2 o3 c1 c2 c3 r1 r2 r3 v be ga.
Proof.
  intros EV EP. unfold create_proof in EP. destruct (prover_init K dnew (ip_ix K PR ipk) circ) as [ps| |] eqn:Eps; try discriminate. cbn [rbind] in EP.
  destruct (first_round K ps (c_w K co) (c_za K co) (c_zb K co) (c_mask K co)) as [o1| |] eqn:EO1; try discriminate. cbn [rbind] in EP.
  destruct (pc_commit K PR (ip_ck K PR ipk) (combine (polys1 K o1) (firstn 4 (c_draw K co)))) as [(c1, r1)| |] eqn:E1; try discriminate. cbn [rbind] in EP. rewrite EV in EP. cbn [rbind] in EP.
  match type of EP with context [second_round K dnew ps o1 ?vv] => set (v := vv) in * end. destruct (second_round K dnew ps o1 v) as [o2| |] eqn:EO2; try discriminate. cbn [rbind] in EP.
  destruct (pc_commit K PR (ip_ck K PR ipk) (combine (polys2 K (dsize (ps_dh K ps)) o2) (firstn 3 (skipn 4 (c_draw K co))))) as [(c2, r2)| |] eqn:E2; try discriminate. cbn [rbind] in EP.
  match type of EP with context [third_round K dnew ps v ?bb] => set (be := bb) in * end.
  destruct (third_round K dnew ps v be) as [o3| |] eqn:EO3; try discriminate. cbn [rbind] in EP.
  destruct (pc_commit K PR (ip_ck K PR ipk) (combine (polys3 K (dsize (ps_dk K ps)) o3) (firstn 2 (skipn 7 (c_draw K co))))) as [(c3, r3)| |] eqn:E3; try discriminate. cbn [rbind] in EP.
  fold (all_polys K (ip_ix K PR ipk) (ps_dh K ps) (ps_dk K ps) o1 o2 o3) in EP.
  match type of EP with context [query_set K be ?gg] => set (ga := gg) in * end.
  destruct (mapR (eval_query K (all_polys K (ip_ix K PR ipk) (ps_dh K ps) (ps_dk K ps) o1 o2 o3)) (query_set K be ga)) as [vals| |] eqn:Ev; try discriminate. cbn [rbind] in EP.
  destruct (batch_open _ _ _ _ _ _ _) as [op| |] eqn:Eop in EP; try discriminate. cbn [rbind] in EP. injection EP as <-.
  exists ps, o1, o2, o3, c1, c2, c3, r1, r2, r3, v, be, ga. split; [reflexivity|]. constructor; auto.
Qed.
Lemma eval_list ix dh dk o1 o2 o3 be ga : mapR (eval_query K (all_polys K ix dh dk o1 o2 o3)) (query_set K be ga) = Ok
  [peval (st_col K (st_a K ix)) ga; peval (st_row K (st_a K ix)) ga; peval (st_rc K (st_a K ix)) ga; peval (st_val K (st_a K ix)) ga;
   peval (st_col K (st_b K ix)) ga; peval (st_row K (st_b K ix)) ga; peval (st_rc K (st_b K ix)) ga; peval (st_val K (st_b K ix)) ga;
   peval (st_col K (st_c K ix)) ga; peval (st_row K (st_c K ix)) ga; peval (st_rc K (st_c K ix)) ga; peval (st_val K (st_c K ix)) ga;
   peval (o_g1 K o2) be; peval (o_g2 K o3) ga; peval (o_h1 K o2) be; peval (o_h2 K o3) ga; peval (o_mask K o1) be; peval (o_t K o2) be; peval (o_w K o1) be; peval (o_za K o1) be; peval (o_zb K o1) be].
Proof. reflexivity. Qed.
Lemma query_beta be ga l z : In l ["g_1"; "h_1"; "mask"; "t"; "w"; "z_a"; "z_b"]%string -> In (l, z) (query_set K be ga) -> z = be.
Proof.
  intros Hl H. cbn [query_set In] in H. repeat (destruct Hl as [<-|Hl]; [repeat (destruct H as [H|H]; [first [discriminate H | congruence]|]); destruct H|]). destruct Hl.
Qed.
Lemma cmt_plain sd lab q q' db d d' : peval q tau = peval q' tau -> cmt sd (mkLP K lab q db None, d) = cmt sd (mkLP K lab q' db None, d').
Proof. intro E. unfold cmt, drawn. cbn [fst snd lp_poly lp_db lp_hb]. rewrite E. destruct db; reflexivity. Qed.
Lemma cmt_hide sd lab q q' be k d t t' : length d = 2%nat -> k * (tau - be) = a * (peval q tau - peval q' tau) ->
  cmt sd (mkLP K lab q None (Some 1%nat), (d, t)) = cmt sd (mkLP K lab q' None (Some 1%nat), (bump K be k d, t')).
Proof. intros L E. unfold cmt. cbn [fst snd lp_poly lp_db lp_hb]. f_equal. apply ped_eq. rewrite drawn_bump, E by exact L. ring. Qed.
Lemma cmt_bound sd lab q q' be k ks b d t : length d = 2%nat -> length t = 2%nat -> k * (tau - be) = a * (peval q tau - peval q' tau) -> ks * (tau - be) = a * (tau ^ (sd - b) * (peval q tau - peval q' tau)) ->
  cmt sd (mkLP K lab q (Some b) (Some 1%nat), (d, t)) = cmt sd (mkLP K lab q' (Some b) (Some 1%nat), (bump K be k d, bump K be ks t)).
Proof. intros L Lt E Es. unfold cmt. cbn [fst snd lp_poly lp_db lp_hb]. f_equal; [|f_equal]; apply ped_eq; rewrite drawn_bump by assumption; [rewrite E|rewrite Es]; ring. Qed.
Definition at_beta : list string := ["g_1"; "h_1"; "mask"; "t"; "w"; "z_a"; "z_b"]%string.
Lemma alike_plain sd be ga lab q q' d d' : In lab at_beta -> be <> tau -> peval q be = peval q' be -> peval q tau = peval q' tau ->
  alike K tau a sd (query_set K be ga) (mkLP K lab q None None, rnd (mkLP K lab q None None, d)) (mkLP K lab q' None None, rnd (mkLP K lab q' None None, d')).
Proof.
  intros Hl N Eb Et. split; [reflexivity|]. intros z Hz. cbn [fst lp_label] in Hz. apply (query_beta be ga lab z Hl) in Hz. subst z. split; [|left; exact N].
  unfold twin, tw, rnd, drawn. cbn [fst snd lp_poly lp_db lp_hb lp_label rn length peval]. rewrite Eb, Et. repeat split; lia.
Qed.
Lemma alike_hide sd be ga lab q q' k d t t' : In lab at_beta -> be <> tau -> (1 <= sd)%nat -> length d = 2%nat -> peval q be = peval q' be -> k * (tau - be) = a * (peval q tau - peval q' tau) ->
  alike K tau a sd (query_set K be ga) (mkLP K lab q None (Some 1%nat), rnd (mkLP K lab q None (Some 1%nat), (d, t))) (mkLP K lab q' None (Some 1%nat), rnd (mkLP K lab q' None (Some 1%nat), (bump K be k d, t'))).
Proof.
  intros Hl N Hsd L Eb Et. split; [reflexivity|]. intros z Hz. cbn [fst lp_label] in Hz. apply (query_beta be ga lab z Hl) in Hz. subst z. split; [|left; exact N].
  unfold twin, tw, rnd. cbn [fst snd lp_poly lp_db lp_hb lp_label rn]. rewrite !drawn_bump, Eb, Et by exact L. pose proof (drawn_len d). pose proof (drawn_len (bump K be k d)). repeat split; try lia; ring.
Qed.
Lemma alike_bound sd be ga lab q q' k ks b d t : In lab at_beta -> be <> tau -> (1 <= sd)%nat -> length d = 2%nat -> length t = 2%nat -> peval q be = peval q' be -> k * (tau - be) = a * (peval q tau - peval q' tau) -> ks * (tau - be) = a * (tau ^ (sd - b) * (peval q tau - peval q' tau)) ->
  alike K tau a sd (query_set K be ga) (mkLP K lab q (Some b) (Some 1%nat), rnd (mkLP K lab q (Some b) (Some 1%nat), (d, t))) (mkLP K lab q' (Some b) (Some 1%nat), rnd (mkLP K lab q' (Some b) (Some 1%nat), (bump K be k d, bump K be ks t))).
Proof.
  intros Hl N Hsd L Lt Eb Et Es. split; [reflexivity|]. intros z Hz. cbn [fst lp_label] in Hz. apply (query_beta be ga lab z Hl) in Hz. subst z. split; [|left; exact N].
  unfold twin, tw, rnd. cbn [fst snd lp_poly lp_db lp_hb lp_label rn rn_shift]. rewrite !drawn_bump, Eb, Et, Es by assumption. pose proof (drawn_len d). pose proof (drawn_len (bump K be k d)). pose proof (drawn_len t). pose proof (drawn_len (bump K be ks t)). repeat split; try lia; ring.
Qed.
Lemma cons_eq {A} (x y : A) l m : x = y -> l = m -> x :: l = y :: m. Proof. intros -> ->. reflexivity. Qed.
Section Same.
Hypothesis Hdom : forall n d, dnew n = Some d -> valid_dom d /\ (n <= dsize d)%nat.
Variables dx dh dk : dom K.
Variable p : nat.
Hypothesis Vx : valid_dom dx.
Hypothesis Vh : valid_dom dh.
Hypothesis Hs : dsize dh = (dsize dx * p)%nat.
Hypothesis Hg : dgen dx = dgen dh ^ p.
Hypothesis H3 : (3 <= dsize dh)%nat.
Hypothesis Ht0 : tau <> 0.
Variable ipk : ipkey K PR.
Variable xs : list K.
Hypothesis Enx : dnew (length xs) = Some dx.
Variable sd : nat.
Hypothesis Hsd : (1 <= sd)%nat.
Hypothesis Hpw : good_pw K PR tau g gam (ck_pw K PR (ip_ck K PR ipk)) 0 (S sd) (S sd).
Hypothesis Hck : ck_sd K PR (ip_ck K PR ipk) = sd.
Hypothesis Hr0 : ip_rands K PR ipk = map rnd (no_draw K (index_polys K (ip_ix K PR ipk))).
Notation ix := (ip_ix K PR ipk).
(** The challenges a proof fixes. *)
Definition v_of (pf : proof K PR) : vmsg K := fs_msg K PR ro dh (FComms K PR (nth 0 (pf_comms K PR pf) []) :: [FSeed K PR (ip_ivk K PR ipk) (tl xs)]).
Definition b_of (pf : proof K PR) : K := fs_beta K PR ro dh (FComms K PR (nth 1 (pf_comms K PR pf) []) :: FComms K PR (nth 0 (pf_comms K PR pf) []) :: [FSeed K PR (ip_ivk K PR ipk) (tl xs)]).
Definition carry (pf : proof K PR) (ps1 ps2 : pstate K) : coins K -> coins K :=
  transfer K dx dh tau a (b_of pf) (sd - (dsize dh - 2)) (rp_ K dh (v_of pf)) (tp_ K dx dh ix (v_of pf)) (xp_ K dx xs) (v_a K (v_of pf)) (v_b K (v_of pf)) (v_c K (v_of pf)) (side_of K dx dh xs ps1) (side_of K dx dh xs ps2).
Theorem same_run ps1 ps2 circ1 circ2 co pf pf' o1 o2 o3 c1 c2 c3 r1 r2 r3 v be ga o1' o2' o3' c1' c2' c3' r1' r2' r3' v' be' ga' :
  fits K dx dh ix xs ps1 -> fits K dx dh ix xs ps2 -> ps_dk K ps1 = dk -> ps_dk K ps2 = dk ->
  v_alpha K (v_of pf) ^ dsize dh <> 1 -> b_of pf ^ dsize dh <> 1 -> b_of pf <> tau ->
  shaped (dsize dh) co -> blinded co -> blinded (carry pf ps1 ps2 co) ->
  ran ipk circ1 co dh dk pf ps1 o1 o2 o3 c1 c2 c3 r1 r2 r3 v be ga ->
  ran ipk circ2 (carry pf ps1 ps2 co) dh dk pf' ps2 o1' o2' o3' c1' c2' c3' r1' r2' r3' v' be' ga' -> same_view pf pf'.
Proof.
  intros F1 F2 Ek1 Ek2 Hal Hbe Hbt Sh (Nw & Na & Nb) (Nw' & Na' & Nb') R R'.
  pose proof (transfer_shaped K dx dh tau a (b_of pf) (sd - (dsize dh - 2)) (rp_ K dh (v_of pf)) (tp_ K dx dh ix (v_of pf)) (xp_ K dx xs) (v_a K (v_of pf)) (v_b K (v_of pf)) (v_c K (v_of pf)) (side_of K dx dh xs ps1) (side_of K dx dh xs ps2) co Sh) as Sh'. fold (carry pf ps1 ps2 co) in Sh'.
  pose proof R as [Q1 Qc1 Qv Q2 Qc2 Qb Q3 Qc3 Qg Qe Qo Qc]. pose proof R' as [Q1' Qc1' Qv' Q2' Qc2' Qb' Q3' Qc3' Qg' Qe' Qo' Qc'].
  assert (Ev : v = v_of pf) by (rewrite Qv; unfold v_of; rewrite Qc, (ft_i _ _ _ _ _ _ F1); reflexivity).
  assert (Eb : be = b_of pf) by (rewrite Qb; unfold b_of; rewrite Qc, (ft_i _ _ _ _ _ _ F1); reflexivity).
  pose proof (make_facts1 K dnew Hdom dx dh p Vx Vh Hs Hg ix xs Enx (v_of pf) Hal ps1 _ _ _ _ o1 F1 Nw (proj1 Sh) Q1) as T1.
  pose proof (make_facts1 K dnew Hdom dx dh p Vx Vh Hs Hg ix xs Enx (v_of pf) Hal ps2 _ _ _ _ o1' F2 Nw' (proj1 Sh') Q1') as T1'.
  destruct (compare1 K dx dh p Vx Vh Hs ix xs (v_of pf) tau a (b_of pf) Hbe Hbt Ht0 (sd - (dsize dh - 2)) H3 ps1 ps2 co o1 o1' Sh T1 T1') as (Xw & Xa & Xb & Xm & Xt & _).
  set (B := b_of pf) in *. assert (TB : tau - B <> 0) by (intro Z; apply Hbt; symmetry; apply (proj1 (fsub_0 K _ _)); exact Z).
  pose proof Sh as Sh0. destruct Sh as (Lm & Ld & Fd).
  assert (exists d0 t0 d1 t1 d2 t2 d3 d4 d5 t5 d6 d7 d8, c_draw K co = [(d0, t0); (d1, t1); (d2, t2); d3; d4; (d5, t5); d6; d7; d8]) as (d0 & t0 & d1 & t1 & d2 & t2 & d3 & d4 & d5 & t5 & d6 & d7 & d8 & Ed).
  { clear - Ld. destruct (c_draw K co) as [|(d0, t0) [|(d1, t1) [|(d2, t2) [|d3 [|d4 [|(d5, t5) [|d6 [|d7 [|d8 [|]]]]]]]]]]; try discriminate Ld. do 13 eexists. reflexivity. }
  rewrite Ed in Fd. assert (Ls : length d0 = 2%nat /\ length d1 = 2%nat /\ length d2 = 2%nat /\ length d5 = 2%nat /\ length t5 = 2%nat).
  { repeat match goal with H : Forall _ (_ :: _) |- _ => inversion H; clear H; subst end. cbn [fst snd] in *. tauto. }
  destruct Ls as (L0 & L1 & L2 & L5 & L5').
  set (kw := kap K tau a B (o_w K o1) (o_w K o1')). set (ka := kap K tau a B (o_za K o1) (o_za K o1')). set (kb := kap K tau a B (o_zb K o1) (o_zb K o1')).
  set (c := cof K dx dh ix xs (v_of pf) tau B (side_of K dx dh xs ps1) (side_of K dx dh xs ps2) co). 
  assert (Ed' : c_draw K (carry pf ps1 ps2 co) = [(bump K B kw d0, t0); (bump K B ka d1, t1); (bump K B kb d2, t2); d3; d4; (bump K B (- (a * c)) d5, bump K B (- (a * c * tau ^ (sd - (dsize dh - 2)))) t5); d6; d7; d8]).
  { unfold kw, ka, kb. rewrite (fc_w _ _ _ _ _ _ _ _ _ _ _ _ T1), (fc_w _ _ _ _ _ _ _ _ _ _ _ _ T1'), (fc_a _ _ _ _ _ _ _ _ _ _ _ _ T1), (fc_a _ _ _ _ _ _ _ _ _ _ _ _ T1'), (fc_b _ _ _ _ _ _ _ _ _ _ _ _ T1), (fc_b _ _ _ _ _ _ _ _ _ _ _ _ T1').
    unfold carry, transfer. cbn [c_draw c_w c_za c_zb]. rewrite Ed. reflexivity. }
  assert (KW : kw * (tau - B) = a * (peval (o_w K o1) tau - peval (o_w K o1') tau)) by (unfold kw, kap; field; exact TB).
  assert (KA : ka * (tau - B) = a * (peval (o_za K o1) tau - peval (o_za K o1') tau)) by (unfold ka, kap; field; exact TB).
  assert (KB : kb * (tau - B) = a * (peval (o_zb K o1) tau - peval (o_zb K o1') tau)) by (unfold kb, kap; field; exact TB).
  rewrite Ed in Qc1, Qc2, Qc3. rewrite Ed' in Qc1', Qc2', Qc3'. cbn [polys1 polys2 polys3 firstn skipn combine] in Qc1, Qc2, Qc3, Qc1', Qc2', Qc3'.
  apply (commit_form _ sd _ Hpw Hck) in Qc1; [|repeat constructor; exact Hsd]. apply (commit_form _ sd _ Hpw Hck) in Qc1'; [|repeat constructor; exact Hsd].
  apply (commit_form _ sd _ Hpw Hck) in Qc2; [|repeat constructor; exact Hsd]. apply (commit_form _ sd _ Hpw Hck) in Qc2'; [|repeat constructor; exact Hsd].
  apply (commit_form _ sd _ Hpw Hck) in Qc3; [|repeat constructor; exact Hsd]. apply (commit_form _ sd _ Hpw Hck) in Qc3'; [|repeat constructor; exact Hsd].
  destruct Qc1 as (-> & C1), Qc1' as (-> & C1'), Qc2 as (-> & C2), Qc2' as (-> & C2'), Qc3 as (-> & C3), Qc3' as (-> & C3').
  assert (M1 : map (lc_cm K PR) c1' = map (lc_cm K PR) c1).
  { rewrite C1, C1'. cbn [map]. symmetry. repeat apply cons_eq; [| | | |reflexivity]; first [apply cmt_hide; assumption|apply cmt_plain; assumption]. }
  assert (Ev' : v' = v_of pf) by (rewrite Qv', M1; unfold v_of; rewrite Qc, (ft_i _ _ _ _ _ _ F2); reflexivity).
  rewrite Ev in Q2, Q3. rewrite Ev' in Q2', Q3'.
  pose proof (make_facts2 K dnew Hdom dx dh p Vx Vh Hs Hg ix xs Enx (v_of pf) Hal ps1 _ _ _ _ o1 o2 F1 Nw Na Nb Lm Q1 Q2) as T2.
  pose proof (make_facts2 K dnew Hdom dx dh p Vx Vh Hs Hg ix xs Enx (v_of pf) Hal ps2 _ _ _ _ o1' o2' F2 Nw' Na' Nb' (proj1 Sh') Q1' Q2') as T2'.
  destruct (compare2 K dx dh p Vx Vh Hs ix xs (v_of pf) tau a B Hbe Hbt Ht0 (sd - (dsize dh - 2)) H3 ps1 ps2 co o1 o2 o1' o2' Sh0 T1 T1' T2 T2') as (Yt & Yh & Yg). fold c in Yg.
  assert (Gb : peval (o_g1 K o2) B = peval (o_g1 K o2') B) by (rewrite Yg; ring).
  assert (KG : - (a * c) * (tau - B) = a * (peval (o_g1 K o2) tau - peval (o_g1 K o2') tau)) by (rewrite Yg; ring).
  assert (KS : - (a * c * tau ^ (sd - (dsize dh - 2))) * (tau - B) = a * (tau ^ (sd - (dsize dh - 2)) * (peval (o_g1 K o2) tau - peval (o_g1 K o2') tau))) by (rewrite Yg; ring).
  rewrite (ft_h _ _ _ _ _ _ F1) in C2, Qe, Qo. rewrite (ft_h _ _ _ _ _ _ F2) in C2', Qe', Qo'. rewrite Ek1 in C3, Qe, Qo. rewrite Ek2 in C3', Qe', Qo'.
  assert (M2 : map (lc_cm K PR) c2' = map (lc_cm K PR) c2).
  { rewrite C2, C2'. cbn [map]. symmetry. repeat apply cons_eq; [| | |reflexivity]; first [apply cmt_bound; assumption|apply cmt_plain; rewrite ?Yt; auto]. }
  assert (Eb' : be' = B) by (rewrite Qb', M1, M2; unfold B, b_of; rewrite Qc, (ft_i _ _ _ _ _ _ F2); reflexivity).
  fold B in Eb. rewrite Eb in *. rewrite Eb' in *.
  assert (O3 : o3' = o3). { rewrite (third_same ps2 ps1) in Q3'; [congruence|rewrite (ft_ix _ _ _ _ _ _ F1), (ft_ix _ _ _ _ _ _ F2); reflexivity|rewrite (ft_h _ _ _ _ _ _ F1), (ft_h _ _ _ _ _ _ F2); reflexivity|congruence]. }
  subst o3'. assert (M3 : map (lc_cm K PR) c3' = map (lc_cm K PR) c3) by (rewrite C3, C3'; reflexivity).
  assert (Exs : ps_x K ps2 = ps_x K ps1) by (rewrite (ft_i _ _ _ _ _ _ F1), (ft_i _ _ _ _ _ _ F2); reflexivity).
  assert (Eg : ga' = ga) by (rewrite Qg', Qg, M1, M2, M3, Exs; reflexivity). rewrite Eg in Qe', Qo'.
  assert (EE : pf_evals K PR pf' = pf_evals K PR pf).
  { rewrite eval_list in Qe, Qe'. rewrite Yh, Gb, Xm, Yt, Xw, Xa, Xb in Qe. congruence. }
  unfold same_view. rewrite Qc, Qc', EE, M1, M2, M3. split; [reflexivity|]. split; [reflexivity|].
  rewrite M1, M2, M3, Exs, EE in Qo'.
  assert (FO : Forall2 (same_open K PR) (pf_open K PR pf) (pf_open K PR pf')).
  { apply (batch_same K PR tau a g gam Ega (ip_ck K PR ipk) sd (query_set K B ga) _ _ _ _ _ _ _ (group_in K _) Hpw Hck) with (2 := Qo) (3 := Qo').
    rewrite Hr0. cbn [all_polys index_polys star_polys polys1 polys2 polys3 no_draw app map combine].
    repeat apply Forall2_cons; try apply Forall2_nil;
    first [apply alike_hide; [cbn; tauto|assumption|assumption|assumption|assumption|assumption]
          |apply alike_bound; [cbn; tauto|assumption|assumption|assumption|assumption|assumption|assumption|assumption]
          |apply alike_plain; [cbn; tauto|assumption|rewrite ?Yt; auto|rewrite ?Yt; auto]
          |apply alike_still; split; reflexivity]. }
  clear - FO. induction FO as [|k k' l l' (E1 & E2) _ IH]; [reflexivity|]. cbn [map]. rewrite IH. unfold shown. unfold rv in E2. rewrite E1, E2. reflexivity.
Qed.
End Same.
Section Top.
Hypothesis R2 : radix2 dnew.
Hypothesis Hro_a : forall m d tr, dnew m = Some d -> v_alpha K (fs_msg K PR ro d tr) ^ dsize d <> 1.
Hypothesis Hro_b : forall m d tr, dnew m = Some d -> fs_beta K PR ro d tr ^ dsize d <> 1.
Lemma ps_fits (s1 s2 : cs K) ix dx dh dk db p ps : ix_ok K dnew s1 ix dx dh dk db p -> same_shape s1 s2 -> ps_ok K s2 ix ps dx dh dk -> sat (wit s2) s2 -> dsize dx = length (inps s2) -> fits K dx dh ix (inps s2) ps.
Proof.
  intros X (Sc & Si & Sa) Y St Full. destruct R2 as (R & _). destruct (R _ _ (xo_dh _ _ _ _ _ _ _ _ _ X)) as (Vh & Lh & _).
  destruct Y as [Yix Yx Yw Ydx Ydh Ydk Yla Ylb Yza Yzb]. 
  assert (forall (g : nat -> K) rr, (forall j, g j = columns (length (inps s2)) (wit s2) j) -> row_val g rr = row_val (columns (length (inps s2)) (wit s2)) rr) as RV by (intros g0 rr Hgj; unfold row_val; f_equal; apply map_ext; intro e; rewrite Hgj; reflexivity).
  assert (forall j, zcol K dx ps j = columns (length (inps s2)) (wit s2) j) as ZC by (intro j; unfold zcol, columns, wit; rewrite Full, Yx, Yw; destruct (Nat.ltb j (length (inps s2))); reflexivity).
  assert (msat (zcol K dx ps) (ix_a K ix) (ix_b K ix) (ix_c K ix)) as Sat.
  { destruct St as (_ & F). rewrite <- Sc in F. apply (xo_sat _ _ _ _ _ _ _ _ _ X) in F. rewrite Si in F. destruct F as (F1 & F2 & F3). split; [exact F1|]. split; [exact F2|]. intros i Hi. rewrite !(RV (zcol K dx ps) _ ZC). apply F3, Hi. }
  constructor; auto; try (apply (cols_weak K _ _ _ Lh), X).
  - rewrite (xo_lc _ _ _ _ _ _ _ _ _ X). exact Lh.
  - intros i Hi. rewrite (RV _ _ ZC). apply Yza, Hi.
  - intros i Hi. rewrite (RV _ _ ZC). apply Yzb, Hi.
Qed.
Variable n : nat.
Theorem marlin_hides checks circ circ1 circ2 u0 u1 u2 s0 s1 s2 dx ipk ivk dh dk :
  circ (cs_new Setup) = Ok (u0, s0) -> circ1 (cs_new Prove) = Ok (u1, s1) -> circ2 (cs_new Prove) = Ok (u2, s2) ->
  same_shape s0 s1 -> same_shape s0 s2 -> wf s0 -> wf s1 -> wf s2 -> self_sat s1 -> self_sat s2 -> (Z.of_nat (terms (ModelCS.cons s0)) < 2 ^ 64)%Z ->
  inps s1 = inps s2 -> dnew (length (inps s1)) = Some dx -> dsize dx = length (inps s1) ->
  marlin_index K PR dnew checks (kzg_setup K PR n tau g gam h2) circ = Ok (ipk, ivk) ->
  verifier_doms K dnew (iv_info K PR ivk) = Ok (dh, dk) -> (3 <= dsize dh)%nat -> tau <> 0 ->
  forall pf, beta_of dnew ro ivk (tl (inps s1)) pf <> tau -> exists f f' : coins K -> coins K,
    (forall c, shaped (dsize dh) c -> shaped (dsize dh) (f c) /\ f' (f c) = c) /\ (forall c, shaped (dsize dh) c -> shaped (dsize dh) (f' c) /\ f (f' c) = c) /\
    (forall c pf', shaped (dsize dh) c -> blinded c -> blinded (f c) -> create_proof K PR dnew ro ipk circ1 c = Ok pf -> create_proof K PR dnew ro ipk circ2 (f c) = Ok pf' -> same_view pf pf') /\
    (forall c pf', shaped (dsize dh) c -> blinded c -> blinded (f' c) -> create_proof K PR dnew ro ipk circ2 c = Ok pf -> create_proof K PR dnew ro ipk circ1 (f' c) = Ok pf' -> same_view pf pf').
Proof.
  intros Ec0 Ec1 Ec2 Sh1 Sh2 W0 W1 W2 SS1 SS2 Bd Ein Edx Full EI EV H3 Ht0 pf Hbt.
  unfold marlin_index in EI. destruct (ahp_index K dnew checks circ) as [ix| |] eqn:Eix; try discriminate. cbn [rbind] in EI.
  destruct (max_degree K dnew (ix_info K ix)) as [md| |] eqn:Emd; try discriminate. cbn [rbind] in EI. destruct (Nat.ltb _ md) in EI; [discriminate|].
  destruct (kzg_trim K PR (kzg_setup K PR n tau g gam h2) md) as [(ck, vk)| |] eqn:Et; try discriminate. cbn [rbind] in EI.
  destruct (pc_commit K PR ck (no_draw K (index_polys K ix))) as [(c0, r0)| |] eqn:E0; try discriminate. cbn [rbind] in EI.
  assert (Eivk : ivk = mkIVK K PR (ix_info K ix) (map (lc_cm K PR) c0) vk) by congruence. assert (Eipk : ipk = mkIPK K PR ix r0 ivk ck) by congruence. clear EI.
  destruct (trim_ok K PR tau g gam h2 n md ck vk Et) as (_ & Hpw & Hck & _).
  destruct (make_square_ok K s0) as (q0 & Eq0 & _ & I0 & (a0 & A0) & C0 & L0). destruct (make_square_ok K s1) as (q1 & Eq1 & _ & I1 & (a1 & A1) & C1 & L1). destruct (make_square_ok K s2) as (q2 & Eq2 & _ & I2 & (a2 & A2) & C2 & L2).
  destruct (index_ok K dnew R2 checks circ u0 s0 q0 ix Ec0 W0 Bd Eq0 Eix) as (dx' & dh' & dk' & db & p & X).
  assert (same_shape q0 q1) as Sh1'. { destruct Sh1 as (S1 & S2 & S3). unfold same_shape. rewrite C0, C1, I0, I1, A0, A1, !app_length, !repeat_length, S1, S2, S3. repeat split. }
  assert (same_shape q0 q2) as Sh2'. { destruct Sh2 as (S1 & S2 & S3). unfold same_shape. rewrite C0, C2, I0, I2, A0, A2, !app_length, !repeat_length, S1, S2, S3. repeat split. }
  destruct (make_square_sat K s1 q1 Eq1) as (Wq1 & _ & SSq1). specialize (SSq1 W1 SS1). destruct (make_square_sat K s2 q2 Eq2) as (Wq2 & _ & SSq2). specialize (SSq2 W2 SS2).
  assert (dx' = dx) as ->. { pose proof (xo_dx _ _ _ _ _ _ _ _ _ X) as E. rewrite I0, (proj1 (proj2 Sh1)), Edx in E. congruence. }
  assert (EV' : verifier_doms K dnew (ix_info K ix) = Ok (dh', dk')). { unfold verifier_doms, dom_or. rewrite (xo_nc _ _ _ _ _ _ _ _ _ X), (xo_nv _ _ _ _ _ _ _ _ _ X), Nat.eqb_refl, (xo_dh _ _ _ _ _ _ _ _ _ X). cbn [negb rbind]. rewrite (xo_dk _ _ _ _ _ _ _ _ _ X). reflexivity. }
  assert (Eh : dh' = dh /\ dk' = dk) by (rewrite Eivk in EV; cbn [iv_info] in EV; rewrite EV' in EV; split; congruence). destruct Eh as (-> & ->). clear EV'.
  assert (Hmd : (1 <= md)%nat). { unfold max_degree in Emd. destruct (dnew (Nat.max (i_nc (ix_info K ix)) (i_nv (ix_info K ix)))) as [e1|]; [|discriminate Emd]. destruct (dnew (i_nnz (ix_info K ix))) as [e2|] eqn:Ee2; [|discriminate Emd]. assert (md = Nat.max (3 * dsize e1 + 2 - 1) (3 * dsize e2 - 3)) by congruence. lia. }
  assert (Hr0 : r0 = map rnd (no_draw K (index_polys K ix))). { apply (commit_form ck md _ Hpw Hck) in E0; [apply E0|]. apply Forall_forall. intros z Hz. unfold no_draw in Hz. apply in_map_iff in Hz. destruct Hz as (q & <- & Hq). cbn [fst]. assert (Forall (fun q => lp_hb K q = None) (index_polys K ix)) as F by (repeat constructor). rewrite (proj1 (Forall_forall _ _) F q Hq). exact I. }
  assert (Hd : forall n d, dnew n = Some d -> valid_dom d /\ (n <= dsize d)%nat) by (intros m d E; destruct (proj1 R2 m d E) as (? & ? & _); auto).
  pose proof (proj1 (Hd _ _ (xo_dx _ _ _ _ _ _ _ _ _ X))) as Vx. pose proof (proj1 (Hd _ _ (xo_dh _ _ _ _ _ _ _ _ _ X))) as Vh.
  pose proof (xo_s _ _ _ _ _ _ _ _ _ X) as Hs. pose proof (xo_g _ _ _ _ _ _ _ _ _ X) as Hg.
  pose (xs := inps s1). assert (Enx : dnew (length xs) = Some dx) by exact Edx.
  assert (Hix : ip_ix K PR ipk = ix) by (rewrite Eipk; reflexivity). assert (Hik : ip_ck K PR ipk = ck) by (rewrite Eipk; reflexivity). assert (Hiv : ip_ivk K PR ipk = ivk) by (rewrite Eipk; reflexivity).
  assert (F1 : forall ps, prover_init K dnew ix circ1 = Ok ps -> fits K dx dh ix xs ps /\ ps_dk K ps = dk).
  { intros ps Ep. pose proof (init_ok K dnew q0 q1 ix dx dh dk db p circ1 u1 s1 ps X Sh1' Ec1 Eq1 L1 Ep) as Y. split; [|apply Y]. unfold xs. rewrite <- I1. apply (ps_fits q0 q1 ix dx dh dk db p ps X Sh1' Y SSq1). rewrite I1. exact Full. }
  assert (F2 : forall ps, prover_init K dnew ix circ2 = Ok ps -> fits K dx dh ix xs ps /\ ps_dk K ps = dk).
  { intros ps Ep. pose proof (init_ok K dnew q0 q2 ix dx dh dk db p circ2 u2 s2 ps X Sh2' Ec2 Eq2 L2 Ep) as Y. split; [|apply Y]. unfold xs. rewrite Ein, <- I2. apply (ps_fits q0 q2 ix dx dh dk db p ps X Sh2' Y SSq2). rewrite I2, <- Ein. exact Full. }
  pose (ps0 := mkPS K ix [] [] [] [] dx dh dk).
  pose (p1 := match prover_init K dnew ix circ1 with Ok ps => ps | _ => ps0 end). pose (p2 := match prover_init K dnew ix circ2 with Ok ps => ps | _ => ps0 end).
  assert (Hbt' : b_of dh ipk xs pf <> tau). { unfold beta_of in Hbt. rewrite EV in Hbt. unfold b_of. rewrite Hiv. exact Hbt. }
  assert (Hal : v_alpha K (v_of dh ipk xs pf) ^ dsize dh <> 1) by (unfold v_of; apply (Hro_a _ dh _ (xo_dh _ _ _ _ _ _ _ _ _ X))).
  assert (Hbe : b_of dh ipk xs pf ^ dsize dh <> 1) by (unfold b_of; apply (Hro_b _ dh _ (xo_dh _ _ _ _ _ _ _ _ _ X))).
  assert (EVi : verifier_doms K dnew (iv_info K PR (ip_ivk K PR ipk)) = Ok (dh, dk)) by (rewrite Hiv; exact EV).
  exists (carry dx dh ipk xs md pf p1 p2), (carry dx dh ipk xs md pf p2 p1).
  split; [intros c Sc; split; [apply transfer_shaped, Sc|apply transfer_back, Sc]|]. split; [intros c Sc; split; [apply transfer_shaped, Sc|apply transfer_back, Sc]|].
  assert (Hpw' : good_pw K PR tau g gam (ck_pw K PR (ip_ck K PR ipk)) 0 (S md) (S md)) by (rewrite Hik; exact Hpw). assert (Hck' : ck_sd K PR (ip_ck K PR ipk) = md) by (rewrite Hik; exact Hck).
  assert (Hr0' : ip_rands K PR ipk = map rnd (no_draw K (index_polys K (ip_ix K PR ipk)))) by (rewrite Hix; rewrite Eipk; exact Hr0).
  split; intros c pf' Sc B1 B2 E E'; apply (unpack ipk _ _ _ dh dk EVi) in E; apply (unpack ipk _ _ _ dh dk EVi) in E'.
  - destruct E as (ps1 & o1 & o2 & o3 & c1 & c2 & c3 & r1 & r2 & r3 & v & be & ga & Ep & R). destruct E' as (ps2 & o1' & o2' & o3' & c1' & c2' & c3' & r1' & r2' & r3' & v' & be' & ga' & Ep' & R').
    rewrite Hix in Ep, Ep'. assert (Z1 : p1 = ps1) by (unfold p1; rewrite Ep; reflexivity). assert (Z2 : p2 = ps2) by (unfold p2; rewrite Ep'; reflexivity). rewrite Z1, Z2 in *.
    destruct (F1 ps1 Ep) as (G1 & D1). destruct (F2 ps2 Ep') as (G2 & D2).
    eapply (same_run Hd dx dh dk p Vx Vh Hs Hg H3 Ht0 ipk xs Enx md Hmd Hpw' Hck' Hr0' ps1 ps2); try eassumption; rewrite Hix; assumption.
  - destruct E as (ps2 & o1 & o2 & o3 & c1 & c2 & c3 & r1 & r2 & r3 & v & be & ga & Ep & R). destruct E' as (ps1 & o1' & o2' & o3' & c1' & c2' & c3' & r1' & r2' & r3' & v' & be' & ga' & Ep' & R').
    rewrite Hix in Ep, Ep'. assert (Z1 : p1 = ps1) by (unfold p1; rewrite Ep'; reflexivity). assert (Z2 : p2 = ps2) by (unfold p2; rewrite Ep; reflexivity). rewrite Z1, Z2 in *.
    destruct (F1 ps1 Ep') as (G1 & D1). destruct (F2 ps2 Ep) as (G2 & D2).
    eapply (same_run Hd dx dh dk p Vx Vh Hs Hg H3 Ht0 ipk xs Enx md Hmd Hpw' Hck' Hr0' ps2 ps1); try eassumption; rewrite Hix; assumption.
Qed.
End Top.
End Run.
End P.
