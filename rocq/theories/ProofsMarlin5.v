(** Marlin: a proof the prover outputs is accepted. *)
From Verif Require Import ModelMarlin SpecLC SpecCS SpecMarlin SpecPC ProofsPC ProofsPC2 ProofsMarlinCS ProofsMarlin ProofsMarlin2 ProofsMarlin3 ProofsMarlin4.
From Coq Require Import List String.
From Verif Require Import Field Poly Module ModelLC ModelCS.
Local Open Scope fld_scope.
Section P.
Variable K : Fld.
Variable PR : Pairing K.
Add Field Kfm6 : (f_laws K).
Lemma pc_commit_app ck l1 : forall l2 c1 r1 c2 r2, pc_commit K PR ck l1 = Ok (c1, r1) -> pc_commit K PR ck l2 = Ok (c2, r2) -> pc_commit K PR ck (l1 ++ l2) = Ok (c1 ++ c2, r1 ++ r2).
Proof.
  induction l1 as [|(p, (d1, d2)) l1 IH]; intros l2 c1 r1 c2 r2 E1 E2; cbn [pc_commit app] in *; [injection E1 as <- <-; exact E2|].
  destruct (commit_one K PR ck p d1 d2) as [(c, r)| |]; try discriminate. cbn [rbind] in *. destruct (pc_commit K PR ck l1) as [(c1', r1')| |] eqn:E; try discriminate. cbn [rbind] in *. injection E1 as <- <-. rewrite (IH l2 c1' r1' c2 r2 eq_refl E2). reflexivity.
Qed.
Lemma pc_commit_labels ck l : forall cs rs, pc_commit K PR ck l = Ok (cs, rs) -> map (lc_label K PR) cs = map (fun x => lp_label K (fst x)) l /\ map (lc_db K PR) cs = map (fun x => lp_db K (fst x)) l.
Proof.
  induction l as [|(p, (d1, d2)) l IH]; intros cs rs E; cbn [pc_commit] in E; [injection E as <- <-; split; reflexivity|].
  unfold commit_one in E. destruct (kzg_commit K PR (ck_pw K PR ck) (lp_poly K p) (lp_hb K p) d1) as [(c, r)| |]; try discriminate. cbn [rbind] in E.
  destruct (lp_db K p) as [b|] eqn:Eb.
  - destruct (shifted_powers K PR ck b) as [spw|]; try discriminate. destruct (kzg_commit K PR spw (lp_poly K p) (lp_hb K p) d2) as [(sc, sr)| |]; try discriminate. cbn [rbind] in E.
    destruct (pc_commit K PR ck l) as [(cs', rs')| |]; try discriminate. cbn [rbind] in E. injection E as <- <-. destruct (IH cs' rs' eq_refl) as (H1 & H2). cbn [map fst lc_label lc_db]. rewrite H1, H2, Eb. split; reflexivity.
  - cbn [rbind] in E. destruct (pc_commit K PR ck l) as [(cs', rs')| |]; try discriminate. cbn [rbind] in E. injection E as <- <-. destruct (IH cs' rs' eq_refl) as (H1 & H2). cbn [map fst lc_label lc_db]. rewrite H1, H2, Eb. split; reflexivity.
Qed.
Lemma relabel (cs : list (lcomm K PR)) : map (fun '(c, l, d) => mkLC K PR l c d) (combine (combine (map (lc_cm K PR) cs) (map (lc_label K PR) cs)) (map (lc_db K PR) cs)) = cs.
Proof. induction cs as [|(l, c, d) cs IH]; [reflexivity|]. cbn [map combine lc_cm lc_label lc_db]. rewrite IH. reflexivity. Qed.
Lemma group_insert_in l z (m : list (K * list string)) z' ls l' : In (z', ls) (group_insert K l z m) -> In l' ls -> (l' = l /\ z' = z) \/ exists ls', In (z', ls') m /\ In l' ls'.
Proof.
  induction m as [|(q, ls0) m IH]; cbn [group_insert].
  - intros [E|[]] H. injection E as <- <-. destruct H as [->|[]]. auto.
  - destruct (feqb_spec K q z) as [->|N].
    + intros [E|H] H'.
      * injection E as <- <-. apply in_app_or in H'. destruct H' as [H'|[->|[]]]; [right; exists ls0; split; [left; reflexivity|exact H']|auto].
      * right. exists ls. split; [right; exact H|exact H'].
    + intros [E|H] H'.
      * injection E as <- <-. right. exists ls0. split; [left; reflexivity|exact H'].
      * destruct (IH H H') as [A|(ls' & A & B)]; [auto|]. right. exists ls'. split; [right; exact A|exact B].
Qed.
Lemma group_in (qs : list (string * K)) z ls l : In (z, ls) (group K qs) -> In l ls -> In (l, z) qs.
Proof.
  unfold group. assert (forall qs m, In (z, ls) (fold_left (fun m '(l, pt) => group_insert K l pt m) qs m) -> In l ls -> In (l, z) qs \/ exists ls', In (z, ls') m /\ In l ls') as G.
  { clear qs. induction qs as [|(l0, z0) qs IH]; cbn [fold_left]; intros m H H'; [right; exists ls; auto|]. destruct (IH _ H H') as [A|(ls' & A & B)]; [left; right; exact A|].
    destruct (group_insert_in _ _ _ _ _ _ A B) as [(-> & ->)|C]; [left; left; reflexivity|right; exact C]. }
  intros H H'. destruct (G qs [] H H') as [A|(ls' & [] & _)]. exact A.
Qed.
Lemma evs_honest polys (qs : list (string * K)) : forall vals, mapR (eval_query K polys) qs = Ok vals -> forall l pt e, In (l, pt) qs -> eval_query K polys (l, pt) = Ok e ->
  ev_get K (map (fun '((l, p), e) => (l, p, e)) (combine qs vals)) l pt = Some e.
Proof.
  induction qs as [|(l0, p0) qs IH]; intros vals E l pt e Hin He; [destruct Hin|]. cbn [mapR] in E. destruct (eval_query K polys (l0, p0)) as [e0| |] eqn:E0; try discriminate. cbn [rbind] in E.
  destruct (mapR (eval_query K polys) qs) as [vs| |] eqn:Ev; try discriminate. cbn [rbind] in E. injection E as <-. cbn [combine map ev_get].
  destruct (String.eqb_spec l0 l) as [->|N]; cbn [andb]; [destruct (feqb_spec K p0 pt) as [->|N]|].
  - rewrite He in E0. injection E0 as ->. reflexivity.
  - destruct Hin as [H|H]; [injection H as <-; congruence|]. apply (IH vs eq_refl); assumption.
  - destruct Hin as [H|H]; [injection H as <- <-; congruence|]. apply (IH vs eq_refl); assumption.
Qed.
Lemma lookup_find (ps : list (lpoly K)) : NoDup (map (lp_label K) ps) -> forall (rs : list (randomness K)) l p r, lookup_last (fun x => lp_label K (fst x)) l (combine ps rs) = Some (p, r) -> find (fun p => String.eqb (lp_label K p) l) ps = Some p.
Proof.
  induction ps as [|p0 ps IH]; intros ND rs l p r E; [discriminate|]. destruct rs as [|r0 rs]; [discriminate|]. cbn [combine lookup_last fst] in E. inversion ND as [|? ? Ni ND']; subst. cbn [find].
  destruct (lookup_last _ l (combine ps rs)) as [(p1, r1)|] eqn:El.
  - injection E as -> ->. pose proof (IH ND' rs l p r El) as F. destruct (String.eqb_spec (lp_label K p0) l) as [E|N]; [|exact F]. exfalso. apply Ni. apply find_some in F. destruct F as (F1 & F2). apply String.eqb_eq in F2. rewrite E, <- F2. apply in_map, F1.
  - destruct (String.eqb (lp_label K p0) l); [injection E as -> ->; reflexivity|discriminate].
Qed.
Lemma value_find (ps : list (lpoly K)) rs l z e : NoDup (map (lp_label K) ps) -> value_of K ps rs l z = Some e -> eval_query K ps (l, z) = Ok e.
Proof.
  intros ND Hv. unfold value_of in Hv. destruct (lookup_last _ l (combine ps rs)) as [(pp, rr)|] eqn:El; [|discriminate]. injection Hv as <-. unfold eval_query. cbn [fst snd]. rewrite (lookup_find ps ND _ l pp rr El). reflexivity.
Qed.
Fixpoint nodupb (l : list string) : bool := match l with [] => true | x :: r => negb (existsb (String.eqb x) r) && nodupb r end.
Lemma nodupb_ok l : nodupb l = true -> NoDup l.
Proof.
  induction l as [|x l IH]; intro E; [constructor|]. cbn [nodupb] in E. apply andb_prop in E. destruct E as (E1 & E2). constructor; [|apply IH, E2]. intro H. apply Bool.negb_true_iff in E1. assert (existsb (String.eqb x) l = true); [|congruence]. apply existsb_exists. exists x. split; [exact H|apply String.eqb_refl].
Qed.
Lemma map_fst_combine {A B} (l : list A) (m : list B) : (length l <= length m)%nat -> map fst (combine l m) = l.
Proof. revert m; induction l as [|a l IH]; intros [|b m] H; cbn in *; try reflexivity; [lia|]. rewrite IH by lia. reflexivity. Qed.
Section Top.
Variable dnew : nat -> option (dom K).
Lemma second_h2 ps o1 v o2 : second_round K dnew ps o1 v = Ok o2 -> (2 <= dsize (ps_dh K ps))%nat.
Proof.
  unfold second_round. destruct (dom_or K dnew (length (ps_x K ps))) as [dx| |]; try discriminate. cbn [rbind]. destruct (t_evals _ _ _ _ _ _) as [te| |]; try discriminate. cbn [rbind].
  match goal with |- context [dom_or K dnew ?m] => destruct (dom_or K dnew m) as [d| |]; try discriminate end. cbn [rbind]. destruct (pdivv _ _ _) as (q, r). destruct r; [discriminate|]. destruct (Nat.ltb_spec (dsize (ps_dh K ps)) 2); [discriminate|auto].
Qed.
Lemma third_k2 ps v be o3 : third_round K dnew ps v be = Ok o3 -> (2 <= dsize (ps_dk K ps))%nat.
Proof.
  unfold third_round. destruct (mapR _ _) as [tk| |]; try discriminate. cbn [rbind]. destruct (interp _ _ _); [discriminate|]. destruct (dom_or K dnew _) as [db| |]; try discriminate. cbn [rbind].
  destruct (mapR _ _) as [ab| |]; try discriminate. cbn [rbind]. destruct (Nat.ltb_spec (dsize (ps_dk K ps)) 2); [discriminate|auto].
Qed.
Hypothesis R2 : radix2 dnew.
Variable ro : fs K PR.
Hypothesis Hro_a : forall m d tr, dnew m = Some d -> v_alpha K (fs_msg K PR ro d tr) ^ dsize d <> 1.
Hypothesis Hro_b : forall m d tr, dnew m = Some d -> fs_beta K PR ro d tr ^ dsize d <> 1.
Variables (tau : K) (g gam : G1 PR) (h : G2 PR) (n : nat).
Theorem marlin_complete checks circ u1 u2 s1 s2 dx ipk ivk co pf :
  circ (cs_new Setup) = Ok (u1, s1) -> circ (cs_new Prove) = Ok (u2, s2) -> same_shape s1 s2 -> wf s1 -> wf s2 -> self_sat s2 -> (Z.of_nat (terms (cons s1)) < 2 ^ 64)%Z ->
  dnew (length (inps s2)) = Some dx -> dsize dx = length (inps s2) ->
  c_w K co <> 0 -> c_za K co <> 0 -> c_zb K co <> 0 -> (9 <= length (c_draw K co))%nat ->
  marlin_index K PR dnew checks (kzg_setup K PR n tau g gam h) circ = Ok (ipk, ivk) ->
  create_proof K PR dnew ro ipk circ co = Ok pf ->
  verify_proof K PR dnew ro ivk pf (tl (inps s2)) = Ok true.
Proof.
  intros Ec1 Ec2 Sh W1 W2 SS Bd Edx Full N1 N2 N3 Ld EI EP.
  unfold marlin_index in EI. destruct (ahp_index K dnew checks circ) as [ix| |] eqn:Eix; try discriminate. cbn [rbind] in EI.
  destruct (max_degree K dnew (ix_info K ix)) as [md| |] eqn:Emd; try discriminate. cbn [rbind] in EI. destruct (Nat.ltb _ md) in EI; [discriminate|].
  destruct (kzg_trim K PR (kzg_setup K PR n tau g gam h) md) as [(ck, vk)| |] eqn:Et; try discriminate. cbn [rbind] in EI.
  destruct (pc_commit K PR ck (no_draw K (index_polys K ix))) as [(c0, r0)| |] eqn:E0; try discriminate. cbn [rbind] in EI. injection EI as <- <-.
  destruct (make_square_ok K s1) as (q1 & Eq1 & _ & I1 & (a1 & A1) & C1 & L1). destruct (make_square_ok K s2) as (q2 & Eq2 & _ & I2 & (a2 & A2) & C2 & L2).
  destruct (index_ok K dnew R2 checks circ u1 s1 q1 ix Ec1 W1 Bd Eq1 Eix) as (dx' & dh & dk & db & p & X).
  assert (same_shape q1 q2) as Sh'. { destruct Sh as (S1 & S2 & S3). unfold same_shape. rewrite C1, C2, I1, I2, A1, A2, !app_length, !repeat_length, S1, S2, S3. repeat split. }
  destruct (make_square_sat K s2 q2 Eq2) as (Wq & _ & SSq). specialize (Wq W2). specialize (SSq W2 SS).
  assert (dx' = dx) as ->. { pose proof (xo_dx _ _ _ _ _ _ _ _ _ X) as E. rewrite I1, (proj1 (proj2 Sh)), Edx in E. congruence. }
  unfold create_proof in EP. cbn [ip_ck ip_ivk ip_ix ip_rands] in EP. destruct (prover_init K dnew ix circ) as [ps| |] eqn:Eps; try discriminate. cbn [rbind] in EP.
  pose proof (init_ok K dnew q1 q2 ix dx dh dk db p circ u2 s2 ps X Sh' Ec2 Eq2 L2 Eps) as Y. pose proof Y as Y0. destruct Y0 as [_ Yx _ _ Ydh Ydk _ _ _ _]. rewrite Yx, Ydh, Ydk in EP.
  destruct (first_round K ps (c_w K co) (c_za K co) (c_zb K co) (c_mask K co)) as [o1| |] eqn:EO1; try discriminate. cbn [rbind] in EP.
  destruct (pc_commit K PR ck (combine (polys1 K o1) (firstn 4 (c_draw K co)))) as [(c1, r1)| |] eqn:E1; try discriminate. cbn [rbind iv_info] in EP.
  assert (verifier_doms K dnew (ix_info K ix) = Ok (dh, dk)) as EV. { unfold verifier_doms, dom_or. rewrite (xo_nc _ _ _ _ _ _ _ _ _ X), (xo_nv _ _ _ _ _ _ _ _ _ X), Nat.eqb_refl, (xo_dh _ _ _ _ _ _ _ _ _ X). cbn [negb rbind]. rewrite (xo_dk _ _ _ _ _ _ _ _ _ X). reflexivity. }
  rewrite EV in EP. cbn [rbind] in EP. set (ivk := mkIVK K PR (ix_info K ix) (map (lc_cm K PR) c0) vk) in *. set (tr1 := FComms K PR (map (lc_cm K PR) c1) :: [FSeed K PR ivk (tl (inps q2))]) in *.
  set (v := fs_msg K PR ro dh tr1) in *. destruct (second_round K dnew ps o1 v) as [o2| |] eqn:EO2; try discriminate. cbn [rbind] in EP.
  destruct (pc_commit K PR ck (combine (polys2 K (dsize dh) o2) (firstn 3 (skipn 4 (c_draw K co))))) as [(c2, r2)| |] eqn:E2; try discriminate. cbn [rbind] in EP.
  set (tr2 := FComms K PR (map (lc_cm K PR) c2) :: tr1) in *. set (beta := fs_beta K PR ro dh tr2) in *.
  destruct (third_round K dnew ps v beta) as [o3| |] eqn:EO3; try discriminate. cbn [rbind] in EP.
  destruct (pc_commit K PR ck (combine (polys3 K (dsize dk) o3) (firstn 2 (skipn 7 (c_draw K co))))) as [(c3, r3)| |] eqn:E3; try discriminate. cbn [rbind] in EP.
  set (tr3 := FComms K PR (map (lc_cm K PR) c3) :: tr2) in *. set (gamma := fs_gamma K PR ro tr3) in *.
  fold (all_polys K ix dh dk o1 o2 o3) in EP. set (polys := all_polys K ix dh dk o1 o2 o3) in *.
  destruct (mapR (eval_query K polys) (query_set K beta gamma)) as [vals| |] eqn:Ev; try discriminate. cbn [rbind] in EP.
  destruct (batch_open K PR ck polys (query_set K beta gamma) (fs_xi K PR ro (FEvals K PR vals :: tr3)) (r0 ++ r1 ++ r2 ++ r3)) as [op| |] eqn:Eop; try discriminate. cbn [rbind] in EP. injection EP as <-.
  (* the verifier *)
  rewrite <- I2. unfold verify_proof. cbn [pf_comms pf_evals pf_open iv_info iv_comms iv_vk]. change (iv_info K PR ivk) with (ix_info K ix). rewrite EV. cbn [rbind]. fold tr1. fold v. fold tr2. fold beta. fold tr3. fold gamma.
  set (xi := fs_xi K PR ro (FEvals K PR vals :: tr3)) in *.
  pose (draws := no_draw K (index_polys K ix) ++ combine (polys1 K o1) (firstn 4 (c_draw K co)) ++ combine (polys2 K (dsize dh) o2) (firstn 3 (skipn 4 (c_draw K co))) ++ combine (polys3 K (dsize dk) o3) (firstn 2 (skipn 7 (c_draw K co)))).
  assert (pc_commit K PR ck draws = Ok (c0 ++ c1 ++ c2 ++ c3, r0 ++ r1 ++ r2 ++ r3)) as EC by (repeat apply pc_commit_app; assumption).
  assert (map fst draws = polys) as ED.
  { unfold draws. rewrite !map_app, !map_fst_combine by (rewrite ?firstn_length, ?skipn_length; cbn [polys1 polys2 polys3 length]; lia). unfold no_draw. rewrite map_map. cbn [fst]. rewrite map_id. reflexivity. }
  destruct (pc_commit_labels ck draws _ _ EC) as (Lab & Lbd).
  rewrite <- (map_map fst (lp_label K)), ED in Lab. rewrite <- (map_map fst (lp_db K)), ED in Lbd.
  assert (NoDup (map (lp_label K) polys)) as ND by (apply nodupb_ok; reflexivity).
  assert (length c0 = 12%nat) as Lc0. { destruct (pc_commit_labels ck _ _ _ E0) as (H & _). apply (f_equal (@length _)) in H. rewrite !map_length in H. rewrite H. reflexivity. }
  pose proof (second_h2 _ _ _ _ EO2) as H2. pose proof (third_k2 _ _ _ _ EO3) as K2. rewrite Ydh in H2. rewrite Ydk in K2.
  unfold degree_bounds. rewrite (xo_nc _ _ _ _ _ _ _ _ _ X), (xo_dh _ _ _ _ _ _ _ _ _ X), (xo_dk _ _ _ _ _ _ _ _ _ X). rewrite (proj2 (Nat.ltb_ge _ _) H2), (proj2 (Nat.ltb_ge _ _) K2). cbn [orb rbind].
  change (iv_comms K PR ivk) with (map (lc_cm K PR) c0). rewrite map_length, Lc0.
  rewrite <- !map_app. change poly_labels with (map (lp_label K) polys). change (repeat None 12 ++ repeat None 4 ++ [None; Some (dsize dh - 2)%nat; None] ++ [Some (dsize dk - 2)%nat; None]) with (map (lp_db K) polys).
  rewrite <- Lab, <- Lbd, relabel.
  pose proof (evs_honest polys (query_set K beta gamma) vals Ev) as HE. set (evs := map (fun '((l, p), e) => (l, p, e)) (combine (query_set K beta gamma) vals)) in *.
  rewrite (equations_ok K dnew R2 q1 q2 ix dx dh dk db p ps _ _ _ _ o1 o2 o3 v beta gamma evs X Sh' Y SSq (proj1 Wq) ltac:(rewrite I2; exact Full) N1 N2 N3 (Hro_a _ dh tr1 (xo_dh _ _ _ _ _ _ _ _ _ X)) (Hro_b _ dh tr2 (xo_dh _ _ _ _ _ _ _ _ _ X)) EO1 EO2 EO3 HE).
  cbn [rbind negb]. change (iv_vk K PR ivk) with vk.
  apply (batch_complete_setup K PR tau g gam h n md ck vk Et draws _ (r0 ++ r1 ++ r2 ++ r3)).
  - apply Forall_forall. intros z Hz. assert (In (fst z) polys) as Hp by (rewrite <- ED; apply in_map, Hz).
    assert (1 <= md)%nat as Hmd. { unfold max_degree in Emd. destruct (dnew (Nat.max (i_nc (ix_info K ix)) (i_nv (ix_info K ix)))) as [e1|]; [|discriminate Emd]. destruct (dnew (i_nnz (ix_info K ix))) as [e2|]; [|discriminate Emd]. assert (md = Nat.max (3 * dsize e1 + 2 - 1) (3 * dsize e2 - 3)) by congruence. lia. }
    assert (Forall (fun q => match lp_hb K q with Some b => (b <= md)%nat | None => True end) polys) as F by (repeat constructor; exact Hmd).
    exact (proj1 (Forall_forall _ _) F _ Hp).
  - exact EC.
  - intros l z e Hv (ls & G1 & G2). apply HE; [exact (group_in _ _ _ _ G1 G2)|]. rewrite ED in Hv. exact (value_find polys _ l z e ND Hv).
  - rewrite ED. exact Eop.
Qed.
End Top.
End P.
