(** Marlin: the forgery of AttackMarlin.v is always accepted. *)
From Verif Require Import AttackMarlin SpecLC SpecCS SpecMarlin SpecPC ProofsPC ProofsPC2 ProofsMarlinCS ProofsMarlin ProofsMarlin2 ProofsMarlin4 ProofsMarlin5 ModTac.
From Verif Require Import ModelMarlin ModelCS.
Local Open Scope fld_scope.
Section P.
Variable K : Fld.
Variable PR : Pairing K.
Add Field Kfm7 : (f_laws K).
Variables (tau : K) (g gam : G1 PR) (h : G2 PR).
Definition plain (sd : nat) (x : lpoly K * randomness K) : Prop :=
  let '(p, r) := x in (length (lp_poly K p) <= S sd)%nat /\ r = a_rand K p /\ match lp_db K p with Some b => (b <= sd)%nat /\ (length (lp_poly K p) <= S b)%nat | None => True end.
Lemma length_shift p n : (length (shift_poly K p n) <= n + length p)%nat.
Proof. unfold shift_poly. destruct (forallb _ p); [cbn [length]; lia|]. etransitivity; [apply length_ptrim|]. rewrite app_length, repeat_length. lia. Qed.
Lemma open_loop_plain sd xi l : Forall (plain sd) l -> forall p chal p' r', (length p <= S sd)%nat -> open_loop K sd xi l p [] chal = Ok (p', r') -> (length p' <= S sd)%nat /\ r' = [].
Proof.
  induction 1 as [|(q, rd) l H F IH]; intros p chal p' r' L E; cbn [open_loop] in E; [injection E as <- <-; auto|].
  destruct H as (Hl & -> & Hb). unfold a_rand in E. cbn [rn rn_shift] in E. change (acc_poly K [] chal []) with (@nil K) in E. pose proof (length_acc K p chal (lp_poly K q)).
  destruct (lp_db K q) as [b|].
  - destruct (Nat.ltb sd b); [discriminate|]. change (acc_poly K [] (chal * xi) []) with (@nil K) in E. apply IH in E; [exact E|].
    pose proof (length_acc K (acc_poly K p chal (lp_poly K q)) (chal * xi) (shift_poly K (lp_poly K q) (sd - b))). pose proof (length_shift (lp_poly K q) (sd - b)). lia.
  - apply IH in E; [exact E|lia].
Qed.
Lemma a_open_check ck vk sd ps rs cs z xi : good_pw K PR tau g gam (ck_pw K PR ck) 0 (S sd) (S sd) -> ck_sd K PR ck = sd -> good_vk K PR tau g gam h vk sd ->
  triples K PR tau g gam sd ps rs cs -> Forall (plain sd) (combine ps rs) -> exists pf, a_open K PR ck ps z xi rs = Ok pf /\ pc_check K PR vk cs z (map (fun q => peval (lp_poly K q) z) ps) pf xi = Ok true.
Proof.
  intros Hpw Hsd Hvk T F. unfold a_open. rewrite Hsd.
  destruct (loops K PR tau g gam sd z xi ps rs cs T [] [] g0 0 1) as (p' & r' & E1 & Lr & E2); [unfold ped; cbn [peval]; gmod; ring|reflexivity|cbn; lia|].
  rewrite E1. cbn [rbind]. destruct (open_loop_plain sd xi (combine ps rs) F [] 1 p' r' ltac:(cbn; lia) E1) as (Lp & ->). eexists. split; [reflexivity|].
  unfold pc_check. assert (Es : vk_sd K PR vk = sd) by (rewrite Hvk; reflexivity). rewrite Es, E2. cbn [rbind]. rewrite (check_exact K PR tau g gam h vk sd) by exact Hvk. cbn [k_rand_v k_w]. f_equal. apply geqb_eq. f_equal.
  destruct (pdivx_spec K p' z) as (q & Eq & Lq & Hq). rewrite Eq, (proj1 Hpw), msm_powers_le by lia. specialize (Hq tau). unfold ped. cbn [peval]. rewrite Hq. gmod; ring.
Qed.
Lemma lookup_in {A} (lab : A -> string) l (xs : list A) x : lookup_last lab l xs = Some x -> In x xs.
Proof. induction xs as [|y xs IH]; [discriminate|]. cbn [lookup_last]. destruct (lookup_last lab l xs); intro E; [injection E as ->; right; apply IH; reflexivity|]. destruct (String.eqb (lab y) l); [injection E as ->; left; reflexivity|discriminate]. Qed.
Lemma mapR_in {A B} (f : A -> res B) l : forall r, mapR f l = Ok r -> forall y, In y r -> exists x, In x l /\ f x = Ok y.
Proof.
  induction l as [|a l IH]; intros r E y Hy; cbn [mapR] in E; [injection E as <-; destruct Hy|]. destruct (f a) as [b| |] eqn:Ea; try discriminate. cbn [rbind] in E. destruct (mapR f l) as [bs| |]; try discriminate. cbn [rbind] in E. injection E as <-.
  destruct Hy as [<-|Hy]; [exists a; split; [left; reflexivity|exact Ea]|]. destruct (IH bs eq_refl y Hy) as (x & H1 & H2). exists x. split; [right; exact H1|exact H2].
Qed.
Lemma mapR_total {A B} (f : A -> res B) l : (forall x, In x l -> exists y, f x = Ok y) -> exists r, mapR f l = Ok r.
Proof. induction l as [|a l IH]; intro H; cbn [mapR]; [eauto|]. destruct (H a (or_introl eq_refl)) as (y & ->). cbn [rbind]. destruct IH as (r & ->); [intros x Hx; apply H; right; exact Hx|]. cbn [rbind]. eauto. Qed.
Lemma a_batch_ok ck vk sd ps rs cs qs evs xi : good_pw K PR tau g gam (ck_pw K PR ck) 0 (S sd) (S sd) -> ck_sd K PR ck = sd -> good_vk K PR tau g gam h vk sd ->
  triples K PR tau g gam sd ps rs cs -> Forall (plain sd) (combine ps rs) ->
  (forall l z v, value_of K ps rs l z = Some v -> (exists ls, In (z, ls) (group K qs) /\ In l ls) -> ev_get K evs l z = Some v) ->
  (forall l z, In (l, z) qs -> exists x, lookup_last (fun x => lp_label K (fst x)) l (combine ps rs) = Some x) ->
  exists pfs, a_batch K PR ck ps qs xi rs = Ok pfs /\ batch_check K PR vk cs qs evs pfs xi = Ok true.
Proof.
  intros Hpw Hsd Hvk T F Hev Hin. unfold a_batch, batch_check.
  enough (H : forall gr, (forall z ls, In (z, ls) gr -> In (z, ls) (group K qs)) -> exists pfs,
    mapR (fun '(point, labels) => rbind (mapR (fun l => match lookup_last (fun x => lp_label K (fst x)) l (combine ps rs) with None => Err MissingPolynomial | Some x => Ok x end) labels) (fun prs =>
      a_open K PR ck (map fst prs) point xi (map snd prs))) gr = Ok pfs /\ length gr = length pfs /\ check_loop K PR vk cs evs xi (combine gr pfs) true = Ok true).
  { destruct (H (group K qs) (fun z ls I => I)) as (pfs & E & L & C). exists pfs. split; [exact E|]. rewrite L, Nat.eqb_refl. exact C. }
  induction gr as [|(z, ls) gr IH]; intros Hg; cbn [mapR]; [exists []; repeat split|].
  destruct (mapR_total (fun l => match lookup_last (fun x => lp_label K (fst x)) l (combine ps rs) with None => Err MissingPolynomial | Some x => Ok x end) ls) as (prs & Em).
  { intros l Hl. destruct (Hin l z) as (x & ->); [|eauto]. apply (group_in K _ _ ls); [apply Hg; left; reflexivity|exact Hl]. }
  rewrite Em. cbn [rbind].
  destruct (group_mapR K PR tau g gam sd ps rs cs evs z ls prs T) with (2 := Em) as (cs' & E2 & T2).
  { intros l v Il Hv. apply Hev; [exact Hv|]. exists ls. split; [apply Hg; left; reflexivity|exact Il]. }
  assert (combine (map fst prs) (map snd prs) = prs) as Ec. { clear. induction prs as [|(a, b) prs IH]; [reflexivity|]. cbn [map combine fst snd]. rewrite IH. reflexivity. }
  assert (Forall (plain sd) (combine (map fst prs) (map snd prs))) as F2.
  { rewrite Ec. apply Forall_forall. intros x Hx. destruct (mapR_in _ _ _ Em x Hx) as (l & _ & El). destruct (lookup_last _ l (combine ps rs)) as [x'|] eqn:El'; [|discriminate]. injection El as ->. apply (proj1 (Forall_forall _ _) F). exact (lookup_in _ _ _ _ El'). }
  destruct (a_open_check ck vk sd _ _ cs' z xi Hpw Hsd Hvk T2 F2) as (pf & Eo & Co). rewrite Eo. cbn [rbind]. destruct IH as (pfs & E3 & L3 & C3); [intros z0 l0 I0; apply Hg; right; exact I0|]. rewrite E3. cbn [rbind].
  exists (pf :: pfs). split; [reflexivity|]. split; [cbn [length]; lia|]. cbn [combine check_loop]. rewrite E2. cbn [rbind]. pose proof (triples_len _ _ _ _ _ _ _ _ _ T2) as Lt. rewrite combine_map_fst, combine_map_snd by (rewrite map_length; lia). rewrite Co. cbn [rbind andb]. exact C3.
Qed.
Lemma a_commit_triple ck sd p : good_pw K PR tau g gam (ck_pw K PR ck) 0 (S sd) (S sd) -> ck_sd K PR ck = sd -> plain sd (p, a_rand K p) -> good_triple K PR tau g gam sd p (a_rand K p) (a_commit K PR ck p).
Proof.
  intros Hpw Hsd (L & _ & B). unfold good_triple, a_commit, a_rand. cbn [lc_label lc_db lc_cm cm cm_shift rn rn_shift]. split; [reflexivity|]. split; [reflexivity|]. split; [rewrite (proj1 Hpw), msm_powers_le by exact L; unfold ped; cbn [peval]; gmod; ring|]. split; [cbn [length]; lia|].
  destruct (lp_db K p) as [b|]; [|reflexivity]. destruct B as (B1 & B2). split; [exact B1|]. do 2 eexists. split; [reflexivity|]. split; [reflexivity|]. split; [|cbn [length]; lia].
  rewrite Hsd, (proj1 Hpw), skipn_map_seq. rewrite msm_powers, firstn_all2 by lia. unfold ped. cbn [peval]. replace (0 + (sd - b))%nat with (sd - b)%nat by lia. gmod; ring.
Qed.
Lemma a_triples ck sd ps : good_pw K PR tau g gam (ck_pw K PR ck) 0 (S sd) (S sd) -> ck_sd K PR ck = sd -> Forall (fun p => plain sd (p, a_rand K p)) ps -> triples K PR tau g gam sd ps (map (a_rand K) ps) (map (a_commit K PR ck) ps).
Proof. intros Hpw Hsd. induction 1; cbn [map]; constructor; auto. apply a_commit_triple; assumption. Qed.
Lemma triples_app sd ps rs cs ps' rs' cs' : triples K PR tau g gam sd ps rs cs -> triples K PR tau g gam sd ps' rs' cs' -> triples K PR tau g gam sd (ps ++ ps') (rs ++ rs') (cs ++ cs').
Proof. intros H H'. induction H; cbn [app]; [exact H'|constructor; assumption]. Qed.
Lemma commit_norand ck l : Forall (fun p => lp_hb K p = None /\ lp_db K p = None) l -> forall cs rs, pc_commit K PR ck (no_draw K l) = Ok (cs, rs) -> rs = map (a_rand K) l.
Proof.
  induction 1 as [|p l (Hh & Hd) F IH]; intros cs rs E; cbn [no_draw map pc_commit] in E; [injection E as <- <-; reflexivity|]. unfold commit_one in E. rewrite Hh, Hd in E. unfold kzg_commit in E.
  destruct (degree K (lp_poly K p)); try discriminate. cbn [rbind] in E. destruct (check_degree _ _); try discriminate. cbn [rbind] in E. destruct (msm_from _ _ _ _); try discriminate. cbn [rbind] in E.
  fold (no_draw K l) in E. destruct (pc_commit K PR ck (no_draw K l)) as [(cs', rs')| |]; try discriminate. cbn [rbind] in E. injection E as <- <-. cbn [map]. unfold a_rand at 1. rewrite Hd. f_equal. apply (IH cs' rs' eq_refl).
Qed.
Section Top.
Variable dnew : nat -> option (dom K).
Hypothesis R2 : radix2 dnew.
Variable ro : fs K PR.
Hypothesis Hro_a : forall m d tr, dnew m = Some d -> v_alpha K (fs_msg K PR ro d tr) ^ dsize d <> 1.
Hypothesis Hro_b : forall m d tr, dnew m = Some d -> fs_beta K PR ro d tr ^ dsize d <> 1.
Variable n : nat.
Lemma length_pad k p : (length p <= k)%nat -> length (pad K k p) = k.
Proof. intro L. unfold pad. rewrite length_padd, repeat_length. lia. Qed.
Lemma peval_pad k p y : peval (pad K k p) y = peval p y.
Proof. unfold pad. rewrite peval_padd, peval_repeat0. ring. Qed.
Theorem forge_accepted checks circ u s ipk ivk pub dx : circ (cs_new Setup) = Ok (u, s) -> wf s -> (Z.of_nat (terms (cons s)) < 2 ^ 64)%Z ->
  marlin_index K PR dnew checks (kzg_setup K PR n tau g gam h) circ = Ok (ipk, ivk) ->
  (forall d, dnew (i_nc (iv_info K PR ivk)) = Some d -> 2 <= dsize d)%nat -> (forall d, dnew (i_nnz (iv_info K PR ivk)) = Some d -> 2 <= dsize d)%nat ->
  dnew (S (length pub)) = Some dx ->
  exists pf, forge K PR dnew ro (ip_ck K PR ipk) (ip_ix K PR ipk) ivk pub = Ok pf /\ verify_proof K PR dnew ro ivk pf pub = Ok true.
Proof.
  intros Ec W Bd EI Hh2 Hk2 Edx.
  unfold marlin_index in EI. destruct (ahp_index K dnew checks circ) as [ix| |] eqn:Eix; try discriminate. cbn [rbind] in EI.
  destruct (max_degree K dnew (ix_info K ix)) as [md| |] eqn:Emd; try discriminate. cbn [rbind] in EI. destruct (Nat.ltb _ md) in EI; [discriminate|].
  destruct (kzg_trim K PR (kzg_setup K PR n tau g gam h) md) as [(ck, vk)| |] eqn:Et; try discriminate. cbn [rbind] in EI.
  destruct (pc_commit K PR ck (no_draw K (index_polys K ix))) as [(c0, r0)| |] eqn:E0; try discriminate. cbn [rbind] in EI. injection EI as <- <-. cbn [ip_ck ip_ix iv_info] in *.
  destruct (make_square_ok K s) as (q1 & Eq1 & _ & I1 & _ & _ & L1).
  destruct (index_ok K dnew R2 checks circ u s q1 ix Ec W Bd Eq1 Eix) as (dx' & dh & dk & db & p & X).
  destruct (trim_ok K PR tau g gam h n md ck vk Et) as (_ & Hpw & Hsd & Hvk).
  pose proof (xo_nc _ _ _ _ _ _ _ _ _ X) as Xnc. pose proof (xo_nv _ _ _ _ _ _ _ _ _ X) as Xnv. pose proof (xo_dh _ _ _ _ _ _ _ _ _ X) as Xdh. pose proof (xo_dk _ _ _ _ _ _ _ _ _ X) as Xdk.
  assert (2 <= dsize dh)%nat as H2 by (apply Hh2; rewrite Xnc; exact Xdh). assert (2 <= dsize dk)%nat as K2 by (apply Hk2; exact Xdk). clear Hh2 Hk2.
  assert (md = Nat.max (3 * dsize dh + 2 - 1) (3 * dsize dk - 3)) as Md. { unfold max_degree in Emd. rewrite Xnc, Xnv, Nat.max_id, Xdh, Xdk in Emd. congruence. }
  assert (verifier_doms K dnew (ix_info K ix) = Ok (dh, dk)) as EV. { unfold verifier_doms, dom_or. rewrite Xnc, Xnv, Nat.eqb_refl, Xdh. cbn [negb rbind]. rewrite Xdk. reflexivity. }
  destruct R2 as (R & _). destruct (R _ _ Xdh) as (Vh & _). destruct (R _ _ Xdk) as (Vk & _).
  unfold forge. set (ivk := mkIVK K PR (ix_info K ix) (map (lc_cm K PR) c0) vk) in *. change (iv_info K PR ivk) with (ix_info K ix). rewrite EV. cbn [rbind]. unfold dom_or. cbn [length]. rewrite Edx. cbn [rbind].
  set (tr1 := [FComms K PR []; FSeed K PR ivk pub]). set (v := fs_msg K PR ro dh tr1). set (tr2 := FComms K PR [] :: tr1). set (be := fs_beta K PR ro dh tr2).
  pose proof (Hro_a _ dh tr1 Xdh) as Nal. fold v in Nal. pose proof (Hro_b _ dh tr2 Xdh) as Nbe. fold be in Nbe.
  (* the inner sum *)
  set (ps := mkPS K ix [] [] [] [] dx' dh dk).
  assert (forall st m, star_ok K dx' dh dk db m st -> (length (st_row K st) <= dsize dk /\ length (st_col K st) <= dsize dk /\ length (st_val K st) <= dsize dk /\ length (st_rc K st) <= dsize dk)%nat) as LS.
  { intros st m S. destruct (so_rc _ _ _ _ _ _ _ S) as (rck & -> & _). rewrite (so_row _ _ _ _ _ _ _ S), (so_col _ _ _ _ _ _ _ S), (so_val _ _ _ _ _ _ _ S). repeat split; apply length_interp. }
  pose proof (LS _ _ (xo_sa _ _ _ _ _ _ _ _ _ X)) as (La1 & La2 & La3 & La4). pose proof (LS _ _ (xo_sb _ _ _ _ _ _ _ _ _ X)) as (Lb1 & Lb2 & Lb3 & Lb4). pose proof (LS _ _ (xo_sc _ _ _ _ _ _ _ _ _ X)) as (Lc1 & Lc2 & Lc3 & Lc4). clear LS.
  set (tp := a_t K ix dh dk v be). assert (length tp <= dsize dk)%nat as Ltp by apply length_interp.
  assert (forall st, (length (st_row K st) <= dsize dk)%nat -> (length (st_col K st) <= dsize dk)%nat -> (length (st_rc K st) <= dsize dk)%nat -> length (a_dn K (dsize dk) (v_alpha K v) be st) = dsize dk) as LD.
  { intros st l1 l2 l3. unfold a_dn. rewrite !length_padd, !length_pscale, !length_pad by assumption. cbn [length]. lia. }
  assert (forall st y, peval (a_dn K (dsize dk) (v_alpha K v) be st) y = dn K (v_alpha K v) be st y) as PD.
  { intros st y. unfold a_dn, dn. rewrite !peval_padd, !peval_pscale, !peval_pad. cbn [peval]. ring. }
  destruct (inner_core K dx' dh dk db Vh Vk ps (xo_sa _ _ _ _ _ _ _ _ _ X) (xo_sb _ _ _ _ _ _ _ _ _ X) (xo_sc _ _ _ _ _ _ _ _ _ X) v (v_alpha K v) be Nal Nbe (a_num K ix dh dk v be)) as (T0 & Inn).
  { intro y. unfold a_num. rewrite peval_psub, peval_pscale, !peval_padd, !peval_pscale, !peval_pmul, !peval_pad, !PD. unfold a_at, b_at. cbn [ps_ix ps]. change (a_t K ix dh dk v be) with (interp K dk (map (tk K dh ps v (v_alpha K v) be) (seq 0 (dsize dk)))). ring. }
  change (interp K dk (map (tk K dh ps v (v_alpha K v) be) (seq 0 (dsize dk)))) with tp in T0, Inn.
  set (N := a_num K ix dh dk v be) in *. assert (length (fst (pdivv K (dsize dk) N)) <= 3 * dsize dk - 3)%nat as LH.
  { pose proof (pdivv_ok K (dsize dk) N ltac:(lia)) as Q. destruct (pdivv K (dsize dk) N) as (q, r). destruct Q as (_ & _ & _ & Lq & _). cbn [fst]. etransitivity; [exact Lq|].
    assert (forall a b c : list K, length a = dsize dk -> length b = dsize dk -> length c = dsize dk -> (length (pmul (pmul a b) c) <= 3 * dsize dk - 2)%nat) as P3.
    { intros a b c l1 l2 l3. pose proof (length_pmul1 K (pmul a b) c ltac:(lia)). pose proof (length_pmul1 K a b ltac:(lia)). lia. }
    assert (length N <= 4 * dsize dk - 3)%nat; [|lia]. unfold N, a_num. rewrite length_psub, length_pscale, !length_padd, !length_pscale. fold tp.
    set (Da := a_dn K (dsize dk) (v_alpha K v) be (st_a K ix)). set (Db := a_dn K (dsize dk) (v_alpha K v) be (st_b K ix)). set (Dc := a_dn K (dsize dk) (v_alpha K v) be (st_c K ix)).
    assert (length Da = dsize dk) as lA by (apply LD; assumption). assert (length Db = dsize dk) as lB by (apply LD; assumption). assert (length Dc = dsize dk) as lC by (apply LD; assumption).
    pose proof (P3 (pad K (dsize dk) (st_val K (st_a K ix))) Db Dc (length_pad _ _ La3) lB lC). pose proof (P3 (pad K (dsize dk) (st_val K (st_b K ix))) Dc Da (length_pad _ _ Lb3) lC lA). pose proof (P3 (pad K (dsize dk) (st_val K (st_c K ix))) Da Db (length_pad _ _ Lc3) lA lB).
    pose proof (P3 Da Db Dc lA lB lC) as l0. set (B := pmul (pmul Da Db) Dc) in *. assert (length (pmul B tp) <= 4 * dsize dk - 3)%nat; [|lia].
    destruct tp as [|c tp'] eqn:Etp; [pose proof (length_pmul K B []); cbn [length] in *; lia|]. pose proof (length_pmul1 K B (c :: tp') ltac:(cbn; lia)). lia. }
  (* the polynomials *)
  set (aps := a_polys K ix dx dh dk v be pub). set (polys := index_polys K ix ++ aps).
  assert (Forall (fun q => plain md (q, a_rand K q)) aps) as FA.
  { unfold aps, a_polys. fold tp N. assert (length (List.tl tp) <= dsize dk - 1)%nat as Lt by (destruct tp; cbn [List.tl length] in *; lia).
    repeat (apply Forall_cons; [unfold plain; cbn [lp_poly lp_db length]; repeat split; try lia|]). apply Forall_nil. }
  assert (Forall (fun q => plain md (q, a_rand K q)) (index_polys K ix)) as FI.
  { unfold index_polys, star_polys. cbn [app]. repeat (apply Forall_cons; [unfold plain; cbn [lp_poly lp_db]; repeat split; lia|]). apply Forall_nil. }
  assert (r0 = map (a_rand K) (index_polys K ix)) as Er0 by (apply (commit_norand ck (index_polys K ix)) with (cs := c0); [unfold index_polys, star_polys; cbn [app]; repeat (apply Forall_cons; [split; reflexivity|]); apply Forall_nil|exact E0]).
  assert (triples K PR tau g gam md polys (map (a_rand K) polys) (c0 ++ map (a_commit K PR ck) aps)) as TR.
  { unfold polys. rewrite map_app. apply triples_app; [|apply a_triples; assumption]. rewrite <- Er0. assert (map fst (no_draw K (index_polys K ix)) = index_polys K ix) as <- by reflexivity. apply (commit_triples K PR tau g gam ck md) with (4 := E0); try assumption. unfold no_draw. rewrite Forall_map. unfold index_polys, star_polys. cbn [app]. repeat (apply Forall_cons; [exact I|]). apply Forall_nil. }
  assert (Forall (plain md) (combine polys (map (a_rand K) polys))) as FP.
  { assert (Forall (fun q => plain md (q, a_rand K q)) polys) as F by (apply Forall_app; split; assumption). clear -F. induction F; cbn [map combine]; constructor; auto. }
  set (c3 := map (fun q => lc_cm K PR (a_commit K PR ck q)) aps). set (tr3 := FComms K PR c3 :: tr2). set (ga := fs_gamma K PR ro tr3).
  assert (NoDup (map (lp_label K) polys)) as ND by (apply nodupb_ok; reflexivity).
  destruct (mapR_total (eval_query K polys) (query_set K be ga)) as (vals & Ev).
  { intros x Hx. unfold query_set in Hx. repeat (destruct Hx as [<-|Hx]; [eexists; reflexivity|]). destruct Hx. }
  rewrite Ev. cbn [rbind]. set (xi := fs_xi K PR ro (FEvals K PR vals :: tr3)).
  pose proof (evs_honest K polys (query_set K be ga) vals Ev) as HE. set (evs := map (fun '((l, p), e) => (l, p, e)) (combine (query_set K be ga) vals)) in *.
  destruct (a_batch_ok ck vk md polys (map (a_rand K) polys) (c0 ++ map (a_commit K PR ck) aps) (query_set K be ga) evs xi Hpw Hsd Hvk TR FP) as (pfs & EB & CB).
  - intros l z e Hv (ls & G1 & G2). apply HE; [exact (group_in K _ _ _ _ G1 G2)|]. exact (value_find K polys _ l z e ND Hv).
  - intros l z Hx. unfold query_set in Hx. repeat (destruct Hx as [E|Hx]; [injection E as <- <-; eexists; reflexivity|]). destruct Hx.
  - rewrite EB. cbn [rbind]. eexists. split; [reflexivity|]. unfold verify_proof. cbn [pf_comms pf_evals pf_open]. change (iv_info K PR ivk) with (ix_info K ix). change (iv_comms K PR ivk) with (map (lc_cm K PR) c0). change (iv_vk K PR ivk) with vk.
    rewrite EV. cbn [rbind app]. fold tr1. fold v. fold tr2. fold be. fold tr3. fold ga. fold xi. fold evs.
    unfold degree_bounds. rewrite Xnc, Xdh, Xdk. rewrite (proj2 (Nat.ltb_ge _ _) H2), (proj2 (Nat.ltb_ge _ _) K2). cbn [orb rbind].
    assert (length c0 = 12%nat) as Lc0. { destruct (pc_commit_labels K PR ck _ _ _ E0) as (H & _). apply (f_equal (@length _)) in H. rewrite !map_length in H. rewrite H. reflexivity. }
    rewrite map_length, Lc0.
    assert (map (lc_cm K PR) c0 ++ c3 = map (lc_cm K PR) (c0 ++ map (a_commit K PR ck) aps)) as -> by (rewrite map_app, map_map; reflexivity).
    change poly_labels with (map (lp_label K) polys). change (repeat None 12 ++ repeat None 4 ++ [None; Some (dsize dh - 2)%nat; None] ++ [Some (dsize dk - 2)%nat; None]) with (map (lp_db K) polys).
    assert (map (lp_label K) polys = map (lc_label K PR) (c0 ++ map (a_commit K PR ck) aps) /\ map (lp_db K) polys = map (lc_db K PR) (c0 ++ map (a_commit K PR ck) aps)) as (-> & ->).
    { destruct (pc_commit_labels K PR ck _ _ _ E0) as (H & H'). unfold polys. rewrite !map_app, H, H', !map_map. split; reflexivity. }
    rewrite relabel.
    assert (equality_check K dnew pub evs (mkVS K dh dk v be ga) = Ok true) as ->; [|cbn [rbind negb]; exact CB].
    unfold equality_check. cbn [vs_m vs_beta vs_gamma vs_dh vs_dk]. unfold dom_or. cbn [length]. rewrite Edx. cbn [rbind].
    set (tb := of_nat (dsize dk) * nth 0 tp 0).
    assert (tb / of_nat (dsize dk) = nth 0 tp 0) as Etb by (unfold tb; field; apply Vk).
    unfold get_eval.
    rewrite (HE "mask"%string be (peval [tb * peval (interp K dx (1 :: pub)) be] be)) by (try reflexivity; cbn; tauto). cbn [rbind].
    rewrite (HE "z_a"%string be 0) by (try reflexivity; cbn; tauto). cbn [rbind].
    rewrite (HE "z_b"%string be 0) by (try reflexivity; cbn; tauto). cbn [rbind].
    rewrite (HE "w"%string be 0) by (try reflexivity; cbn; tauto). cbn [rbind].
    rewrite (HE "t"%string be (peval [tb] be)) by (try reflexivity; cbn; tauto). cbn [rbind].
    rewrite (HE "h_1"%string be 0) by (try reflexivity; cbn; tauto). cbn [rbind].
    rewrite (HE "g_1"%string be 0) by (try reflexivity; cbn; tauto). cbn [rbind].
    rewrite (proj2 (feqb_eq K _ _)) by (cbn [peval]; ring). cbn [negb].
    rewrite (HE "h_2"%string ga (peval (fst (pdivv K (dsize dk) N)) ga)) by (try reflexivity; cbn; tauto). cbn [rbind].
    rewrite (HE "g_2"%string ga (peval (List.tl tp) ga)) by (try reflexivity; cbn; tauto). cbn [rbind].
    unfold star_at, get_eval. cbn [append].
    rewrite (HE "a_val"%string ga (peval (st_val K (st_a K ix)) ga)) by (try reflexivity; cbn; tauto). cbn [rbind].
    rewrite (HE "a_row"%string ga (peval (st_row K (st_a K ix)) ga)) by (try reflexivity; cbn; tauto). cbn [rbind].
    rewrite (HE "a_col"%string ga (peval (st_col K (st_a K ix)) ga)) by (try reflexivity; cbn; tauto). cbn [rbind].
    rewrite (HE "a_row_col"%string ga (peval (st_rc K (st_a K ix)) ga)) by (try reflexivity; cbn; tauto). cbn [rbind].
    rewrite (HE "b_val"%string ga (peval (st_val K (st_b K ix)) ga)) by (try reflexivity; cbn; tauto). cbn [rbind].
    rewrite (HE "b_row"%string ga (peval (st_row K (st_b K ix)) ga)) by (try reflexivity; cbn; tauto). cbn [rbind].
    rewrite (HE "b_col"%string ga (peval (st_col K (st_b K ix)) ga)) by (try reflexivity; cbn; tauto). cbn [rbind].
    rewrite (HE "b_row_col"%string ga (peval (st_rc K (st_b K ix)) ga)) by (try reflexivity; cbn; tauto). cbn [rbind].
    rewrite (HE "c_val"%string ga (peval (st_val K (st_c K ix)) ga)) by (try reflexivity; cbn; tauto). cbn [rbind].
    rewrite (HE "c_row"%string ga (peval (st_row K (st_c K ix)) ga)) by (try reflexivity; cbn; tauto). cbn [rbind].
    rewrite (HE "c_col"%string ga (peval (st_col K (st_c K ix)) ga)) by (try reflexivity; cbn; tauto). cbn [rbind].
    rewrite (HE "c_row_col"%string ga (peval (st_rc K (st_c K ix)) ga)) by (try reflexivity; cbn; tauto). cbn [rbind].
    f_equal. apply feqb_eq. specialize (Inn ga). rewrite <- T0 in Inn. unfold vh at 1. rewrite Inn. unfold a_at, b_at, dn. unfold vh. cbn [ps_ix ps peval]. transitivity ((v_a K v * peval (st_val K (st_a K ix)) ga * (v_alpha K v * be - v_alpha K v * peval (st_row K (st_b K ix)) ga - be * peval (st_col K (st_b K ix)) ga + peval (st_rc K (st_b K ix)) ga) * (v_alpha K v * be - v_alpha K v * peval (st_row K (st_c K ix)) ga - be * peval (st_col K (st_c K ix)) ga + peval (st_rc K (st_c K ix)) ga)
     + v_b K v * peval (st_val K (st_b K ix)) ga * (v_alpha K v * be - v_alpha K v * peval (st_row K (st_c K ix)) ga - be * peval (st_col K (st_c K ix)) ga + peval (st_rc K (st_c K ix)) ga) * (v_alpha K v * be - v_alpha K v * peval (st_row K (st_a K ix)) ga - be * peval (st_col K (st_a K ix)) ga + peval (st_rc K (st_a K ix)) ga)
     + v_c K v * peval (st_val K (st_c K ix)) ga * (v_alpha K v * be - v_alpha K v * peval (st_row K (st_a K ix)) ga - be * peval (st_col K (st_a K ix)) ga + peval (st_rc K (st_a K ix)) ga) * (v_alpha K v * be - v_alpha K v * peval (st_row K (st_b K ix)) ga - be * peval (st_col K (st_b K ix)) ga + peval (st_rc K (st_b K ix)) ga)) * ((v_alpha K v ^ dsize dh - 1) * (be ^ dsize dh - 1))
     - (v_alpha K v * be - v_alpha K v * peval (st_row K (st_a K ix)) ga - be * peval (st_col K (st_a K ix)) ga + peval (st_rc K (st_a K ix)) ga) * (v_alpha K v * be - v_alpha K v * peval (st_row K (st_b K ix)) ga - be * peval (st_col K (st_b K ix)) ga + peval (st_rc K (st_b K ix)) ga) * (v_alpha K v * be - v_alpha K v * peval (st_row K (st_c K ix)) ga - be * peval (st_col K (st_c K ix)) ga + peval (st_rc K (st_c K ix)) ga) * (ga * peval (List.tl tp) ga + tb / of_nat (dsize dk))); [rewrite Etb; ring|].
    f_equal. f_equal. f_equal. f_equal. ring.
Qed.
End Top.
End P.
