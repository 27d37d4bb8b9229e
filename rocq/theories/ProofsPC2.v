(** Multi-polynomial openings, batching, binding. *)
From Verif Require Import Field Poly Module ModTac ModelPC SpecPC ProofsPC.
Local Open Scope fld_scope.
Section P.
Variable K : Fld.
Variable PR : Pairing K.
Add Field Kf : (f_laws K).
Notation G := (G1 PR).
Variables (beta : K) (g gam : G) (h : G2 PR).
Notation ped_ := (ped g gam).
Definition good_triple (sd : nat) (p : lpoly K) (r : randomness K) (c : lcomm K PR) : Prop :=
  lc_label K PR c = lp_label K p /\ lc_db K PR c = lp_db K p /\
  cm K PR (lc_cm K PR c) = ped_ (peval (lp_poly K p) beta) (peval (rn K r) beta) /\ (length (rn K r) <= S sd)%nat /\
  match lp_db K p with
  | None => cm_shift K PR (lc_cm K PR c) = None
  | Some b => (b <= sd)%nat /\ exists sc sr, cm_shift K PR (lc_cm K PR c) = Some sc /\ rn_shift K r = Some sr /\
      sc = ped_ (beta ^ (sd - b) * peval (lp_poly K p) beta) (peval sr beta) /\ (length sr <= S sd)%nat
  end.
Inductive triples (sd : nat) : list (lpoly K) -> list (randomness K) -> list (lcomm K PR) -> Prop :=
| tr_nil : triples sd [] [] []
| tr_cons p r c ps rs cs : good_triple sd p r c -> triples sd ps rs cs -> triples sd (p :: ps) (r :: rs) (c :: cs).
Lemma commit_triples ck sd polys cs rs : good_pw K PR beta g gam (ck_pw K PR ck) 0 (S sd) (S sd) -> ck_sd K PR ck = sd ->
  Forall (fun x => match lp_hb K (fst x) with Some b => (b <= sd)%nat | None => True end) polys ->
  pc_commit K PR ck polys = Ok (cs, rs) -> triples sd (map fst polys) rs cs.
Proof.
  intros Hpw Hsd F. revert cs rs. induction F as [|[p [d1 d2]] polys Hp F IH]; intros cs rs E; cbn [pc_commit] in E.
  - injection E as <- <-. constructor.
  - destruct (commit_one K PR ck p d1 d2) as [[c r]| |] eqn:E1; try discriminate. cbn [rbind] in E.
    destruct (pc_commit K PR ck polys) as [[cs' rs']| |] eqn:E2; try discriminate. cbn [rbind] in E. injection E as <- <-. cbn [map fst].
    constructor; [|apply IH; reflexivity]. clear IH E2. cbn [fst] in Hp. unfold commit_one in E1.
    destruct (kzg_commit K PR (ck_pw K PR ck) (lp_poly K p) (lp_hb K p) d1) as [[c0 r0]| |] eqn:Ec; try discriminate. cbn [rbind] in E1.
    assert (Hb : (match lp_hb K p with Some b => b < S sd | None => True end)%nat) by (destruct (lp_hb K p); [lia|exact I]).
    destruct (commit_ok K PR beta g gam _ 0 (S sd) (S sd) _ _ _ _ _ Hpw Hb Ec) as (-> & Lr & C & Ln & L1).
    assert (Ep : ped_ (beta ^ 0 * peval (lp_poly K p) beta) (peval r0 beta) = ped_ (peval (lp_poly K p) beta) (peval r0 beta)) by (f_equal; cbn [fpow]; ring).
    rewrite Ep in E1. unfold good_triple. destruct (lp_db K p) as [b|] eqn:Eb.
    + unfold shifted_powers in E1. rewrite Hsd in E1. destruct (Nat.ltb_spec sd b) as [|Lb]; [discriminate|].
      match type of E1 with context [kzg_commit K PR ?sp _ _ _] => set (spw := sp) in E1 end.
      assert (Hs : good_pw K PR beta g gam spw (sd - b) (S b) (S sd)).
      { destruct Hpw as [P1 P2]. split; [|exact P2]. unfold spw. cbn [pg]. rewrite P1, skipn_map_seq. do 2 f_equal. lia. }
      destruct (kzg_commit K PR spw (lp_poly K p) (lp_hb K p) d2) as [[sc sr]| |] eqn:Es; try discriminate. cbn [rbind] in E1. injection E1 as <- <-.
      destruct (commit_ok K PR beta g gam _ _ _ _ _ _ _ _ _ Hs Hb Es) as (-> & Lr' & _).
      cbn. repeat split; auto. do 2 eexists. repeat split; auto.
    + injection E1 as <- <-. cbn. repeat split; auto.
Qed.
Lemma peval_shift_poly p n x : peval (shift_poly K p n) x = x ^ n * peval p x.
Proof.
  unfold shift_poly. destruct (forallb _ p) eqn:E.
  - apply forallb_zero in E. rewrite (peval_zero K p x E). cbn [peval]. ring.
  - rewrite peval_ptrim, peval_app, peval_repeat0, repeat_length. ring.
Qed.
Lemma peval_acc p f q x : peval (acc_poly K p f q) x = peval p x + f * peval q x.
Proof. unfold acc_poly. rewrite peval_ptrim, peval_padd, peval_pscale. reflexivity. Qed.
Lemma length_acc p f q : (length (acc_poly K p f q) <= Nat.max (length p) (length q))%nat.
Proof. unfold acc_poly. etransitivity; [apply length_ptrim|]. rewrite length_padd, length_pscale. lia. Qed.
Lemma loops sd z xi ps rs cs : triples sd ps rs cs -> forall p r c v chal, c = ped_ (peval p beta) (peval r beta) -> v = peval p z -> (length r <= S sd)%nat ->
  exists p' r', open_loop K sd xi (combine ps rs) p r chal = Ok (p', r') /\ (length r' <= S sd)%nat /\
    acc_loop K PR sd z xi (combine cs (map (fun q => peval (lp_poly K q) z) ps)) c v chal = Ok (ped_ (peval p' beta) (peval r' beta), peval p' z).
Proof.
  induction 1 as [|p0 r0 c0 ps rs cs GT T IH]; intros p r c v chal Hc Hv Hr.
  - exists p, r. cbn. rewrite Hc, Hv. auto.
  - destruct GT as (_ & Edb & Ecm & Lr & Sh). cbn [combine map open_loop acc_loop]. rewrite Edb. destruct (lp_db K p0) as [b|] eqn:Eb.
    + destruct Sh as (Lb & sc & sr & E1 & E2 & E3 & Ls). rewrite E1, E2. destruct (Nat.ltb_spec sd b); [lia|]. apply IH.
      * rewrite Hc, Ecm, E3, !peval_acc, peval_shift_poly. unfold ped. gmod; ring.
      * rewrite Hv, !peval_acc, peval_shift_poly. ring.
      * pose proof (length_acc (acc_poly K r chal (rn K r0)) (chal * xi) sr). pose proof (length_acc r chal (rn K r0)). lia.
    + rewrite Sh. apply IH.
      * rewrite Hc, Ecm, !peval_acc. unfold ped. gmod; ring.
      * rewrite Hv, peval_acc. ring.
      * pose proof (length_acc r chal (rn K r0)). lia.
Qed.
Theorem open_check_multi ck vk sd ps rs cs z xi pf : good_pw K PR beta g gam (ck_pw K PR ck) 0 (S sd) (S sd) -> ck_sd K PR ck = sd -> good_vk K PR beta g gam h vk sd ->
  triples sd ps rs cs -> pc_open K PR ck ps z xi rs = Ok pf -> pc_check K PR vk cs z (map (fun q => peval (lp_poly K q) z) ps) pf xi = Ok true.
Proof.
  intros Hpw Hsd Hvk T E. unfold pc_open in E. rewrite Hsd in E.
  destruct (loops sd z xi ps rs cs T [] [] g0 0 1) as (p' & r' & E1 & Lr & E2); [unfold ped; cbn [peval]; gmod; ring|reflexivity|cbn; lia|].
  rewrite E1 in E. cbn [rbind] in E. unfold pc_check. assert (Es : vk_sd K PR vk = sd) by (rewrite Hvk; reflexivity). rewrite Es, E2. cbn [rbind].
  apply (open_check K PR beta g gam h (ck_pw K PR ck) (S sd) (S sd) sd vk p' r' z pf Hpw Hvk); [lia|exact E].
Qed.
(** ** batches *)
Lemma triples_lookup sd ps rs cs l : triples sd ps rs cs ->
  match lookup_last (fun x => lp_label K (fst x)) l (combine ps rs), lookup_last (lc_label K PR) l cs with
  | Some (p, r), Some c => good_triple sd p r c /\ In p ps /\ lp_label K p = l
  | None, None => True
  | _, _ => False
  end.
Proof.
  induction 1 as [|p0 r0 c0 ps rs cs GT T IH]; [exact I|]. cbn [combine lookup_last].
  destruct (lookup_last _ l (combine ps rs)) as [[p r]|], (lookup_last _ l cs) as [c|]; try contradiction.
  - destruct IH as (A & B & C). split; [exact A|]. split; [right; exact B|exact C].
  - cbn [fst]. destruct GT as (El & GT). rewrite El. destruct (String.eqb_spec (lp_label K p0) l); [|exact I]. split; [split; assumption|]. split; [left; reflexivity|assumption].
Qed.
Definition value_of (ps : list (lpoly K)) (rs : list (randomness K)) (l : string) (z : K) : option K :=
  match lookup_last (fun x => lp_label K (fst x)) l (combine ps rs) with Some (p, _) => Some (peval (lp_poly K p) z) | None => None end.
Lemma group_mapR sd ps rs cs evs z labels prs : triples sd ps rs cs ->
  (forall l v, In l labels -> value_of ps rs l z = Some v -> ev_get K evs l z = Some v) ->
  mapR (fun l => match lookup_last (fun x => lp_label K (fst x)) l (combine ps rs) with None => Err MissingPolynomial | Some x => Ok x end) labels = Ok prs ->
  exists cs', mapR (fun lb => match lookup_last (lc_label K PR) lb cs with
                             | None => Err MissingPolynomial
                             | Some c => match ev_get K evs lb z with None => Err MissingEvaluation | Some v => Ok (c, v) end
                             end) labels = Ok (combine cs' (map (fun q => peval (lp_poly K q) z) (map fst prs))) /\ triples sd (map fst prs) (map snd prs) cs'.
Proof.
  intros T. revert prs. induction labels as [|l labels IH]; intros prs Hev E; cbn [mapR] in E.
  - injection E as <-. exists []. split; [reflexivity|constructor].
  - pose proof (triples_lookup sd ps rs cs l T) as HL. destruct (lookup_last (fun x => lp_label K (fst x)) l (combine ps rs)) as [[p r]|] eqn:El; [|discriminate]. cbn [rbind] in E.
    destruct (mapR _ labels) as [prs'| |] eqn:Em; try discriminate. cbn [rbind] in E. injection E as <-.
    destruct (IH prs' (fun l0 v I0 => Hev l0 v (or_intror I0)) eq_refl) as (cs' & E2 & T2). clear IH. destruct (lookup_last (lc_label K PR) l cs) as [c|] eqn:Ec; [|contradiction]. destruct HL as (GT & _ & _).
    exists (c :: cs'). cbn [mapR]. rewrite Ec. rewrite (Hev l (peval (lp_poly K p) z)) by (try (left; reflexivity); unfold value_of; rewrite El; reflexivity). cbn [rbind].
    rewrite E2. cbn [rbind map fst snd combine]. split; [reflexivity|]. constructor; assumption.
Qed.
Lemma combine_map_fst {A B} (l : list A) (m : list B) : length l = length m -> map fst (combine l m) = l.
Proof. revert m. induction l as [|a l IH]; intros [|b m] L; cbn in *; try lia; [reflexivity|]. f_equal. apply IH. lia. Qed.
Lemma combine_map_snd {A B} (l : list A) (m : list B) : length l = length m -> map snd (combine l m) = m.
Proof. revert m. induction l as [|a l IH]; intros [|b m] L; cbn in *; try lia; [reflexivity|]. f_equal. apply IH. lia. Qed.
Lemma triples_len sd ps rs cs : triples sd ps rs cs -> length ps = length cs.
Proof. induction 1; cbn; congruence. Qed.
Theorem batch_complete ck vk sd ps rs cs qs evs xi pfs : good_pw K PR beta g gam (ck_pw K PR ck) 0 (S sd) (S sd) -> ck_sd K PR ck = sd -> good_vk K PR beta g gam h vk sd ->
  triples sd ps rs cs -> (forall l z v, value_of ps rs l z = Some v -> (exists ls, In (z, ls) (group K qs) /\ In l ls) -> ev_get K evs l z = Some v) ->
  batch_open K PR ck ps qs xi rs = Ok pfs -> batch_check K PR vk cs qs evs pfs xi = Ok true.
Proof.
  intros Hpw Hsd Hvk T Hev E. unfold batch_open in E. unfold batch_check.
  enough (H : forall gr pfs, (forall z ls, In (z, ls) gr -> In (z, ls) (group K qs)) ->
    mapR (fun '(point, labels) => rbind (mapR (fun l => match lookup_last (fun x => lp_label K (fst x)) l (combine ps rs) with None => Err MissingPolynomial | Some x => Ok x end) labels) (fun prs =>
      pc_open K PR ck (map fst prs) point xi (map snd prs))) gr = Ok pfs -> length gr = length pfs /\ check_loop K PR vk cs evs xi (combine gr pfs) true = Ok true).
  { destruct (H (group K qs) pfs (fun z ls I => I) E) as [L H']. rewrite L, Nat.eqb_refl. cbn [negb]. exact H'. }
  clear E pfs. induction gr as [|[z ls] gr IH]; intros pfs Hin E; cbn [mapR] in E.
  - injection E as <-. split; reflexivity.
  - destruct (mapR _ ls) as [prs| |] eqn:Em; try discriminate. cbn [rbind] in E.
    destruct (pc_open K PR ck (map fst prs) z xi (map snd prs)) as [pf| |] eqn:Ep; try discriminate. cbn [rbind] in E.
    destruct (mapR _ gr) as [pfs'| |] eqn:Eg; try discriminate. cbn [rbind] in E. injection E as <-.
    destruct (IH pfs' (fun z0 l0 I0 => Hin z0 l0 (or_intror I0)) eq_refl) as [L H]. split; [cbn; lia|]. cbn [combine check_loop].
    destruct (group_mapR sd ps rs cs evs z ls prs T) with (2 := Em) as (cs' & E2 & T2).
    { intros l v Il Hv. apply Hev; [exact Hv|]. exists ls. split; [apply Hin; left; reflexivity|exact Il]. }
    rewrite E2. cbn [rbind]. pose proof (triples_len _ _ _ _ T2) as Lt. rewrite combine_map_fst, combine_map_snd by (rewrite map_length; lia).
    rewrite (open_check_multi ck vk sd _ _ _ z xi pf Hpw Hsd Hvk T2 Ep). cbn [rbind andb]. exact H.
Qed.
(** ** binding *)
Hypothesis h_faithful : forall a b : G, pair_e a h = pair_e b h -> a = b.
Theorem binding vk sd c z v1 v2 pf1 pf2 : good_vk K PR beta g gam h vk sd -> kzg_check K PR vk c z v1 pf1 = Ok true -> kzg_check K PR vk c z v2 pf2 = Ok true ->
  let rv pf := match k_rand_v K PR pf with Some r => r | None => 0 end in
  ped_ (v2 - v1) (rv pf2 - rv pf1) = gsm (beta - z) (gadd (k_w K PR pf1) (gopp (k_w K PR pf2))).
Proof.
  intros Hvk H1 H2 rv. rewrite (check_exact K PR beta g gam h vk sd) in H1, H2 by exact Hvk. injection H1 as H1. injection H2 as H2. apply geqb_eq, h_faithful in H1. apply geqb_eq, h_faithful in H2.
  assert (E : forall pf, (match k_rand_v K PR pf with Some r => gopp (gsm r gam) | None => g0 end) = gopp (gsm (rv pf) gam)).
  { intro pf. unfold rv. destruct (k_rand_v K PR pf); [reflexivity|]. gmod; ring. }
  rewrite E in H1, H2. assert (E2 : gsm (beta - z) (gopp (k_w K PR pf2)) = gopp (gsm (beta - z) (k_w K PR pf2))) by (gmod; ring). rewrite gsm_add_r, E2, <- H1, <- H2. unfold ped. gmod; ring.
Qed.
Lemma gsm_nz (x : K) (a : G) : x <> 0 -> a <> g0 -> gsm x a <> g0.
Proof. intros Hx Ha H. apply Ha. rewrite <- (gsm_1 _ _ a), <- (finv_l K x Hx), gsm_mul, H. apply gsm_g0. Qed.
(** The largest hiding bound accepted by commit makes every opening fail. *)
Theorem hiding_edge ck vk sd p dr c r z : good_pw K PR beta g gam (ck_pw K PR ck) 0 (S sd) (S sd) -> good_vk K PR beta g gam h vk sd ->
  length dr = S (S sd) -> last dr 0 <> 0 -> beta <> 0 -> gam <> g0 ->
  kzg_commit K PR (ck_pw K PR ck) p (Some (S sd)) dr = Ok (c, r) ->
  exists pf, kzg_open K PR (ck_pw K PR ck) p z r = Ok pf /\ kzg_check K PR vk c z (peval p z) pf = Ok false.
Proof.
  intros Hpw Hvk Ld Hl Hb Hg E. destruct (kzg_commit K PR (ck_pw K PR ck) p None []) as [[c0 r0]| |] eqn:E0.
  - destruct (commit_ok K PR beta g gam _ 0 (S sd) (S sd) p None [] c0 r0 Hpw I E0) as (Ec0 & _ & C & Ln & L1).
    destruct (open_total K PR beta g gam _ (S sd) (S sd) p r z Hpw C ltac:(lia)) as [pf Ep]. exists pf. split; [exact Ep|].
    assert (Er : r = dr /\ r0 = [] /\ c = gadd c0 (msm (pgam K PR (ck_pw K PR ck)) dr)).
    { unfold kzg_commit in E, E0. destruct (degree K p); try discriminate. cbn [rbind] in E, E0. destruct (check_degree _ _); try discriminate. cbn [rbind] in E, E0.
      destruct (msm_from _ _ _ _) as [w| |]; try discriminate. cbn [rbind] in E, E0. destruct (check_hiding _ _); try discriminate. cbn [rbind] in E.
      injection E0 as <- <-. rewrite firstn_all2 in E by lia. rewrite ptrim_id in E by (intros _; exact Hl). injection E as <- <-. auto. }
    destruct Er as (-> & -> & ->). assert (Ld' : (length dr <= S (S sd))%nat) by lia. pose proof (open_check K PR beta g gam h _ (S sd) (S sd) sd vk p dr z pf Hpw Hvk Ld' Ep) as Hc.
    rewrite (check_exact K PR beta g gam h vk sd) in Hc |- * by exact Hvk. injection Hc as Hc. apply geqb_eq in Hc. f_equal. apply geqb_neq. rewrite <- Hc. intro H. apply h_faithful in H.
    destruct Hpw as [P1 P2]. rewrite P2, msm_powers, Ec0 in H. unfold ped in H.
    destruct (@exists_last _ dr) as (dl & d & Edr); [intro Hn; rewrite Hn in Ld; discriminate|]. rewrite Edr, last_last in Hl. rewrite Edr, app_length in Ld. cbn [length] in Ld.
    rewrite Edr in H. rewrite firstn_app, firstn_all2 in H by lia. replace (S sd - length dl)%nat with 0%nat in H by lia. cbn [firstn] in H. rewrite app_nil_r in H.
    rewrite peval_app in H. cbn [peval] in H. replace (length dl) with (S sd) in H by lia.
    apply (gsm_nz (d * beta ^ S sd) gam); [apply f_mul_nz; [exact Hl|apply fpow_nz; exact Hb]|exact Hg|].
    apply gsub_0, (f_equal gopp) in H. rewrite gopp_0 in H. etransitivity; [|exact H]. clear H. cbn [peval fpow]. destruct (k_rand_v K PR pf); gmod; ring.
  - exfalso. unfold kzg_commit in E, E0. destruct (degree K p); try discriminate. cbn [rbind] in E, E0. destruct (check_degree _ _); try discriminate. cbn [rbind] in E, E0.
    destruct (msm_from _ _ _ _) as [w| |]; discriminate.
  - exfalso. unfold kzg_commit in E, E0. destruct (degree K p); try discriminate. cbn [rbind] in E, E0. destruct (check_degree _ _); try discriminate. cbn [rbind] in E, E0.
    destruct (msm_from _ _ _ _) as [w| |]; discriminate.
Qed.
Theorem binding_extract vk sd c z v1 v2 pf1 pf2 : good_vk K PR beta g gam h vk sd -> kzg_check K PR vk c z v1 pf1 = Ok true -> kzg_check K PR vk c z v2 pf2 = Ok true ->
  v1 <> v2 -> beta <> z -> k_rand_v K PR pf1 = k_rand_v K PR pf2 ->
  gsm (finv (beta - z)) g = gsm (finv (v2 - v1)) (gadd (k_w K PR pf1) (gopp (k_w K PR pf2))).
Proof.
  intros Hvk H1 H2 Hv Hb Hr. pose proof (binding vk sd c z v1 v2 pf1 pf2 Hvk H1 H2) as B. cbv beta zeta in B. rewrite Hr in B. unfold ped in B.
  assert (B' : gsm (v2 - v1) g = gsm (beta - z) (gadd (k_w K PR pf1) (gopp (k_w K PR pf2)))) by (rewrite <- B; gmod; ring). clear B.
  assert (N1 : v2 - v1 <> 0) by (intro H; apply (proj1 (fsub_0 _ _ _)) in H; congruence). assert (N2 : beta - z <> 0) by (intro H; apply (proj1 (fsub_0 _ _ _)) in H; congruence).
  assert (Eg : g = gsm (finv (v2 - v1)) (gsm (v2 - v1) g)) by (rewrite <- gsm_mul, finv_l by exact N1; symmetry; apply gsm_1).
  rewrite Eg, B', <- !gsm_mul. f_equal. field. split; assumption.
Qed.
End P.
(** ** end to end, from the setup *)
Section Q.
Variable K : Fld.
Variable PR : Pairing K.
Add Field Kf2 : (f_laws K).
Variables (beta : K) (g gam : G1 PR) (h : G2 PR).
Variables (n sd : nat) (ck : ckey K PR) (vk : vkey K PR).
Hypothesis T : kzg_trim K PR (kzg_setup K PR n beta g gam h) sd = Ok (ck, vk).
Theorem single_complete p hb dr z : canonical p -> (1 < length p <= S sd)%nat ->
  match hb with Some b => 1 <= b <= sd | None => True end%nat ->
  exists c r pf, kzg_commit K PR (ck_pw K PR ck) p hb dr = Ok (c, r) /\ kzg_open K PR (ck_pw K PR ck) p z r = Ok pf /\ kzg_check K PR vk c z (peval p z) pf = Ok true.
Proof.
  intros C L Hb. destruct (trim_ok K PR beta g gam h n sd ck vk T) as (Ln & Hpw & Hsd & Hvk).
  destruct (commit_total K PR beta g gam _ 0 (S sd) (S sd) p hb dr Hpw C L) as (c & r & E); [destruct hb; [lia|exact I]|].
  destruct (commit_ok K PR beta g gam _ 0 (S sd) (S sd) p hb dr c r Hpw) with (2 := E) as (Ec & Lr & _); [destruct hb; [lia|exact I]|].
  destruct (open_total K PR beta g gam _ (S sd) (S sd) p r z Hpw C) as [pf Ep]; [lia|]. exists c, r, pf. split; [exact E|]. split; [exact Ep|].
  replace c with (ped g gam (peval p beta) (peval r beta)); [apply (open_check K PR beta g gam h _ (S sd) (S sd) sd vk p r z pf Hpw Hvk); [lia|exact Ep]|].
  rewrite Ec. f_equal. cbn [fpow]. ring.
Qed.
Theorem multi_complete polys cs rs z xi pf :
  Forall (fun x => match lp_hb K (fst x) with Some b => (b <= sd)%nat | None => True end) polys ->
  pc_commit K PR ck polys = Ok (cs, rs) -> pc_open K PR ck (map fst polys) z xi rs = Ok pf ->
  pc_check K PR vk cs z (map (fun q => peval (lp_poly K q) z) (map fst polys)) pf xi = Ok true.
Proof.
  intros F E Eo. destruct (trim_ok K PR beta g gam h n sd ck vk T) as (Ln & Hpw & Hsd & Hvk).
  pose proof (commit_triples K PR beta g gam ck sd polys cs rs Hpw Hsd F E) as Tr. exact (open_check_multi K PR beta g gam h ck vk sd _ _ _ z xi pf Hpw Hsd Hvk Tr Eo).
Qed.
Theorem batch_complete_setup polys cs rs qs evs xi pfs :
  Forall (fun x => match lp_hb K (fst x) with Some b => (b <= sd)%nat | None => True end) polys ->
  pc_commit K PR ck polys = Ok (cs, rs) ->
  (forall l z v, value_of K (map fst polys) rs l z = Some v -> (exists ls, In (z, ls) (group K qs) /\ In l ls) -> ev_get K evs l z = Some v) ->
  batch_open K PR ck (map fst polys) qs xi rs = Ok pfs -> batch_check K PR vk cs qs evs pfs xi = Ok true.
Proof.
  intros F E Hev Eo. destruct (trim_ok K PR beta g gam h n sd ck vk T) as (Ln & Hpw & Hsd & Hvk).
  pose proof (commit_triples K PR beta g gam ck sd polys cs rs Hpw Hsd F E) as Tr. exact (batch_complete K PR beta g gam h ck vk sd _ _ _ qs evs xi pfs Hpw Hsd Hvk Tr Hev Eo).
Qed.
Theorem constants_rejected pw c hb dr r z : kzg_commit K PR pw [c] hb dr = Err DegreeIsZero /\ kzg_commit K PR pw [] hb dr = Err DegreeIsZero /\ kzg_open K PR pw [c] z r = Err DegreeIsZero.
Proof. unfold kzg_commit, kzg_open, degree. cbn [forallb last length]. destruct (feqb c 0); repeat split; reflexivity. Qed.
Theorem out_of_bound_rejected p hb dr : canonical p -> (S sd < length p)%nat -> kzg_commit K PR (ck_pw K PR ck) p hb dr = Err DegreeOutOfBound.
Proof.
  intros C L. destruct (trim_ok K PR beta g gam h n sd ck vk T) as (Ln & [P1 _] & Hsd & Hvk). unfold kzg_commit. rewrite degree_canonical by exact C. cbn [rbind].
  unfold check_degree, pow_degree. rewrite P1, map_length, seq_length. destruct (Nat.ltb_spec (length p - 1) 1); [lia|]. destruct (Nat.ltb_spec (S sd - 1) (length p - 1)); [reflexivity|lia].
Qed.
Theorem hiding_edge_setup p dr z : (forall a b : G1 PR, pair_e a h = pair_e b h -> a = b) -> beta <> 0 -> gam <> g0 -> canonical p -> (1 < length p <= S sd)%nat ->
  length dr = S (S sd) -> last dr 0 <> 0 ->
  exists c r pf, kzg_commit K PR (ck_pw K PR ck) p (Some (S sd)) dr = Ok (c, r) /\ kzg_open K PR (ck_pw K PR ck) p z r = Ok pf /\ kzg_check K PR vk c z (peval p z) pf = Ok false.
Proof.
  intros Hf Hb Hg C L Ld Hl. destruct (trim_ok K PR beta g gam h n sd ck vk T) as (Ln & Hpw & Hsd & Hvk).
  destruct (commit_total K PR beta g gam _ 0 (S sd) (S sd) p (Some (S sd)) dr Hpw C L) as (c & r & E); [lia|].
  destruct (hiding_edge K PR beta g gam h Hf ck vk sd p dr c r z Hpw Hvk Ld Hl Hb Hg E) as (pf & E1 & E2). exists c, r, pf. auto.
Qed.
Theorem binding_setup c z v1 v2 pf1 pf2 : (forall a b : G1 PR, pair_e a h = pair_e b h -> a = b) ->
  kzg_check K PR vk c z v1 pf1 = Ok true -> kzg_check K PR vk c z v2 pf2 = Ok true ->
  let rv pf := match k_rand_v K PR pf with Some r => r | None => 0 end in
  ped g gam (v2 - v1) (rv pf2 - rv pf1) = gsm (beta - z) (gadd (k_w K PR pf1) (gopp (k_w K PR pf2))).
Proof. intros Hf. destruct (trim_ok K PR beta g gam h n sd ck vk T) as (Ln & Hpw & Hsd & Hvk). exact (binding K PR beta g gam h Hf vk sd c z v1 v2 pf1 pf2 Hvk). Qed.
(** Extraction: either the q-SDH element, or (when the blinding parts differ) a discrete-logarithm-type relation between g and gamma. *)
Theorem extract_setup c z v1 v2 pf1 pf2 : (forall a b : G1 PR, pair_e a h = pair_e b h -> a = b) ->
  kzg_check K PR vk c z v1 pf1 = Ok true -> kzg_check K PR vk c z v2 pf2 = Ok true -> v1 <> v2 -> beta <> z -> k_rand_v K PR pf1 = k_rand_v K PR pf2 ->
  gsm (finv (beta - z)) g = gsm (finv (v2 - v1)) (gadd (k_w K PR pf1) (gopp (k_w K PR pf2))).
Proof. intros Hf. destruct (trim_ok K PR beta g gam h n sd ck vk T) as (Ln & Hpw & Hsd & Hvk). exact (binding_extract K PR beta g gam h Hf vk sd c z v1 v2 pf1 pf2 Hvk). Qed.
(** The verdict on a claimed value of an honest commitment: for a fixed non-hiding proof at most one value is accepted. *)
Theorem one_value_per_proof c z v1 v2 pf : (forall a b : G1 PR, pair_e a h = pair_e b h -> a = b) -> g <> g0 ->
  kzg_check K PR vk c z v1 pf = Ok true -> kzg_check K PR vk c z v2 pf = Ok true -> v1 = v2.
Proof.
  intros Hf Hg H1 H2. pose proof (binding_setup c z v1 v2 pf pf Hf H1 H2) as B. cbv beta zeta in B. unfold ped in B.
  assert (B' : gsm (v2 - v1) g = g0) by (etransitivity; [|etransitivity; [exact B|]]; gmod; ring).
  destruct (feq_dec K (v2 - v1) 0) as [E|E]; [apply (proj1 (fsub_0 _ _ _)) in E; congruence|]. exfalso. exact (gsm_nz K PR _ _ E Hg B').
Qed.
End Q.
