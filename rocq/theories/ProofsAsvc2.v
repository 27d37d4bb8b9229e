(** The vector commitment protocol. *)
From Verif Require Import Field Poly Module ModTac ModelPC SpecPC ProofsPC ModelAsvc SpecAsvc ProofsAsvc.
Local Open Scope fld_scope.
Section P.
Variable K : Fld.
Variable PR : Pairing K.
Add Field Kf : (f_laws K).
Notation ptrim := (ptrim K).
Lemma mapR_inv {A B} (f : A -> res B) (g : A -> B) l : forall ks, mapR f l = Ok ks -> (forall x y, In x l -> f x = Ok y -> y = g x) ->
  ks = map g l /\ forall x, In x l -> f x = Ok (g x).
Proof.
  induction l as [|x l IH]; intros ks H E; cbn [mapR] in H.
  - inversion H. split; [reflexivity|]. intros ? [].
  - destruct (f x) as [y|e|] eqn:F; try discriminate. cbn [rbind] in H. destruct (mapR f l) as [ys|e|]; try discriminate. cbn [rbind] in H.
    inversion H; subst. destruct (IH ys eq_refl) as [-> I]. { intros; apply E; [right; assumption|assumption]. }
    pose proof (E x y (or_introl eq_refl) F) as ->. split; [reflexivity|]. intros z [<-|J]; [exact F|]. apply I; exact J.
Qed.
Lemma rdiv_inv (a b c : K) : rdiv a b = Ok c -> b <> 0 /\ c = a / b.
Proof. unfold rdiv. destruct (feqb_spec _ b 0) as [->|H]; [discriminate|]. intro E; inversion E. split; [exact H|reflexivity]. Qed.
Lemma rdiv_ok (a b : K) : b <> 0 -> rdiv a b = Ok (a / b).
Proof. intro H. unfold rdiv. apply feqb_neq in H. rewrite H. reflexivity. Qed.
Lemma msm_powers2 (beta : K) (g : G2 PR) n : forall s p, msm (map (fun i => gsm (beta ^ i) g) (seq s n)) p = gsm (beta ^ s * peval (firstn n p) beta) g.
Proof.
  induction n as [|n IH]; intros s p; cbn [seq map msm firstn].
  - cbn [peval]. gmod. ring.
  - destruct p as [|c p]; cbn [msm firstn peval]; [gmod; ring|]. rewrite IH. cbn [fpow]. gmod. ring.
Qed.
Lemma msm_powers_le2 beta (g : G2 PR) n p : (length p <= n)%nat -> msm (map (fun i => gsm (beta ^ i) g) (seq 0 n)) p = gsm (peval p beta) g.
Proof. intro H. rewrite msm_powers2, firstn_all2 by exact H. f_equal. cbn [fpow]. ring. Qed.
(** ** loops over the points *)
Section W.
Variable omega : K.
Notation pw := (fun i : nat => omega ^ i).
Variable points : list nat.
Notation xs := (map pw points).
Notation A := (root_poly omega points).
Lemma quot_nodup pt : NoDup xs -> In pt points -> exists q, pquot A (lin_poly omega pt) = Ok q /\ (length q <= length points)%nat /\
  (forall t, peval q t = van (others (omega ^ pt) xs) t) /\ peval q (omega ^ pt) <> 0.
Proof.
  intros N I. apply in_split in I. destruct I as (l1 & l2 & E). rewrite E in *. destruct (pquot_root K omega l1 pt l2) as (q & -> & L & V).
  exists q. split; [reflexivity|]. split; [rewrite app_length in *; cbn [length]; lia|].
  rewrite map_app in N |- *. cbn [map] in N |- *. rewrite others_split by exact N. rewrite <- map_app. split; [exact V|].
  rewrite V. apply van_nz. rewrite map_app. apply NoDup_remove in N. apply N.
Qed.
Lemma nth_pmul_const (p q : list K) i : (length q <= 1)%nat -> nth i (pmul p q) 0 = nth i p 0 * nth 0 q 0.
Proof.
  intro L. revert i. induction p as [|a p IH]; intro i; [destruct i; cbn; ring|]. cbn [pmul]. rewrite nth_padd, nth_pscale.
  destruct i as [|i]; cbn [nth]; [ring|]. rewrite IH, (nth_over K q (S i)) by lia. ring.
Qed.
Lemma r_loop_ok : NoDup xs -> forall l, (forall pt, In pt (map fst l) -> In pt points) -> forall r, (length r <= length points)%nat ->
  exists r', r_loop omega A l r = Ok r' /\ (length r' <= length points)%nat /\
  forall t, peval r' t = peval r t + fsum (map (fun '(pt, v) => v * lag xs (omega ^ pt) t) l).
Proof.
  intros N. induction l as [|[pt v] l IH]; intros H r L; cbn [r_loop].
  - exists r. split; [reflexivity|]. split; [exact L|]. intro t. cbn. ring.
  - destruct (quot_nodup pt N (H pt (or_introl eq_refl))) as (q & -> & Lq & V & Z). cbn [rbind]. rewrite rdiv_ok by exact Z. cbn [rbind].
    set (c := v / peval q (omega ^ pt)).
    assert (LC : (length (ptrim [c]) <= 1)%nat) by (apply (length_ptrim K [c])).
    destruct (IH (fun x I => H x (or_intror I)) (ptrim (padd r (ptrim (pmul q (ptrim [c])))))) as (r' & -> & L' & V').
    { apply length_ptrim_le. intros i Hi. rewrite nth_padd, nth_ptrim, nth_pmul_const by exact LC. rewrite !nth_over by lia. ring. }
    exists r'. split; [reflexivity|]. split; [exact L'|]. intro t. rewrite V'. rewrite peval_ptrim, peval_padd, peval_ptrim, peval_pmul, peval_ptrim.
    cbn [map]. rewrite fsum_cons, V. cbn [peval]. unfold c. rewrite V. rewrite V in Z. unfold lag. field. exact Z.
Qed.
Lemma interp_points vs t : fsum (map (fun '(pt, v) => v * lag xs (omega ^ pt) t) (combine points vs)) = interp_at xs vs t.
Proof.
  unfold interp_at. f_equal. assert (H : forall zs l us, map (fun '(pt, v) => v * lag zs (omega ^ pt) t) (combine l us) = map (fun '(x, v) => v * lag zs x t) (combine (map pw l) us)); [|apply H].
  intro zs. induction l as [|p l IH]; intros [|v us]; cbn; try reflexivity. rewrite IH. reflexivity.
Qed.
Lemma in_combine_fst {B} (l : list nat) (m : list B) x : In x (map fst (combine l m)) -> In x l.
Proof. revert m. induction l as [|a l IH]; intros [|b m]; cbn; try tauto. intros [<-|H]; [left; reflexivity|right; eapply IH; exact H]. Qed.
Lemma dup_r_loop pt v l r : In (pt, v) l -> (forall p, In p (map fst l) -> In p points) ->
  (exists l1 l2, points = l1 ++ pt :: l2 /\ In (omega ^ pt) (map pw (l1 ++ l2))) -> r_loop omega A l r = Panic.
Proof.
  revert r. induction l as [|[p u] l IH]; intros r I H D; [destruct I|]. cbn [r_loop].
  destruct (in_split p points (H p (or_introl eq_refl))) as (m1 & m2 & E). destruct (pquot_root K omega m1 p m2) as (q & Eq & _ & V).
  rewrite E, Eq, <- E. cbn [rbind]. destruct I as [I|I].
  - inversion I; subst p u. destruct D as (l1 & l2 & E2 & D). unfold rdiv.
    assert (Z : peval q (omega ^ pt) = 0).
    { destruct (pquot_root K omega l1 pt l2) as (q2 & Eq2 & _ & V2). rewrite <- E2 in Eq2. rewrite <- E in Eq. rewrite Eq in Eq2. inversion Eq2; subst q2. rewrite V2. apply van_root, D. }
    rewrite Z, feqb_refl. reflexivity.
  - destruct (rdiv u (peval q (omega ^ p))) as [c|e|] eqn:R; cbn [rbind]; [apply IH; [exact I| |exact D]; intros; apply H; right; assumption| |reflexivity].
    unfold rdiv in R. destruct (feqb _ 0); discriminate.
Qed.
Lemma not_nodup_split : ~ NoDup xs -> exists l1 pt l2, points = l1 ++ pt :: l2 /\ In (omega ^ pt) (map pw (l1 ++ l2)).
Proof.
  intro H. assert (D : forall l, ~ NoDup (map pw l) -> exists l1 pt l2, l = l1 ++ pt :: l2 /\ In (omega ^ pt) (map pw (l1 ++ l2))); [|apply D, H].
  clear. induction l as [|p l IH]; intro H; [exfalso; apply H; constructor|]. cbn [map] in H.
  destruct (in_dec (feq_dec K) (omega ^ p) (map pw l)) as [I|I].
  - exists [], p, l. split; [reflexivity|exact I].
  - destruct IH as (l1 & pt & l2 & -> & D); [intro N; apply H; constructor; assumption|]. exists (p :: l1), pt, l2. split; [reflexivity|]. right. exact D.
Qed.
Lemma agg_ok : NoDup xs -> forall l, (forall pt, In pt (map fst l) -> In pt points) -> forall acc : G1 PR,
  agg_loop omega A l acc = Ok (fold_left (fun a '(pt, w) => gadd a (gsm (1 / van (others (omega ^ pt) xs) (omega ^ pt)) w)) l acc).
Proof.
  intros N. induction l as [|[pt w] l IH]; intros H acc; cbn [agg_loop]; [reflexivity|].
  destruct (quot_nodup pt N (H pt (or_introl eq_refl))) as (q & -> & _ & V & Z). cbn [rbind]. rewrite rdiv_ok by exact Z. cbn [rbind].
  rewrite IH by (intros; apply H; right; assumption). cbn [fold_left]. rewrite V. reflexivity.
Qed.
Lemma dup_agg pt (v : G1 PR) l acc : In (pt, v) l -> (forall p, In p (map fst l) -> In p points) ->
  (exists l1 l2, points = l1 ++ pt :: l2 /\ In (omega ^ pt) (map pw (l1 ++ l2))) -> agg_loop omega A l acc = Panic.
Proof.
  revert acc. induction l as [|[p u] l IH]; intros r I H D; [destruct I|]. cbn [agg_loop].
  destruct (in_split p points (H p (or_introl eq_refl))) as (m1 & m2 & E). destruct (pquot_root K omega m1 p m2) as (q & Eq & _ & V).
  rewrite E, Eq, <- E. cbn [rbind]. destruct I as [I|I].
  - inversion I; subst p u. destruct D as (l1 & l2 & E2 & D). unfold rdiv.
    assert (Z : peval q (omega ^ pt) = 0).
    { destruct (pquot_root K omega l1 pt l2) as (q2 & Eq2 & _ & V2). rewrite <- E2 in Eq2. rewrite <- E in Eq. rewrite Eq in Eq2. inversion Eq2; subst q2. rewrite V2. apply van_root, D. }
    rewrite Z, feqb_refl. reflexivity.
  - destruct (rdiv 1 (peval q (omega ^ p))) as [c|e|] eqn:R; cbn [rbind]; [apply IH; [exact I| |exact D]; intros; apply H; right; assumption| |reflexivity].
    unfold rdiv in R. destruct (feqb _ 0); discriminate.
Qed.
Lemma in_combine_ex {B} (l : list nat) (m : list B) x : In x l -> (length l <= length m)%nat -> exists y, In (x, y) (combine l m).
Proof.
  revert m. induction l as [|a l IH]; intros [|b m] I L; cbn in *; try tauto; try lia. destruct I as [->|I]; [exists b; left; reflexivity|].
  destruct (IH m I) as [y Hy]; [lia|]. exists y. right. exact Hy.
Qed.
End W.
(** ** the protocol for a key over a valid domain *)
Section D.
Variable dnew : nat -> option (dom K).
Variable d : dom K.
Hypothesis V : valid_dom d.
Notation N := (dsize d).
Notation w := (dgen d).
Variables (tau : K) (g1 : G1 PR) (g2 : G2 PR).
Definition AI (i : nat) : K := (tau ^ N - 1) / (tau - w ^ i).
Definition LL (i : nat) : K := w ^ i / of_nat N * AI i.
Definition UI (i : nat) : K := (LL i - 1) / (tau - w ^ i).
Definition pk0 : svc_pk K PR := mkSPK (map (fun i => gsm (tau ^ i) g1) (seq 0 (S N))) (map (fun i => gsm (LL i) g1) (seq 0 N))
  (map (fun i => mkUpk (gsm (AI i) g1) (gsm (UI i) g1)) (seq 0 N)).
Definition vk0 : svc_vk K PR := mkSVK (map (fun i => gsm (tau ^ i) g1) (seq 0 (S N))) (map (fun i => gsm (tau ^ i) g2) (seq 0 (S N))) (gsm (tau ^ N - 1) g1).
Lemma key_step_val a i : a = gsm (tau ^ N - 1) g1 -> tau - w ^ i <> 0 ->
  key_step d tau g1 a i = Ok (mkUpk (gsm (AI i) g1) (gsm (UI i) g1), gsm (LL i) g1).
Proof.
  intros -> H. unfold key_step. rewrite rdiv_ok by exact H. cbn [rbind]. assert (Hn : @of_nat K N <> 0) by apply V. rewrite rdiv_ok by exact Hn. cbn [rbind].
  unfold UI, LL, AI. f_equal. f_equal; [f_equal|]; gmod; field; auto.
Qed.
Lemma a_val : gadd (gsm (tau ^ N) g1) (gopp g1) = gsm (tau ^ N - 1) g1.
Proof. gmod. ring. Qed.
Lemma key_gen_inv n pk vk : dnew n = Some d -> key_gen dnew n tau g1 g2 = Ok (pk, vk) -> (forall i, (i < N)%nat -> tau - w ^ i <> 0) /\ pk = pk0 /\ vk = vk0.
Proof.
  intros E H. unfold key_gen in H. rewrite E in H. rewrite a_val in H. destruct (mapR _ _) as [ks|e|] eqn:M; try discriminate. cbn [rbind] in H.
  destruct (mapR_inv _ (fun i => (mkUpk (gsm (AI i) g1) (gsm (UI i) g1), gsm (LL i) g1)) _ _ M) as [-> I].
  { intros i y _ S. assert (Z : tau - w ^ i <> 0). { unfold key_step in S. destruct (rdiv 1 (tau - w ^ i)) eqn:R; try discriminate. apply rdiv_inv in R. apply R. }
    rewrite (key_step_val _ i eq_refl Z) in S. inversion S. reflexivity. }
  split.
  - intros i Hi. specialize (I i). rewrite in_seq in I. specialize (I ltac:(lia)). unfold key_step in I. destruct (rdiv 1 (tau - w ^ i)) eqn:R; try discriminate. apply rdiv_inv in R. apply R.
  - inversion H; subst. rewrite !map_map. split; reflexivity.
Qed.
Lemma key_gen_ok n : dnew n = Some d -> (forall i, (i < N)%nat -> tau - w ^ i <> 0) -> key_gen dnew n tau g1 g2 = Ok (pk0, vk0).
Proof.
  intros E H. unfold key_gen. rewrite E, a_val.
  assert (M : forall l, (forall i, In i l -> (i < N)%nat) -> mapR (key_step d tau g1 (gsm (tau ^ N - 1) g1)) l = Ok (map (fun i => (mkUpk (gsm (AI i) g1) (gsm (UI i) g1), gsm (LL i) g1)) l)).
  { induction l as [|i l IH]; intro I; [reflexivity|]. cbn [mapR map]. rewrite key_step_val; [|reflexivity|apply H, I; left; reflexivity]. cbn [rbind].
    rewrite IH by (intros; apply I; right; assumption). reflexivity. }
  rewrite M by (intros i I; apply in_seq in I; lia). cbn [rbind]. rewrite !map_map. reflexivity.
Qed.
Lemma key_gen_panic n i : dnew n = Some d -> (i < N)%nat -> tau = w ^ i -> key_gen dnew n tau g1 g2 = Panic.
Proof.
  intros E Hi T. unfold key_gen. rewrite E.
  assert (M : forall l a, In i l -> (mapR (key_step d tau g1 a) l) = Panic); [|rewrite M; [reflexivity|apply in_seq; lia]].
  induction l as [|j l IH]; intros a I; [destruct I|]. cbn [mapR]. destruct I as [->|I].
  - unfold key_step, rdiv. replace (tau - w ^ i) with (0 : K) by (rewrite T; ring). rewrite feqb_refl. reflexivity.
  - rewrite (IH a I). unfold key_step, rdiv. destruct (feqb (tau - w ^ j) 0); [reflexivity|]. cbn [rbind]. destruct (feqb (of_nat N) 0); reflexivity.
Qed.
Hypothesis T : forall i, (i < N)%nat -> tau - w ^ i <> 0.
Hypothesis DN : dnew N = Some d.
Lemma tauN : tau ^ N <> 1.
Proof.
  intro E. apply (dpts_iff K d V) in E. unfold dpts in E. apply in_map_iff in E. destruct E as (i & E & I). apply in_seq in I. apply (T i); [lia|]. rewrite E. ring.
Qed.
Definition phi (v : list K) : K := peval (idft d v) tau.
Lemma phi_sum v : phi v = sumn N (fun i => LL i * nth i v 0).
Proof.
  unfold phi. rewrite (lagrange_eval K d V) by exact tauN. apply sumn_ext. intros i Hi. unfold LL, AI. assert (Hn : @of_nat K N <> 0) by apply V.
  pose proof (T i Hi). field. auto.
Qed.
Lemma commit_ok0 v : (1 <= length v <= N)%nat -> svc_commit pk0 v = Ok (gsm (phi v) g1).
Proof.
  intros [L1 L2]. unfold svc_commit. cbn [pk_l pk0]. rewrite map_length, seq_length.
  destruct (Nat.ltb_spec (length v) 1); [lia|]. destruct (Nat.ltb_spec N (length v)); [lia|]. cbn [orb]. f_equal.
  rewrite <- (map_map LL (fun x => gsm x g1)), msm_base, dot_sumn, map_length, seq_length, phi_sum. f_equal. apply sumn_ext. intros i Hi. f_equal.
  rewrite (nth_indep _ _ (LL 0)) by (rewrite map_length, seq_length; exact Hi). rewrite map_nth, seq_nth by exact Hi. reflexivity.
Qed.
Lemma pws_nodup points : NoDup points -> (forall i, In i points -> (i < N)%nat) -> NoDup (map (fun i => w ^ i) points).
Proof.
  intros ND. induction ND as [|p l NI ND IH]; intro H; cbn [map]; [constructor|]. constructor; [|apply IH; intros; apply H; right; assumption].
  intro I. apply in_map_iff in I. destruct I as (j & E & J). apply NI. rewrite <- (pow_inj K d V j p); [exact J| | |exact E]; apply H; [right; exact J|left; reflexivity].
Qed.
Lemma prove_ok0 v points : NoDup points -> (forall i, In i points -> (i < N)%nat) ->
  exists Q, prove_pos dnew pk0 v points = Ok (gsm Q g1) /\ Q * van (map (fun i => w ^ i) points) tau = phi v - interp_at (map (fun i => w ^ i) points) (map (entry v) points) tau.
Proof.
  intros ND B. unfold prove_pos. cbn [pk_g1 pk0]. rewrite map_length, seq_length. cbn [Nat.eqb]. replace (S N - 1)%nat with N by lia. rewrite DN.
  set (A := root_poly w points). assert (HA : A <> []) by apply root_nonnil. assert (HL : last A 0 <> 0) by (unfold A; rewrite root_last; apply f_1_neq_0).
  unfold pquot. rewrite (nonzero_ok K A HL). cbn [rbind]. set (P := ptrim (idft d v)). set (q := fst (pdivl A P)).
  exists (peval q tau). split.
  - f_equal. rewrite msm_powers_le; [rewrite peval_ptrim; reflexivity|]. pose proof (length_ptrim K q) as L1. pose proof (pdivl_length K A P HA) as [L2 _]. fold q in L2.
    pose proof (length_ptrim K (idft d v)) as L3. fold P in L3. rewrite length_idft in L3. lia.
  - pose proof (pdivl_eval K A P HA HL) as E. fold q in E. set (r := snd (pdivl A P)) in *. pose proof (pdivl_length K A P HA) as [_ Lr]. fold r in Lr.
    unfold A in Lr. rewrite root_length in Lr. pose proof (pws_nodup points ND B) as NX.
    assert (R : map (entry v) points = map (peval r) (map (fun i => w ^ i) points)).
    { rewrite map_map. apply map_ext_in. intros i I. specialize (E (w ^ i)). unfold A in E. rewrite root_eval, van_root in E by (apply in_map_iff; exists i; split; [reflexivity|exact I]).
      unfold P in E. rewrite peval_ptrim, (idft_dom K d V) in E by (apply B; exact I). unfold entry. rewrite E. ring. }
    rewrite R, interp_self; [|exact NX|rewrite map_length; lia]. specialize (E tau). unfold A in E. rewrite root_eval in E. unfold P in E. rewrite peval_ptrim in E. unfold phi. rewrite E. ring.
Qed.
Lemma van_tau points : (forall i, In i points -> (i < N)%nat) -> van (map (fun i => w ^ i) points) tau <> 0.
Proof. intro B. apply van_nz. intro I. apply in_map_iff in I. destruct I as (i & E & J). apply (T i); [apply B, J|]. rewrite E. ring. Qed.
Lemma verify_ok0 c vals points wt omega : NoDup (map (fun i => omega ^ i) points) -> (length points <= N)%nat ->
  verify_pos vk0 c vals points wt omega =
  Ok (geqb (pair_e (gadd c (gopp (gsm (interp_at (map (fun i => omega ^ i) points) vals tau) g1))) g2) (pair_e wt (gsm (van (map (fun i => omega ^ i) points) tau) g2))).
Proof.
  intros NX L. unfold verify_pos.
  assert (Z0 : ptrim [0] = []). { cbn. rewrite feqb_refl. reflexivity. }
  rewrite Z0. destruct (r_loop_ok omega points NX (combine points vals) (fun pt H => in_combine_fst points vals pt H) []) as (r & -> & Lr & Vr); [cbn; lia|].
  cbn [rbind vk0 vk_g1 vk_g2]. rewrite (msm_powers_le K PR tau g1 (S N) r) by lia. match goal with |- context [msm ?a (root_poly omega points)] => assert (MA : msm a (root_poly omega points) = gsm (van (map (fun i => omega ^ i) points) tau) g2) end.
  { rewrite (msm_powers_le2 tau g2 (S N)) by (rewrite root_length; lia). rewrite root_eval. reflexivity. }
  rewrite MA, Vr, interp_points. cbn [map seq].
  replace (gsm (tau ^ 0) g2) with g2 by (cbn [fpow]; gmod; ring). do 6 f_equal. cbn [peval]. ring.
Qed.
End D.
End P.
