(** Marlin: two runs of the first two rounds on coins related by [transfer] look alike at tau and at beta. *)
From Coq Require Import String Bool Lia List.
From Verif Require Import ModelMarlin SpecLC SpecCS SpecMarlin SpecPC ProofsPC ProofsPC2 ProofsMarlinCS ProofsMarlin ProofsMarlin2 ProofsMarlin3 ProofsMarlin4 ProofsMarlin8.
From Verif Require Import Field Poly Module ModelLC ModelCS SpecMarlinZk ProofsMarlinZk2.
From Coq Require Import List.
Import ListNotations.
Local Open Scope list_scope.
Local Open Scope fld_scope.
Section P.
Variable K : Fld.
Add Field Kfzk3 : (f_laws K).
(** A multiple of X^h - 1 that vanishes often enough is zero. *)
Lemma mul_zero (d : dom K) h (q : list K) : (0 < h)%nat -> valid_dom d -> (h + length q <= dsize d)%nat -> (forall y, (y ^ h - 1) * peval q y = 0) -> is_zero q.
Proof.
  intros Hh V L E. assert (Z : is_zero (psub (repeat 0 h ++ q) q)).
  { apply (roots_zero K (dpts d)); [apply V|rewrite length_dpts, length_psub, app_length, repeat_length; lia|]. intros y _. rewrite peval_psub, peval_app, peval_repeat0, repeat_length. transitivity ((y ^ h - 1) * peval q y); [ring|apply E]. }
  rewrite zero_nth in Z |- *. intro i. induction i as [i IH] using lt_wf_ind. specialize (Z i). rewrite nth_psub in Z. apply (proj1 (fsub_0 K _ _)) in Z. rewrite <- Z.
  destruct (Nat.lt_ge_cases i h) as [H|H]; [rewrite app_nth1, nth_repeat by (rewrite repeat_length; exact H); reflexivity|]. rewrite app_nth2, repeat_length by (rewrite repeat_length; exact H). apply IH. lia.
Qed.
(** Division by X^h - 1 is unique. *)
Lemma div_unique (dh d : dom K) (q r : list K) : valid_dom dh -> valid_dom d -> (length q <= dsize d - dsize dh)%nat -> (length r <= dsize dh)%nat ->
  (forall y, (y ^ dsize dh - 1) * peval q y + peval r y = 0) -> is_zero q /\ is_zero r.
Proof.
  intros Vh V Lq Lr E. assert (is_zero r) as R.
  { apply (roots_zero K (dpts dh)); [apply Vh|rewrite length_dpts; exact Lr|]. intros y Hy. apply (in_dpts K dh Vh) in Hy. specialize (E y). rewrite Hy in E. rewrite <- E. ring. }
  split; [|exact R]. destruct (Nat.lt_ge_cases (dsize d) (dsize dh)) as [H|H]; [destruct q; [constructor|cbn [length] in Lq; lia]|].
  apply (mul_zero d (dsize dh)); [apply Vh|exact V|lia|]. intro y. specialize (E y). rewrite (peval_zero K r y R) in E. rewrite <- E. ring.
Qed.
Section Two.
Variable dnew : nat -> option (dom K).
Hypothesis Hdom : forall n d, dnew n = Some d -> valid_dom d /\ (n <= dsize d)%nat.
Variables dx dh : dom K.
Variable p : nat.
Hypothesis Vx : valid_dom dx.
Hypothesis Vh : valid_dom dh.
Hypothesis Hs : dsize dh = (dsize dx * p)%nat.
Hypothesis Hg : dgen dx = dgen dh ^ p.
Notation x := (dsize dx).
Notation h := (dsize dh).
Notation w := (dgen dh).
Variable ix : index K.
Variable xs : list K.
Hypothesis Enx : dnew (length xs) = Some dx.
Variable v : vmsg K.
Hypothesis Hal : v_alpha K v ^ h <> 1.
Definition rp_ : list K := ModelMarlin.trim K (idft dh (batch_evals K dh (v_alpha K v))).
Definition tp_ : list K := match t_evals K ix h x v (batch_evals K dh (v_alpha K v)) with Ok te => interp K dh te | _ => [] end.
Definition xp_ : list K := interp K dx xs.
Definition we_ (ps : pstate K) : list K := match w_evals K h x (ps_w K ps ++ repeat 0 (h - x - length (ps_w K ps))) (dft dh xp_) with Ok we => we | _ => [] end.
Definition side_of (ps : pstate K) : side K := mkSide K (we_ ps) (ps_za K ps) (ps_zb K ps).
Notation SS_ := (SS K dx dh rp_ tp_ xp_ (v_a K v) (v_b K v) (v_c K v)).
Record fits (ps : pstate K) : Prop := {
  ft_x : ps_dx K ps = dx; ft_h : ps_dh K ps = dh; ft_i : ps_x K ps = xs; ft_ix : ps_ix K ps = ix;
  ft_a : Forall (cols_lt K h) (ix_a K ix); ft_b : Forall (cols_lt K h) (ix_b K ix); ft_c : Forall (cols_lt K h) (ix_c K ix); ft_lc : (length (ix_c K ix) <= h)%nat;
  ft_sat : msat (zcol K dx ps) (ix_a K ix) (ix_b K ix) (ix_c K ix);
  ft_la : length (ps_za K ps) = length (ix_a K ix); ft_lb : length (ps_zb K ps) = length (ix_b K ix);
  ft_za : forall i, (i < length (ix_a K ix))%nat -> nth i (ps_za K ps) 0 = row_val (zcol K dx ps) (nth i (ix_a K ix) []);
  ft_zb : forall i, (i < length (ix_b K ix))%nat -> nth i (ps_zb K ps) 0 = row_val (zcol K dx ps) (nth i (ix_b K ix) []) }.
(** What the first round gives, whatever the challenges will be. *)
Record facts1 (ps : pstate K) (rw ra rb : K) (cf : list K) (o1 : oracles1 K) : Prop := {
  fc_w : o_w K o1 = wq K dx dh (we_ ps) rw; fc_we : forall y, (y ^ x - 1) * peval (o_w K o1) y = peval (blind K dh (we_ ps) rw) y; fc_lw : (length (o_w K o1) <= S h - x)%nat;
  fc_a : o_za K o1 = blind K dh (ps_za K ps) ra; fc_b : o_zb K o1 = blind K dh (ps_zb K ps) rb;
  fc_m : forall y, peval (o_mask K o1) y = peval cf y - finv (of_nat h) * sumn h (fun i => peval cf (w ^ i));
  fc_sum : sumn h (fun i => peval (SS_ (side_of ps) rw ra rb) (w ^ i)) = 0;
  fc_len : (length (SS_ (side_of ps) rw ra rb) <= 3 * h)%nat }.
(** What the second round adds. *)
Record facts2 (ps : pstate K) (rw ra rb : K) (o1 : oracles1 K) (o2 : oracles2 K) : Prop := {
  fc_t : o_t K o2 = tp_; fc_g : (length (o_g1 K o2) <= h - 1)%nat; fc_h : exists d : dom K, valid_dom d /\ (length (o_h1 K o2) <= dsize d - h)%nat;
  fc_id : forall y, peval (o_mask K o1) y + peval (SS_ (side_of ps) rw ra rb) y = peval (o_h1 K o2) y * (y ^ h - 1) + y * peval (o_g1 K o2) y }.
Lemma tp_len : (length tp_ <= h)%nat.
Proof. unfold tp_. destruct (t_evals _ _ _ _ _ _); [apply (length_interp K dh)|cbn; lia|cbn; lia]. Qed.
Lemma rp_len : (length rp_ <= h)%nat.
Proof. unfold rp_. pose proof (length_trim K (idft dh (batch_evals K dh (v_alpha K v)))) as L. rewrite length_idft in L. exact L. Qed.
Lemma S_len s rw ra rb : (length (wq K dx dh (sw K s) rw) <= S h - x)%nat -> (length (SS_ s rw ra rb) <= 3 * h)%nat.
Proof.
  intro L. unfold SS, Spoly. pose proof rp_len as Lr. pose proof tp_len as Lt. pose proof (proj1 Vx) as Hx. pose proof (proj1 Vh) as Hh. rewrite length_psub.
  pose proof (length_blind K dh Vh (sva K s) ra) as La. pose proof (length_blind K dh Vh (svb K s) rb) as Lb. set (za := blind K dh (sva K s) ra) in *. set (zb := blind K dh (svb K s) rb) in *. set (wp := wq K dx dh (sw K s) rw) in *.
  assert (Lxp : (length xp_ <= x)%nat) by apply (length_interp K dx). assert (x <= h)%nat by (rewrite Hs in *; destruct p; nia).
  assert (A : (length (pmul za zb) <= 2 * h + 1)%nat).
  { destruct zb as [|b0 zb'] eqn:Ez; [pose proof (length_pmul K za []); cbn [length] in *; lia|]. pose proof (length_pmul1 K za (b0 :: zb') ltac:(cbn; lia)). lia. }
  assert (B : (length (pmul (xpow1 K x) wp) <= S h)%nat).
  { destruct wp as [|w0 wp'] eqn:Ew; [pose proof (length_pmul K (xpow1 K x) []); rewrite (len_xpow1 K x Hx) in *; cbn [length] in *; lia|]. pose proof (length_pmul1 K (xpow1 K x) (w0 :: wp') ltac:(cbn; lia)). rewrite (len_xpow1 K x Hx) in *. lia. }
  set (m := padd (padd (pscale (v_a K v) za) (pscale (v_b K v) zb)) (pscale (v_c K v) (pmul za zb))). assert (Lm : (length m <= 2 * h + 1)%nat) by (unfold m; rewrite !length_padd, !length_pscale; lia).
  set (z := padd (pmul (xpow1 K x) wp) xp_). assert (Lz : (length z <= S h)%nat) by (unfold z; rewrite length_padd; lia).
  assert ((length (pmul rp_ m) <= 3 * h)%nat). { destruct m as [|m0 m'] eqn:Em; [pose proof (length_pmul K rp_ []); cbn [length] in *; lia|]. pose proof (length_pmul1 K rp_ (m0 :: m') ltac:(cbn; lia)). lia. }
  assert ((length (pmul tp_ z) <= 3 * h)%nat). { destruct z as [|m0 m'] eqn:Em; [pose proof (length_pmul K tp_ []); cbn [length] in *; lia|]. pose proof (length_pmul1 K tp_ (m0 :: m') ltac:(cbn; lia)). lia. }
  lia.
Qed.
Lemma S_eval s rw ra rb y : peval (SS_ s rw ra rb) y = peval rp_ y * (v_a K v * peval (blind K dh (sva K s) ra) y + v_b K v * peval (blind K dh (svb K s) rb) y + v_c K v * (peval (blind K dh (sva K s) ra) y * peval (blind K dh (svb K s) rb) y))
  - peval tp_ y * ((y ^ x - 1) * peval (wq K dx dh (sw K s) rw) y + peval xp_ y).
Proof. unfold SS, Spoly. rewrite peval_psub, !peval_pmul, !peval_padd, !peval_pscale, !peval_pmul, (peval_xpow1 K x) by apply Vx. reflexivity. Qed.
Lemma make_facts1 ps rw ra rb cf o1 : fits ps -> rw <> 0 -> length cf = (3 * h)%nat -> first_round K ps rw ra rb cf = Ok o1 -> facts1 ps rw ra rb cf o1.
Proof.
  intros [] Nw Lcf E1. pose proof (first_ok K dx dh p Vx Vh Hs Hg ps ft_x0 ft_h0 rw ra rb Nw cf o1 E1) as [_ Hz Oa Ob _].
  assert (F1 : o_w K o1 = wq K dx dh (we_ ps) rw /\ (forall y, (y ^ x - 1) * peval (o_w K o1) y = peval (blind K dh (we_ ps) rw) y) /\ (length (o_w K o1) <= S h - x)%nat /\
    forall y, peval (o_mask K o1) y = peval cf y - finv (of_nat h) * sumn h (fun i => peval cf (w ^ i))).
  { unfold first_round in E1. rewrite ft_x0, ft_h0 in E1. destruct (Nat.ltb_spec h (x + length (ps_w K ps))) as [|Hl]; [discriminate|].
    destruct (first_w K dx dh p Vx Vh Hs Hg (ps_x K ps) (ps_w K ps) rw Hl) as (we & Ew & F). assert (we_ ps = we) as -> by (unfold we_, xp_; rewrite <- ft_i0, Ew; reflexivity). rewrite Ew in E1. cbn [rbind] in E1. unfold wq.
    pose proof (pdivv_ok K x (blind K dh we rw) ltac:(apply Vx)) as Q. destruct (pdivv K x (blind K dh we rw)) as (wp, r). destruct F as (-> & _ & _ & Lw & _). destruct Q as (_ & _ & _ & _ & Q).
    rewrite (firstn_all2 cf) in E1 by lia. pose proof (rem_const K dh Vh (ModelMarlin.trim K cf)) as R.
    destruct (get K (snd (pdivv K h (ModelMarlin.trim K cf))) 0) as [sigma| |] eqn:Eg; try discriminate. cbn [rbind] in E1.
    assert (sigma = nth 0 (snd (pdivv K h (ModelMarlin.trim K cf))) 0) as Es. { unfold get in Eg. destruct (snd (pdivv K h (ModelMarlin.trim K cf))) as [|c l]; [discriminate|]. injection Eg as <-. reflexivity. }
    assert (Ec : forall y, peval (ModelMarlin.trim K cf) y = peval cf y) by (intro y; apply peval_trim).
    rewrite (sumn_ext K h _ (fun i => peval cf (w ^ i))) in R by (intros i _; apply Ec). rewrite R in Es. rewrite <- Es.
    destruct (ModelMarlin.trim K cf) as [|m0 m']; [discriminate|]. injection E1 as <-. cbn [o_w o_mask fst]. split; [reflexivity|]. split; [intro y; rewrite (Q y); cbn [peval]; ring|]. split; [exact Lw|].
    intro y. rewrite <- Ec. cbn [peval]. ring. }
  destruct F1 as (Ow & We & Lw & Mk). constructor; auto.
  - assert (Enx' : dnew (length (ps_x K ps)) = Some dx) by (rewrite ft_i0; exact Enx). destruct ft_sat0 as (LAC & LBC & Hsat).
    pose proof (proj1 Vx) as Hx. assert (Hp : (0 < p)%nat) by (pose proof (proj1 Vh) as Hh; rewrite Hs in Hh; destruct p; lia).
    set (bat := batch_evals K dh (v_alpha K v)) in *. assert (length bat = h) as Lbat by (unfold bat, batch_evals; rewrite map_length, length_dpts; reflexivity).
    pose proof (t_evals_ok K x p Hx Hp ix v bat) as T. rewrite <- Hs in T. destruct (T ft_a0 ft_b0 ft_c0 ltac:(lia) ltac:(lia) ltac:(lia)) as (te & Et & Lte & W). clear T.
    assert (Etp : tp_ = interp K dh te) by (unfold tp_; fold bat; rewrite Et; reflexivity).
    assert (forall i, (i < h)%nat -> peval rp_ (w ^ i) = nth i bat 0) as Rb by (intros i Hi; apply (interp_dom K dh Vh), Hi).
    assert (forall i, (i < h)%nat -> peval tp_ (w ^ i) = nth i te 0) as Tb by (intros i Hi; rewrite Etp; apply (interp_dom K dh Vh), Hi).
    assert (MF : forall (m : list (list (K * nat))) u, Forall (cols_lt K h) m -> mform K m u (fun j => zvec K p (ps_x K ps) (ps_w K ps) (pos h x j)) = sumn (length m) (fun l => u l * row_val (zcol K dx ps) (nth l m []))) by (intros m u F; exact (mform_z K dnew Hdom dx dh p Vx Vh Hs Hg ps Enx' m u F)).
    rewrite (sumn_ext K h _ (fun i => nth i bat 0 * (v_a K v * nth i (ps_za K ps) 0 + v_b K v * nth i (ps_zb K ps) 0 + v_c K v * (nth i (ps_za K ps) 0 * nth i (ps_zb K ps) 0)) - nth i te 0 * zvec K p (ps_x K ps) (ps_w K ps) i)).
    2:{ intros i Hi. rewrite S_eval. cbn [side_of sw sva svb]. rewrite <- Ow, !(blind_dom K dh Vh), Rb, Tb by exact Hi. rewrite <- (Hz i Hi), ft_i0. reflexivity. }
    rewrite sumn_sub. transitivity (wsum K te (zvec K p (ps_x K ps) (ps_w K ps)) - wsum K te (zvec K p (ps_x K ps) (ps_w K ps))); [|ring]. f_equal; [|unfold wsum; rewrite Lte; reflexivity].
    rewrite W, !MF by assumption. rewrite LAC, LBC. rewrite <- !sumn_mul_l, <- !sumn_add. rewrite (sumn_trunc K (length (ix_c K ix))); [|exact ft_lc0|].
    + apply sumn_ext. intros i Hi. rewrite ft_za0, ft_zb0 by lia. rewrite <- Hsat by exact Hi. ring.
    + intros i Hi. rewrite !(nth_overflow (ps_za K ps)), !(nth_overflow (ps_zb K ps)) by lia. ring.
  - apply S_len. cbn [side_of sw]. rewrite <- Ow. exact Lw.
Qed.
Lemma make_facts2 ps rw ra rb cf o1 o2 : fits ps -> rw <> 0 -> ra <> 0 -> rb <> 0 -> length cf = (3 * h)%nat ->
  first_round K ps rw ra rb cf = Ok o1 -> second_round K dnew ps o1 v = Ok o2 -> facts2 ps rw ra rb o1 o2.
Proof.
  intros F Nw Na Nb Lcf E1 E2. destruct (make_facts1 ps rw ra rb cf o1 F Nw Lcf E1) as [Ow _ _ Oa Ob _ _ _].
  destruct F. assert (Enx' : dnew (length (ps_x K ps)) = Some dx) by (rewrite ft_i0; exact Enx). rewrite <- ft_ix0 in ft_a0, ft_b0, ft_c0, ft_lc0, ft_sat0, ft_la0, ft_lb0, ft_za0, ft_zb0.
  destruct (second_ok K dnew Hdom dx dh p Vx Vh Hs Hg ps ft_x0 ft_h0 Enx' ft_a0 ft_b0 ft_c0 ft_lc0 ft_sat0 ft_la0 ft_lb0 ft_za0 ft_zb0 rw ra rb Nw Na Nb cf v Hal o1 o2 E1 E2) as (H2 & Id & _).
  assert (F2 : o_t K o2 = tp_ /\ (length (o_g1 K o2) <= h - 1)%nat /\ exists d : dom K, valid_dom d /\ (length (o_h1 K o2) <= dsize d - h)%nat).
  { unfold second_round in E2. rewrite ft_h0 in E2. unfold dom_or at 1 in E2. rewrite Enx' in E2. cbn [rbind] in E2. unfold tp_. rewrite <- ft_ix0.
    destruct (t_evals K (ps_ix K ps) h x v (batch_evals K dh (v_alpha K v))) as [te| |]; try discriminate. cbn [rbind] in E2. unfold dom_or in E2.
    match type of E2 with context [dnew ?n] => destruct (dnew n) as [d|] eqn:Ed; [|discriminate] end. cbn [rbind] in E2. destruct (Hdom _ _ Ed) as (Vd & Ld).
    match type of E2 with context [pdivv K h ?q] => set (q1 := q) in * end.
    assert (Lq : (length q1 <= dsize d)%nat).
    { unfold q1. match goal with |- (length (ModelMarlin.trim K ?l) <= _)%nat => pose proof (length_trim K l) as L end. rewrite length_padd in L. match type of L with context [interp K d ?e] => pose proof (length_interp K d e) end. lia. }
    pose proof (pdivv_ok K h q1 ltac:(apply Vh)) as Q. destruct (pdivv K h q1) as (h1, xg1). destruct Q as (_ & _ & L1 & L2 & _).
    destruct xg1 as [|c0 g1]; [discriminate|]. destruct (Nat.ltb h 2); [discriminate|]. injection E2 as <-. cbn [o_t o_g1 o_h1]. split; [reflexivity|]. cbn [length] in L1. pose proof (length_trim K g1). split; [lia|]. exists d. split; [exact Vd|lia]. }
  destruct F2 as (Ot & Lg & Lh).
  assert (Er : forall y, peval rp_ y = bivariate_eval K dh (v_alpha K v) y) by (intro y; apply (r_alpha_eval K dh Vh); exact Hal).
  constructor; auto. intro y. rewrite <- Id, S_eval. cbn [side_of sw sva svb]. rewrite <- Ow, <- Oa, <- Ob, Er, Ot. unfold xp_. rewrite <- ft_i0. ring.
Qed.
(** The comparison. *)
Variables tau a be : K.
Hypothesis Hbe : be ^ h <> 1.
Hypothesis Htb : be <> tau.
Hypothesis Ht0 : tau <> 0.
Variable e : nat.
Hypothesis H3 : (3 <= h)%nat.
Notation tr := (transfer K dx dh tau a be e rp_ tp_ xp_ (v_a K v) (v_b K v) (v_c K v)).
Lemma be_x : be ^ x - 1 <> 0.
Proof. intro E. apply (proj1 (fsub_0 K _ _)) in E. apply Hbe. rewrite Hs, fpow_mul, E. apply fpow_1. Qed.
Lemma be_h : be ^ h - 1 <> 0.
Proof. intro E. apply (proj1 (fsub_0 K _ _)) in E. exact (Hbe E). Qed.
Lemma tb : tau - be <> 0.
Proof. intro E. apply (proj1 (fsub_0 K _ _)) in E. apply Htb. symmetry. exact E. Qed.
Lemma rho_same v1 v2 r : peval (blind K dh v2 (rho K dh be v1 v2 r)) be = peval (blind K dh v1 r) be.
Proof. rewrite !(peval_blind K dh Vh). unfold rho. field. exact be_h. Qed.
Lemma kap_ok p1 p2 y : kap K tau a be p1 p2 * (y - be) = a * (peval p1 tau - peval p2 tau) * (y - be) * finv (tau - be).
Proof. unfold kap. ring. Qed.
Definition cof (s1 s2 : side K) (co : coins K) : K := cc_ K tau be (SS_ s1 (c_w K co) (c_za K co) (c_zb K co))
  (SS_ s2 (rho K dh be (sw K s1) (sw K s2) (c_w K co)) (rho K dh be (sva K s1) (sva K s2) (c_za K co)) (rho K dh be (svb K s1) (svb K s2) (c_zb K co))).
Theorem compare1 ps1 ps2 co o1 o1' : shaped h co -> let co' := tr (side_of ps1) (side_of ps2) co in let c := cof (side_of ps1) (side_of ps2) co in
  facts1 ps1 (c_w K co) (c_za K co) (c_zb K co) (c_mask K co) o1 -> facts1 ps2 (c_w K co') (c_za K co') (c_zb K co') (c_mask K co') o1' ->
  peval (o_w K o1) be = peval (o_w K o1') be /\ peval (o_za K o1) be = peval (o_za K o1') be /\ peval (o_zb K o1) be = peval (o_zb K o1') be /\
  peval (o_mask K o1) be = peval (o_mask K o1') be /\ peval (o_mask K o1) tau = peval (o_mask K o1') tau /\
  forall y, peval (o_mask K o1') y = peval (o_mask K o1) y + (peval (SS_ (side_of ps1) (c_w K co) (c_za K co) (c_zb K co)) y - peval (SS_ (side_of ps2) (c_w K co') (c_za K co') (c_zb K co')) y + c * (y * (y - be))).
Proof.
  intros (Lm & _ & _) co' c F F'. destruct F as [W We Lw A B M Sm Ln]. destruct F' as [W' We' Lw' A' B' M' Sm' Ln'].
  set (S1 := SS_ (side_of ps1) (c_w K co) (c_za K co) (c_zb K co)) in *. set (S2 := SS_ (side_of ps2) (c_w K co') (c_za K co') (c_zb K co')) in *.
  assert (Hw : peval (o_w K o1) be = peval (o_w K o1') be). { apply (f_mul_cancel_l K (be ^ x - 1)); [exact be_x|]. rewrite We, We'. symmetry. apply rho_same. }
  assert (Ha : peval (o_za K o1) be = peval (o_za K o1') be) by (rewrite A, A'; symmetry; apply rho_same).
  assert (Hb : peval (o_zb K o1) be = peval (o_zb K o1') be) by (rewrite B, B'; symmetry; apply rho_same).
  assert (HS : peval S1 be = peval S2 be).
  { unfold S1, S2. rewrite !S_eval. cbn [side_of sw sva svb]. rewrite <- W, <- W', <- A, <- A', <- B, <- B', Hw, Ha, Hb. reflexivity. }
  assert (Hc : c * (tau * (tau - be)) = peval S2 tau - peval S1 tau). { unfold c, cof, cc_. fold S1. change (SS_ (side_of ps2) _ _ _) with S2. field. split; [exact tb|exact Ht0]. }
  assert (HL : forall y, peval (lam K be c) y = c * (y * (y - be))) by (intro y; unfold lam; cbn [peval]; ring).
  assert (HL0 : sumn h (fun i => peval (lam K be c) (w ^ i)) = 0).
  { pose proof (sum_shift K dh [- (c * be); c] Vh ltac:(cbn; lia)) as Z. rewrite <- Z. apply sumn_ext. intros i _. unfold lam. cbn [peval]. ring. }
  assert (Mc : forall y, peval (c_mask K co') y = peval (c_mask K co) y + (peval S1 y - peval S2 y + peval (lam K be c) y)).
  { intro y. unfold co', transfer. cbn [c_mask]. rewrite peval_addv; [|exact Lm|].
    - rewrite peval_padd, peval_psub. reflexivity.
    - rewrite length_padd, length_psub. cbn [lam length]. change (SS_ (side_of ps2) _ _ _) with S2. fold S1. lia. }
  assert (Mo : forall y, peval (o_mask K o1') y = peval (o_mask K o1) y + (peval S1 y - peval S2 y + c * (y * (y - be)))).
  { intro y. rewrite M, M', Mc, HL. rewrite (sumn_ext K h (fun i => peval (c_mask K co') (w ^ i)) (fun i => peval (c_mask K co) (w ^ i) + (peval S1 (w ^ i) - peval S2 (w ^ i) + peval (lam K be c) (w ^ i)))) by (intros i _; apply Mc).
    rewrite !sumn_add, sumn_sub, Sm, Sm', HL0. ring. }
  split; [exact Hw|]. split; [exact Ha|]. split; [exact Hb|]. split; [rewrite Mo, HS; ring|]. split; [rewrite Mo, Hc; ring|exact Mo].
Qed.
Theorem compare2 ps1 ps2 co o1 o2 o1' o2' : shaped h co -> let co' := tr (side_of ps1) (side_of ps2) co in let c := cof (side_of ps1) (side_of ps2) co in
  facts1 ps1 (c_w K co) (c_za K co) (c_zb K co) (c_mask K co) o1 -> facts1 ps2 (c_w K co') (c_za K co') (c_zb K co') (c_mask K co') o1' ->
  facts2 ps1 (c_w K co) (c_za K co) (c_zb K co) o1 o2 -> facts2 ps2 (c_w K co') (c_za K co') (c_zb K co') o1' o2' ->
  o_t K o2 = o_t K o2' /\ (forall y, peval (o_h1 K o2) y = peval (o_h1 K o2') y) /\ (forall y, peval (o_g1 K o2') y = peval (o_g1 K o2) y + c * (y - be)).
Proof.
  intros Sh co' c F1 F1' [T Lg Lh Id] [T' Lg' Lh' Id']. destruct (compare1 ps1 ps2 co o1 o1' Sh F1 F1') as (_ & _ & _ & _ & _ & Mo). fold co' in Mo. fold c in Mo.
  set (S1 := SS_ (side_of ps1) (c_w K co) (c_za K co) (c_zb K co)) in *. set (S2 := SS_ (side_of ps2) (c_w K co') (c_za K co') (c_zb K co')) in *.
  assert (HL : forall y, peval (lam K be c) y = c * (y * (y - be))) by (intro y; unfold lam; cbn [peval]; ring).
  assert (U : is_zero (psub (o_h1 K o2') (o_h1 K o2)) /\ is_zero (psub (0 :: psub (o_g1 K o2') (o_g1 K o2)) (lam K be c))).
  { destruct Lh as (d1 & V1 & L1). destruct Lh' as (d2 & V2 & L2).
    assert (exists d : dom K, valid_dom d /\ (dsize d1 <= dsize d)%nat /\ (dsize d2 <= dsize d)%nat) as (d & V & D1 & D2) by (destruct (Nat.le_ge_cases (dsize d1) (dsize d2)); [exists d2|exists d1]; auto).
    apply (div_unique dh d); auto.
    - rewrite length_psub. lia.
    - rewrite length_psub. cbn [length lam]. rewrite length_psub. lia.
    - intro y. rewrite !peval_psub, HL. cbn [peval]. rewrite peval_psub. specialize (Id y). specialize (Id' y). rewrite Mo in Id'. set (u := peval (o_mask K o1) y) in *. set (s1 := peval S1 y) in *. set (s2 := peval S2 y) in *.
      transitivity ((peval (o_h1 K o2') y * (y ^ h - 1) + y * peval (o_g1 K o2') y) - (peval (o_h1 K o2) y * (y ^ h - 1) + y * peval (o_g1 K o2) y) - c * (y * (y - be))); [ring|]. rewrite <- Id, <- Id'. ring. }
  destruct U as (U1 & U2). split; [rewrite T, T'; reflexivity|]. split.
  - intro y. pose proof (peval_zero K _ y U1) as Z. rewrite peval_psub in Z. apply (proj1 (fsub_0 K _ _)) in Z. symmetry. exact Z.
  - intro y. rewrite zero_nth in U2. assert (E : peval (psub (o_g1 K o2') (o_g1 K o2)) y = peval [- (c * be); c] y).
    { apply nth_eq_peval. intro i. specialize (U2 (S i)). rewrite nth_psub in U2. apply (proj1 (fsub_0 K _ _)) in U2. exact U2. }
    rewrite peval_psub in E. cbn [peval] in E. transitivity (peval (o_g1 K o2') y - peval (o_g1 K o2) y + peval (o_g1 K o2) y); [ring|]. rewrite E. ring.
Qed.
End Two.
End P.
