(** The forgery, and totality of the prover. *)
From Coq Require Import Permutation.
From Verif Require Import ModelPlonk SpecPlonk AttackPlonk ProofsPC ProofsPlonk1 ProofsPlonk2 ProofsPlonk3 ProofsPlonk4 ProofsPlonk5 ProofsPlonk6 ProofsPlonk7 ProofsPlonk8.
Local Open Scope fld_scope.
Section P.
Variable K : Fld.
Add Field Kf : (f_laws K).
Lemma opp1_nz : - (1) <> (@f0 K). Proof. intro E. apply (f_1_neq_0 K). transitivity (- - (@f1 K)); [ring|]. rewrite E. ring. Qed.
(** Every gate of the interface has a usable wire. *)
Definition solvable (c : composer K) : Prop := forall i, (i < c_n c)%nat -> nth i (c_q1 c) 0 <> 0 \/ nth i (c_q3 c) 0 <> 0.
Lemma solv_gate c l r o aux qm qc pi c' : pwf K c -> solvable c -> snd l <> 0 \/ snd o <> 0 -> poly_gate c l r o aux qm qc pi = Ok c' -> solvable c'.
Proof.
  intros W S H E. destruct (poly_gate_inv K _ _ _ _ _ _ _ _ _ E) as (m & _ & ->). intros i Hi. cbn [c_n c_q1 c_q3] in *. destruct (wf_q K c W) as (_ & Q1 & _ & Q3 & _).
  rewrite !(nth_snoc _ _ (c_n c)) by assumption. destruct (Nat.eqb_spec i (c_n c)) as [->|D]; [exact H|]. apply S. lia.
Qed.
Lemma solv_ops l : forall c c', pwf K c -> solvable c -> run_ops c l = Ok c' -> solvable c'.
Proof.
  induction l as [|o l IH]; intros c c' W S H; cbn [run_ops] in H; [inversion H; subst; exact S|]. destruct (run_op c o) as [c1| |] eqn:E; try discriminate. cbn [rbind] in H. apply (IH c1 c'); [eapply pwf_op; eauto| |exact H].
  pose proof (f_1_neq_0 K). pose proof opp1_nz. destruct o as [v|v value pi|a b|a b o aux qc pi|a b o aux qm qc pi]; cbn [run_op] in E; unfold constrain_to_constant, assert_equal, add_gate, mul_gate in E;
  [inversion E; subst; exact S|eapply solv_gate; [exact W|exact S| |exact E]; cbn [snd]; tauto..].
Qed.
Variable dnew : nat -> option (dom K).
Variable PC : pcs K.
Variable ro : oracle K PC.
Hypothesis F : fft_ok dnew.
Lemma commit_all_ok srs n ck rk ps rng : pc_total PC -> p_trim PC srs n = Ok (ck, rk) -> (forall p, In p ps -> (length (snd p) <= n)%nat) -> exists crs, commit_all ck ps rng = Ok crs.
Proof.
  intros T E. destruct (T _ _ _ _ E) as [TC _]. unfold commit_all. induction ps as [|p ps IH]; intro H; [eexists; reflexivity|]. cbn [mapR]. destruct (TC (snd p) rng (H p (or_introl eq_refl))) as (cr & ->). cbn [rbind]. destruct IH as (crs & ->); [intros; apply H; right; assumption|]. eexists. reflexivity.
Qed.
Section C.
Variables (ops : list (op K)) (c : composer K) (order : list nat) (ks : list K) (srs : p_srs PC) (rng0 : p_rng PC) (pk : pkey K PC) (vk : vkey K PC).
Hypothesis RO : run_ops (c_new K) ops = Ok c.
Hypothesis O : Permutation order (seq 0 (length (c_vmap c))).
Hypothesis KG : keygen dnew srs c order ks rng0 = Ok (pk, vk).
Lemma polys_small d d4 p (x : index K) w0 w1 w2 w3 z wp zp pip alpha beta gamma t0 t1 t2 t3 : good_index K dnew c ks d d4 p x -> (forall k, (k < 4)%nat -> (length (nth k [w0; w1; w2; w3] []) <= dsize d)%nat) -> (length z <= dsize d)%nat ->
  third_round x wp zp pip alpha beta gamma = [t0; t1; t2; t3] -> forall q, In q (all_polys K x w0 w1 w2 w3 z t0 t1 t2 t3) -> (length (snd q) <= dsize d)%nat.
Proof.
  intros G LW LZ T q I. pose proof (LW 0%nat ltac:(lia)) as L0. pose proof (LW 1%nat ltac:(lia)) as L1. pose proof (LW 2%nat ltac:(lia)) as L2. pose proof (LW 3%nat ltac:(lia)) as L3. cbn [nth] in L0, L1, L2, L3.
  assert (LT : forall k, (length (nth k [t0; t1; t2; t3] []) <= dsize d)%nat). { intro k. rewrite <- T. unfold third_round. rewrite (gi_info _ _ _ _ _ _ _ _ G). cbn [i_dn]. apply quad_length. }
  pose proof (LT 0%nat) as T0. pose proof (LT 1%nat) as T1. pose proof (LT 2%nat) as T2. pose proof (LT 3%nat) as T3. cbn [nth] in T0, T1, T2, T3. clear LT LW T.
  unfold all_polys, index_polys in I. rewrite (gi_q0 _ _ _ _ _ _ _ _ G), (gi_q1 _ _ _ _ _ _ _ _ G), (gi_q2 _ _ _ _ _ _ _ _ G), (gi_q3 _ _ _ _ _ _ _ _ G), (gi_qm _ _ _ _ _ _ _ _ G), (gi_qc _ _ _ _ _ _ _ _ G), (gi_qa _ _ _ _ _ _ _ _ G),
    (gi_s0 _ _ _ _ _ _ _ _ G), (gi_s1 _ _ _ _ _ _ _ _ G), (gi_s2 _ _ _ _ _ _ _ _ G), (gi_s3 _ _ _ _ _ _ _ _ G) in I. cbn [w_labels t_labels combine app In] in I.
  repeat (destruct I as [<-|I]; [cbn [snd]; first [assumption|apply tri_length]|]). destruct I.
Qed.
Lemma forge_iev d d4 p x pub alpha beta gamma : good_index K dnew c ks d d4 p x -> valid_dom d -> (0 < c_n c <= dsize d)%nat ->
  forall i, (i < dsize d)%nat -> iev K ks d x (map (interp d) (a_wit K c pub alpha (dsize d))) (interp d []) (interp d (pub ++ repeat 0 (dsize d - length pub))) alpha beta gamma (dgen d ^ i) = 0.
Proof.
  intros G V [N L] i Hi. pose proof (wfc K ops c RO) as W. assert (S : solvable c) by (eapply (solv_ops ops (c_new K)); [apply pwf_new| |exact RO]; intros j Hj; cbn in Hj; lia).
  rewrite (iev_dom K dnew c ks d d4 p x W L V G) by (try reflexivity; exact Hi). rewrite nth_pad0. unfold a_wit. cbn [nth]. rewrite !nth_ms by exact Hi.
  replace (match i with 0%nat => @f0 K | Datatypes.S _ => @f0 K end) with (@f0 K) by (destruct i; reflexivity). replace (match Nat.modulo (Datatypes.S i) (dsize d) with 0%nat => @f0 K | Datatypes.S _ => @f0 K end) with (@f0 K) by (destruct (Nat.modulo (Datatypes.S i) (dsize d)); reflexivity).
  assert (R : (i < c_n c)%nat -> nth i (c_q1 c) 0 * a_w1 K c pub alpha i + nth i (c_q3 c) 0 * a_w3 K c pub alpha i = a_rhs K c pub alpha i).
  { intro Hc. unfold a_w1, a_w3. cbv zeta. destruct (feqb (nth i (c_q1 c) 0) 0) eqn:E1.
    - apply feqb_eq in E1. destruct (feqb (nth i (c_q3 c) 0) 0) eqn:E3; [apply feqb_eq in E3; destruct (S i Hc); contradiction|]. apply feqb_neq in E3.
      transitivity (a_rhs K c pub alpha i * (finv (nth i (c_q3 c) 0) * nth i (c_q3 c) 0)); [ring|]. rewrite finv_l by exact E3. ring.
    - apply feqb_neq in E1. transitivity (a_rhs K c pub alpha i * (finv (nth i (c_q1 c) 0) * nth i (c_q1 c) 0)); [ring|]. rewrite finv_l by exact E1. ring. }
  unfold row. destruct (Nat.ltb_spec i (c_n c)) as [Hc|Hc].
  - specialize (R Hc). assert (R' : nth i (c_q1 c) 0 * a_w1 K c pub alpha i = a_rhs K c pub alpha i - nth i (c_q3 c) 0 * a_w3 K c pub alpha i) by (rewrite <- R; ring). rewrite R'. unfold a_rhs. destruct (Nat.eqb i 0); ring.
  - destruct (Nat.eqb_spec i 0); [lia|]. ring.
Qed.
Lemma forge_ok pub rng : pc_complete PC -> pc_total PC -> (0 < c_n c)%nat -> (length pub <= dsize (i_dn (v_info vk)))%nat -> (forall cs, o_zeta ro pub [] [] cs <> 1) ->
  exists pf, plonk_forge ro pk c pub rng = Ok pf /\ verify ro vk pub pf = Ok true.
Proof.
  intros PCC PCT N LP ZN. destruct (setup K dnew PC F ops c order ks srs rng0 pk vk RO O KG) as (x & ck & rk & crs & d & d4 & p & G & P & T & C & EV & EP & D & V & V4 & S4 & G4 & L). pose proof (gi_info _ _ _ _ _ _ _ _ G) as GI.
  assert (ED : i_dn (x_info x) = d) by (rewrite GI; reflexivity). assert (EN : i_n (x_info x) = dsize d) by (rewrite GI; reflexivity). rewrite EV in LP. cbn [v_info] in LP. rewrite ED in LP.
  unfold plonk_forge. rewrite EP, EV. cbn [k_vk k_index k_ck k_rands v_info v_labels v_comms]. cbv zeta. rewrite ED. unfold pad_to. destruct (Nat.ltb_spec (dsize d) (length pub)); [lia|].
  destruct (o_bg ro pub []) as [beta gamma] eqn:BG. cbn [rbind]. set (alpha := o_alpha ro pub [] []). set (pip := interp d (pub ++ repeat 0 (dsize d - length pub))).
  destruct (third_list K x (map (interp d) (a_wit K c pub alpha (dsize d))) (interp d []) pip alpha beta gamma) as (t0 & t1 & t2 & t3 & ET). rewrite ET.
  pose proof (forge_iev d d4 p x pub alpha beta gamma G V (conj N L)) as IZ. fold pip in IZ.
  assert (EW : exists w0 w1 w2 w3, map (interp d) (a_wit K c pub alpha (dsize d)) = [w0; w1; w2; w3]) by (unfold a_wit; cbn [map]; eauto). destruct EW as (w0 & w1 & w2 & w3 & EW).
  assert (LW : forall k, (k < 4)%nat -> (length (nth k [w0; w1; w2; w3] []) <= dsize d)%nat). { intros k Hk. rewrite <- EW. rewrite (nth_indep _ _ (interp d [])) by (rewrite map_length; exact Hk). rewrite map_nth. apply length_interp. }
  rewrite EW in *. pose proof (polys_small d d4 p x w0 w1 w2 w3 (interp d []) _ _ _ _ _ _ _ _ _ _ G LW (length_interp K d []) ET) as SM.
  set (o := combine w_labels [w0; w1; w2; w3] ++ [("z"%string, interp d [])] ++ combine t_labels [t0; t1; t2; t3]) in *. change (index_polys x ++ o) with (all_polys K x w0 w1 w2 w3 (interp d []) t0 t1 t2 t3) in *.
  destruct (commit_all_ok srs _ ck rk o rng PCT T) as (cr & EC). { intros q I. rewrite EN. apply SM. unfold all_polys. apply in_or_app. right. exact I. }
  rewrite EC. cbn [rbind]. apply commit_all_inv in EC. set (zeta := o_zeta ro pub [] [] (map fst cr)). rewrite prover_lcs, ED, (l1_at_ok K d zeta V (ZN _)). cbn [rbind].
  pose proof (prover_evs K x w0 w1 w2 w3 (interp d []) t0 t1 t2 t3 (x_info x) alpha beta gamma zeta (peval (first_lagrange_poly d) zeta)) as PE. unfold lcs_of in PE. rewrite ED in PE. rewrite PE. cbn [rbind]. clear PE.
  match goal with |- exists pf, rbind ?m _ = _ /\ _ => assert (OP : exists pf, m = Ok pf) end.
  { apply (proj2 (PCT _ _ _ _ T)). intros q I. rewrite EN. apply SM. exact I. }
  destruct OP as (pp & OP). rewrite OP. cbn [rbind]. eexists. split; [reflexivity|].
  pose proof (accept_run K dnew PC ro srs c ks d d4 p x ck rk crs vk pub cr [] [] (map fst cr) [] w0 w1 w2 w3 (interp d []) t0 t1 t2 t3 pp rng) as A. rewrite BG in A. cbn [fst snd] in A. subst pk. rewrite <- EV. apply A; auto.
  - fold alpha zeta pip. unfold t_of. cbv zeta. rewrite EN. pose proof (third_ok K dnew c ks d d4 p x V V4 S4 G4 G [w0; w1; w2; w3] (interp d []) pip alpha beta gamma) as TO. rewrite ET in TO. cbn [nth] in TO. cbv zeta in TO. apply TO; try apply length_interp; [exact LW|exact IZ].
  - fold alpha zeta. rewrite <- OP. unfold lcs_of. rewrite ED, !map_app. reflexivity.
Qed.
(** Totality of the honest prover. *)
Lemma prove_total rng : pc_total PC ->
  (forall c1 d, dnew (c_n c) = Some d -> forall s, In s (slots (dsize d)) -> gfac K c ks d (fst (o_bg ro (c_pi c) c1)) (snd (o_bg ro (c_pi c) c1)) s <> 0) ->
  (forall c1 c2 c3, o_zeta ro (c_pi c) c1 c2 c3 <> 1) -> exists pf, prove dnew ro pk c rng = Ok pf.
Proof.
  intros PCT GF ZN. destruct (setup K dnew PC F ops c order ks srs rng0 pk vk RO O KG) as (x & ck & rk & crs & d & d4 & p & G & P & T & C & EV & EP & D & V & V4 & S4 & G4 & L). pose proof (gi_info _ _ _ _ _ _ _ _ G) as GI. pose proof (wfc K ops c RO) as W.
  assert (ED : i_dn (x_info x) = d) by (rewrite GI; reflexivity). assert (EN : i_n (x_info x) = dsize d) by (rewrite GI; reflexivity). destruct (wf_q K c W) as (_ & _ & _ & _ & _ & _ & LPI).
  unfold prove. rewrite EP, EV. cbn [k_vk k_index k_ck k_rands v_info v_labels v_comms]. cbv zeta. rewrite ED. unfold pad_to. destruct (Nat.ltb_spec (dsize d) (length (c_pi c))); [lia|]. cbn [rbind].
  rewrite (synthesize_ok K dnew c d W D L). cbn [rbind]. fold (wit K c d).
  set (w0 := interp d (wvals K c (dsize d) 0%nat)). set (w1 := interp d (wvals K c (dsize d) 1%nat)). set (w2 := interp d (wvals K c (dsize d) 2%nat)). set (w3 := interp d (wvals K c (dsize d) 3%nat)).
  change (map (interp d) (wit K c d)) with [w0; w1; w2; w3]. assert (LW : forall k, (k < 4)%nat -> (length (nth k [w0; w1; w2; w3] []) <= dsize d)%nat) by (intros k Hk; destruct k as [|[|[|[|k]]]]; cbn [nth]; try lia; apply length_interp).
  destruct (commit_all_ok srs _ ck rk (combine w_labels [w0; w1; w2; w3]) rng PCT T) as (cr1 & ->). { intros q I. rewrite EN. cbn in I. repeat (destruct I as [<-|I]; [cbn [snd]; apply length_interp|]). destruct I. }
  cbn [rbind]. specialize (GF (map fst cr1) d D). destruct (o_bg ro (c_pi c) (map fst cr1)) as [beta gamma]. cbn [fst snd] in GF.
  destruct (honest_z K dnew c order ks d d4 p x W L O P G beta gamma GF) as (z & ->). cbn [rbind].
  destruct (commit_all_ok srs _ ck rk [("z"%string, interp d z)] rng PCT T) as (cr2 & ->). { intros q [<-|[]]. rewrite EN. apply length_interp. }
  cbn [rbind]. set (alpha := o_alpha ro (c_pi c) (map fst cr1) (map fst cr2)). set (pip := interp d (c_pi c ++ repeat 0 (dsize d - length (c_pi c)))).
  destruct (third_list K x [w0; w1; w2; w3] (interp d z) pip alpha beta gamma) as (t0 & t1 & t2 & t3 & ET). rewrite ET. pose proof (polys_small d d4 p x w0 w1 w2 w3 (interp d z) _ _ _ _ _ _ _ _ _ _ G LW (length_interp K d z) ET) as SM.
  destruct (commit_all_ok srs _ ck rk (combine t_labels [t0; t1; t2; t3]) rng PCT T) as (cr3 & ->). { intros q I. rewrite EN. apply SM. unfold all_polys. rewrite !in_app_iff. tauto. }
  cbn [rbind]. set (zeta := o_zeta ro (c_pi c) (map fst cr1) (map fst cr2) (map fst cr3)). fold (all_polys K x w0 w1 w2 w3 (interp d z) t0 t1 t2 t3). rewrite prover_lcs, ED, (l1_at_ok K d zeta V (ZN _ _ _)). cbn [rbind].
  pose proof (prover_evs K x w0 w1 w2 w3 (interp d z) t0 t1 t2 t3 (x_info x) alpha beta gamma zeta (peval (first_lagrange_poly d) zeta)) as PE. unfold lcs_of in PE. rewrite ED in PE. rewrite PE. cbn [rbind]. clear PE.
  match goal with |- exists pf, rbind ?m _ = _ => assert (OP : exists pf, m = Ok pf) end. { apply (proj2 (PCT _ _ _ _ T)). intros q I. rewrite EN. apply SM. exact I. }
  destruct OP as (pp & ->). cbn [rbind]. eauto.
Qed.
End C.
End P.
