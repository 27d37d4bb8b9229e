(** Soundness of the layers of libra's zero-knowledge protocol, by rewinding. *)
From Verif Require Import Field Poly Module ModTac ModelTranscript ModelSigma ModelSpartan ModelLibra ModelHyrax ModelLibraZk SpecMle SpecSigma SpecLibra SpecHyrax2 SpecHyrax3 SpecSumcheck SpecRewind SpecLibraSound ProofsMle ProofsSumcheck ProofsHyrax11 ProofsLibra ProofsLibra2 ProofsLibra3 ProofsLibra4 ProofsLibraZk ProofsSigma ProofsRewind.
From Coq Require Import String List Lia.
Import ListNotations.
Local Open Scope string_scope.
Local Open Scope list_scope.
Local Open Scope fld_scope.
Section S.
Variable K : Fld.
Variable G : Grp K.
Add Field Kfls : (f_laws K).
Notation zero := (Forall (fun x : K => x = 0)).
Lemma gaps_app : forall ps1 rs1 ps2 rs2 (a e1 e2 : K), length ps1 = length rs1 -> zero (gaps a ps1 rs1 e1) -> zero (gaps e1 ps2 rs2 e2) -> zero (gaps a (ps1 ++ ps2) (rs1 ++ rs2) e2).
Proof.
  induction ps1 as [|p ps1 IH]; intros [|r rs1] ps2 rs2 a e1 e2 L Z1 Z2; try discriminate.
  - cbn [gaps] in Z1. inversion Z1 as [|? ? Q _]; subst. assert (e1 = a) by (transitivity (e1 - a + a); [ring|]; rewrite Q; ring). subst e1. exact Z2.
  - cbn [gaps app] in *. inversion Z1 as [|? ? Q Z]; subst. constructor; [exact Q|]. injection L as L. apply (IH rs1 ps2 rs2 _ e1); assumption.
Qed.
Lemma pick_eq (r : list K) i : pick r i = nth i (eval_eq K r) 0.
Proof. unfold pick. rewrite eval_eq_chi. reflexivity. Qed.
Lemma opsum_wiring o gs gu gv ru rv (al be : K) : opsum K o gs (fun i => al * nth i (eval_eq K gu) 0 + be * nth i (eval_eq K gv) 0) ru rv = wiring o [] [] gu gv ru rv al be gs.
Proof.
  unfold opsum, wiring. cbn [length cube map fsum chi]. rewrite (fsum_map_ext K _ (fun g => if Nat.eqb (gt_op g) o then pick ru (gt_l g) * pick rv (gt_r g) * (pick gu (gt_g g) * al + pick gv (gt_g g) * be) else 0)).
  - ring.
  - intros g _. unfold isop. rewrite !pick_eq. destruct (Nat.eqb (gt_op g) o); ring.
Qed.
Lemma batch_one (v q : list K) : batch_mle [v] [] q = mle v q.
Proof. unfold batch_mle. cbn [map]. set (m := mle v q). unfold mle. cbn [length]. cbn. ring. Qed.
Lemma prod_extract (ch ch' : oracle K G) p pf pf' A B P t : prod_twice ch ch' p pf pf' A B P t ->
  {x : K & {rx : K & {y : K & {ry : K & {rz : K | let g := hd g0 (mc_gens _ _ p) in let h := mc_h _ _ p in opens g h A x rx /\ opens g h B y ry /\ opens g h P (x * y) rz}}}}}.
Proof.
  intros (F & E1 & E2 & E3 & V & V').
  destruct (product_verify K G ch p pf A B P t) as [[ok t1]| |] eqn:E. 2,3: exfalso; destruct V; discriminate.
  destruct (product_verify K G ch' p pf' A B P t) as [[ok' t1']| |] eqn:E'. 2,3: exfalso; destruct V'; discriminate.
  assert (ok = true) by (destruct V; congruence). assert (ok' = true) by (destruct V'; congruence). subst ok ok'.
  exact (product_sound K G ch ch' p pf pf' A B P t t1 t1' F E1 E2 E3 E E').
Qed.
Lemma eq_extract (ch ch' : oracle K G) p pf pf' C1 C2 t : eq_twice ch ch' p pf pf' C1 C2 t -> {d : K | C1 = gadd C2 (gsm d (mc_h _ _ p))}.
Proof.
  intros (F & E1 & V & V'). destruct (eq_verify K G ch p C1 C2 pf t) as [ok t1] eqn:E. destruct (eq_verify K G ch' p C1 C2 pf' t) as [ok' t1'] eqn:E'.
  assert (ok = true) by (destruct V; congruence). assert (ok' = true) by (destruct V'; congruence). subst ok ok'. exact (eq_sound K G ch ch' p C1 C2 pf pf' t t1 t1' F E1 E E').
Qed.
Section Run.
Variable ch : oracle K G.
Variable p : hparams K G.
Hypothesis L3 : length (mc_gens K G (hp_3 K G p)) = 3%nat.
Notation g := (hd g0 (mc_gens K G (hp_1 K G p))).
Notation h := (mc_h K G (hp_1 K G p)).
Notation R3 := (relation (mc_gens K G (hp_3 K G p)) (mc_h K G (hp_3 K G p))).
Theorem layer_extract c d' R pf claim al be gu gv t ru rv t' lo hi a ba :
  nth_error (c_layers c) d' = Some lo -> nth_error (c_layers c) (S d') = Some hi -> z_check_layer K G ch p c d' pf claim al be gu gv t = Ok (ru, rv, t') ->
  zl_rewound R ch p c d' pf claim al be gu gv t -> opens g h claim a ba ->
  R3 + (relation [g] h + {e : ext K | x_gu K e = gu /\ x_gv K e = gv /\ x_al K e = al /\ x_be K e = be /\ ext_opens p (l_bits lo) pf e /\ x_ru K e = ru /\ x_rv K e = rv /\
    length ru = l_bits lo /\ length rv = l_bits lo /\ exists add mul, eval_operators K (l_gates hi) gu gv ru rv al be = Ok (add, mul) /\
    zero (gaps a (x_one K e ++ x_two K e) (ru ++ rv) (add * (x_x K e + x_y K e) + mul * (x_x K e * x_y K e)))}).
Proof.
  intros Elo Ehi V HR Oa. unfold z_check_layer, lget in V. rewrite Elo, Ehi in V. cbn [rbind] in V.
  match type of V with rbind (unwrap ?X) _ = _ => destruct X as [[[ru' c1] t1]| |] eqn:V1; cbn [unwrap rbind] in V; try discriminate end.
  match type of V with rbind (unwrap ?X) _ = _ => destruct X as [[[rv' c2] t2]| |] eqn:V2; cbn [unwrap rbind] in V; try discriminate end.
  match type of V with rbind ?X _ = _ => destruct X as [[ok t3]| |] eqn:V3; cbn [rbind] in V; try discriminate end. destruct ok; [|discriminate]. cbn [negb] in V.
  match type of V with rbind ?X _ = _ => destruct X as [[add mul]| |] eqn:V4; cbn [rbind] in V; try discriminate end.
  match type of V with (let '(_, _) := ?X in _) = _ => destruct X as [ok t4] eqn:V5 end. destruct ok; [|discriminate]. cbn [negb] in V. injection V as -> -> <-.
  destruct (HR lo hi ru c1 t1 rv c2 t2 t3 add mul Elo Ehi V1 V2 V3 V4) as (H1 & H2 & H3 & H4).
  destruct (sc_extract K G ch (hp_1 K G p) (hp_3 K G p) 3 ltac:(lia) L3 _ _ _ _ _ _ _ _ _ _ _ _ H1 V1 Oa) as [Q|[Q|(ps1 & bs1 & e1 & be1 & P1 & Lr1 & Oe1 & Z1)]]; [left; exact Q|right; left; exact Q|].
  destruct (sc_extract K G ch (hp_1 K G p) (hp_3 K G p) 3 ltac:(lia) L3 _ _ _ _ _ _ _ _ _ _ _ _ H2 V2 Oe1) as [Q|[Q|(ps2 & bs2 & e2 & be2 & P2 & Lr2 & Oe2 & Z2)]]; [left; exact Q|right; left; exact Q|].
  destruct (prod_extract _ _ _ _ _ _ _ _ _ H3) as (x & bx & y & b_y & bz & Ox & Oy & Oz). destruct (eq_extract _ _ _ _ _ _ _ _ H4) as (dd & Ed).
  assert (Of : opens g h c2 (add * (x + y) + mul * (x * y)) (add * (bx + b_y) + mul * bz - dd)).
  { unfold opens in *. set (X := zl_x K G pf) in *. set (Y := zl_y K G pf) in *. set (Z := zl_z K G pf) in *. clearbody X Y Z.
    transitivity (gadd (gadd c2 (gsm dd h)) (gsm (- dd) h)); [gmod; ring|]. rewrite <- Ed, Ox, Oy, Oz. gmod; ring. }
  destruct (two_openings K G _ _ _ _ _ _ _ Oe2 Of) as [Q|Ee]; [right; left; exact Q|]. right. right.
  exists (mkExt K gu gv al be ru rv ps1 bs1 ps2 bs2 x bx y b_y). cbn [x_gu x_gv x_al x_be x_ru x_rv x_one x_two x_x x_y]. do 4 (split; [reflexivity|]).
  split; [split; [exact P1|]; split; [exact P2|]; split; [exact Ox|exact Oy]|]. do 2 (split; [reflexivity|]). split; [exact Lr1|]. split; [exact Lr2|].
  exists add, mul. split; [exact V4|]. apply (gaps_app ps1 ru ps2 rv a e1); [destruct P1 as [-> _]; symmetry; exact Lr1|exact Z1|]. rewrite <- Ee. exact Z2.
Qed.
(** A false claim about a layer. *)
Lemma layer_claim v gates bits gu gv ru rv al be a (x y : K) ps : (length v <= 2 ^ bits)%nat -> Forall (gate_ok (length gates) (length v)) gates -> map gt_g gates = seq 0 (length gates) ->
  (length gates <= 2 ^ length gu)%nat -> (length gates <= 2 ^ length gv)%nat -> length ru = bits -> length rv = bits -> length ps = (2 * bits)%nat -> Forall (fun q => length q = 3%nat) ps ->
  (exists add mul, eval_operators K gates gu gv ru rv al be = Ok (add, mul) /\ zero (gaps a ps (ru ++ rv) (add * (x + y) + mul * (x * y)))) ->
  a <> al * mle (map (gval K v) gates) gu + be * mle (map (gval K v) gates) gv ->
  bad_challenge 2 (2 * bits) (layer_poly 0 bits [v] [] gu gv al be gates) ps (ru ++ rv) \/ x <> mle v ru \/ y <> mle v rv.
Proof.
  intros Lv HG HN Lu Lw Lru Lrv Lps Wps (add & mul & EO & Z) Na.
  destruct (feq_dec K x (mle v ru)) as [Ex|Ex]; [|right; left; exact Ex]. destruct (feq_dec K y (mle v rv)) as [Ey|Ey]; [|right; right; exact Ey]. left.
  rewrite operators_ok in EO.
  2:{ revert HG. apply Forall_impl. intros x0 (Ho & H1 & H2 & H3). rewrite Lru, Lrv. repeat split; try assumption; lia. }
  cbv zeta in EO. rewrite !opsum_wiring in EO. injection EO as <- <-.
  assert (LA : length (ru ++ rv) = (2 * bits)%nat) by (rewrite app_length; lia). rewrite <- LA.
  apply (gaps_sound K 2 _ ps (ru ++ rv) a).
  - rewrite LA. apply layer_low_degree0.
  - congruence.
  - revert Wps. apply Forall_impl. intros q ->. lia.
  - change (ru ++ rv) with ([] ++ ru ++ rv) at 2. rewrite (layer_poly_phi K 0 bits) by (reflexivity || assumption). unfold phi. rewrite !batch_one, <- Ex, <- Ey. exact Z.
  - rewrite LA. change (2 * bits)%nat with (0 + 2 * bits)%nat. rewrite layer_sum; [|split; [exact HN|]|reflexivity|exact Lu|exact Lw].
    2:{ revert HG. apply Forall_impl. intros x0 (Ho & H1 & H2 & H3). repeat split; try assumption; lia. }
    unfold layer_out. cbn [map]. rewrite !batch_one. rewrite (map_ext_in (gate_out v) (gval K v)).
    + intro Q. apply Na. rewrite Q. ring.
    + rewrite Forall_forall in HG. intros q Hq. destruct (HG q Hq) as (Ho & _). unfold gate_out, gval. destruct Ho as [-> | ->]; reflexivity.
Qed.
(** All layers. *)
Lemma sems_at raw : forall (inp : list K) i, (i <= length raw)%nat -> nth_error (inp :: sems K inp raw) i = Some (sem inp (firstn i raw)).
Proof. induction raw as [|l raw IH]; intros inp [|i] H; try reflexivity; cbn [length] in H; [lia|]. cbn [nth_error sems firstn sem]. apply IH. lia. Qed.
Lemma unlucky_cons c raw inp e es : unlucky c raw inp es -> unlucky c raw inp (e :: es : list (ext K)).
Proof.
  intros (j & i & e0 & lo & hi & Lj & E & Elo & Ehi & H). exists (S j), i, e0, lo, hi. split; [cbn [length]; lia|]. split; [exact E|]. split; [exact Elo|]. split; [exact Ehi|]. exact H.
Qed.
Lemma layer_step ni na raw S d' pf gu gv ru rv al be lo hi a e : let c := built ni na raw in pow2_above (Nat.max ni na) S -> legal (2 * S) raw -> (d' < length raw)%nat ->
  nth_error (c_layers c) d' = Some lo -> nth_error (c_layers c) (Datatypes.S d') = Some hi -> (length (l_gates hi) <= 2 ^ length gu /\ length (l_gates hi) <= 2 ^ length gv)%nat ->
  ext_opens p (l_bits lo) pf e -> length ru = l_bits lo -> length rv = l_bits lo -> 
  (exists add mul, eval_operators K (l_gates hi) gu gv ru rv al be = Ok (add, mul) /\ zero (gaps a (x_one K e ++ x_two K e) (ru ++ rv) (add * (x_x K e + x_y K e) + mul * (x_x K e * x_y K e)))) ->
  forall inp, length inp = (2 * S)%nat -> let v := sem inp (firstn d' raw) in let w := sem inp (firstn (Datatypes.S d') raw) in
  a <> al * mle w gu + be * mle w gv -> bad_challenge 2 (2 * l_bits lo) (layer_poly 0 (l_bits lo) [v] [] gu gv al be (l_gates hi)) (x_one K e ++ x_two K e) (ru ++ rv) \/ x_x K e <> mle v ru \/ x_y K e <> mle v rv.
Proof.
  intros c P L Ld Elo Ehi [Lu Lv] ((LP1 & W1 & _) & (LP2 & W2 & _) & _) Lru Lrv EG inp Li v w Na.
  assert (Ev : nth_error (inp :: sems K inp raw) d' = Some v) by (apply sems_at; lia). assert (Ew : nth_error (inp :: sems K inp raw) (Datatypes.S d') = Some w) by (apply sems_at; lia).
  destruct (built_run K ni na raw S inp P Li L d' lo hi v Elo Ehi Ev) as (HG & HN & HB & HW). rewrite Ew in HW. injection HW as HW.
  apply (layer_claim v (l_gates hi) (l_bits lo) gu gv ru rv al be a); try assumption.
  - destruct (built_sizes K ni na raw S inp d' lo v P Li L Elo Ev) as [(_ & ->)|(l & j & _ & _ & -> & ->)]; [lia|apply log2_up_le].
  - rewrite app_length. lia.
  - apply Forall_app. rewrite L3 in W1, W2. split; assumption.
  - rewrite <- HW. exact Na.
Qed.
Lemma gates_le ni na raw d hi : nth_error (c_layers (built ni na raw)) (S d) = Some hi -> (length (l_gates hi) <= 2 ^ l_bits hi)%nat.
Proof. cbn [built c_layers nth_error]. rewrite nth_error_map. destruct (nth_error raw d) as [l|]; [|discriminate]. cbn [option_map]. intro E. injection E as <-. cbn [mid l_gates l_bits]. rewrite mk_length. apply log2_up_le. Qed.
Theorem check_extract ni na raw S : pow2_above (Nat.max ni na) S -> legal (2 * S) raw -> let c := built ni na raw in
  forall d R pfs claim al be gu gv t ru rv cx cy t' a ba, (d < length raw)%nat ->
  (forall hi, nth_error (c_layers c) (Datatypes.S d) = Some hi -> length (l_gates hi) <= 2 ^ length gu /\ length (l_gates hi) <= 2 ^ length gv)%nat ->
  z_check K G ch p c pfs (Datatypes.S d) claim al be gu gv t = Ok (ru, rv, cx, cy, t') -> z_rewound R ch p c pfs (Datatypes.S d) claim al be gu gv t -> opens g h claim a ba ->
  R3 + (relation [g] h + {es : list (ext K) & {e : ext K | follows ch p c pfs (Datatypes.S d) claim al be gu gv t es /\ length es = Datatypes.S d /\ nth_error es d = Some e /\ x_ru K e = ru /\ x_rv K e = rv /\
    opens g h cx (x_x K e) (x_bx K e) /\ opens g h cy (x_y K e) (x_by K e) /\
    forall inp, length inp = (2 * S)%nat -> a <> al * mle (sem inp (firstn (Datatypes.S d) raw)) gu + be * mle (sem inp (firstn (Datatypes.S d) raw)) gv ->
      unlucky c raw inp es \/ x_x K e <> mle inp ru \/ x_y K e <> mle inp rv}}).
Proof.
  intros P L c. induction d as [|d IH]; intros R pfs claim al be gu gv t ru rv cx cy t' a ba Ld Lg V HR Oa; (destruct pfs as [|pf pfs]; [discriminate|]); cbn [z_check] in V; cbn [z_rewound] in HR; destruct HR as [HL HR];
    match type of V with rbind ?X _ = _ => destruct X as [[[ru1 rv1] t1]| |] eqn:VL; cbn [rbind] in V; try discriminate end.
  all: match type of VL with z_check_layer _ _ _ _ _ ?d _ _ _ _ _ _ _ = _ =>
    destruct (nth_error (c_layers c) d) as [lo|] eqn:Elo; [|exfalso; unfold z_check_layer, lget in VL; rewrite Elo in VL; discriminate];
    destruct (nth_error (c_layers c) (Datatypes.S d)) as [hi|] eqn:Ehi; [|exfalso; unfold z_check_layer, lget in VL; rewrite Elo, Ehi in VL; discriminate] end.
  all: destruct (layer_extract c _ _ pf claim al be gu gv t ru1 rv1 t1 lo hi a ba Elo Ehi VL HL Oa) as [Q|[Q|(e & E1 & E2 & E3 & E4 & EO & E5 & E6 & Lru & Lrv & EG)]]; [left; exact Q|right; left; exact Q|].
  all: pose proof (layer_step ni na raw S _ pf gu gv ru1 rv1 al be lo hi a e P L Ld Elo Ehi (Lg hi eq_refl) EO Lru Lrv EG) as STEP; cbv zeta in STEP.
  - injection V as <- <- <- <- <-. right. right. exists [e], e. split.
    { cbn [follows]. do 4 (split; [assumption|]). split; [exists lo; split; assumption|]. exists t1. rewrite E5, E6. split; [exact VL|destruct pfs; exact I]. }
    split; [reflexivity|]. split; [reflexivity|]. split; [exact E5|]. split; [exact E6|]. destruct EO as (O1 & O2 & O3 & O4). split; [exact O3|]. split; [exact O4|].
    intros inp Li Na. destruct (STEP inp Li Na) as [B|B]; [left|right; exact B]. exists 0%nat, 0%nat, e, lo, hi. split; [reflexivity|]. split; [reflexivity|]. split; [exact Elo|]. split; [exact Ehi|]. cbv zeta. left.
    rewrite E1, E2, E3, E4, E5, E6. exact B.
  - cbn [draw] in V. specialize (HR ru1 rv1 t1 eq_refl). cbv zeta in HR.
    set (al' := ch "challenge_alpha" t1) in *. set (be' := ch "challenge_beta" (MCh "challenge_alpha" :: t1)) in *.
    assert (Oa' : opens g h (gadd (gsm al' (zl_x K G pf)) (gsm be' (zl_y K G pf))) (al' * x_x K e + be' * x_y K e) (al' * x_bx K e + be' * x_by K e)).
    { destruct EO as (_ & _ & O3 & O4). unfold opens in O3, O4 |- *. rewrite O3, O4. gmod; ring. }
    assert (Lg2 : forall hi0, Some lo = Some hi0 -> (length (l_gates hi0) <= 2 ^ length ru1 /\ length (l_gates hi0) <= 2 ^ length rv1)%nat).
    { intros hi0 E0. injection E0 as <-. rewrite Lru, Lrv. split; apply (gates_le ni na raw d); exact Elo. }
    destruct (IH R pfs _ al' be' ru1 rv1 _ ru rv cx cy t' _ _ (Nat.lt_succ_l _ _ Ld) Lg2 V HR Oa') as [Q|[Q|(es & e0 & F & Les & Ne & R1 & R2 & Ox & Oy & H)]]; [left; exact Q|right; left; exact Q|].
    right. right. exists (e :: es), e0. split.
    { change (x_gu K e = gu /\ x_gv K e = gv /\ x_al K e = al /\ x_be K e = be /\ (exists lo, nth_error (c_layers c) (Datatypes.S d) = Some lo /\ ext_opens p (l_bits lo) pf e) /\
        exists t1, z_check_layer K G ch p c (Datatypes.S d) pf claim al be gu gv t = Ok (x_ru K e, x_rv K e, t1) /\
        follows ch p c pfs (Datatypes.S d) (gadd (gsm (ch "challenge_alpha" t1) (zl_x K G pf)) (gsm (ch "challenge_beta" (MCh "challenge_alpha" :: t1)) (zl_y K G pf)))
          (ch "challenge_alpha" t1) (ch "challenge_beta" (MCh "challenge_alpha" :: t1)) (x_ru K e) (x_rv K e) (MCh "challenge_beta" :: MCh "challenge_alpha" :: t1) es).
      do 4 (split; [assumption|]). split; [exists lo; split; assumption|]. exists t1. rewrite E5, E6. split; [exact VL|exact F]. }
    split; [cbn [length]; congruence|]. split; [exact Ne|]. do 4 (split; [assumption|]). intros inp Li Na.
    destruct (STEP inp Li Na) as [B|B].
    + left. exists 0%nat, (Datatypes.S d), e, lo, hi. split; [cbn [length]; lia|]. split; [reflexivity|]. split; [exact Elo|]. split; [exact Ehi|]. cbv zeta. left. rewrite E1, E2, E3, E4, E5, E6. exact B.
    + set (v := sem inp (firstn (Datatypes.S d) raw)) in *. destruct (feq_dec K (al' * x_x K e + be' * x_y K e) (al' * mle v ru1 + be' * mle v rv1)) as [M|M].
      * left. destruct es as [|e' es]; [discriminate|]. exists 0%nat, (Datatypes.S d), e, lo, hi. split; [cbn [length] in *; lia|]. split; [reflexivity|]. split; [exact Elo|]. split; [exact Ehi|]. cbv zeta. right.
        exists e'. split; [reflexivity|]. destruct pfs as [|pf' pfs]; [destruct F|]. destruct F as (_ & _ & Ea & Eb & _). fold al' in Ea. fold be' in Eb. rewrite Ea, Eb. unfold mixed. rewrite E5, E6. split; [exact B|exact M].
      * destruct (H inp Li M) as [U|U]; [left; apply unlucky_cons; exact U|right; exact U].
Qed.
End Run.
End S.
