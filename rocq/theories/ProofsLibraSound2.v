(** Soundness of libra's zero-knowledge verifier, by rewinding. *)
From Verif Require Import Field Poly Module ModTac ModelTranscript ModelMle ModelSigma ModelSpartan ModelLibra ModelHyrax ModelLibraZk SpecMle SpecSigma SpecLibra SpecHyrax2 SpecHyrax3 SpecSumcheck SpecRewind SpecBulletTree SpecLibraSound SpecLibraSound2.
From Verif Require Import ProofsMle ProofsLibra ProofsLibra2 ProofsLibra3 ProofsLibra4 ProofsSigma ProofsRewind ProofsBulletTree ProofsLibraSound.
From Coq Require Import String List Lia Arith.
Import ListNotations.
Local Open Scope string_scope.
Local Open Scope list_scope.
Local Open Scope fld_scope.
Section S.
Variable K : Fld.
Variable G : Grp K.
Variable ch : oracle K G.
Add Field Kfls2 : (f_laws K).
Lemma relation_more (g : G) gs h : relation [g] h -> relation (g :: gs) h.
Proof.
  intros (v & b & HN & O). exists (firstn 1 v), b. split.
  - destruct HN as (j & Hj & N). exists 0%nat. split; [cbn; lia|]. cbn [length] in Hj. assert (j = 0)%nat as -> by lia. destruct v; exact N.
  - unfold opens_vec in *. rewrite O. f_equal. destruct v as [|x v]; [reflexivity|]. cbn [firstn msm]. destruct v, gs; reflexivity.
Qed.
Definition drawn (rs : list K) : Prop := Forall (fun x => exists l t, x = ch l t) rs.
Lemma sc_points g1 gn size : forall n polys evals proofs ccom t rs c t', sc_verify K G ch g1 gn polys evals proofs ccom size n t = Ok (rs, c, t') -> length rs = n /\ drawn rs.
Proof.
  induction n as [|n IH]; intros polys evals proofs ccom t rs c t' E; [destruct polys; injection E as <- _ _; (split; [reflexivity|constructor])|].
  destruct polys as [|a polys], evals as [|b evals], proofs as [|pf proofs]; try discriminate. cbn [sc_verify] in E. unfold draw in E. cbv beta iota zeta in E.
  match type of E with rbind ?X _ = _ => destruct X as [[ok t1]| |]; cbn [rbind] in E; try discriminate end. destruct ok; [|discriminate]. cbn [negb] in E.
  match type of E with rmap _ ?X = _ => destruct X as [[[rs1 c1] t2]| |] eqn:E2; cbn [rmap] in E; try discriminate end. injection E as <- _ _. destruct (IH _ _ _ _ _ _ _ _ E2) as [Q1 Q2]. split; [cbn [length]; rewrite Q1; reflexivity|]. constructor; [eauto|exact Q2].
Qed.
Lemma layer_points p c d pf claim al be gu gv t ru rv t' lo : nth_error (c_layers c) d = Some lo -> z_check_layer K G ch p c d pf claim al be gu gv t = Ok (ru, rv, t') -> (length ru = l_bits lo /\ drawn ru) /\ length rv = l_bits lo /\ drawn rv.
Proof.
  intros El E. unfold z_check_layer, lget in E. rewrite El in E. destruct (nth_error (c_layers c) (S d)) as [hi|]; [|discriminate]. cbn [rbind] in E.
  match type of E with rbind (unwrap ?X) _ = _ => destruct X as [[[rs1 c1] t1]| |] eqn:E1; cbn [rbind unwrap] in E; try discriminate end.
  match type of E with rbind (unwrap ?X) _ = _ => destruct X as [[[rs2 c2] t2]| |] eqn:E2; cbn [rbind unwrap] in E; try discriminate end.
  match type of E with rbind ?X _ = _ => destruct X as [[ok t3]| |]; cbn [rbind] in E; try discriminate end. destruct ok; [|discriminate]. cbn [negb] in E.
  match type of E with rbind ?X _ = _ => destruct X as [[add mul]| |]; cbn [rbind] in E; try discriminate end.
  match type of E with (let '(_, _) := ?X in _) = _ => destruct X as [ok t4] end. destruct ok; [|discriminate]. cbn [negb] in E. injection E as <- <- _.
  split; eapply sc_points; eassumption.
Qed.
Lemma check_points p c lo : nth_error (c_layers c) 0 = Some lo -> forall d pfs claim al be gu gv t ru rv cx cy t', z_check K G ch p c pfs (S d) claim al be gu gv t = Ok (ru, rv, cx, cy, t') -> (length ru = l_bits lo /\ drawn ru) /\ length rv = l_bits lo /\ drawn rv.
Proof.
  intro El. induction d as [|d IH]; intros [|pf pfs] claim al be gu gv t ru rv cx cy t' E; cbn [z_check] in E; try discriminate;
    match type of E with rbind ?X _ = _ => destruct X as [[[ru1 rv1] t1]| |] eqn:E1; cbn [rbind] in E; try discriminate end.
  - injection E as <- <- _ _ _. eapply layer_points; eassumption.
  - unfold draw in E. cbv beta iota zeta in E. eapply IH. exact E.
Qed.
(** One evaluation of the input layer. *)
Lemma opened_sound p R inputs cw q0 pt commit pf cy eq t t' v bs x b : let gs := mc_gens K G (pc_gen_n K G (hp_pc K G p)) in let g := hd g0 (mc_gens K G (pc_gen_1 K G (hp_pc K G p))) in let h := mc_h K G (pc_gen_1 K G (hp_pc K G p)) in
  let L := (2 ^ (length pt - length pt / 2))%nat in mc_h K G (pc_gen_n K G (hp_pc K G p)) = h -> (L <= length gs)%nat -> rows_open gs h L cw v bs ->
  z_opened K G ch p inputs cw (q0 :: pt) commit pf cy eq t = Ok t' -> zo_rewound R ch p inputs cw (q0 :: pt) commit pf cy eq t -> opens g h commit x b ->
  relation (g :: gs) h + {x = (1 - q0) * mle v pt + q0 * mle inputs pt}.
Proof.
  intros gs g h L Eh LL Rw V HR Ox.
  cbn [z_opened] in V. match type of V with rbind ?X _ = _ => destruct X as [[ok t1]| |] eqn:V1; cbn [rbind] in V; try discriminate end. destruct ok; [|discriminate]. cbn [negb] in V.
  assert (Ei : eval_value K inputs pt = Ok (mle inputs pt)) by (rewrite eval_value_ok in *; destruct (Nat.leb (length inputs) (2 ^ length pt)); [reflexivity|discriminate]).
  destruct (HR q0 pt t1 (mle inputs pt) eq_refl V1 Ei) as [Tr Tw]. clear V HR. destruct (eq_extract K G _ _ _ _ _ _ _ _ Tw) as (d & Ed). fold h in Ed, Tr.
  set (y0 := mle inputs pt) in *. assert (EC : commit = gadd (gadd (gsm (1 - q0) cy) (gsm (q0 * y0) g)) (gsm d h)).
  { rewrite Ed. unfold poly_commit_vec. rewrite msm1. fold g. gmod; ring. }
  destruct (feq_dec K (1 - q0) 0) as [Z|Z].
  - assert (O2 : opens g h commit (q0 * y0) d) by (unfold opens; rewrite EC, Z; gmod; ring).
    destruct (two_openings K G g h commit x (q0 * y0) b d Ox O2) as [Q|Q]; [left; apply relation_more; exact Q|right]. rewrite Q, Z. ring.
  - assert (Oy : opens g h cy ((x - q0 * y0) / (1 - q0)) ((b - d) / (1 - q0))).
    { unfold opens in *. assert (E1 : gsm (1 - q0) cy = gadd (gsm (x - q0 * y0) g) (gsm (b - d) h)).
      { transitivity (gadd commit (gopp (gadd (gsm (q0 * y0) g) (gsm d h)))); [rewrite EC; gmod; ring|rewrite Ox; gmod; ring]. }
      transitivity (gsm (finv (1 - q0)) (gsm (1 - q0) cy)); [gmod; field; exact Z|]. rewrite E1. gmod; field; exact Z. }
    destruct (eval_sound K G "c" (hp_pc K G p) cw v bs pt cy t _ _ _ _ Eh LL Rw Tr Oy) as [Q|Q]; [left; exact Q|right]. rewrite <- Q. field. exact Z.
Qed.
Lemma mle_firstn v k (r : list K) : length r = k -> mle (firstn (2 ^ k) v) r = mle v r.
Proof. intros <-. apply mle_nth. intros i Hi. rewrite nth_firstn. destruct (Nat.ltb_spec i (2 ^ length r)); [reflexivity|lia]. Qed.
(** The whole verifier. *)
Section Whole.
Variable num : nat.
Variables r1 r3 r4 : nat -> G.
Variable g : G.
Notation p := (hparams_new K G num r1 g r3 r4).
Notation gs := (mc_gens K G (pc_gen_n K G (hp_pc K G p))).
Notation h := (mc_h K G (hp_1 K G p)).
Notation com1 x := (poly_commit_vec K G (mc_gens K G (hp_1 K G p)) [x] h 0).
Theorem verify_sound ni na raw k : pow2_above (Nat.max ni na) (2 ^ k) -> legal (2 * 2 ^ k) raw -> (k <= num)%nat -> let c := built ni na raw in
  forall outputs inputs hash p_hash pf R v bs, z_verify K G ch p c outputs inputs hash p_hash pf = Ok true -> zv_rewound R ch p c outputs inputs hash p_hash pf ->
  rows_open gs h (2 ^ (k - k / 2)) (zg_witness K G pf) v bs ->
  relation (mc_gens K G (hp_3 K G p)) (mc_h K G (hp_3 K G p)) + (relation (g :: gs) h +
  {es : list (ext K) & {gu : list K | exists top u t1, lget c (length raw) = Ok top /\
    eval_output K G ch outputs (l_bits top) (z_init K G hash p_hash inputs outputs (zg_witness K G pf)) = Ok (u, gu, t1) /\ length gu = l_bits top /\
    follows ch p c (zg_proofs K G pf) (length raw) (com1 (1 * u + 0 * 0)) 1 0 gu gu t1 es /\
    let inp := intended_layer (2 ^ k) inputs (firstn (2 ^ k) v) in
    (mle outputs gu = mle (sem inp raw) gu \/ unlucky c raw inp es)}}).
Proof.
  intros P L Hk c outputs inputs hash p_hash pf R v bs V HR Rw. unfold z_verify in V. cbn [c_depth c built] in V. fold c in V.
  destruct (lget c (length raw)) as [top| |] eqn:Et; cbn [rbind] in V; try discriminate.
  destruct (eval_output K G ch outputs (l_bits top) (z_init K G hash p_hash inputs outputs (zg_witness K G pf))) as [[[u gu] t1]| |] eqn:Eo; cbn [rbind] in V; try discriminate.
  destruct (Nat.eqb (length raw) (length (zg_proofs K G pf))); [|discriminate]. cbn [negb] in V.
  destruct (HR (length raw) top u gu t1 eq_refl Et Eo) as [HL HO]. clear HR.
  change (pc_gen_1 K G (hp_pc K G p)) with (hp_1 K G p) in *. set (claim := com1 (1 * u + 0 * 0)) in *.
  destruct (z_check K G ch p c (zg_proofs K G pf) (length raw) claim 1 0 gu gu t1) as [[[[[ru rv] cx] cy] t2]| |] eqn:Ec; cbn [rbind] in V; try discriminate.
  destruct (lget c 0) as [l0| |] eqn:E0; cbn [rbind] in V; try discriminate. destruct (z_inputs K (l_bits l0) inputs) as [inpad| |] eqn:Ei; cbn [rbind] in V; try discriminate.
  destruct (HO ru rv cx cy t2 l0 inpad eq_refl eq_refl Ei) as [H0 H1]. clear HO.
  destruct (z_opened K G ch p inpad (zg_witness K G pf) ru cx (zg_prod0 K G pf) (zg_y0 K G pf) (zg_eq0 K G pf) t2) as [t3| |] eqn:V0; cbn [rbind] in V; try discriminate. specialize (H1 t3 eq_refl).
  destruct (z_opened K G ch p inpad (zg_witness K G pf) rv cy (zg_prod1 K G pf) (zg_y1 K G pf) (zg_eq1 K G pf) t3) as [t4| |] eqn:V1; cbn [rmap] in V; try discriminate. clear V.
  assert (B0 : l_bits l0 = S k).
  { unfold lget in E0. cbn [c built c_layers nth_error] in E0. rewrite input_new_bits in E0. injection E0 as <-. cbn [l_bits]. f_equal. pose proof (pow2_above_unique _ _ _ P (next_pow2_above _)) as Q. unfold next_pow2 in Q. symmetry. exact (Nat.pow_inj_r 2 _ _ ltac:(lia) Q). }
  assert (N0 : nth_error (c_layers c) 0 = Some l0) by (unfold lget in E0; destruct (nth_error (c_layers c) 0); [congruence|discriminate]).
  assert (Nt : nth_error (c_layers c) (length raw) = Some top) by (unfold lget in Et; destruct (nth_error (c_layers c) (length raw)); [congruence|discriminate]).
  assert (Lgu : length gu = l_bits top /\ u = mle outputs gu).
  { unfold eval_output in Eo. destruct (Nat.leb_spec (length outputs) (2 ^ l_bits top)) as [Lo|]; [|discriminate]. fold (eval_output K G ch) in Eo.
    destruct (eval_output_ok K G ch outputs (l_bits top) (z_init K G hash p_hash inputs outputs (zg_witness K G pf)) Lo) as (rs & t' & E & Lr). unfold eval_output in E. destruct (Nat.leb_spec (length outputs) (2 ^ l_bits top)); [|lia]. cbn [negb] in *. rewrite E in Eo. injection Eo as <- <- _. auto. }
  destruct Lgu as [Lgu Eu]. destruct (length raw) as [|d] eqn:Lraw.
  { exfalso. clear - Ec V0. destruct (zg_proofs K G pf); injection Ec as <- <- _ _ _; discriminate V0. }
  assert (Lg : forall hi, nth_error (c_layers c) (S d) = Some hi -> (length (l_gates hi) <= 2 ^ length gu /\ length (l_gates hi) <= 2 ^ length gu)%nat).
  { intros hi Eh. rewrite Nt in Eh. injection Eh as <-. rewrite Lgu. pose proof (gates_le ni na raw d top Nt). auto. }
  assert (Ocl : opens g h claim (1 * u + 0 * 0) 0) by (unfold opens, claim, poly_commit_vec; rewrite msm1; reflexivity).
  destruct (check_extract K G ch p eq_refl ni na raw (2 ^ k) P L d (zv_layers K G R) (zg_proofs K G pf) claim 1 0 gu gu t1 ru rv cx cy t2 (1 * u + 0 * 0) 0 ltac:(lia) Lg Ec HL Ocl) as [Q|[Q|(es & e & Fo & Les & Nes & Eru & Erv & Ox & Oy & Con)]].
  { left. exact Q. } { right. left. apply relation_more. exact Q. }
  destruct (check_points p c l0 N0 _ _ _ _ _ _ _ _ _ _ _ _ _ Ec) as [[Lru _] [Lrv _]]. rewrite B0 in Lru, Lrv.
  destruct ru as [|q0 pt]; [discriminate|]. destruct rv as [|q1 pt']; [discriminate|]. cbn [length] in Lru, Lrv. injection Lru as Lru. injection Lrv as Lrv.
  assert (LG : (2 ^ (k - k / 2) <= length gs)%nat).
  { cbn [hp_pc hparams_new pc_gen_n mc_new mc_gens]. rewrite map_length, seq_length. apply Nat.pow_le_mono_r; [lia|]. pose proof (Nat.div_mod k 2 ltac:(lia)). pose proof (Nat.div_mod num 2 ltac:(lia)). pose proof (Nat.mod_upper_bound k 2 ltac:(lia)). pose proof (Nat.mod_upper_bound num 2 ltac:(lia)). lia. }
  assert (Linp : (length inputs <= 2 ^ k)%nat /\ forall r, mle inpad r = mle inputs r).
  { rewrite B0 in Ei. cbn [z_inputs] in Ei. destruct (Nat.ltb_spec (2 ^ k) (length inputs)); [discriminate|]. injection Ei as <-. split; [assumption|]. intro r. apply mle_pad. }
  destruct Linp as [Linp Epad].
  destruct (opened_sound p (zv_o0 K G R) inpad (zg_witness K G pf) q0 pt cx (zg_prod0 K G pf) (zg_y0 K G pf) (zg_eq0 K G pf) t2 t3 v bs (x_x K e) (x_bx K e)) as [Q|Q0]; try assumption; try reflexivity; try (rewrite Lru; assumption). { right. left. exact Q. }
  destruct (opened_sound p (zv_o1 K G R) inpad (zg_witness K G pf) q1 pt' cy (zg_prod1 K G pf) (zg_y1 K G pf) (zg_eq1 K G pf) t3 t4 v bs (x_y K e) (x_by K e)) as [Q|Q1]; try assumption; try reflexivity; try (rewrite Lrv; assumption). { right. left. exact Q. }
  right. right. exists es, gu, top, u, t1. split; [reflexivity|]. split; [exact Eo|]. split; [exact Lgu|]. split; [exact Fo|]. cbv zeta. set (inp := intended_layer (2 ^ k) inputs (firstn (2 ^ k) v)).
  assert (Lf : (length (firstn (2 ^ k) v) <= 2 ^ k)%nat) by (rewrite firstn_length; lia).
  destruct (feq_dec K (mle outputs gu) (mle (sem inp raw) gu)) as [E|E]; [left; exact E|right].
  destruct (Con inp) as [U|[W|W]]; [unfold inp, intended_layer; repeat rewrite app_length; rewrite !repeat_length; lia| |exact U|exfalso; apply W|exfalso; apply W].
  - rewrite <- Lraw, firstn_all, Eu. intro Q. apply E. transitivity (1 * mle outputs gu + 0 * 0); [ring|]. rewrite Q. ring.
  - rewrite Q0, Epad. unfold inp. rewrite intended_split, mle_firstn by assumption. reflexivity.
  - rewrite Q1, Epad. unfold inp. rewrite intended_split, mle_firstn by assumption. reflexivity.
Qed.
End Whole.
End S.
