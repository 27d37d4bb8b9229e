(** Libra's zero-knowledge protocol as a whole: coins correspond one to one to the accepted proofs. *)
From Verif Require Import Field Poly Module ModTac ModelTranscript ModelMle ModelLibra ModelSigma SpecSigma ModelSpartan ModelSnark ModelHyrax ModelLibraZk SpecMle SpecLibra SpecLibraZk ProofsPC ProofsMle ModelBulletproofs ProofsIPP ProofsBulletproofs ProofsLibra ProofsLibra2 ProofsLibra3 ProofsLibra4 ProofsSigma ProofsSigma2 ProofsSigma3 ProofsSigma4 ProofsSpartan2 ProofsSpartan3 ProofsSpartan4 ProofsHyrax7 ProofsHyrax8 ProofsLibraZk ProofsLibraZk2 ProofsLibraZk3 SpecSigmaZk SpecLibraCoins ProofsSigmaZk ProofsSigmaZk2 ProofsSigmaZk3 ProofsLibraCoins ProofsLibraCoins2.
From Coq Require Import String List Lia PeanoNat.
Import ListNotations.
Local Open Scope string_scope.
Local Open Scope list_scope.
Local Open Scope fld_scope.
Section H.
Variable K : Fld.
Variable G : Grp K.
Variable ch : oracle K G.
Notation tr := (transcript K G).
Variable p : hparams K G.
Lemma phase_shape T bits ts claim bclaim rnds (t : tr) sc rs es b t' : (forall i, length (rr_d K (rnds i)) = 3%nat) -> z_phase K G ch p T bits ts claim bclaim rnds t = Ok (sc, rs, es, b, t') -> sc_shape 3 bits sc.
Proof.
  intros D E. unfold z_phase in E. destruct bits as [|b0]; [discriminate|]. match type of E with rmap _ ?X = _ => destruct X as [[[[[sc1 rs1] ts1] b1] t1]| |] eqn:Ez; cbn [rmap] in E; try discriminate end. injection E as <- _ _ _ _.
  refine (rounds_shape K G ch _ _ _ _ _ _ _ _ _ _ _ _ _ _ _ _ _ Ez). split; [rewrite map_length, seq_length; reflexivity|]. apply Forall_forall. intros rr I. apply in_map_iff in I. destruct I as (i & <- & _). apply D.
Qed.
Lemma layer_shape c evals d lr al be gu gv x y b (t : tr) pf ru rv x' y' f t' : lr_ok K lr -> z_layer K G ch p c evals d lr al be gu gv x y b t = Ok (pf, ru, rv, x', y', f, t') ->
  exists lo, nth_error (c_layers c) d = Some lo /\ zl_shape K G (l_bits lo) pf.
Proof.
  intros [D1 D2] Z. unfold z_layer, lget in Z. destruct (nth_error (c_layers c) d) as [lo|]; [|discriminate]. destruct (nth_error (c_layers c) (S d)) as [hi|]; [|discriminate]. cbn [rbind] in Z.
  exists lo. split; [reflexivity|].
  match type of Z with rbind ?X _ = _ => destruct X as [v| |]; cbn [rbind] in Z; try discriminate end.
  match type of Z with rbind ?X _ = _ => destruct X as [[[m a1] a2]| |]; cbn [rbind] in Z; try discriminate end.
  match type of Z with rbind ?X _ = _ => destruct X as [[[[[s1 q1] e1] w1] u1]| |] eqn:Z1; cbn [rbind] in Z; try discriminate end.
  match type of Z with rbind ?X _ = _ => destruct X as [[[m2' a'] f2]| |]; cbn [rbind] in Z; try discriminate end.
  match type of Z with rbind ?X _ = _ => destruct X as [[[[[s2 q2] e2] w2] u2]| |] eqn:Z3; cbn [rbind] in Z; try discriminate end. unfold z_phase_one in Z1. unfold z_phase_two in Z3.
  match type of Z with (let '(_, _) := ?X in _) = _ => destruct X as [[[[pr ca] cb] cc] u3] eqn:Z4 end.
  match type of Z with (let '(_, _) := ?X in _) = _ => destruct X as [ee u4] eqn:Z5 end. injection Z as <- _ _ _ _ _ _.
  destruct (negb _) in Z1; [discriminate|]. destruct (negb _) in Z3; [discriminate|]. apply phase_shape in Z1; [|exact D1]. apply phase_shape in Z3; [|exact D2].
  split; [exact Z1|]. split; [exact Z3|]. cbn [zl_prod]. unfold product_proof, draw in Z4. injection Z4 as <- _ _ _ _. reflexivity.
Qed.
Lemma layers_shape c evals lrs : (forall i, lr_ok K (lrs i)) -> forall d al be gu gv x y b (t : tr) pfs st t', z_layers K G ch p c evals d lrs al be gu gv x y b t = Ok (pfs, st, t') -> zls_shape K G c d pfs.
Proof.
  intro O. induction d as [|d IH]; intros al be gu gv x y b t pfs st t' Z; [injection Z as <- _ _; exact I|]. destruct d as [|d'].
  - cbn [z_layers] in Z. match type of Z with rbind ?X _ = _ => destruct X as [[[[[[[pf ru] rv] x'] y'] f] u]| |] eqn:Z1; cbn [rbind] in Z; try discriminate end. injection Z as <- _ _. cbn [zls_shape]. split; [exact (layer_shape _ _ _ _ _ _ _ _ _ _ _ _ _ _ _ _ _ _ _ (O 0%nat) Z1)|exact I].
  - rewrite z_layers_SS in Z. match type of Z with rbind ?X _ = _ => destruct X as [[[[[[[pf ru] rv] x'] y'] f] u]| |] eqn:Z1; cbn [rbind] in Z; try discriminate end. cbv zeta in Z.
    match type of Z with rmap _ ?X = _ => destruct X as [[[pfs1 st1] u1]| |] eqn:Z2; cbn [rmap] in Z; try discriminate end. injection Z as <- _ _. split; [exact (layer_shape _ _ _ _ _ _ _ _ _ _ _ _ _ _ _ _ _ _ _ (O (S d')) Z1)|exact (IH _ _ _ _ _ _ _ _ _ _ _ Z2)].
Qed.
Lemma log_dot_shape lbl (q : pcp K G) lz r lzb ryb ev d rd rb bl (t : tr) pf C D t' k : length lz = (2 ^ k)%nat -> length r = (2 ^ k)%nat -> (2 ^ k <= length (mc_gens _ _ (pc_gen_n _ _ q)))%nat ->
  log_dot_prove K G ch lbl q lz r lzb ryb ev d rd rb bl t = Ok (pf, C, D, t') -> length (dp_l K G pf) = k.
Proof.
  intros Ll Lr Lg E. assert (Hf : (k < length lz)%nat) by (rewrite Ll; apply Nat.pow_gt_lin_r; lia). unfold log_dot_prove, draw in E. destruct (mc_gens _ _ (pc_gen_1 _ _ q)); [discriminate|].
  match type of E with rbind ?X _ = _ => destruct X as [[[[[[[ls rs] x] y] z] bf] t2]| |] eqn:E0; cbn [rbind] in E; try discriminate end.
  injection E as <- _ . cbn [dp_l]. unfold bullet_proof in E0. destruct (negb (is_pow2 _)) in E0; [discriminate|]. destruct (negb _) in E0; [discriminate|].
  match type of E0 with rbind ?X _ = _ => destruct X as [[[[[[[ls1 rs1] a1] b1] g1] bf1] t3]| |] eqn:E3; cbn [rbind] in E0; try discriminate end.
  destruct (bullet_loop_ok K G ch k _ _ _ _ _ _ _ _ _ Ll Lr Lg Hf _ _ _ _ _ _ _ E3) as (xs' & x' & y' & z' & gt & -> & -> & -> & _ & L1 & _).
  injection E0 as -> _ _ _ _ _ _. exact L1.
Qed.
Lemma open_shape wv wb q0 ry v bv e (t : tr) pf cy eq t' k : length (mc_gens K G (pc_gen_n K G (hp_pc K G p))) = pc_n K G (hp_pc K G p) -> length ry = k ->
  z_open K G ch p wv wb (q0 :: ry) v bv e t = Ok (pf, cy, eq, t') -> length (dp_l K G pf) = (k - k / 2)%nat.
Proof.
  intros En Lr Z. unfold z_open in Z. match type of Z with rbind ?X _ = _ => destruct X as [ew| |]; cbn [rbind] in Z; try discriminate end. unfold reduce_prover in Z.
  rewrite Lr in Z. destruct (Nat.eqb_spec k (log2c (length wv))) as [Ek|]; [|discriminate]. cbn [negb] in Z. rewrite <- Ek in Z. destruct (negb _) in Z; [discriminate|]. destruct (Nat.ltb _ _) in Z; [discriminate|].
  destruct (Nat.ltb_spec (pc_n K G (hp_pc K G p)) (length (eval_eq K (skipn (k / 2) ry)))) as [|L]; [discriminate|]. rewrite eval_eq_length, skipn_length, Lr in L.
  match type of Z with rmap _ (rmap _ ?X) = _ => destruct X as [[[[pf0 Cl] Cr] t0]| |] eqn:P; cbn [rmap] in Z; try discriminate end. destruct (eq_proof _ _ _ _ _ _ _ _ _ _) as [eq0 t1]. injection Z as <- _ _ _.
  refine (log_dot_shape _ _ _ _ _ _ _ _ _ _ _ _ _ _ _ _ _ _ _ _ P); [rewrite row_comb_tab, length_tab; reflexivity|rewrite eval_eq_length, skipn_length, Lr; reflexivity|rewrite En; exact L].
Qed.
End H.
Section M.
Variable K : Fld.
Variable G : Grp K.
Variable ch : oracle K G.
Add Field Kflc4 : (f_laws K).
Notation tr := (transcript K G).
Notation com p x b := (poly_commit_vec K G (mc_gens K G p) x (mc_h K G p) b).
Variables (num : nat) (r1 : nat -> G) (g : G) (r3 r4 : nat -> G) (ni na : nat) (raw : list raw_layer) (s : nat).
Notation SS := (2 ^ s)%nat.
Notation p := (hparams_new K G num r1 g r3 r4).
Notation g1 := (hp_1 K G p).
Notation c := (built ni na raw).
Variables (inputs w : list K) (hash p_hash : K).
Notation prove x := (z_prove K G ch p c inputs w hash p_hash (zc_w x) (zc_l x) (zc_0 x) (zc_1 x)).
Notation inp := (actual_layer SS inputs w).
Notation evals := (inp :: sems K inp raw).
Hypothesis two : (1 + 1 : K) <> 0.
Hypothesis HS : pow2_above (Nat.max ni na) SS.
Hypothesis HL : legal (2 * SS) raw.
Hypothesis Hraw : raw <> [].
Hypothesis S1 : spans (mc_h K G g1).
Hypothesis S3 : spans (mc_h K G (hp_3 K G p)).
Hypothesis HP : zk_provable SS raw num inputs w.
Hypothesis Hlen : length inputs = length w.
Theorem whole_coins pf : zg_shape K G c (length raw) s pf -> z_verify K G ch p c (sem inp raw) inputs hash p_hash pf = Ok true ->
  exists x, zc_ok K x /\ prove x = Ok (pf, sem inp raw) /\ forall x' out, zc_ok K x' -> prove x' = Ok (pf, out) -> zc_same K c (length raw) s x' x.
Proof.
  destruct HP as (Li & Lw & Sz & s' & Es & Hs). apply Nat.pow_inj_r in Es; [|lia]. subst s'.
  intros (Shw & Shl & Sh0 & Sh1) V. destruct pf as [cw pfs pf0 y0 eq0 pf1 y1 eq1]. cbn [zg_witness zg_proofs zg_prod0 zg_prod1] in *.
  assert (Lwl : (length w <= SS)%nat) by lia. pose proof (actual_length K SS inputs w Li Lwl) as Lin.
  assert (Le : length evals = length (c_layers c)). { cbn [length c_layers built]. rewrite map_length, sems_length. reflexivity. }
  destruct (nth_error (c_layers c) (length raw)) as [top|] eqn:Et; [|apply nth_error_None in Et; rewrite built_length in Et; cbn [c_depth built] in Et; exact (False_ind _ (Nat.nle_succ_diag_l _ Et))].
  destruct (eval_output_ok K G ch (sem inp raw) (l_bits top) (z_init K G hash p_hash inputs (sem inp raw) cw)) as (gu & t1 & EO & Lgu).
  { destruct (built_sizes K ni na raw SS inp (length raw) top (sem inp raw) HS Lin HL Et (sems_last K raw inp)) as [[_ E]|(l' & j' & _ & _ & X1 & X2)]; [lia|]. rewrite X1, X2. apply log2_up_le. }
  set (u := mle (sem inp raw) gu) in *.
  assert (Hu : 1 * u + 0 * 0 = 1 * mle (sem inp raw) gu + 0 * mle (sem inp raw) (repeat 0 (length gu))) by (unfold u; ring).
  pose proof (built_run K ni na raw SS inp HS Lin HL) as Hrun.
  unfold z_verify in V. cbn [zg_witness zg_proofs zg_prod0 zg_prod1 zg_y0 zg_y1 zg_eq0 zg_eq1] in V. change (c_depth c) with (S (length raw)) in V. cbv iota in V. unfold lget at 1 in V. rewrite Et in V. cbn [rbind] in V. rewrite EO in V. cbn [rbind] in V.
  destruct (Nat.eqb (length raw) (length pfs)); [|discriminate]. cbn [negb] in V. change (pc_gen_1 K G (hp_pc K G p)) with g1 in V.
  match type of V with rbind ?X _ = _ => destruct X as [[[[[ru rv] cx] cy] t2]| |] eqn:VC; cbn [rbind] in V; try discriminate end.
  assert (Hd : (1 <= length raw)%nat) by (destruct raw; [congruence|cbn; lia]).
  assert (Lrep : length (repeat (0 : K) (length gu)) = l_bits top) by (rewrite repeat_length; exact Lgu).
  destruct (layers_coins K G ch p two S1 S3 c evals Hrun Le (length raw) 1 0 gu (repeat 0 (length gu)) gu u 0 0 t1 top (sem inp raw) inp (input_new ni na) pfs ru rv cx cy t2 Hd Et (sems_last K raw inp) eq_refl eq_refl Lgu Lrep Lgu (or_introl eq_refl) Hu
    (proj2 (sized_iff K ni na raw s inputs w HS HL Lin) Sz) Shl VC) as (Lru & Lrv & lrs & Ols & Ecx & Ecy & PL & UL).
  rewrite (bits0 ni na s HS) in Lru, Lrv. destruct ru as [|r0 r0t]; [discriminate|]. destruct rv as [|r1' r1t]; [discriminate|]. injection Lru as Lru. injection Lrv as Lrv.
  unfold lget in V. cbn [c_layers built nth_error rbind] in V. rewrite (bits0 ni na s HS) in V. unfold z_inputs in V. destruct (Nat.ltb_spec SS (length inputs)) as [Q|_]; [lia|]. cbn [rbind] in V.
  set (pin := inputs ++ repeat 0 (SS - length inputs)) in *.
  assert (Key : forall q0 qt, length qt = s -> mle inp (q0 :: qt) = (1 - q0) * mle w qt + q0 * mle pin qt).
  { intros q0 qt Lt. rewrite layer_same by exact Hlen. unfold pin. rewrite mle_pad. apply intended_split; [exact Lt|exact Li|lia]. }
  destruct (packing_coins K G (mc_gens K G (pc_gen_n K G (hp_pc K G p))) (mc_h K G (pc_gen_n K G (hp_pc K G p))) w s cw S1 Lw Shw) as (wr & (wb & Epk) & Uw).
  match type of V with rbind ?X _ = _ => destruct X as [t3| |] eqn:V0; cbn [rbind] in V; try discriminate end.
  match type of V with rmap _ ?X = _ => destruct X as [t4| |] eqn:V1; cbn [rmap] in V; try discriminate end. clear V.
  assert (Eg : length (mc_gens K G (pc_gen_n K G (hp_pc K G p))) = pc_n K G (hp_pc K G p)) by (cbn [hp_pc pc_gen_n mc_gens hparams_new mc_new pc_n]; rewrite map_length, seq_length; reflexivity).
  assert (Lf : (2 ^ (s - s / 2) <= pc_n K G (hp_pc K G p))%nat) by (cbn [hp_pc pc_n hparams_new]; apply Nat.pow_le_mono_r; lia).
  rewrite Ecx in V0. rewrite Ecy in V1.
  destruct (open_coins K G ch p eq_refl Eg S1 w wr cw wb pin r0 r0t (mle inp (r0 :: r0t)) _ t2 pf0 y0 eq0 t3 g [] s eq_refl Lru Lw Lf Epk (Key r0 r0t Lru) Sh0 V0) as (e0 & P0 & U0).
  destruct (open_coins K G ch p eq_refl Eg S1 w wr cw wb pin r1' r1t (mle inp (r1' :: r1t)) _ t3 pf1 y1 eq1 t4 g [] s eq_refl Lrv Lw Lf Epk (Key r1' r1t Lrv) Sh1 V1) as (e1 & P1 & U1).
  assert (ZP : forall x, prove x = rbind (packing_poly_commit K G (mc_gens K G (pc_gen_n K G (hp_pc K G p))) w (mc_h K G (pc_gen_n K G (hp_pc K G p))) (zc_w x) true) (fun '(cw, wb) =>
      rbind (eval_output K G ch (sem inp raw) (l_bits top) (z_init K G hash p_hash inputs (sem inp raw) cw)) (fun '(ru, gu, t) =>
      rbind (z_layers K G ch p c evals (length raw) (zc_l x) 1 0 gu (repeat 0 (length gu)) ru 0 0 t) (fun '(pfs, (gu, gv, x', y, rx, ry), t) =>
      rbind (z_open K G ch p w wb gu x' rx (zc_0 x) t) (fun '(pf0, y0, eq0, t) =>
      rmap (fun '(pf1, y1, eq1, t) => (mkZG K G cw pfs pf0 y0 eq0 pf1 y1 eq1, sem inp raw)) (z_open K G ch p w wb gv y ry (zc_1 x) t)))))).
  { intro x. unfold z_prove. rewrite (evaluate_ok K ni na raw SS) by assumption. rewrite (proj2 (Nat.leb_le _ _) Li), (proj2 (Nat.leb_le _ _) Lwl). cbn [andb unwrap rbind]. change (c_depth c) with (S (length raw)). cbv iota beta.
    unfold vget at 1. rewrite sems_last. cbn [rbind]. unfold lget at 1. rewrite Et. reflexivity. }
  exists (mkZC K wr lrs e0 e1). split; [exact Ols|]. split.
  - rewrite ZP. cbn [zc_w zc_l zc_0 zc_1]. rewrite Epk. cbn [rbind]. rewrite EO. cbn [rbind]. rewrite PL. cbn [rbind]. rewrite P0. cbn [rbind]. rewrite P1. reflexivity.
  - intros [wr' lrs' e0' e1'] out Ok' E. rewrite ZP in E. cbn [zc_w zc_l zc_0 zc_1 zc_ok] in *.
    match type of E with rbind ?X _ = _ => destruct X as [[cw' wb']| |] eqn:Epk'; cbn [rbind] in E; try discriminate end.
    match type of E with rbind ?X _ = _ => destruct X as [[[u' gu'] t1']| |] eqn:EO'; cbn [rbind] in E; try discriminate end.
    match type of E with rbind ?X _ = _ => destruct X as [[[pfs' [[[[[a1 a2] a3] a4] a5] a6]] t2']| |] eqn:PL'; cbn [rbind] in E; try discriminate end.
    match type of E with rbind ?X _ = _ => destruct X as [[[[q0 q1] q2] t3']| |] eqn:P0'; cbn [rbind] in E; try discriminate end.
    match type of E with rmap _ ?X = _ => destruct X as [[[[q3 q4] q5] t4']| |] eqn:P1'; cbn [rmap] in E; try discriminate end. injection E as -> -> -> -> -> -> -> -> _.
    pose proof (Uw _ _ Epk') as Qw.
    assert (wb' = wb) as ->.
    { unfold packing_poly_commit in Epk, Epk'. rewrite Lw in Epk, Epk'. destruct (negb _); [discriminate|]. injection Epk as _ <-. injection Epk' as _ <-. apply map_ext_in. intros i Hi. apply in_seq in Hi. unfold log2c in Hi. rewrite Nat.log2_up_pow2 in Hi by lia. apply Qw. exact (proj2 Hi). }
    rewrite EO in EO'. injection EO' as <- <- <-. destruct (UL _ _ _ Ok' PL') as (QL & Qs & ->). injection Qs as -> -> -> -> -> ->.
    destruct (U0 _ _ P0') as [Q0 ->]. destruct (U1 _ _ P1') as [Q1 ->]. split; [exact Qw|]. split; [exact QL|]. split; [exact Q0|exact Q1].
Qed.
Theorem whole_shape x pf out : zc_ok K x -> prove x = Ok (pf, out) -> zg_shape K G c (length raw) s pf.
Proof.
  intros O E. destruct HP as (Li & Lw & _). assert (Hd : forall d i, length (rr_d K (lr_one K (zc_l x d) i)) = 3%nat /\ length (rr_d K (lr_two K (zc_l x d) i)) = 3%nat) by (intros d i; split; apply O).
  destruct (z_cases K G ch num r1 g r3 r4 ni na raw s inputs w hash p_hash (zc_w x) (zc_l x) (zc_0 x) (zc_1 x) two HS HL Hraw Hd) as [[E' _]|(_ & cw & wb & pfs & u & gu & t1 & r0 & r0t & r1' & r1t & t2 & L0 & L1 & Epk & ER & _)]; [congruence|].
  assert (Eg : length (mc_gens K G (pc_gen_n K G (hp_pc K G p))) = pc_n K G (hp_pc K G p)) by (cbn [hp_pc pc_gen_n mc_gens hparams_new mc_new pc_n]; rewrite map_length, seq_length; reflexivity).
  assert (Sl : zls_shape K G c (length raw) (zg_proofs K G pf)).
  { unfold z_prove in E. match type of E with rbind ?X _ = _ => destruct X as [evs| |]; cbn [rbind] in E; try discriminate end. change (c_depth c) with (S (length raw)) in E. cbv iota in E.
    match type of E with rbind ?X _ = _ => destruct X as [o| |]; cbn [rbind] in E; try discriminate end. match type of E with rbind ?X _ = _ => destruct X as [top| |]; cbn [rbind] in E; try discriminate end.
    match type of E with rbind ?X _ = _ => destruct X as [[cw' wb']| |]; cbn [rbind] in E; try discriminate end. match type of E with rbind ?X _ = _ => destruct X as [[[u' gu'] t1']| |]; cbn [rbind] in E; try discriminate end.
    match type of E with rbind ?X _ = _ => destruct X as [[[pfs' [[[[[a1 a2] a3] a4] a5] a6]] t2']| |] eqn:PL; cbn [rbind] in E; try discriminate end.
    match type of E with rbind ?X _ = _ => destruct X as [[[[q0 q1] q2] t3']| |]; cbn [rbind] in E; try discriminate end. match type of E with rmap _ ?X = _ => destruct X as [[[[q3 q4] q5] t4']| |]; cbn [rmap] in E; try discriminate end. injection E as <- _.
    exact (layers_shape K G ch p c evs (zc_l x) O _ _ _ _ _ _ _ _ _ _ _ _ PL). }
  rewrite ER in E. match type of E with rbind ?X _ = _ => destruct X as [[[[q0 q1] q2] t3']| |] eqn:P0; cbn [rbind] in E; try discriminate end. match type of E with rmap _ ?X = _ => destruct X as [[[[q3 q4] q5] t4']| |] eqn:P1; cbn [rmap] in E; try discriminate end. injection E as <- _.
  cbn [zg_proofs] in Sl. split; [|split; [exact Sl|split]]; cbn [zg_witness zg_prod0 zg_prod1].
  - unfold packing_poly_commit, log2c in Epk. rewrite Lw, Nat.log2_up_pow2 in Epk by lia. destruct (negb _) in Epk; [discriminate|]. injection Epk as <- _. rewrite map_length, seq_length. reflexivity.
  - exact (open_shape K G ch p _ _ _ _ _ _ _ _ _ _ _ _ s Eg L0 P0).
  - exact (open_shape K G ch p _ _ _ _ _ _ _ _ _ _ _ _ s Eg L1 P1).
Qed.
End M.
Section Top.
Variable K : Fld.
Variable G : Grp K.
Variable ch : oracle K G.
Variables (num : nat) (r1 : nat -> G) (g : G) (r3 r4 : nat -> G) (ni na : nat) (raw : list raw_layer) (c : circuit) (s : nat) (inputs : list K) (hash p_hash : K).
Notation p := (hparams_new K G num r1 g r3 r4).
Notation prove w x := (z_prove K G ch p c inputs w hash p_hash (zc_w x) (zc_l x) (zc_0 x) (zc_1 x)).
Notation out w := (sem (intended_layer (2 ^ s) inputs w) raw).
Hypothesis two : (1 + 1 : K) <> 0.
Hypothesis HS : pow2_above (Nat.max ni na) (2 ^ s).
Hypothesis Hc : circuit_new ni na raw = Ok c.
Hypothesis Hraw : raw <> [].
Hypothesis S1 : spans (mc_h K G (hp_1 K G p)).
Hypothesis S3 : spans (mc_h K G (hp_3 K G p)).
Theorem libra_coins w pf : zk_provable (2 ^ s) raw num inputs w -> length inputs = length w ->
  (zg_shape K G c (length raw) s pf /\ z_verify K G ch p c (out w) inputs hash p_hash pf = Ok true) <->
  exists x, zc_ok K x /\ prove w x = Ok (pf, out w) /\ forall x' o, zc_ok K x' -> prove w x' = Ok (pf, o) -> zc_same K c (length raw) s x' x.
Proof.
  intros HP Hl. destruct (circuit_new_inv ni na raw c _ HS Hc) as [HL ->]. rewrite <- (layer_same K (2 ^ s) inputs w Hl). split.
  - intros [Sh V]. exact (whole_coins K G ch num r1 g r3 r4 ni na raw s inputs w hash p_hash two HS HL Hraw S1 S3 HP Hl pf Sh V).
  - intros (x & O & E & _). split; [exact (whole_shape K G ch num r1 g r3 r4 ni na raw s inputs w hash p_hash two HS HL Hraw HP Hl x pf _ O E)|].
    assert (Hd : forall d i, length (rr_d K (lr_one K (zc_l x d) i)) = 3%nat /\ length (rr_d K (lr_two K (zc_l x d) i)) = 3%nat) by (intros d i; split; apply O).
    exact (proj2 (libra_zk_complete K G ch num r1 g r3 r4 ni na raw _ (2 ^ s) inputs w hash p_hash _ _ _ _ two HS Hc Hraw Hd pf _ E Hl)).
Qed.
Theorem libra_witnesses w w' x pf o : zk_provable (2 ^ s) raw num inputs w -> zk_provable (2 ^ s) raw num inputs w' -> length inputs = length w -> out w = out w' ->
  zc_ok K x -> prove w x = Ok (pf, o) -> exists x', zc_ok K x' /\ prove w' x' = Ok (pf, o) /\ forall y o', zc_ok K y -> prove w' y = Ok (pf, o') -> zc_same K c (length raw) s y x'.
Proof.
  intros HP HP' Hl Eo O E. assert (Hl' : length inputs = length w') by (destruct HP as (_ & A & _), HP' as (_ & B & _); congruence).
  assert (Hd : forall d i, length (rr_d K (lr_one K (zc_l x d) i)) = 3%nat /\ length (rr_d K (lr_two K (zc_l x d) i)) = 3%nat) by (intros d i; split; apply O).
  destruct (libra_zk_complete K G ch num r1 g r3 r4 ni na raw c (2 ^ s) inputs w hash p_hash _ _ _ _ two HS Hc Hraw Hd pf o E Hl) as [-> V]. rewrite Eo in *. apply (libra_coins w' pf HP' Hl'). split; [|exact V].
  destruct (circuit_new_inv ni na raw c _ HS Hc) as [HL ->]. exact (whole_shape K G ch num r1 g r3 r4 ni na raw s inputs w hash p_hash two HS HL Hraw HP Hl x pf _ O E).
Qed.
End Top.
