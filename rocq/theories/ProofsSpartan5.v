(** Completeness of spartan's non-succinct proof, the whole run. *)
From Verif Require Import Field Poly Module ModTac ProofsPC ModelTranscript ModelMle SpecMle ProofsMle ModelLibra ProofsLibra SpecLibra ProofsLibra3 ModelLC SpecLC ModelCS SpecCS ModelSigma ProofsSigma ProofsSigma2 ProofsSigma3 ProofsSigma4 ModelSpartan SpecSpartan ProofsSpartan ProofsSpartan2 ProofsSpartan3 AttackSpartan ProofsSpartan4.
From Coq Require Import String List Lia.
Local Open Scope string_scope.
Local Open Scope list_scope.
Local Open Scope fld_scope.
Section S.
Variable K : Fld.
Variable G : Grp K.
Variable ch : oracle K G.
Add Field Kf2 : (f_laws K).
Notation tr := (transcript K G).
Notation com p x b := (poly_commit_vec K G (mc_gens K G p) x (mc_h K G p) b).

Lemma evaluate_inst i m rx ry : wf_inst i -> length m = r_cons K i -> in_range (r_inputs K i) (r_aux K i) m -> length rx = rounds_x K i -> length ry = rounds_y K i ->
  evaluate_mle K m rx ry = Ok (mat_mle K i m rx ry) /\ mat_mle K i m rx ry = bil K (half_len K i) m (fun r => nth r (eval_eq K rx) 0) (fun c => nth c (eval_eq K ry) 0).
Proof.
  intros (_ & (kx & Ex) & _) Lm R Lx Ly. destruct (half_len_pow K i) as (En & Ha & Hi).
  assert (Px : (2 ^ length rx = r_cons K i)%nat) by (rewrite Lx; unfold rounds_x, log2c; rewrite Ex, Nat.log2_up_pow2 by lia; reflexivity).
  assert (Py : (2 ^ length ry = 2 * half_len K i)%nat) by (rewrite Ly; unfold rounds_y; rewrite Nat.add_1_r; cbn [Nat.pow]; lia).
  assert (Hc : forall j, cols_lt K (half_len K i) (2 * half_len K i) (nth j m [])) by (intro j; apply (range_cols K (r_inputs K i) (r_aux K i)); assumption).
  assert (E : mat_mle K i m rx ry = bil K (half_len K i) m (fun r => nth r (eval_eq K rx) 0) (fun c => nth c (eval_eq K ry) 0)) by (apply mle_table; [lia|lia|exact Py|exact Hc]).
  split; [|exact E]. rewrite E. apply evaluate_mle_bil; [lia|exact Py|exact Hc].
Qed.

(** [sat_verify] with any evaluation of the public part in place of the sparse one. *)
Definition sat_check (ei : list K -> K) (p : satp K G) (i : r1cs K) (inputs : list K) (pf : satproof K G) (evals : K * K * K) (t : tr) : res (bool * list K * list K * tr) :=
  let '(ea, eb, ec) := evals in
  let n := half_len K i in
  if Nat.ltb n (length inputs + 1) then Panic else
  let t := MFs "r1cs_input" (1 :: inputs ++ repeat 0 (n - length inputs - 1)) :: t in
  let t := MGs "poly_commitment" (sa_witness K G pf) :: t in
  let '(tau, t) := draws K G ch "challenge_tau" (rounds_x K i) t in
  rbind (sc_verify K G ch (sp_1 K G p) (sp_4 K G p) (scp_polys K G (sa_one K G pf)) (scp_evals K G (sa_one K G pf)) (scp_proofs K G (sa_one K G pf)) (com (sp_1 K G p) [0] 0) 4 (rounds_x K i) t) (fun '(rx, cx, t) =>
  let '(ok, t) := knowledge_verify K G ch (sp_1 K G p) (sa_know K G pf) (sa_vc K G pf) t in
  if negb ok then Ok (false, [], [], t) else
  rbind (product_verify K G ch (sp_1 K G p) (sa_pprod K G pf) (sa_va K G pf) (sa_vb K G pf) (sa_vprod K G pf) t) (fun '(ok, t) =>
  if negb ok then Ok (false, [], [], t) else
  let t := MG "comm_prod_Az_Bz_claims" (sa_vprod K G pf) :: MG "comm_Cz_claim" (sa_vc K G pf) :: MG "comm_Bz_claim" (sa_vb K G pf) :: MG "comm_Az_claim" (sa_va K G pf) :: t in
  rbind (eval_eq_x_y K rx tau) (fun e =>
  let '(ok, t) := eq_verify K G ch (sp_1 K G p) (gsm e (gadd (sa_vprod K G pf) (gopp (sa_vc K G pf)))) cx (sa_eq1 K G pf) t in
  if negb ok then Ok (false, [], [], t) else
  let '(ra, t) := draw K G ch "challenege_Az" t in
  let '(rb, t) := draw K G ch "challenege_Bz" t in
  let '(rc, t) := draw K G ch "challenege_Cz" t in
  let claim2 := gadd (gadd (gsm ra (sa_va K G pf)) (gsm rb (sa_vb K G pf))) (gsm rc (sa_vc K G pf)) in
  rbind (sc_verify K G ch (sp_1 K G p) (sp_3 K G p) (scp_polys K G (sa_two K G pf)) (scp_evals K G (sa_two K G pf)) (scp_proofs K G (sa_two K G pf)) claim2 3 (rounds_y K i) t) (fun '(ry, cy, t) =>
  match ry with
  | [] => Panic
  | ry0 :: ry' =>
      rbind (inner_product_verify K G ch (sp_pc K G p) ry' (sa_witness K G pf) (sa_ry K G pf) (sa_prod K G pf) t) (fun '(ok, t) =>
      if negb ok then Ok (false, [], [], t) else
      if Nat.ltb (2 ^ length ry') (length inputs + 1) then Panic else
      let cz := gadd (gsm (1 - ry0) (sa_ry K G pf)) (gsm ry0 (com (pc_gen_1 K G (sp_pc K G p)) [ei ry'] 0)) in
      let '(ok, t) := eq_verify K G ch (pc_gen_1 K G (sp_pc K G p)) (gsm (ea * ra + eb * rb + ec * rc) cz) cy (sa_eq2 K G pf) t in
      if negb ok then Ok (false, [], [], t) else Ok (true, rx, ry, t))
  end)))).
Lemma sat_check_sparse p i inputs pf evals t : sat_verify K G ch p i inputs pf evals t =
  sat_check (fun ry' => sparse_evaluate_value K (1 :: inputs ++ repeat 0 (2 ^ length ry' - length inputs - 1)) ry') p i inputs pf evals t.
Proof. reflexivity. Qed.
Section Run.
Variable p : satp K G.
Variable i : r1cs K.
Variable ncons : nat.
Variables inputs aux : list K.
Variable sr : srand K.
Variable t : tr.
Hypothesis W : wf_inst i.
Hypothesis SP : setup_for G p i.
Hypothesis ER : enough_rand i sr.
Hypothesis SAT : inst_sat (assign inputs aux) i.
Hypothesis LI : length inputs = r_inputs K i.
Hypothesis LA : length aux = r_aux K i.
Hypothesis NC : r_cons K i = (2 ^ log2c ncons)%nat.
Hypothesis T2 : (1 + 1 : K) <> 0.
Hypothesis T3 : (1 + 1 + 1 : K) <> 0.
Let n := half_len K i.
Let k := log2c n.
Let aux' := aux ++ repeat 0 (n - length aux).
Let one_gen := pc_gen_1 K G (sp_pc K G p).

Theorem sat_run_check (ei : list K -> K) : exists rx ry0 ry' blinds t2 (mk : dproof K G -> G -> tr -> satproof K G * list K * list K * tr),
  length rx = rounds_x K i /\ length ry' = k /\ length aux' = (2 ^ k)%nat /\ length blinds = (2 ^ (k / 2))%nat /\
  sat_prove K G ch p i ncons inputs aux sr t = rbind (inner_product_proof K G ch (sp_pc K G p) aux' blinds ry' (sr_ry K sr) (mle aux' ry') (sr_d K sr) (sr_delta K sr) (sr_beta K sr) (sr_bv K sr) t2) (fun '(wpf, cry, t3) => Ok (mk wpf cry t3)) /\
  forall wpf cry t3, inner_product_proof K G ch (sp_pc K G p) aux' blinds ry' (sr_ry K sr) (mle aux' ry') (sr_d K sr) (sr_delta K sr) (sr_beta K sr) (sr_bv K sr) t2 = Ok (wpf, cry, t3) ->
  exists pf t', mk wpf cry t3 = (pf, rx, ry0 :: ry', t') /\ exists (ra rb rc beta c c' : K) tc tv, c' = ch "c" tc /\
    let vs := ra * mat_mle K i (r_a K i) rx (ry0 :: ry') + rb * mat_mle K i (r_b K i) rx (ry0 :: ry') + rc * mat_mle K i (r_c K i) rx (ry0 :: ry') in
    let d := ei ry' - mle (public i inputs) ry' in
    let ok := geqb (gsm ((c - c') * beta) (mc_h K G one_gen)) (gsm (c' * (vs * (ry0 * d))) (hd g0 (mc_gens K G one_gen))) in
    sat_check ei p i (tl inputs) pf (mat_mle K i (r_a K i) rx (ry0 :: ry'), mat_mle K i (r_b K i) rx (ry0 :: ry'), mat_mle K i (r_c K i) rx (ry0 :: ry')) t =
      Ok (if ok then (true, rx, ry0 :: ry', tv) else (false, [], [], tv)) /\ (d = 0 -> c = c' /\ tv = t').
Proof.
  destruct (half_len_pow K i) as (En & Ha & Hi). fold n in En, Ha, Hi. fold k in En.
  destruct SP as (S1 & S2 & S3 & S4). fold n in S4. fold k in S4. fold one_gen in S1, S2, S3.
  destruct (mc_gens K G one_gen) as [|q qs] eqn:Eq; [contradiction|clear S2].
  destruct ER as ((R1 & R2) & (R3 & R4)). pose proof W as (W0 & (kx & Ex) & (La & Lb & Lc) & (Ra & Rb & Rc)).
  assert (Rx : rounds_x K i = kx) by (unfold rounds_x, log2c; rewrite Ex; apply Nat.log2_up_pow2; lia).
  assert (Ry : rounds_y K i = S k) by (unfold rounds_y; fold n k; lia).
  assert (I1 : inputs = 1 :: tl inputs).
  { destruct SAT as [H1 _]. unfold ONE in H1. cbn [assign] in H1. destruct inputs as [|x l]; [cbn in LI; lia|]. cbn in H1. cbn. congruence. }
  destruct (pad_ok K n aux) as (PA & LA'); [lia|]. destruct (pad_ok K n inputs) as (PI & LI'); [lia|]. fold aux' in PA, LA'. set (inputs' := inputs ++ repeat 0 (n - length inputs)) in *.
  assert (Pub : public i inputs = inputs') by reflexivity.
  assert (V1 : 1 :: tl inputs ++ repeat 0 (n - length (tl inputs) - 1) = inputs').
  { unfold inputs'. clear -I1. destruct inputs as [|x l]; [discriminate|]. cbn [tl] in *. injection I1 as ->. cbn [app length]. do 3 f_equal. lia. }
  assert (V2 : (length (tl inputs) + 1 <= n)%nat) by (rewrite I1 in LI; cbn [length] in LI; lia).
  unfold sat_prove. rewrite NC, Nat.eqb_refl. cbn [negb]. fold n. rewrite PA, PI. cbn [rbind]. cbv zeta.
  destruct (packing_total K G (mc_gens K G (pc_gen_n K G (sp_pc K G p))) aux' (mc_h K G (pc_gen_n K G (sp_pc K G p))) (sr_w K sr) true k) as ((cw & blinds) & Epk); [lia|]. rewrite Epk. cbn [rbind].
  set (t1 := MGs "poly_commitment" cw :: MFs "r1cs_input" inputs' :: t).
  destruct (draws K G ch "challenge_tau" (rounds_x K i) t1) as [tau t2] eqn:Et. pose proof (draws_length K G ch _ _ _ _ _ Et) as Lt.
  rewrite (matrix_vec_ok K (r_a K i) aux' inputs' _ _ n LA' LI' Ra Hi Ha), (matrix_vec_ok K (r_b K i) aux' inputs' _ _ n LA' LI' Rb Hi Ha), (matrix_vec_ok K (r_c K i) aux' inputs' _ _ n LA' LI' Rc Hi Ha). cbn [rbind].
  set (ma := map (row_eval (assign inputs' aux')) (r_a K i)). set (mb := map (row_eval (assign inputs' aux')) (r_b K i)). set (mc := map (row_eval (assign inputs' aux')) (r_c K i)).
  assert (Lma : length ma = (2 ^ kx)%nat) by (unfold ma; rewrite map_length; lia). assert (Lmb : length mb = (2 ^ kx)%nat) by (unfold mb; rewrite map_length; lia). assert (Lmc : length mc = (2 ^ kx)%nat) by (unfold mc; rewrite map_length; lia).
  assert (Let : length (eval_eq K tau) = (2 ^ kx)%nat) by (rewrite eval_eq_length, Lt, Rx; reflexivity).
  (* phase one *)
  unfold sum_check_one at 1. rewrite Lma, Lmb, Lmc, Let, !Nat.eqb_refl. cbn [andb negb].
  destruct (zk_rounds_ok K G ch (round_cubic K (term_r1cs K)) (term_r1cs K) 4 (sp_1 K G p) (sp_4 K G p) (good_cubic K _ (term_r1cs_cubic K) T2 T3) ltac:(lia) (rounds_x K i) [ma; mb; mc; eval_eq K tau] 0 0 (sr_one K sr) t2)
    as (one & rx & ts1 & bl1 & t3 & E1 & Lrx & A1 & C1); [rewrite Rx; repeat constructor; assumption|apply total_zero, sat_rows, SAT|exact R1|exact R2|].
  rewrite E1, A1. cbn [rbind map]. set (va := mle ma rx). set (vb := mle mb rx). set (vc := mle mc rx). set (ve := mle (eval_eq K tau) rx).
  unfold term_r1cs in C1. cbn [map nth] in C1. fold va vb vc ve in C1.
  destruct (knowledge_proof K G ch (sp_1 K G p) vc (sr_c K sr) (sr_k1 K sr) (sr_k2 K sr) t3) as [[kpf Cc] t4] eqn:Ek.
  assert (ECc : Cc = com (sp_1 K G p) [vc] (sr_c K sr)) by (unfold knowledge_proof, draw in Ek; cbv zeta in Ek; congruence).
  apply knowledge_complete in Ek.
  destruct (product_proof K G ch (sp_1 K G p) va (sr_a K sr) vb (sr_b K sr) (va * vb) (sr_prod K sr) (sr_p1 K sr) (sr_p2 K sr) (sr_p3 K sr) (sr_p4 K sr) (sr_p5 K sr) t4) as [[[[ppf Ca] Cb] Cp] t5] eqn:Ep.
  assert (ECa : Ca = com (sp_1 K G p) [va] (sr_a K sr)) by (unfold product_proof, draw in Ep; cbv zeta in Ep; congruence).
  assert (ECb : Cb = com (sp_1 K G p) [vb] (sr_b K sr)) by (unfold product_proof, draw in Ep; cbv zeta in Ep; congruence).
  assert (ECp : Cp = com (sp_1 K G p) [va * vb] (sr_prod K sr)) by (unfold product_proof, draw in Ep; cbv zeta in Ep; congruence).
  apply product_complete in Ep; [|reflexivity].
  set (t6 := MG "comm_prod_Az_Bz_claims" Cp :: MG "comm_Cz_claim" Cc :: MG "comm_Bz_claim" Cb :: MG "comm_Az_claim" Ca :: t5).
  destruct (eq_proof K G ch (sp_1 K G p) (ve * (va * vb - vc)) (ve * (sr_prod K sr - sr_c K sr)) (ve * (va * vb - vc)) bl1 (sr_eq1 K sr) t6) as [eq1 t7] eqn:Ee1.
  apply eq_complete in Ee1; [|reflexivity]. unfold draw. cbv beta iota zeta.
  set (ra := ch "challenege_Az" t7). set (rb := ch "challenege_Bz" (MCh "challenege_Az" :: t7)). set (rc := ch "challenege_Cz" (MCh "challenege_Bz" :: MCh "challenege_Az" :: t7)).
  set (t8 := MCh "challenege_Cz" :: MCh "challenege_Bz" :: MCh "challenege_Az" :: t7).
  (* phase two *)
  assert (Lz : length (aux' ++ inputs') = (2 * n)%nat) by (rewrite app_length, LA', LI'; lia). rewrite Lz.
  assert (Lex : length (eval_eq K rx) = (2 ^ kx)%nat) by (rewrite eval_eq_length, Lrx, Rx; reflexivity).
  destruct (matrix_col_ok K (r_a K i) (eval_eq K rx) _ _ n ltac:(lia) Ra Hi Ha) as (wa & Ewa & Lwa & Hwa).
  destruct (matrix_col_ok K (r_b K i) (eval_eq K rx) _ _ n ltac:(lia) Rb Hi Ha) as (wb & Ewb & Lwb & Hwb).
  destruct (matrix_col_ok K (r_c K i) (eval_eq K rx) _ _ n ltac:(lia) Rc Hi Ha) as (wc & Ewc & Lwc & Hwc).
  rewrite Ewa, Ewb, Ewc. cbn [rbind]. rewrite Lwa. set (evals := map (fun j => ra * nth j wa 0 + rb * nth j wb 0 + rc * nth j wc 0) (seq 0 (2 * n))).
  assert (Lev : length evals = (2 * n)%nat) by (unfold evals; rewrite map_length, seq_length; reflexivity).
  assert (Pn : (2 ^ S k = 2 * n)%nat) by (cbn [Nat.pow]; lia).
  assert (EVS : forall Y, sumn (2 * n) (fun j => nth j evals 0 * Y j) = ra * bil K n (r_a K i) (fun r => nth r (eval_eq K rx) 0) Y + rb * bil K n (r_b K i) (fun r => nth r (eval_eq K rx) 0) Y + rc * bil K n (r_c K i) (fun r => nth r (eval_eq K rx) 0) Y).
  { intro Y. rewrite <- (col_bil K _ _ n _ wa _ Y Ra Hi Ha Hwa), <- (col_bil K _ _ n _ wb _ Y Rb Hi Ha Hwb), <- (col_bil K _ _ n _ wc _ Y Rc Hi Ha Hwc).
    rewrite <- !sumn_mul_l, <- !sumn_add. apply sumn_ext. intros j Lj. unfold evals. rewrite nth_map_seq. replace (Nat.ltb j (2 * n)) with true by (symmetry; apply Nat.ltb_lt, Lj). ring. }
  assert (EC2 : va * ra + vb * rb + vc * rc = total K (term_abc K) [evals; aux' ++ inputs'] (S k)).
  { rewrite total_abc by lia. rewrite Pn, EVS. unfold va, vb, vc, ma, mb, mc. rewrite (row_bil K _ _ n (r_a K i) aux' inputs' rx Ra Hi Ha LA'), (row_bil K _ _ n (r_b K i) aux' inputs' rx Rb Hi Ha LA'), (row_bil K _ _ n (r_c K i) aux' inputs' rx Rc Hi Ha LA') by (rewrite <- eval_eq_length; lia). ring. }
  unfold sum_check_two at 1. rewrite Lev, Lz, Ry, Pn, !Nat.eqb_refl. cbn [negb].
  destruct (zk_rounds_ok K G ch (round_quad K (term_abc K)) (term_abc K) 3 (sp_1 K G p) (sp_3 K G p) (good_quad K _ (term_abc_quad K) T2) ltac:(lia) (S k) [evals; aux' ++ inputs'] (va * ra + vb * rb + vc * rc) (sr_a K sr * ra + sr_b K sr * rb + sr_c K sr * rc) (sr_two K sr) t8)
    as (two & ry & ts2 & bl2 & t9 & E2 & Lry & A2 & C2); [repeat constructor; lia|exact EC2|lia|exact R4|].
  rewrite E2, A2. cbn [rbind map]. destruct ry as [|ry0 ry']; [discriminate|]. assert (Lry' : length ry' = k) by (cbn in Lry; lia).
  unfold term_abc in C2. cbn [map nth] in C2. set (vs := mle evals (ry0 :: ry')) in *. set (vz := mle (aux' ++ inputs') (ry0 :: ry')) in *.
  rewrite eval_value_ok. replace (Nat.leb (length aux') (2 ^ length ry')) with true by (symmetry; apply Nat.leb_le; rewrite Lry'; lia). cbn [rbind].
  destruct (packing_ok K G _ aux' _ _ _ k cw blinds ltac:(lia) Epk (repeat 0 (k / 2)) (repeat 0 (k - k / 2)) (repeat_length _ _) (repeat_length _ _)) as (Lbl & _).
  set (ew := mle aux' ry').
  exists rx, ry0, ry', blinds, t9. fold ew. eexists. split; [exact Lrx|]. split; [exact Lry'|]. split; [lia|]. split; [exact Lbl|]. split.
  { match goal with |- rbind ?x _ = rbind ?x _ => destruct x as [[[wpf cry] t10]| |] end; cbn [rbind]; [|reflexivity|reflexivity].
    instantiate (1 := fun wpf cry t10 => let '(eq2, t') := eq_proof K G ch one_gen (vs * vz) ((1 - ry0) * sr_ry K sr * vs) (vs * vz) bl2 (sr_eq2 K sr) t10 in (mkSat K G cw one two ew wpf Ca Cb Cc Cp kpf ppf eq1 eq2 cry, rx, ry0 :: ry', t')).
    cbv beta. fold one_gen. destruct (eq_proof K G ch one_gen (vs * vz) ((1 - ry0) * sr_ry K sr * vs) (vs * vz) bl2 (sr_eq2 K sr) t10). reflexivity. }
  intros wpf cry t10 Hip. cbv beta.
  destruct (inner_product_exact K G ch (sp_pc K G p) q qs aux' (sr_w K sr) true cw blinds blinds ry' (sr_ry K sr) ew (sr_d K sr) (sr_delta K sr) (sr_beta K sr) (sr_bv K sr) t9 wpf cry t10 Eq S3) as (Ecry & bs & gh & ga & tx & _ & Hv); [rewrite Lry'; exact S4|exact Epk|left; reflexivity|exact Hip|].
  replace (ew - mle aux' ry') with (0 : K) in Hv by (unfold ew; ring). 
  destruct (eq_proof K G ch one_gen (vs * vz) ((1 - ry0) * sr_ry K sr * vs) (vs * vz) bl2 (sr_eq2 K sr) t10) as [eq2 t'] eqn:Ee2.
  eexists. eexists. split; [reflexivity|]. exists ra, rb, rc.
  assert (EA : vs = ra * mat_mle K i (r_a K i) rx (ry0 :: ry') + rb * mat_mle K i (r_b K i) rx (ry0 :: ry') + rc * mat_mle K i (r_c K i) rx (ry0 :: ry')).
  { unfold vs. rewrite mle_dot by (cbn [length]; rewrite Lry'; lia). rewrite dot_sumn, Lev, EVS.
    destruct (evaluate_inst i (r_a K i) rx (ry0 :: ry') W La Ra Lrx ltac:(cbn; lia)) as (_ & ->). destruct (evaluate_inst i (r_b K i) rx (ry0 :: ry') W Lb Rb Lrx ltac:(cbn; lia)) as (_ & ->). destruct (evaluate_inst i (r_c K i) rx (ry0 :: ry') W Lc Rc Lrx ltac:(cbn; lia)) as (_ & ->). reflexivity. }
  rewrite Pub. set (d := ei ry' - mle inputs' ry').
  assert (EZ : vz = (1 - ry0) * ew + ry0 * mle inputs' ry').
  { unfold vz. rewrite mle_cons. replace (2 ^ length ry')%nat with (length aux') by (rewrite Lry'; lia). rewrite firstn_app, Nat.sub_diag, firstn_all, firstn_O, app_nil_r. rewrite skipn_app, Nat.sub_diag, skipn_all, skipn_O. reflexivity. }
  destruct (eq_off K G ch one_gen q qs (vs * vz) (vs * ((1 - ry0) * ew + ry0 * ei ry')) (vs * vz) ((1 - ry0) * sr_ry K sr * vs) bl2 (sr_eq2 K sr) t10 eq2 t' Eq eq_refl Ee2) as (c & c' & tc & tv & Hc & Hq & Hd).
  exists ((1 - ry0) * sr_ry K sr * vs - bl2), c, c', tc, tv. split; [exact Hc|]. rewrite <- EA. cbn [hd]. split.
  2:{ intro D. destruct Hd as [Hd1 Hd2]; [|split; assumption]. rewrite EZ. f_equal. f_equal. f_equal. transitivity (d + mle inputs' ry'); [unfold d; ring|]. rewrite D. ring. }
  (* the verifier *)
  unfold sat_check. cbn [sa_witness sa_one sa_two sa_wry sa_prod sa_va sa_vb sa_vc sa_vprod sa_know sa_pprod sa_eq1 sa_eq2 sa_ry]. fold n.
  replace (Nat.ltb n (length (tl inputs) + 1)) with false by (symmetry; apply Nat.ltb_ge, V2). rewrite V1. cbv zeta. fold t1. rewrite Et.
  rewrite C1. cbn [rbind]. rewrite Ek. cbn [negb]. rewrite Ep. cbn [rbind negb]. fold t6.
  rewrite eval_eq_x_y_ok by congruence. rewrite <- mle_eval_eq by congruence. fold ve. cbn [rbind].
  assert (Eq' : mc_gens K G (sp_1 K G p) = q :: qs) by (rewrite S1; exact Eq).
  assert (H1 : gsm ve (gadd Cp (gopp Cc)) = com (sp_1 K G p) [ve * (va * vb - vc)] (ve * (sr_prod K sr - sr_c K sr))) by (rewrite ECp, ECc; apply (com_lin K G _ q qs), Eq').
  assert (H2 : gadd (gadd (gsm ra Ca) (gsm rb Cb)) (gsm rc Cc) = com (sp_1 K G p) [va * ra + vb * rb + vc * rc] (sr_a K sr * ra + sr_b K sr * rb + sr_c K sr * rc)) by (rewrite ECa, ECb, ECc; apply (com_lin3 K G _ q qs), Eq').
  rewrite H1, Ee1. cbn [negb]. unfold draw. cbv beta iota zeta. fold ra rb rc t8. rewrite H2, Ry, C2. cbn [rbind]. rewrite Hv. cbn [rbind].
  replace (geqb (gsm (bs * ch "challenge_tau" (MG "beta" (dp_beta K G wpf) :: MG "delta" (dp_delta K G wpf) :: tx) * 0) q) g0) with true by (symmetry; apply geqb_true; gmod; ring).
  cbn [negb]. replace (2 ^ length ry')%nat with n by (rewrite Lry'; exact En). replace (Nat.ltb n (length (tl inputs) + 1)) with false by (symmetry; apply Nat.ltb_ge, V2). 
  fold one_gen.
  replace (mat_mle K i (r_a K i) rx (ry0 :: ry') * ra + mat_mle K i (r_b K i) rx (ry0 :: ry') * rb + mat_mle K i (r_c K i) rx (ry0 :: ry') * rc) with vs by (rewrite EA; ring).
  rewrite Ecry, <- Eq. fold one_gen. rewrite (com_lin2 K G one_gen q qs) by exact Eq. rewrite S1. fold one_gen. replace (vz * vs) with (vs * vz) by ring. rewrite Hq.
  replace (vs * ((1 - ry0) * ew + ry0 * ei ry') - vs * vz) with (vs * (ry0 * d)) by (rewrite EZ; unfold d; ring).
  match goal with |- context [negb ?b] => destruct b end; reflexivity.
Qed.
Theorem sat_run : exists rx ry0 ry' blinds t2 (mk : dproof K G -> G -> tr -> satproof K G * list K * list K * tr),
  length rx = rounds_x K i /\ length ry' = k /\ length aux' = (2 ^ k)%nat /\ length blinds = (2 ^ (k / 2))%nat /\
  sat_prove K G ch p i ncons inputs aux sr t = rbind (inner_product_proof K G ch (sp_pc K G p) aux' blinds ry' (sr_ry K sr) (mle aux' ry') (sr_d K sr) (sr_delta K sr) (sr_beta K sr) (sr_bv K sr) t2) (fun '(wpf, cry, t3) => Ok (mk wpf cry t3)) /\
  forall wpf cry t3, inner_product_proof K G ch (sp_pc K G p) aux' blinds ry' (sr_ry K sr) (mle aux' ry') (sr_d K sr) (sr_delta K sr) (sr_beta K sr) (sr_bv K sr) t2 = Ok (wpf, cry, t3) ->
  exists pf t', mk wpf cry t3 = (pf, rx, ry0 :: ry', t') /\ exists (ra rb rc beta c c' : K) tc tv, c' = ch "c" tc /\
    let vs := ra * mat_mle K i (r_a K i) rx (ry0 :: ry') + rb * mat_mle K i (r_b K i) rx (ry0 :: ry') + rc * mat_mle K i (r_c K i) rx (ry0 :: ry') in
    let d := mle (squeeze K (public i inputs)) ry' - mle (public i inputs) ry' in
    let ok := geqb (gsm ((c - c') * beta) (mc_h K G one_gen)) (gsm (c' * (vs * (ry0 * d))) (hd g0 (mc_gens K G one_gen))) in
    sat_verify K G ch p i (tl inputs) pf (mat_mle K i (r_a K i) rx (ry0 :: ry'), mat_mle K i (r_b K i) rx (ry0 :: ry'), mat_mle K i (r_c K i) rx (ry0 :: ry')) t =
      Ok (if ok then (true, rx, ry0 :: ry', tv) else (false, [], [], tv)) /\ (d = 0 -> c = c' /\ tv = t').
Proof.
  destruct (sat_run_check (fun ry' => sparse_evaluate_value K (1 :: tl inputs ++ repeat 0 (2 ^ length ry' - length (tl inputs) - 1)) ry')) as (rx & ry0 & ry' & blinds & t2 & mk & Lrx & Lry & Laux & Lbl & Eq & H).
  exists rx, ry0, ry', blinds, t2, mk. split; [exact Lrx|]. split; [exact Lry|]. split; [exact Laux|]. split; [exact Lbl|]. split; [exact Eq|]. intros wpf cry t3 Hip.
  destruct (H wpf cry t3 Hip) as (pf & t' & Em & ra & rb & rc & beta & c & c' & tc & tv & Hc & V & Hd). clear H. exists pf, t'. split; [exact Em|]. exists ra, rb, rc, beta, c, c', tc, tv. split; [exact Hc|].
  destruct (half_len_pow K i) as (En & Ha & Hi). fold n in En, Ha, Hi. fold k in En.
  assert (V1 : 1 :: tl inputs ++ repeat 0 (2 ^ length ry' - length (tl inputs) - 1) = public i inputs).
  { unfold public. rewrite Lry. fold n. rewrite <- En. pose proof W as (W0 & _). destruct SAT as [H1 _]. unfold ONE in H1. cbn [assign] in H1. destruct inputs as [|x l]; [cbn in LI; lia|]. cbn in H1. subst x. cbn [tl app length]. do 3 f_equal. lia. }
  cbv zeta in *. rewrite V1 in V, Hd. 
  assert (Es : sparse_evaluate_value K (public i inputs) ry' = mle (squeeze K (public i inputs)) ry').
  { apply sparse_ok. rewrite Lry, <- En. pose proof (squeeze_length K (public i inputs)). assert (length (public i inputs) = n) by (unfold public; rewrite app_length, repeat_length; fold n; lia). lia. }
  rewrite Es in V, Hd. rewrite sat_check_sparse. split; [exact V|exact Hd].
Qed.
End Run.
End S.
