(** Spartan's satisfiability proof: coins correspond one to one to the accepted proofs. *)
From Verif Require Import Field Poly Module ModTac ProofsPC ModelTranscript ModelMle SpecMle ProofsMle ModelLibra ProofsLibra SpecLibra ProofsLibra3 ModelLC SpecLC ModelCS SpecCS ModelSigma ProofsSigma ProofsSigma2 ProofsSigma3 ProofsSigma4 ModelSpartan SpecSpartan ProofsSpartan ProofsSpartan2 ProofsSpartan3 AttackSpartan ProofsSpartan4 ProofsSpartan5.
From Verif Require Import SpecSigmaZk SpecSpartanZk ProofsSigmaZk ProofsSigmaZk2 ProofsSigmaZk3 ProofsLibraCoins ProofsLibraCoins2 ProofsSpartanZk.
From Coq Require Import String List Lia.
Local Open Scope string_scope.
Local Open Scope list_scope.
Local Open Scope fld_scope.
Section S.
Variable K : Fld.
Variable G : Grp K.
Variable ch : oracle K G.
Add Field Kf2 : (f_laws K).
Notation tr := (transcript K G).
Notation com p x b := (poly_commit_vec K G (mc_gens K G p) x (mc_h K G p) b).
Section Run.
Variable p : satp K G.
Variable i : r1cs K.
Variable ncons : nat.
Variables inputs aux : list K.
Variable t : tr.
Hypothesis W : wf_inst i.
Hypothesis SP : setup_for G p i.
Hypothesis SAT : inst_sat (assign inputs aux) i.
Hypothesis LI : length inputs = r_inputs K i.
Hypothesis LA : length aux = r_aux K i.
Hypothesis NC : r_cons K i = (2 ^ log2c ncons)%nat.
Hypothesis T2 : (1 + 1 : K) <> 0.
Hypothesis T3 : (1 + 1 + 1 : K) <> 0.
Hypothesis H1 : spans (mc_h K G (sp_1 K G p)).
Hypothesis H3 : spans (mc_h K G (sp_3 K G p)).
Hypothesis H4 : spans (mc_h K G (sp_4 K G p)).
Let n := half_len K i.
Let k := log2c n.
Let one_gen := pc_gen_1 K G (sp_pc K G p).
Notation aux' := (private i aux).
Notation dense := (fun ry => mle (public i inputs) ry).
Notation evals_at rx ry := (mat_mle K i (r_a K i) rx ry, mat_mle K i (r_b K i) rx ry, mat_mle K i (r_c K i) rx ry).

Theorem sat_coins pf rx ry t' : sat_shape i pf -> sa_wry K G pf = mle aux' (tl ry) -> length ry = rounds_y K i -> sat_check K G ch dense p i (tl inputs) pf (evals_at rx ry) t = Ok (true, rx, ry, t') ->
  exists sr, sr_ok i sr /\ sat_prove K G ch p i ncons inputs aux sr t = Ok (pf, rx, ry, t') /\
    forall sr' rx' ry' t2, sr_ok i sr' -> sat_prove K G ch p i ncons inputs aux sr' t = Ok (pf, rx', ry', t2) -> sr_same i sr' sr.
Proof.
  destruct pf as [cw one two wry wpf Ca Cb Cc Cp kpf ppf eq1 eq2 cry]. intros (Sh0 & Sh1 & Sh2 & Sh3 & Sh4) Ew Lry V. cbn [sa_witness sa_one sa_two sa_wry sa_prod sa_va sa_vb sa_vc sa_vprod sa_know sa_pprod sa_eq1 sa_eq2 sa_ry] in *.
  destruct (half_len_pow K i) as (En & Ha & Hi). fold n in En, Ha, Hi, Sh0, Sh4. fold k in En, Sh0, Sh4.
  destruct SP as (S1 & S2 & S3 & S4). fold n in S4. fold k in S4. fold one_gen in S1, S2, S3.
  destruct (mc_gens K G one_gen) as [|q qs] eqn:Eq; [contradiction|clear S2].
  pose proof W as (W0 & (kx & Ex) & (La & Lb & Lc) & (Ra & Rb & Rc)).
  assert (Rx : rounds_x K i = kx) by (unfold rounds_x, log2c; rewrite Ex; apply Nat.log2_up_pow2; lia).
  assert (Ry : rounds_y K i = S k) by (unfold rounds_y; fold n k; lia).
  assert (I1 : inputs = 1 :: tl inputs).
  { destruct SAT as [J1 _]. unfold ONE in J1. cbn [assign] in J1. destruct inputs as [|x l]; [cbn in LI; lia|]. cbn in J1. cbn. congruence. }
  destruct (pad_ok K n aux) as (PA & LA'); [lia|]. destruct (pad_ok K n inputs) as (PI & LI'); [lia|]. change (aux ++ repeat 0 (n - length aux)) with aux' in PA, LA'. change (inputs ++ repeat 0 (n - length inputs)) with (public i inputs) in PI, LI'.
  set (inputs' := public i inputs) in *. set (wv := aux') in *.
  assert (V1 : 1 :: tl inputs ++ repeat 0 (n - length (tl inputs) - 1) = inputs').
  { unfold inputs', public. fold n. clear -I1. destruct inputs as [|x l]; [discriminate|]. cbn [tl] in *. injection I1 as ->. cbn [app length]. do 3 f_equal. lia. }
  assert (V2 : (length (tl inputs) + 1 <= n)%nat) by (rewrite I1 in LI; cbn [length] in LI; lia).
  assert (Eq' : mc_gens K G (sp_1 K G p) = q :: qs) by (rewrite S1; exact Eq).
  (* the verifier *)
  unfold sat_check in V. cbn [sa_witness sa_one sa_two sa_wry sa_prod sa_va sa_vb sa_vc sa_vprod sa_know sa_pprod sa_eq1 sa_eq2 sa_ry] in V. fold n in V.
  replace (Nat.ltb n (length (tl inputs) + 1)) with false in V by (symmetry; apply Nat.ltb_ge, V2). rewrite V1 in V. cbv zeta in V.
  set (t1 := MGs "poly_commitment" cw :: MFs "r1cs_input" inputs' :: t) in *.
  destruct (draws K G ch "challenge_tau" (rounds_x K i) t1) as [tau t2] eqn:Et. pose proof (draws_length K G ch _ _ _ _ _ Et) as Lt.
  (* the witness commitment *)
  assert (Hn : spans (mc_h K G (pc_gen_n K G (sp_pc K G p)))) by (rewrite S3, <- S1; exact H1).
  destruct (packing_coins K G (mc_gens K G (pc_gen_n K G (sp_pc K G p))) (mc_h K G (pc_gen_n K G (sp_pc K G p))) wv k cw Hn ltac:(lia) Sh0) as (wr & (wb & Epk) & Uw).
  set (ma := map (row_eval (assign inputs' wv)) (r_a K i)). set (mb := map (row_eval (assign inputs' wv)) (r_b K i)). set (mc := map (row_eval (assign inputs' wv)) (r_c K i)).
  assert (Lma : length ma = (2 ^ kx)%nat) by (unfold ma; rewrite map_length; lia). assert (Lmb : length mb = (2 ^ kx)%nat) by (unfold mb; rewrite map_length; lia). assert (Lmc : length mc = (2 ^ kx)%nat) by (unfold mc; rewrite map_length; lia).
  assert (Let : length (eval_eq K tau) = (2 ^ kx)%nat) by (rewrite eval_eq_length, Lt, Rx; reflexivity).
  (* phase one *)
  match type of V with rbind ?X _ = _ => destruct X as [[[rx0 c1] t3]| |] eqn:A1; cbn [rbind] in V; try discriminate end.
  destruct (sc_coins K G ch (round_cubic K (term_r1cs K)) (term_r1cs K) 4 (sp_1 K G p) (sp_4 K G p) (rounds_x K i) [ma; mb; mc; eval_eq K tau] 0 0 one t2 rx0 c1 t3 (good_cubic K _ (term_r1cs_cubic K) T2 T3) ltac:(lia) H1 H4)
    as (r1 & bl1 & R1 & E1 & -> & Lrx & U1); [rewrite Rx; repeat constructor; assumption|apply total_zero, sat_rows, SAT|exact Sh1|exact A1|].
  cbn [map] in V, E1, U1. set (va := mle ma rx0) in *. set (vb := mle mb rx0) in *. set (vc := mle mc rx0) in *. set (ve := mle (eval_eq K tau) rx0) in *.
  unfold term_r1cs at 1 in V. cbn [nth] in V.
  (* the values at rx *)
  destruct (com_span K G (sp_1 K G p) Ca va H1) as (ba & Ea & Ua). destruct (com_span K G (sp_1 K G p) Cb vb H1) as (bb & Eb & Ub). destruct (com_span K G (sp_1 K G p) Cc vc H1) as (bc & Ec & Uc). destruct (com_span K G (sp_1 K G p) Cp (va * vb) H1) as (bp & Ep & Up).
  match type of V with (let '(_, _) := ?X in _) = _ => destruct X as [ok t4] eqn:A2 end. destruct ok; [|discriminate]. cbn [negb] in V.
  rewrite <- Ec in A2. apply knowledge_coins in A2. destruct A2 as ([k1 k2] & Pk & Uk). cbn [fst snd] in Pk.
  match type of V with rbind ?X _ = _ => destruct X as [[ok t5]| |] eqn:A3; cbn [rbind] in V; try discriminate end. destruct ok; [|discriminate]. cbn [negb] in V.
  apply (conj Sh3) in A3. rewrite <- Ea, <- Eb, <- Ep in A3. apply product_coins in A3. destruct A3 as ([[[[p1 p2] p3] p4] p5] & Pp & Upp).
  set (t6 := MG "comm_prod_Az_Bz_claims" Cp :: MG "comm_Cz_claim" Cc :: MG "comm_Bz_claim" Cb :: MG "comm_Az_claim" Ca :: t5) in *.
  rewrite eval_eq_x_y_ok in V by congruence. rewrite <- mle_eval_eq in V by congruence. fold ve in V. cbn [rbind] in V.
  match type of V with (let '(_, _) := ?X in _) = _ => destruct X as [ok t7] eqn:A4 end. destruct ok; [|discriminate]. cbn [negb] in V.
  assert (L1 : gsm ve (gadd Cp (gopp Cc)) = com (sp_1 K G p) [ve * (va * vb - vc)] (ve * (bp - bc))) by (rewrite <- Ep, <- Ec; apply (com_lin K G _ q qs), Eq').
  rewrite L1 in A4. apply eq_coins in A4. destruct A4 as (e1 & Pe1 & Ue1).
  unfold draw in V. cbv beta iota zeta in V.
  set (ra := ch "challenege_Az" t7) in *. set (rb := ch "challenege_Bz" (MCh "challenege_Az" :: t7)) in *. set (rc := ch "challenege_Cz" (MCh "challenege_Bz" :: MCh "challenege_Az" :: t7)) in *.
  set (t8 := MCh "challenege_Cz" :: MCh "challenege_Bz" :: MCh "challenege_Az" :: t7) in *.
  (* phase two *)
  assert (L2 : gadd (gadd (gsm ra Ca) (gsm rb Cb)) (gsm rc Cc) = com (sp_1 K G p) [va * ra + vb * rb + vc * rc] (ba * ra + bb * rb + bc * rc)) by (rewrite <- Ea, <- Eb, <- Ec; apply (com_lin3 K G _ q qs), Eq').
  rewrite L2 in V.
  assert (Lz : length (wv ++ inputs') = (2 * n)%nat) by (rewrite app_length, LA', LI'; lia).
  assert (Lex : length (eval_eq K rx0) = (2 ^ kx)%nat) by (rewrite eval_eq_length, Lrx, Rx; reflexivity).
  destruct (matrix_col_ok K (r_a K i) (eval_eq K rx0) _ _ n ltac:(lia) Ra Hi Ha) as (wa & Ewa & Lwa & Hwa).
  destruct (matrix_col_ok K (r_b K i) (eval_eq K rx0) _ _ n ltac:(lia) Rb Hi Ha) as (wbb & Ewb & Lwb & Hwb).
  destruct (matrix_col_ok K (r_c K i) (eval_eq K rx0) _ _ n ltac:(lia) Rc Hi Ha) as (wc & Ewc & Lwc & Hwc).
  set (evals := map (fun j => ra * nth j wa 0 + rb * nth j wbb 0 + rc * nth j wc 0) (seq 0 (2 * n))).
  assert (Lev : length evals = (2 * n)%nat) by (unfold evals; rewrite map_length, seq_length; reflexivity).
  assert (Pn : (2 ^ S k = 2 * n)%nat) by (cbn [Nat.pow]; lia).
  assert (EVS : forall Y, sumn (2 * n) (fun j => nth j evals 0 * Y j) = ra * bil K n (r_a K i) (fun r => nth r (eval_eq K rx0) 0) Y + rb * bil K n (r_b K i) (fun r => nth r (eval_eq K rx0) 0) Y + rc * bil K n (r_c K i) (fun r => nth r (eval_eq K rx0) 0) Y).
  { intro Y. rewrite <- (col_bil K _ _ n _ wa _ Y Ra Hi Ha Hwa), <- (col_bil K _ _ n _ wbb _ Y Rb Hi Ha Hwb), <- (col_bil K _ _ n _ wc _ Y Rc Hi Ha Hwc).
    rewrite <- !sumn_mul_l, <- !sumn_add. apply sumn_ext. intros j Lj. unfold evals. rewrite ProofsMle.nth_map_seq. replace (Nat.ltb j (2 * n)) with true by (symmetry; apply Nat.ltb_lt, Lj). ring. }
  assert (EC2 : va * ra + vb * rb + vc * rc = total K (term_abc K) [evals; wv ++ inputs'] (S k)).
  { rewrite total_abc by lia. rewrite Pn, EVS. unfold va, vb, vc, ma, mb, mc. rewrite (row_bil K _ _ n (r_a K i) wv inputs' rx0 Ra Hi Ha LA'), (row_bil K _ _ n (r_b K i) wv inputs' rx0 Rb Hi Ha LA'), (row_bil K _ _ n (r_c K i) wv inputs' rx0 Rc Hi Ha LA') by (rewrite <- eval_eq_length; lia). ring. }
  match type of V with rbind ?X _ = _ => destruct X as [[[ry_ c2] t9]| |] eqn:A5; cbn [rbind] in V; try discriminate end.
  destruct (sc_coins K G ch (round_quad K (term_abc K)) (term_abc K) 3 (sp_1 K G p) (sp_3 K G p) (rounds_y K i) [evals; wv ++ inputs'] (va * ra + vb * rb + vc * rc) (ba * ra + bb * rb + bc * rc) two t8 ry_ c2 t9 (good_quad K _ (term_abc_quad K) T2) ltac:(lia) H1 H3)
    as (r2 & bl2 & R2 & E2 & -> & Lry0 & U2); [rewrite Ry; repeat constructor; lia|rewrite Ry; exact EC2|exact Sh2|exact A5|].
  destruct ry_ as [|ry0 ry']; [discriminate|]. assert (Lry' : length ry' = k) by (cbn in Lry0; lia).
  cbn [map] in V, E2, U2. unfold term_abc at 1 in V. cbn [nth] in V. set (vs := mle evals (ry0 :: ry')) in *. set (vz := mle (wv ++ inputs') (ry0 :: ry')) in *.
  (* the opening *)
  match type of V with rbind ?X _ = _ => destruct X as [[ok t10]| |] eqn:A6; cbn [rbind] in V; try discriminate end. destruct ok; [|discriminate]. cbn [negb] in V.
  destruct (ip_coins K G ch (sp_pc K G p) q qs wv wr cw wb ry' cry wpf t9 t10 k) as (by_ & bv & d & rd & rbt & Ecry & Lbv & Pip & Uip); [exact Eq|exact S3|change (spans (mc_h K G one_gen)); rewrite <- S1; exact H1|exact Lry'|lia|exact S4|exact Epk|exact Sh4|exact A6|].
  replace (2 ^ length ry')%nat with n in V by (rewrite Lry'; exact En). replace (Nat.ltb n (length (tl inputs) + 1)) with false in V by (symmetry; apply Nat.ltb_ge, V2).
  match type of V with (let '(_, _) := ?X in _) = _ => destruct X as [ok t11] eqn:A7 end. destruct ok; [|discriminate]. cbn [negb] in V. injection V as <- <- <-.
  cbn [tl] in Ew. fold wv in Ew. set (ew := mle wv ry') in *.
  assert (EA : vs = ra * mat_mle K i (r_a K i) rx0 (ry0 :: ry') + rb * mat_mle K i (r_b K i) rx0 (ry0 :: ry') + rc * mat_mle K i (r_c K i) rx0 (ry0 :: ry')).
  { unfold vs. rewrite mle_dot by (cbn [length]; rewrite Lry'; lia). rewrite dot_sumn, Lev, EVS.
    destruct (evaluate_inst K i (r_a K i) rx0 (ry0 :: ry') W La Ra Lrx Lry0) as (_ & ->). destruct (evaluate_inst K i (r_b K i) rx0 (ry0 :: ry') W Lb Rb Lrx Lry0) as (_ & ->). destruct (evaluate_inst K i (r_c K i) rx0 (ry0 :: ry') W Lc Rc Lrx Lry0) as (_ & ->). reflexivity. }
  assert (EZ : vz = (1 - ry0) * ew + ry0 * mle inputs' ry').
  { unfold vz. rewrite mle_cons. replace (2 ^ length ry')%nat with (length wv) by (rewrite Lry'; lia). rewrite firstn_app, Nat.sub_diag, firstn_all, firstn_O, app_nil_r. rewrite skipn_app, Nat.sub_diag, skipn_all, skipn_O. reflexivity. }
  fold one_gen in A7, Ecry.
  replace (mat_mle K i (r_a K i) rx0 (ry0 :: ry') * ra + mat_mle K i (r_b K i) rx0 (ry0 :: ry') * rb + mat_mle K i (r_c K i) rx0 (ry0 :: ry') * rc) with vs in A7 by (rewrite EA; ring).
  rewrite <- Ecry in A7. rewrite (com_lin2 K G one_gen q qs) in A7 by exact Eq. rewrite S1 in A7. fold one_gen in A7. fold ew in A7. rewrite <- EZ in A7. replace (vz * vs) with (vs * vz) in A7 by ring.
  apply eq_coins in A7. destruct A7 as (e2 & Pe2 & Ue2).
  (* the prover *)
  assert (PRE : forall sr, sat_prove K G ch p i ncons inputs aux sr t =
    rbind (packing_poly_commit K G (mc_gens K G (pc_gen_n K G (sp_pc K G p))) wv (mc_h K G (pc_gen_n K G (sp_pc K G p))) (sr_w K sr) true) (fun '(cw, blinds) =>
    let '(tau, t) := draws K G ch "challenge_tau" (rounds_x K i) (MGs "poly_commitment" cw :: MFs "r1cs_input" inputs' :: t) in
    rbind (sum_check_one K G ch p (rounds_x K i) 0 ma mb mc (eval_eq K tau) (sr_one K sr) t) (fun '(one, rx, (va, vb, vc, ve), bl1, t) =>
    let prod := va * vb in
    let '(kpf, vc_commit, t) := knowledge_proof K G ch (sp_1 K G p) vc (sr_c K sr) (sr_k1 K sr) (sr_k2 K sr) t in
    let '(ppf, va_commit, vb_commit, prod_commit, t) := product_proof K G ch (sp_1 K G p) va (sr_a K sr) vb (sr_b K sr) prod (sr_prod K sr) (sr_p1 K sr) (sr_p2 K sr) (sr_p3 K sr) (sr_p4 K sr) (sr_p5 K sr) t in
    let t := MG "comm_prod_Az_Bz_claims" prod_commit :: MG "comm_Cz_claim" vc_commit :: MG "comm_Bz_claim" vb_commit :: MG "comm_Az_claim" va_commit :: t in
    let claim1 := ve * (prod - vc) in
    let '(eq1, t) := eq_proof K G ch (sp_1 K G p) claim1 (ve * (sr_prod K sr - sr_c K sr)) claim1 bl1 (sr_eq1 K sr) t in
    let '(ra, t) := draw K G ch "challenege_Az" t in
    let '(rb, t) := draw K G ch "challenege_Bz" t in
    let '(rc, t) := draw K G ch "challenege_Cz" t in
    let claim2 := va * ra + vb * rb + vc * rc in
    let bclaim2 := sr_a K sr * ra + sr_b K sr * rb + sr_c K sr * rc in
    let ex := eval_eq K rx in
    rbind (evaluate_matrix_vec_col K (r_a K i) ex (2 * n)) (fun ea =>
    rbind (evaluate_matrix_vec_col K (r_b K i) ex (2 * n)) (fun eb =>
    rbind (evaluate_matrix_vec_col K (r_c K i) ex (2 * n)) (fun ec =>
    let evals := map (fun j => ra * nth j ea 0 + rb * nth j eb 0 + rc * nth j ec 0) (seq 0 (length ea)) in
    rbind (sum_check_two K G ch p (rounds_y K i) claim2 bclaim2 evals (wv ++ inputs') (sr_two K sr) t) (fun '(two, ry, (vs, vz), bl2, t) =>
    match ry with
    | [] => Panic
    | ry0 :: ry' =>
        rbind (eval_value K wv ry') (fun eval_w =>
        rbind (inner_product_proof K G ch (sp_pc K G p) wv blinds ry' (sr_ry K sr) eval_w (sr_d K sr) (sr_delta K sr) (sr_beta K sr) (sr_bv K sr) t) (fun '(wpf, commit_ry, t) =>
        let '(eq2, t) := eq_proof K G ch one_gen (vs * vz) ((1 - ry0) * sr_ry K sr * vs) (vs * vz) bl2 (sr_eq2 K sr) t in
        Ok (mkSat K G cw one two eval_w wpf va_commit vb_commit vc_commit prod_commit kpf ppf eq1 eq2 commit_ry, rx, ry, t)))
    end))))))).
  { intro sr. unfold sat_prove. rewrite NC, Nat.eqb_refl. cbn [negb]. fold n. rewrite PA, PI. cbn [rbind]. cbv zeta. fold inputs'. rewrite Lz.
    rewrite (matrix_vec_ok K (r_a K i) wv inputs' _ _ n LA' LI' Ra Hi Ha), (matrix_vec_ok K (r_b K i) wv inputs' _ _ n LA' LI' Rb Hi Ha), (matrix_vec_ok K (r_c K i) wv inputs' _ _ n LA' LI' Rc Hi Ha). cbn [rbind]. reflexivity. }
  assert (EVW : eval_value K wv ry' = Ok ew) by (rewrite eval_value_ok; replace (Nat.leb (length wv) (2 ^ length ry')) with true by (symmetry; apply Nat.leb_le; rewrite Lry'; lia); reflexivity).
  assert (SC1 : forall rn u, sum_check_one K G ch p (rounds_x K i) 0 ma mb mc (eval_eq K tau) rn u =
    rbind (zk_rounds K G ch (round_cubic K (term_r1cs K)) (sp_1 K G p) (sp_4 K G p) 4 (rounds_x K i) [ma; mb; mc; eval_eq K tau] 0 0 (com (sp_1 K G p) [0] 0) rn u) (fun '(sc, rx, ts, bl, t) =>
      match ts with [[va]; [vb]; [vc]; [ve]] => Ok (sc, rx, (va, vb, vc, ve), bl, t) | _ => Panic end)).
  { intros rn u. unfold sum_check_one. rewrite Lma, Lmb, Lmc, Let, !Nat.eqb_refl. reflexivity. }
  assert (SC2 : forall cl bcl rn u, sum_check_two K G ch p (rounds_y K i) cl bcl evals (wv ++ inputs') rn u =
    rbind (zk_rounds K G ch (round_quad K (term_abc K)) (sp_1 K G p) (sp_3 K G p) 3 (rounds_y K i) [evals; wv ++ inputs'] cl bcl (com (sp_1 K G p) [cl] bcl) rn u) (fun '(sc, ry, ts, bl, t) =>
      match ts with [vs :: _; vz :: _] => Ok (sc, ry, (vs, vz), bl, t) | _ => Panic end)).
  { intros cl bcl rn u. unfold sum_check_two. rewrite Lev, Lz, Nat.eqb_refl. cbn [negb]. replace (2 ^ rounds_y K i)%nat with (2 * n)%nat by (rewrite Ry; lia). rewrite Nat.eqb_refl. reflexivity. }
  exists (mkSR K wr r1 ba bb bc bp k1 k2 p1 p2 p3 p4 p5 e1 r2 by_ d rd rbt bv e2). split; [split; [exact R1|split; [exact R2|exact Lbv]]|]. split.
  - rewrite PRE. cbn [sr_w sr_one sr_a sr_b sr_c sr_prod sr_k1 sr_k2 sr_p1 sr_p2 sr_p3 sr_p4 sr_p5 sr_eq1 sr_two sr_ry sr_d sr_delta sr_beta sr_bv sr_eq2].
    rewrite Epk. cbn [rbind]. fold t1. rewrite Et, SC1, E1. cbn [rbind]. cbv zeta. rewrite Pk, Pp. rewrite Ea, Eb, Ec, Ep. fold t6. rewrite Pe1. unfold draw. cbv beta iota zeta. fold ra rb rc t8.
    rewrite Ewa, Ewb, Ewc. cbn [rbind]. rewrite Lwa. fold evals. rewrite SC2, E2. cbn [rbind]. rewrite EVW. cbn [rbind]. fold ew in Pip. rewrite Pip. cbn [rbind]. 
    replace ((1 - ry0) * by_ * vs) with (vs * ((1 - ry0) * by_)) by ring. rewrite ?Pe2. 
    match type of Pe2 with ?X = _ => match goal with |- context [eq_proof ?a1 ?a2 ?a3 ?a4 ?a5 ?a6 ?a7 ?a8 ?a9 ?b1] => replace (eq_proof a1 a2 a3 a4 a5 a6 a7 a8 a9 b1) with X by (f_equal; ring) end end. rewrite Pe2. rewrite Ew. reflexivity.
  - intros sr' rx' ry'' u (O1 & O2 & O3) Z. fold n in O3. fold k in O3. rewrite PRE in Z.
    match type of Z with rbind ?X _ = _ => destruct X as [[cw' wb']| |] eqn:Z0; cbn [rbind] in Z; try discriminate end.
    destruct (draws K G ch "challenge_tau" (rounds_x K i) (MGs "poly_commitment" cw' :: MFs "r1cs_input" inputs' :: t)) as [tau' t2'] eqn:Et'.
    match type of Z with rbind ?X _ = _ => destruct X as [[[[[one' rx''] [[[va' vb'] vc'] ve']] bl1'] t3']| |] eqn:Z1; cbn [rbind] in Z; try discriminate end.
    cbv zeta in Z. destruct (knowledge_proof _ _ _ _ vc' _ _ _ _) as [[kpf' Cc'] t4'] eqn:Zk. destruct (product_proof _ _ _ _ va' _ _ _ _ _ _ _ _ _ _ _) as [[[[ppf' Ca'] Cb'] Cp'] t5'] eqn:Zp.
    destruct (eq_proof _ _ _ _ (ve' * (va' * vb' - vc')) _ _ _ _ _) as [eq1' t7'] eqn:Ze1. unfold draw in Z. cbv beta iota zeta in Z.
    do 3 (match type of Z with rbind ?X _ = _ => destruct X as [?| |] eqn:?; cbn [rbind] in Z; try discriminate end).
    match type of Z with rbind ?X _ = _ => destruct X as [[[[[two' rys] [vs' vz']] bl2'] t9']| |] eqn:Z2; cbn [rbind] in Z; try discriminate end.
    destruct rys as [|ry0' ryt]; [discriminate|].
    match type of Z with rbind ?X _ = _ => destruct X as [ew'| |] eqn:Zw; cbn [rbind] in Z; try discriminate end.
    match type of Z with rbind ?X _ = _ => destruct X as [[[wpf' cry'] t10']| |] eqn:Zi; cbn [rbind] in Z; try discriminate end.
    destruct (eq_proof _ _ _ _ (vs' * vz') _ _ _ _ _) as [eq2' t11'] eqn:Ze2. injection Z as -> -> -> Qw -> -> -> -> -> -> -> -> -> -> <- <- <-.
    fold t1 in Et'. rewrite Et in Et'. injection Et' as <- <-. pose proof (Uw _ _ Z0) as Aw.
    assert (Ewb' : wb' = wb).
    { unfold packing_poly_commit, log2c in Epk, Z0. assert (Lw : length wv = (2 ^ k)%nat) by lia. rewrite Lw, Nat.log2_up_pow2 in Epk, Z0 by lia. destruct (negb _); [discriminate|]. injection Epk as _ <-. injection Z0 as _ <-. apply map_ext_in. intros j Hj. apply in_seq in Hj. apply Aw. exact (proj2 Hj). }
    subst wb'. rewrite SC1 in Z1. match type of Z1 with rbind ?X _ = _ => destruct X as [[[[[sc1 q1] ts1] w1] u1]| |] eqn:Z1'; cbn [rbind] in Z1; try discriminate end.
    assert (sc1 = one) as -> by (revert Z1; clear; intro Z1; repeat (match type of Z1 with match ?l with _ => _ end = _ => destruct l; try discriminate end); injection Z1 as -> _ _ _ _ _ _ _; reflexivity).
    destruct (U1 _ _ _ _ _ O1 Z1') as [Q1 Qt]. injection Qt as -> -> -> ->. injection Z1 as <- <- <- <- <- <- <-.
    pose proof (knowledge_com K G ch _ _ _ _ _ _ _ _ _ Zk) as Kc. pose proof (product_com K G ch _ _ _ _ _ _ _ _ _ _ _ _ _ _ _ _ _ _ Zp) as (Ka & Kb & Kp).
    pose proof (Ua _ (eq_sym Ka)) as Qa. pose proof (Ub _ (eq_sym Kb)) as Qb. pose proof (Uc _ (eq_sym Kc)) as Qc. pose proof (Up _ (eq_sym Kp)) as Qp.
    rewrite Qc in Zk. pose proof (knowledge_same K G ch _ _ _ _ _ _ _ _ _ _ _ _ _ Pk Zk) as [Kc' <-]. rewrite <- Kc' in Zk. pose proof (Uk (sr_k1 K sr', sr_k2 K sr') Zk) as Qk. injection Qk as Qk1 Qk2.
    rewrite Qa, Qb, Qp in Zp. pose proof (product_same K G ch _ _ _ _ _ _ _ _ _ _ _ _ _ _ _ _ _ _ _ _ _ _ _ _ _ _ _ Pp Zp) as (Ka' & Kb' & Kp' & <-). rewrite <- Ka', <- Kb', <- Kp' in Zp.
    pose proof (Upp (sr_p1 K sr', sr_p2 K sr', sr_p3 K sr', sr_p4 K sr', sr_p5 K sr') Zp) as Qpp. injection Qpp as Qp1 Qp2 Qp3 Qp4 Qp5.
    fold t6 in Ze1. rewrite Qp, Qc in Ze1. pose proof (eq_same K G ch _ _ _ _ _ _ _ _ _ _ _ Pe1 Ze1) as Q7. symmetry in Q7. subst t7'. pose proof (Ue1 _ Ze1) as Qe1.
    fold ra rb rc t8 in Z2.
    match goal with Ha : evaluate_matrix_vec_col K (r_a K i) _ _ = Ok ?x, Hb : evaluate_matrix_vec_col K (r_b K i) _ _ = Ok ?y, Hc : evaluate_matrix_vec_col K (r_c K i) _ _ = Ok ?z |- _ => 
      rewrite Ewa in Ha; injection Ha as <-; rewrite Ewb in Hb; injection Hb as <-; rewrite Ewc in Hc; injection Hc as <- end.
    rewrite Lwa in Z2. fold evals in Z2. rewrite Qa, Qb, Qc in Z2. rewrite SC2 in Z2. match type of Z2 with rbind ?X _ = _ => destruct X as [[[[[sc2 q2] ts2] w2] u2]| |] eqn:Z2'; cbn [rbind] in Z2; try discriminate end.
    assert (sc2 = two) as -> by (revert Z2; clear; intro Z2; repeat (match type of Z2 with match ?l with _ => _ end = _ => destruct l; try discriminate end); injection Z2 as -> _ _ _ _ _; reflexivity).
    destruct (U2 _ _ _ _ _ O2 Z2') as [Q2 Qt]. injection Qt as -> -> -> ->. injection Z2 as <- <- <- <- <- <-.
    rewrite EVW in Zw. injection Zw as <-. destruct (Uip _ _ _ _ _ _ O3 Zi) as [Qi ->]. injection Qi as Qi1 Qi2 Qi3 Qi4 Qi5.
    rewrite Qi1 in Ze2. 
    match type of Ze2 with ?Y = _ => match type of Pe2 with eq_proof ?a1 ?a2 ?a3 ?a4 ?a5 ?a6 ?a7 ?a8 ?a9 ?b1 = _ => replace Y with (eq_proof a1 a2 a3 a4 a5 a6 a7 a8 (sr_eq2 K sr') b1) in Ze2 by (f_equal; ring) end end.
    pose proof (eq_same K G ch _ _ _ _ _ _ _ _ _ _ _ Pe2 Ze2) as Q11. rewrite <- Q11 in Ze2. pose proof (Ue2 _ Ze2) as Qe2.
    split; [exact Aw|]. split; [exact Q1|]. cbn [sr_w sr_one sr_a sr_b sr_c sr_prod sr_k1 sr_k2 sr_p1 sr_p2 sr_p3 sr_p4 sr_p5 sr_eq1 sr_two sr_ry sr_d sr_delta sr_beta sr_bv sr_eq2].
    split; [congruence|]. split; [congruence|]. split; [exact Q2|congruence].
Qed.
End Run.
End S.
