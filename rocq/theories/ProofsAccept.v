(** What acceptance by Libra's and Spartan's verifiers means, check by check. *)
From Verif Require Import Field Poly Module ModelTranscript ModelBulletproofs ModelMle SpecMle ProofsMle ModelLibra ModelSigma ModelSpartan.
From Coq Require Import String List Lia.
Local Open Scope string_scope.
Local Open Scope list_scope.
Local Open Scope fld_scope.
Section L.
Variable K : Fld.
Variable G : Type.
Variable ch : oracle K G.
Lemma gkr_accepts c outs ins hash pfs : gkr_verify K G ch c outs ins hash pfs = Ok true -> exists d top ru gs t u v x y, c_depth c = S d /\ length pfs = d /\ nth_error (c_layers c) d = Some top /\
  eval_output K G ch outs (l_bits top) (gkr_init K G hash ins outs) = Ok (ru, gs, t) /\ verify_layers K G ch c pfs d 1 0 ru 0 t = Ok (u, v, x, y) /\
  (length ins <= 2 ^ length u)%nat /\ (length ins <= 2 ^ length v)%nat /\ x = mle ins u /\ y = mle ins v.
Proof.
  unfold gkr_verify. destruct (c_depth c) as [|d]; [discriminate|]. unfold lget. destruct (nth_error (c_layers c) d) as [top|] eqn:Et; [|discriminate]. cbn [rbind].
  destruct (eval_output K G ch outs (l_bits top) (gkr_init K G hash ins outs)) as [[[ru gs] t]| |] eqn:Eo; cbn [rbind]; try discriminate. destruct (Nat.eqb_spec d (length pfs)) as [Ed|]; [|discriminate]. cbn [negb].
  destruct (verify_layers K G ch c pfs d 1 0 ru 0 t) as [[[[u v] x] y]| |] eqn:Ev; cbn [rbind]; try discriminate. rewrite !eval_value_ok. destruct (Nat.leb_spec (length ins) (2 ^ length u)); cbn [rbind]; [|discriminate]. destruct (Nat.leb_spec (length ins) (2 ^ length v)); cbn [rbind]; [|discriminate].
  intro E. injection E as E. apply andb_prop in E. destruct E as [E1 E2]. apply feqb_eq in E1, E2. exists d, top, ru, gs, t, u, v, x, y. repeat split; auto.
Qed.
End L.
Section P.
Variable K : Fld.
Variable G : Grp K.
Variable ch : oracle K G.
Notation com p x b := (poly_commit_vec K G (mc_gens K G p) x (mc_h K G p) b).
(** The rounds of a committed sum-check all of whose evaluation proofs are accepted. *)
Inductive rounds_accepted (g1 gn : mcp K G) (size : nat) : list G -> list G -> list (seproof K G) -> G -> nat -> transcript K G -> list K -> G -> transcript K G -> Prop :=
| rounds_done : forall ps es fs c t, rounds_accepted g1 gn size ps es fs c 0 t [] c t
| rounds_next : forall p ps e es f fs c n t rs c' t' r t1,
    r = ch "challenge_nextround" (MG "comm_poly" p :: t) ->
    sum_check_eval_verify K G ch g1 gn p e c f r size (MG "comm_eval" e :: MG "comm_claim_per_round" c :: MCh "challenge_nextround" :: MG "comm_poly" p :: t) = Ok (true, t1) ->
    rounds_accepted g1 gn size ps es fs e n t1 rs c' t' ->
    rounds_accepted g1 gn size (p :: ps) (e :: es) (f :: fs) c (S n) t (r :: rs) c' t'.
Lemma sc_accepts g1 gn size n : forall ps es fs c t rs c' t', sc_verify K G ch g1 gn ps es fs c size n t = Ok (rs, c', t') <-> rounds_accepted g1 gn size ps es fs c n t rs c' t'.
Proof.
  induction n as [|n IH]; intros ps es fs c t rs c' t'.
  - destruct ps; cbn [sc_verify]; (split; intro H; [injection H as <- <- <-; constructor|inversion H; subst; reflexivity]).
  - split; intro H.
    + destruct ps as [|p ps]; [discriminate|]. cbn [sc_verify] in H. destruct es as [|e es]; [discriminate|]. destruct fs as [|f fs]; [discriminate|]. unfold draw in H.
      destruct (sum_check_eval_verify K G ch g1 gn p e c f _ size _) as [[[|] t1]| |] eqn:E; cbn [rbind negb] in H; try discriminate.
      destruct (sc_verify K G ch g1 gn ps es fs e size n t1) as [[[rs0 c0] t0]| |] eqn:E2; cbn [rmap] in H; try discriminate. injection H as <- <- <-. econstructor; [reflexivity|exact E|apply IH; exact E2].
    + inversion H; subst. cbn [sc_verify]. unfold draw. match goal with Q : sum_check_eval_verify _ _ _ _ _ _ _ _ _ _ _ _ = _ |- _ => rewrite Q end. cbn [rbind negb]. match goal with Q : rounds_accepted _ _ _ _ _ _ _ _ _ _ _ _ |- _ => apply IH in Q; rewrite Q end. reflexivity.
Qed.
Lemma sat_accepts p i inputs pf ea eb ec t rx ry t' : sat_verify K G ch p i inputs pf (ea, eb, ec) t = Ok (true, rx, ry, t') ->
  exists tau t0 cx t1 t2 t3 e t4 ra rb rc cy t5 ry0 ry' t6 t7,
    draws K G ch "challenge_tau" (rounds_x K i) (MGs "poly_commitment" (sa_witness K G pf) :: MFs "r1cs_input" (1 :: inputs ++ repeat 0 (half_len K i - length inputs - 1)) :: t) = (tau, t0) /\
    rounds_accepted (sp_1 K G p) (sp_4 K G p) 4 (scp_polys K G (sa_one K G pf)) (scp_evals K G (sa_one K G pf)) (scp_proofs K G (sa_one K G pf)) (com (sp_1 K G p) [0] 0) (rounds_x K i) t0 rx cx t1 /\
    knowledge_verify K G ch (sp_1 K G p) (sa_know K G pf) (sa_vc K G pf) t1 = (true, t2) /\
    product_verify K G ch (sp_1 K G p) (sa_pprod K G pf) (sa_va K G pf) (sa_vb K G pf) (sa_vprod K G pf) t2 = Ok (true, t3) /\
    length rx = length tau /\ e = fsum (map (fun bs => chi bs rx * chi bs tau) (cube (length rx))) /\
    eq_verify K G ch (sp_1 K G p) (gsm e (gadd (sa_vprod K G pf) (gopp (sa_vc K G pf)))) cx (sa_eq1 K G pf)
      (MG "comm_prod_Az_Bz_claims" (sa_vprod K G pf) :: MG "comm_Cz_claim" (sa_vc K G pf) :: MG "comm_Bz_claim" (sa_vb K G pf) :: MG "comm_Az_claim" (sa_va K G pf) :: t3) = (true, t4) /\
    ra = ch "challenege_Az" t4 /\ rb = ch "challenege_Bz" (MCh "challenege_Az" :: t4) /\ rc = ch "challenege_Cz" (MCh "challenege_Bz" :: MCh "challenege_Az" :: t4) /\
    rounds_accepted (sp_1 K G p) (sp_3 K G p) 3 (scp_polys K G (sa_two K G pf)) (scp_evals K G (sa_two K G pf)) (scp_proofs K G (sa_two K G pf))
      (gadd (gadd (gsm ra (sa_va K G pf)) (gsm rb (sa_vb K G pf))) (gsm rc (sa_vc K G pf))) (rounds_y K i) (MCh "challenege_Cz" :: MCh "challenege_Bz" :: MCh "challenege_Az" :: t4) ry cy t5 /\
    ry = ry0 :: ry' /\
    inner_product_verify K G ch (sp_pc K G p) ry' (sa_witness K G pf) (sa_ry K G pf) (sa_prod K G pf) t5 = Ok (true, t6) /\
    eq_verify K G ch (pc_gen_1 K G (sp_pc K G p)) (gsm (ea * ra + eb * rb + ec * rc)
      (gadd (gsm (1 - ry0) (sa_ry K G pf)) (gsm ry0 (com (pc_gen_1 K G (sp_pc K G p)) [sparse_evaluate_value K (1 :: inputs ++ repeat 0 (2 ^ length ry' - length inputs - 1)) ry'] 0)))) cy (sa_eq2 K G pf) t6 = (true, t7).
Proof.
  unfold sat_verify. destruct (Nat.ltb (half_len K i) (length inputs + 1)); [discriminate|]. cbv zeta.
  destruct (draws K G ch "challenge_tau" _ _) as [tau t0] eqn:E0. destruct (sc_verify K G ch _ _ _ _ _ _ 4 _ t0) as [[[rx0 cx] t1]| |] eqn:E1; cbn [rbind]; try discriminate. apply sc_accepts in E1.
  destruct (knowledge_verify K G ch _ _ _ t1) as [[|] t2] eqn:E2; cbn [negb]; [|discriminate]. destruct (product_verify K G ch _ _ _ _ _ t2) as [[[|] t3]| |] eqn:E3; cbn [rbind negb]; try discriminate.
  destruct (eval_eq_x_y K rx0 tau) as [e| |] eqn:E4; cbn [rbind]; try discriminate. destruct (eq_verify K G ch (sp_1 K G p) _ _ _ _) as [[|] t4] eqn:E5; cbn [negb]; [|discriminate].
  unfold draw. destruct (sc_verify K G ch _ _ _ _ _ _ 3 _ _) as [[[ry1 cy] t5]| |] eqn:E6; cbn [rbind]; try discriminate. apply sc_accepts in E6. destruct ry1 as [|ry0 ry']; [discriminate|].
  destruct (inner_product_verify K G ch _ ry' _ _ _ t5) as [[[|] t6]| |] eqn:E7; cbn [rbind negb]; try discriminate. destruct (Nat.ltb (2 ^ length ry') (length inputs + 1)); [discriminate|].
  destruct (eq_verify K G ch (pc_gen_1 K G (sp_pc K G p)) _ _ _ _) as [[|] t7] eqn:E8; cbn [negb]; [|discriminate]. intro E. injection E as <- <- <-.
  assert (L : length rx0 = length tau /\ e = fsum (map (fun bs => chi bs rx0 * chi bs tau) (cube (length rx0)))).
  { destruct (Nat.eq_dec (length rx0) (length tau)) as [L|L]; [split; [exact L|]; rewrite eval_eq_x_y_ok in E4 by exact L; congruence|]. exfalso. unfold eval_eq_x_y in E4. destruct (Nat.eqb_spec (length rx0) (length tau)); [contradiction|]. cbn in E4. discriminate. }
  destruct L as [L1 L2]. do 17 eexists. repeat (split; [first [exact E0|exact E1|exact E2|exact E3|exact L1|exact L2|exact E5|exact E6|exact E7|reflexivity]|]). exact E8.
Qed.
End P.
