(** Theorems C82-C83: spartan's memory checking and product circuits; C75, C80: what acceptance by Libra's and Spartan's verifiers means. *)
From Verif Require Import Field Zp Poly Module ModelTranscript ModelMle SpecMle ModelLibra ModelSigma ModelSpartan ModelSpark SpecSpark ProofsSpark ProofsSpark2 ProofsAccept AttackSpartan ExMarlin Properties17 Properties20.
From Coq Require Import String List Lia ZArith.
Local Open Scope string_scope.
Local Open Scope list_scope.
Local Open Scope fld_scope.

(** ** C82 *)
Theorem C82_timestamps : forall (K : Fld) lists n m, accesses_ok lists n m ->
  memory_in_the_head K lists n m = Ok (mkTs K lists (map (map of_nat) lists) (map (map of_nat) (stamps_of [] lists)) (map (fun a => of_nat (times (concat lists) a)) (seq 0 m))).
Proof. exact memory_in_the_head_ok. Qed.
Print Assumptions C82_timestamps.
Theorem C82_timestamps_panic : forall (K : Fld) lists n m, ~ accesses_ok lists n m -> memory_in_the_head K lists n m = Panic.
Proof. exact memory_in_the_head_bad. Qed.
Print Assumptions C82_timestamps_panic.
Theorem C82_checking : forall (K : Fld) (gamma1 gamma2 : K) mem m n lists ts, length mem = m -> (2 <= m)%nat -> accesses_ok lists n m -> lists <> [] -> memory_in_the_head K lists n m = Ok ts ->
  if Nat.leb 2 n
  then exists p, memory_checking K (at_addrs K ts) mem (at_read K ts) (at_audit K ts) (map (map (fun a => nth a mem 0)) lists) gamma1 gamma2 = Ok p /\
    let fp := finger K gamma1 gamma2 in
    let state acc := fprod (map (fun a => fp (of_nat a) (nth a mem 0) (of_nat (times acc a))) (seq 0 m)) in
    let run (d : K) := map fprod (map (fun '(l, s) => map (fun '(a, u) => fp (of_nat a) (nth a mem 0) (of_nat u + d)) (combine l s)) (combine lists (stamps_of [] lists))) in
    check_prod K p = Ok (state [], run 0, run 1, state (concat lists)) /\ state [] * fprod (run 1) = fprod (run 0) * state (concat lists)
  else memory_checking K (at_addrs K ts) mem (at_read K ts) (at_audit K ts) (map (map (fun a => nth a mem 0)) lists) gamma1 gamma2 = Panic.
Proof. exact memory_checking_exact. Qed.
Print Assumptions C82_checking.
Definition acc82 : list (list nat) := [[0; 2; 2; 1]; [3; 2; 0; 0]]%nat.
Definition mem82 : list F97 := map z97 [5; 6; 7; 8]%Z.
Example ex_C82 : accesses_ok acc82 4 4 /\ stamps_of [] acc82 = [[0; 0; 1; 0]; [0; 2; 1; 2]]%nat /\ map (times (concat acc82)) (seq 0 4) = [3; 1; 3; 1]%nat /\
  ~ accesses_ok [[0; 4]]%nat 2 4 /\ memory_in_the_head F97 [[0; 4]]%nat 2 4 = Panic.
Proof.
  assert (A : ~ accesses_ok [[0; 4]]%nat 2 4) by (intro H; apply Forall_inv in H; destruct H as [_ H]; apply Forall_inv_tail, Forall_inv in H; cbv beta in H; lia).
  split; [repeat constructor; cbn; lia|]. split; [reflexivity|]. split; [reflexivity|]. split; [exact A|exact (C82_timestamps_panic F97 _ _ _ A)].
Qed.

(** ** C83 *)
Theorem C83_product : forall (K : Fld) (l : list K), evaluate_product_circuit K (construct_product_circuit K l) = if Nat.leb 2 (length l) then Ok (fprod l) else Panic.
Proof. exact product_circuit_ok. Qed.
Print Assumptions C83_product.
Example ex_C83 : rmap (fun y : F97 => zv _ y) (evaluate_product_circuit F97 (construct_product_circuit F97 (map z97 [2; 3; 5; 7; 11]%Z))) = Ok 79%Z /\
  rmap (fun y : F97 => zv _ y) (evaluate_product_circuit F97 (construct_product_circuit F97 [z97 2])) = Panic.
Proof. split; vm_compute; reflexivity. Qed.

(** ** C75, C80: acceptance *)
Theorem C75_accepting_checks : forall (K : Fld) (G : Type) (ch : oracle K G) c outs ins hash pfs, gkr_verify K G ch c outs ins hash pfs = Ok true -> exists d top ru gs t u v x y, c_depth c = S d /\ length pfs = d /\ nth_error (c_layers c) d = Some top /\
  eval_output K G ch outs (l_bits top) (gkr_init K G hash ins outs) = Ok (ru, gs, t) /\ verify_layers K G ch c pfs d 1 0 ru 0 t = Ok (u, v, x, y) /\
  (length ins <= 2 ^ length u)%nat /\ (length ins <= 2 ^ length v)%nat /\ x = mle ins u /\ y = mle ins v.
Proof. exact gkr_accepts. Qed.
Print Assumptions C75_accepting_checks.
(** The proof of C75's example meets the hypothesis. *)
Example ex_C75_accepting : exists pf, gkr_verify F97 unit ch75 c73 [z97 42] lay75 (z97 1) pf = Ok true.
Proof. apply ex_C75. Qed.
Theorem C80_rounds_accepted : forall (K : Fld) (G : Grp K) (ch : oracle K G) g1 gn size n ps es fs c t rs c' t', sc_verify K G ch g1 gn ps es fs c size n t = Ok (rs, c', t') <-> rounds_accepted K G ch g1 gn size ps es fs c n t rs c' t'.
Proof. exact sc_accepts. Qed.
Print Assumptions C80_rounds_accepted.
Notation com K G p x b := (poly_commit_vec K G (mc_gens K G p) x (mc_h K G p) b).
Theorem C80_accepting_checks : forall (K : Fld) (G : Grp K) (ch : oracle K G) p i inputs pf ea eb ec t rx ry t', sat_verify K G ch p i inputs pf (ea, eb, ec) t = Ok (true, rx, ry, t') ->
  exists tau t0 cx t1 t2 t3 e t4 ra rb rc cy t5 ry0 ry' t6 t7,
    draws K G ch "challenge_tau" (rounds_x K i) (MGs "poly_commitment" (sa_witness K G pf) :: MFs "r1cs_input" (1 :: inputs ++ repeat 0 (half_len K i - length inputs - 1)) :: t) = (tau, t0) /\
    rounds_accepted K G ch (sp_1 K G p) (sp_4 K G p) 4 (scp_polys K G (sa_one K G pf)) (scp_evals K G (sa_one K G pf)) (scp_proofs K G (sa_one K G pf)) (com K G (sp_1 K G p) [0] 0) (rounds_x K i) t0 rx cx t1 /\
    knowledge_verify K G ch (sp_1 K G p) (sa_know K G pf) (sa_vc K G pf) t1 = (true, t2) /\
    product_verify K G ch (sp_1 K G p) (sa_pprod K G pf) (sa_va K G pf) (sa_vb K G pf) (sa_vprod K G pf) t2 = Ok (true, t3) /\
    length rx = length tau /\ e = fsum (map (fun bs => chi bs rx * chi bs tau) (cube (length rx))) /\
    eq_verify K G ch (sp_1 K G p) (gsm e (gadd (sa_vprod K G pf) (gopp (sa_vc K G pf)))) cx (sa_eq1 K G pf)
      (MG "comm_prod_Az_Bz_claims" (sa_vprod K G pf) :: MG "comm_Cz_claim" (sa_vc K G pf) :: MG "comm_Bz_claim" (sa_vb K G pf) :: MG "comm_Az_claim" (sa_va K G pf) :: t3) = (true, t4) /\
    ra = ch "challenege_Az" t4 /\ rb = ch "challenege_Bz" (MCh "challenege_Az" :: t4) /\ rc = ch "challenege_Cz" (MCh "challenege_Bz" :: MCh "challenege_Az" :: t4) /\
    rounds_accepted K G ch (sp_1 K G p) (sp_3 K G p) 3 (scp_polys K G (sa_two K G pf)) (scp_evals K G (sa_two K G pf)) (scp_proofs K G (sa_two K G pf))
      (gadd (gadd (gsm ra (sa_va K G pf)) (gsm rb (sa_vb K G pf))) (gsm rc (sa_vc K G pf))) (rounds_y K i) (MCh "challenege_Cz" :: MCh "challenege_Bz" :: MCh "challenege_Az" :: t4) ry cy t5 /\
    ry = ry0 :: ry' /\
    inner_product_verify K G ch (sp_pc K G p) ry' (sa_witness K G pf) (sa_ry K G pf) (sa_prod K G pf) t5 = Ok (true, t6) /\
    eq_verify K G ch (pc_gen_1 K G (sp_pc K G p)) (gsm (ea * ra + eb * rb + ec * rc)
      (gadd (gsm (1 - ry0) (sa_ry K G pf)) (gsm ry0 (com K G (pc_gen_1 K G (sp_pc K G p)) [sparse_evaluate_value K (1 :: inputs ++ repeat 0 (2 ^ length ry' - length inputs - 1)) ry'] 0)))) cy (sa_eq2 K G pf) t6 = (true, t7).
Proof. exact sat_accepts. Qed.
Print Assumptions C80_accepting_checks.
(** The honest proof of C80's example and the forged one of C81's are accepted, so the hypotheses can be met. *)
Example ex_C80_accepting : verify_nizk_proof F97 S97' ch80 p80 inst81 [z97 7] (AttackSpartan.forged F97 S97' inst81) (z97 50) (z97 51) = Ok true /\
  exists rx ry t', sat_verify F97 S97' ch80 p80 inst81 [z97 7] (AttackSpartan.zero_sat F97 S97' (rounds_x F97 inst81) (rounds_y F97 inst81)) (0, 0, 0) [] = Ok (true, rx, ry, t').
Proof.
  split; [apply ex_C81|]. apply AttackSpartan.zero_sat_ok; [discriminate|discriminate|cbn; lia|reflexivity].
Qed.
