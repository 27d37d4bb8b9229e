(** Theorems C79-C81: spartan's instances and its non-succinct proof. *)
From Verif Require Import Field Zp Poly Module ModelTranscript ModelLC SpecLC ModelCS SpecCS SpecMode ProofsMode ModelMle SpecMle ModelSigma ModelSpartan SpecLibra SpecSpartan ProofsSpartan ProofsSpartan2 ProofsSpartan5 ProofsSpartan6 AttackSpartan ExMarlin.
From Coq Require Import String List Lia ZArith Sorted.
Local Open Scope string_scope.
Local Open Scope list_scope.
Local Open Scope fld_scope.

(** ** C79 *)
Theorem C79_generate : forall (K : Fld) (circuit : M K unit) u s, circuit (cs_new Setup) = Ok (u, s) -> exists i, generate_r1cs K circuit = Ok i /\
  r_inputs K i = length (inps s) /\ r_aux K i = length (auxs s) /\ pow2_above (length (ModelCS.cons s)) (r_cons K i) /\
  (forall a, inst_sat a i <-> sat a s) /\ ((0 < length (inps s))%nat -> Forall (c_in (allocated s)) (ModelCS.cons s) -> wf_inst i).
Proof. exact generate_ok. Qed.
Print Assumptions C79_generate.
Theorem C79_same_instance : forall (K : Fld) (circuit circuit' : M K unit) u s i, fits any circuit circuit' -> circuit (cs_new Prove) = Ok (u, s) -> wf s -> generate_r1cs K circuit' = Ok i ->
  wf_inst i /\ length (inps s) = r_inputs K i /\ length (auxs s) = r_aux K i /\ r_cons K i = (2 ^ log2c (length (ModelCS.cons s)))%nat /\ (forall a, inst_sat a i <-> sat a s).
Proof. exact instance_fits. Qed.
Print Assumptions C79_same_instance.
Theorem C79_matrix_vector : forall (K : Fld) m (aux inputs : list K) ni na n, length aux = n -> length inputs = n -> in_range ni na m -> (ni <= n)%nat -> (na <= n)%nat ->
  evaluate_matrix_vec K m (aux ++ inputs) = Ok (map (row_eval (assign inputs aux)) m).
Proof. exact matrix_vec_ok. Qed.
Print Assumptions C79_matrix_vector.
Theorem C79_vector_matrix : forall (K : Fld) m (coeffs : list K) ni na n, (length m <= length coeffs)%nat -> in_range ni na m -> (ni <= n)%nat -> (na <= n)%nat ->
  exists w, evaluate_matrix_vec_col K m coeffs (2 * n) = Ok w /\ length w = (2 * n)%nat /\ forall j, nth j w 0 = sumn (length m) (fun row => entry n m row j * nth row coeffs 0).
Proof. exact matrix_col_ok. Qed.
Print Assumptions C79_vector_matrix.
Theorem C79_matrix_extension : forall (K : Fld) m (rx ry : list K) k ni na, length ry = S k -> (length m <= 2 ^ length rx)%nat -> in_range ni na m -> (ni <= 2 ^ k)%nat -> (na <= 2 ^ k)%nat ->
  evaluate_mle K m rx ry = Ok (mle (table (2 ^ k) m (2 ^ length rx) (2 ^ S k)) (rx ++ ry)).
Proof. exact evaluate_mle_ok. Qed.
Print Assumptions C79_matrix_extension.
Theorem C79_list_form : forall (K : Fld) m ni na n (vals : list K) rows cols, in_range ni na m -> (ni <= n)%nat -> (na <= n)%nat -> switch_matrix_to_list K m n = (vals, rows, cols) ->
  length rows = length vals /\ length cols = length vals /\ Forall (fun v => v <> 0) vals /\ Forall (fun r => r < length m)%nat rows /\ Forall (fun c => c < 2 * n)%nat cols /\
  StronglySorted after (combine rows cols) /\ forall row col, listed vals rows cols row col = entry n m row col.
Proof. exact switch_ok. Qed.
Print Assumptions C79_list_form.

(** Two public inputs a and b, a secret x with x * x = b and x * 1 = x. *)
Definition circuit80 (a b x : res F97) : M F97 unit :=
  bind (alloc_input a) (fun _ => bind (alloc_input b) (fun w => bind (alloc x) (fun v =>
  bind (enforce [(v, 1)] [(v, 1)] [(w, 1)]) (fun _ => enforce [(v, 1)] [(ONE, 1)] [(v, 1)])))).
Lemma fits80 a b x a' b' x' : fits any (circuit80 a b x) (circuit80 a' b' x').
Proof.
  unfold circuit80. eapply fits_bind; [apply fits_alloc_input|]. intros ? ? _. eapply fits_bind; [apply fits_alloc_input|]. intros w ? <-. eapply fits_bind; [apply fits_alloc|]. intros v ? <-.
  eapply fits_bind; [apply fits_enforce|]. intros ? ? _. apply fits_enforce.
Qed.
Definition inst80 : r1cs F97 := mkR F97 3 1 2 [[(1, Aux 0)]; [(1, Aux 0)]] [[(1, Aux 0)]; [(1, Input 0)]] [[(1, Input 2)]; [(1, Aux 0)]].
Definition state80 (a b x : F97) : cs F97 := mkCS Prove [1; a; b] [x] [mkC [(Aux 0, 1)] [(Aux 0, 1)] [(Input 2, 1)]; mkC [(Aux 0, 1)] [(ONE, 1)] [(Aux 0, 1)]].
Example ex_C79 : generate_r1cs F97 (circuit80 Panic Panic Panic) = Ok inst80 /\ r_inputs F97 inst80 = 3%nat /\ r_aux F97 inst80 = 1%nat /\ r_cons F97 inst80 = 2%nat /\
  circuit80 (Ok (z97 5)) (Ok (z97 9)) (Ok (z97 3)) (cs_new Prove) = Ok (tt, state80 (z97 5) (z97 9) (z97 3)) /\ wf (state80 (z97 5) (z97 9) (z97 3)) /\
  in_range 3 1 (r_a F97 inst80) /\ nth 1 (r_b F97 inst80) [] = [(1, Input 0)].
Proof.
  split; [reflexivity|]. do 4 (split; [reflexivity|]). split.
  - split; [eexists; reflexivity|]. repeat constructor; cbn; lia.
  - split; [repeat constructor|reflexivity].
Qed.

(** ** C80 *)
Theorem C80_exact : forall (K : Fld) (G : Grp K) (ch : oracle K G) p (circuit circuit' : M K unit) u s i rh ph sr, fits any circuit circuit' -> circuit (cs_new Prove) = Ok (u, s) -> wf s -> self_sat s ->
  generate_r1cs K circuit' = Ok i -> setup_for G p i -> enough_rand i sr -> (1 + 1 : K) <> 0 -> (1 + 1 + 1 : K) <> 0 -> forall pf, create_nizk_proof K G ch p i circuit rh ph sr = Ok pf ->
  length (nz_rx K G pf) = rounds_x K i /\ length (nz_ry K G pf) = rounds_y K i /\ exists (ra rb rc beta c c' : K) tc, c' = ch "c" tc /\
    let rx := nz_rx K G pf in let ry := nz_ry K G pf in let z := public i (inps s) in
    let vs := ra * mat_mle K i (r_a K i) rx ry + rb * mat_mle K i (r_b K i) rx ry + rc * mat_mle K i (r_c K i) rx ry in
    let d := mle (filter (fun x => negb (feqb x 0)) z) (tl ry) - mle z (tl ry) in
    verify_nizk_proof K G ch p i (tl (inps s)) pf rh ph = Ok (geqb (gsm ((c - c') * beta) (mc_h K G (sp_1 K G p))) (gsm (c' * (vs * (hd 0 ry * d))) (hd g0 (mc_gens K G (sp_1 K G p))))) /\ (d = 0 -> c = c').
Proof. exact nizk_exact. Qed.
Print Assumptions C80_exact.
Theorem C80_complete : forall (K : Fld) (G : Grp K) (ch : oracle K G) p (circuit circuit' : M K unit) u s i rh ph sr, fits any circuit circuit' -> circuit (cs_new Prove) = Ok (u, s) -> wf s -> self_sat s ->
  generate_r1cs K circuit' = Ok i -> setup_for G p i -> enough_rand i sr -> (1 + 1 : K) <> 0 -> (1 + 1 + 1 : K) <> 0 ->
  forall pf, (forall a b, (a < b)%nat -> nth a (inps s) 0 = 0 -> nth b (inps s) 0 = 0) -> create_nizk_proof K G ch p i circuit rh ph sr = Ok pf -> verify_nizk_proof K G ch p i (tl (inps s)) pf rh ph = Ok true.
Proof. exact nizk_complete. Qed.
Print Assumptions C80_complete.
Theorem C80_prover_total : forall (K : Fld) (G : Grp K) (ch : oracle K G) p (circuit circuit' : M K unit) u s i rh ph sr, fits any circuit circuit' -> circuit (cs_new Prove) = Ok (u, s) -> wf s -> self_sat s ->
  generate_r1cs K circuit' = Ok i -> setup_for G p i -> enough_rand i sr -> (1 + 1 : K) <> 0 -> (1 + 1 + 1 : K) <> 0 ->
  (forall l t, ch l t <> 0) -> (log2c (half_len K i) - log2c (half_len K i) / 2 <= length (sr_bv K sr))%nat -> exists pf, create_nizk_proof K G ch p i circuit rh ph sr = Ok pf.
Proof. exact nizk_total. Qed.
Print Assumptions C80_prover_total.
Definition S97' : Grp F97 := self_grp F97.
Definition ch80 : oracle F97 S97' := fun _ t => z97 (Z.of_nat (length t) + 2).
Definition mc80 (l : list Z) : mcp F97 S97' := mkMcp F97 S97' (map z97 l) (z97 11).
Definition p80 : satp F97 S97' := mkSatP F97 S97' (mkPcp F97 S97' 2 (mc80 [6; 9]%Z) (mc80 [17]%Z)) (mc80 [17]%Z) (mc80 [21; 22; 23]%Z) (mc80 [31; 32; 33; 34]%Z).
Definition rr80 (n : Z) (l : list Z) : rrand F97 := mkRR F97 (z97 n) (z97 (n + 1)) (map z97 l) (z97 (n + 2)) (z97 (n + 3)).
Definition sr80 : srand F97 := mkSR F97 (fun i => z97 (Z.of_nat i + 40)) [rr80 3 [1; 2; 3; 4]%Z] (z97 1) (z97 2) (z97 3) (z97 4) (z97 5) (z97 6) (z97 7) (z97 8) (z97 9) (z97 10) (z97 11) (z97 12)
  [rr80 13 [1; 2; 3]%Z; rr80 14 [5; 6; 7]%Z; rr80 15 [8; 9; 10]%Z] (z97 16) (z97 17) (z97 18) (z97 19) [(z97 20, z97 21)] (z97 22).
Definition verdict80 (a b x : F97) : res bool :=
  rbind (create_nizk_proof F97 S97' ch80 p80 inst80 (circuit80 (Ok a) (Ok b) (Ok x)) (z97 50) (z97 51) sr80) (fun pf => verify_nizk_proof F97 S97' ch80 p80 inst80 [a; b] pf (z97 50) (z97 51)).
(** Accepted for inputs (5, 9), rejected for the equally satisfied (0, 9), where a zero precedes a nonzero input. *)
Example ex_C80 : setup_for S97' p80 inst80 /\ enough_rand inst80 sr80 /\ self_sat (state80 (z97 5) (z97 9) (z97 3)) /\ verdict80 (z97 5) (z97 9) (z97 3) = Ok true /\
  self_sat (state80 0 (z97 9) (z97 3)) /\ verdict80 0 (z97 9) (z97 3) = Ok false.
Proof.
  split; [repeat split; try discriminate; cbn; lia|]. split; [split; (split; [cbn; lia|repeat constructor])|].
  assert (S : forall a, self_sat (state80 a (z97 9) (z97 3))) by (intro a; split; [reflexivity|]; repeat constructor; apply zp_eq; vm_compute; reflexivity).
  split; [apply S|]. split; [vm_compute; reflexivity|]. split; [apply S|vm_compute; reflexivity].
Qed.

(** ** C81 *)
Theorem C81_nizk_forgery : forall (K : Fld) (G : Grp K) (ch : oracle K G) (p : satp K G) i inputs (rh ph : K), wf_inst i -> (length inputs < half_len K i)%nat ->
  mc_gens K G (pc_gen_n K G (sp_pc K G p)) <> [] -> mc_gens K G (pc_gen_1 K G (sp_pc K G p)) <> [] ->
  verify_nizk_proof K G ch p i inputs (AttackSpartan.forged K G i) rh ph = Ok true.
Proof. exact nizk_forgery. Qed.
Print Assumptions C81_nizk_forgery.
(** An instance that no assignment satisfies (1 * 1 = 0); the forged proof is accepted. *)
Definition inst81 : r1cs F97 := mkR F97 2 1 1 [[(1, Input 0)]] [[(1, Input 0)]] [[]].
Example ex_C81 : wf_inst inst81 /\ (forall a, ~ inst_sat a inst81) /\ verify_nizk_proof F97 S97' ch80 p80 inst81 [z97 7] (AttackSpartan.forged F97 S97' inst81) (z97 50) (z97 51) = Ok true.
Proof.
  split; [|split].
  - split; [cbn; lia|]. split; [exists 0%nat; reflexivity|]. split; [repeat split|]. repeat split; repeat constructor; cbn; lia.
  - intros a [H1 H]. specialize (H 0%nat). unfold row_eval, inst81 in H. cbn [r_a r_b r_c nth map fsum fst snd] in H. fold ONE in H. rewrite H1 in H. apply (f_equal (fun y : F97 => zv _ y)) in H. vm_compute in H. discriminate.
  - vm_compute. reflexivity.
Qed.
