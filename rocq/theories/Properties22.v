(** Theorems C84-C85: spartan's SNARK. *)
From Verif Require Import Field Zp Poly Module ModelTranscript ModelLC SpecLC ModelCS SpecCS SpecMode ProofsMode ModelMle SpecMle ModelLibra ModelSigma ModelSpartan SpecSpartan ModelSpark SpecSpark SpecSnark ModelSnark ProofsSpartan6 ProofsSnark8 SpecSnark2 ProofsSnark9 AttackSnark ExMarlin Properties20.
From Coq Require Import String List Lia ZArith.
Local Open Scope string_scope.
Local Open Scope list_scope.
Local Open Scope fld_scope.

(** ** C84 *)
Theorem C84_encode : forall (K : Fld) (G : Grp K) (p : evalp K G) i, wf_inst i -> exists em c, encode K G p i = Ok (em, c).
Proof. exact encode_total. Qed.
Print Assumptions C84_encode.
Theorem C84_complete : forall (K : Fld) (G : Grp K) (ch : oracle K G) (circuit circuit' : M K unit) u s i (rh ph eh : K) sr i1 i2 i3 r1 r2 r3 r4 r5 r6 em c, let p := snark_params_new K G i r1 r2 r3 r4 r5 r6 in
  fits any circuit circuit' -> circuit (cs_new Prove) = Ok (u, s) -> wf s -> self_sat s -> generate_r1cs K circuit' = Ok i -> encode K G (sn_evals K G p) i = Ok (em, c) -> enough_rand i sr -> (1 + 1 : K) <> 0 -> (1 + 1 + 1 : K) <> 0 ->
  forall pf, (forall a b, (a < b)%nat -> nth a (inps s) 0 = 0 -> nth b (inps s) 0 = 0) -> create_snark_proof K G ch p i circuit em c rh ph eh sr i1 i2 i3 = Ok pf -> verify_snark_proof K G ch p i (tl (inps s)) pf c rh ph eh = Ok true.
Proof. exact snark_complete. Qed.
Print Assumptions C84_complete.
Theorem C84_total : forall (K : Fld) (G : Grp K) (ch : oracle K G) (circuit circuit' : M K unit) u s i (rh ph eh : K) sr i1 i2 i3 r1 r2 r3 r4 r5 r6 em c, let p := snark_params_new K G i r1 r2 r3 r4 r5 r6 in
  fits any circuit circuit' -> circuit (cs_new Prove) = Ok (u, s) -> wf s -> self_sat s -> generate_r1cs K circuit' = Ok i -> encode K G (sn_evals K G p) i = Ok (em, c) -> enough_rand i sr -> (1 + 1 : K) <> 0 -> (1 + 1 + 1 : K) <> 0 ->
  ~ one_entry_each i -> (forall l t, ch l t <> 0) -> (log2c (half_len K i) - log2c (half_len K i) / 2 <= length (sr_bv K sr))%nat ->
  (3 + log2c (r_cons K i * (half_len K i * 2)) <= length (ip_bv K i1))%nat -> (4 + log2c (r_cons K i * (half_len K i * 2)) <= length (ip_bv K i2))%nat -> (1 + Nat.max (rounds_x K i) (rounds_y K i) <= length (ip_bv K i3))%nat ->
  exists pf, create_snark_proof K G ch p i circuit em c rh ph eh sr i1 i2 i3 = Ok pf.
Proof. exact snark_total. Qed.
Print Assumptions C84_total.
Theorem C84_panics : forall (K : Fld) (G : Grp K) (ch : oracle K G) (circuit circuit' : M K unit) u s i (rh ph eh : K) sr i1 i2 i3 r1 r2 r3 r4 r5 r6 em c, let p := snark_params_new K G i r1 r2 r3 r4 r5 r6 in
  fits any circuit circuit' -> circuit (cs_new Prove) = Ok (u, s) -> wf s -> self_sat s -> generate_r1cs K circuit' = Ok i -> encode K G (sn_evals K G p) i = Ok (em, c) -> enough_rand i sr -> (1 + 1 : K) <> 0 -> (1 + 1 + 1 : K) <> 0 ->
  one_entry_each i -> create_snark_proof K G ch p i circuit em c rh ph eh sr i1 i2 i3 = Panic.
Proof. exact snark_panics. Qed.
Print Assumptions C84_panics.
Theorem C84_verdict : forall (K : Fld) (G : Grp K) (ch : oracle K G) p i inputs pf c (rh ph eh : K), verify_snark_proof K G ch p i inputs pf c rh ph eh = Ok false <->
  exists rx ry t, sat_verify K G ch (sn_sat K G p) i inputs (sk_sat K G pf) (sk_evals K G pf) [MF "encode_hash" eh; MF "params_hash" ph; MF "r1cs_hash" rh] = Ok (false, rx, ry, t).
Proof. exact snark_verdict. Qed.
Print Assumptions C84_verdict.
(** The circuit of C80 has two entries in each matrix: it is proved and accepted. *)
Definition ch84 : oracle F97 S97' := fun _ _ => z97 3.
Definition ip84 (n : nat) : iprand F97 := mkIPR F97 (z97 1) (z97 2) (z97 3) (repeat (z97 4, z97 5) n).
Definition p84 (i : r1cs F97) : snarkp F97 S97' := let r (a : Z) := fun j => z97 (a + Z.of_nat j) in snark_params_new F97 S97' i (r 1%Z) (r 2%Z) (r 3%Z) (r 4%Z) (r 5%Z) (r 6%Z).
Lemma wf80 : wf_inst inst80.
Proof. apply (instance_fits F97 _ _ _ _ _ (fits80 (Ok (z97 5)) (Ok (z97 9)) (Ok (z97 3)) Panic Panic Panic) eq_refl (proj1 (proj2 (proj2 (proj2 (proj2 (proj2 ex_C79))))))). reflexivity. Qed.
Lemma two97 : (1 + 1 : F97) <> 0 /\ (1 + 1 + 1 : F97) <> 0 /\ (1 : F97) <> 0.
Proof. repeat split; intro E; apply (f_equal (fun y : F97 => zv _ y)) in E; vm_compute in E; discriminate. Qed.
Example ex_C84 : exists em c pf, ~ one_entry_each inst80 /\ encode F97 S97' (sn_evals F97 S97' (p84 inst80)) inst80 = Ok (em, c) /\
  create_snark_proof F97 S97' ch84 (p84 inst80) inst80 (circuit80 (Ok (z97 5)) (Ok (z97 9)) (Ok (z97 3))) em c (z97 50) (z97 51) (z97 52) sr80 (ip84 9) (ip84 9) (ip84 9) = Ok pf /\
  verify_snark_proof F97 S97' ch84 (p84 inst80) inst80 [z97 5; z97 9] pf c (z97 50) (z97 51) (z97 52) = Ok true.
Proof.
  destruct (C84_encode F97 S97' (sn_evals F97 S97' (p84 inst80)) inst80 wf80) as (em & c & E). exists em, c. destruct two97 as (T2 & T3 & T1).
  assert (O : ~ one_entry_each inst80).
  { intros [H _]. destruct (H 0%nat 0%nat 1%nat 0%nat) as [D _]; [| |discriminate]; intro Q; apply (f_equal (fun y : F97 => zv _ y)) in Q; vm_compute in Q; discriminate. }
  pose proof (proj1 (proj2 (proj2 (proj2 (proj2 (proj2 ex_C79)))))) as W. pose proof ex_C80 as (_ & ER & SS & _).
  destruct (C84_total F97 S97' ch84 (circuit80 (Ok (z97 5)) (Ok (z97 9)) (Ok (z97 3))) (circuit80 Panic Panic Panic) tt (state80 (z97 5) (z97 9) (z97 3)) inst80 (z97 50) (z97 51) (z97 52) sr80 (ip84 9) (ip84 9) (ip84 9) _ _ _ _ _ _ em c (fits80 _ _ _ _ _ _) eq_refl W SS eq_refl E ER T2 T3 O) as (pf & P).
  - intros l t Q. apply (f_equal (fun y : F97 => zv _ y)) in Q. vm_compute in Q. discriminate.
  - vm_compute. lia.
  - vm_compute. lia.
  - vm_compute. lia.
  - vm_compute. lia.
  - exists pf. split; [exact O|]. split; [exact E|]. split; [exact P|]. revert P. apply (C84_complete F97 S97' ch84 (circuit80 (Ok (z97 5)) (Ok (z97 9)) (Ok (z97 3))) (circuit80 Panic Panic Panic) tt (state80 (z97 5) (z97 9) (z97 3)) inst80 (z97 50) (z97 51) (z97 52) sr80 (ip84 9) (ip84 9) (ip84 9) _ _ _ _ _ _ em c (fits80 _ _ _ _ _ _) eq_refl W SS eq_refl E ER T2 T3).
    intros [|[|[|a]]] b L; cbn [state80 inps nth]; intro Q; try (apply (f_equal (fun y : F97 => zv _ y)) in Q; vm_compute in Q; discriminate). destruct b as [|[|[|b]]]; try lia. destruct b; reflexivity.
Qed.
(** One multiplication x * x = a with public a: the prover panics, although the witness is right. *)
Definition circuit84 (a x : res F97) : M F97 unit := bind (alloc_input a) (fun w => bind (alloc x) (fun v => enforce [(v, 1)] [(v, 1)] [(w, 1)])).
Definition inst84 : r1cs F97 := mkR F97 2 1 1 [[(1, Aux 0)]] [[(1, Aux 0)]] [[(1, Input 1)]].
Definition state84 : cs F97 := mkCS Prove [1; z97 9] [z97 3] [mkC [(Aux 0, 1)] [(Aux 0, 1)] [(Input 1, 1)]].
Lemma fits84 a x a' x' : fits any (circuit84 a x) (circuit84 a' x').
Proof. unfold circuit84. eapply fits_bind; [apply fits_alloc_input|]. intros w ? <-. eapply fits_bind; [apply fits_alloc|]. intros v ? <-. apply fits_enforce. Qed.
Lemma lonely84 v : lonely 2 [[((1 : F97), v)]].
Proof.
  intros r c r' c'. unfold entry. destruct r as [|[|r]], r' as [|[|r']]; cbn [nth filter snd]; intros H H'; try (exfalso; apply H; reflexivity); try (exfalso; apply H'; reflexivity).
  destruct (Nat.eqb_spec (column 2 v) c); [|exfalso; apply H; reflexivity]. destruct (Nat.eqb_spec (column 2 v) c'); [|exfalso; apply H'; reflexivity]. split; congruence.
Qed.
Example ex_C84_panics : self_sat state84 /\ one_entry_each inst84 /\ exists em c, encode F97 S97' (sn_evals F97 S97' (p84 inst84)) inst84 = Ok (em, c) /\
  create_snark_proof F97 S97' ch84 (p84 inst84) inst84 (circuit84 (Ok (z97 9)) (Ok (z97 3))) em c (z97 50) (z97 51) (z97 52) sr80 (ip84 9) (ip84 9) (ip84 9) = Panic.
Proof.
  assert (W : wf state84) by (split; [eexists; reflexivity|]; repeat constructor; cbn; lia). assert (SS : self_sat state84) by (split; [reflexivity|]; repeat constructor; apply zp_eq; vm_compute; reflexivity).
  assert (O : one_entry_each inst84) by (split; [|split]; apply lonely84). destruct two97 as (T2 & T3 & _).
  assert (WI : wf_inst inst84) by (apply (instance_fits F97 _ _ _ _ _ (fits84 (Ok (z97 9)) (Ok (z97 3)) Panic Panic) eq_refl W); reflexivity).
  split; [exact SS|]. split; [exact O|]. destruct (C84_encode F97 S97' (sn_evals F97 S97' (p84 inst84)) inst84 WI) as (em & c & E). exists em, c. split; [exact E|].
  apply (C84_panics F97 S97' ch84 (circuit84 (Ok (z97 9)) (Ok (z97 3))) (circuit84 Panic Panic) tt state84 inst84 (z97 50) (z97 51) (z97 52) sr80 (ip84 9) (ip84 9) (ip84 9) _ _ _ _ _ _ em c (fits84 _ _ _ _) eq_refl W SS eq_refl E); [|exact T2|exact T3|exact O].
  split; (split; [cbn; lia|repeat constructor]).
Qed.

(** ** C85 *)
Theorem C85_evaluation : forall (K : Fld) (G : Grp K) (ch : oracle K G) i r1 r2 r3 r4 r5 r6 em c i1 i2 i3, let p := sn_evals K G (snark_params_new K G i r1 r2 r3 r4 r5 r6) in
  wf_inst i -> encode K G p i = Ok (em, c) -> ~ one_entry_each i -> (1 + 1 : K) <> 0 -> (1 + 1 + 1 : K) <> 0 -> (forall l t, ch l t <> 0) ->
  (3 + log2c (r_cons K i * (half_len K i * 2)) <= length (ip_bv K i1))%nat -> (4 + log2c (r_cons K i * (half_len K i * 2)) <= length (ip_bv K i2))%nat -> (1 + Nat.max (rounds_x K i) (rounds_y K i) <= length (ip_bv K i3))%nat ->
  forall rx ry ea eb ec (t : transcript K G), length rx = rounds_x K i -> length ry = rounds_y K i -> Forall (fun v => exists x, In x v /\ x <> 0) (em_val K em) ->
  exists ev, sparse_poly_eval_verify K G ch p ev c rx ry (ea, eb, ec) t = Ok true.
Proof. exact any_evaluation. Qed.
Print Assumptions C85_evaluation.
Theorem C85_snark : forall (K : Fld) (G : Grp K) (ch : oracle K G) i r1 r2 r3 r4 r5 r6 em c i1 i2 i3, let p := snark_params_new K G i r1 r2 r3 r4 r5 r6 in
  wf_inst i -> encode K G (sn_evals K G p) i = Ok (em, c) -> ~ one_entry_each i -> (1 + 1 : K) <> 0 -> (1 + 1 + 1 : K) <> 0 -> (forall l t, ch l t <> 0) ->
  (3 + log2c (r_cons K i * (half_len K i * 2)) <= length (ip_bv K i1))%nat -> (4 + log2c (r_cons K i * (half_len K i * 2)) <= length (ip_bv K i2))%nat -> (1 + Nat.max (rounds_x K i) (rounds_y K i) <= length (ip_bv K i3))%nat ->
  forall inputs rh ph eh, (length inputs < half_len K i)%nat ->
  exists pf, forge_snark K G ch p i inputs em c rh ph eh i1 i2 i3 = Ok pf /\ verify_snark_proof K G ch p i inputs pf c rh ph eh = Ok true.
Proof. exact snark_forgery. Qed.
Print Assumptions C85_snark.
Theorem C85_never : forall (K : Fld) (G : Grp K) (ch : oracle K G) i r1 r2 r3 r4 r5 r6 em c, let p := snark_params_new K G i r1 r2 r3 r4 r5 r6 in
  wf_inst i -> encode K G (sn_evals K G p) i = Ok (em, c) -> one_entry_each i -> forall inputs pf rh ph eh, verify_snark_proof K G ch p i inputs pf c rh ph eh <> Ok true.
Proof. exact one_entry_never. Qed.
Print Assumptions C85_never.
(** Two constraints 1 * 1 = 2: no assignment satisfies them, every input is accepted, and the encoding opens to any values. *)
Definition inst85 : r1cs F97 := mkR F97 2 1 2 [[(1, Input 0)]; [(1, Input 0)]] [[(1, Input 0)]; [(1, Input 0)]] [[(z97 2, Input 0)]; [(z97 2, Input 0)]].
Example ex_C85 : wf_inst inst85 /\ (forall a, ~ inst_sat a inst85) /\ exists em c, encode F97 S97' (sn_evals F97 S97' (p84 inst85)) inst85 = Ok (em, c) /\
  (exists pf, verify_snark_proof F97 S97' ch84 (p84 inst85) inst85 [z97 7] pf c (z97 50) (z97 51) (z97 52) = Ok true) /\
  (forall ea eb ec, exists ev, sparse_poly_eval_verify F97 S97' ch84 (sn_evals F97 S97' (p84 inst85)) ev c [z97 1] [z97 1; z97 2] (ea, eb, ec) [] = Ok true).
Proof.
  assert (W : wf_inst inst85).
  { split; [cbn; lia|]. split; [exists 1%nat; reflexivity|]. split; [repeat split|]. repeat split; repeat constructor; cbn; lia. }
  assert (O : ~ one_entry_each inst85).
  { intros [H _]. destruct (H 0%nat 2%nat 1%nat 2%nat) as [D _]; [| |discriminate]; intro Q; apply (f_equal (fun y : F97 => zv _ y)) in Q; vm_compute in Q; discriminate. }
  assert (NZ : forall l t, ch84 l t <> 0) by (intros l t Q; apply (f_equal (fun y : F97 => zv _ y)) in Q; vm_compute in Q; discriminate).
  destruct two97 as (T2 & T3 & T1). split; [exact W|]. split.
  - intros a [H1 H]. specialize (H 0%nat). unfold row_eval, inst85 in H. cbn [r_a r_b r_c nth map fsum fst snd] in H. fold ONE in H. rewrite H1 in H. apply (f_equal (fun y : F97 => zv _ y)) in H. vm_compute in H. discriminate.
  - destruct (C84_encode F97 S97' (sn_evals F97 S97' (p84 inst85)) inst85 W) as (em & c & E). exists em, c. split; [exact E|]. split.
    + destruct (C85_snark F97 S97' ch84 inst85 _ _ _ _ _ _ em c (ip84 9) (ip84 9) (ip84 9) W E O T2 T3 NZ) with (inputs := [z97 7]) (rh := z97 50) (ph := z97 51) (eh := z97 52) as (pf & _ & V); [vm_compute; lia..|exists pf; exact V].
    + intros ea eb ec. assert (V : map (map (fun y : F97 => zv _ y)) (em_val F97 em) = [[1; 1]; [1; 1]; [2; 2]]%Z).
      { assert (Q : match encode F97 S97' (sn_evals F97 S97' (p84 inst85)) inst85 with Ok (em, _) => map (map (fun y : F97 => zv _ y)) (em_val F97 em) | _ => [] end = [[1; 1]; [1; 1]; [2; 2]]%Z) by (vm_compute; reflexivity). rewrite E in Q. exact Q. }
      apply (C85_evaluation F97 S97' ch84 inst85 _ _ _ _ _ _ em c (ip84 9) (ip84 9) (ip84 9) W E O T2 T3 NZ); [vm_compute; lia..|reflexivity|reflexivity|].
      apply Forall_forall. intros v Hv. apply (in_map (map (fun y : F97 => zv _ y))) in Hv. rewrite V in Hv. assert (L : v <> [] /\ forall x, In x v -> x <> 0).
      { split; [intros ->; cbn in Hv; intuition discriminate|]. intros x Hx ->. apply (in_map (fun y : F97 => zv _ y)) in Hx. cbn [In] in Hv. destruct Hv as [Hv|[Hv|[Hv|[]]]]; rewrite <- Hv in Hx; vm_compute in Hx; intuition discriminate. }
      destruct v as [|x v]; [destruct (proj1 L eq_refl)|]. exists x. split; [left; reflexivity|]. apply L. left. reflexivity.
Qed.
Example ex_C85_never : one_entry_each inst84 /\ exists em c, encode F97 S97' (sn_evals F97 S97' (p84 inst84)) inst84 = Ok (em, c) /\ forall inputs pf rh ph eh, verify_snark_proof F97 S97' ch84 (p84 inst84) inst84 inputs pf c rh ph eh <> Ok true.
Proof.
  destruct ex_C84_panics as (SS & O & em & c & E & _). split; [exact O|]. exists em, c. split; [exact E|]. assert (W : wf state84) by (split; [eexists; reflexivity|]; repeat constructor; cbn; lia).
  assert (WI : wf_inst inst84) by (apply (instance_fits F97 _ _ _ _ _ (fits84 (Ok (z97 9)) (Ok (z97 3)) Panic Panic) eq_refl W); reflexivity). exact (C85_never F97 S97' ch84 inst84 _ _ _ _ _ _ em c WI E O).
Qed.
(** Forged or not, an accepted evaluation proof claims two balanced memories and three values split in two. *)
Theorem C85_checks : forall (K : Fld) (G : Grp K) (ch : oracle K G) p pf c rx ry ea eb ec t b, sparse_poly_eval_verify K G ch p pf c rx ry (ea, eb, ec) t = Ok b ->
  b = true /\ balanced (pl_row K (ep_prod K G pf)) /\ balanced (pl_col K (ep_prod K G pf)) /\
  exists l0 l1 l2 r0 r1 r2, pl_dleft K (ep_prod K G pf) = [l0; l1; l2] /\ pl_dright K (ep_prod K G pf) = [r0; r1; r2] /\ l0 + r0 = ea /\ l1 + r1 = eb /\ l2 + r2 = ec.
Proof. exact eval_checks. Qed.
Print Assumptions C85_checks.
Example ex_C85_checks : exists em c ev, encode F97 S97' (sn_evals F97 S97' (p84 inst85)) inst85 = Ok (em, c) /\
  sparse_poly_eval_verify F97 S97' ch84 (sn_evals F97 S97' (p84 inst85)) ev c [z97 1] [z97 1; z97 2] (z97 5, z97 6, z97 7) [] = Ok true /\ balanced (pl_col F97 (ep_prod F97 S97' ev)).
Proof.
  destruct ex_C85 as (_ & _ & em & c & E & _ & H). destruct (H (z97 5) (z97 6) (z97 7)) as [ev V]. exists em, c, ev. split; [exact E|]. split; [exact V|]. apply (C85_checks _ _ _ _ _ _ _ _ _ _ _ _ _ V).
Qed.
