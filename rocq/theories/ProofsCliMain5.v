(** Verdicts of the programs with groth16 and bulletproofs. *)
From Coq Require Import String Ascii ZArith List Lia Bool.
From Verif Require Import Field Poly Module ModelTranscript ModelLC SpecLC ModelCS SpecCS ProofsCS ModelMimc ModelGroth16 SpecGroth16 ProofsGroth16
  ModelBulletproofs SpecBulletproofs ProofsBulletproofs ProofsBulletproofs3 ModelCli SpecCli ProofsCli ModelCliMain SpecCliMain ModelCliInst AttackCli ProofsCliMain ProofsCliMain2 ProofsCliMain3 ProofsCliMain4.
From Coq Require Import List.
Import ListNotations.
Local Open Scope Z_scope.
Section C.
Variable K : PFld.
Variable PR : Pairing K.
Variable dnew : nat -> option (dom K).
Hypothesis DF : dom_family dnew.
Local Open Scope fld_scope.
Lemma groth_core (c_off c_on : M K unit) s1 s2 al be ga de t h1 h2 p r s : c_off (cs_new Setup) = Ok (tt, s1) -> c_on (cs_new Prove) = Ok (tt, s2) -> SpecGroth16.same_shape s1 s2 -> wf s2 -> self_sat s2 ->
  generate_parameters K PR dnew c_off al be ga de t h1 h2 = Ok p ->
  exists pf, create_proof K PR dnew p c_on r s = Ok pf /\ verify_proof K PR (prepare K PR (pvk K PR p)) pf (skipn 1 (inps s2)) = Ok true.
Proof.
  intros E1 E2 Sh W Sat Gp. set (c := fun s : cs K => match md s with Setup => c_off s | Prove => c_on s end).
  assert (ga <> 0 /\ de <> 0 /\ dnew (length (ModelCS.cons s2) + length (inps s2))%nat <> None) as (Ga & De & Dn).
  { pose proof Sh as (S1 & S2 & S3). destruct W as [[i Wi] _]. unfold generate_parameters in Gp. rewrite E1 in Gp. cbn [rbind] in Gp. unfold num_constraints, num_inputs in Gp.
    rewrite <- S1. rewrite S2 in Gp. rewrite Wi in Gp |- *. cbn [length] in Gp |- *.
    replace (length (ModelCS.cons s1) + (S (length i) - 1) + 1)%nat with (length (ModelCS.cons s1) + S (length i))%nat in Gp by lia.
    destruct (dnew (length (ModelCS.cons s1) + S (length i))%nat); [|discriminate]. destruct (instance_map K dnew s1 t) as [[[[[a b] c'] zt] m]| |]; try discriminate. cbn [rbind] in Gp.
    destruct (feqb ga 0) eqn:F1; [discriminate|]. destruct (feqb de 0) eqn:F2; [discriminate|].
    apply feqb_neq in F1. apply feqb_neq in F2. repeat split; try assumption; discriminate. }
  destruct (groth16_complete K dnew DF PR c s1 s2 al be ga de t r s h1 h2 E1 E2 Sh W Sat Dn Ga De) as (p' & pf & Gp' & Cp & V).
  change (generate_parameters K PR dnew c al be ga de t h1 h2) with (generate_parameters K PR dnew c_off al be ga de t h1 h2) in Gp'. rewrite Gp in Gp'. injection Gp' as <-.
  exists pf. split; [exact Cp|exact V].
Qed.
End C.
Section V.
Variable K : PFld.
Variable PR : Pairing K.
Variable dnew : nat -> option (dom K).
Variable R : Type.
Variable keys : R -> gdraw K PR.
Variable blinds : R -> K * K.
Variable G : Grp K.
Variable ch : oracle K G.
Variable points : R -> nat -> list G * list G * G * G * G.
Variable masks : R -> brand K.
Variable epk : params K PR -> list Z. Variable dpk : list Z -> option (params K PR).
Variable evk : vkey K PR -> list Z. Variable dvk : list Z -> option (vkey K PR).
Variable epf : proof K PR -> list Z. Variable dpf : list Z -> option (proof K PR).
Variable enc : gens K G * r1cs K * bproof K G -> list Z. Variable dec : list Z -> option (gens K G * r1cs K * bproof K G).
Notation GR := (groth16_sys K PR dnew R keys blinds epk dpk evk dvk epf dpf).
Notation BU := (bulletproofs_sys K R G ch points masks enc dec).
Variables (nl : nat) (cts : list K).
Variables SN NI : univ K R.
Variable jprint : json -> list Z.
Variable jparse : list Z -> option json.
Variable efr : K -> list Z.
Variable dfr : list Z -> option K.
Notation setup := (setup_main K nl cts R GR SN NI).
Notation prove := (prove_main K nl cts R GR SN NI BU jprint efr).
Notation verify := (verify_main K R GR SN NI BU jparse dfr).
Notation vfile := (verify_file K R GR SN NI BU jparse dfr).
Hypothesis J : lossless jprint jparse.
Hypothesis Lf : lossless efr dfr.
Hypothesis Bf : in_bytes efr.
Local Open Scope fld_scope.

Lemma groth_honest (GG : good_groth GR) r r' s0 rest p0 k args w w1 c p s1 s2 v : dom_family dnew -> circuit_arg rest = str (name k) ->
  setup r (s0 :: str "groth16" :: str "bls12_381" :: rest) w = (Finished v, w1) -> power_on K nl cts k args = Ok (c, p) ->
  power_off K nl cts k (cs_new Setup) = Ok (tt, s1) -> c (cs_new Prove) = Ok (tt, s2) -> SpecGroth16.same_shape s1 s2 -> wf s2 -> self_sat s2 -> inps s2 = [1; public p] ->
  exists w2, prove r' (p0 :: str "groth16" :: str "bls12_381" :: str (name k) :: args) w1 = (Finished None, w2) /\
  forall v0 more, verify (v0 :: proof_file "groth16" (name k) :: more) w2 = Finished (Some true).
Proof.
  intros DF CA St On E1 E2 S W Sat I. pose proof St as St'.
  apply setup_finishes in St'. destruct St' as (_ & q1 & q2 & q3 & k1 & E & CA' & M). injection E as _ <- <-. rewrite CA in CA'. apply name_inj in CA'. subst k1.
  inversion M as [pk Gn Q1 Q2|pk Gn Q1 Q2|pk Gn Q1 Q2]. clear M.
  destruct (groth_core K PR dnew DF _ c s1 s2 _ _ _ _ _ _ _ pk (fst (blinds r')) (snd (blinds r')) E1 E2 S W Sat Gn) as (pf & Cp & V). rewrite I in V. cbn [skipn] in V.
  assert (P : prove r' (p0 :: str "groth16" :: str "bls12_381" :: str (name k) :: args) w1 = (Finished None, write w1 (proof_path (str "groth16") k) (jprint (contents K efr k (str "groth16") p (epf pf))))).
  { apply prove_finishes. split; [reflexivity|]. exists p0, (str "groth16"), k, args, c, p, (epf pf). repeat split; try assumption.
    apply (made_groth K R GR SN NI BU r' k c w1 pk pf); [|exact Cp]. rewrite <- Q2. unfold read_or. rewrite write_other by (destruct k; vm_compute; reflexivity). rewrite write_same. apply GG. }
  rewrite Q2. eexists. split; [exact P|].
  destruct (groth_run K nl cts R GR SN NI BU jprint jparse efr dfr J Lf Bf r r' s0 rest p0 k args w w1 _ _ v None GG CA St P eq_refl eq_refl) as (pk' & c' & p' & pf' & Gn' & On' & Cp' & Vf).
  rewrite On in On'. injection On' as <- <-. rewrite Gn in Gn'. injection Gn' as <-. cbn [g_prove groth16_sys] in Cp'. rewrite Cp in Cp'. injection Cp' as <-.
  intros v0 more. rewrite Vf. cbn [g_verify g_key groth16_sys]. rewrite V. reflexivity.
Qed.
Lemma mini_honest (x y z : Z) : of_Z x * (of_Z y + of_Z 2) = (of_Z z : K) -> exists s1 s2, mini K None None None 10 (cs_new Setup) = Ok (tt, s1) /\ mini K (Some (of_Z x)) (Some (of_Z y)) (Some (of_Z z)) 10 (cs_new Prove) = Ok (tt, s2) /\
  SpecGroth16.same_shape s1 s2 /\ wf s2 /\ self_sat s2 /\ inps s2 = [1; of_Z z] /\ no_dups s2 /\ length (ModelCS.cons s2) = 10%nat /\ length (auxs s2) = 2%nat.
Proof.
  intro E. eexists. eexists. split; [apply mini_setup|]. split; [apply mini_run|]. split; [repeat split|]. split; [apply mini_wf|]. split; [|repeat split].
  - eapply mini_sat; [apply mini_run|lia|exact E].
  - apply mini_no_dups.
Qed.
(** A correct product is accepted under groth16. *)
Theorem groth_mini r r' s0 rest p0 a b d x y z more w w1 v : good_groth GR -> dom_family dnew -> circuit_arg rest = str "mini" ->
  setup r (s0 :: str "groth16" :: str "bls12_381" :: rest) w = (Finished v, w1) ->
  numeral a x -> numeral b y -> numeral d z -> of_Z x * (of_Z y + of_Z 2) = (of_Z z : K) ->
  exists w2, prove r' (p0 :: str "groth16" :: str "bls12_381" :: str "mini" :: a :: b :: d :: more) w1 = (Finished None, w2) /\
  forall v0 more', verify (v0 :: proof_file "groth16" "mini" :: more') w2 = Finished (Some true).
Proof.
  intros GG DF CA St A B D E. destruct (mini_honest x y z E) as (s1 & s2 & E1 & E2 & S & W & Sat & I & _).
  apply (groth_honest GG r r' s0 rest p0 Mini (a :: b :: d :: more) w w1 (mini K (Some (of_Z x)) (Some (of_Z y)) (Some (of_Z z)) 10) (PMini z) s1 s2 v DF CA St); auto.
  apply power_mini. exists a, b, d, more, x, y, z. repeat split; assumption.
Qed.
(** A string's hash is accepted under groth16. *)
Theorem groth_hash r r' s0 p0 a h rest more w w1 v : good_groth GR -> dom_family dnew -> (0 < nl)%nat -> cts <> [] -> a <> [] -> hash nl cts a = Ok h ->
  setup r (s0 :: str "groth16" :: str "bls12_381" :: str "hash" :: rest) w = (Finished v, w1) ->
  exists w2, prove r' (p0 :: str "groth16" :: str "bls12_381" :: str "hash" :: a :: more) w1 = (Finished None, w2) /\
  forall v0 more', verify (v0 :: proof_file "groth16" "hash" :: more') w2 = Finished (Some true).
Proof.
  intros GG DF N C A H St. destruct (claim_run K nl cts a h N A C) as (s2 & s1 & E2 & W & Sat & I & E1 & S). rewrite <- hash_run in E2 by assumption.
  apply (groth_honest GG r r' s0 (str "hash" :: rest) p0 Hash (a :: more) w w1 (cli_hash nl cts (Some a)) (PHash h) s1 s2 v DF eq_refl St); auto.
  cbn [power_on]. rewrite H. reflexivity.
Qed.
(** And so is everything else, claimed as a hash. *)
Theorem groth_hash_forged r s0 rest h w w1 v : good_groth GR -> dom_family dnew -> (0 < nl)%nat -> cts <> [] ->
  setup r (s0 :: str "groth16" :: str "bls12_381" :: str "hash" :: rest) w = (Finished v, w1) ->
  exists b, forall w3, w3 (setup_file "groth16" "hash" ".vk") = w1 (setup_file "groth16" "hash" ".vk") -> vfile w3 (jprint (contents K efr Hash (str "groth16") (PHash h) b)) = Finished (Some true).
Proof.
  intros (Lpk & Lvk & Lpf & Bpf) DF N C St. destruct (claim_run K nl cts [0%Z] h N ltac:(discriminate) C) as (s2 & s1 & E2 & W & Sat & I & E1 & S).
  apply setup_finishes in St. destruct St as (_ & q1 & q2 & q3 & k1 & E & CA' & M). injection E as _ <- <-. change (circuit_arg (str "hash" :: rest)) with (str (name Hash)) in CA'. apply name_inj in CA'. subst k1.
  inversion M as [pk Gn Q1 Q2|pk Gn Q1 Q2|pk Gn Q1 Q2]. clear M.
  destruct (groth_core K PR dnew DF (cli_hash nl cts None) (claim_hash nl cts [0%Z] h) s1 s2 _ _ _ _ _ _ _ pk 0 0 E1 E2 S W Sat Gn) as (pf & _ & V). rewrite I in V. cbn [skipn] in V.
  exists (epf pf). intros w3 A3. rewrite (verify_contents K R GR SN NI BU jprint jparse efr dfr J Lf Bf) by (try apply Bpf; exact Logic.I).
  unfold verify_scheme. rewrite seqb_refl, path_setup. unfold read_or. cbn [name]. rewrite A3. cbn [name]. rewrite write_same, Lvk, Lpf. cbn [g_verify g_key groth16_sys public]. rewrite V. reflexivity.
Qed.
(** A correct product is accepted under bulletproofs. *)
Theorem bullet_mini r' p0 a b d x y z more w : good_bullet BU -> (forall l t, ch l t <> 0) ->
  (forall N, length (fst (fst (fst (fst (points r' N))))) = N /\ length (snd (fst (fst (fst (points r' N))))) = N) -> (length (r_sL K (masks r')) <= 10)%nat -> (length (r_sR K (masks r')) <= 10)%nat ->
  numeral a x -> numeral b y -> numeral d z -> of_Z x * (of_Z y + of_Z 2) = (of_Z z : K) ->
  exists w2, prove r' (p0 :: str "bulletproofs" :: str "bls12_381" :: str "mini" :: a :: b :: d :: more) w = (Finished None, w2) /\
  forall v0 more', verify (v0 :: proof_file "bulletproofs" "mini" :: more') w2 = Finished (Some true).
Proof.
  intros GB NZ Pt H1 H2 A B D E. destruct (mini_honest x y z E) as (s1 & s2 & E1 & E2 & S & W & Sat & I & ND & LC & LA).
  assert (On : power_on K nl cts Mini (a :: b :: d :: more) = Ok (mini K (Some (of_Z x)) (Some (of_Z y)) (Some (of_Z z)) 10, PMini z)) by (apply power_mini; exists a, b, d, more, x, y, z; repeat split; assumption).
  destruct (bp_complete K G ch (mini K (Some (of_Z x)) (Some (of_Z y)) (Some (of_Z z)) 10) s2 (points r') (masks r') NZ E2 W) as (gs & c' & pf & Cp & V); auto.
  { intro Q. rewrite Q in LC. discriminate. } { rewrite LC, LA. cbn. lia. } { rewrite LC, LA. cbn. lia. }
  rewrite I in V. cbn [skipn] in V.
  assert (P : prove r' (p0 :: str "bulletproofs" :: str "bls12_381" :: str "mini" :: a :: b :: d :: more) w = (Finished None, write w (proof_path (str "bulletproofs") Mini) (jprint (contents K efr Mini (str "bulletproofs") (PMini z) (enc (gs, c', pf)))))).
  { apply prove_finishes. split; [reflexivity|]. exists p0, (str "bulletproofs"), Mini, (a :: b :: d :: more), (mini K (Some (of_Z x)) (Some (of_Z y)) (Some (of_Z z)) 10), (PMini z), (enc (gs, c', pf)).
    repeat split; try assumption. apply (made_bullet K R GR SN NI BU r' Mini _ w (gs, c', pf)). exact Cp. }
  eexists. split; [exact P|].
  destruct (bullet_run K nl cts R GR SN NI BU jprint jparse efr dfr J Lf Bf r' p0 Mini (a :: b :: d :: more) w _ _ None GB P eq_refl) as (gs1 & c1 & m1 & p1 & pf1 & On' & Cp' & Vf).
  rewrite On in On'. injection On' as <- <-. cbn [b_prove bulletproofs_sys] in Cp'. rewrite Cp in Cp'. injection Cp' as <- <- <-.
  intros v0 more'. cbn [name] in Vf. rewrite Vf. cbn [b_verify bulletproofs_sys public]. rewrite V. reflexivity.
Qed.
(** Every public input of either circuit is accepted under bulletproofs, whatever files there are. *)
Theorem bullet_forged k p : good_bullet BU -> (forall t, ch "y"%string t <> 0) -> fit k p -> exists b, forall w, vfile w (jprint (contents K efr k (str "bulletproofs") p b)) = Finished (Some true).
Proof.
  intros GB NZ F. set (gs := mkGens K G [g0] [g0] g0 g0 g0 1 1 2 0).
  assert (exists pf, bp_verify K G ch gs pf (mkR1cs K [] [] [] [] [] []) [public p] = Ok true) as (pf & V) by (exists (forge K G ch gs (mkR1cs K [] [] [] [] [] []) [public p] 0 0); apply bp_forgery; cbn; auto).
  exists (enc (gs, mkR1cs K [] [] [] [] [] [], pf)). intro w. pose proof (bullet_file K R GR SN NI BU jprint jparse efr dfr J Lf Bf w k p (gs, mkR1cs K [] [] [] [] [] [], pf) F GB) as Q.
  cbn [b_enc b_verify bulletproofs_sys] in Q. rewrite Q, V. reflexivity.
Qed.
End V.
