(** Groth16 proofs of a true statement are spread evenly over all accepted proofs, whatever the witness. *)
From Coq Require Import List Lia.
From Verif Require Import Field Poly Module ModTac ModelLC SpecLC ModelCS SpecCS ModelGroth16 SpecGroth16 SpecGroth16Zk ProofsGroth16.
Import ListNotations.
Local Open Scope list_scope.
Local Open Scope fld_scope.
Section S.
Variable K : Fld.
Add Field Kf : (f_laws K).
Variable PR : Pairing K.
Variable dnew : nat -> option (dom K).
Hypothesis DF : dom_family dnew.
Variable circuit : M K unit.
Variable s1 : cs K.
Hypothesis Run : circuit (cs_new Setup) = Ok (tt, s1).
Variable g1 : G1 PR.
Variable g2 : G2 PR.
Variables al be ga de t : K.
Hypothesis Hg : ga <> 0.
Hypothesis Hd : de <> 0.
(** The first two elements of an honest proof. *)
Lemma honest_ab prover s2 p : prover (cs_new Prove) = Ok (tt, s2) -> same_shape s1 s2 -> wf s2 -> self_sat s2 -> generate_parameters K PR dnew circuit al be ga de t g1 g2 = Ok p ->
  exists u v, forall r s, exists pf, create_proof K PR dnew p prover r s = Ok pf /\ pa K PR pf = gsm (u + r * de) g1 /\ pb K PR pf = gsm (v + s * de) g2.
Proof.
  intros R2 Sh W Sat. unfold generate_parameters. rewrite Run. cbn [rbind]. pose proof Sh as (S1 & S2 & S3). pose proof (inps_pos K s2 W) as Hi.
  unfold num_inputs, num_constraints. rewrite S1, S2. replace (length (cons s2) + (length (inps s2) - 1) + 1)%nat with (length (cons s2) + length (inps s2))%nat by lia.
  destruct (dnew (length (cons s2) + length (inps s2))) as [d|] eqn:Ed; [|discriminate].
  destruct (instance_ok K dnew DF s2 d t W Ed) as (a & b & c & Ei & La & Lb & Lc & _). destruct (witness_ok K dnew DF s2 d W Ed Sat) as (h & Eh & _).
  rewrite (shape_instance K dnew s1 s2 t Sh), Ei. cbn [rbind].
  destruct (feqb_spec K ga 0) as [E|_]; [contradiction|]. destruct (feqb_spec K de 0) as [E|_]; [contradiction|].
  intro E. injection E as <-. exists (dot a (1 :: skipn 1 (inps s2) ++ auxs s2) + al), (dot b (1 :: skipn 1 (inps s2) ++ auxs s2) + be). intros r s.
  unfold create_proof. rewrite R2. cbn [rbind]. rewrite Eh. cbn [rbind delta_g1 a_query pvk alpha_g1 b_g1_query beta_g1 b_g2_query beta_g2 delta_g2 h_query l_query].
  assert (a <> []) as Na by (intro E; rewrite E in La; cbn in La; lia). assert (b <> []) as Nb by (intro E; rewrite E in Lb; cbn in Lb; lia).
  rewrite <- !gsm_mul. rewrite !coeff_base by assumption. cbn [rbind]. destruct (negb (feqb r 0)); cbn [rbind].
  all: eexists; split; [reflexivity|]; cbn [pa pb]; split; f_equal; ring.
Qed.
(** The first two elements determine the third. *)
Lemma third_unique vk pf pf' xs : (forall P : G1 PR, exists k, P = gsm k g1) -> delta_g2 K PR vk = gsm de g2 -> (forall k, gsm k (pair_e g1 g2) = g0 -> k = 0) ->
  verify_proof K PR (prepare K PR vk) pf xs = Ok true -> verify_proof K PR (prepare K PR vk) pf' xs = Ok true -> pa K PR pf = pa K PR pf' -> pb K PR pf = pb K PR pf' -> pf = pf'.
Proof.
  intros Gen Ed ND V V' Ea Eb. apply verify_exact in V, V'. destruct V as [_ V], V' as [_ V']. destruct pf as [A B C], pf' as [A' B' C']. cbn [pa pb pc] in *. subst A' B'. f_equal.
  destruct (Gen C) as [c ->], (Gen C') as [c' ->]. f_equal. unfold prepare in V, V'. cbn [delta_g2_neg alpha_g1_beta_g2 gamma_g2_neg] in V, V'. rewrite Ed in V, V'. rewrite <- V' in V. clear V'.
  set (X := gadd (pair_e A B) _) in V. rewrite <- gsm_opp, !pair_sm_l, !pair_sm_r in V. set (e := pair_e g1 g2) in *.
  assert (Z : gsm (de * (c' - c)) e = g0).
  { transitivity (gadd (gopp (gadd X (gsm c' (gsm (- de) e)))) (gadd X (gsm c (gsm (- de) e)))); [gmod; ring|]. rewrite V. gmod; ring. }
  apply ND in Z. destruct (f_integral K _ _ Z) as [Z'|Z']; [contradiction|]. transitivity (c' - (c' - c)); [ring|]. rewrite Z'. ring.
Qed.
Lemma gen_delta p : generate_parameters K PR dnew circuit al be ga de t g1 g2 = Ok p -> delta_g2 K PR (pvk K PR p) = gsm de g2.
Proof.
  unfold generate_parameters. rewrite Run. cbn [rbind]. destruct (dnew _); [|discriminate]. destruct (instance_map K dnew s1 t) as [[[[[? ?] ?] ?] ?]| |]; cbn [rbind]; try discriminate.
  destruct (feqb ga 0); [discriminate|]. destruct (feqb de 0); [discriminate|]. intro E. injection E as <-. reflexivity.
Qed.
Lemma nd_gen : (forall k, gsm k (pair_e g1 g2) = g0 -> k = 0) -> (forall k, gsm k g1 = g0 -> k = 0) /\ (forall k, gsm k g2 = g0 -> k = 0).
Proof.
  intro ND. split; intros k H; apply ND.
  - rewrite <- pair_sm_l, H. transitivity (pair_e (gsm 0 g1) g2); [rewrite gsm_0; reflexivity|]. rewrite pair_sm_l. apply gsm_0.
  - rewrite <- pair_sm_r, H. transitivity (pair_e g1 (gsm 0 g2)); [rewrite gsm_0; reflexivity|]. rewrite pair_sm_r. apply gsm_0.
Qed.
Lemma gsm_inj {G : Grp K} (g : G) : (forall k, gsm k g = g0 -> k = 0) -> forall x y, gsm x g = gsm y g -> x = y.
Proof.
  intros N x y H. assert (Z : x - y = 0). { apply N. transitivity (gadd (gsm x g) (gopp (gsm y g))); [gmod; ring|]. rewrite H. gmod; ring. }
  transitivity (x - y + y); [ring|]. rewrite Z. ring.
Qed.
Hypothesis Gen1 : forall P : G1 PR, exists k, P = gsm k g1.
Hypothesis Gen2 : forall P : G2 PR, exists k, P = gsm k g2.
Hypothesis ND : forall k, gsm k (pair_e g1 g2) = g0 -> k = 0.
Theorem coins_unique prover s2 p : prover (cs_new Prove) = Ok (tt, s2) -> same_shape s1 s2 -> wf s2 -> self_sat s2 -> generate_parameters K PR dnew circuit al be ga de t g1 g2 = Ok p ->
  forall pf, verify_proof K PR (prepare K PR (pvk K PR p)) pf (skipn 1 (inps s2)) = Ok true <-> exists! rs : K * K, create_proof K PR dnew p prover (fst rs) (snd rs) = Ok pf.
Proof.
  intros R2 Sh W Sat Eg pf. destruct (honest_ab prover s2 p R2 Sh W Sat Eg) as (u & v & H). destruct (nd_gen ND) as [N1 N2].
  assert (Acc : forall r s pf', create_proof K PR dnew p prover r s = Ok pf' -> verify_proof K PR (prepare K PR (pvk K PR p)) pf' (skipn 1 (inps s2)) = Ok true).
  { intros r s pf' Ec. set (mix := fun c : cs K => match md c with Setup => circuit c | Prove => prover c end).
    destruct (groth16_complete K dnew DF PR mix s1 s2 al be ga de t r s g1 g2 Run R2 Sh W Sat) as (p' & pf2 & Eg' & Ec' & V); try assumption.
    - intro E. revert Eg. unfold generate_parameters. rewrite Run. cbn [rbind]. pose proof Sh as (S1 & S2 & S3). pose proof (inps_pos K s2 W) as Hi.
      unfold num_inputs, num_constraints. rewrite S1, S2. replace (length (cons s2) + (length (inps s2) - 1) + 1)%nat with (length (cons s2) + length (inps s2))%nat by lia. rewrite E. discriminate.
    - change (generate_parameters K PR dnew circuit al be ga de t g1 g2 = Ok p') in Eg'. change (create_proof K PR dnew p' prover r s = Ok pf2) in Ec'. rewrite Eg in Eg'. injection Eg' as <-. rewrite Ec in Ec'. injection Ec' as <-. exact V. }
  split.
  - intro V. destruct (Gen1 (pa K PR pf)) as [x Ex], (Gen2 (pb K PR pf)) as [y Ey]. exists ((x - u) * finv de, (y - v) * finv de). split.
    + cbn [fst snd]. destruct (H ((x - u) * finv de) ((y - v) * finv de)) as (pf' & Ec & Ea & Eb). rewrite Ec. f_equal.
      apply (third_unique (pvk K PR p) pf' pf (skipn 1 (inps s2)) Gen1 (gen_delta p Eg) ND (Acc _ _ _ Ec) V); [rewrite Ea, Ex|rewrite Eb, Ey]; f_equal; field; exact Hd.
    + intros [r s] Ec. cbn [fst snd] in Ec. destruct (H r s) as (pf' & Ec' & Ea & Eb). rewrite Ec in Ec'. injection Ec' as <-.
      rewrite Ea in Ex. rewrite Eb in Ey. apply (gsm_inj g1 N1) in Ex. apply (gsm_inj g2 N2) in Ey. rewrite <- Ex, <- Ey. f_equal; field; exact Hd.
  - intros ([r s] & Ec & _). exact (Acc _ _ _ Ec).
Qed.
(** Two witnesses for the same public inputs: each proof is as likely under the one as under the other. *)
Theorem witnesses_alike prover s2 prover' s2' p : prover (cs_new Prove) = Ok (tt, s2) -> same_shape s1 s2 -> wf s2 -> self_sat s2 -> prover' (cs_new Prove) = Ok (tt, s2') -> same_shape s1 s2' -> wf s2' -> self_sat s2' ->
  inps s2 = inps s2' -> generate_parameters K PR dnew circuit al be ga de t g1 g2 = Ok p ->
  forall r s, exists! rs : K * K, create_proof K PR dnew p prover' (fst rs) (snd rs) = create_proof K PR dnew p prover r s.
Proof.
  intros R2 Sh W Sat R2' Sh' W' Sat' Ei Eg r s. destruct (honest_ab prover s2 p R2 Sh W Sat Eg) as (u & v & H). destruct (H r s) as (pf & Ec & Ea & Eb). rewrite Ec.
  apply (coins_unique prover' s2' p R2' Sh' W' Sat' Eg). rewrite <- Ei. apply (coins_unique prover s2 p R2 Sh W Sat Eg). exists (r, s). split; [exact Ec|].
  intros [r' s'] Ec'. cbn [fst snd] in Ec'. destruct (H r' s') as (pf' & Ec2 & Ea' & Eb'). rewrite Ec' in Ec2. injection Ec2 as <-. destruct (nd_gen ND) as [N1 N2].
  rewrite Ea in Ea'. rewrite Eb in Eb'. apply (gsm_inj g1 N1) in Ea'. apply (gsm_inj g2 N2) in Eb'.
  assert (X : forall a b c : K, a + b * de = a + c * de -> b = c).
  { intros a b c E. transitivity ((a + b * de - a) * finv de); [field; exact Hd|]. rewrite E. field. exact Hd. }
  f_equal; eapply X; eassumption.
Qed.
(** The simulator. *)
Lemma gen_vk p : generate_parameters K PR dnew circuit al be ga de t g1 g2 = Ok p -> alpha_g1 K PR (pvk K PR p) = gsm al g1 /\ beta_g2 K PR (pvk K PR p) = gsm be g2 /\ gamma_g2 K PR (pvk K PR p) = gsm ga g2.
Proof.
  unfold generate_parameters. rewrite Run. cbn [rbind]. destruct (dnew _); [|discriminate]. destruct (instance_map K dnew s1 t) as [[[[[? ?] ?] ?] ?]| |]; cbn [rbind]; try discriminate.
  destruct (feqb ga 0); [discriminate|]. destruct (feqb de 0); [discriminate|]. intro E. injection E as <-. repeat split.
Qed.
Theorem simulated p xs : generate_parameters K PR dnew circuit al be ga de t g1 g2 = Ok p -> (length xs + 1)%nat = length (gamma_abc_g1 K PR (pvk K PR p)) ->
  (forall x y, verify_proof K PR (prepare K PR (pvk K PR p)) (simulate (pvk K PR p) al be ga de g1 g2 xs x y) xs = Ok true) /\
  forall pf, verify_proof K PR (prepare K PR (pvk K PR p)) pf xs = Ok true -> exists! xy : K * K, simulate (pvk K PR p) al be ga de g1 g2 xs (fst xy) (snd xy) = pf.
Proof.
  intros Eg L. destruct (gen_vk p Eg) as (Ea & Eb & Ec). pose proof (gen_delta p Eg) as Ed. destruct (nd_gen ND) as [N1 N2].
  assert (Acc : forall x y, verify_proof K PR (prepare K PR (pvk K PR p)) (simulate (pvk K PR p) al be ga de g1 g2 xs x y) xs = Ok true).
  { intros x y. apply verify_exact. split; [exact L|]. unfold prepare, key_sum, simulate. cbn [pv_abc pa pb pc delta_g2_neg gamma_g2_neg alpha_g1_beta_g2]. rewrite Ea, Eb, Ec, Ed.
    destruct (Gen1 (msm (gamma_abc_g1 K PR (pvk K PR p)) (1 :: xs))) as [i ->].
    assert (E : gsm (finv de) (gadd (gsm (x * y - al * be) g1) (gopp (gsm ga (gsm i g1)))) = gsm (finv de * (x * y - al * be - ga * i)) g1) by (gmod; ring). rewrite E.
    rewrite <- !gsm_opp, !pair_sm_l, !pair_sm_r. gmod. field. exact Hd. }
  split; [exact Acc|]. intros pf V. destruct (Gen1 (pa K PR pf)) as [x Ex], (Gen2 (pb K PR pf)) as [y Ey]. exists (x, y). split.
  - apply (third_unique (pvk K PR p) _ _ xs Gen1 Ed ND (Acc _ _) V); [exact (eq_sym Ex)|exact (eq_sym Ey)].
  - intros [x' y'] <-. cbn [simulate pa pb fst snd] in Ex, Ey. apply (gsm_inj g1 N1) in Ex. apply (gsm_inj g2 N2) in Ey. congruence.
Qed.
End S.
