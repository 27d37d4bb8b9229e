(** Marlin over the scalar field of BLS12-381. *)
From Verif Require Import Zp SpecLC SpecCS SpecMarlin ProofsMarlin4 ProofsMarlin5 ProofsMarlin6 ProofsMarlin7 AttackMarlin Bls ModelDomain ProofsDomain ModelMimcDemo ProofsMimcDemo SpecMarlinBls.
From Verif Require Import ModelMarlin ModelCS.
Local Open Scope fld_scope.

Lemma bls_least n : (Z.of_nat n <= 2 ^ 32)%Z -> exists d, bls_domain n = Some d /\ (n <= dsize d)%nat /\ forall e, (n <= 2 ^ e)%nat -> (dsize d <= 2 ^ e)%nat.
Proof. intro H. apply pow32 in H. exact (radix2_new_exact Fbls 32 bls_root bls_generator n H). Qed.
Lemma bls_exact k : (k <= 32)%nat -> exists d, bls_domain (2 ^ k)%nat = Some d /\ dsize d = (2 ^ k)%nat.
Proof.
  intro H. destruct (bls_least (2 ^ k)%nat) as (d & E & L & U).
  - rewrite Nat2Z.inj_pow. change (Z.of_nat 2) with 2%Z. change 32%Z with (Z.of_nat 32). apply Z.pow_le_mono_r; [reflexivity|apply inj_le, H].
  - exists d. split; [exact E|]. apply Nat.le_antisymm; [apply U, Nat.le_refl|exact L].
Qed.
Lemma bls_two_points n d : (2 <= n)%nat -> bls_domain n = Some d -> (2 <= dsize d)%nat.
Proof. intros H E. destruct bls_radix2 as [R _]. destruct (R n d E) as (_ & L & _). exact (Nat.le_trans _ _ _ H L). Qed.
Lemma bls_is_some n : (Z.of_nat n <= 2 ^ 32)%Z -> exists d, bls_domain n = Some d.
Proof. intro H. destruct (bls_least n H) as (d & E & _). eauto. Qed.

Section P.
Variable PR : Pairing Fbls.
Theorem setup_bls n (tau : Fbls) (g gam : G1 PR) (h : G2 PR) : (exists srs, universal_setup Fbls PR bls_domain n tau g gam h = Ok srs) <-> (Z.of_nat n <= 2 ^ 32)%Z.
Proof.
  unfold universal_setup. split.
  - intros (srs & E). apply bls_sizes. intro N. rewrite N in E. discriminate E.
  - intro H. destruct (bls_is_some n H) as (d & ->). eauto.
Qed.
Lemma setup_is n (tau : Fbls) (g gam : G1 PR) (h : G2 PR) srs : universal_setup Fbls PR bls_domain n tau g gam h = Ok srs -> exists m, srs = kzg_setup Fbls PR m tau g gam h.
Proof. unfold universal_setup. destruct (bls_domain n) as [d|]; [|discriminate]. intro E. injection E as <-. eauto. Qed.
Theorem complete_bls (ro : fs Fbls PR) : outside ro -> forall n (tau : Fbls) (g gam : G1 PR) (h : G2 PR) srs checks circ u1 u2 (s1 s2 : cs Fbls) k ipk ivk co pf,
  universal_setup Fbls PR bls_domain n tau g gam h = Ok srs ->
  circ (cs_new Setup) = Ok (u1, s1) -> circ (cs_new Prove) = Ok (u2, s2) -> same_shape s1 s2 -> wf s1 -> wf s2 -> self_sat s2 -> (Z.of_nat (terms (cons s1)) < 2 ^ 64)%Z ->
  length (inps s2) = (2 ^ k)%nat -> (k <= 32)%nat ->
  c_w Fbls co <> 0 -> c_za Fbls co <> 0 -> c_zb Fbls co <> 0 -> (9 <= length (c_draw Fbls co))%nat ->
  marlin_index Fbls PR bls_domain checks srs circ = Ok (ipk, ivk) ->
  create_proof Fbls PR bls_domain ro ipk circ co = Ok pf ->
  verify_proof Fbls PR bls_domain ro ivk pf (tl (inps s2)) = Ok true.
Proof.
  intros O n tau g gam h srs checks circ u1 u2 s1 s2 k ipk ivk co pf ES E1 E2 Sh W1 W2 Sat B Lk Hk Cw Ca Cb Cd EI EP.
  destruct (setup_is _ _ _ _ _ _ ES) as (m & ->). destruct (bls_exact k Hk) as (d & Ed & Sd).
  eapply (marlin_complete Fbls PR bls_domain bls_radix2 ro (fun m d tr E => proj1 (O m d tr E)) (fun m d tr E => proj2 (O m d tr E))
    tau g gam h m checks circ u1 u2 s1 s2 d ipk ivk co pf); try assumption; rewrite Lk; assumption.
Qed.
Theorem forgery_bls (ro : fs Fbls PR) : outside ro -> forall n (tau : Fbls) (g gam : G1 PR) (h : G2 PR) srs checks circ u (s : cs Fbls) ipk ivk pub,
  universal_setup Fbls PR bls_domain n tau g gam h = Ok srs ->
  circ (cs_new Setup) = Ok (u, s) -> wf s -> (Z.of_nat (terms (cons s)) < 2 ^ 64)%Z ->
  marlin_index Fbls PR bls_domain checks srs circ = Ok (ipk, ivk) ->
  (2 <= i_nc (iv_info Fbls PR ivk))%nat -> (2 <= i_nnz (iv_info Fbls PR ivk))%nat -> (Z.of_nat (length pub) < 2 ^ 32)%Z ->
  exists pf, forge Fbls PR bls_domain ro (ip_ck Fbls PR ipk) (ip_ix Fbls PR ipk) ivk pub = Ok pf /\ verify_proof Fbls PR bls_domain ro ivk pf pub = Ok true.
Proof.
  intros O n tau g gam h srs checks circ u s ipk ivk pub ES E W B EI H1 H2 HP.
  destruct (setup_is _ _ _ _ _ _ ES) as (m & ->). destruct (bls_is_some (S (length pub))) as (dx & Ex); [rewrite Nat2Z.inj_succ; lia|].
  eapply (forge_accepted Fbls PR tau g gam h bls_domain bls_radix2 ro (fun m d tr E => proj1 (O m d tr E)) (fun m d tr E => proj2 (O m d tr E)) m checks circ u s ipk ivk pub dx); try assumption.
  - intros d. apply bls_two_points, H1.
  - intros d. apply bls_two_points, H2.
Qed.
Theorem mimc_bls (ro : fs Fbls PR) : outside ro -> forall n (tau : Fbls) (g gam : G1 PR) (h : G2 PR) srs checks (cts : list Fbls) ds ds' ipk ivk co pf,
  universal_setup Fbls PR bls_domain n tau g gam h = Ok srs ->
  length ds = length ds' -> (35 * Z.of_nat (length ds) < 2 ^ 64)%Z ->
  c_w Fbls co <> 0 -> c_za Fbls co <> 0 -> c_zb Fbls co <> 0 -> (9 <= length (c_draw Fbls co))%nat ->
  marlin_index Fbls PR bls_domain checks srs (mimc_main_circuit cts ds ds') = Ok (ipk, ivk) ->
  create_proof Fbls PR bls_domain ro ipk (mimc_main_circuit cts ds ds') co = Ok pf ->
  verify_proof Fbls PR bls_domain ro ivk pf [] = Ok true.
Proof.
  intros O n tau g gam h srs checks cts ds ds' ipk ivk co pf ES L B Cw Ca Cb Cd EI EP.
  destruct (setup_is _ _ _ _ _ _ ES) as (m & ->). destruct (bls_exact 0 (Nat.le_0_l _)) as (d & Ed & Sd). cbn [Nat.pow] in Ed, Sd.
  eapply (demo_accepted Fbls PR bls_domain bls_radix2 ro (fun m d tr E => proj1 (O m d tr E)) (fun m d tr E => proj2 (O m d tr E))
    tau g gam h m checks cts ds ds' d ipk ivk co pf); assumption.
Qed.
(** Such challenges exist: the generator of the coset. *)
Definition ro_shift : fs Fbls PR := mkFS Fbls PR (fun d _ => mkVM Fbls (dshift d) 1 1 1) (fun d _ => dshift d) (fun _ => 1) (fun _ => 1).
Lemma ro_shift_ok : outside ro_shift.
Proof.
  intros m d tr E. destruct bls_radix2 as [R _]. destruct (R m d E) as ((_ & _ & _ & _ & _ & N) & _). split; exact N.
Qed.
End P.
