(** The exponent `INVALPH` of the Rescue code. *)
From Verif Require Import Field ModelLC ModelSponge SpecSponge ProofsSponge ModelDemo ProofsDemo ProofsCurve25519 Bls ModelDomain ProofsDomain.
Local Open Scope fld_scope.
Section G.
Variable K : PFld.
Add Field Kf : (f_laws K).
Lemma inv_limbs : Forall (fun d => 0 <= d < 2 ^ 64)%Z INVALPH.
Proof. repeat constructor; cbn; lia. Qed.
Lemma five_limbs : Forall (fun d => 0 <= d < 2 ^ 64)%Z [5%Z].
Proof. repeat constructor; cbn; lia. Qed.
Lemma five_then (x : K) (l : list Z) : Forall (fun d => 0 <= d < 2 ^ 64)%Z l -> (0 <= limbs_val l)%Z ->
  pow_bits (pow_bits x (bits_be [5%Z])) (bits_be l) = x ^ Z.to_nat (5 * limbs_val l).
Proof.
  intros H P. rewrite (pow_limbs K x [5%Z] five_limbs), (pow_limbs K _ l H). change (limbs_val [5%Z]) with 5%Z. rewrite <- (zpow_mul K); [reflexivity|lia|exact P].
Qed.
Lemma power_back (x : K) (e k : Z) : (0 <= k)%Z -> (e = 1 + (pmod K - 1) * k)%Z -> x ^ Z.to_nat e = x.
Proof.
  intros Hk ->. pose proof (pmod_big K) as B. rewrite (zpow_add K) by nia. change (Z.to_nat 1) with 1%nat. rewrite (zpow_mul K) by lia.
  destruct (feq_dec K x 0) as [-> | N]; [cbn [fpow]; ring|]. rewrite (fermat K x N), fpow_1. cbn [fpow]. ring.
Qed.
Lemma power_away (w : K) (n : nat) (o e : Z) : w <> 0 -> w ^ (2 ^ S n) <> 1 -> w ^ (2 ^ S (S n)) = 1 -> (0 <= o)%Z -> (e = 1 + 2 ^ Z.of_nat n * (2 * o + 1))%Z -> w ^ Z.to_nat e <> w.
Proof.
  intros W0 A B Ho ->. replace (Z.to_nat (1 + 2 ^ Z.of_nat n * (2 * o + 1))) with (S (2 ^ n * (2 * Z.to_nat o + 1))).
  - apply (not_inverse K w (w ^ (2 ^ S n))); [exact W0|rewrite Nat.pow_succ_r'; reflexivity| |exact A].
    rewrite <- fpow_add. replace (2 ^ S n + 2 ^ S n)%nat with (2 ^ S (S n))%nat by (rewrite (Nat.pow_succ_r' 2 (S n)); lia). exact B.
  - assert (P : (0 < 2 ^ Z.of_nat n)%Z) by (apply Z.pow_pos_nonneg; lia).
    apply Nat2Z.inj. rewrite Z2Nat.id by nia. rewrite Nat2Z.inj_succ, Nat2Z.inj_mul, Nat2Z.inj_pow, Nat2Z.inj_add, Nat2Z.inj_mul, Z2Nat.id by exact Ho. change (Z.of_nat 2) with 2%Z. change (Z.of_nat 1) with 1%Z. lia.
Qed.
Lemma inv_pos : (0 <= limbs_val INVALPH)%Z. Proof. vm_compute. discriminate. Qed.
Theorem inverse_bn (x : K) : pmod K = bn_r -> pow_bits (pow_bits x (bits_be [5%Z])) (bits_be INVALPH) = x.
Proof.
  intro E. rewrite five_then; [|exact inv_limbs|exact inv_pos]. apply (power_back x _ 4); [lia|]. rewrite E. vm_compute. reflexivity.
Qed.
Lemma inverse_away (w : K) : w <> 0 -> w ^ (2 ^ 31) <> 1 -> w ^ (2 ^ 32) = 1 -> pow_bits (pow_bits w (bits_be [5%Z])) (bits_be INVALPH) <> w.
Proof.
  intros W0 A B. rewrite five_then; [|exact inv_limbs|exact inv_pos].
  apply (power_away w 30 ((5 * limbs_val INVALPH - 1) / 2 ^ 31)); [exact W0|exact A|exact B|vm_compute; discriminate|vm_compute; reflexivity].
Qed.
End G.
Lemma bls_root_nz : bls_root <> 0.
Proof. apply by_feqb. vm_compute. reflexivity. Qed.
Lemma inverse_refuted : exists x : Fbls, pow_bits (pow_bits x (bits_be [5%Z])) (bits_be INVALPH) <> x.
Proof.
  exists bls_root. apply inverse_away; [exact bls_root_nz| |exact bls_root_1]. apply (bls_root_2). discriminate.
Qed.
