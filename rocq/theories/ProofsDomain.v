(** Radix-2 domains are what the proof systems assume of domains. *)
From Coq Require Import ZArith List Lia Bool.
From Verif Require Import Field Zp Poly Bls ModelDomain SpecMarlin SpecGroth16.
From Coq Require Import List.
Import ListNotations.
Section D.
Variable K : Fld.
Local Open Scope fld_scope.
Add Field Kd : (f_laws K).
Lemma zero_mul_d (x : K) : 0 * x = 0. Proof. ring. Qed.
Lemma squares_pow n (x : K) : squares K n x = x ^ (2 ^ n).
Proof. revert x. induction n as [|n IH]; intro x; cbn [squares]; [cbn [Nat.pow fpow]; ring|]. rewrite IH. replace (x * x) with (x ^ 2) by (cbn [fpow]; ring). rewrite <- fpow_mul. f_equal. Qed.
(** An element of order 2^e. *)
Lemma order_pow2 e (x : K) k : x ^ (2 ^ S e) = 1 -> x ^ (2 ^ e) <> 1 -> (0 < k < 2 ^ S e)%nat -> x ^ k <> 1.
Proof.
  revert x k. induction e as [|e IH]; intros x k O N H E.
  - change (2 ^ 1)%nat with 2%nat in H. assert (k = 1)%nat by lia. subst k. apply N. exact E.
  - destruct (Nat.Even_or_Odd k) as [[j J]|[j J]].
    + apply (IH (x ^ 2) j).
      * rewrite <- fpow_mul. exact O.
      * rewrite <- fpow_mul. exact N.
      * subst k. cbn [Nat.pow] in H |- *. lia.
      * rewrite <- fpow_mul, <- J. exact E.
    + apply N. set (y := x ^ (2 ^ S e)) in *. assert (Y : y ^ 2 = 1). { unfold y. rewrite <- fpow_mul, Nat.mul_comm. exact O. }
      assert (Yk : y ^ k = 1). { unfold y. rewrite <- fpow_mul, Nat.mul_comm, fpow_mul, E. apply fpow_1. }
      rewrite J, fpow_add, fpow_mul, Y, fpow_1 in Yk. rewrite <- Yk. cbn [fpow]. ring.
Qed.
Lemma of_nat_pow2 e : of_nat (K := K) (2 ^ e) = (1 + 1) ^ e.
Proof. induction e as [|e IH]; [reflexivity|]. cbn [Nat.pow fpow]. rewrite <- IH. unfold of_nat. rewrite Nat2Z.inj_mul, of_Z_mul. reflexivity. Qed.
Variables (s : nat) (w g : K).
Lemma radix2_some n d : radix2_new K s w g n = Some d <-> (n <= 2 ^ s)%nat /\ d = mkDom (2 ^ Nat.log2_up n)%nat (squares K (s - Nat.log2_up n) w) g.
Proof.
  unfold radix2_new. destruct (Nat.leb_spec (Nat.log2_up n) s) as [L|L].
  - split; [intro E; assert (E' : d = mkDom (2 ^ Nat.log2_up n)%nat (squares K (s - Nat.log2_up n) w) g) by congruence; split; [|exact E']|intros (_ & ->); reflexivity].
    destruct (Nat.le_gt_cases n 1); [assert (0 < 2 ^ s)%nat by (apply Nat.neq_0_lt_0, Nat.pow_nonzero; lia); lia|]. apply Nat.log2_up_le_pow2; lia.
  - split; [discriminate|]. intros (H & _). exfalso. destruct (Nat.le_gt_cases n 1) as [A|A]; [rewrite Nat.log2_up_eqn0 in L by lia; lia|]. apply Nat.log2_up_le_pow2 in H; lia.
Qed.
Lemma size_fits n : (n <= 2 ^ Nat.log2_up n)%nat.
Proof. destruct (Nat.le_gt_cases n 1) as [A|A]; [rewrite Nat.log2_up_eqn0 by lia; cbn; lia|]. apply Nat.log2_up_le_pow2; lia. Qed.
Lemma size_least n e : (n <= 2 ^ e)%nat -> (2 ^ Nat.log2_up n <= 2 ^ e)%nat.
Proof. intro H. apply Nat.pow_le_mono_r; [lia|]. destruct (Nat.le_gt_cases n 1) as [A|A]; [rewrite Nat.log2_up_eqn0 by lia; lia|]. apply Nat.log2_up_le_pow2; lia. Qed.
Lemma log_small n : (n <= 2 ^ s)%nat -> (Nat.log2_up n <= s)%nat.
Proof. intro H. destruct (Nat.le_gt_cases n 1) as [A|A]; [rewrite Nat.log2_up_eqn0 by lia; lia|]. apply Nat.log2_up_le_pow2; lia. Qed.
Theorem radix2_new_exact n : (n <= 2 ^ s)%nat -> exists d, radix2_new K s w g n = Some d /\ (n <= dsize d)%nat /\ forall e, (n <= 2 ^ e)%nat -> (dsize d <= 2 ^ e)%nat.
Proof. intro H. eexists. split; [apply radix2_some; split; [exact H|reflexivity]|]. cbn [dsize]. split; [apply size_fits|apply size_least]. Qed.
Theorem radix2_new_none n : (2 ^ s < n)%nat -> radix2_new K s w g n = None.
Proof. intro H. destruct (radix2_new K s w g n) as [d|] eqn:E; [|reflexivity]. apply radix2_some in E. lia. Qed.
Hypothesis W1 : w ^ (2 ^ s) = 1.
Hypothesis W2 : s <> O -> w ^ (2 ^ (s - 1)) <> 1.
Hypothesis G0 : g <> 0.
Hypothesis G1 : g ^ (2 ^ s) <> 1.
Hypothesis Two : 1 + 1 <> (0 : K).
Lemma pow2_split e f : (e <= f)%nat -> (2 ^ f = 2 ^ e * 2 ^ (f - e))%nat.
Proof. intro H. rewrite <- Nat.pow_add_r. f_equal. lia. Qed.
Lemma gen_pow e : (e <= s)%nat -> squares K (s - e) w = w ^ (2 ^ (s - e)).
Proof. intro H. apply squares_pow. Qed.
Lemma dom_valid e : (e <= s)%nat -> valid_dom (mkDom (2 ^ e)%nat (squares K (s - e) w) g).
Proof.
  intro H. assert (Pos : (0 < 2 ^ e)%nat) by (apply Nat.neq_0_lt_0, Nat.pow_nonzero; lia).
  unfold valid_dom, dpts. cbn [dsize dgen dshift]. rewrite squares_pow. set (x := w ^ (2 ^ (s - e))).
  assert (X1 : x ^ (2 ^ e) = 1). { unfold x. rewrite <- fpow_mul, Nat.mul_comm, <- pow2_split by exact H. exact W1. }
  split; [exact Pos|]. split; [exact X1|]. split; [|split; [|split; [exact G0|]]].
  - assert (X0 : x <> 0). { intro E. rewrite E in X1. destruct (2 ^ e)%nat; [lia|]. cbn [fpow] in X1. apply (f_1_neq_0 K). rewrite <- X1. ring. }
    assert (N : forall k, (0 < k < 2 ^ e)%nat -> x ^ k <> 1).
    { destruct e as [|e]; [cbn; lia|]. intros k Hk. apply (order_pow2 e); [exact X1| |exact Hk]. unfold x. rewrite <- fpow_mul, Nat.mul_comm, <- Nat.pow_add_r. replace (e + (s - S e))%nat with (s - 1)%nat by lia. apply W2. lia. }
    assert (A : forall n k, (k + n <= 2 ^ e)%nat -> NoDup (map (fun i => x ^ i) (seq k n))); [|apply A; lia].
    induction n as [|n IH]; intros k Hk; cbn [seq map]; constructor; [|apply IH; lia].
    rewrite in_map_iff. intros (j & Ej & Ij). rewrite in_seq in Ij. apply (N (j - k)%nat); [lia|].
    apply (f_mul_cancel_l K (x ^ k)); [apply fpow_nz; exact X0|]. rewrite <- fpow_add. replace (k + (j - k))%nat with j by lia. rewrite Ej. ring.
  - rewrite of_nat_pow2. apply fpow_nz. exact Two.
  - intro E. apply G1. rewrite (pow2_split e s H), fpow_mul, E. apply fpow_1.
Qed.
Theorem radix2_new_ok : radix2 (radix2_new K s w g).
Proof.
  split.
  - intros n d H. apply radix2_some in H. destruct H as (H & ->). cbn [dsize]. split; [apply dom_valid, log_small, H|]. split; [apply size_fits|]. exists (Nat.log2_up n). reflexivity.
  - intros n m dn dm Hn Hm L. apply radix2_some in Hn, Hm. destruct Hn as (Hn & ->), Hm as (Hm & ->). cbn [dsize dgen].
    assert (Le : (Nat.log2_up n <= Nat.log2_up m)%nat) by (apply Nat.log2_up_le_mono, L). pose proof (log_small m Hm) as Lm.
    exists (2 ^ (Nat.log2_up m - Nat.log2_up n))%nat. split; [apply pow2_split, Le|]. rewrite !squares_pow, <- fpow_mul, <- Nat.pow_add_r. do 2 f_equal. lia.
Qed.
Theorem radix2_new_family : dom_family (radix2_new K s w g).
Proof. intros n d H. destruct (proj1 radix2_new_ok n d H) as (V & L & _). split; assumption. Qed.
End D.
(** ** The scalar field of BLS12-381 *)
Section B.
Local Open Scope fld_scope.
Local Opaque Nat.pow fpow.
Lemma by_feqb (x y : Fbls) : feqb x y = false -> x <> y.
Proof. apply feqb_neq. Qed.
Lemma bls_root_31 : feqb (squares Fbls 31 bls_root) (of_Z (-1)) = true.
Proof. vm_compute. reflexivity. Qed.
Lemma bls_root_1 : bls_root ^ (2 ^ 32) = 1.
Proof.
  rewrite <- (squares_pow Fbls 32). assert (E : squares Fbls 31 bls_root = of_Z (-1)) by (apply feqb_eq; exact bls_root_31).
  assert (A : forall n (x : Fbls), squares Fbls (S n) x = squares Fbls n x * squares Fbls n x).
  { induction n as [|n IH]; intro x; [reflexivity|]. change (squares Fbls (S (S n)) x) with (squares Fbls (S n) (x * x)). rewrite IH. reflexivity. }
  rewrite A, E, <- of_Z_mul. reflexivity.
Qed.
Lemma bls_root_2 : 32%nat <> O -> bls_root ^ (2 ^ (32 - 1)) <> 1.
Proof. intro H. change (32 - 1)%nat with 31%nat. rewrite <- (squares_pow Fbls 31). apply by_feqb. vm_compute. reflexivity. Qed.
Lemma bls_gen_0 : bls_generator <> 0. Proof. apply by_feqb. vm_compute. reflexivity. Qed.
Lemma bls_gen_1 : bls_generator ^ (2 ^ 32) <> 1.
Proof. rewrite <- (squares_pow Fbls 32). apply by_feqb. vm_compute. reflexivity. Qed.
Lemma bls_two : 1 + 1 <> (0 : Fbls). Proof. apply by_feqb. vm_compute. reflexivity. Qed.
Theorem bls_radix2 : radix2 bls_domain.
Proof. exact (radix2_new_ok Fbls 32 bls_root bls_generator bls_root_1 bls_root_2 bls_gen_0 bls_gen_1 bls_two). Qed.
Theorem bls_family : dom_family bls_domain.
Proof. exact (radix2_new_family Fbls 32 bls_root bls_generator bls_root_1 bls_root_2 bls_gen_0 bls_gen_1 bls_two). Qed.
Lemma pow32 n : (n <= 2 ^ 32)%nat <-> (Z.of_nat n <= 2 ^ 32)%Z.
Proof. change (2 ^ 32)%Z with (Z.of_nat 2 ^ Z.of_nat 32)%Z. rewrite <- Nat2Z.inj_pow. split; [apply inj_le|apply Nat2Z.inj_le]. Qed.
Theorem bls_sizes n : bls_domain n <> None <-> (Z.of_nat n <= 2 ^ 32)%Z.
Proof.
  rewrite <- pow32. split; intro H.
  - destruct (Nat.le_gt_cases n (2 ^ 32)) as [L|L]; [exact L|]. exfalso. apply H. exact (radix2_new_none Fbls 32 bls_root bls_generator n L).
  - destruct (radix2_new_exact Fbls 32 bls_root bls_generator n H) as (d & E & _). unfold bls_domain. rewrite E. discriminate.
Qed.
End B.
(** ** No domain of curve25519's field is one: the root of unity is zero *)
From Verif Require Import Lucas ModelCurve25519 ProofsCurve25519.
Section C.
Local Open Scope fld_scope.
Lemma zero_mul (K : Fld) (x : K) : 0 * x = 0.
Proof. exact (zero_mul_d K x). Qed.
Lemma squares_0 (K : Fld) n : squares K n 0 = 0.
Proof. induction n as [|n IH]; [reflexivity|]. cbn [squares]. rewrite zero_mul. exact IH. Qed.
Lemma zero_not_valid (K : Fld) n g : ~ valid_dom (mkDom n (0 : K) g).
Proof. intros (P & E & _). cbn [dsize dgen] in P, E. destruct n as [|n]; [lia|]. cbn [fpow] in E. apply (f_1_neq_0 K). rewrite <- E. apply zero_mul. Qed.
Theorem ed_invalid n d : ed_domain n = Some d -> dgen d = 0 /\ ~ valid_dom d.
Proof.
  intro H. apply radix2_some in H. destruct H as (_ & ->). rewrite root_0, squares_0. split; [reflexivity|apply zero_not_valid].
Qed.
Theorem ed_sizes n : ed_domain n <> None <-> (n <= 4)%nat.
Proof.
  split; intro H.
  - destruct (Nat.le_gt_cases n 4) as [L|L]; [exact L|]. exfalso. apply H. apply radix2_new_none. exact L.
  - destruct (radix2_new_exact F25519 (Z.to_nat TWO_ADICITY) (from_raw TWO_ADIC_ROOT_OF_UNITY) (from_raw GENERATOR) n H) as (d & E & _). unfold ed_domain. rewrite E. discriminate.
Qed.
End C.
