(** Pocklington's criterion with several primes, and the order of BLS12-381's groups. *)
From Coq Require Import ZArith Znumtheory Zpow_facts List Lia Bool.
From Verif Require Import Field Zp Gold Lucas.
Import ListNotations.
Local Open Scope Z_scope.
Section Order.
Variables (p b F : Z) (qs : list Z).
Hypothesis P : 1 < p.
Hypothesis F0 : 0 < F.
Hypothesis Qs : Forall prime qs.
Hypothesis Prod : fold_right Z.mul 1 qs = F.
Hypothesis One : b ^ F mod p = 1.
Hypothesis Not : forall q, In q qs -> b ^ (F / q) mod p <> 1.
Lemma one_mul k a : 0 <= k -> 0 <= a -> b ^ k mod p = 1 -> b ^ (k * a) mod p = 1.
Proof. intros Hk Ha E. rewrite Z.pow_mul_r, Zpower_mod, E, Z.pow_1_l by lia. apply Z.mod_1_l; lia. Qed.
Lemma below_not_one k : 0 < k < F -> b ^ k mod p <> 1.
Proof.
  intros Hk E. set (e := Z.gcd k F).
  assert (0 < e) as He. { assert (e <> 0) by (unfold e; rewrite Z.gcd_eq_0; lia). pose proof (Z.gcd_nonneg k F). unfold e in *. lia. }
  assert ((e | k)) as Dk by apply Z.gcd_divide_l. assert ((e | F)) as DF by apply Z.gcd_divide_r. assert (e <= k) as Hek by (apply Z.divide_pos_le; [lia|exact Dk]).
  assert (b ^ e mod p = 1) as Ge.
  { destruct (Z.gcd_bezout k F e eq_refl) as (u & v & Huv). set (t := Z.abs u + Z.abs v).
    assert ((u + t * F) * k = e + (t * k - v) * F) as B by nia. assert (0 <= u + t * F) as B1 by nia. assert (0 <= t * k - v) as B2 by nia.
    assert (b ^ (k * (u + t * F)) mod p = 1) as E1 by (apply one_mul; lia).
    rewrite (Z.mul_comm k), B, Z.pow_add_r in E1 by nia. rewrite Zmult_mod, (Z.mul_comm (t * k - v)), (one_mul F (t * k - v)) in E1 by (lia || exact One).
    rewrite Z.mul_1_r, Z.mod_mod in E1 by lia. exact E1. }
  destruct DF as [m Hm]. assert (1 < m) as Hm1 by nia. destruct (prime_divisor_exists m Hm1) as (q & Q & [r Hr]).
  assert (In q qs) as Iq. { apply prime_in_product; [exact Qs|exact Q|]. rewrite Prod. exists (r * e). nia. }
  apply (Not q Iq). destruct Q as [Q _]. replace (F / q) with (e * r); [apply one_mul; [lia|nia|exact Ge]|]. apply Z.div_unique_exact; nia.
Qed.
Lemma powers_distinct i j : 0 <= i -> i < j -> j < F -> b ^ i mod p <> b ^ j mod p.
Proof.
  intros I IJ JF E. apply (below_not_one (j - i)); [lia|].
  assert (A : b ^ (i + (F - i)) mod p = b ^ (j + (F - i)) mod p). { rewrite !Z.pow_add_r by lia. rewrite Zmult_mod, E, <- Zmult_mod. reflexivity. }
  replace (i + (F - i)) with F in A by lia. replace (j + (F - i)) with ((j - i) + F) in A by lia. rewrite One, Z.pow_add_r, Zmult_mod, One, Z.mul_1_r, Z.mod_mod in A by lia. symmetry. exact A.
Qed.
Lemma F_below : F < p.
Proof.
  set (L := map (fun i => b ^ Z.of_nat i mod p) (seq 0 (Z.to_nat F))). set (T := map Z.of_nat (seq 1 (Z.to_nat (p - 1)))).
  assert (NoDup L) as ND.
  { unfold L. assert (forall n k, (k + n <= Z.to_nat F)%nat -> NoDup (map (fun i => b ^ Z.of_nat i mod p) (seq k n))) as A; [|apply A; lia].
    induction n as [|n IH]; intros k Hk; cbn [seq map]; constructor.
    - rewrite in_map_iff. intros (j & Ej & Ij). rewrite in_seq in Ij. symmetry in Ej. revert Ej. apply powers_distinct; lia.
    - apply IH. lia. }
  assert (incl L T) as IL.
  { intros y Iy. unfold L in Iy. apply in_map_iff in Iy. destruct Iy as (i & <- & Ii). rewrite in_seq in Ii.
    assert (0 <= b ^ Z.of_nat i mod p < p) as B by (apply Z.mod_pos_bound; lia).
    assert (b ^ Z.of_nat i mod p <> 0) as B0.
    { intro Z0. assert (A : b ^ (Z.of_nat i + (F - Z.of_nat i)) mod p = 0) by (rewrite Z.pow_add_r, Zmult_mod, Z0 by lia; apply Z.mod_0_l; lia).
      replace (Z.of_nat i + (F - Z.of_nat i)) with F in A by lia. lia. }
    unfold T. apply in_map_iff. exists (Z.to_nat (b ^ Z.of_nat i mod p)). split; [lia|]. rewrite in_seq. lia. }
  pose proof (NoDup_incl_length ND IL) as Len. unfold L, T in Len. rewrite !map_length, !seq_length in Len. lia.
Qed.
End Order.
(** [qs] are prime factors (with multiplicity) of n - 1 whose product F is larger than the square root of n; n - 1 = F * m, F = rad * s, every q
    divides rad, and the witness is a. *)
Definition pocklington_many (n a rad s m : Z) (qs : list Z) : bool :=
  let F := fold_right Z.mul 1 qs in
  (1 <? n) && (0 <? rad) && (0 <? s) && (0 <? m) && (n <? F * F) && (F * m =? n - 1) && (rad * s =? F) &&
  let d := powmod a (m * s) n in (powmod d rad n =? 1) && forallb (fun q => (0 <? q) && (rad / q * q =? rad) && (Z.gcd (powmod d (rad / q) n - 1) n =? 1)) (nodup Z.eq_dec qs).
Lemma mod_of_mod x n p : 0 < p -> 0 < n -> (p | n) -> (x mod n) mod p = x mod p.
Proof. intros Hp Hn [k Hk]. pose proof (Z.div_mod x n ltac:(lia)) as E. rewrite E at 2. rewrite Hk at 2. replace (k * p * (x / n) + x mod n) with (x mod n + (k * (x / n)) * p) by ring. rewrite Z.mod_add by lia. reflexivity. Qed.
Lemma pocklington_many_ok n a rad s m qs : pocklington_many n a rad s m qs = true -> Forall prime qs -> prime n.
Proof.
  unfold pocklington_many. rewrite !andb_true_iff, !Z.ltb_lt, !Z.eqb_eq, forallb_forall. intros (((((((N & R) & S0) & M) & Sq) & FM) & RS) & (D1 & D2)) Q.
  set (F := fold_right Z.mul 1 qs) in *. set (d := powmod a (m * s) n) in *. assert (F0 : 0 < F) by nia.
  apply prime_alt. split; [exact N|]. intros x Hx Dx.
  assert (exists e, 1 < e /\ e * e <= n /\ (e | n)) as (e & He & Hs & De).
  { destruct Dx as [y Hy]. destruct (Z_le_gt_dec x y); [exists x|exists y]; repeat split; try nia; [exists y; lia|exists x; lia]. }
  destruct (prime_divisor_exists e He) as (p & Pp & Dp). assert (p <= e) by (apply Z.divide_pos_le; [lia|exact Dp]). assert (1 < p) as P1 by (destruct Pp; lia).
  assert (Dn : (p | n)) by (eapply Z.divide_trans; eassumption). assert (F < p); [|nia].
  assert (Pw : forall k, 0 <= k -> (powmod d k n) mod p = (a ^ m) ^ (s * k) mod p).
  { intros k Hk. rewrite powmod_ok by lia. rewrite mod_of_mod by (lia || exact Dn). rewrite Zpower_mod by lia. unfold d. rewrite powmod_ok by nia. rewrite mod_of_mod by (lia || exact Dn). rewrite <- Zpower_mod by lia. f_equal. rewrite <- !Z.pow_mul_r by nia. f_equal. ring. }
  apply (F_below p (a ^ m) F qs P1 F0 Q eq_refl).
  - rewrite <- RS, (Z.mul_comm rad), <- Pw by lia. rewrite D1. apply Z.mod_1_l. lia.
  - intros q I. specialize (D2 q (proj2 (nodup_In Z.eq_dec qs q) I)). rewrite !andb_true_iff, Z.ltb_lt, !Z.eqb_eq in D2. destruct D2 as ((Q0 & Dq) & Gq).
    replace (F / q) with (s * (rad / q)).
    + rewrite <- Pw by (apply Z.div_pos; lia). intro E. assert (p | powmod d (rad / q) n - 1) as Fd. { apply Z.mod_divide; [lia|]. rewrite Zminus_mod, E, (Z.mod_1_l p P1). reflexivity. }
      pose proof (Z.gcd_greatest _ _ _ Fd Dn) as Gd. rewrite Gq in Gd. apply Z.divide_1_r_nonneg in Gd; lia.
    + apply Z.div_unique_exact; [lia|]. rewrite <- RS. nia.
Qed.
(** Certificates. *)
Lemma p_906349 : prime 906349. Proof. apply trial_prime. vm_compute. reflexivity. Qed.
Lemma p_2653753 : prime 2653753. Proof. apply trial_prime. vm_compute. reflexivity. Qed.
Lemma p_63690073 : prime 63690073. Proof. apply (pocklington_ok 63690073 2653753 24 2); [vm_compute; reflexivity|exact p_2653753]. Qed.
Lemma p_254760293 : prime 254760293. Proof. apply (pocklington_ok 254760293 63690073 4 2); [vm_compute; reflexivity|exact p_63690073]. Qed.
(** The order of the groups of BLS12-381 (ark_bls12_381 `FrParameters::MODULUS`), the field of the circuits in cli and ckb-contracts. *)
Definition bls_r : Z := 52435875175126190479447740508185965837690552500527637822603658699938581184513.
Lemma bls_cert : pocklington_many bls_r 7 461803473600514 495857704073351749697536 228988810152649578064853576960394133503 (repeat 2 32 ++ [906349; 906349; 254760293; 254760293]) = true.
Proof. vm_compute. reflexivity. Qed.
Lemma bls_r_prime : prime bls_r.
Proof.
  apply (pocklington_many_ok _ _ _ _ _ _ bls_cert). apply Forall_app. split; [apply Forall_forall; intros x I; apply repeat_spec in I; subst x; exact prime_2|].
  repeat apply Forall_cons; [exact p_906349|exact p_906349|exact p_254760293|exact p_254760293|apply Forall_nil].
Qed.
Definition Fbls : PFld := ZpP bls_r bls_r_prime.
