(** Primality certificates: the criteria of Lucas and Pocklington as computable checks, and the order of curve25519's group. *)
From Coq Require Import ZArith Znumtheory Zpow_facts List Lia Bool.
From Verif Require Import Field Zp Gold.
Import ListNotations.
Local Open Scope Z_scope.
Definition lucas (n g : Z) (qs : list Z) : bool :=
  (1 <? n) && (fold_right Z.mul 1 qs =? n - 1) && (powmod g (n - 1) n =? 1) && forallb (fun q => (0 <? q) && negb (powmod g ((n - 1) / q) n =? 1)) (nodup Z.eq_dec qs).
Lemma lucas_ok n g qs : lucas n g qs = true -> Forall prime qs -> prime n.
Proof.
  unfold lucas. rewrite !andb_true_iff, Z.ltb_lt, !Z.eqb_eq, forallb_forall. intros (((N & P) & F) & Q) H.
  apply (lucas_prime n g qs N H P).
  - rewrite <- powmod_ok by lia. exact F.
  - intros q I. specialize (Q q (proj2 (nodup_In Z.eq_dec qs q) I)). apply andb_true_iff in Q. destruct Q as [Q0 Q]. apply Z.ltb_lt in Q0. apply negb_true_iff, Z.eqb_neq in Q.
    rewrite powmod_ok in Q; [exact Q|lia|apply Z.div_pos; lia].
Qed.

Section Order.
Variables (p b q : Z).
Hypothesis P : 1 < p.
Hypothesis Q : prime q.
Hypothesis One : b ^ q mod p = 1.
Hypothesis Not : b mod p <> 1.
Lemma pow_not_one k : 0 < k < q -> b ^ k mod p <> 1.
Proof.
  intros Hk E. destruct Q as [Q1 Qr]. specialize (Qr k ltac:(lia)). destruct (rel_prime_bezout k q Qr) as [u v B].
  set (u' := u mod q). assert (U : 0 <= u' < q) by (apply Z.mod_pos_bound; lia).
  assert (exists t, u' * k = 1 + t * q) as [t T]. { exists (- v - (u / q) * k). unfold u'. pose proof (Z.div_mod u q ltac:(lia)). nia. }
  assert (0 <= t) by nia.
  assert (L : b ^ (u' * k) mod p = 1). { rewrite Z.mul_comm, Z.pow_mul_r by lia. rewrite Zpower_mod, E, Z.pow_1_l by lia. apply Z.mod_1_l; lia. }
  rewrite T, Z.pow_add_r, Z.pow_1_r, (Z.mul_comm t q), Z.pow_mul_r in L by nia.
  rewrite Zmult_mod, (Zpower_mod _ t p), One, Z.pow_1_l, (Z.mod_1_l p P), Z.mul_1_r, Z.mod_mod in L by lia. contradiction.
Qed.
Lemma pow_distinct i j : 0 <= i -> i < j -> j < q -> b ^ i mod p <> b ^ j mod p.
Proof.
  intros I IJ JQ E. apply (pow_not_one (j - i)); [lia|].
  assert (A : b ^ (i + (q - i)) mod p = b ^ (j + (q - i)) mod p). { rewrite !Z.pow_add_r by lia. rewrite Zmult_mod, E, <- Zmult_mod. reflexivity. }
  replace (i + (q - i)) with q in A by lia. replace (j + (q - i)) with ((j - i) + q) in A by lia. rewrite One, Z.pow_add_r, Zmult_mod, One, Z.mul_1_r, Z.mod_mod in A by lia. symmetry. exact A.
Qed.
Lemma order_below : q < p.
Proof.
  destruct Q as [Q1 _].
  set (L := map (fun i => b ^ Z.of_nat i mod p) (seq 0 (Z.to_nat q))). set (T := map Z.of_nat (seq 1 (Z.to_nat (p - 1)))).
  assert (NoDup L) as ND.
  { unfold L. assert (forall n k, (k + n <= Z.to_nat q)%nat -> NoDup (map (fun i => b ^ Z.of_nat i mod p) (seq k n))) as A; [|apply A; lia].
    induction n as [|n IH]; intros k Hk; cbn [seq map]; constructor.
    - rewrite in_map_iff. intros (j & Ej & Ij). rewrite in_seq in Ij. symmetry in Ej. revert Ej. apply pow_distinct; lia.
    - apply IH. lia. }
  assert (incl L T) as IL.
  { intros y Iy. unfold L in Iy. apply in_map_iff in Iy. destruct Iy as (i & <- & Ii). rewrite in_seq in Ii.
    assert (0 <= b ^ Z.of_nat i mod p < p) as B by (apply Z.mod_pos_bound; lia).
    assert (b ^ Z.of_nat i mod p <> 0) as B0.
    { intro Z0. assert (A : b ^ (Z.of_nat i + (q - Z.of_nat i)) mod p = 0) by (rewrite Z.pow_add_r, Zmult_mod, Z0 by lia; apply Z.mod_0_l; lia).
      replace (Z.of_nat i + (q - Z.of_nat i)) with q in A by lia. lia. }
    unfold T. apply in_map_iff. exists (Z.to_nat (b ^ Z.of_nat i mod p)). split; [lia|]. rewrite in_seq. lia. }
  pose proof (NoDup_incl_length ND IL) as Len. unfold L, T in Len. rewrite !map_length, !seq_length in Len. lia.
Qed.
End Order.
(** [q] is a prime factor of n - 1 = q * m larger than the square root of n. *)
Definition pocklington (n q m a : Z) : bool :=
  (1 <? n) && (n <? q * q) && (q * m =? n - 1) && (0 <? a) && let c := powmod a m n in (powmod c q n =? 1) && (Z.gcd (c - 1) n =? 1).
Lemma pocklington_ok n q m a : pocklington n q m a = true -> prime q -> prime n.
Proof.
  unfold pocklington. rewrite !andb_true_iff, !Z.ltb_lt, !Z.eqb_eq. intros ((((N & S) & M) & A) & (C1 & C2)) Q. set (c := powmod a m n) in *.
  assert (0 < q) as Q0 by (destruct Q; lia). rewrite powmod_ok in C1 by lia.
  apply prime_alt. split; [exact N|]. intros d Hd D.
  assert (exists e, 1 < e /\ e * e <= n /\ (e | n)) as (e & He & Hs & De).
  { destruct D as [x Hx]. destruct (Z_le_gt_dec d x); [exists d|exists x]; repeat split; try nia; [exists x; lia|exists d; lia]. }
  destruct (prime_divisor_exists e He) as (p & Pp & Dp). assert (p <= e) by (apply Z.divide_pos_le; [lia|exact Dp]). assert (1 < p) as P1 by (destruct Pp; lia).
  assert (Dn : (p | n)) by (eapply Z.divide_trans; eassumption).
  assert (q < p); [|nia].
  apply (order_below p c q P1 Q).
  - destruct Dn as [x Hx]. pose proof (Z.div_mod (c ^ q) n ltac:(lia)) as E. rewrite C1 in E. rewrite E, Hx. replace (x * p * (c ^ q / (x * p)) + 1) with (1 + (x * (c ^ q / (x * p))) * p) by ring.
    rewrite Z.mod_add by lia. apply Z.mod_1_l. lia.
  - intro E. assert (p | c - 1) as F. { apply Z.mod_divide; [lia|]. rewrite Zminus_mod, E, (Z.mod_1_l p P1). reflexivity. }
    pose proof (Z.gcd_greatest _ _ _ F Dn) as Gd. rewrite C2 in Gd. apply Z.divide_1_r_nonneg in Gd; lia.
Qed.
(** Certificates. *)
Lemma p_1224481 : prime 1224481. Proof. apply trial_prime. vm_compute. reflexivity. Qed.
Lemma p_531581 : prime 531581. Proof. apply trial_prime. vm_compute. reflexivity. Qed.
Lemma p_0 : prime 1257559732178653.
Proof. apply (lucas_ok 1257559732178653 2 [2; 2; 3; 7; 23; 531581; 1224481]); [vm_compute; reflexivity|]. repeat apply Forall_cons; [apply trial_prime; vm_compute; reflexivity|apply trial_prime; vm_compute; reflexivity|apply trial_prime; vm_compute; reflexivity|apply trial_prime; vm_compute; reflexivity|apply trial_prime; vm_compute; reflexivity|exact p_531581|exact p_1224481|apply Forall_nil]. Qed.
Lemma p_1 : prime 4434155615661930479.
Proof. apply (pocklington_ok 4434155615661930479 1257559732178653 3526 2); [vm_compute; reflexivity|exact p_0]. Qed.
Lemma p_2 : prime 172054593956031949258510691.
Proof. apply (pocklington_ok 172054593956031949258510691 4434155615661930479 38802110 2); [vm_compute; reflexivity|exact p_1]. Qed.
Lemma p_3 : prime 19757330305831588566944191468367130476339.
Proof. apply (pocklington_ok 19757330305831588566944191468367130476339 172054593956031949258510691 114831751082918 2); [vm_compute; reflexivity|exact p_2]. Qed.
Lemma p_4 : prime 276602624281642239937218680557139826668747.
Proof. apply (pocklington_ok 276602624281642239937218680557139826668747 19757330305831588566944191468367130476339 14 2); [vm_compute; reflexivity|exact p_3]. Qed.
Lemma p_5 : prime 7237005577332262213973186563042994240857116359379907606001950938285454250989.
Proof. apply (pocklington_ok 7237005577332262213973186563042994240857116359379907606001950938285454250989 276602624281642239937218680557139826668747 26163907866482859529727157400808004 2); [vm_compute; reflexivity|exact p_4]. Qed.
(** curve25519/src/fr.rs:28-31: r. *)
Definition l25519 : Z := 7237005577332262213973186563042994240857116359379907606001950938285454250989.
Lemma l25519_prime : prime l25519. Proof. exact p_5. Qed.
