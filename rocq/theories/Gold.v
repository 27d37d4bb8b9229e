(** Lucas primality criterion and the prime 2^64 - 2^32 + 1, giving a concrete
    64-bit prime field with 2-adicity 32 in which the examples live. *)
From Verif Require Import Field Zp.
Local Open Scope Z_scope.

Fixpoint powmod_pos (a : Z) (e : positive) (m : Z) : Z :=
  match e with
  | xH => a mod m
  | xO f => let y := powmod_pos a f m in (y * y) mod m
  | xI f => let y := powmod_pos a f m in (((y * y) mod m) * a) mod m
  end.
Definition powmod (a e m : Z) : Z :=
  match e with Zpos q => powmod_pos a q m | _ => 1 mod m end.

Lemma powmod_pos_ok a e m : m <> 0 -> powmod_pos a e m = a ^ Zpos e mod m.
Proof.
  intro Hm. induction e as [e IH|e IH|]; cbn [powmod_pos].
  - rewrite IH. replace (Zpos e~1) with (Zpos e + Zpos e + 1) by lia.
    rewrite !Z.pow_add_r, Z.pow_1_r by lia.
    rewrite <- Zmult_mod, Zmult_mod_idemp_l. reflexivity.
  - rewrite IH. replace (Zpos e~0) with (Zpos e + Zpos e) by lia.
    rewrite Z.pow_add_r by lia. rewrite <- Zmult_mod. reflexivity.
  - rewrite Z.pow_1_r. reflexivity.
Qed.
Lemma powmod_ok a e m : m <> 0 -> 0 <= e -> powmod a e m = a ^ e mod m.
Proof.
  intros Hm He. destruct e as [|e|e]; cbn [powmod]; [reflexivity| |lia].
  apply powmod_pos_ok; exact Hm.
Qed.

Lemma prime_divisor_exists n : 1 < n -> exists q, prime q /\ (q | n).
Proof.
  intro H. assert (0 <= n) as Hn by lia. revert H. pattern n.
  apply Zlt_0_ind; [|exact Hn]. clear n Hn. intros n IH _ H.
  destruct (prime_dec n) as [P|P].
  - exists n. split; [exact P|apply Z.divide_refl].
  - destruct (not_prime_divide n H P) as (d & Hd & D).
    destruct (IH d) as (q & Q & Dq); [lia|lia|].
    exists q. split; [exact Q|]. eapply Z.divide_trans; eassumption.
Qed.

Lemma prime_in_product l q : Forall prime l -> prime q -> (q | fold_right Z.mul 1 l) -> In q l.
Proof.
  intros Hl Hq. induction Hl as [|x l Hx Hl IH]; cbn; intro D.
  - apply Z.divide_1_r_nonneg in D; [|destruct Hq; lia]. destruct Hq; lia.
  - destruct (prime_mult q Hq _ _ D) as [E|E].
    + left. symmetry. apply prime_div_prime; assumption.
    + right. auto.
Qed.

Section Lucas.
Variables (N g : Z) (qs : list Z).
Hypothesis HN : 1 < N.
Hypothesis Hqs : Forall prime qs.
Hypothesis Hprod : fold_right Z.mul 1 qs = N - 1.
Hypothesis Hg : g ^ (N - 1) mod N = 1.
Hypothesis Hq : forall q, In q qs -> g ^ ((N - 1) / q) mod N <> 1.

Lemma pow_mod_mul a k : 0 <= k -> 0 <= a -> g ^ k mod N = 1 -> g ^ (k * a) mod N = 1.
Proof.
  intros Hk Ha H. rewrite Z.pow_mul_r by lia.
  rewrite <- (powmod_ok _ a N) by lia. rewrite (powmod_ok (g ^ k) a N) by lia.
  replace a with (Z.of_nat (Z.to_nat a)) by lia.
  induction (Z.to_nat a) as [|n IH].
  - cbn. apply Z.mod_1_l; lia.
  - rewrite Nat2Z.inj_succ, Z.pow_succ_r by lia.
    rewrite Zmult_mod, H, IH. rewrite Z.mul_1_l. apply Z.mod_1_l; lia.
Qed.

Lemma lucas_order k : 0 < k < N - 1 -> g ^ k mod N <> 1.
Proof.
  intros Hk H.
  set (e := Z.gcd k (N - 1)).
  assert (0 < e) as He.
  { assert (e <> 0) by (unfold e; rewrite Z.gcd_eq_0; lia).
    pose proof (Z.gcd_nonneg k (N - 1)). unfold e in *. lia. }
  assert ((e | k)) as Dk by apply Z.gcd_divide_l.
  assert ((e | N - 1)) as DN by apply Z.gcd_divide_r.
  assert (e <= k) as Hek by (apply Z.divide_pos_le; [lia|exact Dk]).
  (* g^e = 1 *)
  assert (g ^ e mod N = 1) as Ge.
  { destruct (Z.gcd_bezout k (N - 1) e eq_refl) as (u & v & Huv).
    (* pick non-negative multipliers: (u + t (N-1)) k = e + (t k - v)(N-1) *)
    set (t := Z.abs u + Z.abs v).
    assert ((u + t * (N - 1)) * k = e + (t * k - v) * (N - 1)) as B by nia.
    assert (0 <= u + t * (N - 1)) as B1 by nia.
    assert (0 <= t * k - v) as B2 by nia.
    assert (g ^ (k * (u + t * (N - 1))) mod N = 1) as E1 by (apply pow_mod_mul; lia).
    rewrite (Z.mul_comm k), B, Z.pow_add_r in E1 by nia.
    rewrite Zmult_mod in E1.
    rewrite (Z.mul_comm (t * k - v)), (pow_mod_mul (t * k - v) (N - 1)) in E1 by (lia || exact Hg).
    rewrite Z.mul_1_r, Z.mod_mod in E1 by lia. exact E1. }
  destruct DN as [m Hm].
  assert (1 < m) as Hm1 by nia.
  destruct (prime_divisor_exists m Hm1) as (q & Q & [r Hr]).
  assert (In q qs) as Iq.
  { apply prime_in_product; [exact Hqs|exact Q|]. rewrite Hprod. exists (r * e). nia. }
  apply (Hq q Iq). destruct Q as [Q _].
  replace ((N - 1) / q) with (e * r).
  - apply pow_mod_mul; [lia|nia|exact Ge].
  - apply Z.div_unique_exact; nia.
Qed.

Lemma g_coprime : rel_prime g N.
Proof.
  apply Zgcd_1_rel_prime. apply Z.bezout_1_gcd.
  assert (g ^ (N - 1) = g * g ^ (N - 2)) as E.
  { rewrite <- Z.pow_succ_r by lia. f_equal. lia. }
  exists (g ^ (N - 2)), (- (g ^ (N - 1) / N)).
  pose proof (Z.div_mod (g ^ (N - 1)) N ltac:(lia)) as D. rewrite Hg in D. nia.
Qed.

Lemma g_pow_coprime i : 0 <= i -> rel_prime N (g ^ i).
Proof.
  intro Hi. pose proof g_coprime as G.
  replace i with (Z.of_nat (Z.to_nat i)) by lia.
  induction (Z.to_nat i) as [|n IH].
  - cbn. apply rel_prime_sym, rel_prime_1.
  - rewrite Nat2Z.inj_succ, Z.pow_succ_r by lia.
    apply rel_prime_mult; [apply rel_prime_sym; exact G|exact IH].
Qed.

Lemma lucas_pow_inj i j : 0 <= i -> i < j -> j < N - 1 -> g ^ i mod N <> g ^ j mod N.
Proof.
  intros Hi Hij Hj E.
  apply (lucas_order (j - i)); [lia|].
  assert ((N | g ^ i * (g ^ (j - i) - 1))) as D.
  { rewrite Z.mul_sub_distr_l, <- Z.pow_add_r, Z.mul_1_r by lia.
    replace (i + (j - i)) with j by lia.
    apply Z.mod_divide; [lia|]. rewrite Zminus_mod, E, Z.sub_diag. apply Z.mod_0_l; lia. }
  apply Gauss in D.
  - destruct D as [c Hc]. replace (g ^ (j - i)) with (1 + c * N) by lia.
    rewrite Z.mod_add by lia. apply Z.mod_1_l; lia.
  - apply g_pow_coprime. exact Hi.
Qed.

Theorem lucas_prime : prime N.
Proof.
  apply prime_intro; [exact HN|]. intros x Hx.
  set (L := map (fun i => g ^ Z.of_nat i mod N) (seq 0 (Z.to_nat (N - 1)))).
  set (T := map Z.of_nat (seq 1 (Z.to_nat (N - 1)))).
  assert (NoDup L) as ND.
  { unfold L.
    assert (forall n k, (k + n <= Z.to_nat (N - 1))%nat ->
            NoDup (map (fun i => g ^ Z.of_nat i mod N) (seq k n))) as A.
    { induction n as [|n IH]; intros k Hk; cbn; constructor.
      - rewrite in_map_iff. intros (j & Ej & Ij). rewrite in_seq in Ij.
        symmetry in Ej. revert Ej. apply lucas_pow_inj; lia.
      - apply IH. lia. }
    apply A. lia. }
  assert (incl L T) as IL.
  { intros y Iy. unfold L in Iy. apply in_map_iff in Iy. destruct Iy as (i & <- & Ii).
    assert (0 <= g ^ Z.of_nat i mod N < N) as B by (apply Z.mod_pos_bound; lia).
    assert (g ^ Z.of_nat i mod N <> 0) as B0.
    { apply Zrel_prime_neq_mod_0; [exact HN|]. apply rel_prime_sym, g_pow_coprime. lia. }
    unfold T. apply in_map_iff. exists (Z.to_nat (g ^ Z.of_nat i mod N)). split; [lia|].
    rewrite in_seq. lia. }
  assert (incl T L) as IT.
  { apply NoDup_length_incl; [exact ND| |exact IL].
    unfold L, T. rewrite !map_length, !seq_length. lia. }
  assert (In x T) as Ix.
  { unfold T. apply in_map_iff. exists (Z.to_nat x). split; [lia|]. rewrite in_seq. lia. }
  apply IT in Ix. unfold L in Ix. apply in_map_iff in Ix. destruct Ix as (i & <- & _).
  apply rel_prime_mod; [lia|]. apply rel_prime_sym, g_pow_coprime. lia.
Qed.
End Lucas.

Definition gold_p : Z := 18446744069414584321.
Definition gold_factors : list Z := repeat 2 32 ++ [3; 5; 17; 257; 65537].
Definition gold_primes : list Z := [2; 3; 5; 17; 257; 65537].
Lemma gold_factors_incl q : In q gold_factors -> In q gold_primes.
Proof.
  assert (forallb (fun q => existsb (Z.eqb q) gold_primes) gold_factors = true) as E
    by (vm_compute; reflexivity).
  rewrite forallb_forall in E. intro I. specialize (E q I).
  apply existsb_exists in E. destruct E as (x & Ix & Ex). apply Z.eqb_eq in Ex. congruence.
Qed.
Lemma gold_primes_trial : forallb trial gold_primes = true.
Proof. vm_cast_no_check (eq_refl true). Qed.
Lemma gold_factors_prime : Forall prime gold_factors.
Proof.
  pose proof gold_primes_trial as E.
  rewrite forallb_forall in E. apply Forall_forall.
  intros q Iq. apply trial_prime, E, gold_factors_incl, Iq.
Qed.
Lemma gold_fermat : powmod 7 (gold_p - 1) gold_p = 1.
Proof. vm_cast_no_check (eq_refl 1). Qed.
Lemma gold_nonresidues :
  forallb (fun q => negb (powmod 7 ((gold_p - 1) / q) gold_p =? 1)) gold_primes = true.
Proof. vm_cast_no_check (eq_refl true). Qed.

Theorem gold_prime : prime gold_p.
Proof.
  apply (lucas_prime gold_p 7 gold_factors).
  - vm_compute; reflexivity.
  - exact gold_factors_prime.
  - vm_compute; reflexivity.
  - rewrite <- powmod_ok by (vm_compute; congruence). exact gold_fermat.
  - intros q Iq. apply gold_factors_incl in Iq.
    pose proof gold_nonresidues as E. rewrite forallb_forall in E. specialize (E q Iq).
    apply negb_true_iff, Z.eqb_neq in E.
    rewrite powmod_ok in E; [exact E|vm_compute; congruence|].
    apply Z.div_pos; [vm_compute; congruence|].
    pose proof gold_factors_prime as P. rewrite Forall_forall in P.
    assert (In q gold_factors) as J.
    { unfold gold_primes in Iq. unfold gold_factors. cbn in Iq |- *. tauto. }
    destruct (P q J); lia.
Qed.
Definition Fg : PFld := ZpP gold_p gold_prime.
