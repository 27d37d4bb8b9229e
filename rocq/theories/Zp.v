(** The prime field Z/p for every prime p, as an instance of [PFld]. *)
From Verif Require Import Field.
From Coq Require Import Eqdep_dec.
Local Open Scope Z_scope.

(** Extended Euclid with explicit fuel. *)
Fixpoint egcd (fuel : nat) (a b : Z) : Z * Z :=
  match fuel with
  | O => (1, 0)
  | S n => if b =? 0 then (1, 0)
           else let '(u, v) := egcd n b (a mod b) in (v, u - (a / b) * v)
  end.

Lemma egcd_ok n : forall a b, 0 <= b <= a -> a * b < 2 ^ Z.of_nat n ->
  let '(u, v) := egcd n a b in u * a + v * b = Z.gcd a b.
Proof.
  induction n as [|n IH]; intros a b Hb Hn; cbn [egcd].
  - assert (b = 0) as -> by nia. rewrite Z.gcd_0_r, Z.abs_eq by lia. lia.
  - destruct (Z.eqb_spec b 0) as [->|E].
    + rewrite Z.gcd_0_r, Z.abs_eq by lia. lia.
    + assert (0 <= a mod b < b) as Hm by (apply Z.mod_pos_bound; lia).
      specialize (IH b (a mod b)).
      destruct (egcd n b (a mod b)) as [u v].
      assert (u * b + v * (a mod b) = Z.gcd b (a mod b)) as Q.
      { apply IH; [lia|].
        assert (2 * (a mod b) <= a) as H2.
        { pose proof (Z.div_mod a b ltac:(lia)).
          assert (1 <= a / b) by (apply Z.div_le_lower_bound; lia). nia. }
        replace (2 ^ Z.of_nat (S n)) with (2 * 2 ^ Z.of_nat n) in Hn
          by (rewrite Nat2Z.inj_succ, Z.pow_succ_r by lia; lia). nia. }
      rewrite (Z.gcd_comm b), Z.gcd_mod, (Z.gcd_comm b a) in Q by lia.
      rewrite <- Q. pose proof (Z.div_mod a b ltac:(lia)). nia.
Qed.

Section Zp.
Variable p : Z.
Hypothesis Hp : prime p.

Lemma p_gt1 : 1 < p. Proof. destruct Hp; lia. Qed.

Record zp := mkzp { zv : Z; zok : (zv mod p =? zv) = true }.

Lemma zp_eq (x y : zp) : zv x = zv y -> x = y.
Proof.
  destruct x as [x Hx], y as [y Hy]; cbn; intros ->. f_equal.
  apply UIP_dec. decide equality.
Qed.
Lemma norm_ok a : ((a mod p) mod p =? a mod p) = true.
Proof. apply Z.eqb_eq. apply Z.mod_mod. pose proof p_gt1. lia. Qed.
Definition norm (a : Z) : zp := mkzp (a mod p) (norm_ok a).

Lemma zv_range x : 0 <= zv x < p.
Proof.
  destruct x as [x Hx]; cbn. apply Z.eqb_eq in Hx. rewrite <- Hx.
  apply Z.mod_pos_bound. pose proof p_gt1. lia.
Qed.
Lemma zv_mod x : zv x mod p = zv x.
Proof. apply Z.mod_small, zv_range. Qed.

Definition zp_add x y := norm (zv x + zv y).
Definition zp_sub x y := norm (zv x - zv y).
Definition zp_mul x y := norm (zv x * zv y).
Definition zp_opp x := norm (- zv x).
Definition zp_inv x := norm (snd (egcd (S (Z.to_nat (2 * (Z.log2 p + 1)))) p (zv x))).
Definition zp_div x y := zp_mul x (zp_inv y).
Definition zp_eqb x y := Z.eqb (zv x) (zv y).

Lemma inv_ok x : zv x <> 0 -> (snd (egcd (S (Z.to_nat (2 * (Z.log2 p + 1)))) p (zv x)) * zv x) mod p = 1.
Proof.
  intro H. pose proof (zv_range x) as R. pose proof p_gt1 as P.
  set (n := S (Z.to_nat (2 * (Z.log2 p + 1)))).
  pose proof (egcd_ok n p (zv x)) as E.
  destruct (egcd n p (zv x)) as [u v]; cbn [snd].
  assert (Z.gcd p (zv x) = 1) as G.
  { apply Zgcd_1_rel_prime. apply prime_rel_prime; [exact Hp|].
    intros D. apply Z.divide_pos_le in D; lia. }
  rewrite G in E. rewrite <- (Z.mod_1_l p) by lia. rewrite <- E.
  - rewrite Z.add_comm, Z.mod_add by lia. reflexivity.
  - lia.
  - assert (p < 2 ^ (Z.log2 p + 1)) as L by (apply Z.log2_spec; lia).
    pose proof (Z.log2_nonneg p).
    assert (p * p < 2 ^ (Z.log2 p + 1) * 2 ^ (Z.log2 p + 1)) as L2 by nia.
    rewrite <- Z.pow_add_r in L2 by lia.
    apply Z.le_lt_trans with (p * p); [nia|].
    eapply Z.lt_le_trans; [exact L2|]. apply Z.pow_le_mono_r; [lia|].
    unfold n. lia.
Qed.

Lemma zp_field_theory :
  field_theory (norm 0) (norm 1) zp_add zp_mul zp_sub zp_opp zp_div zp_inv (@eq zp).
Proof.
  pose proof p_gt1 as P.
  constructor.
  - constructor; intros; apply zp_eq;
      unfold zp_add, zp_mul, zp_sub, zp_opp, norm; cbn [zv];
      rewrite ?Zplus_mod_idemp_l, ?Zplus_mod_idemp_r, ?Zmult_mod_idemp_l, ?Zmult_mod_idemp_r.
    + rewrite Z.add_0_l. apply zv_mod.
    + f_equal; ring.
    + f_equal; ring.
    + rewrite Z.mul_1_l. apply zv_mod.
    + f_equal; ring.
    + f_equal; ring.
    + f_equal; ring.
    + f_equal.
    + f_equal; ring.
  - intro E. apply (f_equal zv) in E. unfold norm in E; cbn [zv] in E. rewrite Z.mod_0_l, Z.mod_1_l in E; lia.
  - reflexivity.
  - intros x Hx. apply zp_eq. unfold zp_mul, zp_inv, norm. cbn [zv].
    rewrite Zmult_mod_idemp_l, (Z.mod_1_l p) by lia. apply inv_ok.
    intro E. apply Hx. apply zp_eq. unfold norm; cbn [zv]. rewrite E, Z.mod_0_l; lia.
Qed.

Lemma zp_eqb_spec x y : reflect (x = y) (zp_eqb x y).
Proof.
  unfold zp_eqb. destruct (Z.eqb_spec (zv x) (zv y)) as [E|E]; constructor.
  - apply zp_eq; exact E.
  - intros ->. apply E. reflexivity.
Qed.

Definition ZpF : Fld :=
  mkFld zp (norm 0) (norm 1) zp_add zp_mul zp_sub zp_opp zp_div zp_inv zp_eqb
        zp_field_theory zp_eqb_spec.

Lemma of_pos_zv q : zv (of_pos (K:=ZpF) q) = Zpos q mod p.
Proof.
  pose proof p_gt1.
  induction q as [q IH|q IH|]; cbn [of_pos ZpF f1 fadd].
  - change (zv (zp_add (norm 1) (zp_add (of_pos (K:=ZpF) q) (of_pos (K:=ZpF) q))) = Z.pos q~1 mod p).
    unfold zp_add, norm; cbn [zv]. rewrite IH.
    rewrite <- (Zplus_mod (Z.pos q) (Z.pos q)), <- Zplus_mod.
    f_equal. lia.
  - change (zv (zp_add (of_pos (K:=ZpF) q) (of_pos (K:=ZpF) q)) = Z.pos q~0 mod p).
    unfold zp_add, norm; cbn [zv]. rewrite IH, <- Zplus_mod. f_equal. lia.
  - reflexivity.
Qed.
Lemma of_Z_zv a : zv (of_Z (K:=ZpF) a) = a mod p.
Proof.
  pose proof p_gt1.
  destruct a as [|q|q]; cbn [of_Z].
  - reflexivity.
  - apply of_pos_zv.
  - change (zv (zp_opp (of_pos (K:=ZpF) q)) = Z.neg q mod p).
    unfold zp_opp, norm; cbn [zv]. rewrite of_pos_zv.
    change (Z.neg q) with (- Z.pos q).
    rewrite <- (Z.sub_0_l (Z.pos q mod p)), <- (Z.sub_0_l (Z.pos q)). apply Zminus_mod_idemp_r.
Qed.

Definition ZpP : PFld.
Proof.
  refine (mkPFld ZpF p Hp zv zv_range _ _).
  - intro x. apply zp_eq. rewrite of_Z_zv. apply zv_mod.
  - intros a b. split; intro E.
    + rewrite <- !of_Z_zv, E. reflexivity.
    + apply zp_eq. rewrite !of_Z_zv. exact E.
Defined.
End Zp.

(** Small primes by trial division (used for concrete examples). *)
Definition trial (n : Z) : bool :=
  (1 <? n) && forallb (fun d => negb (n mod Z.of_nat d =? 0)) (seq 2 (Z.to_nat (Z.sqrt n) - 1)).
Lemma trial_prime n : trial n = true -> prime n.
Proof.
  unfold trial. rewrite andb_true_iff, Z.ltb_lt, forallb_forall. intros [H1 H].
  apply prime_alt. split; [exact H1|]. intros d Hd D.
  assert (exists e, 1 < e /\ e * e <= n /\ (e | n)) as (e & He & Hs & De).
  { destruct D as [q Hq]. destruct (Z_le_gt_dec d q).
    - exists d. repeat split; [lia|nia|exists q; lia].
    - exists q. repeat split; [nia|nia|exists d; lia]. }
  assert (e <= Z.sqrt n) as Hsq by (apply Z.sqrt_le_square; lia).
  specialize (H (Z.to_nat e)). rewrite in_seq in H.
  assert (negb (n mod Z.of_nat (Z.to_nat e) =? 0) = true) as Q by (apply H; lia).
  rewrite Z2Nat.id in Q by lia. apply negb_true_iff, Z.eqb_neq in Q. apply Q.
  apply Z.mod_divide; [lia|exact De].
Qed.
