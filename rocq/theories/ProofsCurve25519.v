(** Proofs about the crate curve25519. *)
From Coq Require Import ZArith Znumtheory List Lia Bool Permutation.
From Verif Require Import Field Zp Lucas Module ModelLC ModelCS ProofsLC ModelCurve25519 SpecCurve25519.
From Coq Require Import List.
Import ListNotations.
Local Open Scope Z_scope.
(** ** Fermat's theorem in a prime field *)
Section Fermat.
Variable K : PFld.
Local Open Scope fld_scope.
Add Field Kf : (f_laws K).
Fixpoint prod (l : list K) : K := match l with [] => 1 | x :: r => x * prod r end.
Lemma prod_perm l l' : Permutation l l' -> prod l = prod l'.
Proof. induction 1; cbn [prod]; try congruence; ring. Qed.
Lemma prod_scale a l : prod (map (fun x => a * x) l) = a ^ length l * prod l.
Proof. induction l as [|x l IH]; cbn [map prod length fpow]; [ring|]. rewrite IH. ring. Qed.
Lemma prod_nz l : Forall (fun x => x <> 0) l -> prod l <> 0.
Proof. induction 1 as [|x l N _ IH]; cbn [prod]; [apply f_1_neq_0|]. intro E. apply f_integral in E. tauto. Qed.
Definition units : list K := map (fun i => of_Z (Z.of_nat i)) (seq 1 (Z.to_nat (pmod K - 1))).
Lemma pmod_big : (1 < pmod K)%Z. Proof. destruct (pmod_prime K). assumption. Qed.
Lemma in_units x : In x units <-> x <> 0.
Proof.
  pose proof pmod_big as B. unfold units. rewrite in_map_iff. split.
  - intros (i & <- & I). rewrite in_seq in I. intro E. change (of_Z (Z.of_nat i) = of_Z (K := K) 0) in E. apply of_Z_inj_small in E; lia.
  - intro N. exists (Z.to_nat (toZ x)). pose proof (toZ_range x) as R. assert (toZ x <> 0)%Z.
    { intro E. apply N. rewrite <- (of_toZ x), E. reflexivity. }
    split; [rewrite Z2Nat.id by lia; apply of_toZ|]. rewrite in_seq. lia.
Qed.
Lemma units_nodup : NoDup units.
Proof.
  pose proof pmod_big as B. unfold units. assert (forall n k, (k + n <= Z.to_nat (pmod K))%nat -> NoDup (map (fun i => of_Z (K := K) (Z.of_nat i)) (seq k n))) as A; [|apply A; lia].
  induction n as [|n IH]; intros k H; cbn [seq map]; constructor; [|apply IH; lia].
  rewrite in_map_iff. intros (j & E & J). rewrite in_seq in J. apply of_Z_inj_small in E; lia.
Qed.
Theorem fermat (x : K) : x <> 0 -> x ^ Z.to_nat (pmod K - 1) = 1.
Proof.
  intro N. assert (P : Permutation units (map (fun y => x * y) units)).
  { apply NoDup_Permutation_bis.
    - exact units_nodup.
    - rewrite map_length. lia.
    - intros y I. apply in_map_iff. exists (y * finv x). split; [field; exact N|]. apply in_units. apply in_units in I. intro E. apply f_integral in E. destruct E as [E|E]; [contradiction|].
      apply (f_1_neq_0 K). transitivity (x * finv x); [field; exact N|]. rewrite E. ring. }
  apply prod_perm in P. rewrite prod_scale in P. unfold units in P at 2. rewrite map_length, seq_length in P.
  assert (Nz : prod units <> 0) by (apply prod_nz, Forall_forall; intros y; apply in_units).
  assert (E : (x ^ Z.to_nat (pmod K - 1) - 1) * prod units = 0).
  { transitivity (x ^ Z.to_nat (pmod K - 1) * prod units - prod units); [ring|]. rewrite <- P. ring. }
  apply f_integral in E. destruct E as [E|E]; [|contradiction]. transitivity (x ^ Z.to_nat (pmod K - 1) - 1 + 1); [ring|]. rewrite E. ring.
Qed.
Lemma zpow_mul (x : K) a b : (0 <= a)%Z -> (0 <= b)%Z -> x ^ Z.to_nat (a * b) = (x ^ Z.to_nat a) ^ Z.to_nat b.
Proof. intros A B. rewrite Z2Nat.inj_mul by assumption. apply fpow_mul. Qed.
Lemma zpow_add (x : K) a b : (0 <= a)%Z -> (0 <= b)%Z -> x ^ Z.to_nat (a + b) = x ^ Z.to_nat a * x ^ Z.to_nat b.
Proof. intros A B. rewrite Z2Nat.inj_add by assumption. apply fpow_add. Qed.
Lemma pow_gcd (x : K) h d u v k : (0 <= d)%Z -> (0 <= k)%Z -> (0 <= u)%Z -> (0 <= v)%Z -> (h = d * k)%Z -> (u * h = d + v * (pmod K - 1))%Z ->
  x <> 0 -> (x ^ Z.to_nat h = 1 <-> x ^ Z.to_nat d = 1).
Proof.
  intros Hd Hk Hu Hv E B N. pose proof pmod_big as P. split; intro H.
  - assert (Q : x ^ Z.to_nat (d + v * (pmod K - 1)) = x ^ Z.to_nat d).
    { rewrite zpow_add by nia. rewrite (Z.mul_comm v), zpow_mul by lia. rewrite fermat by exact N. rewrite fpow_1. ring. }
    rewrite <- Q, <- B, (Z.mul_comm u), zpow_mul by nia. rewrite H. apply fpow_1.
  - rewrite E, zpow_mul by lia. rewrite H. apply fpow_1.
Qed.
Lemma zpow_0 e : (0 < e)%Z -> (0 : K) ^ Z.to_nat e = 0.
Proof. intro H. destruct (Z.to_nat e) eqn:E; [lia|]. cbn [fpow]. ring. Qed.
Lemma of_Z_zpow (a : Z) n : of_Z (a ^ Z.of_nat n)%Z = (of_Z a : K) ^ n.
Proof. induction n as [|n IH]; [reflexivity|]. rewrite Nat2Z.inj_succ, Z.pow_succ_r by lia. rewrite of_Z_mul, IH. reflexivity. Qed.
Lemma minus_one_odd k : (0 <= k)%Z -> (- (1) : K) ^ Z.to_nat (2 * k + 1) = - (1).
Proof. intro H. rewrite zpow_add, zpow_mul by lia. change (Z.to_nat 2) with 2%nat. change (Z.to_nat 1) with 1%nat. replace ((- (1) : K) ^ 2) with (1 : K) by (cbn [fpow]; ring). rewrite fpow_1. cbn [fpow]. ring. Qed.
(** An element whose square is -1 is not a square when p - 1 is four times an odd number. *)
Lemma quarter_not_square (i z : K) k : (0 <= k)%Z -> (pmod K - 1 = 4 * (2 * k + 1))%Z -> (2 < pmod K)%Z -> i * i = - (1) -> i <> z * z.
Proof.
  intros Hk E B I Z. assert (N : z <> 0).
  { intro Q. apply (f_1_neq_0 K). transitivity (- (i * i)); [rewrite I; ring|]. rewrite Z, Q. ring. }
  pose proof (fermat z N) as F. rewrite E, zpow_mul in F by lia. change (Z.to_nat 4) with 4%nat in F.
  replace (z ^ 4) with (- (1) : K) in F by (rewrite <- I, Z; cbn [fpow]; ring). rewrite minus_one_odd in F by lia.
  assert (Q : of_Z (K := K) 2 = of_Z 0). { transitivity (1 - - (1) : K); [cbn [of_Z of_pos]; ring|]. rewrite F. cbn [of_Z]. ring. }
  apply of_Z_inj_small in Q; lia.
Qed.
Lemma mul_inv_cancel (a b : K) : b <> 0 -> a * b * finv b = a.
Proof. intro N. field. exact N. Qed.
Lemma mul_0 (a : K) : 0 * a = 0. Proof. ring. Qed.
Lemma pow_two (a : K) : a ^ 2 = a * a. Proof. cbn [fpow]. ring. Qed.
Lemma minus_one_sq : (- (1) * - (1) : K) = 1. Proof. ring. Qed.
Lemma quarter_pow_12 (i : K) : i * i = - (1) -> i ^ 12 = 1.
Proof. intro I. transitivity ((i * i) ^ 6); [cbn [fpow]; ring|]. rewrite I. cbn [fpow]. ring. Qed.
Lemma of_Z_m1 : of_Z (-1) = (- (1) : K). Proof. reflexivity. Qed.
Lemma of_Z_0_ : of_Z 0 = (0 : K). Proof. reflexivity. Qed.
Lemma of_Z_1_ : of_Z 1 = (1 : K). Proof. reflexivity. Qed.
End Fermat.

(** ** The constants *)
Lemma modulus_ok : MODULUS = ristretto_order /\ prime MODULUS.
Proof. split; [vm_compute; reflexivity|]. replace MODULUS with l25519 by (vm_compute; reflexivity). exact l25519_prime. Qed.
Lemma montgomery_ok : R_ = 2 ^ 256 mod ristretto_order /\ R2_ = R_ * R_ mod ristretto_order /\ (INV * ristretto_order + 1) mod 2 ^ 64 = 0 /\
  2 ^ (MODULUS_BITS - 1) <= ristretto_order < 2 ^ MODULUS_BITS /\ CAPACITY = MODULUS_BITS - 1 /\ REPR_SHAVE_BITS = 256 - MODULUS_BITS /\
  (ristretto_order - 1) mod 2 ^ TWO_ADICITY = 0 /\ (ristretto_order - 1) mod 2 ^ (TWO_ADICITY + 1) <> 0.
Proof. vm_compute. repeat split; congruence. Qed.
Lemma constants_wrong : MODULUS_MINUS_ONE_DIV_TWO <> (ristretto_order - 1) / 2 /\ T <> (ristretto_order - 1) / 2 ^ TWO_ADICITY /\ Z.even T = true /\
  T_MINUS_ONE_DIV_TWO <> (T - 1) / 2 /\ T_MINUS_ONE_DIV_TWO <> ((ristretto_order - 1) / 2 ^ TWO_ADICITY - 1) / 2 /\ TWO_ADIC_ROOT_OF_UNITY = 0.
Proof. vm_compute. repeat split; congruence. Qed.
Lemma pmod_F : pmod F25519 = l25519. Proof. reflexivity. Qed.
Lemma order_l : ristretto_order = l25519. Proof. vm_compute. reflexivity. Qed.
Lemma modulus_l : MODULUS = l25519. Proof. vm_compute. reflexivity. Qed.
Local Opaque fpow Z.to_nat.
Section F.
Local Open Scope fld_scope.
Notation K := F25519.
Lemma of_Z_congr a b : (a mod l25519 = b mod l25519)%Z -> of_Z (K := K) a = of_Z b.
Proof. intro E. apply of_Z_eq_iff. rewrite pmod_F. exact E. Qed.
Lemma of_Z_nz a : (0 < a < l25519)%Z -> of_Z (K := K) a <> 0.
Proof. intros H E. rewrite <- of_Z_0_ in E. apply of_Z_inj_small in E; rewrite ?pmod_F; lia. Qed.
Lemma generator_9 : from_raw GENERATOR = of_Z 9.
Proof.
  unfold from_raw. assert (N : of_Z (K := K) R_ <> 0) by (apply of_Z_nz; vm_compute; split; reflexivity).
  replace (of_Z (K := K) GENERATOR) with (of_Z (K := K) 9 * of_Z R_); [apply mul_inv_cancel; exact N|]. rewrite <- of_Z_mul. apply of_Z_congr. vm_compute. reflexivity.
Qed.
Lemma root_0 : from_raw TWO_ADIC_ROOT_OF_UNITY = 0.
Proof. unfold from_raw. replace TWO_ADIC_ROOT_OF_UNITY with 0%Z by (vm_compute; reflexivity). rewrite of_Z_0_. apply mul_0. Qed.
Lemma generator_square : is_square (from_raw GENERATOR) /\ from_raw GENERATOR ^ Z.to_nat ((ristretto_order - 1) / 2) = 1.
Proof.
  rewrite generator_9. assert (E : of_Z (K := K) 9 = of_Z 3 * of_Z 3) by (rewrite <- of_Z_mul; reflexivity). split; [exists (of_Z 3); exact E|].
  rewrite E, <- pow_two. change 2%nat with (Z.to_nat 2). rewrite <- zpow_mul; [|lia|vm_compute; congruence]. replace (2 * ((ristretto_order - 1) / 2))%Z with (pmod F25519 - 1)%Z by (vm_compute; reflexivity). apply fermat. apply of_Z_nz. vm_compute. split; reflexivity.
Qed.
(** ** Euler's criterion with the wrong exponent *)
Lemma half_pow (x : K) : x <> 0 -> (x ^ Z.to_nat MODULUS_MINUS_ONE_DIV_TWO = 1 <-> x ^ 12 = 1).
Proof.
  intro N. change 12%nat with (Z.to_nat 12). apply (pow_gcd K x _ 12 31558599276984244841619476616431812773485211201467790837808929379352127078 967813198865693618768315773135693115 18494878518248235690567958527255765662);
    [lia|lia|lia|lia|vm_compute; reflexivity|vm_compute; reflexivity|exact N].
Qed.
Lemma legendre_exact (x : K) : legendre x = if feqb x 0 then SZero else if feqb (x ^ 12) 1 then SResidue else SNonResidue.
Proof.
  unfold legendre. destruct (feqb_spec K x 0) as [->|N].
  - rewrite zpow_0 by (vm_compute; reflexivity). rewrite feqb_refl. reflexivity.
  - destruct (feqb_spec K (x ^ Z.to_nat MODULUS_MINUS_ONE_DIV_TWO) 0) as [E|_]; [exfalso; revert E; apply fpow_nz; exact N|].
    destruct (feqb_spec K (x ^ Z.to_nat MODULUS_MINUS_ONE_DIV_TWO) 1) as [E|E], (feqb_spec K (x ^ 12) 1) as [F|F]; try reflexivity; exfalso; rewrite half_pow in E by exact N; contradiction.
Qed.
(** Every nonzero element is a square or not, and only the twelfth roots of one are called residues. *)
Lemma legendre_residue x : legendre x = SResidue <-> x ^ 12 = 1.
Proof.
  rewrite legendre_exact. destruct (feqb_spec K x 0) as [->|N].
  - split; [discriminate|]. intro E. exfalso. change 12%nat with (Z.to_nat 12) in E. rewrite zpow_0 in E by lia. apply (f_1_neq_0 K). symmetry. exact E.
  - destruct (feqb_spec K (x ^ 12) 1) as [F|F]; split; congruence.
Qed.
Lemma legendre_square_missed (y : K) : y <> 0 -> y ^ 24 <> 1 -> is_square (y * y) /\ legendre (y * y) = SNonResidue /\ forall ts, sqrt ts (y * y) = None.
Proof.
  intros N H. assert (L : legendre (y * y) = SNonResidue).
  { rewrite legendre_exact. destruct (feqb_spec K (y * y) 0) as [E|_]; [apply f_integral in E; tauto|].
    destruct (feqb_spec K ((y * y) ^ 12) 1) as [F|_]; [|reflexivity]. exfalso. apply H. rewrite fpow_mul_base, <- fpow_add in F. exact F. }
  split; [exists y; reflexivity|]. split; [exact L|]. intro ts. unfold sqrt. rewrite L. reflexivity.
Qed.
Lemma small_squares_missed n : (2 <= n <= 1448)%Z -> is_square (of_Z (K := K) (n * n)) /\ legendre (of_Z (n * n)) = SNonResidue /\ forall ts, sqrt ts (of_Z (n * n)) = None.
Proof.
  intro H. rewrite of_Z_mul. apply legendre_square_missed.
  - apply of_Z_nz. assert (1448 < l25519)%Z by (vm_compute; reflexivity). lia.
  - rewrite <- of_Z_zpow. change (Z.of_nat 24) with 24%Z. intro E. rewrite <- of_Z_1_ in E.
    assert (2 ^ 24 <= n ^ 24 <= 1448 ^ 24)%Z as (B1 & B2) by (split; apply Z.pow_le_mono_l; lia). assert (1448 ^ 24 < l25519)%Z by (vm_compute; reflexivity). assert (1 < 2 ^ 24)%Z by (vm_compute; reflexivity).
    apply of_Z_inj_small in E; rewrite ?pmod_F; lia.
Qed.
Definition iroot : Z := 4202356475871964119699734399548423449193549369991576068503119564443318355924.
Lemma nonsquare_called_residue : legendre (of_Z iroot) = SResidue /\ ~ is_square (of_Z (K := K) iroot).
Proof.
  assert (I : of_Z (K := K) iroot * of_Z iroot = - (1)).
  { rewrite <- of_Z_mul. rewrite <- of_Z_m1. apply of_Z_congr. vm_compute. reflexivity. }
  split.
  - apply legendre_residue, quarter_pow_12. exact I.
  - intros (z & E). assert (A : (pmod K - 1 = 4 * (2 * 904625697166532776746648320380374280107139544922488450750243867285681781373 + 1))%Z) by (vm_compute; reflexivity).
    assert (B : (2 < pmod K)%Z) by (vm_compute; reflexivity). exact (quarter_not_square K (of_Z iroot) z 904625697166532776746648320380374280107139544922488450750243867285681781373 ltac:(lia) A B I E).
Qed.
End F.

(** ** Points *)
Section P.
Local Open Scope fld_scope.
Notation K := F25519.
Variable G : Grp K.
Lemma l_small : (l25519 < 256 ^ Z.of_nat 32)%Z. Proof. vm_compute. reflexivity. Qed.
Lemma scalar_mod_toZ (s : K) : scalar_mod (le_bytes 32 (toZ s)) = s.
Proof. unfold scalar_mod. pose proof (toZ_range s) as R. rewrite pmod_F in R. rewrite of_le_bytes_le by (split; [apply R|exact (Z.lt_trans _ _ _ (proj2 R) l_small)]). apply of_toZ. Qed.
Lemma mul_assign_ok (p : G) s : mul_assign G p s = gsm s p.
Proof. unfold mul_assign. rewrite scalar_mod_toZ. reflexivity. Qed.
Lemma affine_mul_ok (p : G) v : affine_mul G p v = if (v <? ristretto_order)%Z then Ok (gsm (of_Z v) p) else Panic.
Proof. unfold affine_mul, from_repr. rewrite modulus_l, order_l. destruct (v <? l25519)%Z; [|reflexivity]. rewrite mul_assign_ok. reflexivity. Qed.
Lemma affine_mul_scalar (p : G) s : affine_mul G p (toZ s) = Ok (gsm s p).
Proof. rewrite affine_mul_ok, order_l. pose proof (toZ_range s) as R. rewrite pmod_F in R. replace (toZ s <? l25519)%Z with true by (symmetry; apply Z.ltb_lt; lia). rewrite of_toZ. reflexivity. Qed.
Lemma of_le_bytes_app a b : of_le_bytes (a ++ b) = (of_le_bytes a + 256 ^ Z.of_nat (length a) * of_le_bytes b)%Z.
Proof. induction a as [|x a IH]; [cbn [app of_le_bytes length]; change (256 ^ Z.of_nat 0)%Z with 1%Z; lia|]. cbn [app of_le_bytes length]. rewrite IH, Nat2Z.inj_succ, Z.pow_succ_r by lia. ring. Qed.
Lemma limbs_bytes v : Forall (fun x => 0 <= x < 2 ^ 64)%Z v -> of_le_bytes (flat_map (le_bytes 8) v) = limbs_value v.
Proof.
  induction 1 as [|x v X _ IH]; [reflexivity|]. cbn [flat_map limbs_value]. rewrite of_le_bytes_app, le_bytes_length, IH, of_le_bytes_le by exact X.
  change (256 ^ Z.of_nat 8)%Z with 18446744073709551616%Z. reflexivity.
Qed.
Lemma projective_mul_ok (p : G) v : Forall (fun x => 0 <= x < 2 ^ 64)%Z v ->
  projective_mul G p v = if Nat.eqb (length v) 4 && (limbs_value v <? ristretto_order)%Z then Ok (gsm (of_Z (limbs_value v)) p) else Panic.
Proof.
  intro H. unfold projective_mul, scalar_canonical. rewrite limbs_bytes by exact H. rewrite order_l. destruct (Nat.eqb (length v) 4); [|reflexivity]. cbn [andb]. destruct (limbs_value v <? l25519)%Z; reflexivity.
Qed.
Lemma multiscalar_ok s (p : list G) : multiscalar G s p = total_mul s p.
Proof.
  unfold multiscalar. revert p. induction s as [|k s IH]; intros [|x p]; try reflexivity.
  cbn [length Nat.min firstn map combine fold_right total_mul]. rewrite scalar_mod_toZ, IH. reflexivity.
Qed.
Lemma sum_from (l : list G) a : fold_left (fun acc x => gadd acc x) l a = gadd a (total l).
Proof. revert a. induction l as [|x l IH]; intro a; cbn [fold_left total]; [rewrite gadd_comm, gadd_0; reflexivity|]. rewrite IH, gadd_assoc. reflexivity. Qed.
Lemma sum_ok (l : list G) : sum G l = total l.
Proof. unfold sum. rewrite sum_from. apply gadd_0. Qed.
Lemma cofactor_ok (p : G) : mul_by_cofactor G p = gsm (of_Z 8) p /\ COFACTOR = 0%Z.
Proof. split; [apply mul_assign_ok|reflexivity]. Qed.
Variable compress : G -> list Z.
Variable decompress : list Z -> option G.
Hypothesis E : encoding compress decompress.
Lemma firstn_len {A} n (a b : list A) : length a = n -> firstn n (a ++ b) = a.
Proof. intros <-. rewrite firstn_app, Nat.sub_diag, firstn_all, firstn_O, app_nil_r. reflexivity. Qed.
Lemma skipn_len {A} n (a b : list A) : length a = n -> skipn n (a ++ b) = b.
Proof. intros <-. rewrite skipn_app, Nat.sub_diag, skipn_all. reflexivity. Qed.
Lemma read_write p rest : read G decompress (write G compress p ++ rest) = Some (p, rest).
Proof.
  unfold read, write. rewrite app_length, (enc_length _ _ E). cbn [Nat.ltb Nat.leb Nat.add]. rewrite firstn_len, skipn_len by apply (enc_length _ _ E).
  replace (decompress (compress p)) with (Some p); [reflexivity|]. symmetry. apply (dec_enc _ _ E). reflexivity.
Qed.
Lemma read_only b p rest : read G decompress b = Some (p, rest) -> b = write G compress p ++ rest.
Proof.
  unfold read, write. destruct (Nat.ltb_spec (length b) 32); [discriminate|]. destruct (decompress (firstn 32 b)) as [q|] eqn:D; [|discriminate]. intro Q. injection Q as -> <-.
  apply (dec_enc _ _ E) in D. rewrite D. symmetry. apply firstn_skipn.
Qed.
Lemma serialize_bytes p : serialize G compress p = prefix32 ++ compress p.
Proof. unfold serialize, serialize_slice. rewrite (enc_length _ _ E). reflexivity. Qed.
Lemma serialize_size p : length (serialize G compress p) = 40%nat /\ serialized_size G p = 32%nat.
Proof. rewrite serialize_bytes, app_length, (enc_length _ _ E). split; reflexivity. Qed.
Lemma deserialize_shifted p rest : deserialize G decompress (serialize G compress p ++ rest) =
  match decompress (prefix32 ++ firstn 24 (compress p)) with Some q => Some (q, skipn 24 (compress p) ++ rest) | None => None end.
Proof.
  unfold deserialize, read. rewrite app_length. destruct (serialize_size p) as (-> & _). cbn [Nat.ltb Nat.leb Nat.add]. rewrite serialize_bytes, <- app_assoc.
  replace (prefix32 ++ compress p ++ rest) with ((prefix32 ++ firstn 24 (compress p)) ++ skipn 24 (compress p) ++ rest).
  - rewrite firstn_len, skipn_len; [reflexivity| |]; rewrite app_length, firstn_length, (enc_length _ _ E); reflexivity.
  - rewrite <- app_assoc. f_equal. rewrite app_assoc, firstn_skipn. reflexivity.
Qed.
Lemma deserialize_never p rest : deserialize G decompress (serialize G compress p ++ rest) <> Some (p, rest).
Proof.
  rewrite deserialize_shifted. destruct (decompress (prefix32 ++ firstn 24 (compress p))); [|discriminate]. intro Q. assert (Q' : skipn 24 (compress p) ++ rest = rest) by congruence. apply (f_equal (@length Z)) in Q'. rewrite app_length, skipn_length, (enc_length _ _ E) in Q'. lia.
Qed.
Lemma deserialize_same p rest q rest' : deserialize G decompress (serialize G compress p ++ rest) = Some (q, rest') ->
  length rest' = (8 + length rest)%nat /\ (q = p -> compress p = prefix32 ++ prefix32 ++ prefix32 ++ prefix32).
Proof.
  rewrite deserialize_shifted. destruct (decompress (prefix32 ++ firstn 24 (compress p))) as [x|] eqn:D; [|discriminate]. intro Q. assert (Q1 : x = q) by congruence. assert (Q2 : rest' = skipn 24 (compress p) ++ rest) by congruence. subst x rest'. split.
  - rewrite app_length, skipn_length, (enc_length _ _ E). reflexivity.
  - intros ->. apply (dec_enc _ _ E) in D. rewrite D at 1. rewrite D at 1. rewrite D at 1. unfold prefix32. cbn [app firstn].
    pose proof (enc_length _ _ E p) as L. destruct (compress p) as [|c0 c]; [discriminate|]. cbn [app firstn] in D.
    repeat (destruct c as [|? c]; [discriminate|]). cbn [app firstn] in D. injection D as; subst. reflexivity.
Qed.
End P.
