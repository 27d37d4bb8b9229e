(** Division by the vanishing polynomial, and the identity polynomial of Plonk. *)
From Verif Require Import ModelPlonk SpecPlonk ProofsPC ProofsPlonk1 ProofsPlonk2 ProofsPlonk3 ProofsPlonk4.
Local Open Scope fld_scope.
Section P.
Variable K : Fld.
Add Field Kf : (f_laws K).
Implicit Types p q : list K.
Lemma vanish_div xs : NoDup xs -> forall p, (forall a, In a xs -> peval p a = 0) -> exists q, length q = (length p - length xs)%nat /\ forall x, peval p x = fprod (map (fun a => x - a) xs) * peval q x.
Proof.
  induction 1 as [|a xs Ha N IH]; intros p R.
  - exists p. split; [cbn [length]; lia|]. intro x. cbn [map fprod]. ring.
  - pose proof (pdivx_ok K a p) as D. destruct (pdivx a p) as [q v]. destruct D as (L & V & E). assert (v = 0) by (rewrite V; apply R; left; reflexivity). subst v.
    destruct (IH q) as (q' & L' & E').
    + intros b Ib. pose proof (R b (or_intror Ib)) as Rb. rewrite E, H in Rb. assert (F : (b - a) * peval q b = 0) by (rewrite <- Rb; ring). apply f_integral in F. destruct F as [Z|Z]; [|exact Z]. apply (proj1 (fsub_0 K b a)) in Z. exfalso. apply Ha. rewrite <- Z. exact Ib.
    + exists q'. split; [cbn [length]; lia|]. intro x. rewrite E, H, E'. cbn [map fprod]. ring.
Qed.
Lemma peval_xn1 m (x : K) : (0 < m)%nat -> peval (- (1) :: repeat 0 (m - 1) ++ [1]) x = x ^ m - 1.
Proof. intro H. cbn [peval]. rewrite peval_app, peval_repeat0, repeat_length. cbn [peval]. replace (x ^ m) with (x * x ^ (m - 1)); [ring|]. destruct m; [lia|]. cbn [fpow]. replace (S m - 1)%nat with m by lia. reflexivity. Qed.
Lemma peval_vanishing (d : dom K) (x : K) : (0 < dsize d)%nat -> peval (vanishing_poly d) x = x ^ dsize d - 1.
Proof. intro H. unfold vanishing_poly. rewrite peval_ptrim. apply peval_xn1. exact H. Qed.
Lemma domain_div (d : dom K) p : valid_dom d -> (forall i, (i < dsize d)%nat -> peval p (dgen d ^ i) = 0) -> exists q, length q = (length p - dsize d)%nat /\ forall x, peval p x = (x ^ dsize d - 1) * peval q x.
Proof.
  intros V R. destruct (V) as (Hn & _ & ND & _).
  assert (RD : forall q, (forall i, (i < dsize d)%nat -> peval q (dgen d ^ i) = 0) -> forall a, In a (dpts d) -> peval q a = 0). { intros q Rq a I. unfold dpts in I. apply in_map_iff in I. destruct I as (i & <- & I). apply in_seq in I. apply Rq. lia. }
  destruct (vanish_div (dpts d) ND p (RD p R)) as (q & Lq & Eq). rewrite length_dpts in Lq.
  set (v := (- (1) :: repeat 0 (dsize d - 1) ++ [1]) : list K).
  destruct (vanish_div (dpts d) ND v) as (u & Lu & Eu).
  { apply RD. intros i Hi. unfold v. rewrite peval_xn1 by exact Hn. rewrite <- fpow_mul, Nat.mul_comm, fpow_mul. destruct V as (_ & -> & _). rewrite fpow_1. ring. }
  assert (Lv : length v = S (dsize d)) by (unfold v; cbn [length]; rewrite app_length, repeat_length; cbn [length]; lia). rewrite Lv, length_dpts in Lu. destruct u as [|c [|? ?]]; cbn [length] in Lu; try lia.
  assert (Ec : forall x, x ^ dsize d - 1 = fprod (map (fun a => x - a) (dpts d)) * c). { intro x. rewrite <- (peval_xn1 (dsize d) x Hn). fold v. rewrite Eu. cbn [peval]. ring. }
  assert (C : c <> 0). { intro E. pose proof (Ec 0) as E0. rewrite E in E0. destruct (dsize d) as [|m]; [lia|]. cbn [fpow] in E0. apply (f_1_neq_0 K). transitivity (- ((@f0 K) * 0 ^ m - 1)); [ring|]. rewrite E0. ring. }
  exists (pscale (finv c) q). split; [rewrite length_pscale; exact Lq|]. intro x. rewrite Eq, peval_pscale, Ec.
  replace (fprod (map (fun a => x - a) (dpts d)) * c * (finv c * peval q x)) with (fprod (map (fun a => x - a) (dpts d)) * peval q x * (finv c * c)) by ring. rewrite finv_l by exact C. ring.
Qed.
Lemma pmul_nil p : length (pmul p []) = length p.
Proof. induction p as [|a p IH]; [reflexivity|]. cbn [pmul pscale map padd]. cbn [length]. rewrite IH. reflexivity. Qed.
Lemma deg_mul p q a b : (length p <= S a)%nat -> (length q <= S b)%nat -> (length (pmul p q) <= S (a + b))%nat.
Proof.
  intros Hp Hq. destruct q as [|c q]; [rewrite pmul_nil; lia|]. pose proof (length_pmul1 K p (c :: q) ltac:(cbn; lia)). lia.
Qed.
Lemma deg_add p q a : (length p <= a)%nat -> (length q <= a)%nat -> (length (padd p q) <= a)%nat.
Proof. intros. rewrite length_padd. lia. Qed.
Lemma deg_sub p q a : (length p <= a)%nat -> (length q <= a)%nat -> (length (psub p q) <= a)%nat.
Proof. intros. rewrite length_psub. lia. Qed.
Lemma deg_scale c p a : (length p <= a)%nat -> (length (pscale c p) <= a)%nat.
Proof. intros. rewrite length_pscale. lia. Qed.
Lemma peval_interp (d : dom K) v i : valid_dom d -> (i < dsize d)%nat -> peval (interp d v) (dgen d ^ i) = nth i v 0.
Proof. intros V H. unfold interp. rewrite peval_ptrim. apply idft_dom; assumption. Qed.
Lemma length_interp (d : dom K) v : (length (interp d v) <= dsize d)%nat.
Proof. unfold interp. etransitivity; [apply length_ptrim|]. rewrite length_idft. lia. Qed.
(** The value the identity polynomial takes, from the values of its parts. *)
Definition ident (ks : list K) (alpha beta gamma : K) (w0 w1 w2 w3 q0 q1 q2 q3 qm qc qa pi s0 s1 s2 s3 z zn l1 x : K) : K :=
  (q0 * w0 + q1 * w1 + q2 * w2 + q3 * w3 + qm * w1 * w2 + qc + pi) * qa +
  ((nfac beta gamma w0 x (nth 0 ks 0) * nfac beta gamma w1 x (nth 1 ks 0) * nfac beta gamma w2 x (nth 2 ks 0) * nfac beta gamma w3 x (nth 3 ks 0) * z -
    dfac beta gamma w0 s0 * dfac beta gamma w1 s1 * dfac beta gamma w2 s2 * dfac beta gamma w3 s3 * zn) * alpha + (z - 1) * l1 * (alpha * alpha)).
Section Q.
Variables (d d4 : dom K) (ks : list K) (alpha beta gamma : K).
Variables (w0 w1 w2 w3 q0 q1 q2 q3 qm qc qa pi s0 s1 s2 s3 z l1 : list K).
Let n := dsize d.
Let ev (x : K) : K := ident ks alpha beta gamma (peval w0 x) (peval w1 x) (peval w2 x) (peval w3 x) (peval q0 x) (peval q1 x) (peval q2 x) (peval q3 x) (peval qm x) (peval qc x) (peval qa x) (peval pi x)
  (peval s0 x) (peval s1 x) (peval s2 x) (peval s3 x) (peval z x) (peval z (x * dgen d)) (peval l1 x) x.
Definition nfp (w : list K) (k : K) : list K := padd (padd w [0; k * beta]) [gamma].
Definition dfp (w s : list K) : list K := padd (padd w (pscale beta s)) [gamma].
Definition ipoly : list K :=
  padd (pmul (padd (padd (padd (padd (padd (padd (pmul q0 w0) (pmul q1 w1)) (pmul q2 w2)) (pmul q3 w3)) (pmul (pmul qm w1) w2)) qc) pi) qa)
    (padd (pscale alpha (psub (pmul (pmul (pmul (pmul (nfp w0 (nth 0 ks 0)) (nfp w1 (nth 1 ks 0))) (nfp w2 (nth 2 ks 0))) (nfp w3 (nth 3 ks 0))) z)
                              (pmul (pmul (pmul (pmul (dfp w0 s0) (dfp w1 s1)) (dfp w2 s2)) (dfp w3 s3)) (shift_coeffs (dgen d) z))))
          (pscale (alpha * alpha) (pmul (psub z [1]) l1))).
Lemma peval_ipoly x : peval ipoly x = ev x.
Proof.
  unfold ipoly, ev, ident, nfp, dfp, nfac, dfac. repeat rewrite ?peval_padd, ?peval_pmul, ?peval_pscale, ?peval_psub, ?peval_shift. cbn [peval].
  replace (dgen d * x) with (x * dgen d) by ring. ring.
Qed.
Hypothesis V : valid_dom d.
Hypothesis V4 : valid_dom d4.
Hypothesis S4 : dsize d4 = (4 * n)%nat.
Hypothesis LW : (length w0 <= n /\ length w1 <= n /\ length w2 <= n /\ length w3 <= n)%nat.
Hypothesis LQ : (length q0 <= n /\ length q1 <= n /\ length q2 <= n /\ length q3 <= n /\ length qm <= n /\ length qc <= n /\ length qa <= n /\ length pi <= n)%nat.
Hypothesis LS : (length s0 <= n /\ length s1 <= n /\ length s2 <= n /\ length s3 <= n)%nat.
Hypothesis LZ : (length z <= n /\ length l1 <= n)%nat.
Lemma length_ipoly : (length ipoly <= 5 * n)%nat.
Proof.
  clear V4 S4. destruct V as (Hn & _). fold n in Hn. assert (E : exists m, n = S m) by (exists (n - 1)%nat; lia). destruct E as [m E]. rewrite E in *.
  assert (D : forall a p b, (length p <= S a)%nat -> (a <= b)%nat -> (length p <= S b)%nat) by (intros; lia).
  assert (B : (Nat.max m 1 + Nat.max m 1 + Nat.max m 1 + Nat.max m 1 + m <= 5 * S m - 1)%nat) by lia.
  assert (NF : forall w k, (length w <= S m)%nat -> (length (nfp w k) <= S (Nat.max m 1))%nat) by (intros; unfold nfp; rewrite !length_padd; cbn [length]; lia).
  assert (DF : forall w s, (length w <= S m)%nat -> (length s <= S m)%nat -> (length (dfp w s) <= S m)%nat) by (intros; unfold dfp; rewrite !length_padd, length_pscale; cbn [length]; lia).
  replace (5 * S m)%nat with (S (5 * S m - 1)) by lia. unfold ipoly. apply deg_add; [|apply deg_add; [apply deg_scale, deg_sub|apply deg_scale]].
  - apply (D (m + m + m + m)%nat); [|lia]. apply deg_mul; [|lia]. repeat apply deg_add; try lia;
      [apply (D (m + m)%nat); [apply deg_mul; lia|lia]..|apply deg_mul; [apply deg_mul|]; lia].
  - eapply D; [|exact B]. repeat apply deg_mul; try (apply NF; lia). lia.
  - apply (D (m + m + m + m + m)%nat); [|lia]. repeat apply deg_mul; try (apply DF; lia). rewrite length_shift. lia.
  - apply (D (m + m)%nat); [|lia]. apply deg_mul; [|lia]. rewrite length_psub. cbn [length]. lia.
Qed.
Hypothesis IZ : forall i, (i < n)%nat -> ev (dgen d ^ i) = 0.
(** The values of the quotient on the coset determine it. *)
Lemma coset_nz i : (dshift d4 * dgen d4 ^ i) ^ n - 1 <> 0.
Proof.
  clear IZ. intro E. apply (proj1 (fsub_0 K _ _)) in E. pose proof (coset_vanish K d4 i V4) as C. rewrite S4, Nat.mul_comm, fpow_mul, E, fpow_1 in C. destruct V4 as (_ & _ & _ & _ & _ & H). apply H. rewrite S4, Nat.mul_comm. symmetry. exact C.
Qed.
Lemma quotient_ok (t : nat -> K) : (forall i, (i < dsize d4)%nat -> t i = ev (dshift d4 * dgen d4 ^ i) * finv ((dshift d4 * dgen d4 ^ i) ^ n - 1)) ->
  let q := ptrim K (coset_idft d4 (map t (seq 0 (dsize d4)))) in (length q <= 4 * n)%nat /\ forall x, ev x = (x ^ n - 1) * peval q x.
Proof.
  intros T q. split; [unfold q; etransitivity; [apply length_ptrim|]; unfold coset_idft; rewrite length_shift, length_idft, S4; lia|].
  destruct (domain_div d ipoly V) as (h & Lh & Eh); [intros i Hi; rewrite peval_ipoly; apply IZ; exact Hi|]. fold n in Lh, Eh.
  assert (EQ : forall i, nth i q 0 = nth i h 0).
  { intro i. unfold q. rewrite nth_ptrim. replace (map t (seq 0 (dsize d4))) with (coset_dft d4 h); [apply coset_roundtrip; [exact V4|rewrite Lh, S4; pose proof length_ipoly; lia]|].
    apply (nth_ext _ _ 0 0); [unfold coset_dft; rewrite length_dft, map_length, seq_length; reflexivity|]. intros j Hj. unfold coset_dft in Hj. rewrite length_dft in Hj. rewrite nth_coset_dft by exact Hj.
    rewrite nth_ms by exact Hj. rewrite (T j Hj), <- peval_ipoly, Eh. set (y := (dshift d4 * dgen d4 ^ j)). replace ((y ^ n - 1) * peval h y * finv (y ^ n - 1)) with (peval h y * (finv (y ^ n - 1) * (y ^ n - 1))) by ring.
    rewrite finv_l by apply coset_nz. ring. }
  intro x. rewrite <- peval_ipoly, Eh, (nth_eq_peval K q h EQ). reflexivity.
Qed.
End Q.
Lemma next4_ok (d d4 : dom K) i : valid_dom d4 -> dsize d4 = (4 * dsize d)%nat -> dgen d4 ^ 4 = dgen d -> (i < dsize d4)%nat ->
  (next4 (dsize d4) i < dsize d4)%nat /\ dgen d4 ^ next4 (dsize d4) i = dgen d4 ^ i * dgen d.
Proof.
  intros (Hn & E1 & _) S4 G Hi. unfold next4. rewrite S4 in *. replace (4 * dsize d / 4)%nat with (dsize d) by (rewrite Nat.mul_comm, Nat.div_mul; lia). rewrite <- G, <- fpow_add.
  pose proof (Nat.div_mod i 4 ltac:(lia)) as DM. pose proof (Nat.mod_upper_bound i 4 ltac:(lia)) as MB.
  destruct (Nat.eqb_spec (i / 4) (dsize d - 1)) as [E|E].
  - split; [lia|]. replace (i + 4)%nat with (4 * dsize d + Nat.modulo i 4)%nat by lia. rewrite fpow_add, E1. ring.
  - split; [|reflexivity]. assert (i / 4 < dsize d)%nat by (apply Nat.div_lt_upper_bound; lia). lia.
Qed.
End P.
