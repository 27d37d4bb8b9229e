(** Fields, results, finite sums. The Rust code is generic in `F: Field` /
    `F: PrimeField` (ark_ff); [Fld] and [PFld] are the interfaces it relies on. *)
From Coq Require Export List ZArith Znumtheory Lia Bool Ring Field.
Export ListNotations.

(** Outcome of a Rust call: value, `Err(SynthesisError::..)`, or panic.
    Error tags follow r1cs/src/error.rs (SynthesisError variants used by the
    modelled code). *)
Inductive err :=
| AssignmentMissing | DivisionByZero | Unsatisfiable | PolynomialDegreeTooLarge
| UnexpectedIdentity | IoError | MalformedVerifyingKey | UnconstrainedVariable | OtherError
(* marlin/src/pc/data_structures.rs:12-23 `Error` *)
| MissingPolynomial | MissingEvaluation | DegreeIsZero | DegreeOutOfBound | HidingBoundIsZero
| HidingBoundTooLarge | MissingRng | TrimmingDegreeTooLarge
(* marlin/src/ahp/mod.rs:14-21, marlin/src/errors.rs:7-13 `Error` *)
| InstanceDoesNotMatchIndex | NonSquareMatrix | MissingEval | IndexTooLarge.

Inductive res (A : Type) :=
| Ok (a : A) | Err (e : err) | Panic.
Arguments Ok {A} a. Arguments Err {A} e. Arguments Panic {A}.

Definition rbind {A B} (m : res A) (f : A -> res B) : res B :=
  match m with Ok a => f a | Err e => Err e | Panic => Panic end.
Definition rmap {A B} (f : A -> B) (m : res A) : res B :=
  match m with Ok a => Ok (f a) | Err e => Err e | Panic => Panic end.

(** A field with decidable equality (ark_ff::Field). [finv f0] is unspecified:
    code that inverts must model the `None`/panic branch itself. *)
Record Fld := mkFld {
  car :> Type;
  f0 : car;
  f1 : car;
  fadd : car -> car -> car;
  fmul : car -> car -> car;
  fsub : car -> car -> car;
  fopp : car -> car;
  fdiv : car -> car -> car;
  finv : car -> car;
  feqb : car -> car -> bool;
  f_laws : field_theory f0 f1 fadd fmul fsub fopp fdiv finv (@eq car);
  feqb_spec : forall x y, reflect (x = y) (feqb x y)
}.
Arguments f0 {_}. Arguments f1 {_}. Arguments fadd {_}. Arguments fmul {_}.
Arguments fsub {_}. Arguments fopp {_}. Arguments fdiv {_}. Arguments finv {_}.
Arguments feqb {_}.

Declare Scope fld_scope.
Delimit Scope fld_scope with fld.
Notation "0" := f0 : fld_scope.
Notation "1" := f1 : fld_scope.
Infix "+" := fadd : fld_scope.
Infix "*" := fmul : fld_scope.
Infix "-" := fsub : fld_scope.
Infix "/" := fdiv : fld_scope.
Notation "- x" := (fopp x) : fld_scope.

Section Basic.
Variable K : Fld.
Local Open Scope fld_scope.
Add Field Kfield : (f_laws K).

(** `F::from(u)` for an unsigned integer and its extension to Z. *)
Fixpoint of_pos (p : positive) : K :=
  match p with
  | xH => 1
  | xO q => let y := of_pos q in y + y
  | xI q => let y := of_pos q in 1 + (y + y)
  end.
Definition of_Z (z : Z) : K :=
  match z with Z0 => 0 | Zpos p => of_pos p | Zneg p => - of_pos p end.
Definition of_bool (b : bool) : K := if b then 1 else 0.

Fixpoint fpow (x : K) (n : nat) : K :=
  match n with O => 1 | S m => x * fpow x m end.

Fixpoint fsum (l : list K) : K :=
  match l with [] => 0 | x :: r => x + fsum r end.
Fixpoint fprod (l : list K) : K :=
  match l with [] => 1 | x :: r => x * fprod r end.

(** Inner product of the zipped prefix (Rust `zip`). *)
Fixpoint dot (a b : list K) : K :=
  match a, b with x :: a', y :: b' => x * y + dot a' b' | _, _ => 0 end.

End Basic.
Arguments of_Z {K}. Arguments of_pos {K}. Arguments of_bool {K}.
Arguments fpow {K}. Arguments fsum {K}. Arguments fprod {K}. Arguments dot {K}.
Infix "^" := fpow : fld_scope.

Section Lemmas.
Variable K : Fld.
Local Open Scope fld_scope.
Add Field Kfield2 : (f_laws K).

Lemma f_1_neq_0 : (1 : K) <> 0.
Proof. exact (F_1_neq_0 (f_laws K)). Qed.

Lemma finv_l (x : K) : x <> 0 -> finv x * x = 1.
Proof. exact (Finv_l (f_laws K) x). Qed.
Lemma finv_r (x : K) : x <> 0 -> x * finv x = 1.
Proof. intro H. rewrite <- (finv_l x H). ring. Qed.

Lemma feqb_eq (x y : K) : feqb x y = true <-> x = y.
Proof. destruct (feqb_spec K x y); split; congruence. Qed.
Lemma feqb_neq (x y : K) : feqb x y = false <-> x <> y.
Proof. destruct (feqb_spec K x y); split; congruence. Qed.
Lemma feqb_refl (x : K) : feqb x x = true.
Proof. apply feqb_eq; reflexivity. Qed.
Lemma feq_dec (x y : K) : {x = y} + {x <> y}.
Proof. destruct (feqb_spec K x y); auto. Qed.

Lemma f_integral (x y : K) : x * y = 0 -> x = 0 \/ y = 0.
Proof.
  intro H. destruct (feq_dec x 0) as [E|E]; [auto|right].
  assert (finv x * (x * y) = 0) as Q by (rewrite H; ring).
  replace (finv x * (x * y)) with ((finv x * x) * y) in Q by ring.
  rewrite (finv_l x E) in Q. rewrite <- Q. ring.
Qed.
Lemma f_mul_nz (x y : K) : x <> 0 -> y <> 0 -> x * y <> 0.
Proof. intros Hx Hy H. destruct (f_integral _ _ H); auto. Qed.
Lemma fsub_0 (x y : K) : x - y = 0 <-> x = y.
Proof.
  split; intro H; [|subst; ring].
  replace x with ((x - y) + y) by ring. rewrite H. ring.
Qed.
Lemma f_mul_cancel_l (a x y : K) : a <> 0 -> a * x = a * y -> x = y.
Proof.
  intros Ha H. apply fsub_0. assert (a * (x - y) = 0) as Q.
  { replace (a * (x - y)) with (a * x - a * y) by ring. rewrite H. ring. }
  destruct (f_integral _ _ Q); [contradiction|assumption].
Qed.
Lemma fopp_inj (x y : K) : - x = - y -> x = y.
Proof. intro H. replace x with (- - x) by ring. rewrite H. ring. Qed.
Lemma finv_nz (x : K) : x <> 0 -> finv x <> 0.
Proof.
  intros H E. apply f_1_neq_0. rewrite <- (finv_l x H), E. ring.
Qed.
Lemma finv_unique (x y : K) : x * y = 1 -> y = finv x.
Proof.
  intro H. assert (x <> 0) as Hx.
  { intro E. apply f_1_neq_0. rewrite <- H, E. ring. }
  apply (f_mul_cancel_l x _ _ Hx). rewrite H, (finv_r x Hx). reflexivity.
Qed.
Lemma fdiv_mul (x y : K) : y <> 0 -> (x / y) * y = x.
Proof. intro H. field. exact H. Qed.
Lemma fdiv_def (x y : K) : x / y = x * finv y.
Proof. exact (Fdiv_def (f_laws K) x y). Qed.

Lemma bool_cases (x : K) : (1 - x) * x = 0 <-> (x = 0 \/ x = 1).
Proof.
  split.
  - intro H. destruct (f_integral _ _ H) as [E|E]; [right|left; exact E].
    symmetry. apply fsub_0. exact E.
  - intros [E|E]; subst; ring.
Qed.
Lemma of_bool_inj (a b : bool) : of_bool (K:=K) a = of_bool b -> a = b.
Proof.
  destruct a, b; cbn; intro H; try reflexivity.
  - destruct (f_1_neq_0 H).
  - symmetry in H. destruct (f_1_neq_0 H).
Qed.

(** of_Z is a ring morphism. *)
Lemma of_pos_succ p : of_pos (Pos.succ p) = (1 + of_pos p : K).
Proof.
  induction p as [p IH|p IH|]; cbn [of_pos Pos.succ]; try ring.
  rewrite IH. ring.
Qed.
Lemma of_pos_add p q : of_pos (p + q) = (of_pos p + of_pos q : K).
Proof.
  revert q. induction p as [|p IH] using Pos.peano_ind; intro q.
  - rewrite Pos.add_1_l, of_pos_succ. cbn [of_pos]. ring.
  - rewrite Pos.add_succ_l, !of_pos_succ, IH. ring.
Qed.
Lemma of_pos_sub p q : (q < p)%positive -> of_pos (p - q) = (of_pos p - of_pos q : K).
Proof.
  intro H. assert (of_pos ((p - q) + q) = (of_pos (p - q) + of_pos q : K)) as E
    by apply of_pos_add.
  rewrite Pos.sub_add in E by exact H. rewrite E. ring.
Qed.
Lemma of_pos_mul p q : of_pos (p * q) = (of_pos p * of_pos q : K).
Proof.
  induction p as [|p IH] using Pos.peano_ind.
  - cbn [of_pos]. rewrite Pos.mul_1_l. ring.
  - rewrite Pos.mul_succ_l, of_pos_add, of_pos_succ, IH. ring.
Qed.
Lemma of_Z_0 : of_Z 0 = (0 : K). Proof. reflexivity. Qed.
Lemma of_Z_1 : of_Z 1 = (1 : K). Proof. reflexivity. Qed.
Lemma of_Z_opp a : of_Z (- a) = (- of_Z a : K).
Proof. destruct a; cbn; ring. Qed.
Lemma of_Z_add a b : of_Z (a + b) = (of_Z a + of_Z b : K).
Proof.
  destruct a as [|p|p], b as [|q|q]; cbn [of_Z Z.add]; try ring;
    rewrite ?of_pos_add; try ring.
  - rewrite Z.pos_sub_spec. destruct (Pos.compare_spec p q) as [E|E|E].
    + subst. cbn. ring.
    + cbn [of_Z]. rewrite of_pos_sub by exact E. ring.
    + cbn [of_Z]. rewrite of_pos_sub by exact E. ring.
  - rewrite Z.pos_sub_spec. destruct (Pos.compare_spec q p) as [E|E|E].
    + subst. cbn. ring.
    + cbn [of_Z]. rewrite of_pos_sub by exact E. ring.
    + cbn [of_Z]. rewrite of_pos_sub by exact E. ring.
Qed.
Lemma of_Z_sub a b : of_Z (a - b) = (of_Z a - of_Z b : K).
Proof. unfold Z.sub. rewrite of_Z_add, of_Z_opp. ring. Qed.
Lemma of_Z_mul a b : of_Z (a * b) = (of_Z a * of_Z b : K).
Proof.
  destruct a as [|p|p], b as [|q|q]; cbn [of_Z Z.mul]; rewrite ?of_pos_mul; ring.
Qed.
Lemma of_Z_b2z b : of_Z (Z.b2z b) = (of_bool b : K).
Proof. destruct b; reflexivity. Qed.

(** Sums and products. *)
Lemma fsum_app (l r : list K) : fsum (l ++ r) = fsum l + fsum r.
Proof. induction l as [|x l IH]; cbn; [ring|]. rewrite IH. ring. Qed.
Lemma fprod_app (l r : list K) : fprod (l ++ r) = fprod l * fprod r.
Proof. induction l as [|x l IH]; cbn; [ring|]. rewrite IH. ring. Qed.
Lemma fsum_map_add {A} (f g : A -> K) l :
  fsum (map (fun x => f x + g x) l) = fsum (map f l) + fsum (map g l).
Proof. induction l as [|x l IH]; cbn; [ring|]. rewrite IH. ring. Qed.
Lemma fsum_map_sub {A} (f g : A -> K) l :
  fsum (map (fun x => f x - g x) l) = fsum (map f l) - fsum (map g l).
Proof. induction l as [|x l IH]; cbn; [ring|]. rewrite IH. ring. Qed.
Lemma fsum_map_mul_l {A} (c : K) (f : A -> K) l :
  fsum (map (fun x => c * f x) l) = c * fsum (map f l).
Proof. induction l as [|x l IH]; cbn; [ring|]. rewrite IH. ring. Qed.
Lemma fsum_map_mul_r {A} (c : K) (f : A -> K) l :
  fsum (map (fun x => f x * c) l) = fsum (map f l) * c.
Proof. induction l as [|x l IH]; cbn; [ring|]. rewrite IH. ring. Qed.
Lemma fsum_map_0 {A} (f : A -> K) l : (forall x, In x l -> f x = 0) -> fsum (map f l) = 0.
Proof.
  induction l as [|x l IH]; cbn; intro H; [reflexivity|].
  rewrite (H x) by auto. rewrite IH by auto. ring.
Qed.
Lemma fsum_map_ext {A} (f g : A -> K) l :
  (forall x, In x l -> f x = g x) -> fsum (map f l) = fsum (map g l).
Proof. intro H. f_equal. apply map_ext_in. exact H. Qed.
Lemma fsum_swap {A B} (f : A -> B -> K) l m :
  fsum (map (fun x => fsum (map (f x) m)) l) =
  fsum (map (fun y => fsum (map (fun x => f x y) l)) m).
Proof.
  induction l as [|x l IH]; cbn.
  - symmetry. apply fsum_map_0. reflexivity.
  - rewrite IH. rewrite <- fsum_map_add. reflexivity.
Qed.
Lemma fpow_add (x : K) m n : x ^ (m + n) = x ^ m * x ^ n.
Proof. induction m as [|m IH]; cbn; [ring|]. rewrite IH. ring. Qed.
Lemma fpow_mul_base (x y : K) n : (x * y) ^ n = x ^ n * y ^ n.
Proof. induction n as [|n IH]; cbn; [ring|]. rewrite IH. ring. Qed.
Lemma fpow_1 n : (1 : K) ^ n = 1.
Proof. induction n as [|n IH]; cbn; [ring|]. rewrite IH. ring. Qed.
Lemma fpow_mul (x : K) m n : x ^ (m * n) = (x ^ m) ^ n.
Proof.
  induction n as [|n IH]; cbn.
  - rewrite Nat.mul_0_r. reflexivity.
  - rewrite Nat.mul_succ_r, Nat.add_comm, fpow_add, IH. reflexivity.
Qed.
Lemma fpow_nz (x : K) n : x <> 0 -> x ^ n <> 0.
Proof.
  intro H. induction n as [|n IH]; cbn; [exact f_1_neq_0|]. apply f_mul_nz; auto.
Qed.

Lemma dot_nil_r (a : list K) : dot a [] = 0.
Proof. destruct a; reflexivity. Qed.
Lemma dot_app (a b c d : list K) : length a = length c ->
  dot (a ++ b) (c ++ d) = dot a c + dot b d.
Proof.
  revert c. induction a as [|x a IH]; intros [|y c] H; cbn in *; try discriminate; [ring|].
  rewrite IH by lia. ring.
Qed.
Lemma dot_comm (a b : list K) : dot a b = dot b a.
Proof.
  revert b. induction a as [|x a IH]; intros [|y b]; cbn; try reflexivity.
  rewrite IH. ring.
Qed.
Lemma dot_scale_l (c : K) a b : dot (map (fun x => c * x) a) b = c * dot a b.
Proof.
  revert b. induction a as [|x a IH]; intros [|y b]; cbn; try ring.
  rewrite IH. ring.
Qed.
End Lemmas.

(** Prime fields (ark_ff::PrimeField): [pmod] = MODULUS, [toZ] = into_repr. *)
Record PFld := mkPFld {
  pfld :> Fld;
  pmod : Z;
  pmod_prime : prime pmod;
  toZ : pfld -> Z;
  toZ_range : forall x, (0 <= toZ x < pmod)%Z;
  of_toZ : forall x, of_Z (toZ x) = x;
  of_Z_eq_iff : forall a b, of_Z (K:=pfld) a = of_Z b <-> (a mod pmod = b mod pmod)%Z
}.
Arguments toZ {_}. Arguments toZ_range {_}. Arguments of_toZ {_}. Arguments of_Z_eq_iff {_}.

(** MODULUS_BITS = number of bits of the modulus; CAPACITY = MODULUS_BITS - 1
    (ark_ff FpParameters, cf. curve25519/src/fr.rs:40-42). *)
Definition modulus_bits (K : PFld) : Z := (Z.log2 (pmod K) + 1)%Z.
Definition capacity (K : PFld) : Z := (modulus_bits K - 1)%Z.

Section PLemmas.
Variable K : PFld.
Local Open Scope Z_scope.
Lemma pmod_gt1 : 1 < pmod K.
Proof. destruct (pmod_prime K); lia. Qed.
Lemma to_of_Z a : toZ (of_Z a : K) = a mod pmod K.
Proof.
  pose proof (toZ_range (of_Z a : K)) as R.
  assert (of_Z (K:=K) (toZ (of_Z a : K)) = of_Z a) as E by apply of_toZ.
  apply of_Z_eq_iff in E. rewrite (Z.mod_small (toZ _)) in E by exact R. exact E.
Qed.
Lemma to_of_Z_small a : 0 <= a < pmod K -> toZ (of_Z a : K) = a.
Proof. intro H. rewrite to_of_Z. apply Z.mod_small; exact H. Qed.
Lemma toZ_inj (x y : K) : toZ x = toZ y -> x = y.
Proof. intro H. rewrite <- (of_toZ x), <- (of_toZ y), H. reflexivity. Qed.
Lemma of_Z_inj_small a b : 0 <= a < pmod K -> 0 <= b < pmod K ->
  of_Z (K:=K) a = of_Z b -> a = b.
Proof.
  intros Ha Hb E. apply of_Z_eq_iff in E. rewrite !Z.mod_small in E; assumption.
Qed.
Lemma pow_capacity_lt : 2 ^ capacity K <= pmod K.
Proof.
  unfold capacity, modulus_bits. replace (Z.log2 (pmod K) + 1 - 1) with (Z.log2 (pmod K)) by lia.
  apply Z.log2_spec. pose proof pmod_gt1. lia.
Qed.
Lemma pmod_pow_capacity : pmod K < 2 ^ (capacity K + 1).
Proof.
  unfold capacity, modulus_bits. replace (Z.log2 (pmod K) + 1 - 1) with (Z.log2 (pmod K)) by lia.
  apply Z.log2_spec. pose proof pmod_gt1. lia.
Qed.
End PLemmas.
