(** Theorems C15-C18 and C51: comparison, table lookups, field variables. *)
From Verif Require Import Field ModelLC SpecLC ModelCS SpecCS ModelBoolean SpecBoolean ModelOperator SpecOperator ProofsOperator ProofsRange.
Local Open Scope fld_scope.

(** ** C15 *)
Theorem C15_exact : forall (K : PFld) (rb : nat) (lhs rhs : option K) (n : nat) (s s' : cs K), wf s ->
  rangeproof rb lhs rhs n s = Ok (tt, s') -> (2 ^ (Z.of_nat n + 1) <= pmod K)%Z ->
  forall x0 : var -> K, sat x0 s -> forall a b : K,
  (exists x, continues s x0 x /\ sat x s' /\ x (rp_L s) = a /\ x (rp_R s) = b /\ x (rp_T s) = of_Z (2 ^ Z.of_nat n)) <->
  (1 <= toZ (b - a)%fld < 2 ^ Z.of_nat n)%Z.
Proof. exact rangeproof_exact. Qed.
Print Assumptions C15_exact.
Theorem C15_honest : forall (K : PFld) (rb : nat) (a b : K) (n : nat) (s s' : cs K), wf s -> md s = Prove -> self_sat s ->
  (2 ^ (Z.of_nat n + 1) <= pmod K)%Z -> rangeproof rb (Some a) (Some b) n s = Ok (tt, s') ->
  wit s' (rp_L s) = a /\ wit s' (rp_R s) = b /\ wit s' (rp_T s) = of_Z (2 ^ Z.of_nat n) /\
  (self_sat s' <-> (1 <= toZ (b - a)%fld < 2 ^ Z.of_nat n)%Z).
Proof. exact rangeproof_honest. Qed.
Print Assumptions C15_honest.
Theorem C15_runs : forall (K : PFld) (rb : nat) (lhs rhs : option K) (n : nat) (s : cs K),
  md s = Setup \/ (lhs <> None /\ rhs <> None) ->
  ((n < rb)%nat -> exists s', rangeproof rb lhs rhs n s = Ok (tt, s')) /\ ((rb <= n)%nat -> rangeproof rb lhs rhs n s = Panic).
Proof. exact rangeproof_runs. Qed.
Print Assumptions C15_runs.

(** ** C16 *)
Theorem C16_wraps : forall (K : PFld) (rb : nat) (lhs rhs : option K) (n : nat) (s s' : cs K), wf s ->
  rangeproof rb lhs rhs n s = Ok (tt, s') -> (1 <= n)%nat -> (2 ^ (Z.of_nat n + 1) <= pmod K)%Z ->
  forall x0 : var -> K, sat x0 s ->
  exists x, continues s x0 x /\ sat x s' /\ x (rp_T s) = of_Z (2 ^ Z.of_nat n) /\ (toZ (x (rp_R s)) < toZ (x (rp_L s)))%Z.
Proof. exact rangeproof_wraps. Qed.
Print Assumptions C16_wraps.
Theorem C16_width_unchecked : forall (K : PFld) (rb : nat) (lhs rhs : option K) (n : nat) (s s' : cs K), wf s ->
  rangeproof rb lhs rhs n s = Ok (tt, s') -> (1 <= n)%nat -> (2 ^ Z.of_nat n <= pmod K)%Z ->
  forall x0 : var -> K, sat x0 s -> forall a b : K,
  exists x, continues s x0 x /\ sat x s' /\ x (rp_L s) = a /\ x (rp_R s) = b.
Proof. exact rangeproof_width_unchecked. Qed.
Print Assumptions C16_width_unchecked.

(** ** C17 *)
Theorem C17_lookup1_unsound : forall (K : Fld) (b : boolean) (c0 c1 : K) (s : cs K), wf s -> b_alloc_in s b ->
  match lookup1_x b [c0; c1] s with
  | Ok (r, s') => forall x y, sat x s -> exists x', continues s x x' /\ sat x' s' /\ x' (fvar r) = y
  | Err _ => md s = Prove /\ b_value b = None
  | Panic => False
  end.
Proof. exact lookup1_unsound. Qed.
Print Assumptions C17_lookup1_unsound.

(** ** C18 *)
Theorem C18_lookup2_x : forall (K : Fld) (b0 b1 : boolean) (c : list K) (s : cs K),
  wf s -> b_alloc_in s b0 -> b_alloc_in s b1 -> length c = 4%nat ->
  spec (lookup2_x [b0; b1] c) s fr_in
    (fun x r => forall t0 t1, means x b0 t0 -> means x b1 t1 -> nth_error c (pos2 t0 t1) = Some (x (fvar r)))
    (b_honest s b0 /\ b_honest s b1) fr_honest.
Proof. exact lookup2_x_spec. Qed.
Print Assumptions C18_lookup2_x.
Theorem C18_lookup2_xy : forall (K : Fld) (b0 b1 : boolean) (c : list (K * K)) (s : cs K),
  wf s -> b_alloc_in s b0 -> b_alloc_in s b1 -> length c = 4%nat ->
  spec (lookup2_xy [b0; b1] c) s (fun t r => fr_in t (fst r) /\ fr_in t (snd r))
    (fun x r => forall t0 t1, means x b0 t0 -> means x b1 t1 ->
       nth_error c (pos2 t0 t1) = Some (x (fvar (fst r)), x (fvar (snd r))))
    (b_honest s b0 /\ b_honest s b1) (fun t r => fr_honest t (fst r) /\ fr_honest t (snd r)).
Proof. exact lookup2_xy_spec. Qed.
Print Assumptions C18_lookup2_xy.
Theorem C18_lookup3_x : forall (K : Fld) (b0 b1 b2 : boolean) (c : list K) (s : cs K),
  wf s -> b_alloc_in s b0 -> b_alloc_in s b1 -> b_alloc_in s b2 -> length c = 8%nat ->
  spec (lookup3_x [b0; b1; b2] c) s fr_in
    (fun x r => forall t0 t1 t2, means x b0 t0 -> means x b1 t1 -> means x b2 t2 ->
       nth_error c (pos3 t0 t1 t2) = Some (x (fvar r)))
    (b_honest s b0 /\ b_honest s b1 /\ b_honest s b2) fr_honest.
Proof. exact lookup3_x_spec. Qed.
Print Assumptions C18_lookup3_x.
Theorem C18_lookup3_xy : forall (K : Fld) (b0 b1 b2 : boolean) (c : list (K * K)) (s : cs K),
  wf s -> b_alloc_in s b0 -> b_alloc_in s b1 -> b_alloc_in s b2 -> length c = 8%nat ->
  spec (lookup3_xy [b0; b1; b2] c) s (fun t r => fr_in t (fst r) /\ fr_in t (snd r))
    (fun x r => forall t0 t1 t2, means x b0 t0 -> means x b1 t1 -> means x b2 t2 ->
       nth_error c (pos3 t0 t1 t2) = Some (x (fvar (fst r)), x (fvar (snd r))))
    (b_honest s b0 /\ b_honest s b1 /\ b_honest s b2) (fun t r => fr_honest t (fst r) /\ fr_honest t (snd r)).
Proof. exact lookup3_xy_spec. Qed.
Print Assumptions C18_lookup3_xy.
Theorem C18_wrong_lengths_panic : forall (K : Fld) (b : boolean) (bs : list boolean) (c : list K) (cc : list (K * K)) (s : cs K),
  (length c <> 2%nat -> lookup1_x b c s = Panic) /\
  (length bs <> 2%nat \/ length c <> 4%nat -> lookup2_x bs c s = Panic) /\
  (length bs <> 2%nat \/ length cc <> 4%nat -> lookup2_xy bs cc s = Panic) /\
  (length bs <> 3%nat \/ length c <> 8%nat -> lookup3_x bs c s = Panic) /\
  (length bs <> 3%nat \/ length cc <> 8%nat -> lookup3_xy bs cc s = Panic).
Proof. exact lookup_panics. Qed.
Print Assumptions C18_wrong_lengths_panic.

(** ** C51 *)
Theorem C51_inputize : forall (K : Fld) (a : afr K) (s : cs K), wf s -> fr_in s a ->
  spec (fr_inputize a) s
    (fun s' _ => inps s' = inps s ++ skipn (length (inps s)) (inps s') /\ length (inps s') = S (length (inps s)))
    (fun x _ => x (Input (length (inps s))) = x (fvar a)) (fr_honest s a)
    (fun s' _ => wit s' (Input (length (inps s))) = wit s (fvar a)).
Proof. exact fr_inputize_spec. Qed.
Print Assumptions C51_inputize.
Theorem C51_isnonzero : forall (K : Fld) (a : afr K) (s : cs K), wf s -> fr_in s a ->
  spec (fr_isnonzero a) s (fun _ _ => True) (fun x _ => x (fvar a) <> 0)
    (fr_honest s a /\ wit s (fvar a) <> 0) (fun _ _ => True).
Proof. exact fr_isnonzero_spec. Qed.
Print Assumptions C51_isnonzero.
Theorem C51_isnonzero_refuses_zero : forall (K : Fld) (a : afr K) (s : cs K),
  md s = Prove -> fval a = Some 0 -> fr_isnonzero a s = Err DivisionByZero.
Proof. exact fr_isnonzero_zero. Qed.
Print Assumptions C51_isnonzero_refuses_zero.

(** ** Concrete instances *)
From Verif Require Import Gold ProofsCS Properties2.
Section Ex.
Let K : PFld := Fg.
(** 250 < 258 with 4 bits; 250 < 266 does not fit; operands -1 and 3 wrap. *)
Example ex_C15 : match rangeproof (K := K) 64 (Some (of_Z 250)) (Some (of_Z 258)) 4 (cs_new Prove) with
  | Ok (_, s) => sat_b s = true /\ (2 ^ (4 + 1) <= pmod K)%Z | _ => False end.
Proof. vm_compute. split; [reflexivity|congruence]. Qed.
Example ex_C15_far : match rangeproof (K := K) 64 (Some (of_Z 250)) (Some (of_Z 266)) 4 (cs_new Prove) with
  | Ok (_, s) => sat_b s = false | _ => False end.
Proof. vm_compute. reflexivity. Qed.
Example ex_C16 : match rangeproof (K := K) 64 (Some (of_Z (-1))) (Some (of_Z 3)) 4 (cs_new Prove) with
  | Ok (_, s) => sat_b s = true /\ (toZ (of_Z 3 : K) < toZ (of_Z (-1) : K))%Z | _ => False end.
Proof. vm_compute. split; reflexivity. Qed.
Example ex_C15_panic : match rangeproof (K := K) 64 (Some (of_Z 1)) (Some (of_Z 2)) 64 (cs_new Prove) with Panic => True | _ => False end.
Proof. vm_compute. exact I. Qed.
(** Lookup in an 8-entry table with an allocated bit, its negation and a constant. *)
Definition ex_look : M K (afr K * afr K * afr K) :=
  a <- bit_alloc (Some true) ;;
  let bs := [BIs a; BNot a; BConst true] in
  let t := map (fun i => of_Z (K := K) (Z.of_nat (i * i + 7))) (seq 0 8) in
  r <- lookup3_x bs t ;;
  q <- lookup2_x [BNot a; BIs a] (firstn 4 t) ;;
  p <- lookup1_x (BIs a) (firstn 2 t) ;;
  fr_isnonzero r ;;; fr_inputize q ;;; ret (r, q, p).
Example ex_C17_C18_C51 : match ex_look (cs_new Prove) with
  | Ok ((r, q, p), s) => sat_b s = true /\ feqb (wit s (fvar r)) (of_Z 32) = true /\ feqb (wit s (fvar q)) (of_Z 11) = true /\
     feqb (wit s (Input 1)) (of_Z 11) = true
  | _ => False end.
Proof. vm_compute. repeat split. Qed.
End Ex.
