(** Claims C01-C08: linear combinations, index codec, boolean gadgets.
    [spec m s W S H HR] (SpecCS.v) is the statement form for gadgets. *)
From Verif Require Import Field ModelLC SpecLC ProofsLC ModelCS SpecCS ProofsCS ModelBoolean SpecBoolean ProofsBoolean.
From Coq Require Import Permutation.
Local Open Scope fld_scope.

(** ** C01 *)
Theorem C01_lc_values : forall (K : Fld) (a : var -> K) (l m : lc K) (c : K) (v : var),
  eval a lc_zero = 0 /\ eval a (lc_of c v) = c * a v /\ eval a (lc_var v) = a v /\
  eval a (lc_neg l) = - eval a l /\ eval a (lc_double l) = eval a l + eval a l /\
  eval a (lc_scale l c) = eval a l * c /\
  eval a (lc_add_term l c v) = eval a l + c * a v /\ eval a (lc_sub_term l c v) = eval a l - c * a v /\
  eval a (lc_add_var l v) = eval a l + a v /\ eval a (lc_sub_var l v) = eval a l - a v /\
  eval a (lc_add l m) = eval a l + eval a m /\ eval a (lc_sub l m) = eval a l - eval a m /\
  eval a (lc_add_scaled l c m) = eval a l + c * eval a m /\
  eval a (lc_sub_scaled l c m) = eval a l - c * eval a m.
Proof. exact lc_values. Qed.
Print Assumptions C01_lc_values.

Theorem C01_cvar_values : forall (K : Fld) (a : var -> K) (x y : cvar K) (o : lc K) (c : K) (v : var),
  ceval a (cvar_of_term K c v) = c * a v /\ ceval a (cvar_of_scaled K c x) = c * ceval a x /\
  ceval a (cvar_neg K x) = - ceval a x /\ ceval a (cvar_double K x) = ceval a x + ceval a x /\
  ceval a (cvar_mul K x c) = ceval a x * c /\
  eval a (cvar_add_lc K x o) = ceval a x + eval a o /\ eval a (cvar_sub_lc K x o) = ceval a x - eval a o /\
  ceval a (cvar_add_term K x c v) = ceval a x + c * a v /\ ceval a (cvar_sub_term K x c v) = ceval a x - c * a v /\
  ceval a (cvar_add K x y) = ceval a x + ceval a y /\ ceval a (cvar_sub K x y) = ceval a x - ceval a y /\
  ceval a (cvar_add_rr K x y) = ceval a x + ceval a y /\ ceval a (cvar_sub_rr K x y) = ceval a x - ceval a y /\
  ceval a (cvar_add_scaled K x c y) = ceval a x + c * ceval a y /\
  ceval a (cvar_sub_scaled K x c y) = ceval a x - c * ceval a y.
Proof. exact cvar_values. Qed.
Print Assumptions C01_cvar_values.

(** ** C02 *)
Theorem C02_lc_ordered : forall (K : Fld) (l : lc K), built l -> ordered l.
Proof. exact built_ordered. Qed.
Print Assumptions C02_lc_ordered.

(** ** C03 *)
Theorem C03_short_not_merged : forall (K : Fld) (l : lc K) (c d : K) (v : var), (length l < 5)%nat ->
  length (lc_add_term (lc_add_term l c v) d v) = S (S (length l)) /\
  Permutation (occurrences v (lc_add_term (lc_add_term l c v) d v)) (d :: c :: occurrences v l).
Proof. exact short_add_twice. Qed.
Print Assumptions C03_short_not_merged.
Theorem C03_long_merged : forall (K : Fld) (l : lc K) (c : K) (v : var),
  (6 <= length l)%nat -> ordered l -> (exists d, In (v, d) l) -> length (lc_add_term l c v) = length l.
Proof. exact long_add_merges. Qed.
Print Assumptions C03_long_merged.

(** ** C04 *)
Theorem C04_index_roundtrip : forall (i : uindex) (rest : list Z), (0 <= uindex_val i < 2 ^ 64)%Z ->
  length (index_serialize i) = index_serialized_size i /\
  index_deserialize (index_serialize i ++ rest) = Some (i, rest).
Proof. exact index_roundtrip. Qed.
Print Assumptions C04_index_roundtrip.
Theorem C04_index_not_canonical : forall (t u : Z) (rest : list Z), (0 < t < 256)%Z -> (0 <= u < 2 ^ 64)%Z ->
  index_deserialize ((t :: le_bytes 8 u) ++ rest) = Some (UAux u, rest).
Proof. exact index_noncanonical. Qed.
Print Assumptions C04_index_not_canonical.
Theorem C04_index_short : forall bs : list Z, (length bs < 9)%nat -> index_deserialize bs = None.
Proof. exact index_short. Qed.
Print Assumptions C04_index_short.

(** ** C05 *)
Theorem C05_alloc_bit : forall (K : Fld) (value : option bool) (s : cs K), wf s ->
  spec (bit_alloc value) s
    (fun s' r => allocated s' (bvar r) /\ ~ allocated s (bvar r) /\ bval r = value)
    (fun x r => x (bvar r) = 0 \/ x (bvar r) = 1)
    (exists t, value = Some t) (fun s' r => b_honest s' (BIs r)).
Proof. exact bit_alloc_spec. Qed.
Print Assumptions C05_alloc_bit.
Theorem C05_alloc_input_bit : forall (K : Fld) (value : option bool) (s : cs K), wf s ->
  spec (bit_alloc_input value) s
    (fun s' r => allocated s' (bvar r) /\ ~ allocated s (bvar r) /\ bval r = value)
    (fun x r => x (bvar r) = 0 \/ x (bvar r) = 1)
    (exists t, value = Some t) (fun s' r => b_honest s' (BIs r)).
Proof. exact bit_alloc_input_spec. Qed.
Print Assumptions C05_alloc_input_bit.
Theorem C05_alloc_conditionally : forall (K : Fld) (value : option bool) (g : abit) (s : cs K),
  wf s -> allocated s (bvar g) ->
  spec (bit_alloc_cond value g) s
    (fun s' r => allocated s' (bvar r) /\ ~ allocated s (bvar r) /\ bval r = value)
    (fun x r => x (bvar r) = 0 \/ x (bvar r) = 1 - x (bvar g))
    (exists t, value = Some t /\ (wit s (bvar g) = 0 \/ (wit s (bvar g) = 1 /\ t = false)))
    (fun s' r => b_honest s' (BIs r)).
Proof. exact bit_alloc_cond_spec. Qed.
Print Assumptions C05_alloc_conditionally.

(** ** C06 *)
Theorem C06_xor : forall (K : Fld) (a b : boolean) (s : cs K), wf s -> b_alloc_in s a -> b_alloc_in s b ->
  spec (b_xor a b) s b_alloc_in
    (fun x r => forall ta tb, means x a ta -> means x b tb -> means x r (xorb ta tb))
    (b_honest s a /\ b_honest s b) b_honest.
Proof. exact b_xor_spec. Qed.
Print Assumptions C06_xor.
Theorem C06_and : forall (K : Fld) (a b : boolean) (s : cs K), wf s -> b_alloc_in s a -> b_alloc_in s b ->
  spec (b_and a b) s b_alloc_in
    (fun x r => forall ta tb, means x a ta -> means x b tb -> means x r (andb ta tb))
    (b_honest s a /\ b_honest s b) b_honest.
Proof. exact b_and_spec. Qed.
Print Assumptions C06_and.
Theorem C06_and_not : forall (K : Fld) (a b : abit) (s : cs K), wf s -> allocated s (bvar a) -> allocated s (bvar b) ->
  spec (r <- bit_and_not a b ;; ret (BIs r)) s b_alloc_in
    (fun x r => forall ta tb, means x (BIs a) ta -> means x (BIs b) tb -> means x r (andb ta (negb tb)))
    (b_honest s (BIs a) /\ b_honest s (BIs b)) b_honest.
Proof. exact bit_and_not_spec. Qed.
Print Assumptions C06_and_not.
Theorem C06_nor : forall (K : Fld) (a b : abit) (s : cs K), wf s -> allocated s (bvar a) -> allocated s (bvar b) ->
  spec (r <- bit_nor a b ;; ret (BIs r)) s b_alloc_in
    (fun x r => forall ta tb, means x (BIs a) ta -> means x (BIs b) tb -> means x r (andb (negb ta) (negb tb)))
    (b_honest s (BIs a) /\ b_honest s (BIs b)) b_honest.
Proof. exact bit_nor_spec. Qed.
Print Assumptions C06_nor.
Theorem C06_not : forall (K : Fld) (x : var -> K) (b : boolean) (t : bool),
  means x b t -> means x (b_not b) (negb t) /\ b_value (b_not b) = option_map negb (b_value b).
Proof. exact b_not_full. Qed.
Print Assumptions C06_not.

(** ** C07 *)
Theorem C07_enforce_equal : forall (K : Fld) (a b : boolean) (s : cs K), wf s -> b_alloc_in s a -> b_alloc_in s b ->
  match b_enforce_equal a b s with
  | Ok (_, s') => ext s s' /\ wf s' /\ md s' = md s /\ inps s' = inps s /\ auxs s' = auxs s /\
      (forall x, sat x s' <-> sat x s /\ bden x a = bden x b)
  | Err e => e = Unsatisfiable /\ exists c, a = BConst c /\ b = BConst (negb c)
  | Panic => False
  end.
Proof. exact b_enforce_equal_spec. Qed.
Print Assumptions C07_enforce_equal.
Theorem C07_different_constants : forall (K : Fld) (c : bool) (s : cs K),
  b_enforce_equal (BConst c) (BConst (negb c)) s = Err Unsatisfiable.
Proof. exact b_enforce_equal_consts. Qed.
Print Assumptions C07_different_constants.

(** ** C08 *)
Theorem C08_ch : forall (K : Fld) (a b c : boolean) (s : cs K),
  wf s -> b_alloc_in s a -> b_alloc_in s b -> b_alloc_in s c ->
  spec (b_ch a b c) s b_alloc_in
    (fun x r => forall ta tb tc, means x a ta -> means x b tb -> means x c tc ->
       means x r (xorb (andb ta tb) (andb (negb ta) tc)))
    (b_honest s a /\ b_honest s b /\ b_honest s c) b_honest.
Proof. exact b_ch_spec. Qed.
Print Assumptions C08_ch.
Theorem C08_maj : forall (K : Fld) (a b c : boolean) (s : cs K),
  wf s -> b_alloc_in s a -> b_alloc_in s b -> b_alloc_in s c ->
  spec (b_maj a b c) s b_alloc_in
    (fun x r => forall ta tb tc, means x a ta -> means x b tb -> means x c tc ->
       means x r (xorb (xorb (andb ta tb) (andb ta tc)) (andb tb tc)))
    (b_honest s a /\ b_honest s b /\ b_honest s c) b_honest.
Proof. exact b_maj_spec. Qed.
Print Assumptions C08_maj.

(** ** Concrete instances meeting the hypotheses *)
From Verif Require Import Zp Gold.
Section Ex.
Let K : Fld := Fg.
Definition ex_l : lc K := lc_add_var (lc_sub_term (lc_add_term lc_zero (of_Z 3) (Aux 2)) (of_Z 5) (Input 1)) (Aux 2).
Example ex_C01 : eval (fun v => match v with Aux _ => of_Z 7 | Input _ => of_Z 2 end) (lc_add_scaled ex_l (of_Z 2) ex_l)
  = of_Z (K := K) 54.
Proof. apply feqb_eq. vm_compute. reflexivity. Qed.
Example ex_C02 : built ex_l /\ map fst ex_l = [Input 1; Aux 2; Aux 2].
Proof. split; [repeat constructor|vm_compute; reflexivity]. Qed.
Example ex_C03 : (length ex_l < 5)%nat /\ length (lc_add_term (lc_add_term ex_l 1 (Aux 9)) 1 (Aux 9)) = 5%nat.
Proof. split; vm_compute; [repeat constructor|reflexivity]. Qed.
Example ex_C03_long :
  let l := fold_left (fun l n => lc_add_var l (Aux n)) (seq 0 6) (lc_zero (K := K)) in
  length l = 6%nat /\ built l /\ length (lc_add_var l (Aux 3)) = 6%nat.
Proof. split; [reflexivity|]. split; [repeat constructor|reflexivity]. Qed.
Example ex_C04 : index_serialize (UAux 258) = [1;2;1;0;0;0;0;0;0]%Z /\
  index_deserialize [7;2;1;0;0;0;0;0;0;42]%Z = Some (UAux 258, [42]%Z).
Proof. split; reflexivity. Qed.
(** Two honest bits, one public; then gates on them, negations and constants. *)
Definition ex_bits (m : mode) : res ((abit * abit) * cs K) :=
  (a <- bit_alloc (Some true) ;; b <- bit_alloc_input (Some false) ;; ret (a, b)) (cs_new m).
Definition ex_gates (p : abit * abit) : M K (list boolean) :=
  let '(a, b) := p in
  r1 <- b_xor (BIs a) (BNot b) ;; r2 <- b_and (BNot a) (BNot b) ;;
  r3 <- b_ch (BIs a) (BIs b) (BNot a) ;; r4 <- b_maj (BIs a) (BNot b) (BConst false) ;;
  r5 <- b_maj r1 r2 r3 ;; c <- bit_alloc_cond (Some false) a ;;
  b_enforce_equal r4 (BIs a) ;;; ret [r1; r2; r3; r4; r5; BIs c].
Example ex_gadgets : match ex_bits Prove with
  | Ok (p, s) => md s = Prove /\
      match ex_gates p s with
      | Ok (rs, s') => map b_value rs = map Some [false; false; false; true; false; false] /\
          forallb (fun c => feqb (eval (wit s') (ca c) * eval (wit s') (cb c)) (eval (wit s') (cc c))) (cons s') = true
      | _ => False end
  | _ => False end.
Proof. vm_compute. repeat split. Qed.
Example ex_start : wf (cs_new (K := K) Prove) /\ self_sat (cs_new (K := K) Prove).
Proof. split; [apply wf_new|apply self_sat_new]. Qed.
End Ex.
