(** Theorems C09-C14: 32-bit words and packed equalities. *)
From Verif Require Import Field ModelLC SpecLC ModelCS SpecCS ModelBoolean SpecBoolean ModelUint32 SpecUint32 ProofsUint32 ProofsWord ProofsAddmany.
Local Open Scope Z_scope.

(** ** C09 *)
Theorem C09_constant : forall (K : PFld) (s : cs K) (v : Z), 0 <= v < 2 ^ 32 ->
  word_in s (u32_constant v) /\ word_honest s (u32_constant v) /\ forall x, wval (K := K) x (u32_constant v) = v.
Proof. intros K s v H. destruct (constant_in K s v H). split; [assumption|]. split; [assumption|]. intro x. exact (wval_constant K x v H). Qed.
Print Assumptions C09_constant.
Theorem C09_alloc : forall (K : PFld) (value : option Z) (s : cs K), wf s ->
  (forall v, value = Some v -> 0 <= v < 2 ^ 32) ->
  spec (u32_alloc value) s (fun t u => word_in t u /\ uval u = value) (fun _ _ => True)
    (exists v, value = Some v) (fun t u => word_honest t u).
Proof. exact u32_alloc_spec. Qed.
Print Assumptions C09_alloc.
Theorem C09_rotr : forall (K : PFld) (s : cs K) (u : u32) (k : nat), word_in s u ->
  word_in s (u32_rotr u k) /\ (word_honest s u -> word_honest s (u32_rotr u k)) /\
  forall x : var -> K, wval x (u32_rotr u k) = rotr32 (wval x u) (Z.of_nat (k mod 32)).
Proof.
  intros K s u k W. destruct (word_rotr K s u k W). split; [assumption|]. split; [assumption|].
  intro x. exact (wval_rotr K s x u k W).
Qed.
Print Assumptions C09_rotr.
Theorem C09_from_bits : forall (K : PFld) (s : cs K) (bs : list boolean), length bs = 32%nat -> Forall (bool_in s) bs ->
  exists u, u32_from_bits bs = Ok u /\ u32_into_bits u = bs /\ word_in s u /\
    (Forall (b_honest s) bs -> word_honest s u) /\ forall x, wval (K := K) x u = Z_of_bits (map (btrue x) bs).
Proof.
  intros K s bs L B. destruct (from_bits_ok K s bs L B) as (u & A1 & A2 & A3 & A4).
  exists u. split; [exact A1|]. split; [exact A2|]. split; [exact A3|]. split; [exact A4|].
  intro x. unfold wval. rewrite A2. reflexivity.
Qed.
Print Assumptions C09_from_bits.
Theorem C09_from_bits_be : forall (K : PFld) (s : cs K) (bs : list boolean), length bs = 32%nat -> Forall (bool_in s) bs ->
  exists u, u32_from_bits_be bs = Ok u /\ u32_into_bits_be u = bs /\ word_in s u /\
    (Forall (b_honest s) bs -> word_honest s u) /\ forall x, wval (K := K) x u = Z_of_bits (map (btrue x) (rev bs)).
Proof.
  intros K s bs L B. destruct (from_bits_be_ok K s bs L B) as (u & A1 & A2 & A3 & A4).
  exists u. split; [exact A1|]. split; [unfold u32_into_bits_be; rewrite A2; apply rev_involutive|]. split; [exact A3|].
  split; [exact A4|]. intro x. unfold wval. rewrite A2. reflexivity.
Qed.
Print Assumptions C09_from_bits_be.
Theorem C09_other_lengths_panic : forall bs, length bs <> 32%nat -> u32_from_bits bs = Panic /\ u32_from_bits_be bs = Panic.
Proof. exact from_bits_panics. Qed.
Print Assumptions C09_other_lengths_panic.

(** ** C10 *)
Theorem C10_shr : forall (K : PFld) (s : cs K) (u : u32) (k : nat), word_in s u ->
  word_in s (u32_shr u k) /\ (word_honest s u -> word_honest s (u32_shr u k)) /\
  forall x : var -> K, wval x (u32_shr u k) = wval x u / 2 ^ Z.of_nat (k mod 32).
Proof.
  intros K s u k W. destruct (word_shr K s u k W). split; [assumption|]. split; [assumption|].
  intro x. exact (wval_shr K s x u k W).
Qed.
Print Assumptions C10_shr.
(** Finding: a shift by 32 or more is not the integer shift. *)
Theorem C10_shr_by_32_is_identity : forall (K : PFld) (s : cs K) (u : u32) (n : nat), word_in s u ->
  forall x : var -> K, wval x (u32_shr u (32 * n)) = wval x u.
Proof. exact shr_32n. Qed.
Print Assumptions C10_shr_by_32_is_identity.

(** ** C11 *)
Theorem C11_xor : forall (K : PFld) (a b : u32) (s : cs K), wf s -> word_in s a -> word_in s b ->
  spec (u32_xor a b) s word_in (fun x r => wval x r = Z.lxor (wval x a) (wval x b))
    (word_honest s a /\ word_honest s b) word_honest.
Proof. exact u32_xor_spec. Qed.
Print Assumptions C11_xor.
Theorem C11_ch : forall (K : PFld) (a b c : u32) (s : cs K), wf s -> word_in s a -> word_in s b -> word_in s c ->
  spec (u32_ch a b c) s word_in (fun x r => wval x r = ch32 (wval x a) (wval x b) (wval x c))
    (word_honest s a /\ word_honest s b /\ word_honest s c) word_honest.
Proof. exact u32_ch_spec. Qed.
Print Assumptions C11_ch.
Theorem C11_maj : forall (K : PFld) (a b c : u32) (s : cs K), wf s -> word_in s a -> word_in s b -> word_in s c ->
  spec (u32_maj a b c) s word_in (fun x r => wval x r = maj32 (wval x a) (wval x b) (wval x c))
    (word_honest s a /\ word_honest s b /\ word_honest s c) word_honest.
Proof. exact u32_maj_spec. Qed.
Print Assumptions C11_maj.

(** ** C12 *)
Theorem C12_addmany : forall (K : PFld) (ops : list u32) (s : cs K), 64 <= modulus_bits K -> (2 <= length ops <= 10)%nat ->
  wf s -> Forall (word_in s) ops ->
  spec (with_multieq (u32_addmany ops)) s word_in (fun x r => wval x r = zsum (map (wval x) ops) mod 2 ^ 32)
    (Forall (word_honest s) ops) word_honest.
Proof. exact addmany_closed. Qed.
Print Assumptions C12_addmany.
Theorem C12_addmany_batched : forall (K : PFld) (jobs : list (list u32)) (s : cs K), 64 <= modulus_bits K ->
  Forall (fun ops => 2 <= length ops <= 10)%nat jobs -> wf s -> Forall (Forall (word_in s)) jobs ->
  spec (with_multieq (mmapM u32_addmany jobs)) s (fun t rs => Forall (word_in t) rs)
    (fun x rs => map (wval x) rs = map (fun ops => zsum (map (wval x) ops) mod 2 ^ 32) jobs)
    (Forall (Forall (word_honest s)) jobs) (fun t rs => Forall (word_honest t) rs).
Proof. exact addmany_batch. Qed.
Print Assumptions C12_addmany_batched.
Theorem C12_addmany_panics : forall (K : PFld) (ops : list u32) (w : cs K * meq K),
  (length ops < 2 \/ 10 < length ops)%nat \/ modulus_bits K < 64 -> u32_addmany ops w = Panic.
Proof. exact u32_addmany_panics. Qed.
Print Assumptions C12_addmany_panics.

(** ** C13 *)
Theorem C13_multieq : forall (K : PFld) (calls : list (call (K := K))) (s : cs K),
  match with_multieq (mmapM call_run calls) s with
  | Ok (_, s') => forall x, x ONE = f1 -> Forall (call_width x) calls ->
      (sat x s' <-> sat x s /\ Forall (call_eq x) calls)
  | Err _ => False
  | Panic => Exists (fun '(n, _, _) => capacity K <= Z.of_nat n) calls
  end.
Proof. exact multieq_exact. Qed.
Print Assumptions C13_multieq.

(** ** C14 *)
(** Finding: calls of declared width zero leave no constraint. *)
Theorem C14_zero_width_dropped : forall (K : PFld) (calls : list (call (K := K))) (s : cs K), 0 < capacity K ->
  Forall (fun '(n, _, _) => n = 0%nat) calls ->
  exists us, with_multieq (mmapM call_run calls) s = Ok (us, s).
Proof. exact multieq_zero_width. Qed.
Print Assumptions C14_zero_width_dropped.
Theorem C14_unequal_accepted : forall (K : PFld) (s : cs K) (x : var -> K) (l r : lc K), 0 < capacity K ->
  sat x s -> eval x l <> eval x r ->
  exists us s', with_multieq (mmapM call_run [(0%nat, l, r)]) s = Ok (us, s') /\ sat x s' /\ ~ call_eq x (0%nat, l, r).
Proof. exact zero_width_unequal. Qed.
Print Assumptions C14_unequal_accepted.

(** ** Concrete instances *)
From Verif Require Import Gold ProofsCS.
Section Ex.
Let K : PFld := Fg.
Definition sat_b {F : Fld} (s : cs F) : bool :=
  forallb (fun c => feqb (eval (wit s) (ca c) * eval (wit s) (cb c))%fld (eval (wit s) (cc c))) (cons s).
(** An allocated word, a constant, rotation, shift, xor, ch, maj and additions. *)
Definition ex_words : M K (list u32) :=
  a <- u32_alloc (Some 3735928559) ;; b <- u32_alloc (Some 4276993775) ;;
  let c := u32_constant 305419896 in
  x1 <- u32_xor a (u32_rotr b 40) ;; x2 <- u32_ch a b c ;; x3 <- u32_maj x1 (u32_shr x2 35) c ;;
  rs <- with_multieq (mmapM u32_addmany [[a; b]; [x1; x2; x3; c]]) ;;
  ret (x1 :: x2 :: x3 :: rs).
Example ex_C09_C12 : match ex_words (cs_new Prove) with
  | Ok (rs, s) => sat_b s = true /\ map (wval (wit s)) rs =
      [Z.lxor 3735928559 (rotr32 4276993775 8); ch32 3735928559 4276993775 305419896;
       maj32 (Z.lxor 3735928559 (rotr32 4276993775 8)) (ch32 3735928559 4276993775 305419896 / 8) 305419896;
       (3735928559 + 4276993775) mod 2 ^ 32;
       (Z.lxor 3735928559 (rotr32 4276993775 8) + ch32 3735928559 4276993775 305419896 +
        maj32 (Z.lxor 3735928559 (rotr32 4276993775 8)) (ch32 3735928559 4276993775 305419896 / 8) 305419896 + 305419896) mod 2 ^ 32]
      /\ map uval rs = map (fun u => Some (wval (wit s) u)) rs
  | _ => False end.
Proof. vm_compute. repeat split. Qed.
Example ex_C12_field : 64 <= modulus_bits K /\ 0 < capacity K. Proof. split; vm_compute; congruence. Qed.
(** Two equalities of widths 40 and 30 exceed one 63-bit constraint: two constraints appear. *)
Example ex_C13 : match with_multieq (mmapM call_run
    [(40%nat, lc_of (of_Z 5) ONE, lc_var (Input 1)); (30%nat, lc_var (Aux 0), lc_of (of_Z 9) ONE)]) 
    (mkCS Prove [f1; of_Z 5] [of_Z (K := K) 9] []) with
  | Ok (_, s) => length (cons s) = 2%nat /\ sat_b s = true
  | _ => False end.
Proof. vm_compute. split; reflexivity. Qed.
Example ex_C14 : eval (wit (cs_new (K := K) Prove)) (lc_of (of_Z 5) ONE) <> eval (wit (cs_new Prove)) (lc_of (of_Z 6) ONE).
Proof. apply feqb_neq. vm_compute. reflexivity. Qed.
Example ex_C10 : exists u, word_in (cs_new (K := K) Prove) u /\ wval (wit (cs_new (K := K) Prove)) (u32_shr u 32) = 4276993775.
Proof. exists (u32_constant 4276993775). split; [apply constant_in; split; vm_compute; congruence|vm_compute; reflexivity]. Qed.
End Ex.
