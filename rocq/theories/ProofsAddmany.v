(** Allocation of words and modular addition. *)
From Verif Require Import Field ModelLC SpecLC ProofsLC ModelCS SpecCS ProofsCS ModelBoolean SpecBoolean ProofsBoolean ModelUint32 SpecUint32 ProofsUint32 ProofsWord.
Local Open Scope Z_scope.

Section A.
Variable K : PFld.
Local Open Scope fld_scope.
Add Field Kf : (f_laws K).
Implicit Types (s : cs K) (q : meq K) (x : var -> K).

(** A run of bit allocations. *)
Lemma spec_bits (f : nat -> option bool) l s : wf s ->
  spec (mapM (fun i => bit_alloc (f i)) l) s
    (fun t bs => Forall (fun b => bool_in t (BIs b)) bs /\ map bval bs = map f l)
    (fun _ _ => True)
    (forall i, In i l -> exists t, f i = Some t)
    (fun t bs => Forall (fun b => b_honest t (BIs b)) bs).
Proof.
  intro Hw. eapply spec_conseq; [apply (spec_mapM K (fun i => bit_alloc (f i)) l s
    (fun t i b => bool_in t (BIs b) /\ bval b = f i) (fun _ _ _ => True) (fun i _ => exists t, f i = Some t)
    (fun t _ b => b_honest t (BIs b)) Hw)|..].
  - intros t t' i b E [h1 h2]. split; [eapply bool_in_ext; eassumption|exact h2].
  - intros t t' i b E _ _ [h _]. apply b_honest_ext; [exact E|apply h].
  - auto.
  - intros i s' _ _ Hw'. eapply spec_conseq_sat; [apply (bit_alloc_spec K (f i) s' Hw')|..].
    + intros b t E _ (A1 & _ & A2) HS. split; [|exact A2]. split; [exact A1|]. intros x Hx. apply means_of_bit, HS, Hx.
    + auto.
    + auto.
    + auto.
  - intros bs t _ _ h. cbn beta in h. split.
    + clear -h. induction h as [|i b l bs [h1 h2] _ IH]; constructor; auto.
    + clear -h. induction h as [|i b l bs [h1 h2] _ IH]; cbn; [reflexivity|]. rewrite h2, IH. reflexivity.
  - auto.
  - auto.
  - intros bs t _ _ _ _ _ _ h. clear -h. induction h; constructor; auto.
Qed.
Lemma btrue_bval s b t : b_honest s (BIs b) -> bval b = Some t -> btrue (wit s) (BIs b) = t.
Proof. intros (t' & H1 & H2) E. cbn in H1. rewrite (means_btrue K _ _ t' H2). congruence. Qed.
Lemma honest_bits_vals s (bs : list abit) (ts : list bool) : Forall (fun b => b_honest s (BIs b)) bs ->
  map bval bs = map Some ts -> map (btrue (wit s)) (map BIs bs) = ts.
Proof.
  intro H. revert ts. induction H as [|b bs Hb _ IH]; intros [|t ts] E; cbn in E; try discriminate; [reflexivity|].
  injection E as E1 E2. cbn [map]. rewrite (btrue_bval s b t Hb E1), (IH ts E2). reflexivity.
Qed.
Lemma In_firstn' {A} (a : A) n l : In a (firstn n l) -> In a l.
Proof. revert n. induction l as [|b l IH]; intros [|n]; cbn; try tauto. intros [->|I]; [auto|right; eauto]. Qed.
Lemma Forall_firstn' {A} (P : A -> Prop) n l : Forall P l -> Forall P (firstn n l).
Proof. rewrite !Forall_forall. intros H a I. apply H. eapply In_firstn'; exact I. Qed.
Lemma Forall_BIs (P : boolean -> Prop) bs : Forall (fun b => P (BIs b)) bs -> Forall P (map BIs bs).
Proof. intro H. apply Forall_map. exact H. Qed.

Lemma u32_alloc_spec value s : wf s -> (forall v, value = Some v -> (0 <= v < 2 ^ 32)%Z) ->
  spec (u32_alloc value) s (fun t u => word_in t u /\ uval u = value) (fun _ _ => True)
    (exists v, value = Some v) (fun t u => word_honest t u).
Proof.
  intros Hw Hv. unfold u32_alloc.
  set (vals := match value with Some v => map Some (bits32 v) | None => repeat None 32 end).
  assert (length vals = 32%nat) as LV.
  { unfold vals. destruct value; [rewrite map_length; apply bits32_length|apply repeat_length]. }
  assert (vals = map (fun i => nth i vals None) (seq 0 32)) as EV.
  { rewrite <- LV. clear. generalize (@None bool) as d. intro d. induction vals as [|a l IH]; [reflexivity|].
    cbn [length seq map nth]. rewrite <- seq_shift, map_map. f_equal. exact IH. }
  assert (forall s, mapM (K:=K) bit_alloc vals s = mapM (fun i => bit_alloc (nth i vals None)) (seq 0 32) s) as EM.
  { intro s0. rewrite EV at 1. clear. generalize (seq 0 32) as l. intro l. revert s0. induction l as [|i l IH]; intro s0; [reflexivity|].
    cbn [map mapM]. unfold bind. destruct (bit_alloc (nth i vals None) s0) as [[b s1]|e|]; try reflexivity. rewrite IH. reflexivity. }
  eapply spec_ext; [|eapply (spec_bind K (mapM (fun i => bit_alloc (nth i vals None)) (seq 0 32)) (fun bits => ret (mkU (map BIs bits) value)))].
  - intro s0. unfold bind. rewrite EM. reflexivity.
  - eapply spec_conseq; [apply (spec_bits _ _ s Hw)|..].
    + intros bs t _ _ h. exact h.
    + intros x bs t _ _ _ h. exact h.
    + intros (v & E) i I. apply in_seq in I. unfold vals. rewrite E.
      exists (Z.testbit v (Z.of_nat i)). rewrite nth_indep with (d' := Some false) by (rewrite map_length, bits32_length; lia).
      rewrite map_nth. f_equal. apply nth_error_nth. apply bits32_nth. lia.
    + intros bs t _ _ _ _ _ _ h. exact h.
  - intros bs s1 E1 Hw1 [B EB]. cbn beta. rewrite <- EV in EB.
    assert (length bs = 32%nat) as LB by (rewrite <- LV, <- (map_length bval), EB; reflexivity).
    apply spec_ret; [exact Hw1| |auto|].
    + split; [|reflexivity]. split; [cbn [ubits]; rewrite map_length; exact LB|]. split; [apply Forall_BIs, B|].
      cbn [uval ubits]. intros v E. split; [apply Hv, E|]. intros i c Ei. exfalso.
      rewrite nth_error_map in Ei. destruct (nth_error bs i); discriminate Ei.
    + intros _ ((v & E) & HB & _). split; [apply Forall_BIs, HB|]. cbn [uval]. rewrite E. f_equal.
      unfold wval, bsval. cbn [ubits]. unfold vals in EB. rewrite E in EB. rewrite (honest_bits_vals s1 bs _ HB EB).
      symmetry. apply Z_of_bits32, Hv, E.
Qed.

(** Linear combinations of bits. *)
Lemma of_bool_b2z (t : bool) : (if t then 1 else 0) = of_Z (K:=K) (Z.b2z t).
Proof. destruct t; reflexivity. Qed.
Lemma bsval_cons x b bs : bsval x (b :: bs) = (Z.b2z (btrue x b) + 2 * bsval x bs)%Z. Proof. reflexivity. Qed.
Lemma eval_add_bits x bs : x ONE = 1 -> Forall (fun b => exists t, means x b t) bs -> forall l coeff,
  eval x (lc_add_bits l coeff bs) = eval x l + coeff * of_Z (bsval x bs).
Proof.
  intros Hx H. induction H as [|b bs Hb _ IH]; intros l coeff; cbn [lc_add_bits].
  - cbn. ring.
  - rewrite IH, bsval_cons. autorewrite with lcdb. rewrite eval_b_lc by exact Hx.
    rewrite (btrue_means K x b Hb), of_bool_b2z, of_Z_add, of_Z_mul. change (of_Z 2) with (1 + 1 : K). ring.
Qed.
Lemma eval_add_vars x vs : Forall (fun b => exists t, means x (BIs b) t) vs -> forall l coeff,
  eval x (lc_add_vars l coeff (map bvar vs)) = eval x l + coeff * of_Z (bsval x (map BIs vs)).
Proof.
  intros H. induction H as [|b bs Hb _ IH]; intros l coeff; cbn [lc_add_vars map].
  - cbn. ring.
  - rewrite IH, bsval_cons. autorewrite with lcdb.
    pose proof (btrue_means K x (BIs b) Hb) as E. unfold means in E. cbn [bden] in E. rewrite E.
    rewrite of_bool_b2z, of_Z_add, of_Z_mul. change (of_Z 2) with (1 + 1 : K). ring.
Qed.
Lemma vars_add_bits s bs : wf s -> Forall (b_alloc_in s) bs -> forall l coeff, vars_in K (allocated s) l -> vars_in K (allocated s) (lc_add_bits l coeff bs).
Proof.
  intros Hw H. induction H as [|b bs Hb _ IH]; intros l coeff Hl; cbn [lc_add_bits]; [exact Hl|].
  apply IH. apply vars_add; [exact Hl|]. apply vars_b_lc; assumption.
Qed.
Lemma vars_add_vars s bs : Forall (fun b => b_alloc_in s (BIs b)) bs -> forall l coeff, vars_in K (allocated s) l -> vars_in K (allocated s) (lc_add_vars l coeff (map bvar bs)).
Proof.
  intros H. induction H as [|b bs Hb _ IH]; intros l coeff Hl; cbn [lc_add_vars map]; [exact Hl|].
  apply IH. apply vars_add_term; [exact Hl|exact Hb].
Qed.
Definition sum_lc (ops : list u32) (l : lc K) : lc K := fold_left (fun l op => lc_add_bits l 1 (ubits op)) ops l.
Lemma eval_sum_lc x ops : x ONE = 1 -> Forall (fun u => Forall (fun b => exists t, means x b t) (ubits u)) ops -> forall l,
  eval x (sum_lc ops l) = eval x l + of_Z (zsum (map (wval x) ops)).
Proof.
  intros Hx H. induction H as [|u ops B _ IH]; intro l; cbn [sum_lc fold_left map zsum fold_right].
  - cbn. ring.
  - fold (sum_lc ops (lc_add_bits l 1 (ubits u))) (zsum (map (wval x) ops)). rewrite IH, eval_add_bits; [|apply Hx|exact B].
    rewrite of_Z_add. unfold wval. ring.
Qed.
Lemma vars_sum_lc s ops : wf s -> Forall (word_in s) ops -> forall l, vars_in K (allocated s) l -> vars_in K (allocated s) (sum_lc ops l).
Proof.
  intros Hw H. induction H as [|u ops (L & B & _) _ IH]; intros l Hl; cbn [sum_lc fold_left]; [exact Hl|].
  apply IH. apply vars_add_bits; [exact Hw|apply bool_ins_alloc, B|exact Hl].
Qed.

Local Open Scope Z_scope.
Lemma shift_steps_ok fuel z : 0 <= z < 2 ^ Z.of_nat fuel ->
  z < 2 ^ Z.of_nat (shift_steps fuel z) /\ (z <> 0 -> 2 ^ Z.of_nat (shift_steps fuel z) <= 2 * z).
Proof.
  revert z. induction fuel as [|fuel IH]; intros z Hz; cbn [shift_steps].
  - change (2 ^ Z.of_nat 0) with 1 in *. split; lia.
  - destruct (Z.eqb_spec z 0) as [->|Nz]; [split; [reflexivity|congruence]|].
    rewrite Nat2Z.inj_succ, Z.pow_succ_r in * by lia.
    destruct (IH (z / 2)) as [A B].
    { split; [apply Z.div_pos; lia|apply Z.div_lt_upper_bound; lia]. }
    pose proof (Z.div_mod z 2 ltac:(lia)) as D. pose proof (Z.mod_pos_bound z 2 ltac:(lia)) as M0.
    split; [lia|]. intros _. destruct (Z.eq_dec (z / 2) 0) as [E|E].
    + rewrite E in *. assert (shift_steps fuel 0 = 0%nat) as Z0 by (destruct fuel; reflexivity). rewrite Z0. change (2 ^ Z.of_nat 0) with 1. lia.
    + specialize (B E). lia.
Qed.
Lemma zsum_bound s x ops : Forall (word_in s) ops -> 0 <= zsum (map (wval x) ops) <= Z.of_nat (length ops) * (2 ^ 32 - 1).
Proof.
  intro H. induction H as [|u ops W _ IH]; cbn [map zsum fold_right length]; [lia|].
  fold (zsum (map (wval x) ops)). pose proof (wval_range K s x u W). rewrite Nat2Z.inj_succ. lia.
Qed.
Lemma wval_const_cache s x u v : word_in s u -> uval u = Some v -> forallb b_is_const (ubits u) = true -> wval x u = v.
Proof.
  intros W E C. destruct (cache_elim K s u v W E) as [F ->]. unfold wval, bsval. f_equal.
  revert C. induction F as [|b t bs tv H1 _ IH]; cbn; [reflexivity|]. intro C. apply andb_prop in C. destruct C as [C1 C2].
  rewrite IH by exact C2. f_equal. destruct b as [b|b|c]; try discriminate C1. rewrite btrue_const. symmetry. apply H1. reflexivity.
Qed.
Definition vsum (ops : list u32) : option Z := fold_left (fun acc op => zlift2 Z.add acc (uval op)) ops (Some 0).
Lemma vsum_acc ops acc : fold_left (fun acc op => zlift2 Z.add acc (uval op)) ops acc = 
  match acc, vsum ops with Some a, Some b => Some (a + b) | _, _ => None end.
Proof.
  unfold vsum. revert acc. induction ops as [|u ops IH]; intro acc; cbn [fold_left].
  - destruct acc; [f_equal; lia|reflexivity].
  - rewrite IH, (IH (zlift2 Z.add (Some 0) (uval u))). destruct acc as [a|]; [|reflexivity].
    destruct (uval u) as [v|]; cbn [zlift2]; [|reflexivity]. destruct (fold_left _ ops (Some 0)); [f_equal; lia|reflexivity].
Qed.
Lemma vsum_spec ops v : vsum ops = Some v -> exists vs, Forall2 (fun u w => uval u = Some w) ops vs /\ v = zsum vs.
Proof.
  revert v. induction ops as [|u ops IH]; intros v E.
  - exists []. cbn in E. injection E as <-. split; [constructor|reflexivity].
  - unfold vsum in E. cbn [fold_left] in E. rewrite vsum_acc in E. destruct (uval u) as [w|] eqn:Eu; [|discriminate E]. cbn [zlift2] in E.
    destruct (vsum ops) as [v'|] eqn:E'; [|discriminate E]. destruct (IH v' eq_refl) as (vs & F & ->).
    exists (w :: vs). split; [constructor; assumption|]. injection E as <-. cbn [zsum fold_right]. fold (zsum vs). lia.
Qed.
Lemma vsum_honest s ops : Forall (word_honest s) ops -> vsum ops = Some (zsum (map (wval (wit s)) ops)).
Proof.
  intro H. induction H as [|u ops [_ E] _ IH]; [reflexivity|].
  unfold vsum. cbn [fold_left]. rewrite vsum_acc, E, IH. cbn [zlift2 map zsum fold_right]. fold (zsum (map (wval (wit s)) ops)). reflexivity.
Qed.
Lemma zsum_consts s x ops vs : Forall (word_in s) ops -> Forall2 (fun u w => uval u = Some w) ops vs ->
  forallb (fun op => forallb b_is_const (ubits op)) ops = true -> zsum (map (wval x) ops) = zsum vs.
Proof.
  intros W F. revert W. induction F as [|u w ops vs E _ IH]; intros W C; [reflexivity|].
  cbn in C. apply andb_prop in C. inversion W; subst. cbn [map zsum fold_right]. fold (zsum (map (wval x) ops)) (zsum vs).
  rewrite IH by tauto. f_equal. eapply wval_const_cache; [eassumption|exact E|tauto].
Qed.
Lemma map_option_seq (v : Z) l : map (fun i => option_map (fun v => Z.testbit v (Z.of_nat i)) (Some v)) l = map Some (map (fun i => Z.testbit v (Z.of_nat i)) l).
Proof. rewrite map_map. reflexivity. Qed.
Lemma addmany_width (n : nat) : (2 <= n <= 10)%nat ->
  let m := shift_steps 64 (Z.of_nat n * (2 ^ 32 - 1)) in
  (33 <= m)%nat /\ Z.of_nat m <= 37 /\ Z.of_nat n * (2 ^ 32 - 1) < 2 ^ Z.of_nat m.
Proof.
  intros H m. assert (0 <= Z.of_nat n * (2 ^ 32 - 1) < 2 ^ Z.of_nat 64) as R by (change (2 ^ Z.of_nat 64) with (2 ^ 64); lia). destruct (shift_steps_ok 64 _ R) as [A B].
  fold m in A, B. specialize (B ltac:(nia)). split; [|split; [|exact A]].
  - assert (2 ^ 32 < 2 ^ Z.of_nat m) as P by nia. apply Z.pow_lt_mono_r_iff in P; lia.
  - assert (2 ^ Z.of_nat m < 2 ^ 38) as P by nia. apply Z.pow_lt_mono_r_iff in P; lia.
Qed.

Theorem u32_addmany_spec ops s q : 64 <= modulus_bits K -> (2 <= length ops <= 10)%nat ->
  wf s -> q_ok s q -> Forall (word_in s) ops ->
  mspec (u32_addmany ops) (s, q) word_in (fun x r => wval x r = zsum (map (wval x) ops) mod 2 ^ 32)
    (Forall (word_honest s) ops) word_honest.
Proof.
  intros HM HL Hw Hq HO. unfold u32_addmany.
  destruct (Z.ltb_spec (modulus_bits K) 64) as [|_]; [lia|].
  destruct (Nat.ltb_spec (length ops) 2) as [|_]; [lia|].
  destruct (Nat.ltb_spec 10 (length ops)) as [|_]; [lia|].
  fold (vsum ops) (sum_lc ops lc_zero).
  set (allc := forallb (fun op => forallb b_is_const (ubits op)) ops).
  assert (forall v, vsum ops = Some v -> (forall x, sat x s -> allc = true -> v = zsum (map (wval x) ops))) as VC.
  { intros v E x Hx C. destruct (vsum_spec ops v E) as (vs & F & ->). symmetry. eapply zsum_consts; eassumption. }
  assert (forall v, 0 <= v mod 2 ^ 32 < 2 ^ 32) as MR by (intro v; apply Z.mod_pos_bound; lia).
  set (body := mbind _ _).
  assert (mspec body (s, q) word_in (fun x r => wval x r = zsum (map (wval x) ops) mod 2 ^ 32) (Forall (word_honest s) ops) word_honest) as BODY.
  2: { destruct allc eqn:Ec; [|destruct (vsum ops); exact BODY].
       destruct (vsum ops) as [v|] eqn:Ev; cbn [option_map]; [|exact BODY].
       destruct (constant_in K s (v mod 2 ^ 32) (MR v)) as [C1 C2].
       apply mspec_ret; auto. intros x Hx. rewrite wval_constant by apply MR. f_equal. apply VC; auto. }
  unfold body. clear body. pose proof (addmany_width (length ops) HL) as (W1 & W2 & W3).
  set (n := shift_steps 64 _) in *.
  assert (Z.of_nat n < capacity K) as NC by (unfold capacity; lia).
  eapply mspec_bind.
  { apply mspec_lift; [exact Hq|]. eapply spec_conseq; [apply (spec_bits _ _ s Hw)|..].
    - intros bs t _ _ h. exact h.
    - intros x bs t _ _ _ h. exact h.
    - intros HH i _. rewrite (vsum_honest s ops HH). cbn. eauto.
    - intros bs t _ _ _ _ _ _ h. exact h. }
  intros bs s1 q1 E1 Hw1 Hq1 [B EB]. cbn [fst] in E1.
  assert (Forall (word_in s1) ops) as HO1. { eapply Forall_impl; [|exact HO]. intro u. apply word_in_ext, E1. }
  assert (length bs = n) as LB. { rewrite <- (map_length bval), EB, map_length, seq_length. reflexivity. }
  assert (forall x, x ONE = f1 -> Forall (fun u => Forall (fun b => exists t, means x b t) (ubits u)) ops -> Forall (fun b => exists t, means x (BIs b) t) bs ->
     eval x (sum_lc ops lc_zero) = of_Z (zsum (map (wval x) ops)) /\
     eval x (lc_add_vars lc_zero (f1 (f:=K)) (map bvar bs)) = of_Z (bsval x (map BIs bs))) as EV.
  { intros x Hx M1 M2. rewrite (eval_sum_lc x ops Hx M1), (eval_add_vars x bs M2), eval_zero. split; ring. }
  assert (forall x, sat x s1 -> Forall (fun u => Forall (fun b => exists t, means x b t) (ubits u)) ops /\ Forall (fun b => exists t, means x (BIs b) t) bs) as MS.
  { intros x Hx. split.
    - eapply Forall_impl; [|exact HO1]. intros u (_ & h & _). eapply Forall_impl; [|exact h]. intros b [_ hb]. apply hb, Hx.
    - eapply Forall_impl; [|exact B]. intros b [_ h]. apply h, Hx. }
  assert (forall x, 0 <= zsum (map (wval x) ops) < 2 ^ Z.of_nat n) as RS.
  { intro x. pose proof (zsum_bound s x ops HO). lia. }
  assert (forall x, 0 <= bsval x (map BIs bs) < 2 ^ Z.of_nat n) as RB.
  { intro x. pose proof (bsval_range K x (map BIs bs)) as R. rewrite map_length, LB in R. exact R. }
  assert (forall x, sat x s1 -> eval x (sum_lc ops lc_zero) = eval x (lc_add_vars lc_zero (f1 (f:=K)) (map bvar bs)) ->
     bsval x (map BIs bs) = zsum (map (wval x) ops)) as CONC.
  { intros x Hx E. destruct (MS x Hx) as [M1 M2]. destruct (EV x (proj1 Hx) M1 M2) as [E1' E2']. rewrite E1', E2' in E.
    symmetry. revert E. pose proof (pow_capacity_lt K). assert (2 ^ Z.of_nat n < 2 ^ capacity K) by (apply Z.pow_lt_mono_r; lia).
    apply of_Z_inj_small; [specialize (RS x)|specialize (RB x)]; lia. }
  assert (Forall (word_honest s) ops -> Forall (fun b => b_honest s1 (BIs b)) bs ->
     bsval (wit s1) (map BIs bs) = zsum (map (wval (wit s1)) ops) /\ vsum ops = Some (zsum (map (wval (wit s1)) ops))) as HON.
  { intros HH HB. pose proof (vsum_honest s ops HH) as EVs.
    assert (map (wval (wit s1)) ops = map (wval (wit s)) ops) as EW.
    { apply map_ext_in. intros u I. rewrite Forall_forall in HO. apply wval_wit_ext; auto. }
    rewrite EW. split; [|exact EVs]. rewrite EVs, map_option_seq in EB. unfold bsval. rewrite (honest_bits_vals s1 bs _ HB EB).
    apply Z_of_bits_of, RS. }
  eapply mspec_bind.
  { eapply mspec_conseq; [apply (mspec_enforce_equal K n (sum_lc ops lc_zero) (lc_add_vars lc_zero f1 (map bvar bs)) s1 q1 Hw1 Hq1 NC)|..].
    - apply vars_sum_lc; [exact Hw1|exact HO1|apply vars_zero].
    - apply vars_add_vars; [|apply vars_zero]. eapply Forall_impl; [|exact B]. intros b [h _]. exact h.
    - intros x Hx. destruct (MS x Hx) as [M1 M2]. destruct (EV x (proj1 Hx) M1 M2) as [R1 R2]. split; eexists; (split; [|eassumption]); auto.
    - intros r t _ _ h. exact h.
    - intros x r t E _ Hx h. apply (CONC x (sat_ext K _ _ _ E Hx) h).
    - intros (HH & HB & _). destruct (HON HH HB) as [E _].
      destruct (EV (wit s1)) as [-> ->]; [apply wit_one, Hw1| | |rewrite E; reflexivity].
      + rewrite Forall_forall in HH, HO |- *. intros u I. specialize (HH u I). specialize (HO u I).
        apply (word_honest_ext K s s1 u E1 HO) in HH. destruct HH as [HH _]. eapply Forall_impl; [|exact HH]. intros b (t & _ & h). eauto.
      + eapply Forall_impl; [|exact HB]. intros b (t & _ & h). eauto.
    - intros r t _ _ _ _ _ _ _ h. exact h. }
  intros [] s2 q2 E2 Hw2 Hq2 _. cbn [fst] in E2.
  assert (forall x, bsval x (firstn 32 (map BIs bs)) = bsval x (map BIs bs) mod 2 ^ 32) as FN.
  { intro x. unfold bsval. rewrite <- firstn_map. rewrite Z_of_bits_firstn; [reflexivity|]. rewrite !map_length, LB. lia. }
  apply mspec_ret; [exact Hw2|exact Hq2| | |].
  - split; [cbn [ubits]; rewrite firstn_length, map_length, LB; lia|]. cbn [ubits uval]. split.
    + apply Forall_firstn'. apply Forall_BIs. eapply Forall_impl; [|exact B]. intro b. apply bool_in_ext, E2.
    + intros v Ev. destruct (vsum ops) as [w|]; [|discriminate Ev]. cbn in Ev. injection Ev as <-. split; [apply MR|].
      intros i c Ei. exfalso. apply nth_error_In, In_firstn', in_map_iff in Ei. destruct Ei as (b & C & _). discriminate C.
  - intros x _ ES _. unfold wval at 1. cbn [ubits]. rewrite FN, ES. reflexivity.
  - intros _ _ ((HH & HB & _) & _ & _). destruct (HON HH HB) as [EB1 EV1]. split; cbn [ubits uval].
    + apply Forall_firstn', Forall_BIs. rewrite Forall_forall in HB, B |- *. intros b I. eapply b_honest_ext; [exact E2|apply B, I|apply HB, I].
    + rewrite EV1. cbn [option_map]. f_equal. unfold wval at 2. cbn [ubits]. rewrite FN. f_equal. rewrite <- EB1.
      symmetry. apply bsval_wit_ext; [exact E2|]. apply Forall_BIs. eapply Forall_impl; [|exact B]. intros b [h _]. exact h.
Qed.

(** Outside 2..10 operands, or over too small a field, the assertion stops synthesis. *)
Lemma u32_addmany_panics ops (w : cs K * meq K) : (length ops < 2 \/ 10 < length ops)%nat \/ modulus_bits K < 64 -> u32_addmany ops w = Panic.
Proof.
  intro H. unfold u32_addmany. destruct (Z.ltb_spec (modulus_bits K) 64); [reflexivity|].
  destruct (Nat.ltb_spec (length ops) 2); [reflexivity|]. destruct (Nat.ltb_spec 10 (length ops)); [reflexivity|]. lia.
Qed.

Lemma word_mono_W s t (u : u32) : ext s t -> wf t -> word_in s u -> word_in t u.
Proof. intros E _. apply word_in_ext, E. Qed.
(** One addition with its own packer. *)
Theorem addmany_closed ops s : 64 <= modulus_bits K -> (2 <= length ops <= 10)%nat ->
  wf s -> Forall (word_in s) ops ->
  spec (with_multieq (u32_addmany ops)) s word_in (fun x r => wval x r = zsum (map (wval x) ops) mod 2 ^ 32)
    (Forall (word_honest s) ops) word_honest.
Proof.
  intros HM HL Hw HO. apply spec_with_multieq; [exact Hw| | |].
  - apply u32_addmany_spec; auto. apply q_ok_new, Hw.
  - intros a b r. apply word_mono_W.
  - intros a b r E _ _. apply word_honest_ext, E.
Qed.
(** Many additions sharing one packer. *)
Lemma addmany_batch_m (jobs : list (list u32)) : forall s q, 64 <= modulus_bits K ->
  Forall (fun ops => 2 <= length ops <= 10)%nat jobs ->
  wf s -> q_ok s q -> Forall (Forall (word_in s)) jobs ->
  mspec (mmapM u32_addmany jobs) (s, q) (fun t rs => Forall (word_in t) rs)
    (fun x rs => map (wval x) rs = map (fun ops => zsum (map (wval x) ops) mod 2 ^ 32) jobs)
    (Forall (Forall (word_honest s)) jobs) (fun t rs => Forall (word_honest t) rs).
Proof.
  induction jobs as [|ops jobs IH]; intros s q HM HL Hw Hq HO; cbn [mmapM].
  - apply mspec_ret; auto.
  - inversion HL as [|? ? L1 L2]; subst. inversion HO as [|? ? O1 O2]; subst. eapply mspec_bind.
    + eapply mspec_conseq; [apply (u32_addmany_spec ops s q HM L1 Hw Hq O1)|..].
      * intros r t _ _ h. exact h.
      * intros x r t _ _ _ h. exact h.
      * intro h. inversion h; assumption.
      * intros r t _ _ _ _ _ _ _ h. exact h.
    + intros r s1 q1 E1 Hw1 Hq1 R1. cbn [fst] in E1.
      assert (Forall (Forall (word_in s1)) jobs) as O3.
      { eapply Forall_impl; [|exact O2]. intro l. apply Forall_impl. intro u. apply word_in_ext, E1. }
      eapply mspec_bind.
      * eapply mspec_conseq; [apply (IH s1 q1 HM L2 Hw1 Hq1 O3)|..].
        -- intros rs t _ _ h. exact h.
        -- intros x rs t _ _ _ h. exact h.
        -- intros [h _]. inversion h as [|? ? _ h2]; subst. rewrite Forall_forall in h2, O2 |- *. intros l I.
           specialize (h2 l I). specialize (O2 l I). rewrite Forall_forall in h2, O2 |- *. intros u Iu.
           apply (word_honest_ext K s s1); auto.
        -- intros rs t _ _ _ _ _ _ _ h. exact h.
      * intros rs s2 q2 E2 Hw2 Hq2 R2. cbn [fst] in E2. apply mspec_ret; [exact Hw2|exact Hq2| | |].
        -- constructor; [eapply word_in_ext; eassumption|exact R2].
        -- intros x _ h2 h1. cbn [map]. rewrite h1, h2. reflexivity.
        -- intros _ _ ((h & h1 & _) & h2 & _). constructor; [|exact h2]. eapply word_honest_ext; eassumption.
Qed.
Theorem addmany_batch (jobs : list (list u32)) s : 64 <= modulus_bits K ->
  Forall (fun ops => 2 <= length ops <= 10)%nat jobs ->
  wf s -> Forall (Forall (word_in s)) jobs ->
  spec (with_multieq (mmapM u32_addmany jobs)) s (fun t rs => Forall (word_in t) rs)
    (fun x rs => map (wval x) rs = map (fun ops => zsum (map (wval x) ops) mod 2 ^ 32) jobs)
    (Forall (Forall (word_honest s)) jobs) (fun t rs => Forall (word_honest t) rs).
Proof.
  intros HM HL Hw HO. apply spec_with_multieq; [exact Hw| | |].
  - apply addmany_batch_m; auto. apply q_ok_new, Hw.
  - intros a b r E _. apply Forall_impl. intro u. apply word_in_ext, E.
  - intros a b r E _ _ W H. rewrite Forall_forall in W, H |- *. intros u I. eapply word_honest_ext; eauto.
Qed.
End A.

Lemma from_bits_panics bs : length bs <> 32%nat -> u32_from_bits bs = Panic /\ u32_from_bits_be bs = Panic.
Proof. intro H. unfold u32_from_bits, u32_from_bits_be. apply Nat.eqb_neq in H. rewrite H. split; reflexivity. Qed.
Lemma shr_32n (K : PFld) (s : cs K) (u : u32) (n : nat) : word_in s u ->
  forall x : var -> K, wval x (u32_shr u (32 * n)) = wval x u.
Proof.
  intros W x. rewrite (wval_shr K s x u (32 * n) W). rewrite Nat.mul_comm, Nat.mod_mul by lia.
  change (2 ^ Z.of_nat 0) with 1. apply Z.div_1_r.
Qed.
Lemma zero_width_unequal (K : PFld) (s : cs K) (x : var -> K) (l r : lc K) : 0 < capacity K ->
  sat x s -> eval x l <> eval x r ->
  exists us s', with_multieq (mmapM call_run [(0%nat, l, r)]) s = Ok (us, s') /\ sat x s' /\ ~ call_eq x (0%nat, l, r).
Proof.
  intros C Hs N. destruct (multieq_zero_width K [(0%nat, l, r)] s C) as [us E]; [constructor; [reflexivity|constructor]|].
  exists us, s. auto.
Qed.
