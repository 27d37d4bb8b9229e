(** Proofs about MiMC, the command-line hash circuit and the membership circuit. *)
From Verif Require Import Field ModelLC SpecLC ProofsLC ModelCS SpecCS ProofsCS ModelBoolean ModelOperator SpecOperator ProofsOperator ProofsSolve ProofsWord ModelCbmt ModelMimc SpecMimc.
Local Open Scope fld_scope.

Section R.
Variable K : PFld.
Add Field Kf : (f_laws K).
Implicit Types (s : cs K) (x : var -> K).

Lemma block_spec (cts : list K) l r : mimc_block cts l r = mimc_spec cts l r.
Proof.
  unfold mimc_spec. revert l r. induction cts as [|c cts IH]; intros l r; [reflexivity|]. cbn [mimc_block fold_left].
  rewrite IH. do 3 f_equal. cbn [fpow]. ring.
Qed.

(** ** The rounds *)
Lemma rounds_spec (cts : list K) : forall xl xr vl vr s, wf s -> allocated s vl -> allocated s vr ->
  spec (mimc_rounds cts xl xr vl vr) s
    (fun s' r => length (auxs s') = (length (auxs s) + 2 * length cts)%nat /\ inps s' = inps s /\ allocated s' (snd r) /\
       snd r = if Nat.eqb (length cts) 0 then vl else last_var s')
    (fun x r => x (snd r) = mimc_block cts (x vl) (x vr))
    (xl = Some (wit s vl) /\ xr = Some (wit s vr))
    (fun s' r => fst r = Some (wit s' (snd r))).
Proof.
  induction cts as [|c cts IH]; intros xl xr vl vr s Hw Al Ar; cbn [mimc_rounds].
  - apply spec_ret'; [exact Hw| | |].
    + cbn. split; [lia|]. auto.
    + intros. reflexivity.
    + intros _ _ [-> _]. reflexivity.
  - eapply spec_seq; [apply (spec_alloc' K)|..]; [exact Hw|apply ok_or_np| |].
    { intros [-> _]. cbn. eauto. }
    intros vt s1 E1 Hw1 (At & Evt & L1 & I1) _. cbn beta.
    assert (allocated s1 vl) as Al1 by exact (allocated_ext K s s1 _ E1 Al).
    assert (allocated s1 vr) as Ar1 by exact (allocated_ext K s s1 _ E1 Ar).
    eapply spec_seq; [apply (spec_enforce' K)|..]; [exact Hw1|vars; auto..| |].
    { intros ((-> & _) & Hp & Ss & E). cbn in E. injection E as E. autorewrite with lcdb. rewrite (wit_one K s1 Hw1), <- E, (wit_same K s s1) by assumption. ring. }
    intros [] s2 E2 Hw2 (_ & L2 & I2) S2. cbn beta.
    assert (allocated s2 vl) as Al2 by exact (allocated_ext K s1 s2 _ E2 Al1).
    assert (allocated s2 vr) as Ar2 by exact (allocated_ext K s1 s2 _ E2 Ar1).
    assert (allocated s2 vt) as At2 by exact (allocated_ext K s1 s2 _ E2 At).
    eapply spec_seq; [apply (spec_alloc' K)|..]; [exact Hw2|apply ok_or_np| |].
    { intros (((-> & ->) & _) & _). cbn. eauto. }
    intros vn s3 E3 Hw3 (An & Evn & L3 & I3) _. cbn beta.
    assert (allocated s3 vl) as Al3 by exact (allocated_ext K s2 s3 _ E3 Al2).
    assert (allocated s3 vr) as Ar3 by exact (allocated_ext K s2 s3 _ E3 Ar2).
    assert (allocated s3 vt) as At3 by exact (allocated_ext K s2 s3 _ E3 At2).
    assert (ext s s3) as E03 by exact (ext_trans K _ _ _ E1 (ext_trans K _ _ _ E2 E3)).
    assert (ext s1 s3) as E13 by exact (ext_trans K _ _ _ E2 E3).
    eapply spec_seq; [apply (spec_enforce' K)|..]; [exact Hw3|vars; auto..| |].
    { intros ((((-> & ->) & Hp & Ss & E) & _) & _ & _ & E'). cbn in E, E'. injection E as E. injection E' as E'. autorewrite with lcdb.
      rewrite (wit_one K s3 Hw3), <- E', (wit_same K s s3 vl), (wit_same K s s3 vr), (wit_same K s1 s3 vt), <- E by assumption. ring. }
    intros [] s4 E4 Hw4 (_ & L4 & I4) S4. cbn beta.
    assert (ext s s4) as E04 by exact (ext_trans K _ _ _ E03 E4).
    eapply spec_conseq_sat; [apply (IH _ _ vn vl s4); [exact Hw4|exact (allocated_ext K s3 s4 _ E4 An)|exact (allocated_ext K s3 s4 _ E4 Al3)]|..].
    + intros r s5 E5 Hw5 (L5 & I5 & A5 & R5) _. cbn [length]. rewrite L4, L3, L2, L1 in L5. split; [lia|]. split; [congruence|]. split; [exact A5|].
      cbn [Nat.eqb]. rewrite R5. destruct (Nat.eqb_spec (length cts) 0) as [Z|NZ]; [|reflexivity].
      rewrite Evn. unfold last_var. f_equal. rewrite L2. lia.
    + intros x r s5 E5 _ Hx R5. rewrite R5. cbn [mimc_block]. f_equal.
      pose proof (sat_ext K _ _ _ E5 Hx) as X4. pose proof (S4 x X4) as [H1 H4]. pose proof (sat_ext K _ _ _ (ext_trans K _ _ _ E3 E4) X4) as X2.
      pose proof (S2 x X2) as [_ H2]. autorewrite with lcdb in H2, H4. rewrite H1 in H2, H4.
      assert (x vt = (x vl + c) * (x vl + c)) as Et by (transitivity (0 + x vt); [ring|rewrite <- H2; ring]).
      rewrite Et in H4. apply fsub_0. match type of H4 with ?l = ?r0 => transitivity (r0 - l); [ring|] end. apply fsub_0. symmetry. exact H4.
    + intros (((((-> & ->) & _ & _ & E) & _) & _ & _ & E') & _). cbn in E'. injection E' as E'.
      split; [cbn; rewrite E', (wit_same K s3 s4) by assumption; reflexivity|rewrite (wit_same K s s4) by assumption; reflexivity].
    + intros r s5 E5 Hw5 _ _ _ _ _ HR. exact HR.
Qed.

(** ** The byte-level hash *)
Section H.
Variables (nl : nat) (cts : list K).
Definition absorb (v : list K) : K := fold_left (fun h b => mimc_block cts h b) v 0.
Lemma hash_loop_snd v : forall xl h, snd (hash_loop cts xl h v) = fold_left (fun h b => mimc_block cts h b) v h.
Proof. induction v as [|b v IH]; intros xl h; [reflexivity|]. cbn [hash_loop fold_left]. apply IH. Qed.
Lemma hash_loop_fst v b : forall xl h, fst (hash_loop cts xl h (v ++ [b])) = fold_left (fun h b => mimc_block cts h b) v h.
Proof.
  induction v as [|a v IH]; intros xl h; [reflexivity|]. cbn [app hash_loop fold_left]. destruct (v ++ [b]) eqn:E; [destruct v; discriminate|].
  apply IH.
Qed.
Lemma mimc_hash_eq b : mimc_hash nl cts b =
  match rev (@blocks K nl b) with [] => Panic | xr :: r => Ok (absorb (rev r), xr, absorb (@blocks K nl b)) end.
Proof.
  unfold mimc_hash. destruct (rev (@blocks K nl b)) as [|xr r] eqn:E; [reflexivity|].
  assert (@blocks K nl b = rev r ++ [xr]) as EB by (rewrite <- (rev_involutive (@blocks K nl b)), E; reflexivity).
  destruct (hash_loop cts 0 0 (@blocks K nl b)) as [xl h] eqn:EL. do 2 f_equal; [f_equal|].
  - rewrite EB in EL. pose proof (hash_loop_fst (rev r) xr 0 0) as F. rewrite EL in F. exact F.
  - pose proof (hash_loop_snd (@blocks K nl b) 0 0) as F. rewrite EL in F. exact F.
Qed.
Lemma mimc_hash_block b xl xr h : mimc_hash nl cts b = Ok (xl, xr, h) -> h = mimc_block cts xl xr.
Proof.
  rewrite mimc_hash_eq. destruct (rev (@blocks K nl b)) as [|y r] eqn:E; [discriminate|]. intro H. injection H as <- <- <-.
  assert (@blocks K nl b = rev r ++ [y]) as -> by (rewrite <- (rev_involutive (@blocks K nl b)), E; reflexivity).
  unfold absorb. rewrite fold_left_app. reflexivity.
Qed.
Lemma mimc_hash_np b : (0 < nl)%nat -> b <> [] -> exists t, mimc_hash nl cts b = Ok t.
Proof.
  intros Hn Hb. rewrite mimc_hash_eq. destruct (rev (@blocks K nl b)) as [|y r] eqn:E; [|eauto]. exfalso.
  assert (@blocks K nl b = []) as EB by (rewrite <- (rev_involutive (@blocks K nl b)), E; reflexivity). unfold blocks in EB.
  apply app_eq_nil in EB. destruct EB as [E1 E2]. apply map_eq_nil in E1.
  destruct (Nat.eqb_spec (length b mod (8 * nl)) 0) as [Z|]; [|discriminate].
  assert (length b / (8 * nl) = 0)%nat as D by (destruct (length b / (8 * nl))%nat; [reflexivity|discriminate]).
  pose proof (Nat.div_mod (length b) (8 * nl) ltac:(lia)) as DM. rewrite Z, D in DM. destruct b; [congruence|cbn [length] in DM; lia].
Qed.
Lemma mimc_hash_empty : mimc_hash nl cts [] = Panic.
Proof.
  rewrite mimc_hash_eq. unfold blocks. cbn [length]. destruct nl as [|m]; [reflexivity|]. rewrite Nat.div_0_l, Nat.mod_0_l by lia. reflexivity.
Qed.
Lemma hash_blocks b c : @blocks K nl b = @blocks K nl c -> hash nl cts b = hash nl cts c.
Proof. intro E. unfold hash. rewrite !mimc_hash_eq, E. reflexivity. Qed.

(** *** Splitting off leading full blocks *)
Lemma blocks_cons c r : (0 < nl)%nat -> length c = (8 * nl)%nat -> @blocks K nl (c ++ r) = @read_block K nl c :: @blocks K nl r.
Proof.
  intros Hn L. unfold blocks. set (n := (8 * nl)%nat) in *. assert (0 < n)%nat as Hn' by lia. rewrite app_length, L.
  replace (n + length r)%nat with (length r + 1 * n)%nat by lia. rewrite Nat.div_add, Nat.mod_add by lia.
  rewrite Nat.add_1_r. cbn [seq map app]. f_equal; [|f_equal].
  - cbn [Nat.mul skipn]. rewrite firstn_app, <- L, firstn_all, Nat.sub_diag. cbn [firstn]. rewrite app_nil_r. reflexivity.
  - rewrite <- seq_shift, map_map. apply map_ext. intro i. cbn [Nat.mul]. do 2 f_equal.
    rewrite skipn_app, skipn_all2 by lia. cbn [app]. f_equal. lia.
  - destruct (Nat.eqb (length r mod n) 0); [reflexivity|]. do 2 f_equal. cbn [Nat.mul].
    rewrite skipn_app, skipn_all2 by lia. cbn [app]. f_equal. lia.
Qed.
Lemma blocks_partial q : (0 < length q < 8 * nl)%nat -> @blocks K nl q = [0].
Proof.
  intro L. unfold blocks. rewrite Nat.div_small, Nat.mod_small by lia. destruct (Nat.eqb_spec (length q) 0); [lia|].
  cbn [seq map app Nat.mul skipn]. unfold read_block. destruct (Nat.ltb_spec (length q) (8 * nl)); [|lia].
  pose proof (pmod_gt1 K). destruct (Z.ltb_spec 0 (pmod K)); [reflexivity|lia].
Qed.
Lemma blocks_pre k : forall p r r', (0 < nl)%nat -> length p = (k * (8 * nl))%nat -> @blocks K nl r = @blocks K nl r' -> @blocks K nl (p ++ r) = @blocks K nl (p ++ r').
Proof.
  induction k as [|k IH]; intros p r r' Hn L E.
  - destruct p; [exact E|discriminate].
  - rewrite <- (firstn_skipn (8 * nl) p), <- !app_assoc.
    rewrite !(blocks_cons (firstn (8 * nl) p)) by (rewrite ?firstn_length; lia). f_equal. apply IH; [exact Hn|rewrite skipn_length; lia|exact E].
Qed.
Theorem partial_collide k p q q' : (0 < nl)%nat -> length p = (k * (8 * nl))%nat -> (0 < length q < 8 * nl)%nat -> (0 < length q' < 8 * nl)%nat ->
  hash nl cts (p ++ q) = hash nl cts (p ++ q').
Proof. intros. apply hash_blocks. apply (blocks_pre k); auto. rewrite !blocks_partial by assumption. reflexivity. Qed.
Lemma le_val_zeros n : le_val (repeat 0%Z n) = 0%Z.
Proof. induction n as [|n IH]; [reflexivity|]. cbn [repeat le_val fold_right]. fold (le_val (repeat 0%Z n)). rewrite IH. reflexivity. Qed.
Lemma read_zeros : @read_block K nl (repeat 0%Z (8 * nl)) = (0 : K).
Proof.
  unfold read_block. rewrite repeat_length, Nat.ltb_irrefl, firstn_all2 by (rewrite repeat_length; lia). rewrite le_val_zeros.
  destruct (0 <? pmod K)%Z; reflexivity.
Qed.
Theorem noncanonical_collide k p c r : (0 < nl)%nat -> length p = (k * (8 * nl))%nat -> length c = (8 * nl)%nat -> (pmod K <= le_val c)%Z ->
  hash nl cts (p ++ c ++ r) = hash nl cts (p ++ repeat 0%Z (8 * nl) ++ r).
Proof.
  intros Hn Lp Lc Hc. apply hash_blocks. apply (blocks_pre k); auto. rewrite (blocks_cons c), (blocks_cons (repeat 0%Z (8 * nl))) by (rewrite ?repeat_length; auto). f_equal.
  rewrite read_zeros. unfold read_block. rewrite Lc, Nat.ltb_irrefl, firstn_all2 by lia. destruct (Z.ltb_spec (le_val c) (pmod K)); [lia|reflexivity].
Qed.
Theorem partial_zero k p q : (0 < nl)%nat -> length p = (k * (8 * nl))%nat -> (0 < length q < 8 * nl)%nat ->
  hash nl cts (p ++ q) = hash nl cts (p ++ repeat 0%Z (8 * nl)).
Proof.
  intros Hn Lp Lq. apply hash_blocks. apply (blocks_pre k); auto. rewrite blocks_partial by exact Lq.
  rewrite <- (app_nil_r (repeat _ _)), blocks_cons by (rewrite ?repeat_length; auto). rewrite read_zeros. f_equal.
  unfold blocks. cbn [length]. rewrite Nat.div_0_l, Nat.mod_0_l by lia. reflexivity.
Qed.
(** Canonical encodings are absorbed faithfully. *)
Lemma le_val_bytes n : forall v, (0 <= v < 256 ^ Z.of_nat n)%Z -> le_val (le_bytes n v) = v.
Proof.
  induction n as [|n IH]; intros v Hv; [cbn in *; lia|]. rewrite Nat2Z.inj_succ, Z.pow_succ_r in Hv by lia.
  cbn [le_bytes le_val fold_right]. fold (le_val (le_bytes n (v / 256))). rewrite IH.
  - pose proof (Z.div_mod v 256 ltac:(lia)). lia.
  - split; [apply Z.div_pos; lia|apply Z.div_lt_upper_bound; lia].
Qed.
Lemma le_bytes_length n : forall v, length (le_bytes n v) = n.
Proof. induction n as [|n IH]; intro v; [reflexivity|]. cbn. rewrite IH. reflexivity. Qed.
Lemma read_to_bytes (a : K) : (pmod K <= 2 ^ (64 * Z.of_nat nl))%Z -> @read_block K nl (to_bytes nl a) = a.
Proof.
  intro Hp. unfold read_block, to_bytes. rewrite le_bytes_length, Nat.ltb_irrefl, firstn_all2 by (rewrite le_bytes_length; lia).
  pose proof (toZ_range a) as R. rewrite le_val_bytes.
  - destruct (Z.ltb_spec (toZ a) (pmod K)); [apply of_toZ|lia].
  - change 256%Z with (2 ^ 8)%Z. rewrite <- Z.pow_mul_r by lia. replace (8 * Z.of_nat (8 * nl))%Z with (64 * Z.of_nat nl)%Z by lia. lia.
Qed.
Theorem hash_elements (vs : list K) : (0 < nl)%nat -> (pmod K <= 2 ^ (64 * Z.of_nat nl))%Z -> vs <> [] ->
  hash nl cts (concat (map (to_bytes nl) vs)) = Ok (fold_left (fun h b => mimc_spec cts h b) vs 0).
Proof.
  intros Hn Hp NE. unfold hash.
  assert (@blocks K nl (concat (map (to_bytes nl) vs)) = vs) as EB.
  { clear NE. induction vs as [|v vs IH]; cbn [map concat].
    - unfold blocks. cbn [length]. rewrite Nat.div_0_l, Nat.mod_0_l by lia. reflexivity.
    - rewrite blocks_cons by (auto; unfold to_bytes; rewrite le_bytes_length; reflexivity). rewrite IH, read_to_bytes by assumption. reflexivity. }
  rewrite mimc_hash_eq, EB. destruct (rev vs) as [|y r] eqn:E.
  - exfalso. apply NE. rewrite <- (rev_involutive vs), E. reflexivity.
  - cbn [rbind snd]. f_equal. unfold absorb. clear. generalize (0 : K). induction vs as [|v vs IH]; intro h; [reflexivity|].
    cbn [fold_left]. rewrite block_spec. apply IH.
Qed.

(** ** The circuit *)
Theorem mimc_circuit b s : wf s -> cts <> [] -> (forall bytes, b = Some bytes -> (0 < nl)%nat /\ bytes <> []) ->
  spec (mimc nl cts b) s
    (fun s' r => length (auxs s') = (length (auxs s) + 2 + 2 * length cts)%nat /\ inps s' = inps s /\
       (forall bytes, b = Some bytes -> rmap Some (hash nl cts bytes) = Ok r) /\ (b = None -> r = None))
    (fun x _ => x (Aux (length (auxs s) + 1 + 2 * length cts)) = mimc_spec cts (x (first_var s)) (x (second_var s)))
    (b <> None)
    (fun s' r => r = Some (wit s' (last_var s'))).
Proof.
  intros Hw Hc Hb. unfold spec, mimc.
  assert (exists t, (match b with Some by_ => rmap Some (mimc_hash nl cts by_) | None => Ok None end) = Ok t /\ (b <> None -> t <> None) /\ (b = None -> t = None) /\
    (forall xl xr h, t = Some (xl, xr, h) -> h = mimc_block cts xl xr /\ exists bytes, b = Some bytes /\ mimc_hash nl cts bytes = Ok (xl, xr, h))) as (t & -> & NT & NT' & BT).
  { destruct b as [bytes|]; [|exists None; repeat split; congruence]. destruct (Hb bytes eq_refl) as [Hn Hne]. destruct (mimc_hash_np bytes Hn Hne) as [[[xl xr] h] E].
    rewrite E. exists (Some (xl, xr, h)). split; [reflexivity|]. split; [congruence|]. split; [congruence|]. intros ? ? ? [= <- <- <-]. split; [exact (mimc_hash_block _ _ _ _ E)|eauto]. }
  change (spec (mimc_body cts t) s
    (fun s' r => length (auxs s') = (length (auxs s) + 2 + 2 * length cts)%nat /\ inps s' = inps s /\
       (forall bytes, b = Some bytes -> rmap Some (hash nl cts bytes) = Ok r) /\ (b = None -> r = None))
    (fun x _ => x (Aux (length (auxs s) + 1 + 2 * length cts)) = mimc_spec cts (x (first_var s)) (x (second_var s)))
    (b <> None)
    (fun s' r => r = Some (wit s' (last_var s')))).
  unfold mimc_body. cbv zeta. set (xl := option_map (fun t => fst (fst t)) t). set (xr := option_map (fun t => snd (fst t)) t).
  eapply spec_seq; [apply (spec_alloc' K)|..]; [exact Hw|apply ok_or_np| |].
  { intro NB. specialize (NT NB). unfold xl. destruct t; [cbn; eauto|congruence]. }
  intros vl s1 E1 Hw1 (Al & Evl & L1 & I1) _. cbn beta.
  eapply spec_seq; [apply (spec_alloc' K)|..]; [exact Hw1|apply ok_or_np| |].
  { intros (NB & _). specialize (NT NB). unfold xr. destruct t; [cbn; eauto|congruence]. }
  intros vr s2 E2 Hw2 (Ar & Evr & L2 & I2) _. cbn beta.
  assert (allocated s2 vl) as Al2 by exact (allocated_ext K s1 s2 _ E2 Al).
  eapply spec_seq; [apply (rounds_spec cts xl xr vl vr s2 Hw2 Al2 Ar)|..].
  { intros ((NB & _ & _ & E) & _ & _ & E'). specialize (NT NB). unfold xl, xr in *. destruct t as [[[a b0] h]|]; [|congruence]. cbn in E, E' |- *.
    injection E as E. injection E' as E'. rewrite E', E, (wit_same K s1 s2) by assumption. split; reflexivity. }
  intros [ov vf] s3 E3 Hw3 (L3 & I3 & A3 & R3) S3. cbn beta. cbn [fst snd] in *.
  assert (length cts <> 0)%nat as LC by (destruct cts; [congruence|discriminate]).
  destruct (Nat.eqb_spec (length cts) 0); [lia|]. rewrite L2, L1 in L3.
  assert (vf = Aux (length (auxs s) + 1 + 2 * length cts)) as Evf by (rewrite R3; unfold last_var; f_equal; lia).
  apply spec_ret'; [exact Hw3| | |].
  - split; [lia|]. split; [congruence|]. split.
    + intros bytes ->. destruct t as [[[a b0] h]|]; [|destruct NT; congruence]. cbn.
      destruct (BT a b0 h eq_refl) as [_ (bb & [= <-] & Eh)]. unfold hash. rewrite Eh. reflexivity.
    + intro NB. rewrite (NT' NB). reflexivity.
  - intros x Hx. specialize (S3 x Hx). cbn [snd] in S3. rewrite Evf, Evl, Evr, L1 in S3. rewrite S3, block_spec. unfold first_var, second_var.
    rewrite Nat.add_1_r. reflexivity.
  - intros Hp Ss (((NB & _ & _ & E) & _ & _ & E') & _ & _ & Eo). specialize (NT NB). cbn [fst snd] in Eo.
    unfold xl, xr in E, E'. destruct t as [[[a b0] h]|]; [|congruence]. cbn in E, E'. cbn [option_map snd]. injection E as E. injection E' as E'.
    destruct (BT a b0 h eq_refl) as [-> _]. f_equal. rewrite <- R3. specialize (S3 _ Ss). cbn [snd] in S3. rewrite S3.
    assert (ext s1 s3) as E13 by exact (ext_trans K _ _ _ E2 E3).
    rewrite (wit_same K s1 s3), (wit_same K s2 s3) by assumption. rewrite <- E', <- E. reflexivity.
Qed.
Theorem mimc_circuit_empty s : mimc nl cts (Some []) s = Panic.
Proof. unfold mimc. rewrite mimc_hash_empty. reflexivity. Qed.

(** ** What the circuits leave open *)
Lemma rounds_inps (cs : list K) : forall xl xr vl vr s r s', mimc_rounds cs xl xr vl vr s = Ok (r, s') -> inps s' = inps s.
Proof.
  induction cs as [|c cs IH]; intros xl xr vl vr s r s' H; cbn [mimc_rounds] in H.
  - unfold ret in H. injection H as _ <-. reflexivity.
  - unfold bind at 1 in H. destruct (alloc _ s) as [[v1 s1]| |] eqn:E1; try discriminate H.
    unfold bind at 1 in H. unfold enforce at 1 in H. unfold bind at 1 in H.
    match type of H with context[alloc ?f ?t] => destruct (alloc f t) as [[v2 s2]| |] eqn:E2; try discriminate H end.
    unfold bind at 1 in H. unfold enforce at 1 in H. apply IH in H. cbn [inps] in H. rewrite H.
    assert (forall f t v t', alloc f t = Ok (v, t') -> inps t' = inps (K := K) t) as AI.
    { intros f t v t' E. unfold alloc in E. destruct (md t); [|destruct f]; inversion E; subst; reflexivity. }
    rewrite (AI _ _ _ _ E2). exact (AI _ _ _ _ E1).
Qed.
Lemma rounds_step (cs : list K) : forall xl xr vl vr s Pre, wf s -> allocated s vl -> allocated s vr ->
  step K (mimc_rounds cs xl xr vl vr) s Pre (fun _ _ => True) (fun _ _ _ => True).
Proof.
  induction cs as [|c cs IH]; intros xl xr vl vr s Pre Hw Al Ar; cbn [mimc_rounds].
  - apply step_ret; auto.
  - eapply step_bind; [apply (step_alloc K _ s Pre (fun x => (x vl + c) * (x vl + c)) Hw)|].
    intros vt s1 E1 Hw1 (Evt & At & _). cbn beta.
    assert (allocated s1 vl) as Al1 by exact (allocated_ext K s s1 _ E1 Al).
    assert (allocated s1 vr) as Ar1 by exact (allocated_ext K s s1 _ E1 Ar).
    eapply step_bind; [apply step_enforce; [exact Hw1|vars; auto..|]|].
    { intros x H1 (x0 & _ & _ & C & Et). autorewrite with lcdb. rewrite (proj1 H1), Et, (C vl Al). ring. }
    intros [] s2 E2 Hw2 _. cbn beta.
    assert (allocated s2 vl) as Al2 by exact (allocated_ext K s1 s2 _ E2 Al1).
    assert (allocated s2 vr) as Ar2 by exact (allocated_ext K s1 s2 _ E2 Ar1).
    assert (allocated s2 vt) as At2 by exact (allocated_ext K s1 s2 _ E2 At).
    eapply step_bind; [apply (step_alloc K _ s2 _ (fun x => x vt * (x vl + c) + x vr) Hw2)|].
    intros vn s3 E3 Hw3 (Evn & An & I3 & _). cbn beta.
    assert (allocated s3 vl) as Al3 by exact (allocated_ext K s2 s3 _ E3 Al2).
    assert (allocated s3 vr) as Ar3 by exact (allocated_ext K s2 s3 _ E3 Ar2).
    assert (allocated s3 vt) as At3 by exact (allocated_ext K s2 s3 _ E3 At2).
    eapply step_bind; [apply step_enforce; [exact Hw3|vars; auto..|]|].
    { intros x H1 (x0 & _ & _ & C & Et). autorewrite with lcdb. rewrite (proj1 H1), Et, (C vl Al2), (C vr Ar2), (C vt At2). ring. }
    intros [] s4 E4 Hw4 _. cbn beta.
    eapply step_conseq; [apply (IH _ _ vn vl s4 (fun _ => True)); [exact Hw4|exact (allocated_ext K s3 s4 _ E4 An)|exact (allocated_ext K s3 s4 _ E4 Al3)]|..]; cbn beta; auto.

Qed.
Lemma rounds_step' (cs : list K) xl xr vl vr s Pre : wf s -> allocated s vl -> allocated s vr ->
  step K (mimc_rounds cs xl xr vl vr) s Pre (fun s' _ => inps s' = inps s) (fun _ _ _ => True).
Proof.
  intros Hw A B. pose proof (rounds_step cs xl xr vl vr s Pre Hw A B) as RS. unfold step in *.
  destruct (mimc_rounds _ _ _ _ _ s) as [[r s3]| |] eqn:E; auto. destruct RS as (R1 & R2 & _ & R4). apply rounds_inps in E. auto.
Qed.
Lemma mimc_step b s Pre (ya yb : K) : wf s ->
  step K (mimc nl cts b) s Pre (fun s' _ => inps s' = inps s) (fun x x' _ => x' (first_var s) = ya /\ x' (second_var s) = yb).
Proof.
  intros Hw. unfold step, mimc.
  destruct (match b with Some by_ => rmap Some (mimc_hash nl cts by_) | None => Ok None end) as [t| |]; [|exact I|exact I].
  change (step K (mimc_body cts t) s Pre (fun s' _ => inps s' = inps s) (fun x x' _ => x' (first_var s) = ya /\ x' (second_var s) = yb)).
  unfold mimc_body. cbv zeta.
  eapply step_bind; [apply (step_alloc K _ s Pre (fun _ => ya) Hw)|]. intros vl s1 E1 Hw1 (-> & Al & I1 & L1). cbn beta.
  eapply step_bind; [apply (step_alloc K _ s1 _ (fun _ => yb) Hw1)|]. intros vr s2 E2 Hw2 (-> & Ar & I2 & L2). cbn beta.
  assert (allocated s2 (first_var s)) as Al2 by exact (allocated_ext K s1 s2 _ E2 Al).
  eapply step_bind; [apply (rounds_step' cts _ _ (Aux (length (auxs s))) (Aux (length (auxs s1))) s2 _ Hw2 Al2 Ar)|]. intros r s3 E3 Hw3 I3. cbn beta. apply step_ret; [exact Hw3|congruence|].
  intros x3 _ (x2 & X2 & _ & C3 & _) x2' _ _ C3' _ x1 X1 (x0 & _ & _ & C1 & V1) C2 V2 x0' _ _ C1' V1'.
  rewrite (C3' _ Al2), (C2 (first_var s) Al). split; [exact V1'|].
  assert (second_var s = Aux (length (auxs s1))) as -> by (unfold second_var; f_equal; lia). rewrite (C3' _ Ar). exact V2.
Qed.
Lemma mimc_len b s r s' : mimc nl cts b s = Ok (r, s') -> (length (auxs s) + 2 <= length (auxs s'))%nat.
Proof.
  unfold mimc. destruct (match b with Some by_ => rmap Some (mimc_hash nl cts by_) | None => Ok None end) as [t| |]; try discriminate.
  assert (forall f (t : cs K) v t', alloc f t = Ok (v, t') -> length (auxs t') = Datatypes.S (length (auxs t))) as AI.
  { intros f u v t' E. unfold alloc in E. destruct (md u); [|destruct f]; inversion E; subst; cbn; rewrite app_length; cbn; lia. }
  assert (forall cs xl xr vl vr (s : ModelCS.cs K) r s', mimc_rounds cs xl xr vl vr s = Ok (r, s') -> (length (auxs s) <= length (auxs s'))%nat) as RL.
  { induction cs as [|c cs IH]; intros xl xr vl vr s0 r0 s0' H; cbn [mimc_rounds] in H.
    - unfold ret in H. injection H as _ <-. lia.
    - unfold bind at 1 in H. destruct (alloc _ s0) as [[v1 s1]| |] eqn:E1; try discriminate H.
      unfold bind at 1 in H. unfold enforce at 1 in H. unfold bind at 1 in H.
      match type of H with context[alloc ?f ?t] => destruct (alloc f t) as [[v2 s2]| |] eqn:E2; try discriminate H end.
      unfold bind at 1 in H. unfold enforce at 1 in H. apply IH in H. cbn [auxs] in H. apply AI in E1, E2. cbn [auxs] in E2. lia. }
  unfold mimc_body. cbv zeta. unfold bind at 1. destruct (alloc _ s) as [[v1 s1]| |] eqn:E1; try discriminate.
  unfold bind at 1. destruct (alloc _ s1) as [[v2 s2]| |] eqn:E2; try discriminate.
  unfold bind at 1. destruct (mimc_rounds _ _ _ _ _ s2) as [[v3 s3]| |] eqn:E3; try discriminate. unfold ret. intro H. injection H as _ <-.
  apply AI in E1, E2. apply RL in E3. lia.
Qed.
(** The command-line circuit accepts every public image. *)
Theorem cli_hash_open image s s' : wf s -> cli_hash nl cts image s = Ok (tt, s') ->
  length (inps s') = Datatypes.S (length (inps s)) /\
  forall x y a b, sat x s -> exists x', continues s x x' /\ sat x' s' /\ x' (Input (length (inps s))) = y /\ x' (first_var s) = a /\ x' (second_var s) = b.
Proof.
  intros Hw H.
  assert (forall y a b, step K (cli_hash nl cts image) s (fun _ => True) (fun s' _ => length (inps s') = Datatypes.S (length (inps s)))
    (fun x x' _ => x' (Input (length (inps s))) = y /\ x' (first_var s) = a /\ x' (second_var s) = b)) as G.
  { intros y a b. unfold cli_hash. 
    assert (step K (mimc nl cts image) s (fun _ => True) (fun s' _ => inps s' = inps s /\ allocated s' (first_var s) /\ allocated s' (second_var s)) (fun x x' _ => x' (first_var s) = a /\ x' (second_var s) = b)) as MS.
    { pose proof (mimc_step image s (fun _ => True) a b Hw) as MS. unfold step in *. destruct (mimc nl cts image s) as [[r s1]| |] eqn:E; auto.
      destruct MS as (A & B & C & D). split; [exact A|]. split; [exact B|]. split; [|exact D]. split; [exact C|].
      pose proof (mimc_len image s r s1 E) as L. unfold first_var, second_var. cbn. lia. }
    eapply step_bind; [exact MS|]. intros v s1 E1 Hw1 (I1 & A1 & A2). cbn beta.
    eapply step_bind; [apply (step_alloc_input K _ s1 _ (fun _ => y) Hw1)|]. intros vi s2 E2 Hw2 (-> & Ai & _ & L2). cbn beta.
    apply step_ret; [exact Hw2|congruence|]. intros x2 _ _ x1 _ _ C2 V2 x0 _ _ C1 (V0 & V1). rewrite <- I1. split; [exact V2|].
    rewrite (C2 _ A1), (C2 _ A2). split; assumption. }
  unfold step in G. rewrite H in G. split; [destruct (G 0 0 0) as (_ & _ & L & _); exact L|].
  intros x y a b Hx. destruct (G y a b) as (_ & _ & _ & D). destruct (D x Hx I) as (x' & C & Sx & V). exists x'. auto.
Qed.
(** One level of the membership circuit: the output can be anything. *)
Lemma hash_enforce_step ps s Pre (y : K) : wf s ->
  step K (hash_enforce nl cts ps) s Pre (fun s' r => allocated s' (mo_var r)) (fun x x' r => x' (mo_var r) = y).
Proof.
  intros Hw. unfold step, hash_enforce. destruct (params_bytes nl ps) as [by_| |]; [|exact I|exact I].
  change (step K (bind (mimc nl cts (Some by_)) mout_alloc) s Pre (fun s' r => allocated s' (mo_var r)) (fun x x' r => x' (mo_var r) = y)).
  eapply step_bind; [apply (mimc_step (Some by_) s Pre 0 0 Hw)|]. intros r s1 E1 Hw1 _. cbn beta. unfold mout_alloc.
  eapply step_bind; [apply (step_alloc K _ s1 _ (fun _ => y) Hw1)|]. intros v s2 E2 Hw2 (_ & A & _). cbn beta.
  apply step_ret; [exact Hw2|exact A|]. cbn [mo_var]. intros x2 _ _ x1 _ _ _ V x0 _ _ _ _. exact V.
Qed.
Lemma member_step_open index par sib s Pre (y : K) : wf s -> allocated s (mo_var par) -> allocated s (mo_var sib) ->
  step K (member_step nl cts index par sib) s Pre (fun s' r => allocated s' (mo_var r)) (fun x x' r => x' (mo_var r) = y).
Proof.
  intros Hw Ap As. unfold member_step. cbv zeta.
  eapply step_bind; [apply (step_alloc K _ s Pre (fun _ => 0) Hw)|]. intros vl s1 E1 Hw1 (_ & Al & _). cbn beta.
  eapply step_bind; [apply (step_alloc K _ s1 _ (fun x => x (mo_var sib)) Hw1)|]. intros vi s2 E2 Hw2 (_ & Ai & _). cbn beta.
  assert (allocated s1 (mo_var par)) as Ap1 by exact (allocated_ext K s s1 _ E1 Ap).
  assert (allocated s1 (mo_var sib)) as As1 by exact (allocated_ext K s s1 _ E1 As).
  assert (allocated s2 (mo_var par)) as Ap2 by exact (allocated_ext K s1 s2 _ E2 Ap1).
  assert (allocated s2 (mo_var sib)) as As2 by exact (allocated_ext K s1 s2 _ E2 As1).
  assert (allocated s2 vl) as Al2 by exact (allocated_ext K s1 s2 _ E2 Al).
  eapply step_bind; [apply step_enforce; [exact Hw2|vars; auto..|]|].
  { intros x H1 (x1 & X1 & (x0 & _ & _ & C1 & V1) & C2 & V2). autorewrite with lcdb. rewrite (C2 vl Al), V1, V2, (C2 (mo_var sib) As1). ring. }
  intros [] s3 E3 Hw3 _. cbn beta.
  assert (forall ps, step K (hash_enforce nl cts ps) s3 (fun _ => True) (fun s' r => allocated s' (mo_var r)) (fun x x' r => x' (mo_var r) = y)) as G
    by (intro ps; apply hash_enforce_step; exact Hw3).
  destruct (is_left index); (eapply step_conseq; [apply G|..]; cbn beta; auto).
Qed.
Lemma member_loop_open lemmas : forall index par s Pre (y : K), lemmas <> [] -> wf s -> allocated s (mo_var par) -> Forall (fun l => allocated s (mo_var l)) lemmas ->
  step K (member_loop nl cts index par lemmas) s Pre (fun s' r => allocated s' (mo_var r)) (fun x x' r => x' (mo_var r) = y).
Proof.
  induction lemmas as [|sib r IH]; intros index par s Pre y N Hw Ap Al; [congruence|]. cbn [member_loop]. inversion Al as [|? ? As Ar]; subst.
  eapply step_bind; [apply (member_step_open index par sib s Pre y Hw Ap As)|]. intros par' s1 E1 Hw1 A1. cbn beta.
  assert (Forall (fun l => allocated s1 (mo_var l)) r) as Ar1 by (eapply Forall_impl; [|exact Ar]; intros l; apply (allocated_ext K s s1 _ E1)).
  destruct r as [|sib2 r].
  - cbn [member_loop]. apply step_ret; [exact Hw1|exact A1|]. intros x1 _ _ x0 _ _ _ V. exact V.
  - eapply step_conseq; [apply (IH (parent index) par' s1 (fun _ => True) y ltac:(discriminate) Hw1 A1 Ar1)|..]; cbn beta; auto.
Qed.
(** With at least one sibling the circuit accepts every leaf, sibling list and root. *)
Theorem membership_open index lemmas root leaf s s' : wf s -> lemmas <> [] ->
  allocated s (mo_var root) -> allocated s (mo_var leaf) -> Forall (fun l => allocated s (mo_var l)) lemmas ->
  set_membership nl cts index lemmas root leaf s = Ok (tt, s') ->
  forall x, sat x s -> exists x', continues s x x' /\ sat x' s'.
Proof.
  intros Hw N Ar Al As H x Hx.
  assert (step K (set_membership nl cts index lemmas root leaf) s (fun x0 => x0 (mo_var root) = x (mo_var root)) (fun _ _ => True) (fun _ _ _ => True)) as G.
  { unfold set_membership. eapply step_bind; [apply (member_loop_open lemmas index leaf s _ (x (mo_var root)) N Hw Al As)|].
    intros r s1 E1 Hw1 A1. cbn beta. assert (allocated s1 (mo_var root)) as Ar1 by exact (allocated_ext K s s1 _ E1 Ar).
    eapply step_conseq; [apply step_enforce with (Pre := fun x0 => x0 (mo_var r) = x0 (mo_var root)); [exact Hw1|vars; auto..|]|..]; cbn beta; auto.
    - intros x1 [O _] V. autorewrite with lcdb. rewrite O, V. ring.
    - intros x1 S1 (x0 & _ & R0 & C & V). rewrite V, (C _ Ar), R0. reflexivity. }
  unfold step in G. rewrite H in G. destruct G as (_ & _ & _ & G). destruct (G x Hx eq_refl) as (x' & C & Sx & _). eauto.
Qed.
(** Without siblings it says that the leaf is the root. *)
Theorem membership_single index root leaf s : 
  exists s', set_membership nl cts index [] root leaf s = Ok (tt, s') /\
  forall x, sat x s' <-> sat x s /\ x (mo_var leaf) = x (mo_var root).
Proof.
  eexists. split; [reflexivity|]. intro x. unfold sat. cbn [cons]. rewrite Forall_app. split.
  - intros (O & A & B). inversion B as [|? ? B1 _]; subst. unfold holds in B1. cbn [ca cb cc] in B1. autorewrite with lcdb in B1. rewrite O in B1.
    split; [auto|]. apply fsub_0. apply fsub_0 in B1. rewrite <- B1. ring.
  - intros ((O & A) & B). split; [exact O|]. split; [exact A|]. constructor; [|constructor]. unfold holds. cbn [ca cb cc]. autorewrite with lcdb. rewrite O, B. ring.
Qed.
(** Key generation, where values are unknown, fails. *)
Theorem membership_setup_fails index lemmas root leaf s : md s = Setup -> lemmas <> [] ->
  mo_val leaf = None \/ (exists l r, lemmas = l :: r /\ mo_val l = None) ->
  set_membership nl cts index lemmas root leaf s = Err AssignmentMissing.
Proof.
  intros Hm N H. destruct lemmas as [|l r]; [congruence|]. 
  assert (forall ps s0, (exists p, In p ps /\ mo_val p = None) -> @params_bytes K nl ps = Err AssignmentMissing -> hash_enforce nl cts ps s0 = Err AssignmentMissing) as HE
    by (intros ps s0 _ E; unfold hash_enforce; rewrite E; reflexivity).
  assert (forall a b : mout K, mo_val a = None \/ mo_val b = None -> params_bytes nl [a; b] = Err AssignmentMissing) as PB.
  { intros a b D. cbn. destruct (mo_val a); [|reflexivity]. destruct D as [D|D]; [discriminate|]. rewrite D. reflexivity. }
  assert (mo_val leaf = None \/ mo_val l = None) as D by (destruct H as [H|(l0 & r0 & E & H)]; [auto|inversion E; subst; auto]).
  unfold set_membership. unfold bind at 1. cbn [member_loop]. unfold bind at 1. unfold member_step. cbv zeta. unfold bind at 1. unfold alloc at 1. rewrite Hm. unfold bind at 1. unfold alloc at 1. cbn [md]. unfold bind at 1.
  unfold enforce. cbn [md inps auxs cons]. unfold hash_enforce. destruct (is_left index); rewrite PB by tauto; reflexivity.
Qed.
End H.
End R.
