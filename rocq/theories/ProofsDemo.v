(** Proofs about the example circuits. *)
From Verif Require Import Field ModelLC SpecLC ProofsLC ModelCS SpecCS ProofsCS ModelBoolean ModelOperator SpecOperator ProofsOperator ProofsSolve ProofsWord ModelMimc SpecMimc ProofsMimc ModelSponge SpecSponge ProofsSponge ModelDemo.
Local Open Scope fld_scope.

Section R.
Variable K : PFld.
Add Field Kf : (f_laws K).
Implicit Types (s : cs K) (x : var -> K).

(** ** The circuits with all values present, without options *)
Fixpoint kpow_loop (sv : K) (st : var) (b : list bool) (rv : K) (res : var) : M K (K * var) :=
  match b with
  | [] => ret (rv, res)
  | i :: r =>
    let t := rv * rv in
    tmp <- alloc (Ok t) ;;
    enforce (lc_add_var lc_zero res) (lc_add_var lc_zero res) (lc_add_var lc_zero tmp) ;;;
    if i then
      tmp2 <- alloc (Ok (t * sv)) ;;
      enforce (lc_add_var lc_zero tmp) (lc_add_var lc_zero st) (lc_add_var lc_zero tmp2) ;;;
      kpow_loop sv st r (t * sv) tmp2
    else kpow_loop sv st r t tmp
  end.
Definition kpow (a : K * var) (b : list bool) : M K (K * var) :=
  res <- alloc (Ok 1) ;; kpow_loop (fst a) (snd a) (strip b) 1 res.
Definition kpows (st : t3 (K * var)) (e : list bool) : M K (t3 (K * var)) :=
  a <- kpow (x0 st) e ;; b <- kpow (x1 st) e ;; d <- kpow (x2 st) e ;; ret (T3 a b d).
Fixpoint krescue (alph invalph : list Z) (mds : t3 (t3 K)) (i : nat) (cs : list (t3 K)) (st : t3 (K * var)) : M K (t3 (K * var)) :=
  match cs with
  | [] => ret st
  | c :: r =>
    st1 <- kpows st (rescue_exp alph invalph i) ;; st2 <- mix mds st1 ;; st3 <- add_consts st2 c ;; krescue alph invalph mds (S i) r st3
  end.
Definition ksboxes (alph : list Z) (half i : nat) (st : t3 (K * var)) : M K (t3 (K * var)) :=
  if Nat.ltb i half || Nat.ltb half i then kpows st (bits_be alph)
  else d <- kpow (x2 st) (bits_be alph) ;; ret (T3 (x0 st) (x1 st) d).
Fixpoint kposeidon (alph : list Z) (half : nat) (mds : t3 (t3 K)) (i : nat) (ark : list (t3 K)) (st : t3 (K * var)) : M K (t3 (K * var)) :=
  match ark with
  | [] => ret st
  | c :: r =>
    st1 <- add_consts st c ;; st2 <- ksboxes alph half i st1 ;; st3 <- mix mds st2 ;; kposeidon alph half mds (S i) r st3
  end.
Definition kcircuit (f : t3 (K * var) -> M K (t3 (K * var))) (xl xr : K) : M K unit :=
  v0 <- alloc (Ok xl) ;; v1 <- alloc (Ok xr) ;; v2 <- alloc (Ok 0) ;; st' <- f (T3 (xl, v0) (xr, v1) (0, v2)) ;; expose st' ;;; ret tt.

Definition up (a : K * var) : option K * var := (Some (fst a), snd a).
Definition lifted {A B} (m' : M K B) (m : M K A) (f : A -> B) : Prop :=
  forall s, m' s = match m s with Ok (a, s') => Ok (f a, s') | Err e => Err e | Panic => Panic end.
Lemma lifted_bind {A B A' B'} (m' : M K A') (m : M K A) f (k' : A' -> M K B') (k : A -> M K B) g :
  lifted m' m f -> (forall a, lifted (k' (f a)) (k a) g) -> lifted (bind m' k') (bind m k) g.
Proof. intros H1 H2 s. unfold bind. rewrite H1. destruct (m s) as [[a s']| |]; [apply H2|reflexivity..]. Qed.
Lemma lifted_ret {A B} (a : A) (b : B) f : b = f a -> lifted (ret b) (ret a) f.
Proof. intros -> s. reflexivity. Qed.
Lemma lifted_refl {A} (m : M K A) : lifted m m (fun a => a).
Proof. intro s. destruct (m s) as [[a s']| |]; reflexivity. Qed.
Ltac lift_step := eapply lifted_bind; [apply lifted_refl|intro; cbn beta].
Lemma up_pow_loop sv st b : forall rv res, lifted (demo_pow_loop (Some sv) st b (Some rv) res) (kpow_loop sv st b rv res) up.
Proof.
  induction b as [|i b IH]; intros rv res; cbn [demo_pow_loop kpow_loop option_map ok_or map_mul lift_res].
  - apply lifted_ret. reflexivity.
  - lift_step. lift_step. destruct i; [|apply IH].
    cbn [lift_res]. intro s. unfold bind at 1. cbn [ret]. revert s.
    change (lifted (tmp2 <- alloc (Ok (rv * rv * sv)) ;; enforce (lc_add_var lc_zero a) (lc_add_var lc_zero st) (lc_add_var lc_zero tmp2) ;;; demo_pow_loop (Some sv) st b (Some (rv * rv * sv)) tmp2)
      (tmp2 <- alloc (Ok (rv * rv * sv)) ;; enforce (lc_add_var lc_zero a) (lc_add_var lc_zero st) (lc_add_var lc_zero tmp2) ;;; kpow_loop sv st b (rv * rv * sv) tmp2) up).
    lift_step. lift_step. apply IH.
Qed.
Lemma up_pow a b : lifted (demo_pow (up a) b) (kpow a b) up.
Proof. unfold demo_pow, kpow. lift_step. apply up_pow_loop. Qed.
Lemma up_pows st e : lifted (demo_pows (map3 up st) e) (kpows st e) (map3 up).
Proof. unfold demo_pows, kpows. do 3 (eapply lifted_bind; [apply up_pow|intro; cbn beta]). apply lifted_ret. reflexivity. Qed.
Lemma up_add_const a c : lifted (demo_add_const (up a) c) (add_const a c) up.
Proof. unfold demo_add_const, add_const. cbn [up fst snd option_map ok_or]. cbv zeta. lift_step. lift_step. apply lifted_ret. reflexivity. Qed.
Lemma up_add_consts st c : lifted (demo_add_consts (map3 up st) c) (add_consts st c) (map3 up).
Proof. unfold demo_add_consts, add_consts. do 3 (eapply lifted_bind; [apply up_add_const|intro; cbn beta]). apply lifted_ret. reflexivity. Qed.
Lemma up_mix_cell c a acc : lifted (demo_mix_cell c (up a) (up acc)) (mix_cell c a acc) up.
Proof.
  unfold demo_mix_cell, mix_cell. cbn [up fst snd lift_res]. cbv zeta. lift_step. intro s. unfold bind at 1. cbn [ret]. revert s.
  match goal with |- forall s, ?m' s = _ => change (lifted m' (tmp4 <- alloc (Ok (c * fst a + fst acc)) ;; enforce (lc_add_var lc_zero a0) (lc_add_var lc_zero (snd a)) (lc_sub_var (lc_add_var lc_zero tmp4) (snd acc)) ;;; ret (c * fst a + fst acc, tmp4)) up) end.
  lift_step. lift_step. apply lifted_ret. reflexivity.
Qed.
Lemma up_mix_row m st acc : lifted (demo_mix_row m (map3 up st) (up acc)) (mix_row m st acc) up.
Proof. unfold demo_mix_row, mix_row. do 2 (eapply lifted_bind; [apply up_mix_cell|intro; cbn beta]). apply up_mix_cell. Qed.
Lemma up_mix mds st : lifted (demo_mix mds (map3 up st)) (mix mds st) (map3 up).
Proof.
  unfold demo_mix, mix. do 3 lift_step. do 3 (eapply lifted_bind; [apply (up_mix_row _ st (0, _))|intro; cbn beta]). apply lifted_ret. reflexivity.
Qed.
Lemma up_rescue alph invalph mds cs : forall i st, lifted (demo_rescue_rounds alph invalph mds i cs (map3 up st)) (krescue alph invalph mds i cs st) (map3 up).
Proof.
  induction cs as [|c cs IH]; intros i st; cbn [demo_rescue_rounds krescue]; [apply lifted_ret; reflexivity|].
  eapply lifted_bind; [apply up_pows|intro; cbn beta]. eapply lifted_bind; [apply up_mix|intro; cbn beta]. eapply lifted_bind; [apply up_add_consts|intro; cbn beta]. apply IH.
Qed.
Lemma up_sboxes alph half i st : lifted (demo_sboxes alph half i (map3 up st)) (ksboxes alph half i st) (map3 up).
Proof.
  unfold demo_sboxes, ksboxes. destruct (_ || _); [apply up_pows|]. eapply lifted_bind; [apply up_pow|intro; cbn beta]. apply lifted_ret. reflexivity.
Qed.
Lemma up_poseidon alph half mds ark : forall i st, lifted (demo_poseidon_rounds alph half mds i ark (map3 up st)) (kposeidon alph half mds i ark st) (map3 up).
Proof.
  induction ark as [|c ark IH]; intros i st; cbn [demo_poseidon_rounds kposeidon]; [apply lifted_ret; reflexivity|].
  eapply lifted_bind; [apply up_add_consts|intro; cbn beta]. eapply lifted_bind; [apply up_sboxes|intro; cbn beta]. eapply lifted_bind; [apply up_mix|intro; cbn beta]. apply IH.
Qed.
Lemma up_circuit (f' : t3 (option K * var) -> M K (t3 (option K * var))) f xl xr : (forall st, lifted (f' (map3 up st)) (f st) (map3 up)) ->
  forall s, (st <- demo_start (Some xl) (Some xr) ;; st' <- f' st ;; demo_expose st') s = kcircuit f xl xr s.
Proof.
  intros Hf s. unfold demo_start, kcircuit, demo_expose, expose, bind, ret. cbn [ok_or].
  destruct (alloc (Ok xl) s) as [[v0 s1]| |]; try reflexivity.
  destruct (alloc (Ok xr) s1) as [[v1 s2]| |]; try reflexivity.
  destruct (alloc (Ok 0) s2) as [[v2 s3]| |]; try reflexivity.
  pose proof (Hf (T3 (xl, v0) (xr, v1) (0, v2)) s3) as E. unfold map3, up in E. cbn [x0 x1 x2 fst snd] in E. rewrite E.
  destruct (f _ s3) as [[st s4]| |]; try reflexivity. cbn [x0 fst snd ok_or].
  destruct (alloc_input _ s4) as [[v s5]| |]; reflexivity.
Qed.
Lemma rescue_demo_k alph invalph mds c0 cs xl xr s : rescue_demo alph invalph mds c0 cs (Some xl) (Some xr) s =
  kcircuit (fun st => st0 <- add_consts st c0 ;; krescue alph invalph mds 0 cs st0) xl xr s.
Proof.
  rewrite <- (up_circuit (fun st => st0 <- demo_add_consts st c0 ;; demo_rescue_rounds alph invalph mds 0 cs st0)).
  - unfold rescue_demo, bind. destruct (demo_start _ _ s) as [[st s1]| |]; auto. destruct (demo_add_consts st c0 s1) as [[st0 s2]| |]; auto.
  - intro st. eapply lifted_bind; [apply up_add_consts|intro; cbn beta]. apply up_rescue.
Qed.
Lemma poseidon_demo_k alph half mds ark xl xr s : poseidon_demo alph half mds ark (Some xl) (Some xr) s = kcircuit (kposeidon alph half mds 0 ark) xl xr s.
Proof. rewrite <- (up_circuit (demo_poseidon_rounds alph half mds 0 ark)); [reflexivity|]. intro st. apply up_poseidon. Qed.

(** ** Honest runs compute the native hash *)
Lemma kpow_loop_hon sv st b : forall rv res s, wf s -> allocated s st -> allocated s res ->
  spec (kpow_loop sv st b rv res) s (fun s' r => allocated s' (snd r) /\ fst r = fold_left (fun r (i : bool) => let q := r * r in if i then q * sv else q) b rv)
    (fun _ _ => True) (hon K s (sv, st) /\ hon K s (rv, res)) (hon K).
Proof.
  induction b as [|i b IH]; intros rv res s Hw As Ar; cbn [kpow_loop fold_left].
  - apply spec_ret'; [exact Hw|auto|auto|]. intros _ _ [_ H]. exact H.
  - cbv zeta. eapply spec_seq; [apply (spec_alloc' K)|..]; [exact Hw|discriminate|eauto|].
    intros tmp s1 E1 Hw1 (At & _) _. cbn beta.
    assert (allocated s1 res) as Ar1 by exact (allocated_ext K s s1 _ E1 Ar).
    assert (allocated s1 st) as As1 by exact (allocated_ext K s s1 _ E1 As).
    eapply spec_seq; [apply (spec_enforce' K); [exact Hw1|vars; auto..]|..].
    { intros ((_ & R0) & _ & _ & HR). unfold hon in R0. cbn [fst snd] in R0. autorewrite with lcdb. injection HR as HR. rewrite (wit_same K s s1 res), <- HR, R0 by assumption. ring. }
    intros [] s2 E2 Hw2 _ _. cbn beta.
    assert (ext s s2) as E02 by exact (ext_trans K _ _ _ E1 E2).
    assert (allocated s2 st) as As2 by exact (allocated_ext K s1 s2 _ E2 As1).
    assert (allocated s2 tmp) as At2 by exact (allocated_ext K s1 s2 _ E2 At).
    destruct i.
    + eapply spec_seq; [apply (spec_alloc' K)|..]; [exact Hw2|discriminate|eauto|].
      intros tmp2 s3 E3 Hw3 (At3 & _) _. cbn beta.
      assert (allocated s3 st) as As3 by exact (allocated_ext K s2 s3 _ E3 As2).
      assert (allocated s3 tmp) as Att3 by exact (allocated_ext K s2 s3 _ E3 At2).
      assert (ext s s3) as E03 by exact (ext_trans K _ _ _ E02 E3).
      eapply spec_seq; [apply (spec_enforce' K); [exact Hw3|vars; auto..]|..].
      { intros ((((S0 & R0) & _ & _ & HR) & _) & _ & _ & HR3). unfold hon in S0. cbn [fst snd] in S0. autorewrite with lcdb. injection HR as HR. injection HR3 as HR3.
        rewrite (wit_same K s2 s3 tmp), (wit_same K s1 s2 tmp), (wit_same K s s3 st), <- HR, <- HR3, S0 by assumption. ring. }
      intros [] s4 E4 Hw4 _ _. cbn beta. assert (ext s s4) as E04 by exact (ext_trans K _ _ _ E03 E4).
      eapply spec_conseq_sat; [apply (IH (rv * rv * sv) tmp2 s4 Hw4)|..]; cbn beta; auto.
      * exact (allocated_ext K s3 s4 _ E4 As3).
      * exact (allocated_ext K s3 s4 _ E4 At3).
      * intros (((((S0 & R0) & _) & _) & _ & _ & HR3) & _). injection HR3 as HR3. split; [exact (hon_ext K s s4 (sv, st) E04 As S0)|].
        unfold hon. cbn [fst snd]. rewrite (wit_same K s3 s4) by assumption. exact HR3.
    + eapply spec_conseq_sat; [apply (IH (rv * rv) tmp s2 Hw2 As2 At2)|..]; cbn beta; auto.
      intros (((S0 & R0) & _ & _ & HR) & _). injection HR as HR. split; [exact (hon_ext K s s2 (sv, st) E02 As S0)|].
      unfold hon. cbn [fst snd]. rewrite (wit_same K s1 s2) by assumption. exact HR.
Qed.
Lemma pow_strip (v : K) b : pow_bits v (strip b) = pow_bits v b.
Proof. rewrite !pow_bits_spec, strip_val. reflexivity. Qed.
Lemma kpow_hon a b s : wf s -> allocated s (snd a) ->
  spec (kpow a b) s (fun s' r => allocated s' (snd r) /\ fst r = pow_bits (fst a) b) (fun _ _ => True) (hon K s a) (hon K).
Proof.
  intros Hw Aa. unfold kpow. eapply spec_seq; [apply (spec_alloc' K)|..]; [exact Hw|discriminate|eauto|].
  intros res s1 E1 Hw1 (Ar & _) _. cbn beta.
  eapply spec_conseq_sat; [apply (kpow_loop_hon (fst a) (snd a) (strip b) 1 res s1 Hw1 (allocated_ext K s s1 _ E1 Aa) Ar)|..]; cbn beta; auto.
  - intros r s' _ _ [B F] _. split; [exact B|]. rewrite F. apply pow_strip.
  - intros (Ha & _ & _ & HR). injection HR as HR. split; [exact (hon_ext K s s1 a E1 Aa Ha)|exact HR].
Qed.
Lemma kpows_hon st e s : wf s -> al3 K s st ->
  spec (kpows st e) s (fun s' r => al3 K s' r /\ map3 fst r = map3 (fun v => pow_bits v e) (map3 fst st)) (fun _ _ => True) (hon3 K s st) (hon3 K).
Proof.
  intros Hw (A0 & A1 & A2). unfold kpows.
  eapply spec_seq; [apply (kpow_hon (x0 st) e s Hw A0)|intros (H & _); exact H|]. intros a s1 E1 Hw1 (B0 & F0) _. cbn beta.
  eapply spec_seq; [apply (kpow_hon (x1 st) e s1 Hw1 (allocated_ext K s s1 _ E1 A1))|intros ((_ & H & _) & _); exact (hon_ext K _ _ _ E1 A1 H)|].
  intros b s2 E2 Hw2 (B1 & F1) _. cbn beta. assert (ext s s2) as E02 by exact (ext_trans K _ _ _ E1 E2).
  eapply spec_seq; [apply (kpow_hon (x2 st) e s2 Hw2 (allocated_ext K s s2 _ E02 A2))|intros (((_ & _ & H) & _) & _); exact (hon_ext K _ _ _ E02 A2 H)|].
  intros d s3 E3 Hw3 (B2 & F2) _. cbn beta. assert (ext s1 s3) as E13 by exact (ext_trans K _ _ _ E2 E3).
  apply spec_ret'; [exact Hw3| |auto|].
  - split; [repeat split; cbn [x0 x1 x2]; [exact (allocated_ext K s1 s3 _ E13 B0)|exact (allocated_ext K s2 s3 _ E3 B1)|exact B2]|].
    unfold map3. cbn [x0 x1 x2]. rewrite F0, F1, F2. reflexivity.
  - intros _ _ (((_ & _ & _ & H0) & _ & _ & H1) & _ & _ & H2). repeat split; cbn [x0 x1 x2]; [exact (hon_ext K _ _ _ E13 B0 H0)|exact (hon_ext K _ _ _ E3 B1 H1)|exact H2].
Qed.
Lemma krescue_hon alph invalph mds cs : forall i st s, wf s -> al3 K s st ->
  spec (krescue alph invalph mds i cs st) s (fun s' r => al3 K s' r /\ map3 fst r = rescue_steps alph invalph mds i cs (map3 fst st)) (fun _ _ => True) (hon3 K s st) (hon3 K).
Proof.
  induction cs as [|c cs IH]; intros i st s Hw A; cbn [krescue rescue_steps].
  - apply spec_ret'; auto.
  - eapply spec_seq; [apply (kpows_hon st _ s Hw A)|auto|]. intros st1 s1 E1 Hw1 (A1 & F1) _. cbn beta.
    eapply spec_seq; [apply (mix_hon K mds st1 s1 Hw1 A1)|tauto|]. intros st2 s2 E2 Hw2 (A2 & F2) _. cbn beta.
    eapply spec_seq; [apply (add_consts_hon K st2 c s2 Hw2 A2)|tauto|]. intros st3 s3 E3 Hw3 (A3 & F3) _. cbn beta.
    rewrite F2, F1 in F3.
    eapply spec_conseq_sat; [apply (IH (S i) st3 s3 Hw3 A3)|..]; cbn beta; auto.
    + intros r s' _ _ [B F] _. split; [exact B|]. rewrite F, F3. reflexivity.
    + tauto.
Qed.
Lemma ksboxes_hon alph half i st s : wf s -> al3 K s st ->
  spec (ksboxes alph half i st) s (fun s' r => al3 K s' r /\ map3 fst r = poseidon_sbox alph half i (map3 fst st)) (fun _ _ => True) (hon3 K s st) (hon3 K).
Proof.
  intros Hw A. unfold ksboxes, poseidon_sbox. destruct (_ || _).
  - apply kpows_hon; assumption.
  - eapply spec_seq; [apply (kpow_hon (x2 st) (bits_be alph) s Hw (proj2 (proj2 A)))|intros (_ & _ & H); exact H|]. intros d s1 E1 Hw1 (B2 & F2) _. cbn beta.
    pose proof (al3_ext K s s1 st E1 A) as (B0 & B1 & _).
    apply spec_ret'; [exact Hw1| |auto|].
    + split; [repeat split; assumption|]. unfold map3. cbn [x0 x1 x2]. rewrite F2. reflexivity.
    + intros _ _ (H & _ & _ & HR). destruct (hon3_ext K s s1 st E1 A H) as (H0 & H1 & _). repeat split; assumption.
Qed.
Lemma kposeidon_hon alph half mds ark : forall i st s, wf s -> al3 K s st ->
  spec (kposeidon alph half mds i ark st) s (fun s' r => al3 K s' r /\ map3 fst r = poseidon_steps alph half mds i ark (map3 fst st)) (fun _ _ => True) (hon3 K s st) (hon3 K).
Proof.
  induction ark as [|c ark IH]; intros i st s Hw A; cbn [kposeidon poseidon_steps].
  - apply spec_ret'; auto.
  - eapply spec_seq; [apply (add_consts_hon K st c s Hw A)|auto|]. intros st1 s1 E1 Hw1 (A1 & F1) _. cbn beta.
    eapply spec_seq; [apply (ksboxes_hon alph half i st1 s1 Hw1 A1)|tauto|]. intros st2 s2 E2 Hw2 (A2 & F2) _. cbn beta.
    eapply spec_seq; [apply (mix_hon K mds st2 s2 Hw2 A2)|tauto|]. intros st3 s3 E3 Hw3 (A3 & F3) _. cbn beta.
    rewrite F2, F1 in F3.
    eapply spec_conseq_sat; [apply (IH (S i) st3 s3 Hw3 A3)|..]; cbn beta; auto.
    + intros r s' _ _ [B F] _. split; [exact B|]. rewrite F, F3. reflexivity.
    + tauto.
Qed.
Ltac ktac := repeat lazymatch goal with |- keeps _ (bind _ _) => apply keeps_bind; [|intro] | |- keeps _ (ret _) => apply keeps_ret | |- keeps _ (alloc _) => apply keeps_alloc | |- keeps _ (enforce _ _ _) => apply keeps_enforce end.
Lemma keeps_kpow a b : keeps K (kpow a b).
Proof.
  unfold kpow. ktac. generalize (1 : K) a0. induction (strip b) as [|i l IH]; intros rv res; cbn [kpow_loop]; cbv zeta; ktac.
  destruct i; ktac; apply IH.
Qed.
Lemma keeps_kpows st e : keeps K (kpows st e).
Proof. unfold kpows. ktac; apply keeps_kpow. Qed.
Lemma keeps_krescue alph invalph mds cs : forall i st, keeps K (krescue alph invalph mds i cs st).
Proof. induction cs as [|c cs IH]; intros i st; cbn [krescue]; ktac; [apply keeps_kpows|apply keeps_mix|apply keeps_add_consts|apply IH]. Qed.
Lemma keeps_kposeidon alph half mds ark : forall i st, keeps K (kposeidon alph half mds i ark st).
Proof.
  induction ark as [|c ark IH]; intros i st; cbn [kposeidon]; ktac; [apply keeps_add_consts| |apply keeps_mix|apply IH].
  unfold ksboxes. destruct (_ || _); ktac; [apply keeps_kpows|apply keeps_kpow].
Qed.
Lemma kcircuit_hon (f : t3 (K * var) -> M K (t3 (K * var))) (h : t3 K -> t3 K) xl xr s : (forall st, keeps K (f st)) ->
  (forall st s, wf s -> al3 K s st -> spec (f st) s (fun s' r => al3 K s' r /\ map3 fst r = h (map3 fst st)) (fun _ _ => True) (hon3 K s st) (hon3 K)) ->
  wf s -> spec (kcircuit f xl xr) s (fun s' _ => length (inps s') = S (length (inps s))) (fun _ _ => True) True
    (fun s' _ => wit s' (Input (length (inps s))) = x0 (h (T3 xl xr 0))).
Proof.
  intros Hk Hf Hw. unfold kcircuit.
  eapply spec_seq; [apply (spec_alloc' K)|..]; [exact Hw|discriminate|eauto|]. intros v0 s1 E1 Hw1 (A0 & _ & _ & I1) _. cbn beta.
  eapply spec_seq; [apply (spec_alloc' K)|..]; [exact Hw1|discriminate|eauto|]. intros v1 s2 E2 Hw2 (A1 & _ & _ & I2) _. cbn beta.
  eapply spec_seq; [apply (spec_alloc' K)|..]; [exact Hw2|discriminate|eauto|]. intros v2 s3 E3 Hw3 (A2 & _ & _ & I3) _. cbn beta.
  assert (ext s1 s3) as E13 by exact (ext_trans K _ _ _ E2 E3).
  assert (al3 K s3 (T3 (xl, v0) (xr, v1) (0, v2))) as A3 by (repeat split; cbn [x0 x1 x2 snd]; [exact (allocated_ext K s1 s3 _ E13 A0)|exact (allocated_ext K s2 s3 _ E3 A1)|exact A2]).
  eapply spec_seq; [apply (spec_and K _ _ _ _ _ _ (fun s' _ => inps s' = inps s3) (Hf _ s3 Hw3 A3)); intros r s'; apply Hk|..].
  { intros (((_ & _ & _ & H0) & _ & _ & H1) & _ & _ & H2). injection H0 as H0. injection H1 as H1. injection H2 as H2.
    repeat split; unfold hon; cbn [x0 x1 x2 fst snd]; [rewrite (wit_same K s1 s3)|rewrite (wit_same K s2 s3)|]; assumption. }
  intros st' s5 E5 Hw5 ((A5 & F5) & I5) _. cbn beta.
  assert (inps s5 = inps s) as I by congruence.
  eapply spec_seq; [apply (expose_hon K st' s5 Hw5 A5)|tauto|]. intros [] s6 E6 Hw6 L6 _. cbn beta.
  apply spec_ret'; [exact Hw6|rewrite L6, I; auto|auto|]. intros _ _ (_ & _ & _ & HR). rewrite I in HR. rewrite HR.
  change (fst (x0 st')) with (x0 (map3 fst st')). rewrite F5. reflexivity.
Qed.
Lemma spec_same {A} (m m' : M K A) s W S H HR : m' s = m s -> spec m s W S H HR -> spec m' s W S H HR.
Proof. unfold spec. intros ->. auto. Qed.
Theorem rescue_demo_honest alph invalph mds c0 cs xl xr s : wf s ->
  spec (rescue_demo alph invalph mds c0 cs (Some xl) (Some xr)) s (fun s' _ => length (inps s') = S (length (inps s))) (fun _ _ => True) True
    (fun s' _ => wit s' (Input (length (inps s))) = demo_rescue_hash alph invalph mds c0 cs xl xr).
Proof.
  intro Hw. eapply spec_same; [apply rescue_demo_k|].
  apply (kcircuit_hon _ (fun t => rescue_steps alph invalph mds 0 cs (add3 t c0))); [| |exact Hw].
  - intro st. ktac; [apply keeps_add_consts|apply keeps_krescue].
  - intros st s0 Hw0 A0. eapply spec_seq; [apply (add_consts_hon K st c0 s0 Hw0 A0)|tauto|]. intros st1 s1 E1 Hw1 (A1 & F1) _. cbn beta.
    eapply spec_conseq_sat; [apply (krescue_hon alph invalph mds cs 0 st1 s1 Hw1 A1)|..]; cbn beta; auto.
    + intros r s' _ _ [B F] _. split; [exact B|]. rewrite F, F1. reflexivity.
    + tauto.
Qed.
Theorem poseidon_demo_honest alph half mds ark xl xr s : wf s ->
  spec (poseidon_demo alph half mds ark (Some xl) (Some xr)) s (fun s' _ => length (inps s') = S (length (inps s))) (fun _ _ => True) True
    (fun s' _ => wit s' (Input (length (inps s))) = demo_poseidon_hash alph half mds ark xl xr).
Proof.
  intro Hw. eapply spec_same; [apply poseidon_demo_k|].
  apply (kcircuit_hon _ (poseidon_steps alph half mds 0 ark)); [| |exact Hw].
  - intro st. apply keeps_kposeidon.
  - intros st s0 Hw0 A0. apply kposeidon_hon; assumption.
Qed.

(** ** Any output can be claimed *)
Lemma kpow_loop_step sv st b : forall rv res s Pre, wf s -> allocated s st -> allocated s res ->
  step K (kpow_loop sv st b rv res) s Pre (fun s' r => allocated s' (snd r)) (fun _ _ _ => True).
Proof.
  induction b as [|i b IH]; intros rv res s Pre Hw As Ar; cbn [kpow_loop].
  - apply step_ret; auto.
  - cbv zeta. eapply step_bind; [apply (step_alloc K _ s Pre (fun x => x res * x res) Hw)|].
    intros tmp s1 E1 Hw1 (_ & At & I1 & _). cbn beta.
    assert (allocated s1 res) as Ar1 by exact (allocated_ext K s s1 _ E1 Ar).
    assert (allocated s1 st) as As1 by exact (allocated_ext K s s1 _ E1 As).
    eapply step_bind; [apply step_enforce; [exact Hw1|vars; auto..|]|].
    { intros x _ (x0 & _ & _ & C & V). autorewrite with lcdb. rewrite V, (C res Ar). ring. }
    intros [] s2 E2 Hw2 (I2 & _). cbn beta.
    assert (allocated s2 st) as As2 by exact (allocated_ext K s1 s2 _ E2 As1).
    assert (allocated s2 tmp) as At2 by exact (allocated_ext K s1 s2 _ E2 At).
    destruct i.
    + eapply step_bind; [apply (step_alloc K _ s2 _ (fun x => x tmp * x st) Hw2)|].
      intros tmp2 s3 E3 Hw3 (_ & At3 & I3 & _). cbn beta.
      assert (allocated s3 st) as As3 by exact (allocated_ext K s2 s3 _ E3 As2).
      assert (allocated s3 tmp) as Att3 by exact (allocated_ext K s2 s3 _ E3 At2).
      eapply step_bind; [apply step_enforce; [exact Hw3|vars; auto..|]|].
      { intros x _ (x0 & _ & _ & C & V). autorewrite with lcdb. rewrite V, (C tmp At2), (C st As2). ring. }
      intros [] s4 E4 Hw4 (I4 & _). cbn beta.
      eapply step_conseq; [apply (IH (rv * rv * sv) tmp2 s4 (fun _ => True) Hw4 (allocated_ext K s3 s4 _ E4 As3) (allocated_ext K s3 s4 _ E4 At3))|..]; cbn beta; auto.
    + eapply step_conseq; [apply (IH (rv * rv) tmp s2 (fun _ => True) Hw2 As2 At2)|..]; cbn beta; auto.
Qed.
Lemma kpow_step a b s Pre : wf s -> allocated s (snd a) -> step K (kpow a b) s Pre (fun s' r => allocated s' (snd r)) (fun _ _ _ => True).
Proof.
  intros Hw Aa. unfold kpow.
  eapply step_bind; [apply (step_alloc K _ s Pre (fun _ => 0) Hw)|]. intros res s1 E1 Hw1 (_ & Ar & I1 & _). cbn beta.
  eapply step_conseq; [apply (kpow_loop_step (fst a) (snd a) (strip b) 1 res s1 (fun _ => True) Hw1 (allocated_ext K s s1 _ E1 Aa) Ar)|..]; cbn beta; auto.
Qed.
Lemma kpows_step st e s Pre : wf s -> al3 K s st -> step K (kpows st e) s Pre (fun s' r => al3 K s' r) (fun _ _ _ => True).
Proof.
  intros Hw (A0 & A1 & A2). unfold kpows.
  eapply step_bind; [apply (kpow_step (x0 st) e s Pre Hw A0)|]. intros a s1 E1 Hw1 B0. cbn beta.
  eapply step_bind; [apply (kpow_step (x1 st) e s1 _ Hw1 (allocated_ext K s s1 _ E1 A1))|]. intros b s2 E2 Hw2 B1. cbn beta.
  assert (ext s s2) as E02 by exact (ext_trans K _ _ _ E1 E2).
  eapply step_bind; [apply (kpow_step (x2 st) e s2 _ Hw2 (allocated_ext K s s2 _ E02 A2))|]. intros d s3 E3 Hw3 B2. cbn beta.
  assert (ext s1 s3) as E13 by exact (ext_trans K _ _ _ E2 E3).
  apply step_ret; [exact Hw3|repeat split; cbn [x0 x1 x2]; [exact (allocated_ext K s1 s3 _ E13 B0)|exact (allocated_ext K s2 s3 _ E3 B1)|exact B2]|auto].
Qed.
Lemma krescue_step alph invalph mds (y : K) cs : forall i st s Pre, cs <> [] -> wf s -> al3 K s st ->
  step K (krescue alph invalph mds i cs st) s Pre (fun s' r => al3 K s' r) (fun x x' r => x' (snd (x0 r)) = y).
Proof.
  induction cs as [|c cs IH]; intros i st s Pre N Hw A; [congruence|]. cbn [krescue].
  eapply step_bind; [apply (kpows_step st _ s Pre Hw A)|]. intros st1 s1 E1 Hw1 A1. cbn beta.
  eapply step_bind; [apply (mix_step K mds st1 s1 _ (y - x0 c) Hw1 A1)|]. intros st2 s2 E2 Hw2 A2. cbn beta.
  eapply step_bind; [apply (add_consts_step K st2 c s2 _ Hw2 A2)|]. intros st3 s3 E3 Hw3 A3. cbn beta.
  destruct cs as [|c' cs].
  - cbn [krescue]. apply step_ret; [exact Hw3|exact A3|]. intros y3 _ _ y2 _ _ _ P2 y1 _ _ _ P1 y0 _ _ _ _. rewrite P2, P1. ring.
  - eapply step_conseq; [apply (IH (S i) st3 s3 (fun _ => True)); [discriminate|exact Hw3|exact A3]|..]; cbn beta; auto.
Qed.
Lemma ksboxes_step alph half i st s Pre : wf s -> al3 K s st -> step K (ksboxes alph half i st) s Pre (fun s' r => al3 K s' r) (fun _ _ _ => True).
Proof.
  intros Hw A. unfold ksboxes. destruct (_ || _); [apply kpows_step; assumption|].
  eapply step_bind; [apply (kpow_step (x2 st) _ s Pre Hw (proj2 (proj2 A)))|]. intros d s1 E1 Hw1 B. cbn beta.
  destruct (al3_ext K s s1 st E1 A) as (B0 & B1 & _). apply step_ret; [exact Hw1|repeat split; assumption|auto].
Qed.
Lemma kposeidon_step alph half mds (y : K) ark : forall i st s Pre, ark <> [] -> wf s -> al3 K s st ->
  step K (kposeidon alph half mds i ark st) s Pre (fun s' r => al3 K s' r) (fun x x' r => x' (snd (x0 r)) = y).
Proof.
  induction ark as [|c ark IH]; intros i st s Pre N Hw A; [congruence|]. cbn [kposeidon].
  eapply step_bind; [apply (add_consts_step K st c s _ Hw A)|]. intros st1 s1 E1 Hw1 A1. cbn beta.
  eapply step_bind; [apply (ksboxes_step alph half i st1 s1 _ Hw1 A1)|]. intros st2 s2 E2 Hw2 A2. cbn beta.
  eapply step_bind; [apply (mix_step K mds st2 s2 _ y Hw2 A2)|]. intros st3 s3 E3 Hw3 A3. cbn beta.
  destruct ark as [|c' ark].
  - cbn [kposeidon]. apply step_ret; [exact Hw3|exact A3|]. intros y3 _ _ y2 _ _ _ P2 y1 _ _ _ P1 y0 _ _ _ _. exact P2.
  - eapply step_conseq; [apply (IH (S i) st3 s3 (fun _ => True)); [discriminate|exact Hw3|exact A3]|..]; cbn beta; auto.
Qed.
Theorem rescue_demo_open alph invalph mds c0 cs xl xr s s' : wf s -> cs <> [] -> rescue_demo alph invalph mds c0 cs (Some xl) (Some xr) s = Ok (tt, s') ->
  forall x (y a d : K), sat x s -> exists x', continues s x x' /\ sat x' s' /\ x' (Input (length (inps s))) = y /\ x' (first_var s) = a /\ x' (second_var s) = d.
Proof.
  intros Hw N E. rewrite rescue_demo_k in E.
  apply (circuit_open K (fun st => st0 <- add_consts st c0 ;; krescue alph invalph mds 0 cs st0)) with (xl := xl) (xr := xr) (h := 0) (r := 0); [| |exact Hw|].
  - intro st. ktac; [apply keeps_add_consts|apply keeps_krescue].
  - intros y st s0 Pre Hw0 A0. eapply step_bind; [apply (add_consts_step K st c0 s0 _ Hw0 A0)|]. intros st1 s1 E1 Hw1 A1. cbn beta.
    eapply step_conseq; [apply (krescue_step alph invalph mds y cs 0 st1 s1 (fun _ => True) N Hw1 A1)|..]; cbn beta; auto.
  - revert E. unfold kcircuit. unfold bind. destruct (alloc (Ok xl) s) as [[v0 s1]| |]; try discriminate. destruct (alloc (Ok xr) s1) as [[v1 s2]| |]; try discriminate.
    destruct (alloc (Ok 0) s2) as [[v2 s3]| |]; try discriminate. destruct (add_consts _ c0 s3) as [[st s4]| |]; try discriminate.
    destruct (krescue _ _ _ _ _ _ s4) as [[st' s5]| |]; try discriminate. destruct (expose st' s5) as [[[] s6]| |]; try discriminate. unfold ret. congruence.
Qed.
Theorem poseidon_demo_open alph half mds ark xl xr s s' : wf s -> ark <> [] -> poseidon_demo alph half mds ark (Some xl) (Some xr) s = Ok (tt, s') ->
  forall x (y a d : K), sat x s -> exists x', continues s x x' /\ sat x' s' /\ x' (Input (length (inps s))) = y /\ x' (first_var s) = a /\ x' (second_var s) = d.
Proof.
  intros Hw N E. rewrite poseidon_demo_k in E.
  apply (circuit_open K (kposeidon alph half mds 0 ark)) with (xl := xl) (xr := xr) (h := 0) (r := 0); [| |exact Hw|].
  - intro st. apply keeps_kposeidon.
  - intros y st s0 Pre Hw0 A0. apply kposeidon_step; assumption.
  - revert E. unfold kcircuit. unfold bind. destruct (alloc (Ok xl) s) as [[v0 s1]| |]; try discriminate. destruct (alloc (Ok xr) s1) as [[v1 s2]| |]; try discriminate.
    destruct (alloc (Ok 0) s2) as [[v2 s3]| |]; try discriminate.
    destruct (kposeidon _ _ _ _ _ _ s3) as [[st' s5]| |]; try discriminate. destruct (expose st' s5) as [[[] s6]| |]; try discriminate. unfold ret. congruence.
Qed.

(** ** Without values *)
Definition gap (st : t3 (option K * var)) : Prop := fst (x0 st) = None \/ fst (x1 st) = None.
Lemma alloc_setup (f : res K) s : md s = Setup -> exists v s', alloc f s = Ok (v, s') /\ md s' = Setup.
Proof. intro H. unfold alloc. rewrite H. eexists _, _. split; reflexivity. Qed.
Lemma enforce_setup (a b c : lc K) s : md s = Setup -> exists s', enforce a b c s = Ok (tt, s') /\ md s' = Setup.
Proof. intro H. unfold enforce. eexists. split; [reflexivity|exact H]. Qed.
Lemma bind_ok {A B} (m : M K A) (k : A -> M K B) s a s' : m s = Ok (a, s') -> bind m k s = k a s'.
Proof. unfold bind. intros ->. reflexivity. Qed.
Ltac go := match goal with
  | H : md ?s = Setup |- context[bind (alloc ?f) ?k ?s] => let v := fresh "v" in let s' := fresh "s" in let E := fresh "E" in let H' := fresh "H" in
      destruct (alloc_setup f s H) as (v & s' & E & H'); rewrite (bind_ok (alloc f) k s v s' E); clear E; cbn beta
  | H : md ?s = Setup |- context[bind (enforce ?a ?b ?c) ?k ?s] => let s' := fresh "s" in let E := fresh "E" in let H' := fresh "H" in
      destruct (enforce_setup a b c s H) as (s' & E & H'); rewrite (bind_ok (enforce a b c) k s tt s' E); clear E; cbn beta
  | |- context[bind (ret ?a) ?k ?s] => rewrite (bind_ok (ret a) k s a s eq_refl); cbn beta
  end.
Lemma pow_loop_setup sv st b : forall rv res s, md s = Setup -> exists r v s', demo_pow_loop (Some sv) st b (Some rv) res s = Ok ((Some r, v), s') /\ md s' = Setup.
Proof.
  induction b as [|i b IH]; intros rv res s H; cbn [demo_pow_loop]; [unfold ret; eauto 6|].
  cbv zeta. go. go. destruct i; cbn [option_map map_mul lift_res]; [go; go; go|]; apply IH; assumption.
Qed.
Lemma pow_setup a v b s : md s = Setup -> exists r v' s', demo_pow (Some a, v) b s = Ok ((Some r, v'), s') /\ md s' = Setup.
Proof. intro H. unfold demo_pow. go. apply pow_loop_setup. assumption. Qed.
Lemma strip_one b : bits_val b <> 0%nat -> exists r, strip b = true :: r.
Proof. induction b as [|[] b IH]; cbn [strip bits_val]; intro N; [congruence|eauto|]. apply IH. exact N. Qed.
Lemma pow_none v b s : md s = Setup -> bits_val b <> 0%nat -> demo_pow (None, v) b s = Panic.
Proof.
  intros H N. destruct (strip_one b N) as [r E]. unfold demo_pow. go. rewrite E. cbn [fst snd demo_pow_loop]. cbv zeta. go. go. reflexivity.
Qed.
Lemma pows_gap st e s : md s = Setup -> bits_val e <> 0%nat -> gap st -> demo_pows st e s = Panic.
Proof.
  intros H N G. destruct st as [[a0 v0] [a1 v1] [a2 v2]]. unfold demo_pows. cbn [x0 x1 x2].
  destruct a0 as [a0|]; [|unfold bind; rewrite pow_none; auto].
  destruct G as [G|G]; [discriminate G|]. cbn in G. subst a1.
  destruct (pow_setup a0 v0 e s H) as (r & v' & s' & E & H'). unfold bind. rewrite E, pow_none; auto.
Qed.
Lemma mix_row_gap m st acc v s : md s = Setup -> gap st -> demo_mix_row m st (Some acc, v) s = Panic.
Proof.
  intros H G. destruct st as [[a0 v0] [a1 v1] [a2 v2]]. unfold demo_mix_row. unfold bind at 1. unfold demo_mix_cell at 1. cbn [x0 x1 x2 fst snd]. go.
  destruct a0 as [a0|]; [|reflexivity]. destruct G as [G|G]; [discriminate G|]. cbn in G. subst a1. cbn [lift_res]. go. go. go.
  unfold ret at 1. cbn beta iota. unfold bind at 1, demo_mix_cell at 1. cbn [fst snd]. go. reflexivity.
Qed.
Lemma mix_gap mds st s : md s = Setup -> gap st -> demo_mix mds st s = Panic.
Proof. intros H G. unfold demo_mix. go. go. go. unfold bind at 1. rewrite mix_row_gap; auto. Qed.
Lemma add_const_setup a c s : md s = Setup -> exists v s', demo_add_const a c s = Ok ((option_map (fun e => e + c) (fst a), v), s') /\ md s' = Setup.
Proof. intro H. unfold demo_add_const. cbv zeta. go. go. unfold ret. eauto. Qed.
Lemma add_consts_gap st c s : md s = Setup -> gap st -> exists st' s', demo_add_consts st c s = Ok (st', s') /\ md s' = Setup /\ gap st'.
Proof.
  intros H G. unfold demo_add_consts. unfold bind.
  destruct (add_const_setup (x0 st) (x0 c) s H) as (v0 & s0 & -> & H0). destruct (add_const_setup (x1 st) (x1 c) s0 H0) as (v1 & s1 & -> & H1).
  destruct (add_const_setup (x2 st) (x2 c) s1 H1) as (v2 & s2 & -> & H2). eexists _, _. split; [reflexivity|]. split; [exact H2|].
  unfold gap in *. cbn [x0 x1 fst]. destruct G as [->| ->]; auto.
Qed.
Lemma start_gap xl xr s : md s = Setup -> xl = None \/ xr = None -> exists st s', demo_start xl xr s = Ok (st, s') /\ md s' = Setup /\ gap st.
Proof. intros H G. unfold demo_start. go. go. go. unfold ret. eexists _, _. split; [reflexivity|]. split; [assumption|exact G]. Qed.
Theorem rescue_demo_setup alph invalph mds c0 cs xl xr s : md s = Setup -> xl = None \/ xr = None -> cs <> [] -> bits_val (bits_be alph) <> 0%nat ->
  rescue_demo alph invalph mds c0 cs xl xr s = Panic.
Proof.
  intros H G N B. unfold rescue_demo. destruct (start_gap xl xr s H G) as (st & s1 & E1 & H1 & G1). rewrite (bind_ok _ _ _ _ _ E1).
  destruct (add_consts_gap st c0 s1 H1 G1) as (st2 & s2 & E2 & H2 & G2). rewrite (bind_ok _ _ _ _ _ E2).
  destruct cs as [|c cs]; [congruence|]. cbn [demo_rescue_rounds]. unfold bind at 1. unfold bind at 1. rewrite pows_gap; auto.
Qed.
Theorem poseidon_demo_setup alph half mds ark xl xr s : md s = Setup -> xl = None \/ xr = None -> ark <> [] -> bits_val (bits_be alph) <> 0%nat ->
  poseidon_demo alph half mds ark xl xr s = Panic.
Proof.
  intros H G N B. unfold poseidon_demo. destruct (start_gap xl xr s H G) as (st & s1 & E1 & H1 & G1). rewrite (bind_ok _ _ _ _ _ E1).
  destruct ark as [|c ark]; [congruence|]. cbn [demo_poseidon_rounds]. unfold bind at 1.
  destruct (add_consts_gap st c s1 H1 G1) as (st2 & s2 & E2 & H2 & G2). rewrite (bind_ok _ _ _ _ _ E2).
  unfold bind at 1. unfold demo_sboxes. destruct (_ || _); [rewrite pows_gap; auto|].
  destruct (x2 st2) as [[a|] v] eqn:X.
  - destruct (pow_setup a v (bits_be alph) s2 H2) as (r & v' & s3 & E3 & H3). rewrite (bind_ok _ _ _ _ _ E3). unfold ret at 1. cbn beta iota. unfold bind at 1. rewrite mix_gap; auto.
  - unfold bind at 1. rewrite pow_none; auto.
Qed.
Lemma start_missing {A} (f : t3 (option K * var) -> M K A) xl xr s : md s = Prove -> xl = None \/ xr = None -> (st <- demo_start xl xr ;; f st) s = Err AssignmentMissing.
Proof.
  intros H [-> | ->]; unfold demo_start, bind, alloc; rewrite H; cbn [ok_or]; [reflexivity|]. destruct xl; cbn [ok_or]; reflexivity.
Qed.
Theorem rescue_demo_missing alph invalph mds c0 cs xl xr s : md s = Prove -> xl = None \/ xr = None -> rescue_demo alph invalph mds c0 cs xl xr s = Err AssignmentMissing.
Proof. apply start_missing. Qed.
Theorem poseidon_demo_missing alph half mds ark xl xr s : md s = Prove -> xl = None \/ xr = None -> poseidon_demo alph half mds ark xl xr s = Err AssignmentMissing.
Proof. apply start_missing. Qed.

(** ** Exponents *)
Lemma not_inverse (w e : K) (h o : nat) : w <> 0 -> w ^ (2 * h) = e -> e * e = 1 -> e <> 1 -> w ^ S (h * (2 * o + 1)) <> w.
Proof.
  intros W0 Hw E2 E1 E. apply E1.
  assert (A : w ^ (h * (2 * o + 1)) = 1).
  { cbn [fpow] in E. assert (Q : w * (w ^ (h * (2 * o + 1)) - 1) = 0) by (transitivity (w * w ^ (h * (2 * o + 1)) - w); [ring|rewrite E; ring]).
    destruct (f_integral K _ _ Q) as [Q'|Q']; [contradiction|]. apply fsub_0. exact Q'. }
  assert (B : w ^ (2 * h * (2 * o + 1)) = 1).
  { replace (2 * h * (2 * o + 1))%nat with (h * (2 * o + 1) + h * (2 * o + 1))%nat by lia. rewrite fpow_add, A. ring. }
  rewrite fpow_mul, Hw, fpow_add, fpow_mul in B. assert (C : e ^ 2 = 1) by (transitivity (e * e); [cbn [fpow]; ring|exact E2]). rewrite C, fpow_1 in B. transitivity (1 * e ^ 1); [cbn [fpow]; ring|exact B].
Qed.
End R.
