(** Proofs about the Marlin MiMC example. *)
From Verif Require Import Field ModelLC SpecLC ProofsLC ModelCS SpecCS ProofsCS ModelBoolean ModelOperator SpecOperator ProofsOperator ProofsSolve ProofsWord ModelMimc SpecMimc ProofsMimc
  SpecMarlin ProofsMarlin4 ProofsMarlin5 ProofsMarlin6 ProofsMarlin7 ModelMimcDemo.
From Verif Require ModelMarlin.
Local Open Scope fld_scope.

Section R.
Variable K : PFld.
Add Field Kf : (f_laws K).
Implicit Types (s : cs K) (x : var -> K).

Lemma alloc_cons (f : res K) s v s' : alloc f s = Ok (v, s') -> cons s' = cons s.
Proof. intro E. unfold alloc in E. destruct (md s); [|destruct f]; inversion E; subst; reflexivity. Qed.
Lemma two_terms (c : K) v w : length (lc_add_term (lc_add_var lc_zero v) c w) = 2%nat.
Proof. destruct (short_add_occ K (lc_add_var lc_zero v) c w) as [-> _]; [cbn; lia|reflexivity]. Qed.
Lemma rounds_cons (cts : list K) : forall xl xr vl vr s r s', mimc_rounds cts xl xr vl vr s = Ok (r, s') ->
  length (cons s') = (length (cons s) + 2 * length cts)%nat /\ terms (cons s') = (terms (cons s) + 7 * length cts)%nat.
Proof.
  induction cts as [|c cs IH]; intros xl xr vl vr s r s' H; cbn [mimc_rounds] in H.
  - unfold ret in H. injection H as _ <-. cbn [length]. lia.
  - unfold bind at 1 in H. destruct (alloc _ s) as [[v1 s1]| |] eqn:E1; try discriminate H.
    unfold bind at 1 in H. unfold enforce at 1 in H. unfold bind at 1 in H.
    match type of H with context[alloc ?f ?t] => destruct (alloc f t) as [[v2 s2]| |] eqn:E2; try discriminate H end.
    unfold bind at 1 in H. unfold enforce at 1 in H. apply IH in H. cbn [ModelCS.cons] in H.
    rewrite (alloc_cons _ _ _ _ E2) in H. cbn [ModelCS.cons] in H. rewrite (alloc_cons _ _ _ _ E1) in H. destruct H as [-> ->].
    rewrite !app_length, !terms_app. unfold terms at 2 3. cbn [fold_right ca cb length].
    rewrite !two_terms. replace (length (lc_add_var (@lc_zero K) v1)) with 1%nat by reflexivity. cbn [length]. lia.
Qed.
Lemma sample_spec (cts : list K) d s : wf s -> cts <> [] ->
  spec (mimc_sample cts d) s
    (fun s' _ => (length (auxs s') = (length (auxs s) + 2 + 2 * length cts)%nat /\ inps s' = inps s) /\
       length (cons s') = (length (cons s) + 2 * length cts)%nat /\ terms (cons s') = (terms (cons s) + 7 * length cts)%nat)
    (fun x _ => x (Aux (length (auxs s) + 1 + 2 * length cts)) = mimc_spec cts (x (Aux (length (auxs s)))) (x (Aux (length (auxs s) + 1))))
    True (fun s' _ => wit s' (Aux (length (auxs s))) = fst d /\ wit s' (Aux (length (auxs s) + 1)) = snd d).
Proof.
  intros Hw NE. apply spec_and.
  - unfold mimc_sample. cbn [ok_or].
    eapply spec_seq; [apply (spec_alloc' K)|..]; [exact Hw|discriminate|eauto|].
    intros vl s1 E1 Hw1 (Al & -> & L1 & I1) _.
    eapply spec_seq; [apply (spec_alloc' K)|..]; [exact Hw1|discriminate|eauto|].
    intros vr s2 E2 Hw2 (Ar & -> & L2 & I2) _.
    assert (allocated s2 (Aux (length (auxs s)))) as Al2 by exact (allocated_ext K s1 s2 _ E2 Al).
    eapply spec_seq; [apply (rounds_spec K cts)|..]; [exact Hw2|exact Al2|exact Ar| |].
    { intros ((_ & _ & _ & Q1) & _ & _ & Q2). injection Q1 as Q1. injection Q2 as Q2. rewrite (wit_same K s1 s2) by assumption. split; f_equal; assumption. }
    intros r s3 E3 Hw3 (L3 & I3 & A3 & R3) S3. rewrite L1 in *.
    apply spec_ret'; [exact Hw3| | |].
    + split; [lia|congruence].
    + intros x Hx. specialize (S3 x Hx). rewrite block_spec in S3. replace (Datatypes.S (length (auxs s))) with (length (auxs s) + 1)%nat in S3 by lia. rewrite <- S3. f_equal.
      rewrite R3. destruct (Nat.eqb_spec (length cts) 0) as [Z|_]; [destruct cts; [contradiction|discriminate]|]. unfold last_var. f_equal. lia.
    + intros _ _ (((_ & _ & _ & Q1) & _ & _ & Q2) & _). injection Q1 as Q1. injection Q2 as Q2.
      replace (length (auxs s) + 1)%nat with (Datatypes.S (length (auxs s))) by lia.
      rewrite (wit_same K s2 s3), (wit_same K s1 s2), (wit_same K s2 s3) by assumption. split; symmetry; [exact Q1|exact Q2].
  - intros [] s' E. unfold mimc_sample, bind in E.
    destruct (alloc _ s) as [[v1 s1]| |] eqn:E1; try discriminate E. destruct (alloc _ s1) as [[v2 s2]| |] eqn:E2; try discriminate E.
    destruct (mimc_rounds _ _ _ _ _ s2) as [[r s3]| |] eqn:E3; try discriminate E. unfold ret in E. injection E as <-.
    apply rounds_cons in E3. rewrite (alloc_cons _ _ _ _ E2), (alloc_cons _ _ _ _ E1) in E3. exact E3.
Qed.
Lemma samples_spec (cts : list K) : length cts = 5%nat -> forall ds s, wf s ->
  spec (mimc_samples cts ds) s
    (fun s' _ => length (auxs s') = (length (auxs s) + 12 * length ds)%nat /\ inps s' = inps s /\
       length (cons s') = (length (cons s) + 10 * length ds)%nat /\ terms (cons s') = (terms (cons s) + 35 * length ds)%nat)
    (fun x _ => forall j, (j < length ds)%nat -> x (Aux (length (auxs s) + 12 * j + 11)) = mimc_spec cts (x (Aux (length (auxs s) + 12 * j))) (x (Aux (length (auxs s) + 12 * j + 1))))
    True (fun s' _ => forall j, (j < length ds)%nat -> (wit s' (Aux (length (auxs s) + 12 * j)), wit s' (Aux (length (auxs s) + 12 * j + 1))) = nth j ds (0, 0)).
Proof.
  intros L5. assert (cts <> []) as NE by (intros ->; discriminate).
  induction ds as [|d ds IH]; intros s Hw; cbn [mimc_samples].
  - apply spec_ret'; [exact Hw|cbn [length]; repeat split; lia|intros; cbn in *; lia|intros; cbn in *; lia].
  - eapply spec_seq; [apply sample_spec; [exact Hw|exact NE]|auto|].
    intros [] s1 E1 Hw1 ((L1 & I1) & C1 & T1) S1. rewrite L5 in *. eapply spec_conseq_sat; [apply IH, Hw1|..].
    + intros [] s2 E2 _ (L2 & I2 & C2 & T2) _. cbn [length]. repeat split; [lia|congruence|lia|lia].
    + intros x [] s2 E2 _ Hx S2 j Hj. cbn [length] in Hj. destruct j as [|j].
      * specialize (S1 x (sat_ext K _ _ _ E2 Hx)). rewrite Nat.mul_0_r, Nat.add_0_r. replace (length (auxs s) + 11)%nat with (length (auxs s) + 1 + 2 * 5)%nat by lia. exact S1.
      * specialize (S2 j ltac:(lia)). rewrite L1 in S2.
        replace (length (auxs s) + 12 * Datatypes.S j)%nat with (length (auxs s) + 2 + 2 * 5 + 12 * j)%nat by lia. exact S2.
    + auto.
    + intros [] s2 E2 _ _ _ _ (_ & _ & _ & H1 & H2) _ HR j Hj. cbn [length] in Hj. destruct j as [|j]; cbn [nth].
      * rewrite Nat.mul_0_r, Nat.add_0_r. rewrite !(wit_same K s1 s2) by (try assumption; cbn [allocated]; lia). rewrite H1, H2. symmetry. apply surjective_pairing.
      * rewrite <- (HR j) by lia. rewrite L1.
        replace (length (auxs s) + 12 * Datatypes.S j)%nat with (length (auxs s) + 2 + 2 * 5 + 12 * j)%nat by lia. reflexivity.
Qed.

(** ** The whole circuit *)
Theorem demo_panics (cts : list K) ds s : length cts <> 5%nat -> mimc_demo cts ds s = Panic.
Proof. intro H. unfold mimc_demo. destruct (Nat.eqb_spec (length cts) MIMC_ROUNDS); [contradiction|reflexivity]. Qed.
Theorem demo_run (cts : list K) ds m : length cts = 5%nat -> exists s, mimc_demo cts ds (cs_new m) = Ok (tt, s) /\ wf s /\
  inps s = [1] /\ length (auxs s) = (12 * length ds)%nat /\ length (cons s) = (10 * length ds)%nat /\ terms (cons s) = (35 * length ds)%nat /\
  (forall x, sat x s -> forall j, (j < length ds)%nat -> x (Aux (12 * j + 11)) = mimc_spec cts (x (Aux (12 * j))) (x (Aux (12 * j + 1)))) /\
  (m = Prove -> self_sat s /\ forall j, (j < length ds)%nat -> (wit s (Aux (12 * j)), wit s (Aux (12 * j + 1))) = nth j ds (0, 0)).
Proof.
  intro L. unfold mimc_demo. rewrite L. cbn [Nat.eqb MIMC_ROUNDS]. pose proof (samples_spec cts L ds (cs_new m) (wf_new K m)) as S. unfold spec in S.
  destruct (mimc_samples cts ds (cs_new m)) as [[[] s]|e|]; [|exfalso; destruct S as [_ S]; exact (S (self_sat_new K m) I)|contradiction].
  destruct S as (_ & W & (L1 & I1 & C1 & T1) & S & H). exists s. split; [reflexivity|]. split; [exact W|]. split; [exact I1|]. split; [exact L1|]. split; [exact C1|]. split; [exact T1|]. split; [exact S|].
  intros ->. destruct (H eq_refl (self_sat_new K Prove) I) as [H1 H2]. split; [exact H1|exact H2].
Qed.
(** The constraints depend on the number of draws only. *)
Lemma rounds_same (cts : list K) : forall xl xr xl' xr' vl vr s s' r t r' t', cons s = cons s' -> length (auxs s) = length (auxs s') ->
  mimc_rounds cts xl xr vl vr s = Ok (r, t) -> mimc_rounds cts xl' xr' vl vr s' = Ok (r', t') -> cons t = cons t' /\ length (auxs t) = length (auxs t').
Proof.
  assert (forall (f f' : res K) s s' v t v' t', cons s = cons s' -> length (auxs s) = length (auxs s') -> alloc f s = Ok (v, t) -> alloc f' s' = Ok (v', t') ->
    v = v' /\ cons t = cons t' /\ length (auxs t) = length (auxs t')) as AL.
  { intros f f' s s' v t v' t' C L E E'. unfold alloc in E, E'.
    destruct (md s); [|destruct f]; inversion E; subst; (destruct (md s'); [|destruct f']; inversion E'; subst); cbn [ModelCS.cons auxs]; rewrite !app_length, L; auto. }
  induction cts as [|c cts IH]; intros xl xr xl' xr' vl vr s s' r t r' t' C L H H'; cbn [mimc_rounds] in H, H'.
  - unfold ret in H, H'. injection H as _ <-. injection H' as _ <-. auto.
  - unfold bind at 1 in H. destruct (alloc _ s) as [[v1 s1]| |] eqn:E1; try discriminate H. unfold bind at 1 in H'. destruct (alloc _ s') as [[v1' s1']| |] eqn:E1'; try discriminate H'.
    destruct (AL _ _ _ _ _ _ _ _ C L E1 E1') as (<- & C1 & L1).
    unfold bind at 1 in H. unfold bind at 1 in H'. unfold enforce at 1 in H. unfold enforce at 1 in H'. unfold bind at 1 in H. unfold bind at 1 in H'.
    match type of H with context[alloc ?f ?t] => destruct (alloc f t) as [[v2 s2]| |] eqn:E2; try discriminate H end.
    match type of H' with context[alloc ?f ?t] => destruct (alloc f t) as [[v2' s2']| |] eqn:E2'; try discriminate H' end.
    match type of E2 with alloc _ ?a = _ => match type of E2' with alloc _ ?b = _ => assert (cons a = cons b /\ length (auxs a) = length (auxs b)) as [Ca La] by (cbn [ModelCS.cons auxs]; rewrite C1; auto) end end.
    destruct (AL _ _ _ _ _ _ _ _ Ca La E2 E2') as (<- & C2 & L2). unfold bind at 1 in H. unfold bind at 1 in H'. unfold enforce at 1 in H. unfold enforce at 1 in H'.
    eapply IH; [| |exact H|exact H']; cbn [ModelCS.cons auxs]; [rewrite C2; reflexivity|exact L2].
Qed.
Lemma samples_same (cts : list K) : forall ds ds' s s' t t', length ds = length ds' -> cons s = cons s' -> length (auxs s) = length (auxs s') ->
  mimc_samples cts ds s = Ok (tt, t) -> mimc_samples cts ds' s' = Ok (tt, t') -> cons t = cons t' /\ length (auxs t) = length (auxs t').
Proof.
  induction ds as [|d ds IH]; intros [|d' ds'] s s' t t' Ld C L H H'; try discriminate Ld; cbn [mimc_samples] in H, H'.
  - unfold ret in H, H'. injection H as <-. injection H' as <-. auto.
  - unfold bind at 1 in H. unfold bind at 1 in H'. destruct (mimc_sample cts d s) as [[[] u]| |] eqn:E; try discriminate H. destruct (mimc_sample cts d' s') as [[[] u']| |] eqn:E'; try discriminate H'.
    assert (cons u = cons u' /\ length (auxs u) = length (auxs u')) as [Cu Lu].
    { unfold mimc_sample, bind, ok_or, alloc in E, E'.
      destruct (md s); cbn [ModelCS.md] in E; destruct (md s'); cbn [ModelCS.md] in E'; cbn [ModelCS.auxs ModelCS.inps ModelCS.cons] in E, E'; rewrite <- ?L in E'; rewrite !app_length in E; rewrite ?app_length, <- ?L in E'; cbn [length] in E, E';
      (match type of E with context[mimc_rounds ?a ?b ?c ?e ?f ?g] => destruct (mimc_rounds a b c e f g) as [[r q]| |] eqn:R; try discriminate E end);
      (match type of E' with context[mimc_rounds ?a ?b ?c ?e ?f ?g] => destruct (mimc_rounds a b c e f g) as [[r' q']| |] eqn:R'; try discriminate E' end);
      unfold ret in E, E'; injection E as <-; injection E' as <-; (eapply rounds_same; [| |exact R|exact R']; cbn [ModelCS.cons ModelCS.auxs]; [exact C|rewrite !app_length, L; reflexivity]). }
    injection Ld as Ld. eapply IH; [exact Ld|exact Cu|exact Lu|exact H|exact H'].
Qed.
Theorem demo_shape (cts : list K) ds ds' m m' s s' : length ds = length ds' -> mimc_demo cts ds (cs_new m) = Ok (tt, s) -> mimc_demo cts ds' (cs_new m') = Ok (tt, s') -> same_shape s s'.
Proof.
  intros L H H'. assert (length cts = 5%nat) as L5. { unfold mimc_demo in H. destruct (Nat.eqb_spec (length cts) MIMC_ROUNDS); [assumption|discriminate H]. }
  destruct (demo_run cts ds m L5) as (s0 & E & _ & I & _). rewrite H in E. injection E as <-.
  destruct (demo_run cts ds' m' L5) as (s0 & E & _ & I' & _). rewrite H' in E. injection E as <-.
  unfold mimc_demo in H, H'. rewrite L5 in H, H'. cbn [Nat.eqb MIMC_ROUNDS] in H, H'.
  destruct (samples_same cts ds ds' (cs_new m) (cs_new m') s s' L eq_refl eq_refl H H') as [C A]. split; [exact C|]. split; [rewrite I, I'; reflexivity|exact A].
Qed.

(** ** Every image has a preimage *)
Lemma spec_onto (cts : list K) : forall l r : K, exists a b, fold_left (fun '(l, r) c => (r + (l + c) ^ 3, l)) cts (a, b) = (l, r).
Proof.
  induction cts as [|c cts IH] using rev_ind; intros l r; [exists l, r; reflexivity|].
  destruct (IH r (l - (r + c) ^ 3)) as (a & b & E). exists a, b. rewrite fold_left_app, E. cbn [fold_left]. f_equal. ring.
Qed.
Lemma draws_for (cts : list K) ims : exists ds, length ds = length ims /\ forall j, (j < length ims)%nat -> mimc_spec cts (fst (nth j ds (0, 0))) (snd (nth j ds (0, 0))) = nth j ims 0.
Proof.
  induction ims as [|y ims (ds & L & H)]; [exists []; split; [reflexivity|cbn; lia]|]. destruct (spec_onto cts y 0) as (a & b & E).
  exists ((a, b) :: ds). split; [cbn [length]; rewrite L; reflexivity|]. intros [|j] Hj; cbn [nth]; [unfold mimc_spec; cbn [fst snd]; rewrite E; reflexivity|apply H; cbn [length] in Hj; lia].
Qed.
Theorem demo_images (cts : list K) ims : length cts = 5%nat -> exists ds s, length ds = length ims /\ mimc_demo cts ds (cs_new Prove) = Ok (tt, s) /\ self_sat s /\ inps s = [1] /\
  forall j, (j < length ims)%nat -> wit s (Aux (12 * j + 11)) = nth j ims 0.
Proof.
  intro L5. destruct (draws_for cts ims) as (ds & L & H). destruct (demo_run cts ds Prove L5) as (s & E & _ & I & _ & _ & _ & S & Q). destruct (Q eq_refl) as [Q1 Q2].
  exists ds, s. split; [exact L|]. split; [exact E|]. split; [exact Q1|]. split; [exact I|]. intros j Hj. rewrite (S (wit s) Q1 j) by lia. rewrite <- (H j Hj), <- (Q2 j) by lia. reflexivity.
Qed.

Theorem demo_statement (cts : list K) ds ds' s s' : length ds = length ds' -> mimc_demo cts ds (cs_new Prove) = Ok (tt, s) -> mimc_demo cts ds' (cs_new Prove) = Ok (tt, s') ->
  tl (inps s) = [] /\ inps s = inps s' /\ cons s = cons s'.
Proof.
  intros L H H'. destruct (demo_shape cts ds ds' Prove Prove s s' L H H') as (C & _ & _).
  assert (length cts = 5%nat) as L5. { unfold mimc_demo in H. destruct (Nat.eqb_spec (length cts) MIMC_ROUNDS); [assumption|discriminate H]. }
  destruct (demo_run cts ds Prove L5) as (s0 & E & _ & I & _). rewrite H in E. injection E as <-.
  destruct (demo_run cts ds' Prove L5) as (s0 & E & _ & I' & _). rewrite H' in E. injection E as <-. rewrite I, I'. auto.
Qed.

(** ** Through Marlin *)
Import ModelMarlin.
Local Open Scope fld_scope.
Theorem demo_accepted (PR : Pairing K) dnew : radix2 dnew -> forall ro : fs K PR,
  (forall m d tr, dnew m = Some d -> v_alpha K (fs_msg K PR ro d tr) ^ dsize d <> 1) -> (forall m d tr, dnew m = Some d -> fs_beta K PR ro d tr ^ dsize d <> 1) ->
  forall (tau : K) (g gam : G1 PR) (h : G2 PR) (n : nat) checks (cts : list K) ds ds' dx ipk ivk co pf,
  length ds = length ds' -> (35 * Z.of_nat (length ds) < 2 ^ 64)%Z -> dnew 1%nat = Some dx -> dsize dx = 1%nat ->
  c_w K co <> 0 -> c_za K co <> 0 -> c_zb K co <> 0 -> (9 <= length (c_draw K co))%nat ->
  marlin_index K PR dnew checks (kzg_setup K PR n tau g gam h) (mimc_main_circuit cts ds ds') = Ok (ipk, ivk) ->
  create_proof K PR dnew ro ipk (mimc_main_circuit cts ds ds') co = Ok pf ->
  verify_proof K PR dnew ro ivk pf [] = Ok true.
Proof.
  intros R2 ro Ha Hb tau g gam h n checks cts ds ds' dx ipk ivk co pf L B D1 D2 W ZA ZB Dr EI EP.
  assert (length cts = 5%nat) as L5.
  { destruct (Nat.eq_dec (length cts) 5) as [|N]; [assumption|]. exfalso. unfold marlin_index, ahp_index in EI. unfold mimc_main_circuit at 1 in EI. cbn [md cs_new] in EI. rewrite (demo_panics cts ds _ N) in EI. cbn in EI. discriminate EI. }
  destruct (demo_run cts ds Setup L5) as (s1 & E1 & W1 & I1 & _ & _ & T1 & _). destruct (demo_run cts ds' Prove L5) as (s2 & E2 & W2 & I2 & _ & _ & _ & _ & Q).
  replace (@nil K) with (tl (inps s2)) by (rewrite I2; reflexivity).
  eapply (marlin_complete K PR dnew R2 ro Ha Hb tau g gam h n checks (mimc_main_circuit cts ds ds') tt tt s1 s2 dx ipk ivk co pf); try assumption.
  - eapply demo_shape; [|exact E1|exact E2]; exact L.
  - apply (proj1 (Q eq_refl)).
  - rewrite T1. lia.
  - rewrite I2. exact D1.
  - rewrite I2. exact D2.
Qed.
End R.
