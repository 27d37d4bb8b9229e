(** Proofs about the MiMC Merkle example circuit. *)
From Verif Require Import Field ModelLC SpecLC ProofsLC ModelCS SpecCS ProofsCS ModelBoolean ModelOperator SpecOperator ProofsOperator ProofsSolve ProofsWord ModelCbmt SpecCbmt ProofsCbmt ModelMimc SpecMimc ProofsMimc ModelSha256 SpecMode ProofsMode ModelMerkleDemo SpecMerkleDemo.
Local Open Scope fld_scope.

(** ** Paths *)
Lemma parent_climb i : (0 <= i)%Z -> parent i = if (i <=? 0)%Z then 0%Z else ((i - 1) / 2)%Z.
Proof. intro H. destruct (Z.leb_spec i 0); [replace i with 0%Z by lia; reflexivity|]. apply parent_div. lia. Qed.
Lemma parent_nonneg i : (0 <= i)%Z -> (0 <= parent i)%Z.
Proof. intro H. rewrite parent_climb by exact H. destruct (i <=? 0)%Z eqn:E; [lia|]. apply Z.leb_gt in E. apply Z.div_pos; lia. Qed.
Lemma fold_climb {T} (merge : T -> T -> T) ls : forall v i, (0 <= i)%Z -> fold_path merge v i ls = climb merge v i ls.
Proof.
  induction ls as [|w r IH]; intros v i H; [reflexivity|]. cbn [fold_path climb]. rewrite is_left_odd, IH by (apply parent_nonneg; exact H). rewrite parent_climb by exact H. reflexivity.
Qed.

Lemma f2_impl {A B} (P Q : A -> B -> Prop) l l' : (forall a b, P a b -> Q a b) -> Forall2 P l l' -> Forall2 Q l l'.
Proof. intros H F. induction F; constructor; auto. Qed.

Section R.
Variable K : PFld.
Add Field Kf : (f_laws K).
Variables (nl : nat) (cts : list K).
Implicit Types (s : cs K) (x : var -> K).

Lemma merge_value l r : (0 < nl)%nat -> (pmod K <= 2 ^ (64 * Z.of_nat nl))%Z -> mimc_merge nl cts l r = Ok (mimc2 cts l r).
Proof.
  intros Hn Hp. pose proof (hash_elements K nl cts [l; r] Hn Hp ltac:(discriminate)) as H. cbn [map concat fold_left] in H. rewrite app_nil_r in H. exact H.
Qed.

(** ** Sizes of successful runs *)
Definition grows {A} (n : nat) (m : M K A) : Prop := forall s r s', m s = Ok (r, s') -> length (cons s') = (n + length (cons s))%nat /\ inps s' = inps s.
Lemma grows_bind {A B} n n' (m : M K A) (k : A -> M K B) : grows n m -> (forall a, grows n' (k a)) -> grows (n + n') (bind m k).
Proof.
  intros H1 H2 s r s' E. unfold bind in E. destruct (m s) as [[a s1]| |] eqn:E1; try discriminate. destruct (H1 _ _ _ E1) as [L1 I1]. destruct (H2 a _ _ _ E) as [L2 I2]. split; [lia|congruence].
Qed.
Lemma grows_ret {A} (a : A) : grows 0 (ret a). Proof. intros s r s' E. injection E as <- <-. auto. Qed.
Lemma grows_alloc f : grows 0 (alloc f).
Proof. intros s r s' E. unfold alloc in E. destruct (md s); [|destruct f]; try discriminate; injection E as <- <-; cbn; auto. Qed.
Lemma grows_enforce a b c : grows 1 (enforce a b c).
Proof. intros s r s' E. injection E as <- <-. cbn. rewrite app_length. cbn. split; [lia|reflexivity]. Qed.
Lemma grows_unwrap {A} n (m : M K A) : grows n m -> grows n (unwrapM m).
Proof. intros H s r s' E. unfold unwrapM in E. destruct (m s) as [[a s1]| |] eqn:E1; try discriminate. injection E as <- <-. exact (H _ _ _ E1). Qed.
Lemma grows_rounds cs : forall xl xr vl vr, grows (2 * length cs) (@mimc_rounds K cs xl xr vl vr).
Proof.
  induction cs as [|c cs IH]; intros; cbn [mimc_rounds length]; [apply grows_ret|]. cbv zeta. replace (2 * S (length cs))%nat with (0 + (1 + (0 + (1 + 2 * length cs))))%nat by lia.
  apply grows_bind; [apply grows_alloc|]. intro. apply grows_bind; [apply grows_enforce|]. intro. apply grows_bind; [apply grows_alloc|]. intro. apply grows_bind; [apply grows_enforce|]. intro. apply IH.
Qed.
Lemma grows_mimc b : grows (2 * length cts) (@mimc K nl cts b).
Proof.
  intros s r s' E. unfold mimc in E. destruct (match b with Some by_ => rmap Some (mimc_hash nl cts by_) | None => Ok None end) as [t| |]; try discriminate. revert s r s' E. 
  change (grows (2 * length cts) (@mimc_body K cts t)). unfold mimc_body. cbv zeta. change (2 * length cts)%nat with (0 + (0 + (2 * length cts)))%nat.
  apply grows_bind; [apply grows_alloc|]. intro. apply grows_bind; [apply grows_alloc|]. intro. rewrite <- (Nat.add_0_r (2 * length cts)). apply grows_bind; [apply grows_rounds|]. intro. apply grows_ret.
Qed.
Lemma grows_mout f : grows 0 (@mout_alloc K f). Proof. unfold mout_alloc. apply (grows_bind 0 0); [apply grows_alloc|intro; apply grows_ret]. Qed.
Lemma grows_hash ps : grows (2 * length cts) (@hash_enforce K nl cts ps).
Proof.
  intros s r s' E. unfold hash_enforce in E. destruct (params_bytes nl ps) as [b| |]; try discriminate. revert s r s' E.
  change (grows (2 * length cts) (bind (@mimc K nl cts (Some b)) mout_alloc)). rewrite <- (Nat.add_0_r (2 * length cts)). apply grows_bind; [apply grows_mimc|]. intro. apply grows_mout.
Qed.
Lemma grows_step index par sib : grows (1 + 2 * length cts) (@member_step K nl cts index par sib).
Proof.
  unfold member_step. cbv zeta. change (1 + 2 * length cts)%nat with (0 + (0 + (1 + (2 * length cts))))%nat. apply grows_bind; [apply grows_alloc|]. intro. apply grows_bind; [apply grows_alloc|]. intro. apply grows_bind; [apply grows_enforce|]. intro. destruct (is_left index); apply grows_hash.
Qed.
Lemma grows_loop ls : forall index par, grows (length ls * (1 + 2 * length cts)) (@member_loop K nl cts index par ls).
Proof.
  induction ls as [|l r IH]; intros index par; cbn [member_loop length]; [apply grows_ret|]. change (S (length r) * (1 + 2 * length cts))%nat with ((1 + 2 * length cts) + length r * (1 + 2 * length cts))%nat. apply grows_bind; [apply grows_step|]. intro. apply IH.
Qed.
Lemma grows_member index ls root leaf : grows (length ls * (1 + 2 * length cts) + 1) (@set_membership K nl cts index ls root leaf).
Proof. unfold set_membership. apply grows_bind; [apply grows_loop|]. intro. apply grows_enforce. Qed.

(** ** Honest runs *)
Hypothesis (Hn : (0 < nl)%nat) (Hp : (pmod K <= 2 ^ (64 * Z.of_nat nl))%Z) (Hc : cts <> []).
Lemma to_bytes_ne (a : K) : to_bytes nl a <> [].
Proof. intro E. apply (f_equal (@length Z)) in E. unfold to_bytes in E. rewrite le_bytes_length in E. cbn [length] in E. lia. Qed.
Lemma hash_enforce_honest a b va vb s : wf s -> mo_val a = Some va -> mo_val b = Some vb ->
  spec (hash_enforce nl cts [a; b]) s (fun s' r => allocated s' (mo_var r) /\ mo_val r = Some (mimc2 cts va vb)) (fun _ _ => True) True
    (fun s' r => wit s' (mo_var r) = mimc2 cts va vb).
Proof.
  intros Hw Ea Eb. unfold spec, hash_enforce. cbn [params_bytes]. rewrite Ea, Eb. cbn [rbind]. rewrite app_nil_r.
  change (spec (bind (mimc nl cts (Some (to_bytes nl va ++ to_bytes nl vb))) mout_alloc) s (fun s' r => allocated s' (mo_var r) /\ mo_val r = Some (mimc2 cts va vb)) (fun _ _ => True) True
    (fun s' r => wit s' (mo_var r) = mimc2 cts va vb)).
  assert (to_bytes nl va ++ to_bytes nl vb <> []) as NE by (intro E; apply app_eq_nil in E; exact (to_bytes_ne _ (proj1 E))).
  eapply spec_seq; [apply (mimc_circuit K nl cts (Some (to_bytes nl va ++ to_bytes nl vb)) s Hw Hc)|discriminate|].
  { intros b0 [= <-]. auto. }
  intros r s1 E1 Hw1 (_ & _ & Hr & _) _. cbn beta. specialize (Hr _ eq_refl). pose proof (merge_value va vb Hn Hp) as M. unfold mimc_merge in M. rewrite M in Hr. cbn [rmap rbind] in Hr. injection Hr as <-.
  unfold mout_alloc. cbn [ok_or]. eapply spec_seq; [apply (spec_alloc' K); [exact Hw1|discriminate]|eauto|].
  intros v s2 E2 Hw2 (Av & _) _. cbn beta. apply spec_ret'; [exact Hw2|auto|auto|]. cbn [mo_var]. intros _ _ (_ & _ & _ & E). injection E as ->. reflexivity.
Qed.
Lemma member_step_honest index par sib v w s : wf s -> allocated s (mo_var par) -> allocated s (mo_var sib) -> mo_val par = Some v -> mo_val sib = Some w ->
  spec (member_step nl cts index par sib) s
    (fun s' r => allocated s' (mo_var r) /\ mo_val r = Some (if is_left index then mimc2 cts v w else mimc2 cts w v)) (fun _ _ => True)
    (wit s (mo_var par) = v /\ wit s (mo_var sib) = w)
    (fun s' r => wit s' (mo_var r) = if is_left index then mimc2 cts v w else mimc2 cts w v).
Proof.
  intros Hw Ap As Ep Es. unfold member_step. cbv zeta.
  eapply spec_seq; [apply (spec_alloc' K); [exact Hw|discriminate]|eauto|]. intros vl s1 E1 Hw1 (Al & _) _. cbn beta.
  assert ((if is_left index then mo_val par else mo_val sib) = Some (if is_left index then v else w)) as -> by (destruct (is_left index); assumption). cbn [ok_or].
  eapply spec_seq; [apply (spec_alloc' K); [exact Hw1|discriminate]|eauto|]. intros vi s2 E2 Hw2 (Ai & _) _. cbn beta.
  assert (allocated s1 (mo_var par)) as Ap1 by exact (allocated_ext K s s1 _ E1 Ap). assert (allocated s1 (mo_var sib)) as As1 by exact (allocated_ext K s s1 _ E1 As).
  assert (allocated s2 (mo_var par)) as Ap2 by exact (allocated_ext K s1 s2 _ E2 Ap1). assert (allocated s2 (mo_var sib)) as As2 by exact (allocated_ext K s1 s2 _ E2 As1).
  assert (allocated s2 vl) as Al2 by exact (allocated_ext K s1 s2 _ E2 Al).
  eapply spec_seq; [apply (spec_enforce' K); [exact Hw2|vars; auto..]|..].
  { intros (((Vp & Vs) & _ & _ & E) & _ & _ & E'). injection E as E. injection E' as E'. autorewrite with lcdb.
    rewrite (wit_same K s1 s2 vl), <- E, <- E', (wit_same K s1 s2 (mo_var par)), (wit_same K s1 s2 (mo_var sib)), (wit_same K s s1 (mo_var par)), (wit_same K s s1 (mo_var sib)), Vp, Vs by assumption.
    destruct (is_left index); ring. }
  intros [] s3 E3 Hw3 _ _. cbn beta.
  destruct (is_left index); (eapply spec_conseq; [apply hash_enforce_honest; eassumption|..]; cbn beta; auto).
Qed.
Lemma member_loop_honest ls : forall ws index par v s, wf s -> allocated s (mo_var par) -> mo_val par = Some v ->
  Forall2 (fun o w => allocated s (mo_var o) /\ mo_val o = Some w) ls ws ->
  spec (member_loop nl cts index par ls) s
    (fun s' r => allocated s' (mo_var r) /\ mo_val r = Some (fold_path (mimc2 cts) v index ws)) (fun _ _ => True)
    (wit s (mo_var par) = v /\ Forall2 (fun o w => wit s (mo_var o) = w) ls ws)
    (fun s' r => wit s' (mo_var r) = fold_path (mimc2 cts) v index ws).
Proof.
  induction ls as [|l r IH]; intros ws index par v s Hw Ap Ep F; inversion F as [|? w ? ws' [Al El] F']; subst; cbn [member_loop fold_path].
  - apply spec_ret'; auto. intros _ _ (V & _). exact V.
  - eapply spec_seq; [apply (member_step_honest index par l v w s Hw Ap Al Ep El)|..].
    + intros (V & F2). inversion F2; subst. auto.
    + intros par' s1 E1 Hw1 (A1 & V1) _. cbn beta. eapply spec_conseq; [apply (IH ws' (parent index) par' _ s1 Hw1 A1 V1)|..]; cbn beta; auto.
      * eapply f2_impl; [|exact F']. cbn beta. intros o u (Ao & Eo). split; [exact (allocated_ext K s s1 _ E1 Ao)|exact Eo].
      * intros ((V & F2) & _ & _ & Vr). split; [exact Vr|]. inversion F2 as [|? ? ? ? _ F3]; subst. clear -F3 F' E1.
        induction F3 as [|o u os us V F3 IH]; [constructor|]. inversion F' as [|? ? ? ? [A _] F'']; subst. constructor; [rewrite (wit_same K s s1) by assumption; reflexivity|]. apply IH. exact F''.
Qed.

(** ** The whole circuit *)
Lemma lemmas_run ws : forall s, wf s -> exists os s', mapM (fun v => unwrapM (@mout_alloc K (Some v))) ws s = Ok (os, s') /\ ext s s' /\ wf s' /\ cons s' = cons s /\ inps s' = inps s /\
  Forall2 (fun o w => allocated s' (mo_var o) /\ mo_val o = Some w) os ws /\ (md s = Prove -> Forall2 (fun o w => wit s' (mo_var o) = w) os ws).
Proof.
  induction ws as [|w ws IH]; intros s Hw; cbn [mapM].
  - exists [], s. split; [reflexivity|]. split; [apply ext_refl|]. split; [exact Hw|]. split; [reflexivity|]. split; [reflexivity|]. split; constructor.
  - assert (exists o s1, unwrapM (@mout_alloc K (Some w)) s = Ok (o, s1) /\ ext s s1 /\ wf s1 /\ cons s1 = cons s /\ inps s1 = inps s /\ allocated s1 (mo_var o) /\ mo_val o = Some w /\ (md s = Prove -> wit s1 (mo_var o) = w)) as (o & s1 & E & X & W1 & C1 & I1 & A1 & V1 & T1).
    { unfold unwrapM, mout_alloc, bind, alloc, ret. cbn [ok_or]. destruct (md s) eqn:M; eexists _, _; (split; [reflexivity|]); rewrite <- M; 
      (split; [repeat split; try (exists []; rewrite app_nil_r; reflexivity); eexists; reflexivity|]); (split; [apply wf_alloc_aux; exact Hw|]); cbn [cons inps mo_var mo_val allocated auxs wit]; rewrite app_length; cbn [length]; repeat split; try lia; try congruence.
      intros _. rewrite app_nth2, Nat.sub_diag by lia. reflexivity. }
    destruct (IH s1 W1) as (os & s2 & E2 & X2 & W2 & C2 & I2 & F2 & T2). unfold bind. rewrite E, E2. exists (o :: os), s2. unfold ret. split; [reflexivity|]. split; [exact (ext_trans K _ _ _ X X2)|].
    split; [exact W2|]. split; [congruence|]. split; [congruence|]. split.
    + constructor; [|exact F2]. split; [exact (allocated_ext K s1 s2 _ X2 A1)|exact V1].
    + intro P. constructor; [rewrite (wit_same K s1 s2) by assumption; auto|]. apply T2. rewrite (ext_md K _ _ X). exact P.
Qed.
(** The prover's run: it never fails, and its own values satisfy the system exactly when the path leads to the claimed root. *)
Theorem merkle_run p root leaf : exists s, merkle_mimc nl cts (Some p) (Some root) (Some leaf) (cs_new Prove) = Ok (tt, s) /\ wf s /\ inps s = [1; root] /\
  length (cons s) = (length (mp_lemmas p) * (1 + 2 * length cts) + 1)%nat /\
  (self_sat s <-> fold_path (mimc2 cts) leaf (mp_index p) (mp_lemmas p) = root).
Proof.
  set (s0 := mkCS (K := K) Prove [1; root] [leaf] []). assert (W0 : wf s0) by (split; [eexists; reflexivity|constructor]).
  assert (SS0 : self_sat s0) by (split; [reflexivity|constructor]).
  set (vr := mkMO (Some root) (Input 1)). set (vl := mkMO (Some leaf) (Aux 0)).
  assert (R : merkle_mimc nl cts (Some p) (Some root) (Some leaf) (cs_new Prove) =
    bind (mapM (fun v => unwrapM (@mout_alloc K (Some v))) (mp_lemmas p)) (fun os => unwrapM (set_membership nl cts (mp_index p) os vr vl)) s0) by reflexivity.
  rewrite R. clear R. unfold bind. destruct (lemmas_run (mp_lemmas p) s0 W0) as (os & s1 & -> & X1 & W1 & C1 & I1 & F1 & T1). specialize (T1 eq_refl).
  assert (P1 : md s1 = Prove) by (rewrite (ext_md K _ _ X1); reflexivity).
  assert (SS1 : self_sat s1) by exact (self_sat_ext K s0 s1 X1 W0 W1 C1 SS0).
  assert (Al : allocated s1 (mo_var vl)) by (apply (allocated_ext K s0 s1 _ X1); cbn; lia). assert (Ar : allocated s1 (mo_var vr)) by (apply (allocated_ext K s0 s1 _ X1); cbn; lia).
  assert (Vl : wit s1 (mo_var vl) = leaf) by (rewrite (wit_same K s0 s1) by (try exact X1; cbn; lia); reflexivity).
  assert (Vr : wit s1 (mo_var vr) = root) by (rewrite (wit_same K s0 s1) by (try exact X1; cbn; lia); reflexivity).
  pose proof (member_loop_honest os (mp_lemmas p) (mp_index p) vl leaf s1 W1 Al eq_refl F1) as Sp. unfold spec in Sp.
  pose proof (fun r s' => grows_loop os (mp_index p) vl s1 r s') as Gr. unfold unwrapM, set_membership, bind.
  destruct (member_loop nl cts (mp_index p) vl os s1) as [[par s2]|e|].
  2:{ exfalso. destruct Sp as [_ Sp]. exact (Sp SS1 (conj Vl T1)). } 2:contradiction.
  destruct Sp as (X2 & W2 & (Ap & _) & _ & Ho). destruct (Ho P1 SS1 (conj Vl T1)) as [SS2 Vp]. destruct (Gr par s2 eq_refl) as [L2 I2]. rewrite C1 in L2. cbn [cons s0 length] in L2.
  assert (Lo : length os = length (mp_lemmas p)) by (clear -F1; induction F1; cbn; congruence).
  unfold enforce. eexists. split; [reflexivity|]. cbn [inps cons].
  assert (W3 : wf (mkCS (md s2) (inps s2) (auxs s2) (cons s2 ++ [mkC (lc_add_var lc_zero (mo_var par)) (lc_add_var lc_zero ONE) (lc_add_var lc_zero (mo_var vr))]))).
  { pose proof (spec_enforce K (lc_add_var lc_zero (mo_var par)) (lc_add_var lc_zero ONE) (lc_add_var lc_zero (mo_var vr)) s2 W2) as Q.
    assert (vars_in K (allocated s2) (lc_add_var lc_zero (mo_var par))) by (vars; auto). assert (vars_in K (allocated s2) (lc_add_var lc_zero ONE)) by (vars; auto).
    assert (vars_in K (allocated s2) (lc_add_var lc_zero (mo_var vr))) by (vars; exact (allocated_ext K s1 s2 _ X2 Ar)). unfold spec, enforce in Q. apply Q; assumption. }
  split; [exact W3|]. split; [rewrite I2, I1; reflexivity|]. split; [rewrite app_length; cbn [length]; rewrite L2, Lo; lia|].
  assert (Vr2 : wit s2 (mo_var vr) = root) by (rewrite (wit_same K s1 s2) by assumption; exact Vr).
  assert (O2 : wit s2 ONE = 1) by (apply wit_one; exact W2).
  assert (EW : forall v, wit (mkCS (md s2) (inps s2) (auxs s2) (cons s2 ++ [mkC (lc_add_var lc_zero (mo_var par)) (lc_add_var lc_zero ONE) (lc_add_var lc_zero (mo_var vr))])) v = wit s2 v) by (intros []; reflexivity).
  split.
  - intros [_ H]. cbn [cons] in H. apply Forall_app in H. destruct H as [_ H]. apply Forall_inv in H. rename H into H1. unfold holds in H1. cbn [ca cb cc] in H1. autorewrite with lcdb in H1. rewrite !EW in H1. rewrite Vp, O2, Vr2 in H1. match type of H1 with ?a = ?b => transitivity a; [ring|]; transitivity b; [exact H1|ring] end.
  - intro E. split; [rewrite EW; exact O2|]. cbn [cons]. apply Forall_app. split.
    + destruct SS2 as [_ S2]. exact S2.
    + constructor; [|constructor]. unfold holds. cbn [ca cb cc]. autorewrite with lcdb. rewrite !EW, Vp, O2, Vr2, E. ring.
Qed.
(** Key generation sees the same circuit, whatever path of the same length, root and leaf it is given. *)
Lemma fits_unwrap {A} (R : A -> A -> Prop) (m m' : M K A) : fits R m m' -> fits R (unwrapM m) (unwrapM m').
Proof.
  intros H s s' S M a t E. unfold unwrapM in *. destruct (m s) as [[a0 t0]| |] eqn:E0; try discriminate. injection E as -> ->. destruct (H s s' S M a t E0) as (a' & t' & -> & Q). exists a', t'. split; [reflexivity|exact Q].
Qed.
Definition same_var (a b : mout K) : Prop := mo_var a = mo_var b.
Definition known (a : mout K) : Prop := mo_val a <> None.
Lemma hash_enforce_known ps s s' r : @hash_enforce K nl cts ps s = Ok (r, s') -> known r.
Proof.
  unfold hash_enforce. destruct (params_bytes nl ps) as [b| |]; try discriminate. unfold mimc, bind. cbn [rmap rbind]. destruct (mimc_hash nl cts b) as [t| |]; cbn [rmap rbind]; try discriminate. 
  unfold mimc_body, bind. cbn [option_map ok_or]. destruct (alloc _ s) as [[v1 s1]| |]; try discriminate. destruct (alloc _ s1) as [[v2 s2]| |]; try discriminate. destruct (mimc_rounds _ _ _ _ _ s2) as [[v3 s3]| |]; try discriminate.
  unfold ret, mout_alloc, bind. destruct (alloc _ s3) as [[v4 s4]| |]; try discriminate. intro E. injection E as <- <-. unfold known. cbn. discriminate.
Qed.
Lemma fits_hash ps ps' : ps' <> [] -> Forall known ps' -> fits (fun a b => same_var a b /\ known b) (@hash_enforce K nl cts ps) (hash_enforce nl cts ps').
Proof.
  intros NE Kn s s' S M r t E. assert (exists b', params_bytes nl ps' = Ok b' /\ b' <> []) as (b' & B & NB).
  { destruct ps' as [|p ps']; [congruence|]. clear NE. inversion Kn as [|? ? Kp Kr]; subst. assert (exists b, params_bytes nl ps' = Ok b) as (b & B) by (clear Kn; induction Kr as [|q qs Kq Kr IH]; [eexists; reflexivity|]; destruct IH as (b & B); cbn [params_bytes]; unfold known in Kq; destruct (mo_val q); [|congruence]; rewrite B; eexists; reflexivity).
    cbn [params_bytes]. unfold known in Kp. destruct (mo_val p) as [v|]; [|congruence]. rewrite B. cbn [rbind]. eexists. split; [reflexivity|]. intro Q. apply app_eq_nil in Q. exact (to_bytes_ne v (proj1 Q)). }
  assert (fits same_var (@hash_enforce K nl cts ps) (hash_enforce nl cts ps')) as F.
  { clear s s' S M r t E. intros s s' S M r t E. unfold hash_enforce in *. rewrite B. destruct (params_bytes nl ps) as [b| |]; try discriminate. revert s s' S M r t E.
    change (fits same_var (bind (@mimc K nl cts (Some b)) mout_alloc) (bind (mimc nl cts (Some b')) mout_alloc)). eapply fits_bind; [apply fits_mimc; [exact Hn|exact NB]|]. intros. apply fits_mout_alloc. }
  destruct (F s s' S M r t E) as (r' & t' & E' & V & Q). exists r', t'. split; [exact E'|]. split; [|exact Q]. split; [exact V|exact (hash_enforce_known _ _ _ _ E')].
Qed.
Lemma fits_member_step i i' par par' sib sib' : same_var par par' -> same_var sib sib' -> known par' -> known sib' ->
  fits (fun a b => same_var a b /\ known b) (@member_step K nl cts i par sib) (member_step nl cts i' par' sib').
Proof.
  intros Vp Vs Kp Ks. unfold member_step. cbv zeta. unfold same_var in Vp, Vs. rewrite <- Vp, <- Vs.
  eapply fits_bind; [apply fits_alloc|]. intros ? ? <-. eapply fits_bind; [apply fits_alloc|]. intros ? ? <-. eapply fits_bind; [apply fits_enforce|]. intros _ _ _.
  destruct (is_left i), (is_left i'); apply fits_hash; try discriminate; repeat constructor; assumption.
Qed.
Lemma fits_member_loop ls : forall ls' i i' par par', Forall2 same_var ls ls' -> Forall known ls' -> same_var par par' -> known par' ->
  fits same_var (@member_loop K nl cts i par ls) (member_loop nl cts i' par' ls').
Proof.
  induction ls as [|l ls IH]; intros ls' i i' par par' F Kn Vp Kp; inversion F as [|? l' ? r' Vl Fr]; subst; cbn [member_loop]; [apply fits_ret; exact Vp|]. inversion Kn as [|? ? Kl Kr]; subst.
  eapply fits_bind; [apply fits_member_step; eassumption|]. intros a a' (Va & Ka). apply IH; assumption.
Qed.
Lemma fits_merkle p p' root root' leaf leaf' : length (mp_lemmas p) = length (mp_lemmas p') -> 
  fits any (merkle_mimc nl cts (Some p) root leaf) (merkle_mimc nl cts (Some p') root' (Some leaf')).
Proof.
  intro L. unfold merkle_mimc. eapply fits_bind; [apply fits_unwrap; unfold mout_alloc_input; eapply (fits_bind K _ _ eq same_var); [apply fits_alloc_input|]; intros ? ? <-; apply fits_ret; reflexivity|]. intros vr vr' Vr.
  eapply (fits_bind K _ _ (fun a b => same_var a b /\ known b)).
  { apply fits_unwrap. unfold mout_alloc. eapply fits_bind; [apply fits_alloc|]. intros ? ? <-. apply fits_ret. split; [reflexivity|discriminate]. }
  intros vl vl' (Vl & Kl). eapply (fits_bind K _ _ (Forall2 (fun a b => same_var a b /\ known b))).
  { apply (fits_mapM _ _ _ any); [|apply Forall2_any; exact L]. intros v v' _. apply fits_unwrap. unfold mout_alloc. eapply fits_bind; [apply fits_alloc|]. intros ? ? <-. apply fits_ret. split; [reflexivity|discriminate]. }
  intros os os' F. apply fits_unwrap. unfold set_membership. assert (Forall2 same_var os os' /\ Forall known os') as (F1 & F2) by (induction F as [|? ? ? ? [? ?] F [? ?]]; split; constructor; auto).
  eapply fits_bind; [apply fits_member_loop; eassumption|]. intros par par' Vp. unfold same_var in Vp, Vr. rewrite <- Vp, <- Vr. apply fits_enforce.
Qed.
(** Any root has a satisfying assignment once there is a sibling. *)
Lemma merkle_open p root leaf s : mp_lemmas p <> [] -> merkle_mimc nl cts (Some p) root leaf (cs_new Setup) = Ok (tt, s) -> wf s /\ length (inps s) = 2%nat /\
  forall y z : K, exists x, sat x s /\ x (Input 1) = y /\ x (Aux 0) = z.
Proof.
  intros NE E. set (s0 := mkCS (K := K) Setup [1; 0] [0] []). assert (W0 : wf s0) by (split; [eexists; reflexivity|constructor]).
  set (vr := mkMO root (Input 1)). set (vl := mkMO leaf (Aux 0)).
  change (bind (mapM (fun v => unwrapM (@mout_alloc K (Some v))) (mp_lemmas p)) (fun os => unwrapM (set_membership nl cts (mp_index p) os vr vl)) s0 = Ok (tt, s)) in E.
  unfold bind in E. destruct (lemmas_run (mp_lemmas p) s0 W0) as (os & s1 & E1 & X1 & W1 & C1 & I1 & F1 & _). rewrite E1 in E. clear E1.
  unfold unwrapM in E. destruct (set_membership nl cts (mp_index p) os vr vl s1) as [[[] s2]| |] eqn:E2; try discriminate. injection E as <-.
  assert (Al : allocated s1 (mo_var vl)) by (apply (allocated_ext K s0 s1 _ X1); cbn; lia). assert (Ar : allocated s1 (mo_var vr)) by (apply (allocated_ext K s0 s1 _ X1); cbn; lia).
  assert (NO : os <> []) by (intros ->; inversion F1 as [Q|]; congruence). assert (Fo : Forall (fun l => allocated s1 (mo_var l)) os) by (clear -F1; induction F1 as [|? ? ? ? [? _]]; constructor; auto).
  split.
  - assert (step K (set_membership nl cts (mp_index p) os vr vl) s1 (fun x => x (mo_var vr) = 0) (fun _ _ => True) (fun _ _ _ => True)) as G.
    { unfold set_membership. eapply step_bind; [apply (member_loop_open K nl cts os (mp_index p) vl s1 _ 0 NO W1 Al Fo)|].
      intros r t E3 Hw3 A3. cbn beta. assert (allocated t (mo_var vr)) as Ar1 by exact (allocated_ext K s1 t _ E3 Ar).
      eapply step_conseq; [apply step_enforce with (Pre := fun x0 => x0 (mo_var r) = x0 (mo_var vr)); [exact Hw3|vars; auto..|]|..]; cbn beta; auto.
      - intros x1 [O _] V. autorewrite with lcdb. rewrite O, V. ring.
      - intros x1 S1 (x0 & _ & R0 & C & V). rewrite V, (C _ Ar), R0. reflexivity. }
    unfold step in G. rewrite E2 in G. apply G.
  - split; [destruct (grows_member _ _ _ _ _ _ _ E2) as [_ ->]; rewrite I1; reflexivity|]. intros y z.
    assert (S1 : sat (fun v => match v with Input 0 => 1 | Input _ => y | Aux _ => z end) s1) by (split; [reflexivity|]; rewrite C1; constructor).
    destruct (membership_open K nl cts (mp_index p) os vr vl s1 s2 W1 NO Ar Al Fo E2 _ S1) as (x & C & Sx). exists x. split; [exact Sx|]. split; [exact (C _ Ar)|exact (C _ Al)].
Qed.
(** Missing values. *)
Lemma merkle_no_leaf p root s : wf s -> md s = Setup -> mp_lemmas p <> [] -> merkle_mimc nl cts (Some p) root None s = Panic.
Proof.
  intros W M NE. set (s1 := mkCS (K := K) (md s) (inps s ++ [0]) (auxs s ++ [0]) (cons s)).
  assert (W1 : wf s1) by (apply (wf_alloc_aux K (mkCS (md s) (inps s ++ [0]) (auxs s) (cons s))); apply wf_alloc_inp; exact W).
  set (vr := mkMO root (Input (length (inps s)))). set (vl := mkMO (@None K) (Aux (length (auxs s)))).
  assert (merkle_mimc nl cts (Some p) root None s = bind (mapM (fun v => unwrapM (@mout_alloc K (Some v))) (mp_lemmas p)) (fun os => unwrapM (set_membership nl cts (mp_index p) os vr vl)) s1) as ->.
  { clear -M. unfold s1, vr, vl. destruct s as [m i a c]. cbn [md] in M. subst m. reflexivity. }
  unfold bind. destruct (lemmas_run (mp_lemmas p) s1 W1) as (os & s2 & -> & X2 & W2 & _ & _ & F2 & _).
  unfold unwrapM. rewrite membership_missing; [reflexivity| | |reflexivity].
  - rewrite (ext_md K _ _ X2). exact M.
  - intros ->. inversion F2. congruence.
Qed.
Lemma merkle_no_proof root leaf s : md s = Setup \/ (root <> None /\ leaf <> None) -> merkle_mimc nl cts None root leaf s = Panic.
Proof.
  unfold merkle_mimc, bind, unwrapM, mout_alloc_input, mout_alloc, bind, alloc_input, alloc, ret. intro H. destruct (md s) eqn:M; [reflexivity|]. destruct H as [H|[H1 H2]]; [discriminate|].
  destruct root; [|congruence]. destruct leaf; [|congruence]. cbn [ok_or md]. reflexivity.
Qed.
Lemma merkle_missing p root leaf s : md s = Prove -> root = None \/ leaf = None -> merkle_mimc nl cts p root leaf s = Panic.
Proof.
  intros M H. unfold merkle_mimc, bind, unwrapM, mout_alloc_input, mout_alloc, bind, alloc_input, alloc, ret. rewrite M. destruct root; [|reflexivity]. destruct H as [H|H]; [discriminate|]. subst. cbn [ok_or md]. reflexivity.
Qed.
End R.
