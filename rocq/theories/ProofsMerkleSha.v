(** Proofs about the SHA-256 Merkle example circuit: runs of the prover and of key generation. *)
From Verif Require Import Field ModelLC SpecLC ProofsLC ModelCS SpecCS ProofsCS ModelBoolean SpecBoolean ProofsBoolean ModelUint32 SpecUint32 ProofsWord ModelOperator SpecOperator ProofsSolve ModelCbmt SpecCbmt ProofsCbmt ModelSha256 SpecSha256 ProofsSha256 ProofsShaKnown ModelMerkleDemo SpecMerkleDemo ProofsMerkleDemo.
Local Open Scope fld_scope.

Lemma F2len {A B} {P : A -> B -> Prop} {l l'} : Forall2 P l l' -> length l = length l'.
Proof. induction 1; cbn; congruence. Qed.
Section R.
Variable K : PFld.
Add Field Kf : (f_laws K).
Hypothesis K64 : (64 <= modulus_bits K)%Z.
Implicit Types (s : cs K) (x : var -> K).
Local Notation ob := (of_bool K).

(** So far the prover's values satisfy everything. *)
Definition inv s : Prop := wf s /\ (md s = Prove -> self_sat s).
(** The run succeeds, extends the system and keeps [inv]. *)
Definition run {A} (m : M K A) s (Q : cs K -> A -> Prop) : Prop := exists r s', m s = Ok (r, s') /\ ext s s' /\ inv s' /\ Q s' r.
Lemma run_bind {A B} (m : M K A) (k : A -> M K B) s Q1 Q2 : run m s Q1 -> (forall r s', ext s s' -> inv s' -> Q1 s' r -> run (k r) s' Q2) -> run (bind m k) s Q2.
Proof.
  intros (r & s1 & E1 & X1 & I1 & H1) H2. destruct (H2 r s1 X1 I1 H1) as (r2 & s2 & E2 & X2 & I2 & HQ). exists r2, s2. unfold bind. rewrite E1. split; [exact E2|]. split; [eapply ext_trans; eassumption|]. auto.
Qed.
Lemma run_ret {A} (a : A) s (Q : cs K -> A -> Prop) : inv s -> Q s a -> run (ret a) s Q.
Proof. intros I H. exists a, s. split; [reflexivity|]. split; [apply ext_refl|]. auto. Qed.
Lemma run_weaken {A} (m : M K A) s (Q Q' : cs K -> A -> Prop) : run m s Q -> (forall r s', ext s s' -> inv s' -> Q s' r -> Q' s' r) -> run m s Q'.
Proof. intros (r & s1 & E1 & X1 & I1 & H1) H. exists r, s1. auto 6. Qed.
Lemma run_spec {A} (m : M K A) s W S (H : Prop) HR : spec m s W S H HR -> inv s -> (md s = Prove -> H) -> run m s (fun s' r => W s' r /\ (md s' = Prove -> HR s' r /\ S (wit s') r)).
Proof.
  intros Sp [Hw Hs] Hh. unfold spec in Sp. destruct (m s) as [[r s1]|e|] eqn:E; [| |contradiction].
  - destruct Sp as (X & W1 & HW & SS & HH). exists r, s1. split; [exact E|]. split; [exact X|]. pose proof (ext_md K _ _ X) as Em. split; [|split; [exact HW|]].
    + split; [exact W1|]. intro P. rewrite Em in P. apply (HH P (Hs P) (Hh P)).
    + intro P. rewrite Em in P. destruct (HH P (Hs P) (Hh P)) as [S1 R1]. auto.
  - destruct Sp as [P N]. exfalso. exact (N (Hs P) (Hh P)).
Qed.
Lemma run_unwrap {A} (m : M K A) s Q : run m s Q -> run (unwrapM m) s Q.
Proof. intros (r & s1 & E1 & H). exists r, s1. unfold unwrapM. rewrite E1. auto. Qed.
Lemma run_alloc (y : K) s : inv s -> run (alloc (Ok y)) s (fun s' v => allocated s' v /\ (md s' = Prove -> wit s' v = y)).
Proof.
  intros [Hw Hs]. eapply run_weaken; [apply (run_spec _ s _ _ _ _ (spec_alloc K (Ok y) s Hw ltac:(discriminate))); [split; assumption|intros _; exists y; reflexivity]|].
  intros r s' X I [[A _] H]. split; [exact A|]. intro P. destruct (H P) as [E _]. injection E as E. symmetry. exact E.
Qed.
Lemma run_enforce (a b c : lc K) s : inv s -> vars_in K (allocated s) a -> vars_in K (allocated s) b -> vars_in K (allocated s) c ->
  (md s = Prove -> eval (wit s) a * eval (wit s) b = eval (wit s) c) -> run (enforce a b c) s (fun _ _ => True).
Proof.
  intros I Ha Hb Hc He. eapply run_weaken; [apply (run_spec _ s _ _ _ _ (spec_enforce K a b c s (proj1 I) Ha Hb Hc) I He)|]. auto.
Qed.
Lemma run_bit (t : bool) s : inv s -> run (bit_alloc (Some t)) s (fun s' b => bool_in s' (BIs b) /\ bval b = Some t /\ (md s' = Prove -> wit s' (bvar b) = ob t)).
Proof.
  intros I. pose proof (bit_alloc_spec K (Some t) s (proj1 I)) as Sp.
  destruct (run_spec _ s _ _ _ _ Sp I ltac:(intros _; exists t; reflexivity)) as (b & s1 & E & X & I1 & (Al & _ & Bv) & H).
  unfold spec in Sp. rewrite E in Sp. destruct Sp as (_ & _ & _ & SS & _).
  exists b, s1. split; [exact E|]. split; [exact X|]. split; [exact I1|]. split; [|split; [exact Bv|]].
  - split; [exact Al|]. intros x Hx. destruct (SS x Hx) as [Z|O]; [exists false|exists true]; unfold means; cbn [bden]; assumption.
  - intro P. destruct (H P) as [(t' & B' & M) _]. cbn in B'. rewrite Bv in B'. injection B' as <-. exact M.
Qed.
Lemma run_bit_input (t : bool) s : inv s -> run (bit_alloc_input (Some t)) s (fun s' b => bool_in s' (BIs b) /\ bval b = Some t /\ (md s' = Prove -> wit s' (bvar b) = ob t)).
Proof.
  intros I. pose proof (bit_alloc_input_spec K (Some t) s (proj1 I)) as Sp.
  destruct (run_spec _ s _ _ _ _ Sp I ltac:(intros _; exists t; reflexivity)) as (b & s1 & E & X & I1 & (Al & _ & Bv) & H).
  unfold spec in Sp. rewrite E in Sp. destruct Sp as (_ & _ & _ & SS & _).
  exists b, s1. split; [exact E|]. split; [exact X|]. split; [exact I1|]. split; [|split; [exact Bv|]].
  - split; [exact Al|]. intros x Hx. destruct (SS x Hx) as [Z|O]; [exists false|exists true]; unfold means; cbn [bden]; assumption.
  - intro P. destruct (H P) as [(t' & B' & M) _]. cbn in B'. rewrite Bv in B'. injection B' as <-. exact M.
Qed.
(** Mapping over a list, results related to arguments. *)
Lemma run_mapM {A B} (f : A -> M K B) (Q : cs K -> A -> B -> Prop) : (forall s s' a b, ext s s' -> Q s a b -> Q s' a b) ->
  forall l s, inv s -> (forall a s', In a l -> ext s s' -> inv s' -> run (f a) s' (fun s2 b => Q s2 a b)) -> run (mapM f l) s (fun s' bs => Forall2 (Q s') l bs).
Proof.
  intros Mn l. induction l as [|a l IH]; intros s I H; cbn [mapM]; [apply run_ret; [exact I|constructor]|].
  eapply run_bind; [apply (H a s); [left; reflexivity|apply ext_refl|exact I]|]. intros b s1 X1 I1 Qb. eapply run_bind.
  - apply IH; [exact I1|]. intros a' s' Ia X Is. apply H; [right; exact Ia|eapply ext_trans; eassumption|exact Is].
  - intros bs s2 X2 I2 Qbs. apply run_ret; [exact I2|]. constructor; [eapply Mn; eassumption|exact Qbs].
Qed.

(** ** Hash outputs *)
(** As many known bits and as many variables; in a prover's run they carry [bs]. *)
Definition so_ok s (o : sha_out) (bs : list bool) : Prop :=
  exists ds, so_value o = Some ds /\ Forall (bool_in s) ds /\ Forall bknown ds /\ length ds = length bs /\ length (so_vars o) = length bs /\ Forall (allocated s) (so_vars o) /\
    (md s = Prove -> Forall2 (fun b t => b_value b = Some t /\ means (wit s) b t) ds bs /\ map (wit s) (so_vars o) = map ob bs).
Lemma so_ok_ext s s' o bs : ext s s' -> so_ok s o bs -> so_ok s' o bs.
Proof.
  intros X (ds & V & B & Kn & L & L2 & A & H). exists ds. split; [exact V|]. split; [eapply Forall_impl; [|exact B]; intro b; apply bool_in_ext, X|]. split; [exact Kn|]. split; [exact L|]. split; [exact L2|].
  split; [eapply Forall_impl; [|exact A]; intro v; apply allocated_ext, X|]. intro P. rewrite (ext_md K _ _ X) in P. destruct (H P) as [H1 H2]. split.
  - clear -X B H1. induction H1 as [|b t ds bs [E M] _ IH]; [constructor|]. apply Forall_cons_iff in B as [[Ab _] B]. constructor; [|apply IH; exact B]. split; [exact E|].
    unfold means in *. destruct b; cbn [bden b_alloc_in] in *; rewrite ?(wit_ext K _ _ _ X Ab); exact M.
  - rewrite <- H2. apply map_ext_in. intros v Iv. apply wit_ext; [exact X|]. rewrite Forall_forall in A. auto.
Qed.
Lemma so_alloc_run bytes s : inv s -> run (so_alloc bytes) s (fun s' o => so_ok s' o (bits_of_bytes bytes)).
Proof.
  intro I. unfold so_alloc. eapply run_bind.
  - apply (run_mapM _ (fun s' t b => bool_in s' (BIs b) /\ bval b = Some t /\ (md s' = Prove -> wit s' (bvar b) = ob t))); [|exact I|].
    + intros s1 s2 t b X (B & V & H). split; [eapply bool_in_ext; eassumption|]. split; [exact V|]. intro P. rewrite (ext_md K _ _ X) in P. rewrite (wit_ext K _ _ _ X); [auto|apply B].
    + intros t s' _ _ I'. apply run_bit, I'.
  - intros bits s1 X1 I1 F. apply run_ret; [exact I1|]. exists (map BIs bits). cbn [so_value so_vars]. rewrite !map_length. pose proof (F2len F) as L.
    split; [reflexivity|]. split; [|split; [|split; [auto|split; [auto|split]]]].
    + apply Forall_map. clear -F. induction F as [|t b ts bs (B & _) _ IH]; constructor; auto.
    + apply Forall_map. clear -F. induction F as [|t b ts bs (_ & V & _) _ IH]; constructor; auto. unfold bknown; cbn. congruence.
    + apply Forall_map. clear -F. induction F as [|t b ts bs (B & _) _ IH]; constructor; auto. apply B.
    + intro P. split; [|rewrite map_map].
      * clear -F P. induction F as [|t b ts bs (_ & V & H) _ IH]; cbn [map]; constructor; auto. split; [exact V|]. unfold means; cbn [bden]. exact (H P).
      * clear -F P. induction F as [|t b ts bs (_ & V & H) _ IH]; cbn [map]; [reflexivity|]. f_equal; auto.
Qed.
Lemma so_alloc_input_run bytes s : inv s -> run (so_alloc_input bytes) s (fun s' o => so_ok s' o (bits_of_bytes bytes)).
Proof.
  intro I. unfold so_alloc_input. eapply run_bind.
  - apply (run_mapM _ (fun s' t b => bool_in s' (BIs b) /\ bval b = Some t /\ (md s' = Prove -> wit s' (bvar b) = ob t))); [|exact I|].
    + intros s1 s2 t b X (B & V & H). split; [eapply bool_in_ext; eassumption|]. split; [exact V|]. intro P. rewrite (ext_md K _ _ X) in P. rewrite (wit_ext K _ _ _ X); [auto|apply B].
    + intros t s' _ _ I'. apply run_bit_input, I'.
  - intros bits s1 X1 I1 F. apply run_ret; [exact I1|]. exists (map BIs bits). cbn [so_value so_vars]. rewrite !map_length. pose proof (F2len F) as L.
    split; [reflexivity|]. split; [|split; [|split; [auto|split; [auto|split]]]].
    + apply Forall_map. clear -F. induction F as [|t b ts bs (B & _) _ IH]; constructor; auto.
    + apply Forall_map. clear -F. induction F as [|t b ts bs (_ & V & _) _ IH]; constructor; auto. unfold bknown; cbn. congruence.
    + apply Forall_map. clear -F. induction F as [|t b ts bs (B & _) _ IH]; constructor; auto. apply B.
    + intro P. split; [|rewrite map_map].
      * clear -F P. induction F as [|t b ts bs (_ & V & H) _ IH]; cbn [map]; constructor; auto. split; [exact V|]. unfold means; cbn [bden]. exact (H P).
      * clear -F P. induction F as [|t b ts bs (_ & V & H) _ IH]; cbn [map]; [reflexivity|]. f_equal; auto.
Qed.
Lemma so_values_ok s o bs : so_ok s o bs -> exists vs, @so_values K o = Ok vs /\ length vs = length bs /\ (md s = Prove -> vs = map ob bs).
Proof.
  intros (ds & V & _ & Kn & L & _ & _ & H). unfold so_values. rewrite V. rewrite <- L.
  assert (G : exists vs, res_map (fun b => match b_value b with Some true => Ok (1 : K) | Some false => Ok 0 | None => Panic end) ds = Ok vs /\ length vs = length ds).
  { clear -Kn. induction Kn as [|d ds Hd _ (vs & E & L)]; [exists []; auto|]. cbn [res_map]. unfold bknown in Hd. destruct (b_value d) as [[|]|]; [| |congruence]; cbn [rbind]; rewrite E; cbn [rbind]; eexists; split; [reflexivity|cbn; lia|reflexivity|cbn; lia]. }
  destruct G as (vs & E & Lv). exists vs. split; [exact E|]. split; [exact Lv|]. intro P. destruct (H P) as [F _]. clear -F E. revert vs E. induction F as [|b t ds bs [Eb _] _ IH]; intros vs E; cbn [res_map] in E; [injection E as <-; reflexivity|].
  rewrite Eb in E. destruct t; cbn [rbind] in E; (destruct (res_map _ ds) as [r| |]; cbn [rbind] in E; try discriminate; injection E as <-; cbn [map]; f_equal; apply IH; reflexivity).
Qed.
Lemma so_ok_ext_gen s s' : ext s s' -> forall ds (bs : list bool) xs, Forall (bool_in s) ds -> Forall bknown ds -> length bs = length ds -> length xs = length ds -> Forall (allocated s') xs ->
  (md s = Prove -> Forall2 (fun b t => b_value b = Some t /\ means (wit s) b t) ds bs) -> (md s' = Prove -> map (wit s') xs = map ob bs) -> so_ok s' (mkSO (Some ds) xs) bs.
Proof.
  intros X ds bs xs B Kn L Lx A H1 H2. exists ds. cbn [so_value so_vars]. split; [reflexivity|]. split; [eapply Forall_impl; [|exact B]; intro b; apply bool_in_ext, X|]. split; [exact Kn|]. split; [lia|]. split; [lia|]. split; [exact A|].
  intro P. split; [|auto]. rewrite (ext_md K _ _ X) in P. specialize (H1 P). clear -X B H1. induction H1 as [|b t ds bs [E M] _ IH]; [constructor|]. apply Forall_cons_iff in B as [[Ab _] B]. constructor; [|apply IH; exact B]. split; [exact E|].
  unfold means in *. destruct b; cbn [bden b_alloc_in] in *; rewrite ?(wit_ext K _ _ _ X Ab); exact M.
Qed.
Lemma hash_run a b ba bb s : inv s -> so_ok s a ba -> so_ok s b bb -> ((length ba + length bb) mod 8 = 0)%nat ->
  run (sha_hash_enforce [a; b]) s (fun s' o => exists ds, length ds = 256%nat /\ so_ok s' o ds /\ (md s' = Prove -> ds = sha256_spec (ba ++ bb))).
Proof.
  intros I (da & Va & Ba & Ka & La & _ & _ & Ha) (db & Vb & Bb & Kb & Lb & _ & _ & Hb) L8. unfold sha_hash_enforce.
  rewrite (so_inputs_ok [a; b] [da; db]) by (cbn [map]; rewrite Va, Vb; reflexivity). cbn [concat]. rewrite app_nil_r. unfold lift_res. change (bind (ret (da ++ db)) ?k) with (k (da ++ db)). cbv beta.
  assert (Bi : Forall (bool_in s) (da ++ db)) by (apply Forall_app; auto).
  assert (L8' : (length (da ++ db) mod 8 = 0)%nat) by (rewrite app_length, La, Lb; exact L8).
  assert (Hh : md s = Prove -> Forall (b_honest s) (da ++ db)).
  { intro P. destruct (Ha P) as [F1 _], (Hb P) as [F2 _]. apply Forall_app. split; [clear -F1; induction F1 as [|d t ds ts H _ IH]|clear -F2; induction F2 as [|d t ds ts H _ IH]]; constructor; auto; exists t; exact H. }
  pose proof (sha256_circuit K K64 (da ++ db) s (proj1 I) L8' Bi) as Sp. pose proof (run_spec _ s _ _ _ _ Sp I Hh) as (ds & s1 & E1 & X1 & I1 & (B1 & L1) & H1).
  assert (Kn : Forall bknown ds) by (apply (y_sha256 (K := K) (da ++ db) ltac:(apply Forall_app; auto) _ _ _ E1)).
  eapply run_bind with (Q1 := fun s' r => r = ds /\ s' = s1); [exists ds, s1; auto|]. intros r s1' _ _ [-> ->].
  set (vs := map (fun b => match b_value b with Some t => t | None => false end) ds).
  assert (Lv : length vs = length ds) by apply map_length.
  assert (Hv : Forall2 (fun b t => b_value b = Some t) ds vs).
  { subst vs. clear -Kn. induction Kn as [|d ds Hd _ IH]; cbn [map]; constructor; auto. unfold bknown in Hd. destruct (b_value d); congruence. }
  assert (Hp : md s1 = Prove -> Forall2 (fun b t => b_value b = Some t /\ means (wit s1) b t) ds vs).
  { intro P. destruct (H1 P) as [F _]. clear -F Hv. induction Hv as [|d t ds vs Ed _ IH]; constructor; [|apply IH; exact (Forall_inv_tail F)]. apply Forall_inv in F as (t' & Et & M). split; [exact Ed|]. replace t with t' by congruence. exact M. }
  assert (Hs : md s1 = Prove -> vs = sha256_spec (ba ++ bb)).
  { intro P. destruct (H1 P) as [_ E]. specialize (Hp P). rewrite (ext_md K _ _ X1) in P. assert (map (btrue (wit s1)) ds = vs) as <-.
    { clear -Hp. induction Hp as [|d t ds vs [_ M] _ IH]; cbn [map]; [reflexivity|]. f_equal; [apply means_btrue, M|exact IH]. }
    rewrite E. f_equal. rewrite map_app. f_equal; [destruct (Ha P) as [F _]; clear -F Ba X1; revert Ba|destruct (Hb P) as [F _]; clear -F Bb X1; revert Bb];
      (induction F as [|d t ds vs [_ M] _ IH]; intro B; cbn [map]; [reflexivity|]; apply Forall_cons_iff in B as [[A _] B]; f_equal; [rewrite (btrue_wit_ext K _ _ _ X1 A); apply means_btrue, M|apply IH, B]). }
  eapply run_bind.
  - apply (run_mapM _ (fun s' b v => allocated s' v /\ (md s' = Prove -> forall t, b_value b = Some t -> wit s' v = ob t))); [|exact I1|].
    + intros t1 t2 b0 v X [A H]. split; [eapply allocated_ext; eassumption|]. intros P t Et. rewrite (ext_md K _ _ X) in P. rewrite (wit_ext K _ _ _ X A). auto.
    + intros b0 s' Ib _ I'. rewrite Forall_forall in Kn. specialize (Kn b0 Ib). unfold bknown in Kn. destruct (b_value b0) as [t|] eqn:Et; [|congruence].
      eapply run_bind; [apply run_unwrap, run_bit, I'|]. intros ab s2 _ I2 (B2 & _ & W2). apply run_ret; [exact I2|]. split; [apply B2|]. intros P t' E'. injection E' as <-. auto.
  - intros xs s2 X2 I2 F. apply run_ret; [exact I2|]. pose proof (F2len F) as Lx. exists vs. split; [lia|]. split.
    + apply (so_ok_ext_gen s1 s2 X2 ds vs xs); [exact B1|exact Kn|exact Lv|lia| |exact Hp|].
      * clear -F. induction F as [|b v ds xs [A _] _ IH]; constructor; auto.
      * intro P. clear -F Hv P. revert xs F. induction Hv as [|d t ds vs Ed _ IH]; intros xs F; inversion F as [|? ? ? ? [_ H] F']; subst; cbn [map]; [reflexivity|]. f_equal; auto.
    + intro P. rewrite (ext_md K _ _ X2) in P. auto.
Qed.

(** ** Membership *)
Lemma select_run (t : bool) vleft : forall pv sv iv s, inv s -> allocated s vleft -> (md s = Prove -> wit s vleft = ob t) ->
  Forall (allocated s) pv -> Forall (allocated s) sv -> Forall (allocated s) iv -> (Nat.min (length pv) (length sv) <= length iv)%nat ->
  (md s = Prove -> forall j p w i, nth_error pv j = Some p -> nth_error sv j = Some w -> nth_error iv j = Some i -> wit s i = if t then wit s p else wit s w) ->
  run (select_vars vleft pv sv iv) s (fun _ _ => True).
Proof.
  induction pv as [|p pv IH]; intros sv iv s I Al Wl Ap As Ai L H; cbn [select_vars]; [apply run_ret; auto|].
  destruct sv as [|w sv]; [apply run_ret; auto|]. destruct iv as [|i iv]; [cbn in L; lia|].
  apply Forall_cons_iff in Ap as [Ap1 Ap], As as [As1 As], Ai as [Ai1 Ai]. eapply run_bind.
  - apply run_enforce; [exact I|vars; assumption..|]. intro P. rewrite !eval_sub_var, !eval_add_var, !eval_zero, (Wl P), (H P 0%nat p w i eq_refl eq_refl eq_refl). unfold of_bool. destruct t; ring.
  - intros _ s1 X I1 _. pose proof (ext_md K _ _ X) as Em. apply IH; auto.
    + eapply allocated_ext; eassumption.
    + intro P. rewrite (wit_ext K _ _ _ X Al). apply Wl. congruence.
    + eapply Forall_impl; [|exact Ap]. intro. apply allocated_ext, X.
    + eapply Forall_impl; [|exact As]. intro. apply allocated_ext, X.
    + eapply Forall_impl; [|exact Ai]. intro. apply allocated_ext, X.
    + cbn in L; lia.
    + intros P j p' w' i' E1 E2 E3. assert (G : forall l v, Forall (allocated s) l -> nth_error l j = Some v -> wit s1 v = wit s v) by (intros l v Fl N; apply (wit_ext K _ _ _ X); rewrite Forall_forall in Fl; apply Fl; eapply nth_error_In; exact N).
      rewrite (G pv p'), (G sv w'), (G iv i') by assumption.
      rewrite Em in P. exact (H P (S j) p' w' i' E1 E2 E3).
Qed.
Lemma nth_map_eq {A B C} (f : A -> C) (g : B -> C) l l' j a : map f l = map g l' -> nth_error l j = Some a -> exists b, nth_error l' j = Some b /\ f a = g b.
Proof.
  intros E N. pose proof (map_nth_error f j l N) as M. rewrite E in M. rewrite nth_error_map in M. destruct (nth_error l' j) as [b|]; [|discriminate]. injection M as M. exists b. auto.
Qed.
Lemma step_run i par sib bp bs s : inv s -> so_ok s par bp -> so_ok s sib bs -> ((length bp + length bs) mod 8 = 0)%nat ->
  run (sha_member_step i par sib) s (fun s' o => exists ds, length ds = 256%nat /\ so_ok s' o ds /\ (md s' = Prove -> ds = if is_left i then sha256_spec (bp ++ bs) else sha256_spec (bs ++ bp))).
Proof.
  intros I Hp Hs L8. unfold sha_member_step. destruct (so_values_ok s par bp Hp) as (pvals & Ep & Lp & Vp). destruct (so_values_ok s sib bs Hs) as (svals & Es & Ls & Vs).
  rewrite Ep, Es. unfold lift_res. change (bind (ret pvals) ?k) with (k pvals). cbv beta. change (bind (ret svals) ?k) with (k svals). cbv beta.
  replace (if is_left i then 1 else 0) with (ob (is_left i)) by reflexivity.
  eapply run_bind; [apply run_alloc, I|]. intros vl s1 X1 I1 [Al Wl]. eapply run_bind.
  { apply (run_mapM _ (fun s' y v => allocated s' v /\ (md s' = Prove -> wit s' v = y))); [|exact I1|intros y s' _ _ I'; apply run_alloc, I'].
    intros t1 t2 y v X [A H]. split; [eapply allocated_ext; eassumption|]. intro P. rewrite (ext_md K _ _ X) in P. rewrite (wit_ext K _ _ _ X A). auto. }
  intros iv s2 X2 I2 F. cbv beta in F. pose proof (F2len F) as Li. pose proof (ext_trans K _ _ _ X1 X2) as X02.
  apply (so_ok_ext _ _ _ _ X02) in Hp, Hs. pose proof Hp as (dp & _ & _ & _ & _ & Lpv & Apv & Pp). pose proof Hs as (dsb & _ & _ & _ & _ & Lsv & Asv & Ps).
  eapply run_bind.
  - apply (select_run (is_left i)); [exact I2|exact (allocated_ext K _ _ _ X2 Al)| |exact Apv|exact Asv| | |].
    + intro P. rewrite (wit_ext K _ _ _ X2 Al). apply Wl. rewrite <- (ext_md K _ _ X2). exact P.
    + clear -F. induction F as [|y v l l' [A _] _ IH]; constructor; auto.
    + destruct (is_left i); lia.
    + intros P j p w v E1 E2 E3. destruct (Pp P) as [_ Mp], (Ps P) as [_ Ms]. rewrite (ext_md K _ _ X02) in Vp, Vs || idtac. assert (P0 : md s = Prove) by (rewrite <- (ext_md K _ _ X02); exact P). rewrite (Vp P0), (Vs P0) in F.
      assert (Mi : map (wit s2) iv = if is_left i then map ob bp else map ob bs).
      { transitivity (map (fun y : K => y) (if is_left i then map ob bp else map ob bs)); [|rewrite map_id; reflexivity]. clear -F P. induction F as [|y v l l' [_ H] _ IH]; cbn [map]; [reflexivity|]. f_equal; auto. }
      destruct (is_left i).
      * destruct (nth_map_eq _ _ _ _ _ _ Mi E3) as (b & Eb & ->). destruct (nth_map_eq _ _ _ _ _ _ Mp E1) as (b' & Eb' & ->). congruence.
      * destruct (nth_map_eq _ _ _ _ _ _ Mi E3) as (b & Eb & ->). destruct (nth_map_eq _ _ _ _ _ _ Ms E2) as (b' & Eb' & ->). congruence.
  - intros _ s3 X3 I3 _. apply (so_ok_ext _ _ _ _ X3) in Hp, Hs. destruct (is_left i); apply hash_run; auto. rewrite Nat.add_comm. exact L8.
Qed.
Definition join (l r : list bool) : list bool := sha256_spec (l ++ r).
Lemma loop_run ls : forall i par bp lbs s, inv s -> so_ok s par bp -> Forall2 (so_ok s) ls lbs -> (length bp mod 8 = 0)%nat -> Forall (fun b => (length b mod 8 = 0)%nat) lbs ->
  run (sha_member_loop i par ls) s (fun s' o => exists ds, (ls <> [] -> length ds = 256%nat) /\ (ls = [] -> ds = bp) /\ so_ok s' o ds /\ (md s' = Prove -> ds = fold_path join bp i lbs)).
Proof.
  induction ls as [|sib ls IH]; intros i par bp lbs s I Hp Hl L8 Ll; inversion Hl as [|? bs ? lbs' Hb Hl']; subst; cbn [sha_member_loop fold_path].
  - apply run_ret; [exact I|]. exists bp. split; [congruence|]. auto.
  - apply Forall_cons_iff in Ll as [Lb Ll].
    eapply run_bind; [apply (step_run i par sib bp bs s I Hp Hb)|]. { apply Nat.mod_divides in L8 as [a Ea]; [|lia]. apply Nat.mod_divides in Lb as [b Eb]; [|lia]. rewrite Ea, Eb, <- Nat.mul_add_distr_l, Nat.mul_comm. apply Nat.mod_mul. lia. }
    intros o s1 X1 I1 (ds & Ld & Od & Pd). eapply run_weaken; [apply (IH (parent i) o ds lbs' s1 I1 Od)|].
    + eapply f2_impl; [|exact Hl']. intros a b. apply so_ok_ext, X1.
    + rewrite Ld. reflexivity.
    + exact Ll.
    + intros r s2 X2 I2 (es & L1 & L2 & O2 & P2). exists es. split; [intros _; destruct ls; [rewrite L2 by reflexivity; exact Ld|apply L1; discriminate]|]. split; [discriminate|]. split; [exact O2|].
      intro P. rewrite (P2 P). rewrite (ext_md K _ _ X2) in P. rewrite (Pd P). unfold join. reflexivity.
Qed.
(** The final equalities. *)
Definition zip_eq x (pv rv : list var) : Prop := Forall (fun q => x (fst q) = x (snd q)) (combine pv rv).
Lemma equal_run pv : forall rv s, wf s -> Forall (allocated s) pv -> Forall (allocated s) rv ->
  exists s', equal_vars pv rv s = Ok (tt, s') /\ ext s s' /\ wf s' /\ inps s' = inps s /\ auxs s' = auxs s /\ forall x, sat x s' <-> sat x s /\ zip_eq x pv rv.
Proof.
  induction pv as [|p pv IH]; intros rv s Hw Ap Ar; cbn [equal_vars].
  - exists s. split; [reflexivity|]. split; [apply ext_refl|]. do 3 (split; [auto|]). intro x. unfold zip_eq; cbn. intuition constructor.
  - destruct rv as [|r rv]; [exists s; split; [reflexivity|]; split; [apply ext_refl|]; do 3 (split; [auto|]); intro x; unfold zip_eq; cbn; intuition constructor|].
    apply Forall_cons_iff in Ap as [Ap1 Ap], Ar as [Ar1 Ar]. pose proof (spec_enforce K (lc_add_var lc_zero p) (lc_add_var lc_zero ONE) (lc_add_var lc_zero r) s Hw ltac:(vars; assumption) ltac:(vars; assumption) ltac:(vars; assumption)) as Sp.
    unfold bind. unfold spec in Sp. cbn [enforce] in Sp |- *. set (s1 := mkCS _ _ _ _) in *. destruct Sp as (X1 & W1 & _ & S1 & _).
    destruct (IH rv s1 W1) as (s2 & E & X2 & W2 & Ei & Ea & H).
    { eapply Forall_impl; [|exact Ap]. intro. apply allocated_ext, X1. } { eapply Forall_impl; [|exact Ar]. intro. apply allocated_ext, X1. }
    exists s2. split; [exact E|]. split; [eapply ext_trans; eassumption|]. split; [exact W2|]. split; [rewrite Ei; reflexivity|]. split; [rewrite Ea; reflexivity|].
    intro x. rewrite H. unfold zip_eq. cbn [combine]. rewrite Forall_cons_iff. cbn [fst snd]. split.
    + intros [Sx Z]. split; [eapply sat_ext; [exact X1|exact Sx]|]. split; [|exact Z]. destruct (S1 x Sx) as [O Q]. rewrite !eval_add_var, !eval_zero, O in Q. transitivity ((0 + x p) * (0 + 1)); [ring|]. rewrite Q. ring.
    + intros [[O Sx] [Q Z]]. split; [|exact Z]. split; [exact O|]. subst s1. cbn [cons]. apply Forall_app. split; [exact Sx|]. repeat constructor. unfold holds. cbn [ca cb cc]. rewrite !eval_add_var, !eval_zero, O, Q. ring.
Qed.
(** Public inputs. *)
Lemma inputs_place bs : forall s bits s', mapM (fun v : bool => bit_alloc_input (Some v)) bs s = Ok (bits, s') ->
  map bvar bits = map Input (seq (length (inps s)) (length bs)) /\ length (inps s') = (length (inps s) + length bs)%nat /\ (md s = Prove -> md s' = Prove /\ inps s' = inps s ++ map ob bs).
Proof.
  induction bs as [|b bs IH]; intros s bits s' E; cbn [mapM] in E.
  - injection E as <- <-. cbn. rewrite app_nil_r. split; [reflexivity|]. split; [lia|]. auto.
  - unfold bind in E at 1. destruct (bit_alloc_input (Some b) s) as [[r s1]| |] eqn:E1; try discriminate.
    assert (H1 : bvar r = Input (length (inps s)) /\ length (inps s1) = S (length (inps s)) /\ (md s = Prove -> md s1 = Prove /\ inps s1 = inps s ++ [ob b])).
    { unfold bit_alloc_input, alloc_input, bind, enforce, ret in E1. cbn [bit_witness] in E1. destruct (md s) eqn:Em; injection E1 as <- <-; cbn [bvar inps md]; rewrite ?app_length; cbn [length]; (split; [reflexivity|split; [lia|]]); [discriminate|]. intros _. split; [assumption || reflexivity|reflexivity]. }
    destruct H1 as (V1 & L1 & P1). unfold bind in E. destruct (mapM _ bs s1) as [[rs s2]| |] eqn:E2; try discriminate. injection E as <- <-. destruct (IH _ _ _ E2) as (V2 & L2 & P2). cbn [map length seq]. rewrite V1, V2, L1. split; [reflexivity|]. split; [lia|].
    intro P. destruct (P1 P) as [M1 Q1]. destruct (P2 M1) as [M2 Q2]. split; [exact M2|]. rewrite Q2, Q1, <- app_assoc. reflexivity.
Qed.
Lemma bits_len bytes : length (bits_of_bytes bytes) = (8 * length bytes)%nat.
Proof. unfold bits_of_bytes. induction bytes as [|b l IH]; [reflexivity|]. cbn [flat_map length]. rewrite app_length, IH. change (length (byte_bits b)) with 8%nat. lia. Qed.
Lemma bits_len8 bytes : (length (bits_of_bytes bytes) mod 8 = 0)%nat. Proof. rewrite bits_len, Nat.mul_comm. apply Nat.mod_mul. lia. Qed.
Lemma still_so_alloc b : still (K := K) (so_alloc b). Proof. unfold so_alloc. apply st_bind; [apply st_so_alloc|intro; apply st_ret]. Qed.
Lemma still_select vl pv : forall sv iv, still (K := K) (select_vars vl pv sv iv).
Proof. induction pv as [|p pv IH]; intros sv iv; cbn [select_vars]; [apply st_ret|]. destruct sv; [apply st_ret|]. destruct iv; [apply st_panic|]. apply st_bind; [apply st_enforce|intro; apply IH]. Qed.
Lemma still_loop ls : forall i par, still (K := K) (sha_member_loop i par ls).
Proof.
  induction ls as [|sib ls IH]; intros i par; cbn [sha_member_loop]; [apply st_ret|]. apply st_bind; [|intro; apply IH]. unfold sha_member_step. st; first [apply still_select|apply st_hash].
Qed.
(** The exported bits of the last hash are free. *)
Lemma pair_ok s a b ba bb : so_ok s a ba -> so_ok s b bb -> exists pss, map so_value [a; b] = map Some pss /\ Forall (Forall (bool_in s)) pss.
Proof. intros (da & Va & Ba & _) (db & Vb & Bb & _). exists [da; db]. cbn [map]. rewrite Va, Vb. auto. Qed.
Lemma step_free i par sib bp bs s o s' : inv s -> so_ok s par bp -> so_ok s sib bs -> sha_member_step i par sib s = Ok (o, s') ->
  forall x ts, sat x s' -> length ts = 256%nat -> exists x', sat x' s' /\ continues s x x' /\ map x' (so_vars o) = map ob ts.
Proof.
  intros I Hp Hs E x ts Sx Lt. unfold sha_member_step in E. destruct (so_values_ok s par bp Hp) as (pvals & Ep & Lp & Vp). destruct (so_values_ok s sib bs Hs) as (svals & Es & Ls & Vs).
  rewrite Ep, Es in E. unfold lift_res in E. change (bind (ret pvals) ?k) with (k pvals) in E. cbv beta in E. change (bind (ret svals) ?k) with (k svals) in E. cbv beta in E.
  replace (if is_left i then 1 else 0) with (ob (is_left i)) in E by reflexivity.
  destruct (run_alloc (ob (is_left i)) s I) as (vl & s1 & E1 & X1 & I1 & [Al Wl]). unfold bind in E at 1. rewrite E1 in E.
  destruct (run_mapM (fun v => alloc (Ok v)) (fun s' (y : K) v => allocated s' v /\ (md s' = Prove -> wit s' v = y))) with (l := if is_left i then pvals else svals) (s := s1) as (iv & s2 & E2 & X2 & I2 & F).
  { intros t1 t2 y v X [A H]. split; [eapply allocated_ext; eassumption|]. intro P. rewrite (ext_md K _ _ X) in P. rewrite (wit_ext K _ _ _ X A). auto. } { exact I1. } { intros y t _ _ I'. apply run_alloc, I'. }
  unfold bind in E at 1. rewrite E2 in E. unfold bind in E at 1. destruct (select_vars vl (so_vars par) (so_vars sib) iv s2) as [[u s3]| |] eqn:E3; try discriminate.
  pose proof (ext_trans K _ _ _ X1 X2) as X02.
  assert (X3 : ext s2 s3 /\ wf s3).
  { apply (so_ok_ext _ _ _ _ X02) in Hp, Hs. destruct Hp as (_ & _ & _ & _ & _ & _ & Ap & _), Hs as (_ & _ & _ & _ & _ & _ & As & _).
    assert (Ai : Forall (allocated s2) iv) by (clear -F; induction F as [|y v l l' [A _] _ IH]; constructor; auto). pose proof (allocated_ext K _ _ _ X2 Al) as Al2. clear -E3 Ap As Ai Al2 I2. destruct I2 as [W2 _].
    revert E3 Ap As Ai Al2 W2. generalize (so_vars par) (so_vars sib) iv s2. clear. induction l as [|p pv IH]; intros sv iv s E Ap As Ai Al W; cbn [select_vars] in E; [injection E as _ <-; split; [apply ext_refl|exact W]|].
    destruct sv as [|w sv]; [injection E as _ <-; split; [apply ext_refl|exact W]|]. destruct iv as [|i iv]; [discriminate|]. apply Forall_cons_iff in Ap as [Ap1 Ap], As as [As1 As], Ai as [Ai1 Ai].
    unfold bind in E. match type of E with context [enforce ?a ?b ?c s] => pose proof (spec_enforce K a b c s W ltac:(vars; assumption) ltac:(vars; assumption) ltac:(vars; assumption)) as Sp; unfold spec in Sp; destruct (enforce a b c s) as [[u1 s1]| |]; try discriminate end. destruct Sp as (X & W1 & _).
    destruct (IH sv iv s1 E) as [X2 W2].
    { eapply Forall_impl; [|exact Ap]. intro. apply allocated_ext, X. } { eapply Forall_impl; [|exact As]. intro. apply allocated_ext, X. } { eapply Forall_impl; [|exact Ai]. intro. apply allocated_ext, X. } { eapply allocated_ext; eassumption. } { exact W1. }
    split; [eapply ext_trans; eassumption|exact W2]. }
  destruct X3 as [X3 W3]. pose proof (ext_trans K _ _ _ X02 X3) as X03. apply (so_ok_ext _ _ _ _ X03) in Hp, Hs.
  assert (Q : exists ps pss, sha_hash_enforce ps s3 = Ok (o, s') /\ map so_value ps = map Some pss /\ Forall (Forall (bool_in s3)) pss).
  { destruct (is_left i); [destruct (pair_ok _ _ _ _ _ Hp Hs) as (pss & M & B)|destruct (pair_ok _ _ _ _ _ Hs Hp) as (pss & M & B)]; eexists; exists pss; (split; [exact E|auto]). }
  destruct Q as (ps & pss & Eh & M & B). destruct (sha_exported_free K K64 ps pss s3 o s' W3 M B Eh) as (ds & _ & _ & _ & _ & H).
  destruct (H x ts Sx Lt) as (x' & S' & C & _ & V). exists x'. split; [exact S'|]. split; [|exact V]. intros v Av. apply C. eapply allocated_ext; eassumption.
Qed.
Lemma loop_free ls : forall i par bp lbs s o s', inv s -> so_ok s par bp -> Forall2 (so_ok s) ls lbs -> (length bp mod 8 = 0)%nat -> Forall (fun b => (length b mod 8 = 0)%nat) lbs -> ls <> [] -> sha_member_loop i par ls s = Ok (o, s') ->
  forall x ts, sat x s' -> length ts = 256%nat -> exists x', sat x' s' /\ continues s x x' /\ map x' (so_vars o) = map ob ts.
Proof.
  induction ls as [|sib ls IH]; intros i par bp lbs s o s' I Hp Hl L8 Ll NE E x ts Sx Lt; [congruence|]. inversion Hl as [|? bs ? lbs' Hb Hl']; subst. cbn [sha_member_loop] in E. apply Forall_cons_iff in Ll as [Lb Ll].
  assert (L8s : ((length bp + length bs) mod 8 = 0)%nat). { apply Nat.mod_divides in L8 as [a Ea]; [|lia]. apply Nat.mod_divides in Lb as [b Eb]; [|lia]. rewrite Ea, Eb, <- Nat.mul_add_distr_l, Nat.mul_comm. apply Nat.mod_mul. lia. }
  destruct (step_run i par sib bp bs s I Hp Hb L8s) as (o1 & s1 & E1 & X1 & I1 & ds & Ld & Od & Pd). unfold bind in E. rewrite E1 in E. destruct ls as [|sib2 ls].
  - cbn [sha_member_loop] in E. injection E as <- <-. exact (step_free i par sib bp bs s o1 s1 I Hp Hb E1 x ts Sx Lt).
  - destruct (IH (parent i) o1 ds lbs' s1 o s' I1 Od) with (x := x) (ts := ts) as (x' & S' & C & V); auto.
    + eapply f2_impl; [|exact Hl']. intros a b. apply so_ok_ext, X1.
    + rewrite Ld. reflexivity.
    + discriminate.
    + exists x'. split; [exact S'|]. split; [|exact V]. intros v Av. apply C. eapply allocated_ext; eassumption.
Qed.
(** The whole run: up to the final equalities the prover's values satisfy the system. *)
Theorem merkle_sha_run m p root leaf : exists spre vroot o ds s,
  merkle_sha (K := K) (Some p) (Some root) (Some leaf) (cs_new m) = Ok (tt, s) /\ equal_vars (so_vars o) (so_vars vroot) spre = Ok (tt, s) /\ ext spre s /\ wf s /\ md spre = m /\ inv spre /\
  so_ok spre vroot (bits_of_bytes root) /\ so_vars vroot = map Input (seq 1 (8 * length root)) /\ so_ok spre o ds /\
  (mp_lemmas p <> [] -> length ds = 256%nat) /\ (mp_lemmas p = [] -> ds = bits_of_bytes leaf) /\ (m = Prove -> ds = fold_path join (bits_of_bytes leaf) (mp_index p) (map bits_of_bytes (mp_lemmas p))) /\
  length (inps s) = S (8 * length root) /\ (m = Prove -> inps s = 1 :: map ob (bits_of_bytes root)) /\ (forall x, sat x s <-> sat x spre /\ zip_eq x (so_vars o) (so_vars vroot)) /\
  (mp_lemmas p <> [] -> forall x ts, sat x spre -> length ts = 256%nat -> exists x', sat x' spre /\ (forall i, (i <= 8 * length root)%nat -> x' (Input i) = x (Input i)) /\ map x' (so_vars o) = map ob ts).
Proof.
  unfold merkle_sha. assert (I0 : inv (cs_new (K := K) m)) by (split; [apply wf_new|intros _; apply self_sat_new]).
  destruct (run_unwrap _ _ _ (so_alloc_input_run root _ I0)) as (vroot & s1 & E1 & X1 & I1 & O1).
  assert (P1 : so_vars vroot = map Input (seq 1 (8 * length root)) /\ length (inps s1) = S (8 * length root) /\ (m = Prove -> inps s1 = 1 :: map ob (bits_of_bytes root))).
  { unfold unwrapM, so_alloc_input in E1. unfold bind in E1. destruct (mapM _ _ _) as [[bits s1']| |] eqn:Em; try discriminate. injection E1 as <- <-. destruct (inputs_place _ _ _ _ Em) as (V & L & P). cbn [so_vars]. rewrite V. cbn [inps cs_new length] in L |- *. rewrite bits_len in L |- *. cbn [cs_new inps length] in *. split; [reflexivity|]. split; [lia|].
    intro Q. destruct (P Q) as [_ ->]. reflexivity. }
  destruct (run_unwrap _ _ _ (so_alloc_run leaf s1 I1)) as (vleaf & s2 & E2 & X2 & I2 & O2).
  destruct (run_mapM (fun v => unwrapM (so_alloc v)) (fun s' v o => so_ok s' o (bits_of_bytes v)) ltac:(intros; eapply so_ok_ext; eassumption) (mp_lemmas p) s2 I2 ltac:(intros v s' _ _ I'; apply run_unwrap, so_alloc_run, I')) as (lms & s3 & E3 & X3 & I3 & O3).
  apply (so_ok_ext _ _ _ _ X3) in O2. apply (so_ok_ext _ _ _ _ X2), (so_ok_ext _ _ _ _ X3) in O1.
  assert (F3 : Forall2 (so_ok s3) lms (map bits_of_bytes (mp_lemmas p))) by (clear -O3; induction O3; cbn [map]; constructor; auto).
  destruct (loop_run lms (mp_index p) vleaf (bits_of_bytes leaf) _ s3 I3 O2 F3 (bits_len8 _)) as (o & s4 & E4 & X4 & I4 & ds & L1 & L2 & O4 & P4). { apply Forall_map, Forall_forall. intros. apply bits_len8. }
  apply (so_ok_ext _ _ _ _ X4) in O1. pose proof O1 as (d1 & _ & _ & _ & _ & _ & A1 & _). pose proof O4 as (d4 & _ & _ & _ & _ & _ & A4 & _).
  destruct (equal_run (so_vars o) (so_vars vroot) s4 (proj1 I4) A4 A1) as (s & E5 & X5 & W5 & Ei & Ea & Sx).
  exists s4, vroot, o, ds, s. assert (Lm : lms = [] <-> mp_lemmas p = []) by (pose proof (F2len O3) as L; destruct lms, (mp_lemmas p); cbn in L; split; intro; try reflexivity; discriminate).
  assert (Em : md s4 = m) by (rewrite (ext_md K _ _ X4), (ext_md K _ _ X3), (ext_md K _ _ X2), (ext_md K _ _ X1); reflexivity).
  assert (Ein : inps s = inps s1).
  { rewrite Ei, (still_loop _ _ _ _ _ _ E4). rewrite (st_mapM (K := K) _ _ _ _ (fun v => st_unwrap _ _ (still_so_alloc v)) _ _ _ E3). exact (st_unwrap _ _ (still_so_alloc leaf) _ _ _ E2). }
  split. { unfold bind at 1. rewrite E1. unfold bind at 1. rewrite E2. unfold bind at 1. rewrite E3. unfold unwrapM, sha_set_membership, bind. rewrite E4, E5. reflexivity. }
  split; [exact E5|]. split; [exact X5|]. split; [exact W5|]. split; [exact Em|]. split; [exact I4|]. split; [exact O1|]. split; [apply P1|]. split; [exact O4|]. split; [tauto|]. split; [tauto|]. split; [intro Q; apply P4; congruence|]. rewrite Ein. split; [apply P1|]. split; [apply P1|]. split; [exact Sx|].
  intros NE x ts Hx Lt. destruct (loop_free lms (mp_index p) vleaf (bits_of_bytes leaf) _ s3 o s4 I3 O2 F3 (bits_len8 _)) with (x := x) (ts := ts) as (x' & S' & C & V); auto; [apply Forall_map, Forall_forall; intros; apply bits_len8|tauto|].
  exists x'. split; [exact S'|]. split; [|exact V]. intros i Hi. apply C. cbn [allocated]. rewrite (st_mapM (K := K) _ _ _ _ (fun v => st_unwrap _ _ (still_so_alloc v)) _ _ _ E3), (st_unwrap _ _ (still_so_alloc leaf) _ _ _ E2), (proj1 (proj2 P1)). lia.
Qed.
End R.
