(** Cached values survive SHA-256: digests of known bits are known, also during key generation. *)
From Verif Require Import Field ModelLC ModelCS ModelBoolean ModelUint32 ModelOperator ModelSha256.
Definition bknown (b : boolean) : Prop := b_value b <> None.
Definition wknown (u : u32) : Prop := uval u <> None.
Definition wfull (u : u32) : Prop := wknown u /\ Forall bknown (ubits u).
Section Y.
Context {K : PFld}.
(** Every successful run ends in a result satisfying [P]. *)
Definition yields {A} (m : M K A) (P : A -> Prop) : Prop := forall s r s', m s = Ok (r, s') -> P r.
Definition yieldsM {A} (m : MM K A) (P : A -> Prop) : Prop := forall w r w', m w = Ok (r, w') -> P r.
Lemma y_bind A B (m : M K A) (k : A -> M K B) (P : A -> Prop) Q : yields m P -> (forall a, P a -> yields (k a) Q) -> yields (bind m k) Q.
Proof. intros H1 H2 s r s' E. unfold bind in E. destruct (m s) as [[a s1]| |] eqn:Em; try discriminate. exact (H2 a (H1 _ _ _ Em) _ _ _ E). Qed.
Lemma ym_bind A B (m : MM K A) (k : A -> MM K B) (P : A -> Prop) Q : yieldsM m P -> (forall a, P a -> yieldsM (k a) Q) -> yieldsM (mbind m k) Q.
Proof. intros H1 H2 s r s' E. unfold mbind in E. destruct (m s) as [[a s1]| |] eqn:Em; try discriminate. exact (H2 a (H1 _ _ _ Em) _ _ _ E). Qed.
Lemma y_ret A (a : A) (P : A -> Prop) : P a -> yields (ret a) P. Proof. intros H s r s' E. injection E as <- _. exact H. Qed.
Lemma ym_ret A (a : A) (P : A -> Prop) : P a -> yieldsM (mret a) P. Proof. intros H s r s' E. injection E as <- _. exact H. Qed.
Lemma y_true A (m : M K A) : yields m (fun _ => True). Proof. intros s r s' _. exact I. Qed.
Lemma ym_true A (m : MM K A) : yieldsM m (fun _ => True). Proof. intros s r s' _. exact I. Qed.
Lemma ym_panic A (P : A -> Prop) : yieldsM (@mpanic K A) P. Proof. intros s r s' E. discriminate. Qed.
Lemma y_panic A (P : A -> Prop) : yields (@panic K A) P. Proof. intros s r s' E. discriminate. Qed.
Lemma y_lift A (m : M K A) P : yields m P -> yieldsM (lift m) P.
Proof. intros H [s q] r w' E. unfold lift in E. destruct (m s) as [[a s1]| |] eqn:Em; try discriminate. injection E as <- _. exact (H _ _ _ Em). Qed.
Lemma y_lift_res A (r : res A) (P : A -> Prop) : (forall a, r = Ok a -> P a) -> yields (lift_res r) P.
Proof. intros H s a s' E. unfold lift_res in E. destruct r; cbn in E; try discriminate. injection E as <- _. auto. Qed.
Lemma y_multieq A (m : MM K A) P : yieldsM m P -> yields (with_multieq m) P.
Proof.
  intros H s r s' E. unfold with_multieq, mbind in E. destruct (m (s, meq_new)) as [[a w]| |] eqn:Em; try discriminate.
  destruct (meq_drop w) as [[u w2]| |]; try discriminate. unfold mret in E. destruct w2. injection E as <- _. exact (H _ _ _ Em).
Qed.
Lemma y_mapM A B (f : A -> M K B) (P : B -> Prop) l : Forall (fun a => yields (f a) P) l -> yields (mapM f l) (Forall P).
Proof.
  induction 1 as [|a l Ha Hl IH]; cbn [mapM]; [apply y_ret; constructor|]. eapply y_bind; [exact Ha|]. intros b Hb. eapply y_bind; [exact IH|]. intros bs Hbs. apply y_ret. constructor; assumption.
Qed.
Lemma y_bit_alloc o : o <> None -> yields (@bit_alloc K o) (fun b => bval b <> None).
Proof. intro H. unfold bit_alloc. eapply y_bind; [apply y_true|]. intros v _. eapply y_bind; [apply y_true|]. intros _ _. apply y_ret. exact H. Qed.
Lemma zlift2_k f a b : a <> None -> b <> None -> zlift2 f a b <> None. Proof. destruct a, b; cbn; congruence. Qed.
Lemma zlift3_k f a b c : a <> None -> b <> None -> c <> None -> zlift3 f a b c <> None. Proof. destruct a, b, c; cbn; congruence. Qed.
Lemma map_k {A B} (f : A -> B) o : o <> None -> option_map f o <> None. Proof. destruct o; cbn; congruence. Qed.
Lemma y_xor a b : wknown a -> wknown b -> yields (@u32_xor K a b) wknown.
Proof. intros A B. unfold u32_xor. eapply y_bind; [apply y_true|]. intros bs _. apply y_ret. apply zlift2_k; assumption. Qed.
Lemma y_triop f g a b c : wknown a -> wknown b -> wknown c -> yields (@u32_triop K f g a b c) wknown.
Proof. intros A B C. unfold u32_triop. eapply y_bind; [apply y_true|]. intros bs _. apply y_ret. apply zlift3_k; assumption. Qed.
Lemma k_rotr u n : wknown u -> wknown (u32_rotr u n). Proof. apply map_k. Qed.
Lemma k_shr u n : wknown u -> wknown (u32_shr u n). Proof. apply map_k. Qed.
Lemma full_const v : wfull (u32_constant v).
Proof. split; [discriminate|]. unfold u32_constant. cbn [ubits]. apply Forall_map, Forall_forall. intros b _. discriminate. Qed.
Lemma Forall_firstn' A (P : A -> Prop) n : forall l, Forall P l -> Forall P (firstn n l).
Proof. induction n as [|n IH]; intros l H; [constructor|]. destruct H; cbn [firstn]; [constructor|]. constructor; auto. Qed.
Lemma y_addmany ops : Forall wknown ops -> yieldsM (@u32_addmany K ops) wfull.
Proof.
  intro H. unfold u32_addmany. destruct (modulus_bits K <? 64)%Z; [apply ym_panic|]. destruct (Nat.ltb _ 2); [apply ym_panic|]. destruct (Nat.ltb 10 _); [apply ym_panic|].
  assert (R : forall acc, acc <> None -> fold_left (fun acc op => zlift2 Z.add acc (uval op)) ops acc <> None).
  { induction H as [|o ops Ho _ IH]; cbn [fold_left]; [auto|]. intros acc Ha. apply IH. apply zlift2_k; assumption. }
  specialize (R (Some 0%Z) ltac:(discriminate)). cbv zeta. set (rv := fold_left (fun acc op => zlift2 Z.add acc (uval op)) ops (Some 0%Z)) in *. clearbody rv.
  assert (G : forall n l, yieldsM (mbind (lift (mapM (fun i => bit_alloc (option_map (fun v => Z.testbit v (Z.of_nat i)) rv)) (seq 0 n))) (fun bits =>
        mbind (meq_enforce_equal n l (@lc_add_vars K lc_zero f1 (map bvar bits))) (fun _ => mret (mkU (firstn 32 (map BIs bits)) (option_map (fun v => v mod 2 ^ 32)%Z rv))))) wfull).
  { intros n l. eapply ym_bind. { apply y_lift, y_mapM. apply Forall_forall. intros i _. apply y_bit_alloc, map_k, R. }
    intros bits Hb. eapply ym_bind; [apply ym_true|]. intros _ _. apply ym_ret. split; [unfold wknown; cbn [uval]; apply map_k, R|]. cbn [ubits]. apply Forall_firstn', Forall_map. exact Hb. }
  destruct (forallb _ ops); [|apply G]. destruct rv; cbn [option_map] in *; [apply ym_ret, full_const|apply G].
Qed.
Lemma y_compute m os : Forall wknown os -> match m with Deferred v => Forall wknown v | Concrete u => wfull u end -> yieldsM (@maybe_compute K m os) wfull.
Proof. intros Ho Hm. destruct m; cbn [maybe_compute]; [apply y_addmany, Forall_app; auto|apply ym_ret; exact Hm]. Qed.
Lemma y_extend n : forall i w, Forall wknown w -> yieldsM (@sha_extend K n i w) (Forall wknown).
Proof.
  induction n as [|n IH]; intros i w H; cbn [sha_extend]; [apply ym_ret; exact H|].
  assert (N : forall j u, nth_error w j = Some u -> wknown u) by (intros j u E; apply nth_error_In in E; rewrite Forall_forall in H; auto).
  destruct (nth_error w (i - 15)) as [w15|] eqn:E15; [|apply ym_panic]. destruct (nth_error w (i - 2)) as [w2|] eqn:E2; [|apply ym_panic].
  destruct (nth_error w (i - 16)) as [w16|] eqn:E16; [|apply ym_panic]. destruct (nth_error w (i - 7)) as [w7|] eqn:E7; [|apply ym_panic].
  apply N in E15, E2, E16, E7.
  eapply ym_bind; [apply y_lift, y_xor; apply k_rotr; assumption|]. intros s0 H0. eapply ym_bind; [apply y_lift, y_xor; [assumption|apply k_shr; assumption]|]. intros s0' H0'.
  eapply ym_bind; [apply y_lift, y_xor; apply k_rotr; assumption|]. intros s1 H1. eapply ym_bind; [apply y_lift, y_xor; [assumption|apply k_shr; assumption]|]. intros s1' H1'.
  eapply ym_bind; [apply y_addmany; repeat constructor; assumption|]. intros t [Ht _]. apply IH. apply Forall_app. auto.
Qed.
Definition mk (m : maybe) : Prop := match m with Deferred v => Forall wknown v | Concrete u => wfull u end.
Definition stk (st : shast) : Prop := mk (va st) /\ mk (ve st) /\ Forall wknown [vb st; vc st; vd st; vf st; vg st; vh st].
Lemma y_round st k w : stk st -> wknown w -> yieldsM (@sha_round K st k w) stk.
Proof.
  intros (Ha & He & Hr) Hw. repeat match goal with H : Forall _ (_ :: _) |- _ => apply Forall_cons_iff in H as [? H] end. unfold sha_round.
  eapply ym_bind; [apply y_compute; [constructor|exact He]|]. intros e [Ke _].
  eapply ym_bind; [apply y_lift, y_xor; apply k_rotr; assumption|]. intros s1 H1'. eapply ym_bind; [apply y_lift, y_xor; [assumption|apply k_rotr; assumption]|]. intros s1' H1''.
  eapply ym_bind; [apply y_lift, y_triop; assumption|]. intros ch Hch. cbv zeta.
  eapply ym_bind; [apply y_compute; [constructor|exact Ha]|]. intros a [Ka _].
  eapply ym_bind; [apply y_lift, y_xor; apply k_rotr; assumption|]. intros s0 H0'. eapply ym_bind; [apply y_lift, y_xor; [assumption|apply k_rotr; assumption]|]. intros s0' H0''.
  eapply ym_bind; [apply y_lift, y_triop; assumption|]. intros mj Hmj. apply ym_ret. pose proof (proj1 (full_const k)).
  split; [cbn; repeat constructor; assumption|]. split; [cbn; repeat constructor; assumption|]. cbn. repeat constructor; assumption.
Qed.
Lemma y_rounds kw : forall st, stk st -> Forall (fun p => wknown (snd p)) kw -> yieldsM (@sha_rounds K kw st) stk.
Proof.
  induction kw as [|[k w] kw IH]; intros st Hs Hk; cbn [sha_rounds]; [apply ym_ret; exact Hs|]. apply Forall_cons_iff in Hk as [Hw Hk].
  eapply ym_bind; [apply y_round; assumption|]. intros st' Hs'. apply IH; assumption.
Qed.
Lemma bits_value_k bs : Forall bknown bs -> forall acc, acc <> None -> bits_value acc bs <> None.
Proof.
  induction 1 as [|b bs Hb _ IH]; intros acc Ha; cbn [bits_value]; [exact Ha|]. apply IH. unfold bknown in Hb. destruct acc, (b_value b); congruence.
Qed.
Lemma Forall_skipn' A (P : A -> Prop) n : forall l, Forall P l -> Forall P (skipn n l).
Proof. induction n as [|n IH]; intros l H; [exact H|]. destruct H; cbn [skipn]; auto. Qed.
Lemma chunks_k A (P : A -> Prop) n l : Forall P l -> Forall (Forall P) (chunks n l).
Proof. intro H. unfold chunks. apply Forall_map, Forall_forall. intros i _. apply Forall_firstn', Forall_skipn', H. Qed.
Lemma res_map_k A B (P : A -> Prop) (Q : B -> Prop) (f : A -> res B) l : (forall a b, P a -> f a = Ok b -> Q b) -> Forall P l -> forall bs, res_map f l = Ok bs -> Forall Q bs.
Proof.
  intros F. induction 1 as [|a l Ha _ IH]; intros bs E; cbn [res_map] in E; [injection E as <-; constructor|].
  destruct (f a) as [b| |] eqn:Ef; cbn [rbind] in E; try discriminate. destruct (res_map f l) as [r| |]; cbn [rbind] in E; try discriminate. injection E as <-. constructor; eauto.
Qed.
Lemma y_compression inp cur : Forall bknown inp -> Forall wfull cur -> yields (@sha256_compression K inp cur) (Forall wfull).
Proof.
  intros Hi Hc. unfold sha256_compression. destruct (negb _); [apply y_panic|]. destruct cur as [|c0 [|c1 [|c2 [|c3 [|c4 [|c5 [|c6 [|c7 [|? ?]]]]]]]]]; try apply y_panic.
  assert (Hk : Forall wknown [c0; c1; c2; c3; c4; c5; c6; c7]) by (eapply Forall_impl; [|exact Hc]; intros u [? _]; assumption).
  repeat match goal with H : Forall _ (_ :: _) |- _ => apply Forall_cons_iff in H as [? H] end.
  eapply y_bind with (P := Forall wknown).
  { apply y_lift_res. intros ws E. refine (res_map_k _ _ (Forall bknown) wknown _ _ _ (chunks_k _ _ 32 _ Hi) _ E). intros a b Ha Eb. unfold u32_from_bits_be in Eb. destruct (Nat.eqb _ _); [|discriminate]. injection Eb as <-. unfold wknown; cbn [uval].
    apply bits_value_k; [exact Ha|discriminate]. }
  intros w Hw. apply y_multieq. eapply ym_bind; [apply y_extend; exact Hw|]. intros w' Hw'. destruct (negb _); [apply ym_panic|].
  eapply ym_bind; [apply y_rounds|]. { split; [assumption|]. split; [assumption|]. cbn; repeat constructor; assumption. }
  { apply Forall_forall. intros [k u] I. apply in_combine_r in I. rewrite Forall_forall in Hw'. exact (Hw' _ I). }
  intros st (Ha & He & Hr). repeat match goal with H : Forall _ (_ :: _) |- _ => apply Forall_cons_iff in H as [? H] end.
  eapply ym_bind; [apply y_compute; [repeat constructor; assumption|exact Ha]|]. intros h0 F0. do 3 (eapply ym_bind; [apply y_addmany; repeat constructor; assumption|]; intros ? ?).
  eapply ym_bind; [apply y_compute; [repeat constructor; assumption|exact He]|]. intros h4 F4. do 3 (eapply ym_bind; [apply y_addmany; repeat constructor; assumption|]; intros ? ?).
  apply ym_ret. repeat constructor; try apply F0; try apply F4; match goal with H : wfull ?u |- wknown ?u => apply H | H : wfull ?u |- Forall bknown (ubits ?u) => apply H end.
Qed.
Lemma y_blocks bl : forall cur, Forall (Forall bknown) bl -> Forall wfull cur -> yields (@sha_blocks K bl cur) (Forall wfull).
Proof.
  induction bl as [|b bl IH]; intros cur Hb Hc; cbn [sha_blocks]; [apply y_ret; exact Hc|]. apply Forall_cons_iff in Hb as [H1 H2]. eapply y_bind; [apply y_compression; assumption|]. intros c' Hc'. apply IH; assumption.
Qed.
Lemma pad_k n : forall l, Forall bknown l -> Forall bknown (pad_zeros n l).
Proof. induction n as [|n IH]; intros l H; cbn [pad_zeros]; [exact H|]. destruct (Nat.eqb _ _); [exact H|]. apply IH, Forall_app. split; [exact H|]. repeat constructor. discriminate. Qed.
Theorem y_sha256 inp : Forall bknown inp -> yields (@sha256 K inp) (Forall bknown).
Proof.
  intro H. unfold sha256. destruct (negb _); [apply y_panic|]. cbv zeta. destruct (negb _); [apply y_panic|]. eapply y_bind.
  - apply y_blocks.
    + apply chunks_k, Forall_app. split; [apply pad_k, Forall_app; split; [exact H|repeat constructor; discriminate]|]. apply Forall_map, Forall_forall. intros i _. discriminate.
    + unfold get_sha256_iv. apply Forall_map, Forall_forall. intros v _. apply full_const.
  - intros cur Hc. apply y_ret. induction Hc as [|u cur [_ Hu] _ IH]; cbn [flat_map]; [constructor|]. apply Forall_app. split; [apply Forall_rev, Hu|exact IH].
Qed.
End Y.

(** ** SHA-256 adds no public inputs *)
Section I.
Context {K : PFld}.
Definition still {A} (m : M K A) : Prop := forall s r s', m s = Ok (r, s') -> inps s' = inps s.
Definition stillM {A} (m : MM K A) : Prop := forall w r w', m w = Ok (r, w') -> inps (fst w') = inps (fst w).
Lemma st_bind A B (m : M K A) (k : A -> M K B) : still m -> (forall a, still (k a)) -> still (bind m k).
Proof. intros H1 H2 s r s' E. unfold bind in E. destruct (m s) as [[a s1]| |] eqn:Em; try discriminate. rewrite (H2 a _ _ _ E). exact (H1 _ _ _ Em). Qed.
Lemma stm_bind A B (m : MM K A) (k : A -> MM K B) : stillM m -> (forall a, stillM (k a)) -> stillM (mbind m k).
Proof. intros H1 H2 s r s' E. unfold mbind in E. destruct (m s) as [[a s1]| |] eqn:Em; try discriminate. rewrite (H2 a _ _ _ E). exact (H1 _ _ _ Em). Qed.
Lemma st_ret A (a : A) : still (ret a). Proof. intros s r s' E. injection E as _ <-. reflexivity. Qed.
Lemma stm_ret A (a : A) : stillM (mret a). Proof. intros s r s' E. injection E as _ <-. reflexivity. Qed.
Lemma st_panic A : still (@panic K A). Proof. intros s r s' E. discriminate. Qed.
Lemma stm_panic A : stillM (@mpanic K A). Proof. intros s r s' E. discriminate. Qed.
Lemma st_fail A e : still (@fail K A e). Proof. intros s r s' E. discriminate. Qed.
Lemma st_alloc f : still (alloc f).
Proof. intros s r s' E. unfold alloc in E. destruct (md s); [|destruct f]; try discriminate; injection E as _ <-; reflexivity. Qed.
Lemma st_enforce a b c : still (enforce a b c). Proof. intros s r s' E. injection E as _ <-. reflexivity. Qed.
Lemma st_called A (o : option A) : still (if_called o). Proof. intros s r s' E. injection E as _ <-. reflexivity. Qed.
Lemma st_lift_res A (x : res A) : still (lift_res x). Proof. intros s r s' E. unfold lift_res in E. destruct x; cbn in E; try discriminate. injection E as _ <-. reflexivity. Qed.
Lemma st_mapM A B (f : A -> M K B) l : (forall a, still (f a)) -> still (mapM f l).
Proof. intro H. induction l; cbn [mapM]; [apply st_ret|]. apply st_bind; [apply H|intro]. apply st_bind; [assumption|intro]. apply st_ret. Qed.
Lemma st_unwrap A (m : M K A) : still m -> still (unwrapM m).
Proof. intros H s r s' E. unfold unwrapM in E. destruct (m s) as [[a s1]| |] eqn:Em; try discriminate. injection E as <- <-. exact (H _ _ _ Em). Qed.
Lemma st_lift A (m : M K A) : still m -> stillM (lift m).
Proof. intros H [s q] r w' E. unfold lift in E. destruct (m s) as [[a s1]| |] eqn:Em; try discriminate. injection E as <- <-. exact (H _ _ _ Em). Qed.
Ltac st := repeat first [apply st_ret|apply st_panic|apply st_fail|apply st_alloc|apply st_enforce|apply st_called|apply st_lift_res
  |apply stm_ret|apply stm_panic|apply st_lift|assumption
  |match goal with |- still (bind _ _) => apply st_bind; [|intro] | |- stillM (mbind _ _) => apply stm_bind; [|intro]
     | |- still (mapM _ _) => apply st_mapM; intro
     | |- still (unwrapM _) => apply st_unwrap
     | |- still (match ?x with _ => _ end) => destruct x | |- stillM (match ?x with _ => _ end) => destruct x end].
Lemma st_bit_alloc o : still (@bit_alloc K o). Proof. unfold bit_alloc. st. Qed.
Lemma st_xor a b : still (@b_xor K a b). Proof. unfold b_xor, bit_xor. st. Qed.
Lemma st_and a b : still (@b_and K a b). Proof. unfold b_and, bit_and, bit_and_not, bit_nor. st. Qed.
Lemma st_ch a b c : still (@b_ch K a b c). Proof. unfold b_ch. cbv zeta. st; try apply st_and. Qed.
Lemma st_maj a b c : still (@b_maj K a b c). Proof. unfold b_maj. cbv zeta. st; try apply st_and; try apply st_xor. Qed.
Lemma st_uxor a b : still (@u32_xor K a b). Proof. unfold u32_xor. st. apply st_xor. Qed.
Lemma st_uch a b c : still (@u32_ch K a b c). Proof. unfold u32_ch, u32_triop. st. apply st_ch. Qed.
Lemma st_umaj a b c : still (@u32_maj K a b c). Proof. unfold u32_maj, u32_triop. st. apply st_maj. Qed.
Lemma st_accumulate : stillM (@meq_accumulate K).
Proof. intros [s q] r w E. unfold meq_accumulate in E. destruct (enforce _ _ _ s) as [[u s1]| |] eqn:Ee; try discriminate. injection E as _ <-. exact (st_enforce _ _ _ _ _ _ Ee). Qed.
Lemma st_equal n l r : stillM (@meq_enforce_equal K n l r).
Proof.
  unfold meq_enforce_equal. apply stm_bind.
  - intros w u w' E. destruct (_ <=? _)%Z; [exact (st_accumulate _ _ _ E)|]. injection E as _ <-. reflexivity.
  - intros _ [s q] u w' E. destruct (_ <? _)%Z; [|discriminate]. injection E as _ <-. reflexivity.
Qed.
Lemma st_multieq A (m : MM K A) : stillM m -> still (with_multieq m).
Proof.
  intros H s r s' E. unfold with_multieq in E.
  assert (G : stillM (mbind m (fun a => mbind meq_drop (fun _ => mret a)))).
  { apply stm_bind; [exact H|intro]. apply stm_bind; [|intro; apply stm_ret]. intros w u w' D. unfold meq_drop in D. destruct (Nat.ltb _ _); [exact (st_accumulate _ _ _ D)|]. injection D as _ <-. reflexivity. }
  destruct (mbind _ _ _) as [[a [s1 q]]| |] eqn:Em; try discriminate. injection E as <- <-. exact (G _ _ _ Em).
Qed.
Lemma st_addmany ops : stillM (@u32_addmany K ops). Proof. unfold u32_addmany. cbv zeta. st; try apply st_bit_alloc; try apply st_equal. Qed.
Lemma st_compute m os : stillM (@maybe_compute K m os). Proof. destruct m; cbn [maybe_compute]; [apply st_addmany|apply stm_ret]. Qed.
Lemma st_extend n : forall i w, stillM (@sha_extend K n i w).
Proof. induction n as [|n IH]; intros i w; cbn [sha_extend]; st; try apply st_uxor; try apply st_addmany; try apply IH. Qed.
Lemma st_rounds kw : forall s, stillM (@sha_rounds K kw s).
Proof. induction kw as [|[k w] kw IH]; intro s; cbn [sha_rounds]; [apply stm_ret|]. apply stm_bind; [|intro; apply IH]. unfold sha_round. cbv zeta. st; try apply st_compute; try apply st_uxor; try apply st_uch; try apply st_umaj. Qed.
Lemma st_compression inp cur : still (@sha256_compression K inp cur).
Proof. unfold sha256_compression. st. apply st_multieq. st; first [apply st_extend|apply st_rounds|apply st_compute|apply st_addmany]. Qed.
Lemma st_blocks bl : forall cur, still (@sha_blocks K bl cur).
Proof. induction bl as [|b bl IH]; intro cur; cbn [sha_blocks]; [apply st_ret|]. apply st_bind; [apply st_compression|intro; apply IH]. Qed.
Lemma st_sha256 inp : still (@sha256 K inp). Proof. unfold sha256. cbv zeta. st. apply st_blocks. Qed.
Lemma st_hash ps : still (@sha_hash_enforce K ps). Proof. unfold sha_hash_enforce. st; [apply st_sha256|apply st_bit_alloc]. Qed.
Lemma st_so_alloc f : still (mapM (fun v : bool => @bit_alloc K (Some v)) f). Proof. apply st_mapM. intro. apply st_bit_alloc. Qed.
End I.
Ltac st := repeat first [apply st_ret|apply st_panic|apply st_fail|apply st_alloc|apply st_enforce|apply st_called|apply st_lift_res
  |apply stm_ret|apply stm_panic|apply st_lift|assumption
  |match goal with |- still (bind _ _) => apply st_bind; [|intro] | |- stillM (mbind _ _) => apply stm_bind; [|intro]
     | |- still (mapM _ _) => apply st_mapM; intro
     | |- still (unwrapM _) => apply st_unwrap
     | |- still (match ?x with _ => _ end) => destruct x | |- stillM (match ?x with _ => _ end) => destruct x end].
