(** Gadgets emit the same constraints with and without witnesses: 32-bit words, SHA-256, BLAKE2s. *)
From Verif Require Import Field ModelLC ModelCS ModelBoolean ModelUint32 ModelOperator ModelSha256 ModelBlake2s SpecMode ProofsMode.
Local Open Scope fld_scope.
Lemma Forall2_length {A B} {R : A -> B -> Prop} {l l'} : Forall2 R l l' -> length l = length l'.
Proof. induction 1; [reflexivity|]. cbn [length]. congruence. Qed.
Lemma mapM_post (K : Fld) A B (f : A -> M K B) (P : A -> B -> Prop) : (forall x s y t, f x s = Ok (y, t) -> P x y) -> forall l s ys t, mapM f l s = Ok (ys, t) -> Forall2 P l ys.
Proof.
  intros H l. induction l as [|x l IH]; intros s ys t E; cbn [mapM] in E; [injection E as <- <-; constructor|]. unfold bind in E. destruct (f x s) as [[y s1]| |] eqn:E1; try discriminate. destruct (mapM f l s1) as [[zs s2]| |] eqn:E2; try discriminate. injection E as <- <-.
  constructor; [exact (H _ _ _ _ E1)|exact (IH _ _ _ E2)].
Qed.
Lemma fits_post (K : Fld) A (R : A -> A -> Prop) (P : A -> Prop) (m m' : M K A) : fits R m m' -> (forall s a t, m s = Ok (a, t) -> P a) -> fits (fun a a' => R a a' /\ P a) m m'.
Proof. intros H Q s s' S M a t E. destruct (H s s' S M a t E) as (a' & t' & X & Y & Z). exists a', t'. split; [exact X|]. split; [|exact Z]. split; [exact Y|exact (Q _ _ _ E)]. Qed.

(** ** Words *)
Definition RW (u u' : u32) : Prop := Forall2 same_wire (ubits u) (ubits u').
Definition uc (u : u32) : bool := forallb b_is_const (ubits u).
Definition AG (u u' : u32) : Prop := exists v, uval u = Some v /\ uval u' = Some v.
Definition RL (u u' : u32) : Prop := RW u u' /\ length (ubits u) = 32%nat.
(** Words on the same wires which, if constant, have the same known value. *)
Definition RU (u u' : u32) : Prop := RL u u' /\ (uc u = true -> AG u u').
Lemma RW_uc u u' : RW u u' -> uc u = uc u'.
Proof. unfold RW, uc. induction 1 as [|a b l l' H F IH]; [reflexivity|]. cbn [forallb]. rewrite (wire_const _ _ H), IH. reflexivity. Qed.
Lemma Forall2_firstn A (R : A -> A -> Prop) n : forall l l', Forall2 R l l' -> Forall2 R (firstn n l) (firstn n l').
Proof. induction n as [|n IH]; intros l l' H; [constructor|]. destruct H; cbn [firstn]; constructor; auto. Qed.
Lemma Forall2_skipn A (R : A -> A -> Prop) n : forall l l', Forall2 R l l' -> Forall2 R (skipn n l) (skipn n l').
Proof. induction n as [|n IH]; intros l l' H; [exact H|]. destruct H; cbn [skipn]; [constructor|auto]. Qed.
Lemma Forall2_refl A (R : A -> A -> Prop) : (forall a, R a a) -> forall l, Forall2 R l l.
Proof. intros H l. induction l; constructor; auto. Qed.
Lemma wire_refl b : same_wire b b. Proof. destruct b; reflexivity. Qed.
Lemma uc_const v : uc (u32_constant v) = true.
Proof. unfold uc, u32_constant. cbn [ubits]. generalize (bits32 v). induction l; [reflexivity|exact IHl]. Qed.
Lemma RU_const v : RU (u32_constant v) (u32_constant v).
Proof. split; [split; [apply Forall2_refl, wire_refl|cbn [u32_constant ubits]; rewrite map_length; reflexivity]|]. intros _. exists v. split; reflexivity. Qed.
Lemma RL_rotr u u' k : RL u u' -> RL (u32_rotr u k) (u32_rotr u' k) /\ uc (u32_rotr u k) = uc u.
Proof.
  intros [H L]. assert (k mod 32 < 32)%nat as Hk by (apply Nat.mod_upper_bound; lia). unfold RL, RW, u32_rotr. cbn [ubits]. set (j := (k mod 32)%nat) in *. split.
  - split; [apply Forall2_firstn, Forall2_app; [apply Forall2_skipn, H|exact H]|]. rewrite firstn_length, app_length, skipn_length, L. lia.
  - unfold uc. cbn [ubits]. rewrite firstn_app, skipn_length, L. rewrite firstn_all2 by (rewrite skipn_length, L; lia). rewrite forallb_app. replace (32 - (32 - j))%nat with j by lia. rewrite <- (firstn_skipn j (ubits u)) at 3. rewrite forallb_app. apply Bool.andb_comm.
Qed.
Lemma AG_map (f : Z -> Z) u u' b b' : AG u u' -> AG (mkU b (option_map f (uval u))) (mkU b' (option_map f (uval u'))).
Proof. intros (v & -> & ->). exists (f v). split; reflexivity. Qed.
Lemma RU_rotr u u' k : RU u u' -> RU (u32_rotr u k) (u32_rotr u' k).
Proof. intros [H C]. destruct (RL_rotr u u' k H) as [A B]. split; [exact A|]. rewrite B. intro E. apply AG_map, C, E. Qed.
Lemma RL_shr u u' k : RL u u' -> RL (u32_shr u k) (u32_shr u' k).
Proof.
  intros [H L]. split; unfold RW, u32_shr; cbn [ubits].
  - apply Forall2_firstn, Forall2_app; [apply Forall2_skipn, H|apply Forall2_refl, wire_refl].
  - rewrite firstn_length, app_length, repeat_length. lia.
Qed.
Lemma AG_shr u u' k : AG u u' -> AG (u32_shr u k) (u32_shr u' k). Proof. apply AG_map. Qed.
Lemma bits_value_const bs bs' : Forall2 same_wire bs bs' -> forallb b_is_const bs = true -> forall v, exists w, bits_value (Some v) bs = Some w /\ bits_value (Some v) bs' = Some w.
Proof.
  induction 1 as [|b b' bs bs' H F IH]; intros C v; [exists v; split; reflexivity|]. cbn [forallb] in C. apply Bool.andb_true_iff in C. destruct C as [C1 C2]. destruct b, b'; try discriminate; try contradiction. cbn [same_wire] in H. subst. cbn [bits_value b_value]. apply IH, C2.
Qed.
Lemma forallb_rev A (f : A -> bool) l : forallb f (rev l) = forallb f l.
Proof. induction l as [|a l IH]; [reflexivity|]. cbn [rev forallb]. rewrite forallb_app, IH. cbn [forallb]. rewrite Bool.andb_true_r. apply Bool.andb_comm. Qed.
Lemma Forall2_rev A (R : A -> A -> Prop) l l' : Forall2 R l l' -> Forall2 R (rev l) (rev l').
Proof. induction 1; [constructor|]. cbn [rev]. apply Forall2_app; [assumption|constructor; [assumption|constructor]]. Qed.
Lemma from_bits_be_fits bs bs' u : Forall2 same_wire bs bs' -> u32_from_bits_be bs = Ok u -> exists u', u32_from_bits_be bs' = Ok u' /\ RU u u'.
Proof.
  intros H E. unfold u32_from_bits_be in *. pose proof (Forall2_length H) as L. rewrite <- L. destruct (Nat.eqb_spec (length bs) 32) as [E2|]; [|discriminate]. injection E as <-. eexists. split; [reflexivity|]. split; [split; [apply Forall2_rev, H|cbn [ubits]; rewrite rev_length; exact E2]|].
  unfold uc. cbn [ubits uval]. rewrite forallb_rev. intro C. destruct (bits_value_const bs bs' H C 0) as (w & A & B). exists w. cbn [uval]. split; assumption.
Qed.
Lemma from_bits_fits bs bs' u : Forall2 same_wire bs bs' -> u32_from_bits bs = Ok u -> exists u', u32_from_bits bs' = Ok u' /\ RU u u'.
Proof.
  intros H E. unfold u32_from_bits in *. pose proof (Forall2_length H) as L. rewrite <- L. destruct (Nat.eqb_spec (length bs) 32) as [E2|]; [|discriminate]. injection E as <-. eexists. split; [reflexivity|]. split; [split; [exact H|exact E2]|].
  unfold uc. cbn [ubits]. intro C. destruct (bits_value_const (rev bs) (rev bs') (Forall2_rev _ _ _ _ H)) with (v := 0%Z) as (w & A & B); [rewrite forallb_rev; exact C|]. exists w. cbn [uval]. split; assumption.
Qed.

Section W.
Variable K : Fld.
Lemma fits_u32_alloc o o' : fits RU (@u32_alloc K o) (u32_alloc o').
Proof.
  unfold u32_alloc. eapply fits_bind; [apply (fits_post K _ (Forall2 same_bit) (fun l => length l = 32%nat))|].
  - apply (fits_mapM _ _ _ any same_bit); [intros; apply fits_bit_alloc|]. apply Forall2_any. destruct o, o'; unfold bits32; rewrite ?map_length, ?seq_length, ?repeat_length; reflexivity.
  - intros s a t E. apply (mapM_post K _ _ _ (fun _ _ => True)) in E; [|intros; exact I]. apply Forall2_length in E. rewrite <- E. destruct o; unfold bits32; rewrite ?map_length, ?seq_length, ?repeat_length; reflexivity.
  - intros l l' [H L]. apply fits_ret. split; [split; [apply map_wires, H|cbn [ubits]; rewrite map_length; exact L]|]. unfold uc. cbn [ubits]. destruct l; [discriminate L|]. intro X. discriminate X.
Qed.
Lemma xor_const a b s r t : @b_xor K a b s = Ok (r, t) -> b_is_const r = true -> b_is_const a = true /\ b_is_const b = true.
Proof.
  unfold b_xor. destruct a as [a|a|[|]], b as [b|b|[|]]; intros E C; try (injection E as <- <-; try discriminate C; split; reflexivity); unfold bind in E; destruct (bit_xor _ _ s) as [[x u]| |]; try discriminate; injection E as <- <-; discriminate C.
Qed.
Lemma Forall2_combine A B (R : A -> A -> Prop) (Q : B -> B -> Prop) l l' : Forall2 R l l' -> forall m m', Forall2 Q m m' -> Forall2 (fun p p' => R (fst p) (fst p') /\ Q (snd p) (snd p')) (combine l m) (combine l' m').
Proof. induction 1 as [|a a' l l' H F IH]; intros m m' G; [constructor|]. destruct G; cbn [combine]; constructor; [split; assumption|apply IH; assumption]. Qed.
Lemma AG2 f u u' w w' b b' : AG u u' -> AG w w' -> AG (mkU b (zlift2 f (uval u) (uval w))) (mkU b' (zlift2 f (uval u') (uval w'))).
Proof. intros (v & -> & ->) (x & -> & ->). exists (f v x). split; reflexivity. Qed.
Lemma AG3 f u u' w w' x x' b b' : AG u u' -> AG w w' -> AG x x' -> AG (mkU b (zlift3 f (uval u) (uval w) (uval x))) (mkU b' (zlift3 f (uval u') (uval w') (uval x'))).
Proof. intros (v & -> & ->) (y & -> & ->) (z & -> & ->). exists (f v y z). split; reflexivity. Qed.
Lemma fits_uxor a a' b b' : RL a a' -> RL b b' -> (uc a = true -> uc b = true -> AG a a' /\ AG b b') -> fits (fun r r' => RU r r' /\ (uc r = true -> uc a = true /\ uc b = true)) (@u32_xor K a b) (u32_xor a' b').
Proof.
  intros [Ha La] [Hb Lb] G. unfold u32_xor.
  eapply fits_bind; [apply (fits_post K _ (Forall2 same_wire) (fun l => Forall2 (fun p r => b_is_const r = true -> b_is_const (fst p) = true /\ b_is_const (snd p) = true) (combine (ubits a) (ubits b)) l))|].
  - eapply fits_mapM; [|apply Forall2_combine; [exact Ha|exact Hb]]. intros [x y] [x' y'] [H1 H2]. apply fits_xor; assumption.
  - intros s l t E. eapply mapM_post; [|exact E]. intros [x y] s0 r t0 E0. apply (xor_const _ _ _ _ _ E0).
  - intros l l' [H P]. apply fits_ret. assert (length l = 32%nat) as L by (rewrite <- (Forall2_length P), combine_length; lia). assert (forallb b_is_const l = true -> uc a = true /\ uc b = true) as C.
    { unfold uc. assert (length (ubits a) = length (ubits b)) as LL by congruence. clear -P LL. revert P LL. generalize (ubits a) (ubits b). intros x. revert l. induction x as [|x0 x IH]; intros l [|y0 y] P LL; try discriminate; [split; reflexivity|].
      cbn [combine] in P. inversion P as [|p r ps rs H0 H1]; subst. cbn [forallb]. intro C. apply Bool.andb_true_iff in C. destruct C as [C1 C2]. cbn [fst snd] in H0. destruct (H0 C1) as [-> ->]. injection LL as LL. destruct (IH rs y H1 LL C2) as [-> ->]. split; reflexivity. }
    split; [|exact C]. split; [split; [exact H|exact L]|]. intro E. destruct (C E) as [E1 E2]. destruct (G E1 E2) as [G1 G2]. apply AG2; assumption.
Qed.
Lemma fits_uxor' a a' b b' : RU a a' -> RU b b' -> fits (fun r r' => RU r r' /\ (uc r = true -> uc a = true /\ uc b = true)) (@u32_xor K a b) (u32_xor a' b').
Proof. intros [Ha Ga] [Hb Gb]. apply fits_uxor; auto. Qed.
Lemma fits_triop f g a a' b b' c c' : (forall x x' y y' z z', same_wire x x' -> same_wire y y' -> same_wire z z' -> fits same_wire (g x y z : M K boolean) (g x' y' z')) -> RL a a' -> RL b b' -> RL c c' ->
  fits (fun r r' => RL r r' /\ (AG a a' -> AG b b' -> AG c c' -> AG r r')) (@u32_triop K f g a b c) (u32_triop f g a' b' c').
Proof.
  intros Hg [Ha La] [Hb Lb] [Hc Lc]. unfold u32_triop. eapply fits_bind; [apply (fits_post K _ (Forall2 same_wire) (fun l => length (combine (combine (ubits a) (ubits b)) (ubits c)) = length l))|].
  - eapply fits_mapM; [|apply Forall2_combine; [apply Forall2_combine; [exact Ha|exact Hb]|exact Hc]]. intros [[x y] z] [[x' y'] z'] [[H1 H2] H3]. apply Hg; assumption.
  - intros s l t E. apply (mapM_post K _ _ _ (fun _ _ => True)) in E; [|intros; exact I]. exact (Forall2_length E).
  - intros l l' [H P]. apply fits_ret. rewrite !combine_length in P. split; [split; [exact H|cbn [ubits]; lia]|]. apply AG3.
Qed.
End W.

(** ** Packed equalities *)
Section Q.
Variable K : PFld.
Definition fitsM {A} (R : A -> A -> Prop) (m m' : MM K A) : Prop :=
  forall s s' q, same_shape s s' -> md s' = Setup -> forall a t q1, m (s, q) = Ok (a, (t, q1)) -> exists a' t', m' (s', q) = Ok (a', (t', q1)) /\ R a a' /\ same_shape t t' /\ md t' = Setup.
Lemma fitsM_ret A (R : A -> A -> Prop) a a' : R a a' -> fitsM R (@mret K A a) (mret a').
Proof. intros H s s' q S M x t q1 E. injection E as <- <- <-. exists a', s'. repeat (split; [first [reflexivity|assumption]|]). exact M. Qed.
Lemma fitsM_bind A B (RA : A -> A -> Prop) (RB : B -> B -> Prop) (m m' : MM K A) k k' : fitsM RA m m' -> (forall a a', RA a a' -> fitsM RB (k a) (k' a')) -> fitsM RB (mbind m k) (mbind m' k').
Proof.
  intros H1 H2 s s' q S M b t q1 E. unfold mbind in *. destruct (m (s, q)) as [[a [s1 q2]]| |] eqn:E1; try discriminate. destruct (H1 s s' q S M a s1 q2 E1) as (a' & s1' & -> & Ra & S1 & M1). exact (H2 a a' Ra s1 s1' q2 S1 M1 b t q1 E).
Qed.
Lemma fitsM_panic A (R : A -> A -> Prop) m : fitsM R (@mpanic K A) m. Proof. intros s s' q S M a t q1 E. discriminate. Qed.
Lemma fitsM_weaken A (R R' : A -> A -> Prop) (m m' : MM K A) : (forall a a', R a a' -> R' a a') -> fitsM R m m' -> fitsM R' m m'.
Proof. intros W H s s' q S M a t q1 E. destruct (H s s' q S M a t q1 E) as (a' & t' & X & Y & Z). exists a', t'. split; [exact X|]. split; [apply W, Y|exact Z]. Qed.
Lemma fitsM_lift A (R : A -> A -> Prop) (m m' : M K A) : fits R m m' -> fitsM R (lift m) (lift m').
Proof. intros H s s' q S M a t q1 E. unfold lift in *. destruct (m s) as [[x s1]| |] eqn:E1; try discriminate. injection E as <- <- <-. destruct (H s s' S M x s1 E1) as (a' & t' & -> & X). exists a', t'. split; [reflexivity|exact X]. Qed.
Lemma fitsM_accumulate : fitsM any (@meq_accumulate K) meq_accumulate.
Proof.
  intros s s' q S M a t q1 E. unfold meq_accumulate in *. destruct (enforce (qlhs q) (lc_add_var lc_zero ONE) (qrhs q) s) as [[x s1]| |] eqn:E1; try discriminate. injection E as <- <- <-. destruct (fits_enforce K _ _ _ s s' S M x s1 E1) as (a' & t' & -> & _ & X). exists tt, t'. split; [reflexivity|]. split; [exact I|exact X].
Qed.
Lemma fitsM_enforce n l r : fitsM any (@meq_enforce_equal K n l r) (meq_enforce_equal n l r).
Proof.
  unfold meq_enforce_equal. eapply fitsM_bind.
  - intros s s' q S M a t q1 E. cbn [snd] in *. destruct (_ <=? _)%Z; [exact (fitsM_accumulate s s' q S M a t q1 E)|]. injection E as <- <- <-. exists tt, s'. split; [reflexivity|]. split; [exact I|]. split; assumption.
  - intros _ _ _ s s' q S M a t q1 E. destruct (_ <? _)%Z; [|discriminate]. injection E as <- <- <-. exists tt, s'. split; [reflexivity|]. split; [exact I|]. split; assumption.
Qed.
Lemma fitsM_drop : fitsM any (@meq_drop K) meq_drop.
Proof. intros s s' q S M a t q1 E. unfold meq_drop in *. cbn [snd] in *. destruct (Nat.ltb _ _); [exact (fitsM_accumulate s s' q S M a t q1 E)|]. injection E as <- <- <-. exists tt, s'. split; [reflexivity|]. split; [exact I|]. split; assumption. Qed.
Lemma fits_with_multieq A (R : A -> A -> Prop) (m m' : MM K A) : fitsM R m m' -> fits R (with_multieq m) (with_multieq m').
Proof.
  intros H s s' S M a t E. assert (fitsM R (mbind m (fun a => mbind meq_drop (fun _ => mret a))) (mbind m' (fun a => mbind meq_drop (fun _ => mret a)))) as Q. { eapply fitsM_bind; [exact H|]. intros x x' X. eapply fitsM_bind; [apply fitsM_drop|]. intros. apply fitsM_ret, X. }
  unfold with_multieq in *. destruct (mbind m _ (s, meq_new)) as [[x [s1 q1]]| |] eqn:E1; try discriminate. injection E as <- <-. destruct (Q s s' meq_new S M x s1 q1 E1) as (a' & t' & -> & X). exists a', t'. split; [reflexivity|exact X].
Qed.

Lemma lc_add_bits_fits bs bs' : Forall2 same_wire bs bs' -> forall l c, @lc_add_bits K l c bs = lc_add_bits l c bs'.
Proof. induction 1 as [|b b' bs bs' H F IH]; intros l c; [reflexivity|]. cbn [lc_add_bits]. rewrite (wire_lc K b b' c H). apply IH. Qed.
Definition sumv (ops : list u32) (acc : option Z) : option Z := fold_left (fun acc op => zlift2 Z.add acc (uval op)) ops acc.
Lemma sumv_agree ops ops' : Forall2 AG ops ops' -> forall z, exists v, sumv ops (Some z) = Some v /\ sumv ops' (Some z) = Some v.
Proof. induction 1 as [|u u' l l' (v & E & E') F IH]; intro z; [exists z; split; reflexivity|]. unfold sumv in *. cbn [fold_left]. rewrite E, E'. cbn [zlift2]. apply IH. Qed.
Lemma shift_steps_32 n : (2 <= n)%nat -> (n <= 10)%nat -> (32 <= shift_steps 64 (Z.of_nat n * (2 ^ 32 - 1)))%nat.
Proof. intros H1 H2. do 11 (destruct n as [|n]; [try lia; apply Nat.leb_le; vm_compute; reflexivity|]). lia. Qed.
(** Adding words: operands on the same wires, with equal known values if they are all constant. *)
Lemma fits_addmany ops ops' : Forall2 RW ops ops' -> (forallb uc ops = true -> Forall2 AG ops ops') -> fitsM (fun r r' => RU r r' /\ uc r = forallb uc ops) (@u32_addmany K ops) (u32_addmany ops').
Proof.
  intros H G. pose proof (Forall2_length H) as L. unfold u32_addmany. rewrite <- L. destruct (modulus_bits K <? 64)%Z; [apply fitsM_panic|]. destruct (Nat.ltb_spec (length ops) 2) as [|L2]; [apply fitsM_panic|]. destruct (Nat.ltb_spec 10 (length ops)) as [|L10]; [apply fitsM_panic|].
  assert (forallb (fun op => forallb b_is_const (ubits op)) ops = forallb uc ops) as -> by reflexivity. assert (forallb (fun op => forallb b_is_const (ubits op)) ops' = forallb uc ops) as ->. { clear -H. induction H as [|u u' l l' W F IH]; [reflexivity|]. cbn [forallb]. fold (uc u'). rewrite IH, <- (RW_uc _ _ W). reflexivity. }
  assert (forall l, fold_left (fun (l : lc K) op => lc_add_bits l 1 (ubits op)) ops l = fold_left (fun l op => lc_add_bits l 1 (ubits op)) ops' l) as LC. { clear -H. induction H as [|u u' l l' W F IH]; intro z; [reflexivity|]. cbn [fold_left]. rewrite (lc_add_bits_fits _ _ W). apply IH. }
  fold (sumv ops (Some 0%Z)). fold (sumv ops' (Some 0%Z)). destruct (forallb uc ops) eqn:C.
  - destruct (sumv_agree ops ops' (G eq_refl) 0) as (v & -> & ->). cbn [option_map]. apply fitsM_ret. split; [apply RU_const|apply uc_const].
  - assert (forall X, match sumv ops X with Some _ | None => True end) as _ by (intro X; destruct (sumv ops X); exact I). rewrite LC. pose proof (shift_steps_32 (length ops) L2 L10) as N. set (n := shift_steps 64 _) in *. clearbody n. eapply fitsM_bind.
    + apply fitsM_lift. apply (fits_post K _ (Forall2 same_bit) (fun l => length l = n)); [apply (fits_mapM _ _ _ any same_bit); [intros; apply fits_bit_alloc|apply Forall2_any; reflexivity]|]. intros s l t E. apply (mapM_post K _ _ _ (fun _ _ => True)) in E; [|intros; exact I]. apply Forall2_length in E. rewrite seq_length in E. congruence.
    + intros l l' [F Ln]. assert (map bvar l = map bvar l') as -> by (clear -F; induction F as [|x y l l' E F IH]; [reflexivity|cbn [map]; rewrite E, IH; reflexivity]). eapply fitsM_bind; [apply fitsM_enforce|]. intros _ _ _. apply fitsM_ret.
      assert (uc (mkU (firstn 32 (map BIs l)) (option_map (fun v => v mod 2 ^ 32)%Z (sumv ops (Some 0%Z)))) = false) as U by (destruct l; [exfalso; cbn [length] in Ln; clear -Ln N; lia|reflexivity]).
      split; [|exact U]. split; [split; [apply Forall2_firstn, map_wires, F|cbn [ubits]; rewrite firstn_length, map_length, Ln; lia]|]. rewrite U. discriminate.
Qed.
End Q.
Arguments fitsM {K A}.
