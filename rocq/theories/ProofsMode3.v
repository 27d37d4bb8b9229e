(** The same constraints with and without witnesses: SHA-256, BLAKE2s; and where this fails. *)
From Verif Require Import Field ModelLC ModelCS ModelBoolean ModelUint32 ModelOperator ModelSha256 ModelBlake2s SpecMode ProofsMode ProofsMode2.
Local Open Scope fld_scope.
Section S.
Variable K : PFld.
Lemma RU_RW u u' : RU u u' -> RW u u'. Proof. intros [[H _] _]. exact H. Qed.
Lemma RU_AG u u' : RU u u' -> uc u = true -> AG u u'. Proof. intros [_ H]. exact H. Qed.
Lemma RUs_RW l l' : Forall2 RU l l' -> Forall2 RW l l'. Proof. induction 1; constructor; [apply RU_RW|]; assumption. Qed.
Lemma RUs_AG l l' : Forall2 RU l l' -> forallb uc l = true -> Forall2 AG l l'.
Proof. induction 1 as [|u u' l l' H F IH]; intro C; constructor; cbn [forallb] in C; apply Bool.andb_true_iff in C; destruct C as [C1 C2]; [apply RU_AG; assumption|apply IH; assumption]. Qed.
Lemma fits_addmany' ops ops' : Forall2 RU ops ops' -> fitsM (fun r r' => RU r r' /\ uc r = forallb uc ops) (@u32_addmany K ops) (u32_addmany ops').
Proof. intro H. apply fits_addmany; [apply RUs_RW, H|apply RUs_AG, H]. Qed.
Definition RMb (m m' : maybe) : Prop :=
  match m, m' with Deferred v, Deferred v' => Forall2 RW v v' /\ (forallb uc v = true -> Forall2 AG v v') | Concrete v, Concrete v' => RU v v' | _, _ => False end.
Definition mc (m : maybe) : bool := match m with Deferred v => forallb uc v | Concrete v => uc v end.
Definition isdef (m : maybe) : Prop := match m with Deferred _ => True | _ => False end.
Lemma fits_compute m m' : RMb m m' -> fitsM (fun r r' => RU r r' /\ uc r = mc m) (@maybe_compute K m []) (maybe_compute m' []).
Proof.
  destruct m, m'; cbn [RMb]; try contradiction; intro H; cbn [maybe_compute mc]; [|apply fitsM_ret; split; [exact H|reflexivity]]. rewrite !app_nil_r. apply fits_addmany; apply H.
Qed.
Lemma fits_compute1 m m' c c' : RMb m m' -> isdef m -> RU c c' -> fitsM (fun r r' => RU r r' /\ (uc r = true <-> mc m = true /\ uc c = true)) (@maybe_compute K m [c]) (maybe_compute m' [c']).
Proof.
  destruct m, m'; cbn [RMb isdef]; try contradiction; intros [H1 H2] _ Hc; cbn [maybe_compute mc]. eapply fitsM_weaken; [|apply fits_addmany].
  - cbv beta. intros r r' [A B]. split; [exact A|]. rewrite B, forallb_app. cbn [forallb]. rewrite Bool.andb_true_r. apply Bool.andb_true_iff.
  - apply Forall2_app; [exact H1|]. constructor; [apply RU_RW, Hc|constructor].
  - rewrite forallb_app. cbn [forallb]. rewrite Bool.andb_true_r. intro C. apply Bool.andb_true_iff in C. destruct C as [C1 C2]. apply Forall2_app; [apply H2, C1|]. constructor; [apply RU_AG; assumption|constructor].
Qed.
Lemma fitsM_xor a a' b b' : RU a a' -> RU b b' -> fitsM (fun r r' => RU r r' /\ (uc r = true -> uc a = true /\ uc b = true)) (lift (@u32_xor K a b)) (lift (u32_xor a' b')).
Proof. intros Ha Hb. apply fitsM_lift, fits_uxor'; assumption. Qed.
Lemma Forall2_nth_error A (R : A -> A -> Prop) l l' : Forall2 R l l' -> forall i, match nth_error l i, nth_error l' i with Some x, Some y => R x y | None, None => True | _, _ => False end.
Proof. induction 1; intros [|i]; cbn [nth_error]; try exact I; [assumption|apply IHForall2]. Qed.
Lemma fits_extend n : forall i w w', Forall2 RU w w' -> fitsM (Forall2 RU) (@sha_extend K n i w) (sha_extend n i w').
Proof.
  induction n as [|n IH]; intros i w w' H; cbn [sha_extend]; [apply fitsM_ret, H|]. pose proof (Forall2_nth_error _ _ _ _ H) as Q. pose proof (Q (i - 15)%nat) as Q15. pose proof (Q (i - 2)%nat) as Q2. pose proof (Q (i - 16)%nat) as Q16. pose proof (Q (i - 7)%nat) as Q7. clear Q.
  destruct (nth_error w (i - 15)) as [w15|], (nth_error w' (i - 15)) as [w15'|]; try contradiction; [|apply fitsM_panic]. destruct (nth_error w (i - 2)) as [w2|], (nth_error w' (i - 2)) as [w2'|]; try contradiction; [|apply fitsM_panic].
  destruct (nth_error w (i - 16)) as [w16|], (nth_error w' (i - 16)) as [w16'|]; try contradiction; [|apply fitsM_panic]. destruct (nth_error w (i - 7)) as [w7|], (nth_error w' (i - 7)) as [w7'|]; try contradiction; [|apply fitsM_panic].
  eapply fitsM_bind; [apply fitsM_xor; apply RU_rotr, Q15|]. intros s0 s0' [R0 C0]. rewrite !(proj2 (RL_rotr w15 w15' _ (proj1 Q15))) in C0.
  eapply fitsM_bind; [apply fitsM_lift, fits_uxor; [exact (proj1 R0)|apply RL_shr, (proj1 Q15)|]|].
  { intros E _. split; [apply RU_AG; assumption|]. apply AG_shr, RU_AG; [exact Q15|]. apply C0, E. }
  intros t0 t0' [T0 _]. eapply fitsM_bind; [apply fitsM_xor; apply RU_rotr, Q2|]. intros s1 s1' [R1 C1]. rewrite !(proj2 (RL_rotr w2 w2' _ (proj1 Q2))) in C1.
  eapply fitsM_bind; [apply fitsM_lift, fits_uxor; [exact (proj1 R1)|apply RL_shr, (proj1 Q2)|]|].
  { intros E _. split; [apply RU_AG; assumption|]. apply AG_shr, RU_AG; [exact Q2|]. apply C1, E. }
  intros t1 t1' [T1 _]. eapply fitsM_bind; [apply fits_addmany'; repeat (constructor; [assumption|]); constructor|]. intros r r' [R _]. apply IH. apply Forall2_app; [exact H|]. constructor; [exact R|constructor].
Qed.
Definition RSt (s s' : shast) : Prop := RMb (va s) (va s') /\ RU (vb s) (vb s') /\ RU (vc s) (vc s') /\ RU (vd s) (vd s') /\ RMb (ve s) (ve s') /\ RU (vf s) (vf s') /\ RU (vg s) (vg s') /\ RU (vh s) (vh s').
Definition chain (s : shast) : Prop := (mc (va s) = true -> uc (vb s) = true) /\ (uc (vb s) = true -> uc (vc s) = true) /\ (uc (vc s) = true -> uc (vd s) = true) /\ (mc (ve s) = true -> uc (vf s) = true) /\ (uc (vf s) = true -> uc (vg s) = true) /\ (uc (vg s) = true -> uc (vh s) = true).
Definition QSt (s s' : shast) : Prop := RSt s s' /\ chain s.
Lemma sigma3 u u' a b c : RU u u' -> forall B (RB : B -> B -> Prop) (k k' : u32 -> MM K B), (forall r r', RU r r' -> (uc r = true -> uc u = true) -> fitsM RB (k r) (k' r')) ->
  fitsM RB (s <~ lift (u32_xor (u32_rotr u a) (u32_rotr u b)) ;; r <~ lift (u32_xor s (u32_rotr u c)) ;; k r) (s <~ lift (u32_xor (u32_rotr u' a) (u32_rotr u' b)) ;; r <~ lift (u32_xor s (u32_rotr u' c)) ;; k' r).
Proof.
  intros H B RB k k' Hk. eapply fitsM_bind; [apply fitsM_xor; apply RU_rotr, H|]. intros s s' [Rs Cs]. rewrite !(proj2 (RL_rotr u u' _ (proj1 H))) in Cs. eapply fitsM_bind; [apply fitsM_xor; [exact Rs|apply RU_rotr, H]|]. intros r r' [R C]. apply Hk; [exact R|]. intro E. apply Cs, C, E.
Qed.
Lemma fits_round s s' k w w' : QSt s s' -> RU w w' -> fitsM (fun r r' => QSt r r' /\ isdef (va r) /\ isdef (ve r)) (@sha_round K s k w) (sha_round s' k w').
Proof.
  intros [(Ra & Rb & Rc & Rd & Re & Rf & Rg & Rh) (Cab & Cbc & Ccd & Cef & Cfg & Cgh)] Hw. unfold sha_round. eapply fitsM_bind; [apply fits_compute, Re|]. intros e e' [He Ue]. rewrite <- Ue in Cef.
  eapply (sigma3 e e'); [exact He|]. intros s1 s1' R1 C1. eapply fitsM_bind; [apply fitsM_lift; eapply fits_triop; [intros; apply fits_ch; assumption|exact (proj1 He)|exact (proj1 Rf)|exact (proj1 Rg)]|]. intros ch ch' [Rch Ach].
  eapply fitsM_bind; [apply fits_compute, Ra|]. intros a a' [Ha Ua]. rewrite <- Ua in Cab. eapply (sigma3 a a'); [exact Ha|]. intros s0 s0' R0 C0. eapply fitsM_bind; [apply fitsM_lift; eapply fits_triop; [intros; apply fits_maj; assumption|exact (proj1 Ha)|exact (proj1 Rb)|exact (proj1 Rc)]|]. intros mj mj' [Rmj Amj].
  apply fitsM_ret. assert (uc e = true -> AG ch ch') as Gch by (intro E; apply Ach; apply RU_AG; auto). assert (uc a = true -> AG mj mj') as Gmj by (intro E; apply Amj; apply RU_AG; auto).
  pose proof (RU_const k) as Rk. split; [split|].
  - unfold RSt. cbn [va vb vc vd ve vf vg vh]. refine (conj _ (conj Ha (conj Rb (conj Rc (conj _ (conj He (conj Rf Rg))))))).
    + cbn [RMb]. split; [repeat (constructor; [first [apply RU_RW; assumption|exact (proj1 Rch)|exact (proj1 Rmj)]|]); constructor|]. cbn [app forallb]. intro C. repeat (apply Bool.andb_true_iff in C; let X := fresh "X" in destruct C as [X C]).
      repeat (constructor; [first [apply RU_AG; assumption|apply Gch, C1; assumption|apply Gmj, C0; assumption]|]). constructor.
    + cbn [RMb]. split; [repeat (constructor; [first [apply RU_RW; assumption|exact (proj1 Rch)|exact (proj1 Rmj)]|]); constructor|]. cbn [app forallb]. intro C. repeat (apply Bool.andb_true_iff in C; let X := fresh "X" in destruct C as [X C]).
      repeat (constructor; [first [apply RU_AG; assumption|apply Gch, C1; assumption|apply Gmj, C0; assumption]|]). constructor.
  - unfold chain. cbn [va vb vc vd ve vf vg vh mc app forallb]. repeat apply conj; try assumption.
    + intro C. repeat (apply Bool.andb_true_iff in C; let X := fresh "X" in destruct C as [X C]). apply C0. assumption.
    + intro C. repeat (apply Bool.andb_true_iff in C; let X := fresh "X" in destruct C as [X C]). apply C1. assumption.
  - split; exact I.
Qed.
Lemma fits_rounds kw : forall kw' s s', Forall2 (fun p p' => fst p = fst p' /\ RU (snd p) (snd p')) kw kw' -> QSt s s' -> fitsM (fun r r' => QSt r r' /\ ((isdef (va s) /\ isdef (ve s)) \/ kw <> [] -> isdef (va r) /\ isdef (ve r))) (@sha_rounds K kw s) (sha_rounds kw' s').
Proof.
  induction kw as [|[k w] kw IH]; intros kw' s s' H R; inversion H as [|? [k' w'] ? ? [H1 H2] H3]; subst; cbn [sha_rounds]; [apply fitsM_ret; split; [exact R|intros [X|X]; [exact X|contradiction]]|]. cbn [fst snd] in H1, H2. subst k'.
  eapply fitsM_bind; [apply fits_round; eassumption|]. intros r r' [Rr [D1 D2]]. eapply fitsM_weaken; [|apply IH; eassumption]. intros x x' [Q D]. split; [exact Q|]. intros _. apply D. left. split; assumption.
Qed.
(** The chaining value: constant words stay at the end of each half. *)
Definition RCur (c c' : list u32) : Prop := Forall2 RU c c' /\ forall c0 c1 c2 c3 c4 c5 c6 c7, c = [c0; c1; c2; c3; c4; c5; c6; c7] ->
  (uc c0 = true -> uc c1 = true) /\ (uc c1 = true -> uc c2 = true) /\ (uc c2 = true -> uc c3 = true) /\ (uc c4 = true -> uc c5 = true) /\ (uc c5 = true -> uc c6 = true) /\ (uc c6 = true -> uc c7 = true).
Lemma fits_lift_res' A (R : A -> A -> Prop) (r r' : res A) : (forall a, r = Ok a -> exists a', r' = Ok a' /\ R a a') -> fits R (@lift_res K A r) (lift_res r').
Proof. intro H. destruct r as [a| |]; cbn [lift_res]; [|apply fits_fail|apply fits_panic]. destruct (H a eq_refl) as (a' & -> & X). apply fits_ret, X. Qed.
Lemma res_map_fits A B (RA : A -> A -> Prop) (RB : B -> B -> Prop) (f : A -> res B) l l' : (forall a a' b, RA a a' -> f a = Ok b -> exists b', f a' = Ok b' /\ RB b b') -> Forall2 RA l l' -> forall bs, res_map f l = Ok bs -> exists bs', res_map f l' = Ok bs' /\ Forall2 RB bs bs'.
Proof.
  intros H F. induction F as [|a a' l l' Ra F IH]; intros bs E; cbn [res_map] in *; [injection E as <-; exists []; split; [reflexivity|constructor]|]. destruct (f a) as [b| |] eqn:Eb; try discriminate. cbn [rbind] in E. destruct (res_map f l) as [bs0| |] eqn:El; try discriminate. injection E as <-.
  destruct (H a a' b Ra Eb) as (b' & -> & Rb). destruct (IH bs0 eq_refl) as (bs' & -> & Rs). cbn [rbind]. eexists. split; [reflexivity|]. constructor; assumption.
Qed.
Lemma chunks_fits A (R : A -> A -> Prop) n l l' : Forall2 R l l' -> Forall2 (Forall2 R) (chunks n l) (chunks n l').
Proof. intro H. unfold chunks. rewrite (Forall2_length H). induction (seq 0 ((length l' + n - 1) / n)) as [|i s IH]; cbn [map]; constructor; [apply Forall2_firstn, Forall2_skipn, H|exact IH]. Qed.
Lemma fits_compression inp inp' cur cur' : Forall2 same_wire inp inp' -> RCur cur cur' -> fits RCur (@sha256_compression K inp cur) (sha256_compression inp' cur').
Proof.
  intros Hi [Hc Ch]. unfold sha256_compression. rewrite <- (Forall2_length Hi). destruct (negb (Nat.eqb (length inp) 512)); [apply fits_panic|].
  do 8 (destruct Hc as [|? ? ? ? ? Hc]; [apply fits_panic|]). destruct Hc; [|apply fits_panic]. specialize (Ch _ _ _ _ _ _ _ _ eq_refl). rename x into c0, x0 into c1, x1 into c2, x2 into c3, x3 into c4, x4 into c5, x5 into c6, x6 into c7. destruct Ch as (Ch0 & Ch1 & Ch2 & Ch4 & Ch5 & Ch6).
  eapply fits_bind; [apply (fits_lift_res' _ (Forall2 RU)); intros a E; eapply res_map_fits; [|apply chunks_fits, Hi|exact E]; intros b b' u F G; exact (from_bits_be_fits b b' u F G)|]. intros w w' Hw. apply fits_with_multieq.
  eapply fitsM_bind; [apply fits_extend, Hw|]. intros v v' Hv. rewrite <- (Forall2_length Hv). destruct (Nat.eqb_spec (length v) 64) as [Lv|]; cbn [negb]; [|apply fitsM_panic].
  eapply fitsM_bind. { apply (fits_rounds (combine sha_k v)).
    - assert (Forall2 (fun p p' : Z * u32 => fst p = fst p' /\ RU (snd p) (snd p')) (combine sha_k v) (combine sha_k v')) as Q; [|exact Q]. generalize sha_k. clear -Hv. intro ks. revert v v' Hv. induction ks as [|k ks IH]; intros v v' Hv; [constructor|]. destruct Hv; cbn [combine]; constructor; [split; [reflexivity|assumption]|apply IH; assumption].
    - split; [repeat (split; [assumption|]); assumption|]. unfold chain. cbn [va vb vc vd ve vf vg vh mc]. repeat apply conj; assumption. }
  intros st st' [[(Ra & Rb & Rc & Rd & Re & Rf & Rg & Rh) (Cab & Cbc & Ccd & Cef & Cfg & Cgh)] D]. destruct D as [Da De]; [right; destruct v; [discriminate Lv|]; unfold sha_k; cbn [combine]; discriminate|].
  eapply fitsM_bind; [apply fits_compute1; eassumption|]. intros h0 h0' [R0 U0]. do 3 (eapply fitsM_bind; [apply fits_addmany'; repeat (constructor; [eassumption|]); constructor|]; let h := fresh "h" in intros h ? [? ?]).
  eapply fitsM_bind; [apply fits_compute1; eassumption|]. intros h4 h4' [R4 U4]. do 3 (eapply fitsM_bind; [apply fits_addmany'; repeat (constructor; [eassumption|]); constructor|]; let h := fresh "h" in intros h ? [? ?]).
  apply fitsM_ret. split; [repeat (constructor; [assumption|]); constructor|]. intros e0 e1 e2 e3 e4 e5 e6 e7 E. injection E as <- <- <- <- <- <- <- <-.
  repeat match goal with H : uc ?r = forallb uc [?a; ?b] |- _ => assert (uc r = true <-> uc a = true /\ uc b = true) by (rewrite H; cbn [forallb]; rewrite Bool.andb_true_r; apply Bool.andb_true_iff); clear H end. tauto.
Qed.
Lemma flat_map_wires f : (forall u u', RU u u' -> Forall2 same_wire (f u) (f u')) -> forall l l', Forall2 RU l l' -> Forall2 same_wire (flat_map f l) (flat_map f l').
Proof. intros H l l' F. induction F; [constructor|]. cbn [flat_map]. apply Forall2_app; [apply H; assumption|assumption]. Qed.
Lemma RCur_iv : RCur get_sha256_iv get_sha256_iv.
Proof.
  split; [unfold get_sha256_iv; generalize sha_iv; induction l; constructor; [apply RU_const|assumption]|]. intros c0 c1 c2 c3 c4 c5 c6 c7 E. unfold get_sha256_iv, sha_iv in E. cbn [map] in E. injection E as <- <- <- <- <- <- <- <-. repeat apply conj; intros _; apply uc_const.
Qed.
Lemma fits_sha_blocks bl : forall bl' cur cur', Forall2 (Forall2 same_wire) bl bl' -> RCur cur cur' -> fits RCur (@sha_blocks K bl cur) (sha_blocks bl' cur').
Proof. induction bl as [|b bl IH]; intros bl' cur cur' H R; inversion H; subst; cbn [sha_blocks]; [apply fits_ret, R|]. eapply fits_bind; [apply fits_compression; eassumption|]. intros. apply IH; assumption. Qed.
Lemma pad_zeros_fits n : forall l l', Forall2 same_wire l l' -> Forall2 same_wire (pad_zeros n l) (pad_zeros n l').
Proof. induction n as [|n IH]; intros l l' H; cbn [pad_zeros]; [exact H|]. rewrite (Forall2_length H). destruct (Nat.eqb _ _); [exact H|]. apply IH, Forall2_app; [exact H|]. constructor; [reflexivity|constructor]. Qed.
Lemma fits_sha256 inp inp' : Forall2 same_wire inp inp' -> fits (Forall2 same_wire) (@sha256 K inp) (sha256 inp').
Proof.
  intro H. unfold sha256. pose proof (Forall2_length H) as L. rewrite <- L. destruct (negb (Nat.eqb (length inp mod 8) 0)); [apply fits_panic|].
  assert (Forall2 same_wire (pad_zeros 512 (inp ++ [BConst true]) ++ map (fun i => BConst (Z.testbit (Z.of_nat (length inp)) (Z.of_nat i))) (rev (seq 0 64))) (pad_zeros 512 (inp' ++ [BConst true]) ++ map (fun i => BConst (Z.testbit (Z.of_nat (length inp)) (Z.of_nat i))) (rev (seq 0 64)))) as P.
  { apply Forall2_app; [apply pad_zeros_fits, Forall2_app; [exact H|constructor; [reflexivity|constructor]]|]. apply Forall2_refl, wire_refl. }
  rewrite <- (Forall2_length P). destruct (negb _); [apply fits_panic|]. eapply fits_bind; [apply fits_sha_blocks; [apply chunks_fits, P|apply RCur_iv]|]. intros c c' [Hc _]. apply fits_ret, flat_map_wires; [|exact Hc]. intros u u' R. apply Forall2_rev, R.
Qed.
Lemma fits_sha_block inp inp' : Forall2 same_wire inp inp' -> fits (Forall2 same_wire) (@sha256_block_no_padding K inp) (sha256_block_no_padding inp').
Proof.
  intro H. unfold sha256_block_no_padding. rewrite <- (Forall2_length H). destruct (negb _); [apply fits_panic|]. eapply fits_bind; [apply fits_compression; [exact H|apply RCur_iv]|]. intros c c' [Hc _]. apply fits_ret, flat_map_wires; [|exact Hc]. intros u u' R. apply Forall2_rev, R.
Qed.

(** ** BLAKE2s *)
Lemma fits_getM v v' i : Forall2 RU v v' -> fitsM RU (@getM K _ v i) (getM v' i).
Proof. intro H. pose proof (Forall2_nth_error _ _ _ _ H i) as Q. unfold getM. destruct (nth_error v i), (nth_error v' i); try contradiction; [apply fitsM_ret, Q|apply fitsM_panic]. Qed.
Lemma set_nth_fits A (R : A -> A -> Prop) l l' x x' : Forall2 R l l' -> R x x' -> forall i, Forall2 R (set_nth l i x) (set_nth l' i x').
Proof. intros H X. induction H; intros [|i]; cbn [set_nth]; constructor; auto. Qed.
Lemma fits_add_line v v' i j e e' : Forall2 RU v v' -> Forall2 RU e e' -> fitsM (Forall2 RU) (@add_line K v i j e) (add_line v' i j e').
Proof.
  intros H He. unfold add_line. eapply fitsM_bind; [apply fits_getM, H|]. intros a a' Ha. eapply fitsM_bind; [apply fits_getM, H|]. intros b b' Hb. eapply fitsM_bind; [apply fits_addmany'; constructor; [exact Ha|constructor; [exact Hb|exact He]]|]. intros t t' [T _]. apply fitsM_ret, set_nth_fits; assumption.
Qed.
Lemma fits_xor_line v v' i j n : Forall2 RU v v' -> fitsM (Forall2 RU) (@xor_line K v i j n) (xor_line v' i j n).
Proof. intro H. unfold xor_line. eapply fitsM_bind; [apply fits_getM, H|]. intros a a' Ha. eapply fitsM_bind; [apply fits_getM, H|]. intros b b' Hb. eapply fitsM_bind; [apply fitsM_xor; eassumption|]. intros t t' [T _]. apply fitsM_ret, set_nth_fits; [exact H|]. apply RU_rotr, T. Qed.
Lemma fits_mixing v v' a b c d x x' y y' : Forall2 RU v v' -> RU x x' -> RU y y' -> fitsM (Forall2 RU) (@mixing_g K v a b c d x y) (mixing_g v' a b c d x' y').
Proof.
  intros H Hx Hy. unfold mixing_g. eapply fitsM_bind; [apply fits_add_line; [exact H|constructor; [exact Hx|constructor]]|intros ? ? ?]. eapply fitsM_bind; [apply fits_xor_line; eassumption|intros ? ? ?]. eapply fitsM_bind; [apply fits_add_line; [eassumption|constructor]|intros ? ? ?]. eapply fitsM_bind; [apply fits_xor_line; eassumption|intros ? ? ?].
  eapply fitsM_bind; [apply fits_add_line; [eassumption|constructor; [exact Hy|constructor]]|intros ? ? ?]. eapply fitsM_bind; [apply fits_xor_line; eassumption|intros ? ? ?]. eapply fitsM_bind; [apply fits_add_line; [eassumption|constructor]|intros ? ? ?]. apply fits_xor_line; assumption.
Qed.
Lemma fits_mix_calls ps : forall s m m' v v', Forall2 RU m m' -> Forall2 RU v v' -> fitsM (Forall2 RU) (@mix_calls K ps s m v) (mix_calls ps s m' v').
Proof.
  induction ps as [|[[[a b] c] d] ps IH]; intros s m m' v v' Hm Hv; cbn [mix_calls]; [apply fitsM_ret, Hv|]. destruct s as [|i [|j s]]; try apply fitsM_panic. eapply fitsM_bind; [apply fits_getM, Hm|intros ? ? ?]. eapply fitsM_bind; [apply fits_getM, Hm|intros ? ? ?]. eapply fitsM_bind; [apply fits_mixing; eassumption|intros ? ? ?]. apply IH; assumption.
Qed.
Lemma fits_mix_rounds ss : forall m m' v v', Forall2 RU m m' -> Forall2 RU v v' -> fitsM (Forall2 RU) (@mix_rounds K ss m v) (mix_rounds ss m' v').
Proof. induction ss as [|s ss IH]; intros m m' v v' Hm Hv; cbn [mix_rounds]; [apply fitsM_ret, Hv|]. eapply fitsM_bind; [apply fits_mix_calls; eassumption|intros ? ? ?]. apply IH; assumption. Qed.
Lemma fits_xor0 a a' b b' : RU a a' -> RU b b' -> fits RU (@u32_xor K a b) (u32_xor a' b').
Proof. intros Ha Hb. eapply fits_weaken; [|apply fits_uxor'; eassumption]. intros r r' [R _]. exact R. Qed.
Lemma fits_b2_compression h h' m m' t f : Forall2 RU h h' -> Forall2 RU m m' -> fits (Forall2 RU) (@blake2s_compression K h m t f) (blake2s_compression h' m' t f).
Proof.
  intros Hh Hm. unfold blake2s_compression. rewrite <- (Forall2_length Hh), <- (Forall2_length Hm). destruct (negb _); [apply fits_panic|]. destruct (negb _); [apply fits_panic|]. unfold b2_iv. cbn [map].
  eapply fits_bind; [apply fits_xor0; apply RU_const|intros ? ? ?]. eapply fits_bind; [apply fits_xor0; apply RU_const|intros ? ? ?]. eapply fits_bind; [destruct f; [apply fits_xor0; apply RU_const|apply fits_ret, RU_const]|intros ? ? ?].
  eapply fits_bind; [apply fits_with_multieq, fits_mix_rounds; [exact Hm|apply Forall2_app; [exact Hh|repeat (constructor; [first [apply RU_const|assumption]|]); constructor]]|]. intros v v' Hv.
  eapply fits_mapM; [|apply Forall2_combine; [apply Forall2_combine; [exact Hh|apply Forall2_firstn, Hv]|apply Forall2_skipn, Hv]]. intros [[x y] z] [[x' y'] z'] [[Q1 Q2] Q3]. cbn [fst snd] in Q1, Q2, Q3. eapply fits_bind; [apply fits_xor0; eassumption|]. intros. apply fits_xor0; assumption.
Qed.
Lemma repeat_fits A (R : A -> A -> Prop) a n : R a a -> Forall2 R (repeat a n) (repeat a n).
Proof. intro H. induction n; cbn [repeat]; constructor; assumption. Qed.
Lemma b2_block_fits b b' ws : Forall2 same_wire b b' -> b2_block b = Ok ws -> exists ws', b2_block b' = Ok ws' /\ Forall2 RU ws ws'.
Proof.
  intros H E. unfold b2_block in *. destruct (res_map b2_word (chunks 32 b)) as [x| |] eqn:E1; try discriminate. injection E as <-. destruct (res_map_fits _ _ (Forall2 same_wire) RU b2_word (chunks 32 b) (chunks 32 b')) with (bs := x) as (x' & -> & F); [|apply chunks_fits, H|exact E1|].
  - intros w w' u Hw Eu. unfold b2_word in *. rewrite <- (Forall2_length Hw). eapply from_bits_fits; [|exact Eu]. apply Forall2_app; [exact Hw|apply Forall2_refl, wire_refl].
  - cbn [rbind]. eexists. split; [reflexivity|]. rewrite <- (Forall2_length F). apply Forall2_app; [exact F|]. apply repeat_fits, RU_const.
Qed.
Lemma fits_b2_loop bl : forall i bl' h h', Forall2 (Forall2 RU) bl bl' -> Forall2 RU h h' -> fits (Forall2 RU) (@b2_loop K i bl h) (b2_loop i bl' h').
Proof. induction bl as [|b bl IH]; intros i bl' h h' H Hh; inversion H; subst; cbn [b2_loop]; [apply fits_ret, Hh|]. eapply fits_bind; [apply fits_b2_compression; eassumption|intros ? ? ?]. apply IH; assumption. Qed.
Lemma Forall2_removelast A (R : A -> A -> Prop) l l' : Forall2 R l l' -> Forall2 R (removelast l) (removelast l').
Proof. induction 1 as [|a a' l l' H F IH]; [constructor|]. destruct F; cbn [removelast] in *; [constructor|]. constructor; assumption. Qed.
Lemma Forall2_last A (R : A -> A -> Prop) l l' d d' : Forall2 R l l' -> R d d' -> R (last l d) (last l' d').
Proof. intros F Hd. induction F as [|a a' l l' H F IH]; [exact Hd|]. destruct F; cbn [last] in *; [exact H|exact IH]. Qed.
Lemma fits_blake2s inp inp' pers : Forall2 same_wire inp inp' -> fits (Forall2 same_wire) (@blake2s K inp pers) (blake2s inp' pers).
Proof.
  intro H. unfold blake2s. rewrite <- (Forall2_length H). destruct (negb _); [apply fits_panic|]. destruct (negb _); [apply fits_panic|].
  eapply fits_bind; [apply (fits_lift_res' _ (Forall2 (Forall2 RU))); intros a E; eapply res_map_fits; [|apply chunks_fits, H|exact E]; intros b b' u F G; exact (b2_block_fits b b' u F G)|]. intros bl bl' F.
  assert (Forall2 (Forall2 RU) (match bl with [] => [repeat (u32_constant 0) 16] | _ => bl end) (match bl' with [] => [repeat (u32_constant 0) 16] | _ => bl' end)) as B by (destruct F; [constructor; [apply repeat_fits, RU_const|constructor]|constructor; assumption]).
  eapply fits_bind; [apply fits_b2_loop; [apply Forall2_removelast, B|cbn [map]; repeat (constructor; [apply RU_const|]); constructor]|intros h h' Hh]. eapply fits_bind; [apply fits_b2_compression; [exact Hh|apply Forall2_last; [exact B|constructor]]|]. intros r r' Hr. apply fits_ret, flat_map_wires; [|exact Hr]. intros u u' R. exact (RU_RW _ _ R).
Qed.
End S.
