(** The SHA-256 circuit computes SHA-256. *)
From Verif Require Import Field ModelLC SpecLC ProofsLC ModelCS SpecCS ProofsCS ModelBoolean SpecBoolean ProofsBoolean ModelUint32 SpecUint32 ProofsUint32 ProofsWord ProofsAddmany ModelOperator SpecOperator ProofsOperator ProofsSolve ProofsFlow ModelSha256 SpecSha256 ProofsChunks.
Local Open Scope Z_scope.

Definition mws (m : maybe) : list u32 := match m with Deferred v => v | Concrete u => [u] end.
Definition mok (m : maybe) : Prop := match m with Deferred v => (2 <= length v <= 9)%nat | Concrete _ => True end.
Definition stws (st : shast) : list u32 := mws (va st) ++ mws (ve st) ++ [vb st; vc st; vd st; vf st; vg st; vh st].
Definition isdef (m : maybe) : Prop := match m with Deferred _ => True | Concrete _ => False end.

Lemma add32_l a b : add32 (a mod 2 ^ 32) b = add32 a b. Proof. apply Zplus_mod_idemp_l. Qed.
Lemma add32_r a b : add32 a (b mod 2 ^ 32) = add32 a b. Proof. apply Zplus_mod_idemp_r. Qed.
Lemma add32_m a b : add32 a b = (a + b) mod 2 ^ 32. Proof. reflexivity. Qed.
Lemma add32_2 a b c : add32 (add32 a b) c = add32 (a + b) c. Proof. apply add32_l. Qed.
Lemma add32_3 a b c : add32 a (add32 b c) = add32 a (b + c). Proof. apply add32_r. Qed.

Lemma regs_eq (a b c d e f g h a' b' c' d' e' f' g' h' : Z) : a = a' -> b = b' -> c = c' -> d = d' -> e = e' -> f = f' -> g = g' -> h = h' ->
  (a, b, c, d, e, f, g, h) = (a', b', c', d', e', f', g', h') :> regs.
Proof. intros. subst. reflexivity. Qed.
Lemma a5 a b c d e : add32 (add32 (add32 (add32 a b) c) d) e = (a + b + c + d + e) mod 2 ^ 32.
Proof. rewrite (add32_2 a b c), (add32_2 _ _ d), (add32_2 _ _ e). reflexivity. Qed.
Lemma a4 a b c d : add32 (add32 (add32 a b) c) d = (a + b + c + d) mod 2 ^ 32.
Proof. rewrite (add32_2 a b c), (add32_2 _ _ d). reflexivity. Qed.
Lemma a7 a b c d e f g : add32 (add32 (add32 (add32 (add32 a b) c) d) e) (add32 f g) = (a + b + c + d + e + f + g) mod 2 ^ 32.
Proof. rewrite (a5 a b c d e), add32_l, add32_3. unfold add32. f_equal. lia. Qed.
Lemma a6 a b c d e f : add32 f (add32 (add32 (add32 (add32 a b) c) d) e) = (a + b + c + d + e + f) mod 2 ^ 32.
Proof. rewrite (a5 a b c d e), add32_r. unfold add32. f_equal. lia. Qed.
Section P.
Context (K : PFld).
Hypothesis K64 : 64 <= modulus_bits K.
Definition mv (x : var -> K) (m : maybe) : Z :=
  match m with Deferred v => zsum (map (wval x) v) mod 2 ^ 32 | Concrete u => wval x u end.
Definition stv (x : var -> K) (st : shast) : regs :=
  (mv x (va st), wval x (vb st), wval x (vc st), wval x (vd st), mv x (ve st), wval x (vf st), wval x (vg st), wval x (vh st)).

Lemma w_compute m (s : cs K) q L : wf s -> q_ok s q -> Forall (word_in s) L -> Forall (der L) (mws m) -> mok m ->
  wspec (maybe_compute m []) s q L (fun x => mv x m).
Proof.
  intros Hw Hq HL D Hm. destruct m as [v|u]; cbn [maybe_compute mv mws mok] in *.
  - rewrite app_nil_r. apply w_add; auto. lia.
  - apply w_ret; auto. inversion D; assumption.
Qed.
Lemma zsum_app a b : zsum (a ++ b) = zsum a + zsum b.
Proof. induction a as [|z a IH]; cbn [app zsum fold_right]; [reflexivity|]. change (z + zsum (a ++ b) = z + zsum a + zsum b). lia. Qed.
Lemma wspec_ext (m : MM K u32) (s : cs K) q L f g : wspec m s q L f -> (forall x s', ext s s' -> sat x s' -> f x = g x) -> wspec m s q L g.
Proof.
  intros H E. unfold wspec in *. eapply mspec_conseq; [exact H| | | |]; auto. cbn [fst]. intros x r s' Es _ Hx Hr. rewrite Hr. eapply E; eassumption.
Qed.
Lemma w_compute1 m o (s : cs K) q L : wf s -> q_ok s q -> Forall (word_in s) L -> Forall (der L) (mws m) -> mok m -> isdef m -> der L o ->
  wspec (maybe_compute m [o]) s q L (fun x => add32 (wval x o) (mv x m)).
Proof.
  intros Hw Hq HL D Hm Hi Ho. destruct m as [v|u]; [|contradiction]; cbn [maybe_compute mv mws mok] in *.
  eapply wspec_ext; [apply w_add; auto|].
  - rewrite app_length. cbn [length]. lia.
  - apply Forall_app. split; [exact D|]. constructor; [exact Ho|constructor].
  - intros x s' _ _. cbv beta. rewrite map_app, zsum_app, add32_r. cbn [map zsum fold_right]. unfold add32. f_equal. lia.
Qed.

Ltac wv := repeat first [erewrite wval_rotr by eassumption | erewrite wval_shr by eassumption | rewrite wval_constant by assumption].
Lemma round_spec st k w (s : cs K) q L : wf s -> q_ok s q -> Forall (word_in s) L -> Forall (der L) (stws st) -> der L w ->
  mok (va st) -> mok (ve st) -> 0 <= k < 2 ^ 32 ->
  mspec (sha_round st k w) (s, q) (fun s' r => Forall (word_in s') (stws r) /\ (mok (va r) /\ mok (ve r) /\ isdef (va r) /\ isdef (ve r)))
    (fun x r => stv x r = round256 (stv x st) (k, wval x w)) (Forall (word_honest s) L) (fun s' r => Forall (word_honest s') (stws r)).
Proof.
  intros Hw Hq HL D Dw Ma Me Hk. unfold stws in D. apply Forall_app in D. destruct D as [Da D]. apply Forall_app in D. destruct D as [De D].
  inversion D as [|? ? Db D1]. inversion D1 as [|? ? Dc D2]. inversion D2 as [|? ? Dd D3]. inversion D3 as [|? ? Df D4].
  inversion D4 as [|? ? Dg D5]. inversion D5 as [|? ? Dh D6]. subst. clear D D1 D2 D3 D4 D5 D6.
  unfold sha_round.
  eapply seqW; [exact HL|apply w_compute; assumption|]. intros e s1 q1 E1 Hw1 Hq1 L1.
  eapply seqW; [exact L1|apply w_xor; try assumption; dr|]. intros t1 s2 q2 E2 Hw2 Hq2 L2.
  eapply seqW; [exact L2|apply w_xor; try assumption; dr|]. intros t2 s3 q3 E3 Hw3 Hq3 L3.
  eapply seqW; [exact L3|apply w_ch; try assumption; dr|]. intros ch s4 q4 E4 Hw4 Hq4 L4.
  eapply seqW; [exact L4|apply w_compute; try assumption|].
  { eapply Forall_impl; [|exact Da]. cbn beta. intros u Du. dr. }
  intros a s5 q5 E5 Hw5 Hq5 L5.
  eapply seqW; [exact L5|apply w_xor; try assumption; dr|]. intros t3 s6 q6 E6 Hw6 Hq6 L6.
  eapply seqW; [exact L6|apply w_xor; try assumption; dr|]. intros t4 s7 q7 E7 Hw7 Hq7 L7.
  eapply seqW; [exact L7|apply w_maj; try assumption; dr|]. intros mj s8 q8 E8 Hw8 Hq8 L8.
  apply endL; try assumption.
  - unfold stws. cbn [va vb vc vd ve vf vg vh mws app]. drs.
  - cbn [va ve mok isdef app length]. repeat split; lia.
  - assert (word_in s8 e) as We by (eapply der_word; [exact L8|dr]). assert (word_in s8 a) as Wa by (eapply der_word; [exact L8|dr]).
    intros x Hx Q8 Q7 Q6 Q5 Q4 Q3 Q2 Q1. unfold stv. cbn [va vb vc vd ve vf vg vh mv app map zsum fold_right].
    rewrite Q8, Q7, Q6, Q4, Q3, Q2, Q5, Q1. cbn [map zsum fold_right].
    cbn [round256 fst snd].
    assert (Forall (fun u => True) [e; a]) as _ by repeat constructor.
    repeat first [rewrite (wval_rotr K s8) by assumption | rewrite wval_constant by assumption].
    rewrite ?Q1, ?Q5. cbn -[Z.pow Z.modulo Z.lxor rotr32 ch32 maj32 Z.add add32 Z.mul]. unfold Sigma0, Sigma1.
    apply regs_eq; try reflexivity; rewrite ?a7, ?a6; f_equal; lia.
Qed.

Lemma rounds_spec kw : forall st (s : cs K) q L, wf s -> q_ok s q -> Forall (word_in s) L -> Forall (der L) (stws st) ->
  Forall (fun p => 0 <= fst p < 2 ^ 32 /\ der L (snd p)) kw -> mok (va st) -> mok (ve st) ->
  mspec (sha_rounds kw st) (s, q) (fun s' r => Forall (word_in s') (stws r) /\ (mok (va r) /\ mok (ve r) /\ (kw <> [] \/ (isdef (va st) /\ isdef (ve st)) -> isdef (va r) /\ isdef (ve r))))
    (fun x r => stv x r = fold_left round256 (map (fun p => (fst p, wval x (snd p))) kw) (stv x st))
    (Forall (word_honest s) L) (fun s' r => Forall (word_honest s') (stws r)).
Proof.
  induction kw as [|[k w] kw IH]; intros st s q L Hw Hq HL D Dk Ma Me; cbn [sha_rounds].
  - apply endL; auto. split; [exact Ma|]. split; [exact Me|]. intros [N|N]; [contradiction|exact N].
  - inversion Dk as [|? ? [Hk Dw] Dk']. subst. cbn [fst snd] in *.
    eapply seqL; [exact HL|apply round_spec; assumption|].
    intros r s1 q1 E1 Hw1 Hq1 L1 (M1 & M2 & M3 & M4).
    eapply mspec_conseq; [apply (IH r s1 q1 (stws r ++ L)); auto| | | |]; cbn [fst].
    + apply Forall_forall. intros u Iu. apply der_l, Iu.
    + eapply Forall_impl; [|exact Dk']. intros p [P1 P2]. split; [exact P1|]. apply der_app, P2.
    + intros r2 s2 E2 Hw2 (W & N1 & N2 & N3). split; [exact W|]. split; [exact N1|]. split; [exact N2|]. intros _.
      apply N3. right. auto.
    + cbn [map fold_left fst snd]. intros x r2 s2 E2 _ _ Hr Hst. rewrite Hr, Hst. reflexivity.
    + auto.
    + auto.
Qed.

Definition idw (l : list u32) : list u32 := l.
Lemma nth_wval (x : var -> K) w i u : nth_error w i = Some u -> nth i (map (wval x) w) 0 = wval x u.
Proof. intro H. apply nth_error_nth. rewrite nth_error_map, H. reflexivity. Qed.
Lemma extend_spec n : forall i w (s : cs K) q L, wf s -> q_ok s q -> Forall (word_in s) L -> Forall (der L) w -> length w = i -> (16 <= i)%nat ->
  mspec (sha_extend n i w) (s, q) (fun s' r => Forall (word_in s') (idw r) /\ length r = (i + n)%nat)
    (fun x r => map (wval x) r = schedule n (map (wval x) w)) (Forall (word_honest s) L) (fun s' r => Forall (word_honest s') (idw r)).
Proof.
  induction n as [|n IH]; intros i w s q L Hw Hq HL D Hi H16; cbn [sha_extend].
  - apply endL; auto; lia.
  - assert (forall j, (j < i)%nat -> exists u, nth_error w j = Some u /\ der L u) as G.
    { intros j Hj. destruct (nth_error w j) as [u|] eqn:E; [|apply nth_error_None in E; lia].
      exists u. split; [reflexivity|]. eapply Forall_forall in D; [exact D|]. eapply nth_error_In, E. }
    destruct (G (i - 15)%nat) as (w15 & E15 & D15); [lia|]. destruct (G (i - 2)%nat) as (w2 & E2 & D2); [lia|].
    destruct (G (i - 16)%nat) as (w16 & E16 & D16); [lia|]. destruct (G (i - 7)%nat) as (w7 & E7 & D7); [lia|].
    rewrite E15, E2, E16, E7.
    eapply seqW; [exact HL|apply w_xor; try assumption; dr|]. intros t1 s1 q1 X1 Hw1 Hq1 L1.
    eapply seqW; [exact L1|apply w_xor; try assumption; dr|]. intros t2 s2 q2 X2 Hw2 Hq2 L2.
    eapply seqW; [exact L2|apply w_xor; try assumption; dr|]. intros t3 s3 q3 X3 Hw3 Hq3 L3.
    eapply seqW; [exact L3|apply w_xor; try assumption; dr|]. intros t4 s4 q4 X4 Hw4 Hq4 L4.
    eapply seqW; [exact L4|apply w_add; try assumption; [cbn [length]; lia|drs]|]. intros t5 s5 q5 X5 Hw5 Hq5 L5.
    assert (word_in s5 w15) as W15 by (eapply der_word; [exact L5|dr]). assert (word_in s5 w2) as W2 by (eapply der_word; [exact L5|dr]).
    eapply mspec_conseq; [eapply IH with (L := t5 :: t4 :: t3 :: t2 :: t1 :: L); try assumption| | | |]; cbn [fst].
    + apply Forall_app. split; [|constructor; [dr|constructor]]. eapply Forall_impl; [|exact D]. intros u Du. cbn beta. dr.
    + rewrite app_length. cbn [length]. lia.
    + lia.
    + intros r s' _ _ [A1 A2]. split; [exact A1|lia].
    + intros x r s' E _ Hx Hr Q5 Q4 Q3 Q2 Q1. rewrite Hr. cbn [schedule]. rewrite map_app, map_length, Hi. cbn [map].
      rewrite (nth_wval x w _ w2 E2), (nth_wval x w _ w7 E7), (nth_wval x w _ w15 E15), (nth_wval x w _ w16 E16).
      repeat f_equal. rewrite a4, Q5. cbn [map zsum fold_right]. rewrite Q4, Q3, Q2, Q1.
      rewrite !(wval_rotr K s5), !(wval_shr K s5) by assumption. unfold sigma0, sigma1. f_equal. cbn -[Z.pow Z.lxor rotr32 Z.add Z.div]. lia.
    + auto.
    + auto.
Qed.

Lemma words_ok (s : cs K) bl : Forall (fun b => length b = 32%nat /\ Forall (bool_in s) b) bl ->
  exists ws, res_map u32_from_bits_be bl = Ok ws /\ Forall (word_in s) ws /\ length ws = length bl /\
    (Forall (Forall (b_honest s)) bl -> Forall (word_honest s) ws) /\
    forall x : var -> K, map (wval x) ws = map Z_be (map (map (btrue x)) bl).
Proof.
  induction bl as [|b bl IH]; intro H.
  - exists []. repeat split; auto.
  - inversion H as [|? ? [Lb Bb] H']. subst. destruct (IH H') as (ws & R & W & Len & Hon & V).
    destruct (from_bits_be_ok K s b Lb Bb) as (u & Eu & Ub & Wu & Hu). exists (u :: ws).
    cbn [res_map]. rewrite Eu. cbn [rbind]. rewrite R. cbn [rbind]. split; [reflexivity|]. split; [constructor; assumption|].
    split; [cbn [length]; lia|]. split.
    + intro HH. inversion HH. subst. constructor; auto.
    + intro x. cbn [map]. rewrite V. f_equal. rewrite Z_be_rev. unfold wval, bsval. rewrite Ub, map_rev. reflexivity.
Qed.
Lemma sha_k_range : Forall (fun k => 0 <= k < 2 ^ 32) sha_k.
Proof. repeat constructor; vm_compute; congruence. Qed.
Lemma sha_k_eq : sha_k = K256. Proof. reflexivity. Qed.
Lemma combine_forall {A B} (P : A -> Prop) (Q : B -> Prop) l m : Forall P l -> Forall Q m -> Forall (fun p => P (fst p) /\ Q (snd p)) (combine l m).
Proof.
  intro H. revert m. induction H as [|a l Ha H IH]; intros m Hm; [constructor|]. destruct Hm as [|b m Hb Hm]; [constructor|].
  cbn [combine]. constructor; [split; assumption|]. apply IH, Hm.
Qed.
Lemma combine_map_r {A B C} (f : B -> C) (l : list A) (m : list B) : map (fun p => (fst p, f (snd p))) (combine l m) = combine l (map f m).
Proof. revert m. induction l as [|a l IH]; intros [|b m]; cbn [combine map fst snd]; [reflexivity..|]. rewrite IH. reflexivity. Qed.

Definition bits_honest (s : cs K) bs := Forall (b_honest s) bs.
Lemma compression_spec input cur (s : cs K) : wf s -> length input = 512%nat -> length cur = 8%nat -> Forall (bool_in s) input -> Forall (word_in s) cur ->
  spec (sha256_compression input cur) s (fun s' r => Forall (word_in s') r /\ length r = 8%nat)
    (fun x r => map (wval x) r = compress (map (wval x) cur) (map Z_be (groups 32 (map (btrue x) input))))
    (Forall (b_honest s) input /\ Forall (word_honest s) cur) (fun s' r => Forall (word_honest s') r).
Proof.
  intros Hw Li Lc Bi Wc. unfold sha256_compression. rewrite Li. cbn [Nat.eqb negb].
  destruct cur as [|c0 [|c1 [|c2 [|c3 [|c4 [|c5 [|c6 [|c7 [|? ?]]]]]]]]]; try discriminate Lc.
  rewrite chunks_groups by lia. destruct (groups_len 32 16 input) as [Gl Gf]; [lia|rewrite Li; reflexivity|].
  destruct (words_ok s (groups 32 input)) as (ws & R & Ww & Lw & Hon & V).
  { apply Forall_forall. intros b Ib. split; [eapply Forall_forall in Gf; eassumption|].
    pose proof (groups_forall _ 32 _ Bi) as F. eapply Forall_forall in F; eassumption. }
  rewrite R. unfold lift_res.
  set (cur := [c0; c1; c2; c3; c4; c5; c6; c7]) in *.
  assert (Forall (word_in s) (ws ++ cur)) as L0 by (apply Forall_app; auto).
  change (bind (ret ws) ?k) with (k ws). cbv beta.
  apply spec_conseq_sat with (W := fun s' r => Forall (word_in s') (idw r) /\ length r = 8%nat)
    (S := fun x r => map (wval x) r = compress (map (wval x) cur) (map (wval x) ws)) (H := Forall (word_honest s) (ws ++ cur))
    (HR := fun s' r => Forall (word_honest s') (idw r)); cbn [idw]; auto.
  2:{ intros x r s' _ _ _ Hr. rewrite Hr, V, groups_map. reflexivity. }
  2:{ intros [H1 H2]. apply Forall_app. split; [apply Hon, groups_forall, H1|exact H2]. }
  apply spec_with_multieq; [exact Hw| | |].
  2:{ intros s1 t r E _ [A1 A2]. split; [eapply words_ext; eassumption|exact A2]. }
  2:{ intros s1 t r E _ _ [A1 A2]. apply honest_ext; assumption. }
  pose proof (q_ok_new K s Hw) as Hq.
  eapply seqL with (ws := idw); [exact L0|apply extend_spec; try assumption|].
  { apply Forall_forall. intros u Iu. apply der_l, Iu. }
  { lia. } { lia. }
  intros w s1 q1 E1 Hw1 Hq1 L1 Lw1. rewrite Lw1. cbn [Nat.eqb Nat.add negb]. unfold idw in L1 at 1.
  assert (Forall (der (idw w ++ ws ++ cur)) cur) as Dc.
  { apply Forall_forall. intros u Iu. apply der_in, in_app_iff. right. apply in_app_iff. right. exact Iu. }
  inversion Dc as [|? ? D0 Dc1]. inversion Dc1 as [|? ? D1 Dc2]. inversion Dc2 as [|? ? D2 Dc3]. inversion Dc3 as [|? ? D3 Dc4].
  inversion Dc4 as [|? ? D4 Dc5]. inversion Dc5 as [|? ? D5 Dc6]. inversion Dc6 as [|? ? D6 Dc7]. inversion Dc7 as [|? ? D7 Dc8]. subst.
  clear Dc Dc1 Dc2 Dc3 Dc4 Dc5 Dc6 Dc7 Dc8.
  eapply seqL with (ws := stws); [exact L1|apply rounds_spec; try assumption; try exact I| ].
  { unfold stws. cbn [va ve vb vc vd vf vg vh mws app]. drs. }
  { apply (combine_forall (fun k => 0 <= k < 2 ^ 32) (der (idw w ++ ws ++ cur))); [exact sha_k_range|]. apply Forall_forall. intros u Iu. apply der_l, Iu. }
  intros st s2 q2 E2 Hw2 Hq2 L2 (Ma & Me & Md). destruct Md as [Ia Ie].
  { left. destruct w; [discriminate Lw1|]. discriminate. }
  assert (Forall (der (stws st ++ idw w ++ ws ++ cur)) (stws st)) as Ds by (apply Forall_forall; intros u Iu; apply der_l, Iu).
  unfold stws in Ds at 2. apply Forall_app in Ds. destruct Ds as [Da Ds]. apply Forall_app in Ds. destruct Ds as [De Ds].
  inversion Ds as [|? ? Eb Ds1]. inversion Ds1 as [|? ? Ec Ds2]. inversion Ds2 as [|? ? Ed Ds3]. inversion Ds3 as [|? ? Ef Ds4].
  inversion Ds4 as [|? ? Eg Ds5]. inversion Ds5 as [|? ? Eh Ds6]. subst. clear Ds Ds1 Ds2 Ds3 Ds4 Ds5 Ds6.
  set (L := idw w ++ ws ++ cur) in *. set (LL := stws st ++ L) in *.
  assert (forall u, der L u -> der LL u) as Up by (intros u Du; apply der_app, Du).
  apply Up in D0, D1, D2, D3, D4, D5, D6, D7. clearbody LL.
  eapply seqW; [exact L2|apply w_compute1; assumption|]. intros h0 s3 q3 E3 Hw3 Hq3 L3.
  eapply seqW; [exact L3|apply w_add; try assumption; [cbn [length]; lia|drs]|]. intros h1 s4 q4 E4 Hw4 Hq4 L4.
  eapply seqW; [exact L4|apply w_add; try assumption; [cbn [length]; lia|drs]|]. intros h2 s5 q5 E5 Hw5 Hq5 L5.
  eapply seqW; [exact L5|apply w_add; try assumption; [cbn [length]; lia|drs]|]. intros h3 s6 q6 E6 Hw6 Hq6 L6.
  eapply seqW; [exact L6|apply w_compute1; try assumption; [|dr]|]. { eapply Forall_impl; [|exact De]. cbn beta. intros u Du. dr. }
  intros h4 s7 q7 E7 Hw7 Hq7 L7.
  eapply seqW; [exact L7|apply w_add; try assumption; [cbn [length]; lia|drs]|]. intros h5 s8 q8 E8 Hw8 Hq8 L8.
  eapply seqW; [exact L8|apply w_add; try assumption; [cbn [length]; lia|drs]|]. intros h6 s9 q9 E9 Hw9 Hq9 L9.
  eapply seqW; [exact L9|apply w_add; try assumption; [cbn [length]; lia|drs]|]. intros h7 s10 q10 E10 Hw10 Hq10 L10.
  apply endL; [exact Hw10|exact Hq10|exact L10|unfold idw; drs|reflexivity|].
  intros x Hx Q7 Q6 Q5 Q4 Q3 Q2 Q1 Q0 QR QE. cbn [map cur compress]. rewrite combine_map_r, QE, sha_k_eq in QR.
  unfold stv in QR at 2. cbn [va vb vc vd ve vf vg vh mv] in QR. cbn [map cur] in *. rewrite <- QR. unfold stv.
  rewrite Q7, Q6, Q5, Q4, Q3, Q2, Q1, Q0. cbn [map zsum fold_right]. unfold add32. rewrite !Z.add_0_r. reflexivity.
Qed.

Lemma blocks_spec bl : forall cur (s : cs K), wf s -> length cur = 8%nat -> Forall (word_in s) cur ->
  Forall (fun b => length b = 512%nat /\ Forall (bool_in s) b) bl ->
  spec (sha_blocks bl cur) s (fun s' r => Forall (word_in s') r /\ length r = 8%nat)
    (fun x r => map (wval x) r = fold_left (fun h b => compress h (map Z_be (groups 32 b))) (map (map (btrue x)) bl) (map (wval x) cur))
    (Forall (Forall (b_honest s)) bl /\ Forall (word_honest s) cur) (fun s' r => Forall (word_honest s') r).
Proof.
  induction bl as [|b bl IH]; intros cur s Hw Lc Wc Hb; cbn [sha_blocks].
  - apply spec_ret'; auto. intros _ _ [_ H]. exact H.
  - inversion Hb as [|? ? [Lb Bb] Hb']. subst.
    eapply spec_seq; [apply compression_spec; assumption| |].
    { intros [H1 H2]. inversion H1. subst. auto. }
    intros r s1 E1 Hw1 [W1 L1] V1.
    assert (Forall (fun b => length b = 512%nat /\ Forall (bool_in s1) b) bl) as Hb1.
    { eapply Forall_impl; [|exact Hb']. intros c [Lc' Bc]. split; [exact Lc'|]. eapply Forall_impl; [|exact Bc]. intros z. apply bool_in_ext, E1. }
    eapply spec_conseq_sat; [apply (IH r s1); assumption| | | |]; auto.
    + intros x r2 s2 E2 _ Hx Hr. cbn [map fold_left]. rewrite Hr, V1 by (eapply sat_ext; eassumption). reflexivity.
    + intros ([H1 H2] & _ & _ & H3). split; [|exact H3]. inversion H1 as [|? ? _ H1']. subst.
      apply Forall_forall. intros c Ic. eapply honests_ext; [exact E1| |].
      * eapply Forall_forall in Hb'; [|exact Ic]. apply Hb'.
      * eapply Forall_forall in H1'; [|exact Ic]. exact H1'.
Qed.

Lemma pad_zeros_ok fuel : forall l k, (k <= fuel)%nat -> ((length l + k + 64) mod 512 = 0)%nat ->
  (forall j, j < k -> (length l + j + 64) mod 512 <> 0)%nat -> pad_zeros fuel l = l ++ repeat (BConst false) k.
Proof.
  induction fuel as [|f IH]; intros l k Hk H1 H2; cbn [pad_zeros].
  - assert (k = 0)%nat by lia. subst. rewrite app_nil_r. reflexivity.
  - destruct k as [|k].
    + replace (length l + 64)%nat with (length l + 0 + 64)%nat by lia. rewrite H1. cbn [Nat.eqb repeat]. rewrite app_nil_r. reflexivity.
    + pose proof (H2 0%nat ltac:(lia)) as N. replace (length l + 0 + 64)%nat with (length l + 64)%nat in N by lia.
      apply Nat.eqb_neq in N. rewrite N. rewrite (IH _ k).
      * rewrite <- app_assoc. reflexivity.
      * lia.
      * rewrite app_length. cbn [length]. eapply eq_trans; [|exact H1]. f_equal. lia.
      * intros j Hj. rewrite app_length. cbn [length]. replace (length l + 1 + j + 64)%nat with (length l + S j + 64)%nat by lia. apply H2. lia.
Qed.
Lemma sha_padding (input : list boolean) :
  let k := Z.to_nat ((447 - Z.of_nat (length input)) mod 512) in
  pad_zeros 512 (input ++ [BConst true]) = input ++ BConst true :: repeat (BConst false) k /\ exists n, (length input + 1 + k + 64 = n * 512)%nat.
Proof.
  intro k. pose proof (Z.mod_pos_bound (447 - Z.of_nat (length input)) 512 ltac:(lia)) as B.
  pose proof (Z.div_mod (447 - Z.of_nat (length input)) 512 ltac:(lia)) as D.
  assert (Z.of_nat k = (447 - Z.of_nat (length input)) mod 512) as Ek by (unfold k; rewrite Z2Nat.id; lia).
  assert (exists n, length input + 1 + k + 64 = n * 512)%nat as [n Hn].
  { exists (Z.to_nat (1 - (447 - Z.of_nat (length input)) / 512)). apply Nat2Z.inj. rewrite Nat2Z.inj_mul, Z2Nat.id by lia. lia. }
  split; [|exists n; exact Hn]. rewrite (pad_zeros_ok 512 _ k).
  - rewrite <- app_assoc. reflexivity.
  - lia.
  - rewrite app_length. cbn [length]. rewrite Hn. apply Nat.mod_mul. lia.
  - intros j Hj. rewrite app_length. cbn [length]. intro N. apply Nat.mod_divides in N; [|lia]. destruct N as [c Hc]. lia.
Qed.
Lemma iv_in (s : cs K) : Forall (word_in s) get_sha256_iv /\ Forall (word_honest s) get_sha256_iv.
Proof.
  unfold get_sha256_iv. assert (Forall (fun v => 0 <= v < 2 ^ 32) sha_iv) as H by (repeat constructor; vm_compute; congruence).
  split; apply Forall_map; (eapply Forall_impl; [|exact H]); intros v Hv; apply constant_in, Hv.
Qed.
Lemma iv_val (x : var -> K) : map (wval x) get_sha256_iv = H256.
Proof.
  assert (Forall (fun v => 0 <= v < 2 ^ 32) sha_iv) as H by (repeat constructor; vm_compute; congruence).
  unfold get_sha256_iv. rewrite map_map. change H256 with sha_iv. rewrite <- (map_id sha_iv) at 2. apply map_ext_in.
  intros v Iv. apply wval_constant. eapply Forall_forall in H; eassumption.
Qed.
Lemma word_bits_be (s : cs K) (x : var -> K) u : word_in s u -> map (btrue x) (u32_into_bits_be u) = be_bits 32 (wval x u).
Proof.
  intros (L & _). unfold u32_into_bits_be, wval, bsval. rewrite be_bits_rev, map_rev. f_equal.
  apply nth_ext with (d := false) (d' := false); [rewrite !map_length, seq_length; exact L|]. intros i Hi. rewrite map_length, L in Hi.
  rewrite <- Z_of_bits_testbit. rewrite (nth_indep _ false (Z.testbit (Z_of_bits (map (btrue x) (ubits u))) (Z.of_nat 0))) by (rewrite map_length, seq_length; exact Hi).
  rewrite (map_nth (fun j => Z.testbit (Z_of_bits (map (btrue x) (ubits u))) (Z.of_nat j)) (seq 0 32) 0%nat). rewrite seq_nth by exact Hi. reflexivity.
Qed.
Lemma digest_bits (s : cs K) (x : var -> K) ws : Forall (word_in s) ws -> map (btrue x) (flat_map u32_into_bits_be ws) = flat_map (be_bits 32) (map (wval x) ws).
Proof.
  intro H. induction H as [|u ws Hu H IH]; [reflexivity|]. cbn [flat_map map]. rewrite map_app, IH, (word_bits_be s) by exact Hu. reflexivity.
Qed.
Lemma digest_in (s : cs K) ws : Forall (word_in s) ws -> Forall (bool_in s) (flat_map u32_into_bits_be ws) /\ length (flat_map u32_into_bits_be ws) = (32 * length ws)%nat.
Proof.
  intro H. induction H as [|u ws (Lu & Bu & _) H [IH1 IH2]]; [split; [constructor|reflexivity]|]. cbn [flat_map length]. split.
  - apply Forall_app. split; [apply Forall_rev, Bu|exact IH1].
  - rewrite app_length, IH2. unfold u32_into_bits_be. rewrite rev_length, Lu. lia.
Qed.
Lemma digest_honest (s : cs K) ws : Forall (word_honest s) ws -> Forall (b_honest s) (flat_map u32_into_bits_be ws).
Proof.
  intro H. induction H as [|u ws (Hu & _) H IH]; [constructor|]. cbn [flat_map]. apply Forall_app. split; [apply Forall_rev, Hu|exact IH].
Qed.

Theorem sha256_circuit input (s : cs K) : wf s -> (length input mod 8 = 0)%nat -> Forall (bool_in s) input ->
  spec (sha256 input) s (fun s' r => Forall (bool_in s') r /\ length r = 256%nat)
    (fun x r => map (btrue x) r = sha256_spec (map (btrue x) input))
    (Forall (b_honest s) input) (fun s' r => Forall (b_honest s') r).
Proof.
  intros Hw L8 Bi. unfold sha256. rewrite L8. cbn [Nat.eqb negb]. destruct (sha_padding input) as [P1 [n Pn]].
  set (k := Z.to_nat ((447 - Z.of_nat (length input)) mod 512)) in *. rewrite P1.
  set (tail := map (fun i => BConst (Z.testbit (Z.of_nat (length input)) (Z.of_nat i))) (rev (seq 0 64))).
  set (padded := (input ++ BConst true :: repeat (BConst false) k) ++ tail).
  assert (length padded = n * 512)%nat as Lp.
  { unfold padded, tail. rewrite !app_length. cbn [length]. rewrite repeat_length, map_length, rev_length, seq_length. lia. }
  rewrite Lp, Nat.mod_mul by lia. cbn [Nat.eqb negb].
  assert (forall c, b_honest s (BConst c)) as HC by (intro; apply b_honest_c).
  assert (forall (P : boolean -> Prop), (forall c, P (BConst c)) -> Forall P input -> Forall P padded) as All.
  { intros P Pc Pi. unfold padded, tail. rewrite !Forall_app. split; [split; [exact Pi|]|].
    - constructor; [apply Pc|]. apply Forall_forall. intros z Iz. apply repeat_spec in Iz. subst. apply Pc.
    - apply Forall_map, Forall_forall. intros. apply Pc. }
  assert (forall x : var -> K, map (btrue x) padded = sha_pad (map (btrue x) input)) as Val.
  { intro x. unfold padded, tail, sha_pad. rewrite map_length. fold k. rewrite !map_app. cbn [map]. rewrite btrue_const, map_rep, btrue_const, <- app_assoc.
    cbn [app]. do 3 f_equal. rewrite map_map, be_bits_rev, map_rev. f_equal. apply map_ext. intro i. apply btrue_const. }
  rewrite chunks_groups by lia. destruct (groups_len 512 n padded) as [_ Gf]; [lia|exact Lp|].
  destruct (iv_in s) as [Iv Ih].
  eapply spec_seq; [apply blocks_spec; [exact Hw|reflexivity|exact Iv|]| |].
  - apply Forall_forall. intros b Ib. split; [eapply Forall_forall in Gf; eassumption|].
    pose proof (groups_forall _ 512 _ (All (bool_in s) (bool_in_const K s) Bi)) as F. eapply Forall_forall in F; eassumption.
  - intro HH. split; [|exact Ih]. apply groups_forall, All; assumption.
  - intros r s1 E1 Hw1 [W1 L1] V1. destruct (digest_in s1 r W1) as [D1 D2]. apply spec_ret'; auto.
    + split; [exact D1|]. rewrite D2, L1. reflexivity.
    + intros x Hx. rewrite (digest_bits s1) by exact W1. rewrite V1 by exact Hx. rewrite iv_val, groups_map, Val. reflexivity.
    + intros _ _ (_ & _ & _ & HH). apply digest_honest, HH.
Qed.
Theorem sha256_block_circuit input (s : cs K) : wf s -> length input = 512%nat -> Forall (bool_in s) input ->
  spec (sha256_block_no_padding input) s (fun s' r => Forall (bool_in s') r /\ length r = 256%nat)
    (fun x r => map (btrue x) r = flat_map (be_bits 32) (compress H256 (map Z_be (groups 32 (map (btrue x) input)))))
    (Forall (b_honest s) input) (fun s' r => Forall (b_honest s') r).
Proof.
  intros Hw Li Bi. unfold sha256_block_no_padding. rewrite Li. cbn [Nat.eqb negb]. destruct (iv_in s) as [Iv Ih].
  eapply spec_seq; [apply compression_spec; auto| |].
  - intro HH. split; [exact HH|exact Ih].
  - intros r s1 E1 Hw1 [W1 L1] V1. destruct (digest_in s1 r W1) as [D1 D2]. apply spec_ret'; auto.
    + split; [exact D1|]. rewrite D2, L1. reflexivity.
    + intros x Hx. rewrite (digest_bits s1) by exact W1. rewrite V1 by exact Hx. rewrite iv_val. reflexivity.
    + intros _ _ (_ & _ & _ & HH). apply digest_honest, HH.
Qed.
Lemma sha256_panics (s : cs K) input : (length input mod 8 <> 0)%nat -> sha256 input s = Panic.
Proof. intro H. unfold sha256. apply Nat.eqb_neq in H. rewrite H. reflexivity. Qed.
Lemma sha256_block_panics (s : cs K) input : length input <> 512%nat -> sha256_block_no_padding input s = Panic.
Proof. intro H. unfold sha256_block_no_padding. apply Nat.eqb_neq in H. rewrite H. reflexivity. Qed.

Local Open Scope fld_scope.
Add Field Kf : (f_laws K).
Definition of_bool (t : bool) : K := if t then 1 else 0.
Lemma step_unwrap {A} (m : M K A) (s : cs K) Pre W P : step K m s Pre W P -> step K (unwrapM m) s Pre W P.
Proof. unfold step, unwrapM. destruct (m s) as [[r s']|e|]; auto. Qed.
Lemma step_bit (f : option bool) (t : bool) (s : cs K) Pre : wf s ->
  step K (bit_alloc f) s Pre (fun s' b => allocated s' (bvar b)) (fun x x' b => x' (bvar b) = of_bool t).
Proof.
  intro Hw. unfold bit_alloc. eapply step_bind; [apply (step_alloc K _ s Pre (fun _ => of_bool t) Hw)|].
  intros v s1 E1 Hw1 (_ & Av & _). eapply step_bind.
  - apply step_enforce; [exact Hw1|vars; try exact Av; try (intros; exact Hw1); auto..|].
    intros x Hx (x0 & _ & _ & _ & Hv). rewrite eval_sub_var, !eval_add_var, !eval_zero, Hv. rewrite (proj1 Hx). unfold of_bool. destruct t; ring.
  - intros [] s2 E2 Hw2 _. apply step_ret; [exact Hw2|cbn [bvar]; eapply allocated_ext; eassumption|].
    cbn [bvar]. intros x Hx (x0 & _ & (x1 & _ & _ & _ & Hv) & _ & ->) x2 _ _ _ -> x3 _ _ _ Hv3. exact Hv3.
Qed.
Lemma step_bits (ds : list boolean) : forall (ts : list bool) (s : cs K) Pre, wf s -> length ts = length ds ->
  step K (mapM (fun b => a <- unwrapM (bit_alloc (b_value b)) ;; ret (bvar a)) ds) s Pre
    (fun s' vs => Forall (allocated s') vs /\ length vs = length ds) (fun x x' vs => map x' vs = map of_bool ts).
Proof.
  induction ds as [|d ds IH]; intros ts s Pre Hw L; cbn [mapM].
  - destruct ts; [|discriminate L]. apply step_ret; auto.
  - destruct ts as [|t ts]; [discriminate L|].
    eapply step_bind with (W1 := fun s' v => allocated s' v) (P1 := fun x x' v => x' v = of_bool t).
    { eapply step_bind; [apply step_unwrap, (step_bit _ t s Pre Hw)|]. intros b s1 E1 Hw1 Ab. apply step_ret; [exact Hw1|exact Ab|].
      intros x Hx (x0 & _ & _ & _ & Hv) x1 _ _ _ Hv1. exact Hv1. }
    intros v s1 E1 Hw1 Av. eapply step_bind; [apply (IH ts s1 _ Hw1); cbn in L; lia|].
    intros vs s2 E2 Hw2 [Avs Lvs]. apply step_ret; [exact Hw2| |].
    + split; [constructor; [eapply allocated_ext; eassumption|exact Avs]|cbn; lia].
    + intros x Hx _ x1 Hx1 (x00 & _ & _ & C0 & V0) C1 V1 x0 Hx0 _ _ V. cbn [map]. rewrite V1. f_equal. rewrite (C1 v Av). exact V.
Qed.
Lemma so_inputs_ok (ps : list sha_out) pss : map so_value ps = map Some pss -> so_inputs ps = Ok (concat pss).
Proof.
  revert pss. induction ps as [|p ps IH]; intros [|q pss] H; try discriminate H; [reflexivity|]. cbn [map] in H. injection H as H1 H2.
  cbn [so_inputs concat]. rewrite H1, (IH _ H2). reflexivity.
Qed.
Theorem sha_exported_free (ps : list sha_out) (pss : list (list boolean)) (s : cs K) o s' : wf s -> map so_value ps = map Some pss ->
  Forall (Forall (bool_in s)) pss -> sha_hash_enforce ps s = Ok (o, s') ->
  exists ds, so_value o = Some ds /\ length ds = 256%nat /\ length (so_vars o) = 256%nat /\
    (forall x, sat x s' -> map (btrue x) ds = sha256_spec (map (btrue x) (concat pss))) /\
    forall x ts, sat x s' -> length ts = 256%nat -> exists x', sat x' s' /\ continues s x x' /\
      map (btrue x') ds = map (btrue x) ds /\ map x' (so_vars o) = map of_bool ts.
Proof.
  intros Hw Hp HB R. unfold sha_hash_enforce in R. rewrite (so_inputs_ok ps pss Hp) in R. unfold lift_res in R.
  change (bind (ret (concat pss)) ?k) with (k (concat pss)) in R. cbv beta in R.
  assert (Forall (bool_in s) (concat pss)) as Bi.
  { clear -HB. induction HB as [|l pss H HB IH]; [constructor|]. cbn [concat]. apply Forall_app. auto. }
  destruct (Nat.eq_dec (length (concat pss) mod 8) 0) as [L8|N8].
  2:{ unfold bind in R. rewrite sha256_panics in R by exact N8. discriminate R. }
  pose proof (sha256_circuit (concat pss) s Hw L8 Bi) as Sp. unfold bind in R. unfold spec in Sp.
  destruct (sha256 (concat pss) s) as [[ds s1]|e|]; [|discriminate R..]. destruct Sp as (E1 & Hw1 & [D1 D2] & Sv & _).
  pose proof (fun ts L => step_bits ds ts s1 (fun _ => True) Hw1 L) as G. unfold step in G. unfold bind in G.
  match type of R with match ?m with _ => _ end = _ => destruct m as [[vs s2]|e|]; [|discriminate R..] end.
  injection R as <- <-. exists ds. cbn [so_value so_vars].
  destruct (G (repeat true 256)) as (E2 & Hw2 & [A1 A2] & _); [rewrite repeat_length, D2; reflexivity|].
  split; [reflexivity|]. split; [exact D2|]. split; [lia|]. split; [intros x Hx; apply Sv; eapply sat_ext; eassumption|].
  intros x ts Hx Lt. destruct (G ts) as (_ & _ & _ & G2); [lia|]. destruct (G2 x (sat_ext K _ _ _ E2 Hx) I) as (x' & C & S' & V).
  exists x'. split; [exact S'|]. split; [|split; [|exact V]].
  - intros v Av. apply C. eapply allocated_ext; eassumption.
  - apply map_ext_in. intros b Ib. unfold btrue. f_equal. eapply Forall_forall in D1; [|exact Ib]. destruct D1 as [Ab _].
    destruct b; cbn [bden] in *; try reflexivity; rewrite (C _ Ab); reflexivity.
Qed.
End P.
