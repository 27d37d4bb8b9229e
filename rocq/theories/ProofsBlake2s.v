(** The BLAKE2s circuit computes BLAKE2s. *)
From Verif Require Import Field ModelLC SpecLC ProofsLC ModelCS SpecCS ProofsCS ModelBoolean SpecBoolean ProofsBoolean ModelUint32 SpecUint32 ProofsUint32 ProofsWord ProofsAddmany ModelOperator ProofsOperator ProofsFlow ModelSha256 SpecSha256 ProofsChunks ProofsSha256 ModelBlake2s SpecBlake2s.
Local Open Scope Z_scope.

Lemma set_nth_length {A} (l : list A) i u : length (set_nth l i u) = length l.
Proof. revert i. induction l as [|a l IH]; intros [|i]; cbn; auto. Qed.
Lemma set_nth_forall {A} (P : A -> Prop) (l : list A) i u : Forall P l -> P u -> Forall P (set_nth l i u).
Proof. intro H. revert i. induction H as [|a l Ha H IH]; intros [|i] Pu; cbn; constructor; auto. Qed.
Lemma set_nth_map {A} (f : A -> Z) (l : list A) i u : map f (set_nth l i u) = upd (map f l) i (f u).
Proof. revert i. induction l as [|a l IH]; intros [|i]; cbn; [reflexivity..|]. rewrite IH. reflexivity. Qed.

Section P.
Context (K : PFld).
Hypothesis K64 : 64 <= modulus_bits K.

Lemma seq_get {A B} (v : list A) i (k : A -> MM K B) w W S H HR u : nth_error v i = Some u -> mspec (k u) w W S H HR -> mspec (mbind (getM v i) k) w W S H HR.
Proof. intros E Hk. unfold getM. rewrite E. exact Hk. Qed.
Lemma get_ok {A} (P : A -> Prop) (v : list A) i : Forall P v -> (i < length v)%nat -> exists u, nth_error v i = Some u /\ P u.
Proof.
  intros H Hi. destruct (nth_error v i) as [u|] eqn:E; [|apply nth_error_None in E; lia].
  exists u. split; [reflexivity|]. eapply Forall_forall in H; [exact H|]. eapply nth_error_In, E.
Qed.
Lemma at_wval (x : var -> K) w i u : nth_error w i = Some u -> at_ (map (wval x) w) i = wval x u.
Proof. apply nth_wval. Qed.
Lemma der_up L L' v : (forall u, der L u -> der L' u) -> Forall (der L) v -> Forall (der L') v.
Proof. intros H. apply Forall_impl. exact H. Qed.

(** The two kinds of lines of [mixing_g]: an addition or a rotated xor into position [i]. *)
Definition vP (v : list u32) : Prop := length v = 16%nat.
Definition vspec (m : MM K (list u32)) (s : cs K) q L (f : (var -> K) -> list Z) : Prop :=
  mspec m (s, q) (fun s' r => Forall (word_in s') (idw r) /\ vP r) (fun x r => map (wval x) r = f x) (Forall (word_honest s) L)
    (fun s' r => Forall (word_honest s') (idw r)).
Lemma vP_set v i u : vP v -> vP (set_nth v i u).
Proof. unfold vP. rewrite set_nth_length. auto. Qed.
Lemma line_add v i j e (s : cs K) q L : (i < 16)%nat -> (j < 16)%nat -> (length e <= 8)%nat -> wf s -> q_ok s q -> Forall (word_in s) L -> vP v -> Forall (der L) v -> Forall (der L) e ->
  vspec (add_line v i j e) s q L (fun x => let z := map (wval x) v in upd z i (zsum (at_ z i :: at_ z j :: map (wval x) e) mod 2 ^ 32)).
Proof.
  intros Hi Hj He Hw Hq HL Lv Dv De. unfold add_line, vspec.
  destruct (get_ok (der L) v i Dv) as (u & Eu & Du); [rewrite Lv; exact Hi|]. destruct (get_ok (der L) v j Dv) as (w & Ew & Dw); [rewrite Lv; exact Hj|].
  eapply seq_get; [exact Eu|]. eapply seq_get; [exact Ew|].
  eapply seqW; [exact HL|apply w_add; [exact K64|cbn [length]; lia|assumption..|]|]. { constructor; [exact Du|]. constructor; assumption. }
  intros t s' q' E Hw' Hq' L'. apply endL; auto.
  - unfold idw. apply set_nth_forall; [|dr]. eapply der_up; [|exact Dv]. intros. dr.
  - apply vP_set, Lv.
  - intros x _ Ht. rewrite set_nth_map, Ht, (at_wval x v i u Eu), (at_wval x v j w Ew). reflexivity.
Qed.
Lemma line_xor v i j n (s : cs K) q L : (i < 16)%nat -> (j < 16)%nat -> wf s -> q_ok s q -> Forall (word_in s) L -> vP v -> Forall (der L) v ->
  vspec (xor_line v i j n) s q L (fun x => let z := map (wval x) v in upd z i (rotr32 (Z.lxor (at_ z i) (at_ z j)) (Z.of_nat (n mod 32)))).
Proof.
  intros Hi Hj Hw Hq HL Lv Dv. unfold xor_line, vspec.
  destruct (get_ok (der L) v i Dv) as (u & Eu & Du); [rewrite Lv; exact Hi|]. destruct (get_ok (der L) v j Dv) as (w & Ew & Dw); [rewrite Lv; exact Hj|].
  eapply seq_get; [exact Eu|]. eapply seq_get; [exact Ew|].
  eapply seqW; [exact HL|apply w_xor; assumption|].
  intros t s' q' E Hw' Hq' L'. apply endL; auto.
  - unfold idw. apply set_nth_forall; [|dr]. eapply der_up; [|exact Dv]. intros. dr.
  - apply vP_set, Lv.
  - intros x _ Ht. rewrite set_nth_map, (wval_rotr K s') by (inversion L'; assumption). rewrite Ht, (at_wval x v i u Eu), (at_wval x v j w Ew). reflexivity.
Qed.
Lemma seqV {B} (m : MM K (list u32)) (k : list u32 -> MM K B) (s : cs K) q L f W2 (S2 : _ -> _ -> Prop) HR2 : Forall (word_in s) L -> vspec m s q L f ->
  (forall v s' q', ext s s' -> wf s' -> q_ok s' q' -> Forall (word_in s') (v ++ L) -> vP v -> Forall (der (v ++ L)) v ->
     mspec (k v) (s', q') W2 (fun x y => map (wval x) v = f x -> S2 x y) (Forall (word_honest s') (v ++ L)) HR2) ->
  mspec (mbind m k) (s, q) W2 S2 (Forall (word_honest s) L) HR2.
Proof.
  intros HL Hm Hk. eapply seqL with (ws := idw); [exact HL|exact Hm|]. intros v s' q' E Hw Hq L' Lv. apply Hk; auto.
  apply Forall_forall. intros u Iu. apply der_l, Iu.
Qed.
Lemma vspec_imp m (s : cs K) q L f g (Q : (var -> K) -> Prop) : vspec m s q L f -> (forall x, Q x -> f x = g x) ->
  mspec m (s, q) (fun s' r => Forall (word_in s') (idw r) /\ vP r) (fun x r => Q x -> map (wval x) r = g x) (Forall (word_honest s) L)
    (fun s' r => Forall (word_honest s') (idw r)).
Proof. intros H E. unfold vspec in *. eapply mspec_conseq; [exact H| | | |]; auto. cbn beta. intros x r _ _ _ _ Hr Hq. rewrite Hr. apply E, Hq. Qed.
Lemma add3 a b c : zsum [a; b; c] mod 2 ^ 32 = add32 (add32 a b) c.
Proof. rewrite add32_2. unfold add32. cbn [zsum fold_right]. f_equal. lia. Qed.
Lemma add2 a b : zsum [a; b] mod 2 ^ 32 = add32 a b.
Proof. unfold add32. cbn [zsum fold_right]. f_equal. lia. Qed.

Lemma mixing_spec v a b c d x y (s : cs K) q L : (a < 16)%nat -> (b < 16)%nat -> (c < 16)%nat -> (d < 16)%nat -> vP v -> wf s -> q_ok s q -> Forall (word_in s) L ->
  Forall (der L) v -> der L x -> der L y ->
  vspec (mixing_g v a b c d x y) s q L (fun xx => G2s (map (wval xx) v) a b c d (wval xx x) (wval xx y)).
Proof.
  intros Ha Hb Hc Hd Lv Hw Hq HL Dv Dx Dy. unfold mixing_g, vspec.
  eapply seqV; [exact HL|apply line_add; try assumption; [cbn; lia|drs]|]. intros v1 s1 q1 _ Hw1 Hq1 L1 Lv1 Dv1.
  eapply seqV; [exact L1|apply line_xor; assumption|]. intros v2 s2 q2 _ Hw2 Hq2 L2 Lv2 Dv2.
  eapply seqV; [exact L2|apply line_add; try assumption; [cbn; lia|drs]|]. intros v3 s3 q3 _ Hw3 Hq3 L3 Lv3 Dv3.
  eapply seqV; [exact L3|apply line_xor; assumption|]. intros v4 s4 q4 _ Hw4 Hq4 L4 Lv4 Dv4.
  eapply seqV; [exact L4|apply line_add; try assumption; [cbn; lia|drs]|]. intros v5 s5 q5 _ Hw5 Hq5 L5 Lv5 Dv5.
  eapply seqV; [exact L5|apply line_xor; assumption|]. intros v6 s6 q6 _ Hw6 Hq6 L6 Lv6 Dv6.
  eapply seqV; [exact L6|apply line_add; try assumption; [cbn; lia|drs]|]. intros v7 s7 q7 _ Hw7 Hq7 L7 Lv7 Dv7.
  eapply mspec_conseq; [apply (line_xor v7 b c 7 s7 q7 _ Hb Hc Hw7 Hq7 L7 Lv7 Dv7)| | | |]; auto.
  cbn beta zeta. intros xx r s' _ _ _ Hr E7 E6 E5 E4 E3 E2 E1. rewrite Hr. unfold G2s. cbn zeta.
  cbn [map] in E1, E3, E5, E7. rewrite add3 in E1, E5. rewrite add2 in E3, E7.
  rewrite E7, E6, E5, E4, E3, E2, E1. reflexivity.
Qed.

Fixpoint zcalls (ps : list (nat * nat * nat * nat)) (sg : list nat) (m v : list Z) : list Z :=
  match ps, sg with
  | (a, b, c, d) :: ps', i :: j :: s' => zcalls ps' s' m (G2s v a b c d (at_ m i) (at_ m j))
  | _, _ => v
  end.
Definition pos_ok (p : nat * nat * nat * nat) : Prop := let '(a, b, c, d) := p in (a < 16 /\ b < 16 /\ c < 16 /\ d < 16)%nat.
Lemma calls_spec m ps : forall sg v (s : cs K) q L, Forall pos_ok ps -> length sg = (2 * length ps)%nat -> Forall (fun i => i < 16)%nat sg -> vP m -> vP v ->
  wf s -> q_ok s q -> Forall (word_in s) L -> Forall (der L) m -> Forall (der L) v ->
  vspec (mix_calls ps sg m v) s q L (fun x => zcalls ps sg (map (wval x) m) (map (wval x) v)).
Proof.
  induction ps as [|[[[a b] c] d] ps IH]; intros sg v s q L Hp Ls Hs Lm Lv Hw Hq HL Dm Dv; cbn [mix_calls].
  - apply endL; auto.
  - destruct sg as [|i [|j sg]]; try (cbn in Ls; lia). inversion Hp as [|? ? Hpos Hp']. subst. destruct Hpos as (Ha & Hb & Hc & Hd).
    inversion Hs as [|? ? Hi Hs1]. subst. inversion Hs1 as [|? ? Hj Hs2]. subst.
    destruct (get_ok (der L) m i Dm) as (mx & Ex & Dx); [rewrite Lm; exact Hi|]. destruct (get_ok (der L) m j Dm) as (my & Ey & Dy); [rewrite Lm; exact Hj|].
    unfold vspec. eapply seq_get; [exact Ex|]. eapply seq_get; [exact Ey|].
    eapply seqV; [exact HL|apply mixing_spec; assumption|]. intros v1 s1 q1 _ Hw1 Hq1 L1 Lv1 Dv1.
    eapply mspec_conseq; [apply (IH sg v1 s1 q1 (v1 ++ L)); auto| | | |]; auto.
    + cbn in Ls. lia.
    + eapply der_up; [|exact Dm]. intros. dr.
    + cbn beta. intros x r _ _ _ _ Hr Hv. rewrite Hr, Hv. cbn [zcalls]. rewrite (at_wval x m i mx Ex), (at_wval x m j my Ey). reflexivity.
Qed.
Lemma zcalls_round sg m v : length sg = 16%nat -> zcalls b2_positions sg m v = round2s m v sg.
Proof.
  intro L. do 16 (destruct sg as [|? sg]; [discriminate L|]). destruct sg; [|discriminate L].
  unfold b2_positions, round2s. cbv beta zeta. cbn [zcalls nth Nat.mul Nat.add]. reflexivity.
Qed.
Lemma fold_cons {A B} (f : A -> B -> A) b l a : fold_left f (b :: l) a = fold_left f l (f a b). Proof. reflexivity. Qed.
Lemma rounds_spec2 m ss : forall v (s : cs K) q L, Forall (fun sg => length sg = 16%nat /\ Forall (fun i => i < 16)%nat sg) ss -> vP m -> vP v ->
  wf s -> q_ok s q -> Forall (word_in s) L -> Forall (der L) m -> Forall (der L) v ->
  vspec (mix_rounds ss m v) s q L (fun x => fold_left (round2s (map (wval x) m)) ss (map (wval x) v)).
Proof.
  induction ss as [|sg ss IH]; intros v s q L Hs Lm Lv Hw Hq HL Dm Dv; cbn [mix_rounds].
  - apply endL; auto.
  - inversion Hs as [|? ? [Lg Hg] Hs']. subst. unfold vspec.
    eapply seqV; [exact HL|apply (calls_spec m b2_positions sg v); try assumption|].
    { repeat constructor; lia. }
    intros v1 s1 q1 _ Hw1 Hq1 L1 Lv1 Dv1.
    eapply mspec_conseq; [apply (IH v1 s1 q1 (v1 ++ L)); auto| | | |]; auto.
    + eapply der_up; [|exact Dm]. intros. dr.
    + cbn beta. intros x r _ _ _ _ Hr Hv. rewrite fold_cons, Hr, Hv, zcalls_round by exact Lg. reflexivity.
Qed.
Lemma sigma_ok : Forall (fun sg => length sg = 16%nat /\ Forall (fun i => i < 16)%nat sg) b2_sigma.
Proof. repeat constructor; lia. Qed.

(** The closing xors. *)
Definition z3 (p : Z * Z * Z) : Z := let '(a, b, c) := p in Z.lxor (Z.lxor a b) c.
Definition tri (P : u32 -> Prop) (t : u32 * u32 * u32) : Prop := let '(a, b, c) := t in P a /\ P b /\ P c.
Definition triv (x : var -> K) (t : u32 * u32 * u32) : Z * Z * Z := let '(a, b, c) := t in (wval x a, wval x b, wval x c).
Lemma final_spec ts : forall (s : cs K), wf s -> Forall (tri (word_in s)) ts ->
  spec (mapM (fun '(hi, vi, vj) => r <- u32_xor hi vi ;; u32_xor r vj) ts) s
    (fun s' r => Forall (word_in s') r /\ length r = length ts) (fun x r => map (wval x) r = map z3 (map (triv x) ts))
    (Forall (tri (word_honest s)) ts) (fun s' r => Forall (word_honest s') r).
Proof.
  induction ts as [|[[a b] c] ts IH]; intros s Hw HT; cbn [mapM].
  - apply spec_ret'; auto.
  - inversion HT as [|? ? Hp HT']. subst. destruct Hp as (Wa & Wb & Wc).
    eapply spec_seq with (W1 := word_in) (S1 := fun x r => wval x r = z3 (triv x (a, b, c))) (H1 := tri (word_honest s) (a, b, c)) (HR1 := word_honest).
    { eapply spec_seq; [apply (u32_xor_spec K a b s Hw Wa Wb)|intros (H1 & H2 & _); auto|]. intros r s1 E1 Hw1 W1 V1.
      pose proof (word_in_ext K _ _ _ E1 Wc) as Wc1.
      eapply spec_conseq_sat; [apply (u32_xor_spec K r c s1 Hw1 W1 Wc1)| | | |]; auto.
      - cbn beta. intros x y s2 E2 _ Hx Hy. rewrite Hy, V1 by (eapply sat_ext; eassumption). reflexivity.
      - intros ((H1 & H2 & H3) & _ & _ & H4). split; [exact H4|]. eapply word_honest_ext; eassumption. }
    { intro H. inversion H. assumption. }
    intros r s1 E1 Hw1 W1 V1.
    assert (Forall (tri (word_in s1)) ts) as HT1.
    { eapply Forall_impl; [|exact HT']. intros [[p1 p2] p3] (A1 & A2 & A3). cbn; split; [|split]; eapply word_in_ext; eassumption. }
    eapply spec_seq; [apply (IH s1 Hw1 HT1)| |].
    { intros (H & _). inversion H as [|? ? _ H']. subst. clear -H' HT' E1. induction H' as [|[[p1 p2] p3] l Hq H' IH]; [constructor|]. destruct Hq as (A1 & A2 & A3).
      inversion HT' as [|? ? Hp HT2]. subst. destruct Hp as (B1 & B2 & B3). constructor; [|apply IH, HT2]. cbn; split; [|split]; eapply word_honest_ext; eassumption. }
    intros rs s2 E2 Hw2 [W2 L2] V2. apply spec_ret'; auto.
    + split; [constructor; [eapply word_in_ext; eassumption|exact W2]|cbn; lia].
    + intros x Hx. cbn [map]. rewrite (V2 x Hx), (V1 x (sat_ext K _ _ _ E2 Hx)). reflexivity.
    + intros _ _ ((_ & _ & _ & H1) & _ & _ & H2). constructor; [eapply word_honest_ext; eassumption|exact H2].
Qed.
Lemma combine3 (P : u32 -> Prop) h a b : Forall P h -> Forall P a -> Forall P b -> Forall (tri P) (combine (combine h a) b).
Proof.
  intro H. revert a b. induction H as [|x h Hx H IH]; intros a b Ha Hb; [constructor|]. destruct Ha as [|y a Hy Ha]; [constructor|]. destruct Hb as [|z b Hz Hb]; [constructor|].
  cbn [combine]. constructor; [repeat split; assumption|]. apply IH; assumption.
Qed.
Lemma triv_combine (x : var -> K) h a b : map (triv x) (combine (combine h a) b) = combine (combine (map (wval x) h) (map (wval x) a)) (map (wval x) b).
Proof.
  revert a b. induction h as [|y h IH]; intros [|z a] [|w b]; cbn [combine map triv]; try reflexivity. f_equal. apply IH.
Qed.
Lemma final_z h v : length h = 8%nat -> length v = 16%nat ->
  map z3 (combine (combine h (firstn 8 v)) (skipn 8 v)) = map (fun i => Z.lxor (Z.lxor (at_ h i) (at_ v i)) (at_ v (i + 8))) (seq 0 8).
Proof.
  intros Lh Lv. do 8 (destruct h as [|? h]; [discriminate Lh|]). destruct h; [|discriminate Lh].
  do 16 (destruct v as [|? v]; [discriminate Lv|]). destruct v; [|discriminate Lv]. reflexivity.
Qed.
Lemma iv_range : Forall (fun v => 0 <= v < 2 ^ 32) b2_iv.
Proof. repeat constructor; vm_compute; congruence. Qed.
Lemma mod_range t : 0 <= t mod 2 ^ 32 < 2 ^ 32. Proof. apply Z.mod_pos_bound. lia. Qed.
Lemma xor_const_spec a b (s : cs K) : wf s -> 0 <= a < 2 ^ 32 -> 0 <= b < 2 ^ 32 ->
  spec (u32_xor (u32_constant a) (u32_constant b)) s word_in (fun x r => wval x r = Z.lxor a b) True word_honest.
Proof.
  intros Hw Ha Hb. destruct (constant_in K s a Ha) as [A1 A2]. destruct (constant_in K s b Hb) as [B1 B2].
  eapply spec_conseq_sat; [apply (u32_xor_spec K _ _ s Hw A1 B1)| | | |]; auto.
  cbn beta. intros x r s' _ _ _ Hr. rewrite Hr, !wval_constant by assumption. reflexivity.
Qed.
Lemma compression_spec2 h m t f (s : cs K) : wf s -> length h = 8%nat -> length m = 16%nat -> Forall (word_in s) h -> Forall (word_in s) m ->
  spec (blake2s_compression h m t f) s (fun s' r => Forall (word_in s') r /\ length r = 8%nat)
    (fun x r => map (wval x) r = F2s (map (wval x) h) (map (wval x) m) t f)
    (Forall (word_honest s) (h ++ m)) (fun s' r => Forall (word_honest s') r).
Proof.
  intros Hw Lh Lm Wh Wm. unfold blake2s_compression. rewrite Lh, Lm. cbn [Nat.eqb negb].
  pose proof iv_range as IR. unfold b2_iv in *. cbn [map].
  inversion IR as [|? ? R0 I1]. inversion I1 as [|? ? R1 I2]. inversion I2 as [|? ? R2 I3]. inversion I3 as [|? ? R3 I4].
  inversion I4 as [|? ? R4 I5]. inversion I5 as [|? ? R5 I6]. inversion I6 as [|? ? R6 I7]. inversion I7 as [|? ? R7 I8]. subst. clear IR I1 I2 I3 I4 I5 I6 I7 I8.
  eapply spec_seq; [apply xor_const_spec; [exact Hw|exact R4|apply mod_range]|auto|]. intros v12 s1 E1 Hw1 W12 V12.
  eapply spec_seq; [apply xor_const_spec; [exact Hw1|exact R5|apply mod_range]|auto|]. intros v13 s2 E2 Hw2 W13 V13.
  eapply spec_seq with (W1 := word_in) (S1 := fun x r => wval x r = if f then Z.lxor 528734635 (2 ^ 32 - 1) else 528734635) (H1 := True) (HR1 := word_honest).
  { destruct f; [apply xor_const_spec; [exact Hw2|exact R6|lia]|]. destruct (constant_in K s2 _ R6) as [A1 A2]. apply spec_ret'; auto.
    intros x _. apply wval_constant, R6. }
  { auto. }
  intros v14 s3 E3 Hw3 W14 V14.
  set (v := h ++ [u32_constant 1779033703; u32_constant 3144134277; u32_constant 1013904242; u32_constant 2773480762; v12; v13; v14; u32_constant 1541459225]).
  assert (ext s s3) as E03 by (eapply ext_trans; [exact E1|]; eapply ext_trans; eassumption).
  assert (ext s1 s3) as E13 by (eapply ext_trans; eassumption).
  assert (Forall (word_in s3) ([v12; v13; v14] ++ h ++ m)) as L3.
  { apply Forall_app. split; [|apply Forall_app; split; [exact (words_ext K _ _ _ E03 Wh)|exact (words_ext K _ _ _ E03 Wm)]].
    constructor; [exact (word_in_ext K _ _ _ E13 W12)|]. constructor; [exact (word_in_ext K _ _ _ E3 W13)|]. constructor; [exact W14|constructor]. }
  assert (vP v) as Pv by (unfold vP, v; rewrite app_length, Lh; reflexivity).
  assert (Forall (der ([v12; v13; v14] ++ h ++ m)) v) as Dv.
  { unfold v. apply Forall_app. split; [apply Forall_forall; intros u Iu; apply der_in, in_app_iff; right; apply in_app_iff; left; exact Iu|].
    cbn [app]. drs. }
  assert (Forall (der ([v12; v13; v14] ++ h ++ m)) m) as Dm.
  { apply Forall_forall; intros u Iu; apply der_in, in_app_iff; right; apply in_app_iff; right; exact Iu. }
  eapply spec_seq with (W1 := fun s' r => Forall (word_in s') r /\ vP r) (S1 := fun x r => map (wval x) r = fold_left (round2s (map (wval x) m)) b2_sigma (map (wval x) v))
    (H1 := Forall (word_honest s3) ([v12; v13; v14] ++ h ++ m)) (HR1 := fun s' r => Forall (word_honest s') r).
  { apply spec_with_multieq; [exact Hw3|apply (rounds_spec2 m b2_sigma v s3 meq_new _ sigma_ok Lm Pv Hw3 (q_ok_new K s3 Hw3) L3 Dm Dv)| |].
    - intros a b r E _ [A1 A2]. split; [eapply words_ext; eassumption|exact A2].
    - intros a b r E _ _ [A1 A2]. apply honest_ext; assumption. }
  { intros (((H0 & _ & _ & H12) & _ & _ & H13) & _ & _ & H14). apply Forall_app. split.
    - constructor; [exact (word_honest_ext K _ _ _ E13 W12 H12)|]. constructor; [exact (word_honest_ext K _ _ _ E3 W13 H13)|]. constructor; [exact H14|constructor].
    - eapply honest_ext; [exact E03|apply Forall_app; auto|exact H0]. }
  intros w s4 E4 Hw4 [W4 P4] V4.
  assert (ext s s4) as E04 by (eapply ext_trans; eassumption).
  pose proof (words_ext K _ _ _ E04 Wh) as Wh4.
  eapply spec_conseq_sat; [apply (final_spec (combine (combine h (firstn 8 w)) (skipn 8 w)) s4 Hw4)| | | |].
  - apply combine3; [exact Wh4|apply Forall_firstn, W4|apply Forall_skipn, W4].
  - intros r s' _ _ [A1 A2] _. split; [exact A1|]. unfold vP in P4. rewrite A2, !combine_length, firstn_length, skipn_length, Lh, P4. reflexivity.
  - cbn beta. intros x r s' E5 _ Hx Hr. pose proof (sat_ext K _ _ _ E5 Hx) as Hx4. pose proof (sat_ext K _ _ _ E4 Hx4) as Hx3.
    rewrite Hr, triv_combine, <- firstn_map, <- skipn_map, final_z by (rewrite map_length; first [exact Lh|exact P4]).
    unfold F2s. rewrite (V4 x Hx4). unfold v. rewrite map_app. cbn [map]. rewrite (V14 x Hx3), (V13 x (sat_ext K _ _ _ E3 Hx3)), (V12 x (sat_ext K _ _ _ E13 Hx3)).
    rewrite !wval_constant by assumption.
    assert (length (map (wval x) h) = 8%nat) as Lz by (rewrite map_length; exact Lh). revert Lz. generalize (map (wval x) h). intros hz Lz.
    do 8 (destruct hz as [|? hz]; [discriminate Lz|]). destruct hz; [|discriminate Lz]. destruct f; reflexivity.
  - intros ((((H0 & _) & _) & _) & _ & _ & H4). apply combine3; [|apply Forall_firstn, H4|apply Forall_skipn, H4].
    apply Forall_app in H0. destruct H0 as [H0 _]. eapply honest_ext; eassumption.
  - auto.
Qed.
End P.
