(** What the digest of the constraint system for testing determines. *)
From Coq Require Import String Ascii List NArith Lia Sorting.Sorted.
Import ListNotations.
From Verif Require Import Field ModelLC SpecLC ProofsLC ModelCS SpecCS ModelTestCS SpecTestCS ProofsBulletproofs3.
Local Open Scope list_scope.
Local Open Scope fld_scope.

(** ** Eight bytes *)
Definition dec (l : list N) : N := fold_left (fun a d => a * 256 + d)%N l 0%N.
Lemma be64_len n : length (be64 n) = 8%nat. Proof. reflexivity. Qed.
Lemma dec_be64 n : fits64 n -> dec (be64 n) = N.of_nat n.
Proof.
  unfold fits64, be64, dec. cbn [map fold_left]. generalize (N.of_nat n) as x. clear n. intros x Hx.
  assert (S : forall y, (y / 256 * 256 + y mod 256 = y)%N) by (intro y; rewrite N.mul_comm; symmetry; apply N.div_mod'; lia).
  assert (D : forall e, (x / 256 ^ (N.succ e) = x / 256 ^ e / 256)%N) by (intro e; rewrite N.pow_succ_r', N.mul_comm, <- N.div_div; [reflexivity|apply N.pow_nonzero; lia|lia]).
  pose proof (D 0%N) as D0. pose proof (D 1%N) as D1. pose proof (D 2%N) as D2. pose proof (D 3%N) as D3. pose proof (D 4%N) as D4. pose proof (D 5%N) as D5. pose proof (D 6%N) as D6. pose proof (D 7%N) as D7.
  cbn [N.succ Pos.succ] in D0, D1, D2, D3, D4, D5, D6, D7. rewrite N.pow_0_r, N.div_1_r in D0.
  assert (Z : (x / 256 ^ 8 = 0)%N) by (apply N.div_small; exact Hx). rewrite D7 in Z.
  assert (E7 : ((0 * 256 + (x / 256 ^ 7) mod 256) = x / 256 ^ 7)%N) by (rewrite <- (S (x / 256 ^ 7)%N) at 2; rewrite Z; reflexivity).
  rewrite E7, D6, S, D5, S, D4, S, D3, S, D2, S, D1, S, N.pow_0_r, N.div_1_r, D0, S. reflexivity.
Qed.
Lemma be64_inj n m : fits64 n -> fits64 m -> be64 n = be64 m -> n = m.
Proof. intros Hn Hm E. apply (f_equal dec) in E. rewrite !dec_be64 in E by assumption. lia. Qed.
Lemma app_same {A} (a b : list A) : forall c d, length a = length b -> a ++ c = b ++ d -> a = b /\ c = d.
Proof. revert b. induction a as [|x a IH]; intros [|y b] c d L E; try discriminate; [auto|]. cbn in E. injection E as -> E. destruct (IH b c d) as [-> ->]; auto. Qed.

Lemma f2_len {A B} (R : A -> B -> Prop) a b : Forall2 R a b -> length a = length b.
Proof. induction 1; cbn [length]; congruence. Qed.
Section T.
Variable K : Fld.
Add Field Kf : (f_laws K).
(** ** Normal forms of combinations *)
Lemma total_cons w v c (r : lc K) : total w ((v, c) :: r) = (if var_eqb v w then c else 0) + total w r.
Proof. unfold total, occurrences. cbn [filter fst]. destruct (var_eqb v w); cbn [map fsum snd]; ring. Qed.
Lemma total_nil w : total w ([] : lc K) = 0. Proof. reflexivity. Qed.
Lemma veq v w : var_eqb v w = true -> v = w. Proof. apply var_eqb_iff. Qed.
Lemma total_entry (m : lc K) v c w : total w (entry_add K m v c) = total w m + (if var_eqb v w then c else 0).
Proof.
  induction m as [|[u d] r IH]; cbn [entry_add]; [rewrite total_cons, total_nil; destruct (var_eqb v w); ring|].
  destruct (var_cmp v u) eqn:E; rewrite ?total_cons.
  - apply var_cmp_eq in E. subst u. destruct (var_eqb v w); ring.
  - destruct (var_eqb v w); ring.
  - rewrite IH. ring.
Qed.
Lemma total_fold (l : lc K) w : forall m, total w (fold_left (fun m t => entry_add K m (fst t) (snd t)) l m) = total w m + total w l.
Proof. induction l as [|[v c] r IH]; intro m; cbn [fold_left fst snd]; [rewrite total_nil; ring|]. rewrite IH, total_entry, total_cons. ring. Qed.
Lemma total_filter (l : lc K) w : total w (filter (fun t => negb (feqb (snd t) 0)) l) = total w l.
Proof.
  induction l as [|[v c] r IH]; [reflexivity|]. cbn [filter snd]. destruct (feqb c 0) eqn:E; cbn [negb]; rewrite ?total_cons, IH; [|reflexivity].
  apply feqb_eq in E. subst c. destruct (var_eqb v w); ring.
Qed.
Lemma total_proc (l : lc K) w : total w (proc_lc K l) = total w l.
Proof. unfold proc_lc. rewrite total_filter, total_fold, total_nil. ring. Qed.
Definition below (v : var) (m : lc K) : Prop := Forall (fun t => var_cmp v (fst t) = Lt) m.
Inductive strict : lc K -> Prop := st_nil : strict [] | st_cons v c r : below v r -> strict r -> strict ((v, c) :: r).
Lemma cmp_trans a b c : var_cmp a b = Lt -> var_cmp b c = Lt -> var_cmp a c = Lt.
Proof. intros H1 H2. apply (var_le_lt a b c); [apply var_cmp_lt; exact H1|exact H2]. Qed.
Lemma below_trans a b m : var_cmp a b = Lt -> below b m -> below a m.
Proof. intros H F. unfold below in *. eapply Forall_impl; [|exact F]. intros t Ht. exact (cmp_trans a b (fst t) H Ht). Qed.
Lemma entry_below u m v c : var_cmp u v = Lt -> below u m -> below u (entry_add K m v c).
Proof.
  intros H F. induction m as [|[w d] r IH]; cbn [entry_add]; [repeat constructor; exact H|]. inversion F as [|? ? A B]; subst.
  destruct (var_cmp v w); [constructor; assumption|constructor; [exact H|constructor; assumption]|constructor; [exact A|apply IH; exact B]].
Qed.
Lemma entry_strict m v c : strict m -> strict (entry_add K m v c).
Proof.
  induction 1 as [|w d r B S IH]; cbn [entry_add]; [repeat constructor|]. destruct (var_cmp v w) eqn:E.
  - constructor; assumption.
  - constructor; [constructor; [exact E|apply (below_trans v w r E B)]|constructor; assumption].
  - constructor; [apply entry_below; [apply var_cmp_lt_gt; exact E|exact B]|exact IH].
Qed.
Lemma fold_strict (l : lc K) : forall m, strict m -> strict (fold_left (fun m t => entry_add K m (fst t) (snd t)) l m).
Proof. induction l as [|t r IH]; intros m H; cbn [fold_left]; [exact H|]. apply IH. apply entry_strict. exact H. Qed.
Lemma filter_strict f m : strict m -> strict (filter f m).
Proof.
  induction 1 as [|w d r B S IH]; cbn [filter]; [constructor|]. destruct (f (w, d)); [|exact IH]. constructor; [|exact IH].
  apply Forall_forall. intros t Ht. apply filter_In in Ht. destruct Ht as [Ht _]. exact (proj1 (Forall_forall _ _) B t Ht).
Qed.
Lemma total_below v m : below v m -> total v m = 0.
Proof.
  induction 1 as [|[w d] r H F IH]; [reflexivity|]. rewrite total_cons, IH. cbn [fst] in H. destruct (var_eqb w v) eqn:E; [|ring]. apply veq in E. subst w. rewrite var_cmp_refl in H. discriminate.
Qed.
Lemma strict_unique a : forall b, strict a -> strict b -> Forall (fun t => snd t <> 0) a -> Forall (fun t => snd t <> 0) b -> (forall v, total v a = total v b) -> a = b.
Proof.
  induction a as [|[v c] a IH]; intros [|[w d] b] Sa Sb Na Nb E.
  - reflexivity.
  - exfalso. inversion Sb; subst. inversion Nb as [|? ? N _]; subst. apply N. specialize (E w). rewrite total_nil, total_cons, var_eqb_refl, total_below in E by assumption. cbn [snd]. rewrite E. ring.
  - exfalso. inversion Sa; subst. inversion Na as [|? ? N _]; subst. apply N. specialize (E v). rewrite total_nil, total_cons, var_eqb_refl, total_below in E by assumption. cbn [snd]. rewrite <- E. ring.
  - inversion Sa as [|? ? ? Ba Sa']; subst. inversion Sb as [|? ? ? Bb Sb']; subst. inversion Na as [|? ? Nc Na']; subst. inversion Nb as [|? ? Nd Nb']; subst. cbn [snd] in Nc, Nd.
    destruct (var_cmp v w) eqn:C.
    + apply var_cmp_eq in C. subst w. assert (Ec : c = d).
      { specialize (E v). rewrite !total_cons, var_eqb_refl, !total_below in E by assumption. transitivity (c + 0); [ring|rewrite E; ring]. }
      subst d. f_equal. apply IH; try assumption. intro u. specialize (E u). rewrite !total_cons in E.
      match type of E with ?q + _ = _ => transitivity (q + total u a + - q); [ring|rewrite E; ring] end.
    + exfalso. apply Nc. specialize (E v). rewrite !total_cons, var_eqb_refl, total_below in E by assumption. rewrite total_below in E by (apply (below_trans v w b C Bb)).
      destruct (var_eqb w v) eqn:Q; [apply veq in Q; subst w; rewrite var_cmp_refl in C; discriminate|]. transitivity (c + 0); [ring|rewrite E; ring].
    + exfalso. apply Nd. apply var_cmp_lt_gt in C. specialize (E w). rewrite !total_cons, var_eqb_refl, (total_below w b) in E by assumption. rewrite total_below in E by (apply (below_trans w v a C Ba)).
      destruct (var_eqb v w) eqn:Q; [apply veq in Q; subst w; rewrite var_cmp_refl in C; discriminate|]. transitivity (d + 0); [ring|rewrite <- E; ring].
Qed.
Theorem proc_exact (a b : lc K) : proc_lc K a = proc_lc K b <-> same_lc a b.
Proof.
  split.
  - intros E v. rewrite <- (total_proc a), <- (total_proc b), E. reflexivity.
  - intro H. apply strict_unique.
    + apply filter_strict, fold_strict. constructor.
    + apply filter_strict, fold_strict. constructor.
    + apply Forall_forall. intros t Ht. apply filter_In in Ht. destruct Ht as [_ Ht]. intro E. rewrite (proj2 (feqb_eq K _ _) E) in Ht. discriminate.
    + apply Forall_forall. intros t Ht. apply filter_In in Ht. destruct Ht as [_ Ht]. intro E. rewrite (proj2 (feqb_eq K _ _) E) in Ht. discriminate.
    + intro v. rewrite !total_proc. apply H.
Qed.
Lemma entry_len (m : lc K) v c : (length (entry_add K m v c) <= S (length m))%nat.
Proof. induction m as [|[w d] r IH]; cbn [entry_add length]; [lia|]. destruct (var_cmp v w); cbn [length] in *; lia. Qed.
Lemma fold_len (l : lc K) : forall m, (length (fold_left (fun m t => entry_add K m (fst t) (snd t)) l m) <= length l + length m)%nat.
Proof. induction l as [|t r IH]; intro m; cbn [fold_left length]; [lia|]. specialize (IH (entry_add K m (fst t) (snd t))). pose proof (entry_len m (fst t) (snd t)). lia. Qed.
Lemma filter_len {A} f (l : list A) : (length (filter f l) <= length l)%nat.
Proof. induction l as [|x l IH]; cbn [filter length]; [lia|]. destruct (f x); cbn [length]; lia. Qed.
Lemma proc_len (l : lc K) : (length (proc_lc K l) <= length l)%nat.
Proof. unfold proc_lc. pose proof (filter_len (fun t : var * K => negb (feqb (snd t) 0)) (fold_left (fun m t => entry_add K m (fst t) (snd t)) l [])). pose proof (fold_len l []). cbn [length] in *. lia. Qed.
Lemma entry_vars (Q : var -> Prop) (m : lc K) v c : Q v -> Forall (fun t => Q (fst t)) m -> Forall (fun t => Q (fst t)) (entry_add K m v c).
Proof.
  intros Hv F. induction F as [|[w d] r H F IH]; cbn [entry_add]; [repeat constructor; exact Hv|]. destruct (var_cmp v w); constructor; try assumption. constructor; assumption.
Qed.
Lemma proc_vars (Q : var -> Prop) (l : lc K) : Forall (fun t => Q (fst t)) l -> Forall (fun t => Q (fst t)) (proc_lc K l).
Proof.
  intro F. assert (G : forall m, Forall (fun t => Q (fst t)) m -> Forall (fun t => Q (fst t)) (fold_left (fun m t => entry_add K m (fst t) (snd t)) l m)).
  { induction F as [|t r H F IH]; intros m Hm; cbn [fold_left]; [exact Hm|]. apply IH. apply entry_vars; assumption. }
  specialize (G [] (Forall_nil _)). apply Forall_forall. intros t Ht. apply filter_In in Ht. destruct Ht as [Ht _]. exact (proj1 (Forall_forall _ _) G t Ht).
Qed.
(** ** The bytes *)
Section H.
Variable enc : K -> list N.
Variable len : nat.
Hypothesis Len : (len <= 32)%nat.
Hypothesis Elen : forall x, length (enc x) = len.
Hypothesis Einj : forall x y, enc x = enc y -> x = y.
Definition idx (v : var) : nat := match v with Input i | Aux i => i end.
Definition tb (t : var * K) : list N := (match fst t with Input i => 73%N :: be64 i | Aux i => 65%N :: be64 i end) ++ enc (snd t) ++ repeat 0%N (32 - len).
Lemma term_bytes_ok t : term_bytes K enc t = Ok (tb t).
Proof. unfold term_bytes, tb. rewrite Elen. destruct (Nat.ltb_spec 32 len); [lia|reflexivity]. Qed.
Lemma tb_len t : length (tb t) = 41%nat.
Proof. unfold tb. rewrite !app_length, repeat_length, Elen. destruct t as [[i|i] c]; cbn [fst snd length]; rewrite be64_len; lia. Qed.
Lemma tb_inj t u : fits64 (idx (fst t)) -> fits64 (idx (fst u)) -> tb t = tb u -> t = u.
Proof.
  destruct t as [v c]. destruct u as [w d]. cbn [fst]. intros Hv Hw E. unfold tb in E. cbn [fst snd] in E.
  assert (L : length (match v with Input i => 73%N :: be64 i | Aux i => 65%N :: be64 i end) = length (match w with Input i => 73%N :: be64 i | Aux i => 65%N :: be64 i end)) by (destruct v, w; reflexivity).
  destruct (app_same _ _ _ _ L E) as [E1 E2]. destruct (app_same (enc c) (enc d) (repeat 0%N (32 - len)) (repeat 0%N (32 - len))) as [E3 _]; [rewrite !Elen; reflexivity|exact E2|]. apply Einj in E3. subst d. f_equal.
  destruct v as [i|i], w as [j|j]; try (apply (f_equal (hd 0%N)) in E1; discriminate E1); apply (f_equal (@tl N)) in E1; cbn [tl] in E1; apply be64_inj in E1; try assumption; subst j; reflexivity.
Qed.
Definition tbs (l : lc K) : list N := flat_map tb l.
Lemma terms_bytes_ok l : terms_bytes K enc l = Ok (tbs l).
Proof. induction l as [|t r IH]; [reflexivity|]. cbn [terms_bytes]. rewrite term_bytes_ok, IH. reflexivity. Qed.
Definition lb (l : lc K) : list N := be64 (length (proc_lc K l)) ++ tbs (proc_lc K l).
Lemma lc_bytes_ok l : lc_bytes K enc l = Ok (lb l).
Proof. unfold lc_bytes. rewrite terms_bytes_ok. reflexivity. Qed.
Lemma tbs_inj a : forall b c d, length a = length b -> Forall (fun t => fits64 (idx (fst t))) a -> Forall (fun t => fits64 (idx (fst t))) b -> tbs a ++ c = tbs b ++ d -> a = b /\ c = d.
Proof.
  induction a as [|t a IH]; intros [|u b] c d L Fa Fb E; try discriminate; [auto|]. cbn [tbs flat_map] in E. rewrite <- !app_assoc in E.
  destruct (app_same (tb t) (tb u) _ _ (eq_trans (tb_len t) (eq_sym (tb_len u))) E) as [E1 E2]. inversion Fa; subst. inversion Fb; subst. apply tb_inj in E1; try assumption. subst u.
  destruct (IH b c d) as [-> ->]; auto.
Qed.
Lemma fits_le n m : (n <= m)%nat -> fits64 m -> fits64 n. Proof. unfold fits64. lia. Qed.
Lemma lb_inj a b c d : lc_fits a -> lc_fits b -> lb a ++ c = lb b ++ d -> same_lc a b /\ c = d.
Proof.
  intros [Na Fa] [Nb Fb] E. unfold lb in E. rewrite <- !app_assoc in E. apply app_same in E; [|reflexivity]. destruct E as [E1 E2].
  apply be64_inj in E1; [|apply (fits_le _ _ (proc_len a) Na)|apply (fits_le _ _ (proc_len b) Nb)].
  assert (Q : forall l : lc K, Forall (fun t => match fst t with Input i | Aux i => fits64 i end) l -> Forall (fun t => fits64 (idx (fst t))) (proc_lc K l)).
  { intros l F. apply (proc_vars (fun v => fits64 (idx v))). eapply Forall_impl; [|exact F]. intros [[i|i] x] H; exact H. }
  apply tbs_inj in E2; [|exact E1|apply Q; exact Fa|apply Q; exact Fb]. destruct E2 as [E2 E3]. split; [apply proc_exact; exact E2|exact E3].
Qed.
Definition cb_ (l : list (constraint K * string)) : list N := flat_map (fun c => lb (ca (fst c)) ++ lb (cb (fst c)) ++ lb (cc (fst c))) l.
Lemma cons_bytes_ok l : cons_bytes K enc l = Ok (cb_ l).
Proof. induction l as [|[c p] r IH]; [reflexivity|]. cbn [cons_bytes]. rewrite !lc_bytes_ok, IH. cbn [rbind]. unfold cb_. cbn [flat_map fst]. rewrite <- !app_assoc. reflexivity. Qed.
Definition all_bytes (s : tcs K) : list N := be64 (length (t_inps K s)) ++ be64 (length (t_auxs K s)) ++ be64 (length (t_cons K s)) ++ cb_ (t_cons K s).
Lemma hash_ok Hf s : t_hash K enc Hf s = Ok (Hf (all_bytes s)).
Proof. unfold t_hash. rewrite cons_bytes_ok. reflexivity. Qed.
Lemma lb_same a b : same_lc a b -> lb a = lb b.
Proof. intro H. unfold lb. rewrite (proj2 (proc_exact a b) H). reflexivity. Qed.
Lemma cb_exact a : forall b, length a = length b ->
  Forall (fun c : constraint K * string => lc_fits (ca (fst c)) /\ lc_fits (cb (fst c)) /\ lc_fits (cc (fst c))) a ->
  Forall (fun c : constraint K * string => lc_fits (ca (fst c)) /\ lc_fits (cb (fst c)) /\ lc_fits (cc (fst c))) b ->
  (cb_ a = cb_ b <-> Forall2 same_constraint (map fst a) (map fst b)).
Proof.
  induction a as [|[x p] a IH]; intros [|[y q] b] L Fa Fb; try discriminate.
  - split; [constructor|reflexivity].
  - cbn [map fst]. unfold cb_. cbn [flat_map fst]. inversion Fa as [|? ? (A1 & A2 & A3) Fa']; subst. inversion Fb as [|? ? (B1 & B2 & B3) Fb']; subst. cbn [fst] in *.
    specialize (IH b ltac:(cbn in L; lia) Fa' Fb'). split.
    + intro E. rewrite <- !app_assoc in E. apply lb_inj in E; try assumption. destruct E as [S1 E]. apply lb_inj in E; try assumption. destruct E as [S2 E]. apply lb_inj in E; try assumption. destruct E as [S3 E].
      constructor; [repeat split; assumption|]. apply IH. exact E.
    + intro E. inversion E as [|? ? ? ? (S1 & S2 & S3) E']; subst. apply IH in E'. unfold cb_ in E'. rewrite (lb_same _ _ S1), (lb_same _ _ S2), (lb_same _ _ S3), E'. reflexivity.
Qed.
End H.
Theorem hash_exact (enc : K -> list N) len s s' : (len <= 32)%nat -> (forall x, length (enc x) = len) -> (forall x y, enc x = enc y -> x = y) -> sizes_fit s -> sizes_fit s' ->
  ((forall H, t_hash K enc H s = t_hash K enc H s') <->
   length (t_inps K s) = length (t_inps K s') /\ length (t_auxs K s) = length (t_auxs K s') /\ Forall2 same_constraint (map fst (t_cons K s)) (map fst (t_cons K s'))).
Proof.
  intros L1 L2 Inj (F1 & F2 & F3 & F4) (G1 & G2 & G3 & G4).
  assert (Q : (forall H, t_hash K enc H s = t_hash K enc H s') <-> all_bytes enc len s = all_bytes enc len s').
  { split.
    - intro A. destruct (list_eq_dec N.eq_dec (all_bytes enc len s) (all_bytes enc len s')) as [E|N]; [exact E|]. exfalso.
      specialize (A (fun l => if list_eq_dec N.eq_dec l (all_bytes enc len s) then "a"%string else "b"%string)). rewrite !(hash_ok enc len L1 L2) in A.
      destruct (list_eq_dec N.eq_dec (all_bytes enc len s) (all_bytes enc len s)) as [_|X]; [|contradiction]. destruct (list_eq_dec N.eq_dec (all_bytes enc len s') (all_bytes enc len s)) as [X|_]; [symmetry in X; contradiction|]. discriminate A.
    - intros E H. rewrite !(hash_ok enc len L1 L2), E. reflexivity. }
  rewrite Q. unfold all_bytes. split.
  - intro E. apply app_same in E; [|reflexivity]. destruct E as [E1 E]. apply app_same in E; [|reflexivity]. destruct E as [E2 E]. apply app_same in E; [|reflexivity]. destruct E as [E3 E].
    apply be64_inj in E1; try assumption. apply be64_inj in E2; try assumption. apply be64_inj in E3; try assumption. split; [exact E1|]. split; [exact E2|].
    apply (cb_exact enc len L1 L2 Inj); assumption.
  - intros (E1 & E2 & E3). assert (E4 : length (t_cons K s) = length (t_cons K s')) by (apply f2_len in E3; rewrite !map_length in E3; exact E3).
    rewrite E1, E2, E4. do 3 f_equal. apply (cb_exact enc len L1 L2 Inj); assumption.
Qed.
End T.
