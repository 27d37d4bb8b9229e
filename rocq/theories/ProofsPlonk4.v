(** The grand product. *)
From Coq Require Import Permutation.
From Verif Require Import ModelPlonk SpecPlonk ProofsPC ProofsPlonk1 ProofsPlonk2 ProofsPlonk3.
Local Open Scope fld_scope.
Section P.
Variable K : Fld.
Add Field Kf : (f_laws K).
Lemma fprod_perm (l m : list K) : Permutation l m -> fprod l = fprod m.
Proof. induction 1; cbn [fprod]; try ring; [rewrite IHPermutation; reflexivity|congruence]. Qed.
Lemma fprod_map_mul {A} (f g : A -> K) l : fprod (map (fun x => f x * g x) l) = fprod (map f l) * fprod (map g l).
Proof. induction l as [|x l IH]; cbn [map fprod]; [ring|]. rewrite IH. ring. Qed.
Lemma fprod_nz (l : list K) : (forall x, In x l -> x <> 0) -> fprod l <> 0.
Proof. induction l as [|x l IH]; intro H; cbn [fprod]; [apply f_1_neq_0|]. apply f_mul_nz; [apply H; left; reflexivity|]. apply IH. intros; apply H; right; assumption. Qed.
Lemma run_prod_spec l : forall acc : K, let '(z, e) := run_prod acc l in length z = length l /\ e = acc * fprod l /\ forall i, (i < length l)%nat -> nth i z 0 = acc * fprod (firstn i l).
Proof.
  induction l as [|p l IH]; intro acc; cbn [run_prod].
  - split; [reflexivity|]. split; [cbn; ring|]. intros i H. cbn in H. lia.
  - specialize (IH (acc * p)). destruct (run_prod (acc * p) l) as [z e]. destruct IH as (L & E & H). split; [cbn; lia|]. split; [rewrite E; cbn [fprod]; ring|].
    intros [|i] Hi; cbn [nth firstn fprod]; [ring|]. rewrite H by (cbn in Hi; lia). ring.
Qed.
Lemma nth_ms {A} (f : nat -> A) (d : A) n i : (i < n)%nat -> nth i (map f (seq 0 n)) d = f i.
Proof. intro H. rewrite (nth_indep _ _ (f 0%nat)) by (rewrite map_length, seq_length; exact H). rewrite map_nth, seq_nth by exact H. reflexivity. Qed.
(** The two products of row i. *)
Definition pnum (x : index K) (w : list (list K)) (beta gamma : K) (i : nat) : K :=
  let ks := i_ks (x_info x) in let root := dgen (i_dn (x_info x)) ^ i in let wv := fun k => nth i (nth k w []) 0 in
  nfac beta gamma (wv 0%nat) root (nth 0 ks 0) * nfac beta gamma (wv 1%nat) root (nth 1 ks 0) * nfac beta gamma (wv 2%nat) root (nth 2 ks 0) * nfac beta gamma (wv 3%nat) root (nth 3 ks 0).
Definition pden (x : index K) (w : list (list K)) (beta gamma : K) (i : nat) : K :=
  let wv := fun k => nth i (nth k w []) 0 in
  dfac beta gamma (wv 0%nat) (nth i (t_val (x_s0 x)) 0) * dfac beta gamma (wv 1%nat) (nth i (t_val (x_s1 x)) 0) * dfac beta gamma (wv 2%nat) (nth i (t_val (x_s2 x)) 0) * dfac beta gamma (wv 3%nat) (nth i (t_val (x_s3 x)) 0).
Lemma perm_ratio_eq x w beta gamma i : perm_ratio x w beta gamma i = if feqb (pden x w beta gamma i) 0 then Panic else Ok (pnum x w beta gamma i * finv (pden x w beta gamma i)).
Proof. reflexivity. Qed.
Section Z.
Variables (x : index K) (w : list (list K)) (beta gamma : K).
Notation n := (dsize (i_dn (x_info x))). Notation num := (pnum x w beta gamma). Notation den := (pden x w beta gamma).
Lemma ratios_ok m s : (forall i, (s <= i < s + m)%nat -> den i <> 0) -> mapR (perm_ratio x w beta gamma) (seq s m) = Ok (map (fun i => num i * finv (den i)) (seq s m)).
Proof.
  intro H. apply mapR_val. intros i I. apply in_seq in I. rewrite perm_ratio_eq. rewrite (proj2 (feqb_neq K _ _) (H i I)). reflexivity.
Qed.
Lemma ratios_bad l : (exists i, In i l /\ den i = 0) -> mapR (perm_ratio x w beta gamma) l = Panic.
Proof.
  intros (i & I & E). induction l as [|j l IH]; [destruct I|]. cbn [mapR]. rewrite perm_ratio_eq. destruct (feqb (den j) 0) eqn:Ej; [reflexivity|]. cbn [rbind]. destruct I as [->|I]; [apply feqb_neq in Ej; contradiction|]. rewrite IH by exact I. reflexivity.
Qed.
Lemma ratios_dec m : (forall i, (i < m)%nat -> den i <> 0) \/ exists i, (i < m)%nat /\ den i = 0.
Proof.
  induction m as [|m [IH|(i & H & E)]]; [left; intros; lia| |right; exists i; split; [lia|exact E]]. destruct (feq_dec K (den m) 0) as [E|E]; [right; exists m; split; [lia|exact E]|]. left. intros i Hi. destruct (Nat.eq_dec i m) as [->|]; [exact E|apply IH; lia].
Qed.
Lemma compute_z_bad i : (i < n)%nat -> den i = 0 -> compute_z x w beta gamma = Panic.
Proof. intros H E. unfold compute_z. rewrite ratios_bad; [reflexivity|]. exists i. split; [apply in_seq; lia|exact E]. Qed.
Definition zlist := map (fun j => fprod (map (fun i => num i * finv (den i)) (seq 0 j))) (seq 0 n).
Lemma compute_z_eq : (forall i, (i < n)%nat -> den i <> 0) -> compute_z x w beta gamma = if feqb (fprod (map (fun i => num i * finv (den i)) (seq 0 n))) 1 then Ok zlist else Panic.
Proof.
  intro H. unfold compute_z. rewrite ratios_ok by (intros; apply H; lia). cbn [rbind]. pose proof (run_prod_spec (map (fun i => num i * finv (den i)) (seq 0 n)) 1) as R.
  destruct (run_prod 1 _) as [z e]. destruct R as (L & -> & Hz). rewrite map_length, seq_length in L, Hz. replace (1 * fprod (map (fun i => num i * finv (den i)) (seq 0 n))) with (fprod (map (fun i => num i * finv (den i)) (seq 0 n))) by ring.
  replace z with zlist; [reflexivity|]. unfold zlist. apply (nth_ext _ _ 0 0); [rewrite map_length, seq_length; congruence|]. intros i Hi. rewrite map_length, seq_length in Hi. rewrite Hz by exact Hi.
  rewrite nth_ms by exact Hi.
  rewrite firstn_map. replace (firstn i (seq 0 n)) with (seq 0 i); [ring|]. replace (seq 0 n) with (seq 0 i ++ seq i (n - i)) by (rewrite <- seq_app; f_equal; lia). rewrite firstn_app, seq_length, Nat.sub_diag, firstn_O, app_nil_r, firstn_all2 by (rewrite seq_length; lia). reflexivity.
Qed.
Lemma compute_z_inv z : compute_z x w beta gamma = Ok z -> (0 < n)%nat -> length z = n /\ nth 0 z 0 = 1 /\ (forall i, (i < n)%nat -> den i <> 0) /\
  forall i, (i < n)%nat -> nth (Nat.modulo (S i) n) z 0 * den i = nth i z 0 * num i.
Proof.
  intros E Hn. destruct (ratios_dec n) as [H|(i & Hi & Ei)]; [|rewrite (compute_z_bad i Hi Ei) in E; discriminate]. rewrite (compute_z_eq H) in E. destruct (feqb _ 1) eqn:E1; [|discriminate]. apply feqb_eq in E1. inversion E; subst z. clear E.
  assert (NZ : forall i, (i < n)%nat -> nth i zlist 0 = fprod (map (fun i => num i * finv (den i)) (seq 0 i))).
  { intros i Hi. unfold zlist. rewrite nth_ms by exact Hi. reflexivity. }
  split; [unfold zlist; rewrite map_length, seq_length; reflexivity|]. split; [rewrite NZ by exact Hn; reflexivity|]. split; [exact H|].
  assert (ST : forall i, fprod (map (fun i => num i * finv (den i)) (seq 0 (S i))) = fprod (map (fun i => num i * finv (den i)) (seq 0 i)) * (num i * finv (den i))).
  { intro i. rewrite seq_S, map_app, fprod_app. cbn [map fprod Nat.add]. ring. }
  intros i Hi. assert (SI : nth (Nat.modulo (S i) n) zlist 0 = fprod (map (fun i => num i * finv (den i)) (seq 0 (S i)))).
  { destruct (Nat.eq_dec (S i) n) as [En|En]; [|rewrite Nat.mod_small by lia; apply NZ; lia]. rewrite En at 1. rewrite Nat.mod_same by lia. rewrite NZ by exact Hn. transitivity (@f1 K); [reflexivity|]. rewrite En. symmetry. exact E1. }
  rewrite SI, ST, (NZ i Hi). replace (fprod (map (fun i0 => num i0 * finv (den i0)) (seq 0 i)) * num i) with (fprod (map (fun i0 => num i0 * finv (den i0)) (seq 0 i)) * num i * (finv (den i) * den i)) by (rewrite finv_l by (apply H; exact Hi); ring). ring.
Qed.
Lemma ratio_prod m : (forall i, (i < m)%nat -> den i <> 0) -> fprod (map (fun i => num i * finv (den i)) (seq 0 m)) * fprod (map den (seq 0 m)) = fprod (map num (seq 0 m)).
Proof.
  induction m as [|m IH]; intro H; [cbn; ring|]. rewrite seq_S, !map_app, !fprod_app. cbn [map fprod Nat.add]. rewrite <- IH by (intros; apply H; lia).
  replace (fprod (map (fun i => num i * finv (den i)) (seq 0 m)) * fprod (map den (seq 0 m)) * (num m * 1)) with (fprod (map (fun i => num i * finv (den i)) (seq 0 m)) * fprod (map den (seq 0 m)) * num m * (finv (den m) * den m)) by (rewrite finv_l by (apply H; lia); ring). ring.
Qed.
Lemma compute_z_closes : fprod (map num (seq 0 n)) = fprod (map den (seq 0 n)) -> (forall i, (i < n)%nat -> den i <> 0) -> exists z, compute_z x w beta gamma = Ok z.
Proof.
  intros E H. rewrite (compute_z_eq H). pose proof (ratio_prod n H) as R. rewrite E in R.
  assert (D : fprod (map den (seq 0 n)) <> 0). { apply fprod_nz. intros y I. apply in_map_iff in I. destruct I as (i & <- & I). apply H. apply in_seq in I. lia. }
  assert (G : fprod (map (fun i => num i * finv (den i)) (seq 0 n)) = 1). { apply (f_mul_cancel_l K (fprod (map den (seq 0 n)))); [exact D|]. transitivity (fprod (map (fun i => num i * finv (den i)) (seq 0 n)) * fprod (map den (seq 0 n))); [ring|]. rewrite R. ring. }
  rewrite G, feqb_refl. eauto.
Qed.
End Z.
Lemma fprod_slots n (f : wire -> K) : fprod (map f (slots n)) = fprod (map (fun i => f (0, i)%nat * f (1, i)%nat * f (2, i)%nat * f (3, i)%nat) (seq 0 n)).
Proof.
  unfold slots. cbn [seq flat_map]. rewrite !map_app, !fprod_app, !map_map. cbn [map fprod].
  rewrite (fprod_map_mul (fun i => f (0, i)%nat * f (1, i)%nat * f (2, i)%nat) (fun i => f (3, i)%nat)), (fprod_map_mul (fun i => f (0, i)%nat * f (1, i)%nat) (fun i => f (2, i)%nat)), (fprod_map_mul (fun i => f (0, i)%nat) (fun i => f (1, i)%nat)). ring.
Qed.
(** *** the index *)
Definition pad (n m : nat) (v : list K) : list K := v ++ repeat 0 (n - m).
Record good_index (dnew : nat -> option (dom K)) (c : composer K) (ks : list K) (d d4 : dom K) (p : list (list wire)) (x : index K) : Prop := {
  gi_info : x_info x = mkInfo K (dsize d) ks d;
  gi_q0 : x_q0 x = mk_tri d d4 (pad (dsize d) (c_n c) (c_q0 c)); gi_q1 : x_q1 x = mk_tri d d4 (pad (dsize d) (c_n c) (c_q1 c));
  gi_q2 : x_q2 x = mk_tri d d4 (pad (dsize d) (c_n c) (c_q2 c)); gi_q3 : x_q3 x = mk_tri d d4 (pad (dsize d) (c_n c) (c_q3 c));
  gi_qm : x_qm x = mk_tri d d4 (pad (dsize d) (c_n c) (c_qm c)); gi_qc : x_qc x = mk_tri d d4 (pad (dsize d) (c_n c) (c_qc c)); gi_qa : x_qa x = mk_tri d d4 (pad (dsize d) (c_n c) (c_qa c));
  gi_s0 : x_s0 x = mk_tri d d4 (map (sigma_of d ks) (nth 0 p [])); gi_s1 : x_s1 x = mk_tri d d4 (map (sigma_of d ks) (nth 1 p []));
  gi_s2 : x_s2 x = mk_tri d d4 (map (sigma_of d ks) (nth 2 p [])); gi_s3 : x_s3 x = mk_tri d d4 (map (sigma_of d ks) (nth 3 p []));
  gi_l1 : x_l1 x = coset_dft d4 (first_lagrange_poly d); gi_d4 : x_d4 x = d4;
  gi_vi : mapR (fun v => if feqb v 0 then Panic else Ok (finv v)) (coset_dft d4 (vanishing_poly d)) = Ok (x_vi x) }.
Lemma index_inv (dnew : nat -> option (dom K)) c order ks x : pwf K c -> fft_ok dnew -> Permutation order (seq 0 (length (c_vmap c))) -> plonk_index dnew c order ks = Ok x ->
  exists d d4 p, dnew (c_n c) = Some d /\ dnew (4 * dsize d)%nat = Some d4 /\ wire_perm c order (dsize d) = Ok p /\ good_index dnew c ks d d4 p x.
Proof.
  intros W F O E. unfold plonk_index in E. destruct (dnew (c_n c)) as [d|] eqn:D; [|unfold compose in E; rewrite D in E; discriminate].
  destruct (compose_ok K dnew c order ks d W F D O) as (p & P & EC). cbv zeta in EC. rewrite EC in E. cbn [rbind s_n s_q0 s_q1 s_q2 s_q3 s_qm s_qc s_qa s_s0 s_s1 s_s2 s_s3] in E. destruct (fft_ok_dn K _ _ _ F D) as (_ & _ & DD).
  rewrite DD in E. destruct (dnew (4 * dsize d)%nat) as [d4|] eqn:D4; [|discriminate]. destruct (mapR _ (coset_dft d4 (vanishing_poly d))) as [vi| |] eqn:VI; try discriminate. cbn [rbind] in E. inversion E; subst x. clear E.
  exists d, d4, p. do 3 (split; [assumption || reflexivity|]). constructor; reflexivity || exact VI.
Qed.
Lemma nth_sigma (d : dom K) (ks : list K) p k i : shape (dsize d) p -> (k < 4)%nat -> (i < dsize d)%nat -> nth i (map (sigma_of d ks) (nth k p [])) 0 = sigma_of d ks (target p (k, i)).
Proof.
  intros [_ S] Hk Hi. unfold target. cbn [fst snd]. rewrite (nth_indep _ _ (sigma_of d ks (k, i))) by (rewrite map_length, S; assumption). apply map_nth.
Qed.
Section H.
Variable dnew : nat -> option (dom K).
Variables (c : composer K) (order : list nat) (ks : list K) (d d4 : dom K) (p : list (list wire)) (x : index K).
Hypothesis W : pwf K c.
Hypothesis L : (c_n c <= dsize d)%nat.
Hypothesis O : Permutation order (seq 0 (length (c_vmap c))).
Hypothesis P : wire_perm c order (dsize d) = Ok p.
Hypothesis G : good_index dnew c ks d d4 p x.
Definition wit : list (list K) := map (wvals K c (dsize d)) [0; 1; 2; 3]%nat.
Definition wval (s : wire) : K := match slot_var c s with Some v => asg c v | None => 0 end.
Lemma nth_wit k i : (k < 4)%nat -> nth i (nth k wit []) 0 = wval (k, i).
Proof. intro H. unfold wit. rewrite (nth_indep _ _ (wvals K c (dsize d) 0%nat)) by exact H. rewrite map_nth. destruct k as [|[|[|[|k]]]]; cbn [nth]; try lia; apply nth_wvals; auto. Qed.
Lemma wval_inv s : wval (target p s) = wval s.
Proof. unfold wval. rewrite (wire_perm_var K c (dsize d) order W L O p s P). reflexivity. Qed.
Lemma perm_shape : shape (dsize d) p.
Proof. destruct (wire_perm_spec K c (dsize d) order W L O) as (p0 & E & S & _). congruence. Qed.
Definition gfac (beta gamma : K) (s : wire) : K := wval s + beta * sigma_of d ks s + gamma.
Lemma pnum_honest beta gamma i : pnum x wit beta gamma i = gfac beta gamma (0, i)%nat * gfac beta gamma (1, i)%nat * gfac beta gamma (2, i)%nat * gfac beta gamma (3, i)%nat.
Proof. unfold pnum. rewrite (gi_info _ _ _ _ _ _ _ G). cbn [i_ks i_dn]. cbv zeta. rewrite !nth_wit by lia. unfold nfac, gfac, sigma_of. cbn [fst snd]. ring. Qed.
Lemma pden_honest beta gamma i : (i < dsize d)%nat -> pden x wit beta gamma i = gfac beta gamma (target p (0, i)%nat) * gfac beta gamma (target p (1, i)%nat) * gfac beta gamma (target p (2, i)%nat) * gfac beta gamma (target p (3, i)%nat).
Proof.
  intro Hi. unfold pden. rewrite (gi_s0 _ _ _ _ _ _ _ G), (gi_s1 _ _ _ _ _ _ _ G), (gi_s2 _ _ _ _ _ _ _ G), (gi_s3 _ _ _ _ _ _ _ G). unfold mk_tri. cbn [t_val]. cbv zeta. rewrite !nth_wit by lia. rewrite !nth_sigma by (try exact perm_shape; lia || exact Hi).
  unfold dfac, gfac. rewrite !wval_inv. ring.
Qed.
Lemma honest_prod beta gamma : fprod (map (pnum x wit beta gamma) (seq 0 (dsize d))) = fprod (map (pden x wit beta gamma) (seq 0 (dsize d))).
Proof.
  rewrite (map_ext _ _ (pnum_honest beta gamma)). rewrite <- (fprod_slots (dsize d) (gfac beta gamma)). rewrite (map_ext_in (pden x wit beta gamma) _ _ (fun i I => pden_honest beta gamma i (proj2 (proj1 (in_seq (dsize d) 0 i) I)))).
  rewrite <- (fprod_slots (dsize d) (fun s => gfac beta gamma (target p s))). rewrite <- (map_map (target p) (gfac beta gamma)). apply fprod_perm. apply Permutation_map, Permutation_sym. exact (wire_perm_bij K c (dsize d) order W L O p P).
Qed.
Lemma honest_z beta gamma : (forall s, In s (slots (dsize d)) -> gfac beta gamma s <> 0) -> exists z, compute_z x wit beta gamma = Ok z.
Proof.
  intro H. apply compute_z_closes; rewrite (gi_info _ _ _ _ _ _ _ G); cbn [i_dn]; [apply honest_prod|]. intros i Hi. rewrite pden_honest by exact Hi.
  assert (T : forall k, (k < 4)%nat -> gfac beta gamma (target p (k, i)) <> 0).
  { intros k Hk. apply H. eapply Permutation_in; [exact (wire_perm_bij K c (dsize d) order W L O p P)|]. apply in_map. apply in_slots. split; [exact Hk|exact Hi]. }
  repeat apply f_mul_nz; apply T; lia.
Qed.
Lemma honest_z_bad beta gamma s : In s (slots (dsize d)) -> gfac beta gamma s = 0 -> compute_z x wit beta gamma = Panic.
Proof.
  intros I E. assert (exists u, In u (slots (dsize d)) /\ target p u = s) as (u & Iu & <-).
  { apply (Permutation_in _ (Permutation_sym (wire_perm_bij K c (dsize d) order W L O p P))) in I. apply in_map_iff in I. destruct I as (u & <- & Iu). eauto. }
  apply in_slots in Iu. destruct u as [k i]. destruct Iu as [Hk Hi]. cbn [fst snd] in *. apply (compute_z_bad x wit beta gamma i); [rewrite (gi_info _ _ _ _ _ _ _ G); exact Hi|].
  rewrite pden_honest by exact Hi. destruct k as [|[|[|[|k]]]]; try lia; rewrite E; ring.
Qed.
End H.
End P.
