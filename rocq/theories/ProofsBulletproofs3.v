(** Matrices of a synthesised system and the top-level completeness of the Bulletproofs interface. *)
From Verif Require Import Field Poly Module ModTac ModelTranscript ModelLC SpecLC ProofsLC ModelCS SpecCS ModelGroth16 SpecGroth16 ProofsGroth16 ModelBulletproofs SpecBulletproofs ProofsIPP ProofsBulletproofs ProofsBulletproofs2.
Local Open Scope fld_scope.
Section R.
Variable K : Fld.
Add Field Kf : (f_laws K).
Lemma nth_upd (a : list K) : forall j c i, nth i (upd_at j (fun _ => c) a) 0 = if Nat.eqb i j && Nat.ltb j (length a) then c else nth i a 0.
Proof.
  induction a as [|b a IH]; intros [|j] c [|i]; cbn [upd_at nth length]; try reflexivity.
  - rewrite andb_false_r. reflexivity.
  - rewrite IH. reflexivity.
Qed.
Lemma row_fill_len ni l : forall row row', row_fill K ni l row = Ok row' -> length row' = length row.
Proof.
  induction l as [|[v c] l IH]; intros row row' E; cbn [row_fill] in E; [injection E as <-; reflexivity|].
  destruct (Nat.ltb _ _); [|discriminate]. apply IH in E. rewrite E, length_upd. reflexivity.
Qed.
Lemma var_eqb_iff (a b : var) : var_eqb a b = true <-> a = b.
Proof. split; [|intros ->; apply var_eqb_refl]. destruct a, b; cbn; try discriminate; intro H; apply Nat.eqb_eq in H; subst; reflexivity. Qed.
Lemma vpos_inj (s : cs K) u v : allocated s u -> allocated s v -> var_pos (length (inps s)) u = var_pos (length (inps s)) v -> u = v.
Proof. destruct u, v; cbn; intros; f_equal; try lia. Qed.
(** Entry left for an allocated variable: the last coefficient written. *)
Lemma row_fill_last (s : cs K) l : forall row row', Forall (fun t => allocated s (fst t)) l -> row_fill K (length (inps s)) l row = Ok row' ->
  forall v, allocated s v -> nth (var_pos (length (inps s)) v) row' 0 = last_coeff l v (nth (var_pos (length (inps s)) v) row 0).
Proof.
  induction l as [|[w c] l IH]; intros row row' A E v Hv; cbn [row_fill] in E; [injection E as <-; reflexivity|].
  inversion A as [|? ? Aw A']; subst. cbn [fst] in Aw. change (match w with Input i => i | Aux i => (length (inps s) + i)%nat end) with (var_pos (length (inps s)) w) in E.
  destruct (Nat.ltb (var_pos (length (inps s)) w) (length row)) eqn:L; [|discriminate]. rewrite (IH _ _ A' E v Hv), nth_upd, L, andb_true_r. cbn [last_coeff]. f_equal.
  destruct (var_eqb w v) eqn:Ew.
  - apply var_eqb_iff in Ew. subst. rewrite Nat.eqb_refl. reflexivity.
  - destruct (Nat.eqb_spec (var_pos (length (inps s)) v) (var_pos (length (inps s)) w)) as [Ep|]; [|reflexivity].
    apply vpos_inj in Ep; [|assumption|assumption]. subst. rewrite var_eqb_refl in Ew. discriminate.
Qed.
Lemma row_fill_ok (s : cs K) l : forall row, Forall (fun t => allocated s (fst t)) l -> length row = (length (inps s) + length (auxs s))%nat -> exists row', row_fill K (length (inps s)) l row = Ok row'.
Proof.
  induction l as [|[w c] l IH]; intros row A L; cbn [row_fill]; [eauto|]. inversion A as [|? ? Aw A']; subst. cbn [fst] in Aw.
  assert (Hl : ((match w with Input i => i | Aux i => (length (inps s) + i)%nat end) < length row)%nat) by (rewrite L; destruct w; cbn in Aw; lia).
  apply Nat.ltb_lt in Hl. rewrite Hl. apply IH; [exact A'|]. rewrite length_upd. exact L.
Qed.
(** A term is forgotten as soon as a later term names the same variable. *)
Lemma row_fill_idem (s : cs K) (v : var) (c : K) l : forall row, Forall (fun t => allocated s (fst t)) l -> allocated s v -> length row = (length (inps s) + length (auxs s))%nat -> In v (map fst l) ->
  row_fill K (length (inps s)) ((v, c) :: l) row = row_fill K (length (inps s)) l row.
Proof.
  intros row A Av L I. destruct (row_fill_ok s ((v, c) :: l) row) as [r1 E1]; [constructor; assumption|exact L|]. destruct (row_fill_ok s l row) as [r2 E2]; [assumption|exact L|].
  rewrite E1, E2. f_equal. apply (nth_ext _ _ 0 0); [rewrite (row_fill_len _ _ _ _ E1), (row_fill_len _ _ _ _ E2); reflexivity|].
  intros j Hj. rewrite (row_fill_len _ _ _ _ E1), L in Hj.
  assert (exists u, allocated s u /\ var_pos (length (inps s)) u = j) as (u & Au & <-).
  { destruct (Nat.lt_ge_cases j (length (inps s))) as [H|H]; [exists (Input j)|exists (Aux (j - length (inps s)))]; cbn; split; lia. }
  assert (A1 : Forall (fun t : var * K => allocated s (fst t)) ((v, c) :: l)) by (constructor; assumption).
  rewrite (row_fill_last s _ _ _ A1 E1 u Au), (row_fill_last s _ _ _ A E2 u Au). cbn [last_coeff]. destruct (var_eqb v u) eqn:Ev; [|reflexivity].
  apply var_eqb_iff in Ev. subst u. clear - I. generalize (nth (var_pos (length (inps s)) v) row 0). revert c. induction l as [|[w e] l IH]; intros c d; [destruct I|].
  cbn [last_coeff]. destruct (var_eqb w v) eqn:Ew; [reflexivity|]. apply IH. destruct I as [I|I]; [|exact I]. cbn in I. subst. rewrite var_eqb_refl in Ew. discriminate.
Qed.
Theorem row_fill_shadow (s : cs K) (v : var) (c : K) l2 : forall l1 row, Forall (fun t => allocated s (fst t)) (l1 ++ (v, c) :: l2) -> length row = (length (inps s) + length (auxs s))%nat -> In v (map fst l2) ->
  row_fill K (length (inps s)) (l1 ++ (v, c) :: l2) row = row_fill K (length (inps s)) (l1 ++ l2) row.
Proof.
  induction l1 as [|[w e] l1 IH]; intros row A L I; cbn [app] in *.
  - inversion A as [|? ? Av A2]; subst. apply row_fill_idem; assumption.
  - inversion A as [|? ? Aw A']; subst. cbn [row_fill]. destruct (Nat.ltb _ _); [|reflexivity]. apply IH; [exact A'| |exact I]. rewrite length_upd. exact L.
Qed.
(** Without repetitions the row has the value of the combination. *)
Lemma row_fill_eval (s : cs K) l : forall row row', Forall (fun t => allocated s (fst t)) l -> NoDup (map fst l) ->
  length row = (length (inps s) + length (auxs s))%nat -> (forall v, In v (map fst l) -> nth (var_pos (length (inps s)) v) row 0 = 0) ->
  row_fill K (length (inps s)) l row = Ok row' -> forall x, dot row' (full_vector x s) = dot row (full_vector x s) + eval x l.
Proof.
  induction l as [|[w c] l IH]; intros row row' A N L Z E x; cbn [row_fill] in E.
  - injection E as <-. unfold eval. cbn. ring.
  - inversion A as [|? ? Aw A']; subst. cbn [map fst] in N. inversion N as [|? ? Nw N']; subst. cbn [fst] in Aw.
    change (match w with Input j => j | Aux j => (length (inps s) + j)%nat end) with (var_pos (length (inps s)) w) in E.
    destruct (Nat.ltb_spec (var_pos (length (inps s)) w) (length row)) as [Lw|]; [|discriminate].
    rewrite (fun L' Z' => IH _ _ A' N' L' Z' E x); [|rewrite length_upd; exact L|].
    + rewrite dot_upd by (try exact Lw; rewrite length_full; auto). destruct (nth_full K x s w Aw) as [-> _].
      rewrite (Z w) by (left; reflexivity). unfold eval. cbn [map fsum fst snd]. ring.
    + intros v Iv. rewrite nth_upd. destruct (Nat.eqb_spec (var_pos (length (inps s)) v) (var_pos (length (inps s)) w)) as [Ep|].
      * exfalso. apply Nw. rewrite Forall_forall in A'. apply in_map_iff in Iv. destruct Iv as ((v' & c') & <- & Iv). cbn in Ep. apply A' in Iv as Av. cbn in Av.
        apply (vpos_inj s) in Ep; [|assumption|assumption]. rewrite <- Ep. apply in_map_iff. exists (v', c'). auto.
      * cbn [andb]. apply Z. right. exact Iv.
Qed.
Lemma rows_fill_ok (s : cs K) (f : constraint K -> lc K) cl : Forall (fun c => Forall (fun t => allocated s (fst t)) (f c)) cl ->
  exists m, rows_fill K (length (inps s)) (length (inps s) + length (auxs s)) (map f cl) = Ok m /\ length m = length cl /\
    Forall (fun row => length row = (length (inps s) + length (auxs s))%nat) m /\
    forall i, (i < length cl)%nat -> row_fill K (length (inps s)) (nth i (map f cl) []) (repeat 0 (length (inps s) + length (auxs s))) = Ok (nth i m []).
Proof.
  induction 1 as [|c cl Hc H IH]; [exists []; repeat split; try constructor; cbn; lia|]. cbn [map rows_fill].
  destruct (row_fill_ok s (f c) (repeat 0 (length (inps s) + length (auxs s))) Hc) as [r Er]; [apply repeat_length|]. rewrite Er. cbn [rbind].
  destruct IH as (m & Em & Lm & Fm & Nm). rewrite Em. cbn [rbind]. exists (r :: m). split; [reflexivity|]. split; [cbn; lia|]. split.
  - constructor; [|exact Fm]. rewrite (row_fill_len _ _ _ _ Er). apply repeat_length.
  - intros [|i] Hi; [exact Er|]. cbn [nth]. apply Nm. cbn in Hi. lia.
Qed.
End R.

Section T.
Variable K : Fld.
Variable G : Grp K.
Variable ch : oracle K G.
Add Field Kf2 : (f_laws K).
Lemma matrices_ok (s : cs K) : wf s -> exists c, circuit_matrices K s = Ok c /\
  (forall m, In m [CL K c; CR K c; CO K c] -> length m = length (cons s) /\ Forall (fun row => length row = (length (inps s) + length (auxs s))%nat) m) /\
  (forall i, (i < length (cons s))%nat ->
    row_fill K (length (inps s)) (nth i (map ca (cons s)) []) (repeat 0 (length (inps s) + length (auxs s))) = Ok (nth i (CL K c) []) /\
    row_fill K (length (inps s)) (nth i (map cb (cons s)) []) (repeat 0 (length (inps s) + length (auxs s))) = Ok (nth i (CR K c) []) /\
    row_fill K (length (inps s)) (nth i (map cc (cons s)) []) (repeat 0 (length (inps s) + length (auxs s))) = Ok (nth i (CO K c) [])).
Proof.
  intros [_ W]. unfold circuit_matrices.
  destruct (rows_fill_ok K s ca (cons s)) as (ml & El & Ll & Fl & Nl); [eapply Forall_impl; [|exact W]; intros c (A & B & C); exact A|].
  destruct (rows_fill_ok K s cb (cons s)) as (mr & Er & Lr & Fr & Nr); [eapply Forall_impl; [|exact W]; intros c (A & B & C); exact B|].
  destruct (rows_fill_ok K s cc (cons s)) as (mo & Eo & Lo & Fo & No); [eapply Forall_impl; [|exact W]; intros c (A & B & C); exact C|].
  rewrite El, Er, Eo. cbn [rbind]. eexists. split; [reflexivity|]. cbn [CL CR CO]. split.
  - intros m [<-|[<-|[<-|[]]]]; auto.
  - intros i Hi. auto.
Qed.
Lemma vmt_rows (f : list K) m : Forall (fun row => length row = length f) m -> vector_matrix_product_t K f m = Ok (map (fun row => dot row f) m).
Proof.
  intro F. unfold vector_matrix_product_t. assert (E : forallb (fun row : list K => Nat.eqb (length row) (length f)) m = true).
  { apply forallb_forall. intros r I. rewrite Forall_forall in F. rewrite (F r I). apply Nat.eqb_refl. }
  rewrite E. reflexivity.
Qed.
(** Completeness for the statement the matrices express. *)
Theorem bp_complete_mat (circuit : M K unit) s c mk rd : (forall l t, ch l t <> 0) ->
  circuit (cs_new Prove) = Ok (tt, s) -> wf s -> cons s <> [] -> circuit_matrices K s = Ok c ->
  mat_sat (CL K c) (CR K c) (CO K c) (inps s ++ auxs s) ->
  let m := Nat.max (length (cons s)) (length (auxs s)) in
  (forall N, length (fst (fst (fst (fst (mk N))))) = N /\ length (snd (fst (fst (fst (mk N))))) = N) ->
  (length (r_sL K rd) <= m)%nat -> (length (r_sR K rd) <= m)%nat ->
  exists gs c' pf, create_random_proof K G ch circuit mk rd = Ok (gs, c', pf) /\ bp_verify K G ch gs pf c' (skipn 1 (inps s)) = Ok true.
Proof.
  intros NZ E W Hc Ec MS m Hmk HsL HsR. destruct (matrices_ok s W) as (c0 & Ec0 & D & _). rewrite Ec in Ec0. injection Ec0 as <-.
  unfold create_random_proof. rewrite E. cbn [rbind]. rewrite Ec. cbn [rbind].
  assert (Lf : length (inps s ++ auxs s) = (length (inps s) + length (auxs s))%nat) by apply app_length.
  destruct (D (CL K c)) as [L1 F1]; [left; reflexivity|]. destruct (D (CR K c)) as [L2 F2]; [right; left; reflexivity|]. destruct (D (CO K c)) as [L3 F3]; [right; right; left; reflexivity|].
  rewrite !vmt_rows by (rewrite Lf; assumption). cbn [rbind]. rewrite map_length, L1. fold m.
  specialize (Hmk (next_pow2 m)). destruct (mk (next_pow2 m)) as [[[[gv hv] g] h] u]. cbn [fst snd] in Hmk. destruct Hmk as [Lg Lh].
  set (gs := mkGens K G gv hv g h u (length (cons s)) (next_pow2 m) (length (inps s)) (length (auxs s))).
  set (inp := mkAsg K (map (fun row => dot row (inps s ++ auxs s)) (CL K c)) (map (fun row => dot row (inps s ++ auxs s)) (CR K c)) (map (fun row => dot row (inps s ++ auxs s)) (CO K c)) (inps s) (auxs s)).
  assert (Hn : (0 < length (cons s))%nat) by (destruct (cons s); [congruence|cbn; lia]).
  pose proof (next_pow2_ge m) as Hm.
  assert (NR : forall (mt : list (list K)) i, (i < length (cons s))%nat -> length mt = length (cons s) -> nth i (map (fun row => dot row (inps s ++ auxs s)) mt) 0 = row_val mt (inps s ++ auxs s) i).
  { intros mt i Hi Lm. unfold row_val. rewrite (nth_indep _ 0 (dot [] (inps s ++ auxs s))) by (rewrite map_length; lia). rewrite (map_nth (fun row => dot row (inps s ++ auxs s))). reflexivity. }
  destruct W as [[r Er] _].
  destruct (bp_complete_core K G ch NZ gs c inp rd (length (cons s)) (length (inps s)) (length (auxs s)) (next_pow2 m)) with (pubs := r) as (pf & E1 & E2);
    try reflexivity; try exact Hn; try assumption; try (unfold inp; cbn [aL aR aO as_s as_w]; rewrite ?map_length; assumption); try lia; try (split; assumption).
  - intros i Hi. apply NR; assumption.
  - intros i Hi. apply NR; assumption.
  - intros i Hi. apply NR; assumption.
  - intros i Hi. unfold inp. cbn [aL aR aO]. rewrite !NR by assumption. apply MS. lia.
  - rewrite E1. cbn [rbind]. exists gs, (matrix_to_map K c), pf. split; [reflexivity|]. rewrite Er. exact E2.
Qed.
Lemma no_dups_mat_sat (s : cs K) c : wf s -> no_dups s -> self_sat s -> circuit_matrices K s = Ok c -> mat_sat (CL K c) (CR K c) (CO K c) (inps s ++ auxs s).
Proof.
  intros W ND [_ S] Ec. destruct (matrices_ok s W) as (c0 & Ec0 & D & R). rewrite Ec in Ec0. injection Ec0 as <-.
  destruct (D (CL K c)) as [L1 F1]; [left; reflexivity|]. intros i Hi. rewrite L1 in Hi. destruct (R i Hi) as (R1 & R2 & R3).
  destruct W as [_ W]. unfold no_dups in ND. rewrite Forall_forall in S, W, ND.
  set (cn := nth i (cons s) (mkC [] [] [])). assert (Ic : In cn (cons s)) by (apply nth_In; exact Hi).
  assert (Nth : forall f : constraint K -> lc K, nth i (map f (cons s)) [] = f cn).
  { intro f. unfold cn. rewrite (nth_indep _ [] (f (mkC [] [] []))) by (rewrite map_length; exact Hi). apply map_nth. }
  destruct (W cn Ic) as (A1 & A2 & A3). destruct (ND cn Ic) as (N1 & N2 & N3). specialize (S cn Ic). unfold holds in S.
  unfold row_val. rewrite <- full_wit.
  assert (V : forall l row, Forall (fun t => allocated s (fst t)) l -> NoDup (map fst l) -> row_fill K (length (inps s)) l (repeat 0 (length (inps s) + length (auxs s))) = Ok row ->
    dot row (full_vector (wit s) s) = eval (wit s) l).
  { intros l row A N E. rewrite (row_fill_eval K s l (repeat 0 (length (inps s) + length (auxs s))) row A N (repeat_length _ _)) with (2 := E).
    - assert (Z : dot (repeat 0 (length (inps s) + length (auxs s))) (full_vector (wit s) s) = 0); [|rewrite Z; ring].
      rewrite dot_sumn. apply sumn_0. intros j _. rewrite nth_repeat. ring.
    - intros v _. apply nth_repeat. }
  rewrite Nth in R1, R2, R3. rewrite (V _ _ A1 N1 R1), (V _ _ A2 N2 R2), (V _ _ A3 N3 R3). exact S.
Qed.
Theorem bp_complete (circuit : M K unit) s mk rd : (forall l t, ch l t <> 0) ->
  circuit (cs_new Prove) = Ok (tt, s) -> wf s -> cons s <> [] -> self_sat s -> no_dups s ->
  (forall N, length (fst (fst (fst (fst (mk N))))) = N /\ length (snd (fst (fst (fst (mk N))))) = N) ->
  (length (r_sL K rd) <= Nat.max (length (cons s)) (length (auxs s)))%nat -> (length (r_sR K rd) <= Nat.max (length (cons s)) (length (auxs s)))%nat ->
  exists gs c' pf, create_random_proof K G ch circuit mk rd = Ok (gs, c', pf) /\ bp_verify K G ch gs pf c' (skipn 1 (inps s)) = Ok true.
Proof.
  intros NZ E W Hc S ND Hmk H1 H2. destruct (matrices_ok s W) as (c & Ec & _). apply (bp_complete_mat circuit s c mk rd); try assumption. apply no_dups_mat_sat; assumption.
Qed.
End T.
Section E.
Variable K : Fld.
Theorem matrix_entries (s : cs K) c i v : wf s -> circuit_matrices K s = Ok c -> (i < length (cons s))%nat -> allocated s v ->
  let cn := nth i (cons s) (mkC [] [] []) in let j := var_pos (length (inps s)) v in
  nth j (nth i (CL K c) []) 0 = last_coeff (ca cn) v 0 /\ nth j (nth i (CR K c) []) 0 = last_coeff (cb cn) v 0 /\ nth j (nth i (CO K c) []) 0 = last_coeff (cc cn) v 0.
Proof.
  intros W Ec Hi Hv cn j. destruct (matrices_ok K s W) as (c0 & Ec0 & _ & R). rewrite Ec in Ec0. injection Ec0 as <-. destruct (R i Hi) as (R1 & R2 & R3).
  assert (Ic : In cn (cons s)) by (apply nth_In; exact Hi). destruct W as [_ W]. rewrite Forall_forall in W. destruct (W cn Ic) as (A1 & A2 & A3).
  assert (Nth : forall f : constraint K -> lc K, nth i (map f (cons s)) [] = f cn).
  { intro f. unfold cn. rewrite (nth_indep _ [] (f (mkC [] [] []))) by (rewrite map_length; exact Hi). apply map_nth. }
  rewrite Nth in R1, R2, R3. unfold j.
  rewrite (row_fill_last K s _ _ _ A1 R1 v Hv), (row_fill_last K s _ _ _ A2 R2 v Hv), (row_fill_last K s _ _ _ A3 R3 v Hv), !nth_repeat. auto.
Qed.
End E.
