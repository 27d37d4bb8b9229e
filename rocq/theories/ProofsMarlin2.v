(** Marlin: the matrix polynomials and the inner sumcheck. *)
From Verif Require Import ModelMarlin SpecLC SpecCS SpecMarlin SpecPC ProofsPC ProofsMarlinCS ProofsMarlin.
From Verif Require Import ModelCS.
Local Open Scope fld_scope.
Section P.
Variable K : Fld.
Add Field Kfm3 : (f_laws K).
Notation row := (list (K * nat)).
Section D.
Variable d : dom K.
Hypothesis V : valid_dom d.
Lemma diag_nth j : (j < dsize d)%nat -> nth j (diagonal_evals K d) 0 = of_nat (dsize d) * finv (dgen d ^ j) /\ length (diagonal_evals K d) = dsize d.
Proof.
  intro H. unfold diagonal_evals, dpts. rewrite map_map. destruct (dsize d) as [|n] eqn:En; [lia|]. cbn [seq map]. set (f := fun i => of_nat (S n) * dgen d ^ i). 
  assert (length (map f (seq 1 n)) = n) as L by (rewrite map_length, seq_length; reflexivity). split; [|cbn [length]; rewrite rev_length, L; reflexivity].
  destruct j as [|j]; cbn [nth]; [unfold f; f_equal; cbn [fpow]; field; apply (f_1_neq_0 K)|].
  rewrite rev_nth by (rewrite L; lia). rewrite L. rewrite (nth_indep _ _ (f 0%nat)) by (rewrite L; lia). rewrite map_nth, seq_nth by lia. unfold f. f_equal.
  assert (dgen d <> 0) as W by (apply (w_nz K d V)). assert (dgen d ^ (1 + (n - S j)) * dgen d ^ S j = 1) as E. { rewrite <- fpow_add. replace (1 + (n - S j) + S j)%nat with (dsize d) by lia. apply V. }
  assert (dgen d ^ S j <> 0) as N by (apply fpow_nz; exact W). transitivity (dgen d ^ (1 + (n - S j)) * dgen d ^ S j * finv (dgen d ^ S j)); [field; exact N|]. rewrite E. ring.
Qed.
End D.
Section Star.
Variables dx dh dk db : dom K.
Variable p : nat.
Hypothesis Vx : valid_dom dx.
Hypothesis Vh : valid_dom dh.
Hypothesis Vk : valid_dom dk.
Hypothesis Hs : dsize dh = (dsize dx * p)%nat.
Notation x := (dsize dx).
Notation h := (dsize dh).
Notation w := (dgen dh).
Notation psn := (pos h x).
Definition ent (l : nat) (e : K * nat) : K * K * K := (w ^ psn (snd e), w ^ l, fst e * (w ^ psn (snd e) / of_nat h)).
Lemma nth_dpts_get i : (i < h)%nat -> get K (dpts dh) i = Ok (w ^ i).
Proof. intro H. rewrite get_ok by (rewrite length_dpts; exact H). rewrite nth_dpts by exact H. reflexivity. Qed.
Lemma pp : (0 < p)%nat. Proof. destruct Vh as (H & _). rewrite Hs in H. destruct p; lia. Qed.
Lemma entries_row_ok i (r : row) : (i < h)%nat -> cols_lt K h r -> entries_row K x h (dpts dh) (diagonal_evals K dh) i r = Ok (map (ent i) r).
Proof.
  intros Hi. induction r as [|(v, j) r IH]; intro C; [reflexivity|]. inversion C as [|? ? Hj C']; subst. cbn [snd] in Hj. cbn [entries_row]. pose proof (proj1 Vx) as Hx. pose proof pp as Hp.
  rewrite Hs in Hj. destruct (reidx_ok p x j Hx Hp Hj) as (E & Hl). rewrite <- Hs in E, Hl. rewrite E. cbn [rbind]. rewrite !nth_dpts_get by assumption. cbn [rbind]. destruct (diag_nth dh Vh (psn j) Hl) as (D & Ld).
  rewrite get_ok by (rewrite Ld; exact Hl). cbn [rbind]. rewrite D, IH by exact C'. cbn [rbind map]. unfold ent at 2. cbn [fst snd]. do 3 f_equal.
  assert (w ^ psn j <> 0) as N by (apply fpow_nz; apply (w_nz K dh Vh)). assert (@of_nat K h <> 0) as N2 by apply Vh. field. split; assumption.
Qed.
Lemma entries_ok (m : list row) : Forall (cols_lt K h) m -> forall i, (i + length m <= h)%nat ->
  exists l, entries K x h (dpts dh) (diagonal_evals K dh) i m = Ok l /\ length l = density m /\
    Forall (fun e => fst (fst e) ^ h = 1 /\ snd (fst e) ^ h = 1) l /\
    forall g1 g2 : K -> K, fsum (map (fun e => snd e * (g1 (fst (fst e)) * g2 (snd (fst e)))) l) =
      sumn (length m) (fun k => g2 (w ^ (i + k)) * row_val (fun j => w ^ psn j / of_nat h * g1 (w ^ psn j)) (nth k m [])).
Proof.
  induction m as [|r m IH]; intros C i L; cbn [entries].
  - exists []. repeat split; auto.
  - pose proof (Forall_inv C) as Cr. pose proof (Forall_inv_tail C) as Cm. cbn [length] in L. rewrite entries_row_ok by (try exact Cr; lia). cbn [rbind].
    destruct (IH Cm (S i) ltac:(lia)) as (l & -> & Ll & Fl & Sl). cbn [rbind]. eexists. split; [reflexivity|]. split; [rewrite app_length, map_length, Ll, density_cons; reflexivity|]. split.
    + apply Forall_app. split; [|exact Fl]. apply Forall_forall. intros e He. apply in_map_iff in He. destruct He as (e0 & <- & _). unfold ent. cbn [fst snd]. split; apply (w_pow K dh Vh).
    + intros g1 g2. rewrite map_app, fsum_app, Sl. cbn [length]. rewrite sumn_S. cbn [nth]. f_equal.
      * rewrite Nat.add_0_r, map_map. unfold row_val. clear C Cr. induction r as [|e r IHr]; cbn [map fsum]; [ring|]. rewrite IHr. unfold ent. cbn [fst snd]. ring.
      * apply sumn_ext. intros k _. replace (S i + k)%nat with (i + S k)%nat by lia. reflexivity.
Qed.
Record star_ok (m : list row) (s : star K) : Prop := {
  so_lr : length (row_k K s) = dsize dk; so_lc : length (col_k K s) = dsize dk; so_lv : length (val_k K s) = dsize dk;
  so_h : forall i, (i < dsize dk)%nat -> nth i (row_k K s) 0 ^ h = 1 /\ nth i (col_k K s) 0 ^ h = 1;
  so_row : st_row K s = interp K dk (row_k K s); so_col : st_col K s = interp K dk (col_k K s); so_val : st_val K s = interp K dk (val_k K s);
  so_rc : exists rck, st_rc K s = interp K dk rck /\ forall i, (i < dsize dk)%nat -> nth i rck 0 = nth i (row_k K s) 0 * nth i (col_k K s) 0;
  so_rb : row_b K s = dft db (st_row K s); so_cb : col_b K s = dft db (st_col K s); so_vb : val_b K s = dft db (st_val K s); so_rcb : rc_b K s = dft db (st_rc K s);
  so_sum : forall g1 g2 : K -> K, sumn (dsize dk) (fun i => nth i (val_k K s) 0 * (g1 (nth i (row_k K s) 0) * g2 (nth i (col_k K s) 0))) =
    mform K m (fun l => g2 (w ^ l)) (fun j => w ^ psn j / of_nat h * g1 (w ^ psn j)) }.
Lemma sumn_fsum_nth {A} (f : A -> K) (dflt : A) (l : list A) n : length l = n -> sumn n (fun i => f (nth i l dflt)) = fsum (map f l).
Proof.
  intros <-. rewrite sumn_fsum. f_equal. apply nth_ext with (d := f dflt) (d' := f dflt); [rewrite !map_length, seq_length; reflexivity|]. intros i Hi. rewrite map_length, seq_length in Hi.
  rewrite (nth_map_seq (fun i => f (nth i l dflt))) by exact Hi. rewrite map_nth. reflexivity.
Qed.
Lemma compose_ok (m : list row) : Forall (cols_lt K h) m -> (length m <= h)%nat -> (density m <= dsize dk)%nat -> exists s, compose K m dx dh dk db = Ok s /\ star_ok m s.
Proof.
  intros C L D. unfold compose. destruct (entries_ok m C 0 L) as (l & -> & Ll & Fl & Sl). cbn [rbind]. rewrite Ll, (proj2 (Nat.ltb_ge _ _) D).
  assert (exists h0 tl, dpts dh = h0 :: tl /\ h0 ^ h = 1) as (h0 & tl & Eh & H0).
  { unfold dpts. destruct Vh as (Hh & _). destruct (dsize dh) as [|n] eqn:En; [lia|]. cbn [seq map]. eexists _, _. split; [reflexivity|]. change (w ^ 0) with (1 : K). apply fpow_1. }
  rewrite Eh. cbn [rbind]. eexists. split; [reflexivity|]. set (L0 := l ++ repeat (h0, h0, 0) (dsize dk - density m)).
  assert (length L0 = dsize dk) as LL by (unfold L0; rewrite app_length, repeat_length; lia).
  assert (forall i, nth i (map (fun e : K * K * K => fst (fst e)) L0) 0 = fst (fst (nth i L0 (0, 0, 0)))) as N1 by (intro i; change (0 : K) with (fst (fst (0 : K, 0 : K, 0 : K))) at 1; apply (map_nth (fun e : K * K * K => fst (fst e)))).
  assert (forall i, nth i (map (fun e : K * K * K => snd (fst e)) L0) 0 = snd (fst (nth i L0 (0, 0, 0)))) as N2 by (intro i; change (0 : K) with (snd (fst (0 : K, 0 : K, 0 : K))) at 1; apply (map_nth (fun e : K * K * K => snd (fst e)))).
  assert (forall i, nth i (map snd L0) 0 = snd (nth i L0 (0, 0, 0))) as N3 by (intro i; change (0 : K) with (snd (0 : K, 0 : K, 0 : K)) at 1; apply (map_nth snd)).
  assert (Forall (fun e => fst (fst e) ^ h = 1 /\ snd (fst e) ^ h = 1) L0) as F0.
  { unfold L0. apply Forall_app. split; [exact Fl|]. apply Forall_forall. intros e He. apply repeat_spec in He. subst e. split; exact H0. }
  constructor; cbn [row_k col_k val_k st_row st_col st_val st_rc row_b col_b val_b rc_b]; try reflexivity; try (rewrite map_length; exact LL).
  - intros i Hi. rewrite N1, N2. rewrite Forall_forall in F0. apply F0, nth_In. lia.
  - eexists. split; [reflexivity|]. intros i Hi.
    match goal with |- nth i (map ?f ?l) 0 = _ => transitivity (nth i (map f l) (f (0, 0))); [apply nth_indep; rewrite map_length, combine_length, !map_length; lia|]; etransitivity; [exact (map_nth f l (0, 0) i)|] end.
    rewrite combine_nth by (rewrite !map_length; reflexivity). reflexivity.
  - intros g1 g2. transitivity (sumn (dsize dk) (fun i => (fun e => snd e * (g1 (fst (fst e)) * g2 (snd (fst e)))) (nth i L0 (0, 0, 0)))).
    + apply sumn_ext. intros i _. rewrite N1, N2, N3. reflexivity.
    + rewrite (sumn_fsum_nth (fun e : K * K * K => snd e * (g1 (fst (fst e)) * g2 (snd (fst e))))) by exact LL. unfold L0. rewrite map_app, fsum_app, Sl. unfold mform. cbn [Nat.add].
      assert (forall n, fsum (map (fun e : K * K * K => snd e * (g1 (fst (fst e)) * g2 (snd (fst e)))) (repeat (h0, h0, 0) n)) = 0) as ->; [|ring]. induction n as [|n IH]; cbn [repeat map fsum fst snd]; [reflexivity|rewrite IH; ring].
Qed.
End Star.
Section Inner.
Variable dnew : nat -> option (dom K).
Variables dx dh dk db : dom K.
Hypothesis Vh : valid_dom dh.
Hypothesis Vk : valid_dom dk.
Hypothesis Vb : valid_dom db.
Hypothesis Eb : dnew (3 * dsize dk - 3) = Some db.
Hypothesis Lb : (3 * dsize dk - 2 <= dsize db)%nat.
Notation x := (dsize dx).
Notation h := (dsize dh).
Notation k := (dsize dk).
Notation w := (dgen dh).
Variable ps : pstate K.
Hypothesis Eh : ps_dh K ps = dh.
Hypothesis Ek : ps_dk K ps = dk.
Notation ix := (ps_ix K ps).
Notation sa := (st_a K ix). Notation sb := (st_b K ix). Notation sc := (st_c K ix).
Hypothesis Sa : star_ok dx dh dk db (ix_a K ix) sa.
Hypothesis Sb : star_ok dx dh dk db (ix_b K ix) sb.
Hypothesis Sc : star_ok dx dh dk db (ix_c K ix) sc.
Variable v : vmsg K.
Variables al be : K.
Hypothesis Eal : v_alpha K v = al.
Hypothesis Hal : al ^ h <> 1.
Hypothesis Hbe : be ^ h <> 1.
Notation ea := (v_a K v). Notation eb := (v_b K v). Notation ec := (v_c K v).
(** The denominator polynomial of one matrix and its value. *)
Definition dn (s : star K) (y : K) : K := be * al - al * peval (st_row K s) y - be * peval (st_col K s) y + peval (st_rc K s) y.
Lemma out_h (y r : K) : y ^ h <> 1 -> r ^ h = 1 -> y - r <> 0.
Proof. intros N E Z. apply N. apply (proj1 (fsub_0 K _ _)) in Z. rewrite Z. exact E. Qed.
Section One.
Variable m : list (list (K * nat)).
Variable s : star K.
Hypothesis S : star_ok dx dh dk db m s.
Lemma dn_dom i : (i < k)%nat -> dn s (dgen dk ^ i) = (be - nth i (row_k K s) 0) * (al - nth i (col_k K s) 0) /\ (be - nth i (row_k K s) 0) <> 0 /\ (al - nth i (col_k K s) 0) <> 0.
Proof.
  intro Hi. destruct (so_h _ _ _ _ _ _ S i Hi) as (H1 & H2). split; [|split; apply out_h; assumption].
  unfold dn. destruct (so_rc _ _ _ _ _ _ S) as (rck & E & N). rewrite E, (so_row _ _ _ _ _ _ S), (so_col _ _ _ _ _ _ S). rewrite !(interp_dom K dk Vk) by exact Hi. rewrite N by exact Hi. ring.
Qed.
Lemma val_dom i : (i < k)%nat -> peval (st_val K s) (dgen dk ^ i) = nth i (val_k K s) 0.
Proof. intro Hi. rewrite (so_val _ _ _ _ _ _ S). apply (interp_dom K dk Vk), Hi. Qed.
Lemma kpos : (0 < k)%nat. Proof. apply Vk. Qed.
(** Untrimmed coefficient vectors of exact length k with the same values. *)
Lemma val_poly : exists q, length q = k /\ forall y, peval q y = peval (st_val K s) y.
Proof. exists (idft dk (val_k K s)). split; [apply length_idft|]. intro y. rewrite (so_val _ _ _ _ _ _ S). unfold interp. rewrite peval_trim. reflexivity. Qed.
Lemma dn_poly : exists q, length q = k /\ forall y, peval q y = dn s y.
Proof.
  destruct (so_rc _ _ _ _ _ _ S) as (rck & E & _). pose proof kpos.
  exists (padd (padd [be * al] (pscale (- al) (idft dk (row_k K s)))) (padd (pscale (- be) (idft dk (col_k K s))) (idft dk rck))). split.
  - rewrite !length_padd, !length_pscale, !length_idft. cbn [length]. lia.
  - intro y. rewrite !peval_padd, !peval_pscale. unfold dn. rewrite E, (so_row _ _ _ _ _ _ S), (so_col _ _ _ _ _ _ S). unfold interp. rewrite !peval_trim. cbn [peval]. ring.
Qed.
Lemma b_nth (l q : list K) i : l = dft db q -> (i < dsize db)%nat -> nth i l 0 = peval q (dgen db ^ i) /\ (i < length l)%nat.
Proof.
  intros -> Hi. rewrite length_dft. split; [|exact Hi]. unfold dft. rewrite (nth_indep _ _ (peval q 0)) by (rewrite map_length, length_dpts; exact Hi). rewrite map_nth, nth_dpts by exact Hi. reflexivity.
Qed.
Lemma denom_b i : (i < dsize db)%nat -> get K (denom_on_b K al be s) i = Ok (dn s (dgen db ^ i)).
Proof.
  intro Hi. destruct (b_nth _ _ i (so_rb _ _ _ _ _ _ S) Hi) as (R & LR). destruct (b_nth _ _ i (so_cb _ _ _ _ _ _ S) Hi) as (C & LC). destruct (b_nth _ _ i (so_rcb _ _ _ _ _ _ S) Hi) as (RC & LRC).
  assert (length (row_b K s) = dsize db) as L1 by (rewrite (so_rb _ _ _ _ _ _ S); apply length_dft). assert (length (col_b K s) = dsize db) as L2 by (rewrite (so_cb _ _ _ _ _ _ S); apply length_dft). assert (length (rc_b K s) = dsize db) as L3 by (rewrite (so_rcb _ _ _ _ _ _ S); apply length_dft).
  unfold get, denom_on_b. rewrite (map_nth_error _ _ _ (d := (nth i (row_b K s) 0, nth i (col_b K s) 0, nth i (rc_b K s) 0))).
  - rewrite R, C, RC. reflexivity.
  - rewrite <- combine_nth by congruence. rewrite <- combine_nth by (rewrite combine_length; lia). apply nth_error_nth'. rewrite !combine_length. lia.
Qed.
End One.
(** The product T the inner sumcheck proves, in the form of the outer one. *)
Definition lag (j : nat) : K := (be ^ h - 1) * w ^ j / (of_nat h * (be - w ^ j)).
Definition tval : K := ea * mform K (ix_a K ix) (fun l => vh K dh al * finv (al - w ^ l)) (fun j => lag (pos h x j)) +
  eb * mform K (ix_b K ix) (fun l => vh K dh al * finv (al - w ^ l)) (fun j => lag (pos h x j)) +
  ec * mform K (ix_c K ix) (fun l => vh K dh al * finv (al - w ^ l)) (fun j => lag (pos h x j)).
Lemma mform_ext (m : list (list (K * nat))) u u' g g' : (forall l, (l < length m)%nat -> u l = u' l) -> (forall j, g j = g' j) -> mform K m u g = mform K m u' g'.
Proof. intros H1 H2. unfold mform. apply sumn_ext. intros l Hl. rewrite H1 by exact Hl. f_equal. unfold row_val. f_equal. apply map_ext. intro e. rewrite H2. reflexivity. Qed.
Lemma sum_one m s : star_ok dx dh dk db m s ->
  sumn k (fun i => nth i (val_k K s) 0 * finv ((be - nth i (row_k K s) 0) * (al - nth i (col_k K s) 0)) * vh K dh al * vh K dh be) =
  mform K m (fun l => vh K dh al * finv (al - w ^ l)) (fun j => lag (pos h x j)).
Proof.
  intro S. transitivity (sumn k (fun i => nth i (val_k K s) 0 * ((fun r => vh K dh be * finv (be - r)) (nth i (row_k K s) 0) * (fun c => vh K dh al * finv (al - c)) (nth i (col_k K s) 0)))).
  - apply sumn_ext. intros i Hi. destruct (dn_dom m s S i Hi) as (_ & N1 & N2). field. split; assumption.
  - rewrite (so_sum _ _ _ _ _ _ S (fun r => vh K dh be * finv (be - r)) (fun c => vh K dh al * finv (al - c))). apply mform_ext; [reflexivity|]. intro j. unfold lag, vh.
    assert (be - w ^ pos h x j <> 0) by (apply out_h; [exact Hbe|apply (w_pow K dh Vh)]). assert (@of_nat K h <> 0) by apply Vh. field. split; assumption.
Qed.
Definition tk (i : nat) : K := (ea * nth i (val_k K sa) 0 * finv ((be - nth i (row_k K sa) 0) * (al - nth i (col_k K sa) 0)) + eb * nth i (val_k K sb) 0 * finv ((be - nth i (row_k K sb) 0) * (al - nth i (col_k K sb) 0)) + ec * nth i (val_k K sc) 0 * finv ((be - nth i (row_k K sc) 0) * (al - nth i (col_k K sc) 0))) * vh K dh al * vh K dh be.
Lemma tk_sum : sumn k tk = tval.
Proof.
  unfold tval. rewrite <- (sum_one _ _ Sa), <- (sum_one _ _ Sb), <- (sum_one _ _ Sc). rewrite <- !sumn_mul_l, <- !sumn_add. apply sumn_ext. intros i _. unfold tk. ring.
Qed.
Definition a_at (y : K) : K := (ea * peval (st_val K sa) y * dn sb y * dn sc y + eb * peval (st_val K sb) y * dn sc y * dn sa y + ec * peval (st_val K sc) y * dn sa y * dn sb y) * vh K dh al * vh K dh be.
Definition b_at (y : K) : K := dn sa y * dn sb y * dn sc y.
Lemma prod3 (p q r : list K) : length p = k -> length q = k -> length r = k -> (length (pmul (pmul p q) r) <= dsize db)%nat.
Proof.
  intros L1 L2 L3. pose proof kpos. pose proof (length_pmul1 K (pmul p q) r ltac:(lia)). pose proof (length_pmul1 K p q ltac:(lia)). lia.
Qed.
Theorem third_ok o3 : third_round K dnew ps v be = Ok o3 -> canonical (o_g2 K o3) /\ canonical (o_h2 K o3) /\ (length (o_g2 K o3) <= k - 1)%nat /\ (2 <= k)%nat /\
  forall y, peval (o_h2 K o3) y * (y ^ k - 1) = a_at y - b_at y * (y * peval (o_g2 K o3) y + tval / of_nat k).
Proof.
  unfold third_round. rewrite Eh, Ek, Eal. pose proof kpos as Hk.
  rewrite (mapR_ok _ tk). 2:{ intros i Hi. apply in_seq in Hi. unfold t_on_k. rewrite !get_ok by (rewrite ?(so_lr _ _ _ _ _ _ Sa), ?(so_lc _ _ _ _ _ _ Sa), ?(so_lv _ _ _ _ _ _ Sa), ?(so_lr _ _ _ _ _ _ Sb), ?(so_lc _ _ _ _ _ _ Sb), ?(so_lv _ _ _ _ _ _ Sb), ?(so_lr _ _ _ _ _ _ Sc), ?(so_lc _ _ _ _ _ _ Sc), ?(so_lv _ _ _ _ _ _ Sc); lia). reflexivity. }
  cbn [rbind]. set (tp := interp K dk (map tk (seq 0 k))).
  assert (forall i, (i < k)%nat -> peval tp (dgen dk ^ i) = tk i) as TP by (intros i Hi; unfold tp; rewrite (interp_dom K dk Vk) by exact Hi; apply nth_map_seq, Hi).
  assert (nth 0 tp 0 = tval / of_nat k) as T0.
  { rewrite (const_coeff K dk Vk tp) by apply (length_interp K dk). rewrite (sumn_ext K k _ tk) by (intros i Hi; apply TP, Hi). rewrite tk_sum. field. apply Vk. }
  assert (length tp <= k)%nat as Ltp by apply (length_interp K dk).
  destruct tp as [|c0 g2] eqn:Etp; [discriminate|]. rewrite <- Etp in *. cbv zeta. unfold dom_or. rewrite Eb. cbn [rbind].
  rewrite (mapR_ok _ (fun i => (a_at (dgen db ^ i), b_at (dgen db ^ i)))).
  2:{ intros i Hi. apply in_seq in Hi. assert (i < dsize db)%nat as Hi' by lia.
      destruct (b_nth _ _ i (so_vb _ _ _ _ _ _ Sa) Hi') as (Va & La). destruct (b_nth _ _ i (so_vb _ _ _ _ _ _ Sb) Hi') as (Vb' & Lb'). destruct (b_nth _ _ i (so_vb _ _ _ _ _ _ Sc) Hi') as (Vc & Lc).
      rewrite !get_ok by assumption. cbn [rbind]. rewrite (denom_b _ _ Sa i Hi'). cbn [rbind]. rewrite (denom_b _ _ Sb i Hi'). cbn [rbind]. rewrite (denom_b _ _ Sc i Hi'). cbn [rbind]. rewrite Va, Vb', Vc. reflexivity. }
  cbn [rbind]. rewrite !map_map. cbn [fst snd].
  assert (forall f : K -> K, map (fun i => f (dgen db ^ i)) (seq 0 (dsize db)) = map f (dpts db)) as MD by (intro f; unfold dpts; rewrite map_map; reflexivity).
  rewrite (MD a_at), (MD b_at).
  destruct (val_poly _ _ Sa) as (pva & Lva & Eva). destruct (val_poly _ _ Sb) as (pvb & Lvb & Evb). destruct (val_poly _ _ Sc) as (pvc & Lvc & Evc).
  destruct (dn_poly _ _ Sa) as (pda & Lda & Eda). destruct (dn_poly _ _ Sb) as (pdb & Ldb & Edb). destruct (dn_poly _ _ Sc) as (pdc & Ldc & Edc).
  assert (forall y, peval (interp K db (map a_at (dpts db))) y = a_at y) as Ia.
  { apply (interp_exact K db Vb a_at (pscale (vh K dh al * vh K dh be) (padd (padd (pscale ea (pmul (pmul pva pdb) pdc)) (pscale eb (pmul (pmul pvb pdc) pda))) (pscale ec (pmul (pmul pvc pda) pdb))))).
    - rewrite length_pscale, !length_padd, !length_pscale. pose proof (prod3 pva pdb pdc Lva Ldb Ldc). pose proof (prod3 pvb pdc pda Lvb Ldc Lda). pose proof (prod3 pvc pda pdb Lvc Lda Ldb). lia.
    - intro y. rewrite !peval_pscale, !peval_padd, !peval_pscale, !peval_pmul, Eva, Evb, Evc, Eda, Edb, Edc. unfold a_at. ring. }
  assert (forall y, peval (interp K db (map b_at (dpts db))) y = b_at y) as Ib.
  { apply (interp_exact K db Vb b_at (pmul (pmul pda pdb) pdc)); [apply prod3; assumption|]. intro y. rewrite !peval_pmul, Eda, Edb, Edc. reflexivity. }
  set (N := ModelMarlin.trim K (psub (interp K db (map a_at (dpts db))) (ModelMarlin.trim K (pmul (interp K db (map b_at (dpts db))) tp)))).
  assert (forall y, peval N y = a_at y - b_at y * peval tp y) as EN by (intro y; unfold N; rewrite peval_trim, peval_psub, peval_trim, peval_pmul, Ia, Ib; reflexivity).
  pose proof (pdivv_ok K k N Hk) as Q. pose proof (rem_zero K dk Vk N) as Z. destruct (pdivv K k N) as (q, r). cbn [fst snd] in *. destruct Q as (Cq & _ & _ & _ & Q).
  assert (r = []) as R.
  { apply Z. intros i Hi. rewrite EN, TP by exact Hi. unfold a_at, b_at, tk.
    destruct (dn_dom _ _ Sa i Hi) as (-> & A1 & A2). destruct (dn_dom _ _ Sb i Hi) as (-> & B1 & B2). destruct (dn_dom _ _ Sc i Hi) as (-> & C1 & C2). rewrite (val_dom _ _ Sa), (val_dom _ _ Sb), (val_dom _ _ Sc) by exact Hi.
    field. repeat split; assumption. }
  subst r. destruct (Nat.ltb_spec k 2) as [|Hk2]; [discriminate|]. intro E. injection E as <-. cbn [o_g2 o_h2]. split; [apply ptrim_canonical|]. split; [exact Cq|]. split; [pose proof (length_trim K g2); rewrite Etp in Ltp; cbn [length] in Ltp; lia|]. split; [exact Hk2|].
  intro y. rewrite peval_trim. specialize (Q y). rewrite EN in Q. cbn [peval] in Q. transitivity (a_at y - b_at y * peval tp y); [rewrite Q; ring|]. f_equal. f_equal. f_equal. rewrite <- T0, Etp. cbn [peval nth]. ring.
Qed.
(** The inner sumcheck identity for any polynomial with the values of a - b t. *)
Lemma inner_core N : let tp := interp K dk (map tk (seq 0 k)) in (forall y, peval N y = a_at y - b_at y * peval tp y) ->
  nth 0 tp 0 = tval / of_nat k /\ forall y, peval (fst (pdivv K k N)) y * (y ^ k - 1) = a_at y - b_at y * (y * peval (List.tl tp) y + tval / of_nat k).
Proof.
  intros tp EN. pose proof kpos as Hk.
  assert (forall i, (i < k)%nat -> peval tp (dgen dk ^ i) = tk i) as TP by (intros i Hi; unfold tp; rewrite (interp_dom K dk Vk) by exact Hi; apply nth_map_seq, Hi).
  assert (nth 0 tp 0 = tval / of_nat k) as T0.
  { rewrite (const_coeff K dk Vk tp) by apply (length_interp K dk). rewrite (sumn_ext K k _ tk) by (intros i Hi; apply TP, Hi). rewrite tk_sum. field. apply Vk. }
  split; [exact T0|]. intro y.
  pose proof (pdivv_ok K k N Hk) as Q. pose proof (rem_zero K dk Vk N) as Z. destruct (pdivv K k N) as (q, r). cbn [fst snd] in *. destruct Q as (_ & _ & _ & _ & Q).
  assert (r = []) as R.
  { apply Z. intros i Hi. rewrite EN, TP by exact Hi. unfold a_at, b_at, tk.
    destruct (dn_dom _ _ Sa i Hi) as (-> & A1 & A2). destruct (dn_dom _ _ Sb i Hi) as (-> & B1 & B2). destruct (dn_dom _ _ Sc i Hi) as (-> & C1 & C2). rewrite (val_dom _ _ Sa), (val_dom _ _ Sb), (val_dom _ _ Sc) by exact Hi.
    field. repeat split; assumption. }
  subst r. specialize (Q y). rewrite EN in Q. cbn [peval] in Q. transitivity (a_at y - b_at y * peval tp y); [rewrite Q; ring|]. rewrite <- T0. destruct tp as [|c tp']; cbn [peval List.tl nth]; ring.
Qed.
End Inner.
End P.
