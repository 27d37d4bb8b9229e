(** Marlin: honest proofs pass the verifier's equations, starting from the circuit. *)
From Verif Require Import ModelMarlin SpecLC SpecCS SpecMarlin SpecPC ProofsPC ProofsMarlinCS ProofsMarlin ProofsMarlin2 ProofsMarlin3.
From Verif Require Import ModelCS.
Local Open Scope fld_scope.
Section P.
Variable K : Fld.
Add Field Kfm5 : (f_laws K).
Lemma inner_product_ok (xs ws : list K) (r : list (K * nat)) : cols_in K (length xs + length ws) r -> forall acc,
  inner_product K xs ws r acc = Ok (acc + row_val (fun j => if Nat.ltb j (length xs) then nth j xs 0 else nth (j - length xs) ws 0) r).
Proof.
  induction r as [|(c, j) r IH]; intros F acc; cbn [inner_product]; [unfold row_val; cbn; do 2 f_equal; ring|]. pose proof (Forall_inv F) as Hj. cbn in Hj. apply Forall_inv_tail in F.
  assert ((if Nat.ltb j (length xs) then get K xs j else get K ws (j - length xs)) = Ok (if Nat.ltb j (length xs) then nth j xs 0 else nth (j - length xs) ws 0)) as ->.
  { destruct (Nat.ltb_spec j (length xs)); apply get_ok; lia. }
  cbn [rbind]. rewrite IH by exact F. rewrite row_val_cons. cbn [fst snd]. f_equal. set (tmp := if Nat.ltb j (length xs) then _ else _). destruct (feqb_spec K c 1) as [->|N]; ring.
Qed.
Lemma pow2_mod3 f : (Nat.modulo (2 ^ f) 3 <> 0)%nat.
Proof.
  enough (Nat.modulo (2 ^ f) 3 = 1 \/ Nat.modulo (2 ^ f) 3 = 2)%nat by lia. induction f as [|f IH]; [left; reflexivity|]. cbn [Nat.pow]. pose proof (Nat.div_mod (2 ^ f) 3 ltac:(lia)) as D.
  set (t := (2 ^ f)%nat) in *. set (q := Nat.div t 3) in *. destruct IH as [E|E]; rewrite E in D; [right|left].
  - replace (2 * t)%nat with (2 + (2 * q) * 3)%nat by lia. rewrite Nat.mod_add by lia. reflexivity.
  - replace (2 * t)%nat with (1 + (2 * q + 1) * 3)%nat by lia. rewrite Nat.mod_add by lia. reflexivity.
Qed.
Lemma db_size k s f : (0 < k)%nat -> (3 * k - 3 <= s)%nat -> s = (2 ^ f)%nat -> (3 * k - 2 <= s)%nat.
Proof.
  intros Hk L E. destruct (Nat.eq_dec (3 * k - 3) s) as [H|H]; [|lia]. destruct k as [|[|k]]; [lia|assert (2 ^ f <> 0)%nat by (apply Nat.pow_nonzero; lia); lia|]. exfalso. apply (pow2_mod3 f). rewrite <- E, <- H. replace (3 * S (S k) - 3)%nat with ((S k) * 3)%nat by lia. apply Nat.mod_mul. lia.
Qed.
Lemma density_terms ni (l : list (constraint K)) : (density (reindex ni (map ca l)) + density (reindex ni (map cb l)) = terms l)%nat.
Proof.
  induction l as [|c l IH]; [reflexivity|]. cbn [map]. change (reindex ni (ca c :: map ca l)) with ((map (fun '(v, c) => (c, match v with Aux i => (i + ni)%nat | Input i => i end)) (ca c)) :: reindex ni (map ca l)).
  change (reindex ni (cb c :: map cb l)) with ((map (fun '(v, c) => (c, match v with Aux i => (i + ni)%nat | Input i => i end)) (cb c)) :: reindex ni (map cb l)). rewrite !density_cons, !map_length. cbn [terms fold_right]. fold (terms l). lia.
Qed.
Lemma terms_app (l m : list (constraint K)) : terms (l ++ m) = (terms l + terms m)%nat.
Proof. induction l as [|c l IH]; [reflexivity|]. cbn [app terms fold_right]. fold (terms l) (terms m) (terms (l ++ m)). lia. Qed.
Lemma terms_nil n : terms (repeat (mkC [] [] []) n : list (constraint K)) = 0%nat.
Proof. induction n as [|n IH]; [reflexivity|]. cbn [repeat terms fold_right ca cb length]. fold (terms (repeat (mkC [] [] []) n : list (constraint K))). rewrite IH. reflexivity. Qed.
Section Ix.
Variable dnew : nat -> option (dom K).
Hypothesis R2 : radix2 dnew.
(** What a successful indexing run on the squared system [s] established. *)
Record ix_ok (s : cs K) (ix : index K) (dx dh dk db : dom K) (p : nat) : Prop := {
  xo_dx : dnew (length (inps s)) = Some dx; xo_dh : dnew (length (cons s)) = Some dh; xo_dk : dnew (i_nnz (ix_info K ix)) = Some dk; xo_db : dnew (3 * dsize dk - 3) = Some db;
  xo_nc : i_nc (ix_info K ix) = length (cons s); xo_nv : i_nv (ix_info K ix) = length (cons s);
  xo_s : dsize dh = (dsize dx * p)%nat; xo_g : dgen dx = dgen dh ^ p;
  xo_lb : (3 * dsize dk - 2 <= dsize db)%nat; xo_lh : (length (cons s) <= dsize dh)%nat;
  xo_la : length (ix_a K ix) = length (cons s); xo_lbm : length (ix_b K ix) = length (cons s); xo_lc : length (ix_c K ix) = length (cons s);
  xo_ca : Forall (cols_in K (length (cons s))) (ix_a K ix); xo_cb : Forall (cols_in K (length (cons s))) (ix_b K ix); xo_cc : Forall (cols_in K (length (cons s))) (ix_c K ix);
  xo_sat : forall x, msat (columns (length (inps s)) x) (ix_a K ix) (ix_b K ix) (ix_c K ix) <-> Forall (holds x) (cons s);
  xo_sa : star_ok K dx dh dk db (ix_a K ix) (st_a K ix); xo_sb : star_ok K dx dh dk db (ix_b K ix) (st_b K ix); xo_sc : star_ok K dx dh dk db (ix_c K ix) (st_c K ix) }.
Lemma cols_weak n m (l : list (list (K * nat))) : (n <= m)%nat -> Forall (cols_in K n) l -> Forall (cols_lt K m) l.
Proof. intros H F. eapply Forall_impl; [|exact F]. intros r Hr. eapply Forall_impl; [|exact Hr]. intros e He. cbv beta in *. lia. Qed.
Theorem index_ok checks circ u s s' ix : circ (cs_new Setup) = Ok (u, s) -> wf s -> (Z.of_nat (terms (cons s)) < 2 ^ 64)%Z -> make_square s = Ok (tt, s') ->
  ahp_index K dnew checks circ = Ok ix -> exists dx dh dk db p, ix_ok s' ix dx dh dk db p.
Proof.
  intros Es W Bd Eq. unfold ahp_index. rewrite Es. cbn [rbind]. rewrite Eq. cbn [rbind].
  destruct (make_square_ok K s) as (s2 & Eq2 & _ & _ & _ & Cs & Ls). rewrite Eq in Eq2. injection Eq2 as <-. destruct (make_square_sat K s s' Eq) as (W' & _ & _). specialize (W' W).
  destruct (process_matrices checks s') as [((a, b), c)| |] eqn:EP; try discriminate. cbn [rbind].
  destruct (process_matrices_any K checks s' a b c W') as (La & Lb & Lc & Sat & Ca & Cb & Cc); [rewrite density_terms, Cs, terms_app, terms_nil, Nat.add_0_r; exact Bd|exact EP|].
  rewrite <- Ls in Ca, Cb, Cc. rewrite <- Ls. unfold dom_or at 1. destruct (dnew (length (inps s'))) as [dx|] eqn:Ex; [|discriminate]. cbn [rbind]. unfold dom_or at 1. destruct (dnew (length (cons s'))) as [dh|] eqn:Eh; [|discriminate]. cbn [rbind].
  unfold dom_or at 1. destruct (dnew (num_non_zeros a b c)) as [dk|] eqn:Ek; [|discriminate]. cbn [rbind]. unfold dom_or. destruct (dnew (3 * dsize dk - 3)) as [db|] eqn:Eb; [|discriminate]. cbn [rbind].
  destruct R2 as (R & N). destruct (R _ _ Ex) as (Vx & _ & _). destruct (R _ _ Eh) as (Vh & Lh & _). destruct (R _ _ Ek) as (Vk & Lk & _). destruct (R _ _ Eb) as (Vb & Lb' & (f & Ef)). destruct (N _ _ _ _ Ex Eh ltac:(lia)) as (p & Hs & Hg).
  unfold num_non_zeros in Lk. pose proof (cols_weak _ (dsize dh) _ Lh Ca) as Wa. pose proof (cols_weak _ (dsize dh) _ Lh Cb) as Wb. pose proof (cols_weak _ (dsize dh) _ Lh Cc) as Wc.
  destruct (compose_ok K dx dh dk db p Vx Vh Hs a Wa ltac:(lia) ltac:(lia)) as (sa & -> & Sa). cbn [rbind].
  destruct (compose_ok K dx dh dk db p Vx Vh Hs b Wb ltac:(lia) ltac:(lia)) as (sb & -> & Sb). cbn [rbind].
  destruct (compose_ok K dx dh dk db p Vx Vh Hs c Wc ltac:(lia) ltac:(lia)) as (sc & -> & Sc). cbn [rbind].
  intro E. injection E as <-. exists dx, dh, dk, db, p. constructor; cbn [ix_info ix_a ix_b ix_c st_a st_b st_c i_nc i_nv i_nnz]; auto. apply (db_size _ _ f); [apply Vk|exact Lb'|exact Ef].
Qed.
Record ps_ok (s : cs K) (ix : index K) (ps : pstate K) (dx dh dk : dom K) : Prop := {
  po_ix : ps_ix K ps = ix; po_x : ps_x K ps = inps s; po_w : ps_w K ps = auxs s; po_dx : ps_dx K ps = dx; po_dh : ps_dh K ps = dh; po_dk : ps_dk K ps = dk;
  po_la : length (ps_za K ps) = length (ix_a K ix); po_lb : length (ps_zb K ps) = length (ix_b K ix);
  po_za : forall i, (i < length (ix_a K ix))%nat -> nth i (ps_za K ps) 0 = row_val (columns (length (inps s)) (wit s)) (nth i (ix_a K ix) []);
  po_zb : forall i, (i < length (ix_b K ix))%nat -> nth i (ps_zb K ps) 0 = row_val (columns (length (inps s)) (wit s)) (nth i (ix_b K ix) []) }.
Lemma mapR_inner (s : cs K) (m : list (list (K * nat))) : Forall (cols_in K (length (inps s) + length (auxs s))) m ->
  mapR (fun r => inner_product K (inps s) (auxs s) r 0) m = Ok (map (row_val (columns (length (inps s)) (wit s))) m).
Proof.
  intro F. apply mapR_ok. intros r Hr. rewrite inner_product_ok by (apply (proj1 (Forall_forall _ _) F), Hr). f_equal. transitivity (row_val (fun j => if Nat.ltb j (length (inps s)) then nth j (inps s) 0 else nth (j - length (inps s)) (auxs s) 0) r); [ring|].
  reflexivity.
Qed.
Lemma init_ok (s1 s2 : cs K) ix dx dh dk db p circ u s0 ps : ix_ok s1 ix dx dh dk db p -> same_shape s1 s2 -> circ (cs_new Prove) = Ok (u, s0) -> make_square s0 = Ok (tt, s2) ->
  length (cons s2) = (length (inps s2) + length (auxs s2))%nat -> prover_init K dnew ix circ = Ok ps -> ps_ok s2 ix ps dx dh dk.
Proof.
  intros X (Sc & Si & Sa) Es Eq Sq. unfold prover_init. rewrite Es. cbn [rbind]. rewrite Eq. cbn [rbind]. rewrite (xo_nc _ _ _ _ _ _ _ X), Sc, Sq, !Nat.eqb_refl. cbn [negb orb].
  pose proof (xo_ca _ _ _ _ _ _ _ X) as Ca. pose proof (xo_cb _ _ _ _ _ _ _ X) as Cb. rewrite Sc, Sq in Ca, Cb.
  rewrite (mapR_inner s2 _ Ca), (mapR_inner s2 _ Cb). cbn [rbind]. unfold dom_or. rewrite <- Sq, <- Sc, <- Si. rewrite (xo_dx _ _ _ _ _ _ _ X). cbn [rbind]. rewrite (xo_dh _ _ _ _ _ _ _ X). cbn [rbind]. rewrite (xo_dk _ _ _ _ _ _ _ X). cbn [rbind].
  intro E. injection E as <-. assert (row_val (columns (length (inps s2)) (wit s2)) [] = 0) as Z by reflexivity.
  constructor; cbn [ps_ix ps_x ps_w ps_dx ps_dh ps_dk ps_za ps_zb]; auto; rewrite ?map_length; auto; rewrite ?Si; intros i Hi; rewrite <- Z at 1; apply map_nth.
Qed.
(** All polynomials of a proof, under their labels. *)
Definition all_polys (ix : index K) (dh dk : dom K) (o1 : oracles1 K) (o2 : oracles2 K) (o3 : oracles3 K) : list (lpoly K) :=
  index_polys K ix ++ polys1 K o1 ++ polys2 K (dsize dh) o2 ++ polys3 K (dsize dk) o3.
Definition honest_evs (polys : list (lpoly K)) (beta gamma : K) (evs : list (string * K * K)) : Prop :=
  forall l pt e, In (l, pt) (query_set K beta gamma) -> eval_query K polys (l, pt) = Ok e -> ev_get K evs l pt = Some e.
Theorem equations_ok (s1 s2 : cs K) ix dx dh dk db p ps rw ra rb coeffs o1 o2 o3 v beta gamma evs :
  ix_ok s1 ix dx dh dk db p -> same_shape s1 s2 -> ps_ok s2 ix ps dx dh dk -> sat (wit s2) s2 -> (exists r, inps s2 = 1 :: r) -> dsize dx = length (inps s2) ->
  rw <> 0 -> ra <> 0 -> rb <> 0 -> v_alpha K v ^ dsize dh <> 1 -> beta ^ dsize dh <> 1 ->
  first_round K ps rw ra rb coeffs = Ok o1 -> second_round K dnew ps o1 v = Ok o2 -> third_round K dnew ps v beta = Ok o3 ->
  honest_evs (all_polys ix dh dk o1 o2 o3) beta gamma evs ->
  equality_check K dnew (tl (inps s2)) evs (mkVS K dh dk v beta gamma) = Ok true.
Proof.
  intros X (Sc & Si & Sa) Y St (r & Ei) Full Nw Na Nb Nal Nbe E1 E2 E3 Hev.
  destruct R2 as (R & _). destruct (R _ _ (xo_dx _ _ _ _ _ _ _ X)) as (Vx & _ & _). destruct (R _ _ (xo_dh _ _ _ _ _ _ _ X)) as (Vh & Lh & _). destruct (R _ _ (xo_dk _ _ _ _ _ _ _ X)) as (Vk & _ & _). destruct (R _ _ (xo_db _ _ _ _ _ _ _ X)) as (Vb & _ & _).
  destruct Y as [Yix Yx Yw Ydx Ydh Ydk Yla Ylb Yza Yzb]. subst ix.
  assert (forall (g : nat -> K) rr, (forall j, g j = columns (length (inps s2)) (wit s2) j) -> row_val g rr = row_val (columns (length (inps s2)) (wit s2)) rr) as RV by (intros g rr Hgj; unfold row_val; f_equal; apply map_ext; intro e; rewrite Hgj; reflexivity).
  assert (forall j, zcol K dx ps j = columns (length (inps s2)) (wit s2) j) as ZC by (intro j; unfold zcol, columns, wit; rewrite Full, Yx, Yw; destruct (Nat.ltb j (length (inps s2))); reflexivity).
  assert (msat (zcol K dx ps) (ix_a K (ps_ix K ps)) (ix_b K (ps_ix K ps)) (ix_c K (ps_ix K ps))) as Sat.
  { destruct St as (_ & F). rewrite <- Sc in F. apply (xo_sat _ _ _ _ _ _ _ X) in F. rewrite Si in F. destruct F as (F1 & F2 & F3). split; [exact F1|]. split; [exact F2|]. intros i Hi. rewrite !(RV (zcol K dx ps) _ ZC). apply F3, Hi. }
  assert (forall n d, dnew n = Some d -> valid_dom d /\ (n <= dsize d)%nat) as Hd by (intros n d E; destruct (R n d E) as (? & ? & _); auto).
  assert (dnew (length (ps_x K ps)) = Some dx) as Enx by (rewrite Yx, <- Si; apply X).
  destruct (second_ok K dnew Hd dx dh p Vx Vh (xo_s _ _ _ _ _ _ _ X) (xo_g _ _ _ _ _ _ _ X) ps Ydx Ydh Enx (cols_weak _ _ _ Lh (xo_ca _ _ _ _ _ _ _ X)) (cols_weak _ _ _ Lh (xo_cb _ _ _ _ _ _ _ X)) (cols_weak _ _ _ Lh (xo_cc _ _ _ _ _ _ _ X))
    ltac:(rewrite (xo_lc _ _ _ _ _ _ _ X); exact Lh) Sat Yla Ylb ltac:(intros i Hi; rewrite (RV _ _ ZC); apply Yza, Hi) ltac:(intros i Hi; rewrite (RV _ _ ZC); apply Yzb, Hi) rw ra rb Nw Na Nb coeffs v Nal o1 o2 E1 E2) as (_ & Out & Ht).
  destruct (third_ok K dnew dx dh dk db Vh Vk Vb (xo_db _ _ _ _ _ _ _ X) (xo_lb _ _ _ _ _ _ _ X) ps Ydh Ydk (xo_sa _ _ _ _ _ _ _ X) (xo_sb _ _ _ _ _ _ _ X) (xo_sc _ _ _ _ _ _ _ X) v (v_alpha K v) beta eq_refl Nal Nbe o3 E3) as (_ & _ & _ & _ & Inn).
  specialize (Out beta). specialize (Ht beta Nbe). specialize (Inn gamma). rewrite <- Ht in Inn. rewrite Yx in Out.
  unfold equality_check. cbn [vs_m vs_beta vs_gamma vs_dh vs_dk]. assert (1 :: tl (inps s2) = inps s2) as -> by (rewrite Ei; reflexivity).
  unfold dom_or. rewrite <- Si, (xo_dx _ _ _ _ _ _ _ X). cbn [rbind].
  unfold get_eval.
  rewrite (Hev "mask"%string beta (peval (o_mask K o1) beta)) by (try reflexivity; cbn; tauto). cbn [rbind].
  rewrite (Hev "z_a"%string beta (peval (o_za K o1) beta)) by (try reflexivity; cbn; tauto). cbn [rbind].
  rewrite (Hev "z_b"%string beta (peval (o_zb K o1) beta)) by (try reflexivity; cbn; tauto). cbn [rbind].
  rewrite (Hev "w"%string beta (peval (o_w K o1) beta)) by (try reflexivity; cbn; tauto). cbn [rbind].
  rewrite (Hev "t"%string beta (peval (o_t K o2) beta)) by (try reflexivity; cbn; tauto). cbn [rbind].
  rewrite (Hev "h_1"%string beta (peval (o_h1 K o2) beta)) by (try reflexivity; cbn; tauto). cbn [rbind].
  rewrite (Hev "g_1"%string beta (peval (o_g1 K o2) beta)) by (try reflexivity; cbn; tauto). cbn [rbind].
  unfold vh at 1 2. rewrite Out, feqb_refl. cbn [negb].
  rewrite (Hev "h_2"%string gamma (peval (o_h2 K o3) gamma)) by (try reflexivity; cbn; tauto). cbn [rbind].
  rewrite (Hev "g_2"%string gamma (peval (o_g2 K o3) gamma)) by (try reflexivity; cbn; tauto). cbn [rbind].
  unfold star_at, get_eval. cbn [append].
  rewrite (Hev "a_val"%string gamma (peval (st_val K (st_a K (ps_ix K ps))) gamma)) by (try reflexivity; cbn; tauto). cbn [rbind].
  rewrite (Hev "a_row"%string gamma (peval (st_row K (st_a K (ps_ix K ps))) gamma)) by (try reflexivity; cbn; tauto). cbn [rbind].
  rewrite (Hev "a_col"%string gamma (peval (st_col K (st_a K (ps_ix K ps))) gamma)) by (try reflexivity; cbn; tauto). cbn [rbind].
  rewrite (Hev "a_row_col"%string gamma (peval (st_rc K (st_a K (ps_ix K ps))) gamma)) by (try reflexivity; cbn; tauto). cbn [rbind].
  rewrite (Hev "b_val"%string gamma (peval (st_val K (st_b K (ps_ix K ps))) gamma)) by (try reflexivity; cbn; tauto). cbn [rbind].
  rewrite (Hev "b_row"%string gamma (peval (st_row K (st_b K (ps_ix K ps))) gamma)) by (try reflexivity; cbn; tauto). cbn [rbind].
  rewrite (Hev "b_col"%string gamma (peval (st_col K (st_b K (ps_ix K ps))) gamma)) by (try reflexivity; cbn; tauto). cbn [rbind].
  rewrite (Hev "b_row_col"%string gamma (peval (st_rc K (st_b K (ps_ix K ps))) gamma)) by (try reflexivity; cbn; tauto). cbn [rbind].
  rewrite (Hev "c_val"%string gamma (peval (st_val K (st_c K (ps_ix K ps))) gamma)) by (try reflexivity; cbn; tauto). cbn [rbind].
  rewrite (Hev "c_row"%string gamma (peval (st_row K (st_c K (ps_ix K ps))) gamma)) by (try reflexivity; cbn; tauto). cbn [rbind].
  rewrite (Hev "c_col"%string gamma (peval (st_col K (st_c K (ps_ix K ps))) gamma)) by (try reflexivity; cbn; tauto). cbn [rbind].
  rewrite (Hev "c_row_col"%string gamma (peval (st_rc K (st_c K (ps_ix K ps))) gamma)) by (try reflexivity; cbn; tauto). cbn [rbind].
  f_equal. apply feqb_eq. unfold vh at 1. rewrite Inn. unfold a_at, b_at, dn. unfold vh. assert (@of_nat K (dsize dk) <> 0) by apply Vk. field. assumption.
Qed.
End Ix.
End P.
