(** Marlin: a prover winning the oracle protocol has a satisfying assignment, and conversely. *)
From Verif Require Import ModelMarlin SpecLC SpecCS SpecMarlin SpecMarlin2 SpecPC ProofsPC ProofsMarlinCS ProofsMarlin ProofsMarlin2 ProofsMarlin4 ProofsMarlin8.
From Verif Require Import ModelCS.
Local Open Scope fld_scope.
Section P.
Variable K : Fld.
Add Field Kfm9 : (f_laws K).
Variable dnew : nat -> option (dom K).
Hypothesis R2 : radix2 dnew.
(** The equality check on truthful answers is the conjunction of the two equations. *)
Lemma get_hit (l : list (string * K * K)) (n : string) (pt e : K) : ev_get K l n pt = Some e -> get_eval K l n pt = Ok e.
Proof. unfold get_eval. intros ->. reflexivity. Qed.
Lemma ev_head (n m : string) (pt : K) e l : ev_get K ((n, pt, e) :: l) m pt = if String.eqb n m then Some e else ev_get K l m pt.
Proof. unfold ev_get. cbn [find fst snd]. rewrite feqb_refl, Bool.andb_true_r. destruct (String.eqb n m); reflexivity. Qed.
Lemma ev_skip (n m : string) (q pt : K) e l : String.eqb n m = false -> ev_get K ((n, q, e) :: l) m pt = ev_get K l m pt.
Proof. intro E. unfold ev_get. cbn [find fst snd]. rewrite E. reflexivity. Qed.
Ltac fnd := unfold answers, star_answers; cbn [append app]; repeat (rewrite ev_skip by reflexivity); rewrite ev_head; reflexivity.
Section E.
Variables (ix : index K) (dx dh dk : dom K) (pub : list K) (v : vmsg K).
Variables (o1 : oracles1 K) (o2 : oracles2 K) (o3 : oracles3 K).
Hypothesis Ex : dnew (length (1 :: pub)) = Some dx.
Hypothesis Vk : valid_dom dk.
Definition eq1 (y : K) : Prop := peval (o_mask K o1) y + bivariate_eval K dh (v_alpha K v) y * (v_a K v * peval (o_za K o1) y + v_b K v * peval (o_zb K o1) y + v_c K v * peval (o_za K o1) y * peval (o_zb K o1) y)
  - peval (o_t K o2) y * zh K dx (1 :: pub) (o_w K o1) y = peval (o_h1 K o2) y * (y ^ dsize dh - 1) + y * peval (o_g1 K o2) y.
Definition eq2 (be ga : K) : Prop := peval (o_h2 K o3) ga * (ga ^ dsize dk - 1) = a_at K dh (ps0 K ix dx dh dk) v (v_alpha K v) be ga - b_at K (ps0 K ix dx dh dk) (v_alpha K v) be ga * (ga * peval (o_g2 K o3) ga + peval (o_t K o2) be / of_nat (dsize dk)).
Lemma check_iff be ga : equality_check K dnew pub (answers K ix o1 o2 o3 be ga) (mkVS K dh dk v be ga) = Ok true <-> eq1 be /\ eq2 be ga.
Proof.
  assert (G : forall n pt e, ev_get K (answers K ix o1 o2 o3 be ga) n pt = Some e -> get_eval K (answers K ix o1 o2 o3 be ga) n pt = Ok e) by (intros; apply get_hit; assumption).
  unfold equality_check. cbn [vs_m vs_beta vs_gamma vs_dh vs_dk]. unfold dom_or. rewrite Ex. cbn [rbind].
  rewrite (G "mask"%string be (peval (o_mask K o1) be)) by fnd. cbn [rbind].
  rewrite (G "z_a"%string be (peval (o_za K o1) be)) by fnd. cbn [rbind].
  rewrite (G "z_b"%string be (peval (o_zb K o1) be)) by fnd. cbn [rbind].
  rewrite (G "w"%string be (peval (o_w K o1) be)) by fnd. cbn [rbind].
  rewrite (G "t"%string be (peval (o_t K o2) be)) by fnd. cbn [rbind].
  rewrite (G "h_1"%string be (peval (o_h1 K o2) be)) by fnd. cbn [rbind].
  rewrite (G "g_1"%string be (peval (o_g1 K o2) be)) by fnd. cbn [rbind].
  match goal with |- context [negb (feqb ?l ?r)] => assert (Q1 : (l = r) <-> eq1 be) by reflexivity; destruct (feqb_spec K l r) as [E|N]; cbn [negb] end.
  2:{ split; [discriminate|]. intros (H & _). apply Q1 in H. contradiction. }
  apply Q1 in E. clear Q1. unfold star_at. cbn [append].
  rewrite (G "h_2"%string ga (peval (o_h2 K o3) ga)) by fnd. cbn [rbind].
  rewrite (G "g_2"%string ga (peval (o_g2 K o3) ga)) by fnd. cbn [rbind].
  rewrite (G "a_val"%string ga (peval (st_val K (st_a K ix)) ga)) by fnd. cbn [rbind].
  rewrite (G "a_row"%string ga (peval (st_row K (st_a K ix)) ga)) by fnd. cbn [rbind].
  rewrite (G "a_col"%string ga (peval (st_col K (st_a K ix)) ga)) by fnd. cbn [rbind].
  rewrite (G "a_row_col"%string ga (peval (st_rc K (st_a K ix)) ga)) by fnd. cbn [rbind].
  rewrite (G "b_val"%string ga (peval (st_val K (st_b K ix)) ga)) by fnd. cbn [rbind].
  rewrite (G "b_row"%string ga (peval (st_row K (st_b K ix)) ga)) by fnd. cbn [rbind].
  rewrite (G "b_col"%string ga (peval (st_col K (st_b K ix)) ga)) by fnd. cbn [rbind].
  rewrite (G "b_row_col"%string ga (peval (st_rc K (st_b K ix)) ga)) by fnd. cbn [rbind].
  rewrite (G "c_val"%string ga (peval (st_val K (st_c K ix)) ga)) by fnd. cbn [rbind].
  rewrite (G "c_row"%string ga (peval (st_row K (st_c K ix)) ga)) by fnd. cbn [rbind].
  rewrite (G "c_col"%string ga (peval (st_col K (st_c K ix)) ga)) by fnd. cbn [rbind].
  rewrite (G "c_row_col"%string ga (peval (st_rc K (st_c K ix)) ga)) by fnd. cbn [rbind].
  assert (NK : @of_nat K (dsize dk) <> 0) by apply Vk.
  match goal with |- Ok (feqb ?l ?r) = _ <-> _ => assert (Q2 : l = r <-> eq2 be ga) end.
  { unfold eq2, a_at, b_at, dn, ps0, vh. cbn [ps_ix]. match goal with |- ?l = ?r <-> ?l' = ?r' => assert (R : r = r') by (field; exact NK); rewrite R; reflexivity end. }
  split.
  - intro H. split; [exact E|]. apply Q2, feqb_eq. apply (f_equal (fun r => match r with Ok b => b | _ => false end)) in H. exact H.
  - intros (_ & H). apply Q2, feqb_eq in H. rewrite H. reflexivity.
Qed.
End E.
Section W.
Variables (s1 : cs K) (ix : index K) (dx dh dk db : dom K) (p : nat).
Hypothesis X : ix_ok K dnew s1 ix dx dh dk db p.
Notation x := (dsize dx). Notation h := (dsize dh). Notation k := (dsize dk). Notation w := (dgen dh).
Theorem wins_sound (pub als es bs gs : list K) D D2 : dnew (length (1 :: pub)) = Some dx ->
  NoDup als -> (h <= length als)%nat -> (forall al, In al als -> al ^ h <> 1) -> (exists e1 e2, In e1 es /\ In e2 es /\ e1 <> e2) ->
  NoDup bs -> (2 * D + h + 1 <= length bs)%nat -> (forall be, In be bs -> be ^ h <> 1) -> NoDup gs -> (D2 + k + 1 <= length gs)%nat -> (4 * k <= length gs)%nat ->
  ahp_wins K dnew ix dh dk pub D D2 als es bs gs ->
  exists a : var -> K, (forall i, a (Input i) = nth i (1 :: pub) 0) /\ Forall (holds a) (cons s1).
Proof.
  intros Ex NA LA OA (e1 & e2 & I1 & I2 & NE) NB LB OB NG LG LG4 (o1 & L1 & W).
  pose proof (vdx K dnew R2 _ _ _ _ _ _ _ X) as Vx. pose proof (vdh K dnew R2 _ _ _ _ _ _ _ X) as Vh. pose proof (vdk K dnew R2 _ _ _ _ _ _ _ X) as Vk. pose proof (proj1 Vk) as Hk. pose proof (proj1 Vh) as Hh.
  set (fi := 1 :: pub) in *. set (z := zc K dx dh fi (o_w K o1)). set (ni := length (inps s1)).
  assert (S0 : forall al ea eb ec, In al als -> In ea es -> In eb es -> In ec es ->
    sumn h (fun i => peval (o_mask K o1) (w ^ i)) + sumn h (fun i => bivariate_eval K dh al (w ^ i) * cdiff K ix dx dh fi (o_w K o1) (o_za K o1) (o_zb K o1) (mkVM K al ea eb ec) i) = 0).
  { intros al ea eb ec Ia Iea Ieb Iec. destruct (W al ea eb ec Ia Iea Ieb Iec) as (o2 & (L2t & L2h & L2g) & W2). set (v := mkVM K al ea eb ec) in *.
    change al with (v_alpha K v). apply (outer_sound K dnew R2 s1 ix dx dh dk db p X fi _ _ _ _ D L1 v (o_t K o2) (o_g1 K o2) (o_h1 K o2) bs); try assumption; [exact (OA al Ia)| |].
    - intros be Ib. destruct (W2 be Ib) as (o3 & (L3h & L3g) & W3).
      apply (inner_sound K dnew R2 s1 ix dx dh dk db p X v be (peval (o_t K o2) be) (OA al Ia) (OB be Ib) (o_g2 K o3) (o_h2 K o3) gs D2); try assumption.
      intros ga Ig. apply (proj1 (check_iff ix dx dh dk pub v o1 o2 o3 Ex Vk be ga) (W3 ga Ig)).
    - intros be Ib. destruct (W2 be Ib) as (o3 & _ & W3). destruct gs as [|ga gs']; [cbn [length] in LG4; lia|]. apply (proj1 (check_iff ix dx dh dk pub v o1 o2 o3 Ex Vk be ga) (W3 ga (or_introl eq_refl))). }
  assert (ROWS : forall j, (j < h)%nat -> peval (o_za K o1) (w ^ j) - mrow K dx dh fi (o_w K o1) (ix_a K ix) j = 0 /\ peval (o_zb K o1) (w ^ j) - mrow K dx dh fi (o_w K o1) (ix_b K ix) j = 0 /\
    peval (o_za K o1) (w ^ j) * peval (o_zb K o1) (w ^ j) - mrow K dx dh fi (o_w K o1) (ix_c K ix) j = 0).
  { intros j Hj. assert (U : of_nat h * (w ^ j) ^ (h - 1) <> 0). { apply f_mul_nz; [apply Vh|]. apply fpow_nz, fpow_nz, (w_nz K dh Vh). }
    apply (separate3 K (sumn h (fun i => peval (o_mask K o1) (w ^ i))) _ _ _ _ e1 e2 U NE). intros ea eb ec Ia Ib Ic.
    assert (forall e, In e [e1; e2] -> In e es) as IN by (intros e [<-|[<-|[]]]; assumption).
    pose proof (separate K dh (sumn h (fun i => peval (o_mask K o1) (w ^ i))) (fun i => cdiff K ix dx dh fi (o_w K o1) (o_za K o1) (o_zb K o1) (mkVM K 0 ea eb ec) i) als Vh NA LA) as S.
    specialize (S ltac:(intros al Il; exact (S0 al ea eb ec Il (IN _ Ia) (IN _ Ib) (IN _ Ic))) j Hj). unfold cdiff in S. cbn [v_a v_b v_c] in S. exact S. }
  set (a := fun v : var => match v with Input j => nth j fi 0 | Aux j => z (ni + j)%nat end). exists a. split; [reflexivity|].
  destruct (proj1 R2 _ _ (xo_dx _ _ _ _ _ _ _ _ _ X)) as (_ & Lni & _). fold ni in Lni.
  assert (COL : forall j, columns ni a j = z j).
  { intro j. unfold columns, a. destruct (Nat.ltb_spec j ni) as [H|H].
    - symmetry. apply (zc_input K dnew R2 s1 ix dx dh dk db p X fi). lia.
    - f_equal. lia. }
  assert (RV : forall r, row_val (columns ni a) r = row_val z r) by (intro r; unfold row_val; f_equal; apply map_ext; intro e; rewrite COL; reflexivity).
  pose proof (xo_lh _ _ _ _ _ _ _ _ _ X) as Lh. pose proof (xo_la _ _ _ _ _ _ _ _ _ X) as La. pose proof (xo_lbm _ _ _ _ _ _ _ _ _ X) as Lbm. pose proof (xo_lc _ _ _ _ _ _ _ _ _ X) as Lc.
  apply (xo_sat _ _ _ _ _ _ _ _ _ X). split; [congruence|]. split; [congruence|]. intros i Hi. fold ni. rewrite !RV. destruct (ROWS i ltac:(lia)) as (A & B & C).
  apply (proj1 (fsub_0 K _ _)) in A. apply (proj1 (fsub_0 K _ _)) in B. apply (proj1 (fsub_0 K _ _)) in C. unfold mrow in A, B, C. fold z in A, B, C. rewrite <- A, <- B, <- C. reflexivity.
Qed.
End W.
End P.
