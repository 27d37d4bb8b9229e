(** Marlin: the outer sumcheck and the verifier's equations on honest oracles. *)
From Verif Require Import ModelMarlin SpecLC SpecCS SpecMarlin SpecPC ProofsPC ProofsMarlinCS ProofsMarlin ProofsMarlin2.
From Verif Require Import ModelCS.
Local Open Scope fld_scope.
Section P.
Variable K : Fld.
Add Field Kfm4 : (f_laws K).
Section Outer.
Variable dnew : nat -> option (dom K).
Hypothesis Hdom : forall n d, dnew n = Some d -> valid_dom d /\ (n <= dsize d)%nat.
Variables dx dh : dom K.
Variable p : nat.
Hypothesis Vx : valid_dom dx.
Hypothesis Vh : valid_dom dh.
Hypothesis Hs : dsize dh = (dsize dx * p)%nat.
Hypothesis Hg : dgen dx = dgen dh ^ p.
Notation x := (dsize dx).
Notation h := (dsize dh).
Notation w := (dgen dh).
Variable ps : pstate K.
Hypothesis Ex : ps_dx K ps = dx.
Hypothesis Eh : ps_dh K ps = dh.
Hypothesis Enx : dnew (length (ps_x K ps)) = Some dx.
Notation xs := (ps_x K ps).
Notation ws := (ps_w K ps).
Notation ix := (ps_ix K ps).
Notation A := (ix_a K ix). Notation B := (ix_b K ix). Notation C := (ix_c K ix).
(** The assignment the polynomials encode, by column. *)
Definition zcol (j : nat) : K := if Nat.ltb j x then nth j xs 0 else nth (j - x) ws 0.
Hypothesis CA : Forall (cols_lt K h) A.
Hypothesis CB : Forall (cols_lt K h) B.
Hypothesis CC : Forall (cols_lt K h) C.
Hypothesis LC : (length C <= h)%nat.
Hypothesis Sat : msat zcol A B C.
Hypothesis Lza : length (ps_za K ps) = length A.
Hypothesis Lzb : length (ps_zb K ps) = length B.
Hypothesis Za : forall i, (i < length A)%nat -> nth i (ps_za K ps) 0 = row_val zcol (nth i A []).
Hypothesis Zb : forall i, (i < length B)%nat -> nth i (ps_zb K ps) 0 = row_val zcol (nth i B []).
Lemma xpos : (0 < x)%nat. Proof. apply Vx. Qed.
Lemma ppos : (0 < p)%nat. Proof. destruct Vh as (H & _). rewrite Hs in H. destruct p; lia. Qed.
Lemma hpos : (0 < h)%nat. Proof. apply Vh. Qed.
Lemma row_val_z (r : list (K * nat)) : cols_lt K h r -> row_val (fun j => zvec K p xs ws (pos h x j)) r = row_val zcol r.
Proof.
  intro H. unfold row_val. f_equal. apply map_ext_in. intros e He. pose proof (proj1 (Forall_forall _ _) H e He) as Hj. cbv beta in Hj. rewrite (zvec_pos K dx dh p Vx Vh Hs Hg); [reflexivity|apply (Hdom _ _ Enx)|exact Hj].
Qed.
Lemma mform_z (m : list (list (K * nat))) u : Forall (cols_lt K h) m -> mform K m u (fun j => zvec K p xs ws (pos h x j)) = sumn (length m) (fun l => u l * row_val zcol (nth l m [])).
Proof.
  intro H. unfold mform. apply sumn_ext. intros l Hl. f_equal. apply row_val_z. apply (proj1 (Forall_forall _ _) H). apply nth_In, Hl.
Qed.
Variables rw ra rb : K.
Hypothesis Nw : rw <> 0.
Hypothesis Na : ra <> 0.
Hypothesis Nb : rb <> 0.
Variable coeffs : list K.
Record out1 (o1 : oracles1 K) : Prop := {
  o1_w : canonical (o_w K o1) /\ o_w K o1 <> [];
  o1_z : forall i, (i < h)%nat -> ((w ^ i) ^ x - 1) * peval (o_w K o1) (w ^ i) + peval (interp K dx xs) (w ^ i) = zvec K p xs ws i;
  o1_a : o_za K o1 = blind K dh (ps_za K ps) ra; o1_b : o_zb K o1 = blind K dh (ps_zb K ps) rb;
  o1_m : sumn h (fun i => peval (o_mask K o1) (w ^ i)) = 0 }.
Lemma first_ok o1 : first_round K ps rw ra rb coeffs = Ok o1 -> out1 o1.
Proof.
  unfold first_round. rewrite Ex, Eh. destruct (Nat.ltb_spec h (x + length ws)) as [|Hl]; [discriminate|].
  destruct (first_w K dx dh p Vx Vh Hs Hg xs ws rw Hl) as (we & -> & F). cbn [rbind]. destruct (pdivv K x (blind K dh we rw)) as (wp, r). destruct F as (-> & Cw & Nw0 & _ & Hz).
  set (mask := ModelMarlin.trim K (firstn (3 * h) coeffs)). pose proof (rem_const K dh Vh mask) as R.
  destruct (get K (snd (pdivv K h mask)) 0) as [sigma| |] eqn:Eg; try discriminate. cbn [rbind].
  assert (sigma = nth 0 (snd (pdivv K h mask)) 0) as Es. { unfold get in Eg. destruct (snd (pdivv K h mask)) as [|c l]; [discriminate|]. injection Eg as <-. reflexivity. }
  destruct mask as [|m0 m'] eqn:Em; [discriminate|]. intro E. injection E as <-. constructor; cbn [o_w o_za o_zb o_mask]; auto.
  rewrite (sumn_ext K h _ (fun i => peval (m0 :: m') (w ^ i) - sigma)) by (intros i _; cbn [peval]; ring). rewrite sumn_sub, sumn_const, Es, R. assert (@of_nat K h <> 0) by apply Vh. field. assumption.
Qed.
Variable v : vmsg K.
Hypothesis Hal : v_alpha K v ^ h <> 1.
Notation al := (v_alpha K v).
Notation ea := (v_a K v). Notation eb := (v_b K v). Notation ec := (v_c K v).
Theorem second_ok o1 o2 : first_round K ps rw ra rb coeffs = Ok o1 -> second_round K dnew ps o1 v = Ok o2 -> (2 <= h)%nat /\
  (forall y, peval (o_mask K o1) y + bivariate_eval K dh al y * (ea * peval (o_za K o1) y + eb * peval (o_zb K o1) y + ec * peval (o_za K o1) y * peval (o_zb K o1) y)
    - peval (o_t K o2) y * ((y ^ x - 1) * peval (o_w K o1) y + peval (interp K dx xs) y) = peval (o_h1 K o2) y * (y ^ h - 1) + y * peval (o_g1 K o2) y) /\
  (forall be, be ^ h <> 1 -> peval (o_t K o2) be = tval K dx dh ps v al be).
Proof.
  intros E1 E2. destruct (first_ok o1 E1) as [(Cw & Nw') Hz Oa Ob Hm]. unfold second_round in E2. rewrite Eh in E2. unfold dom_or at 1 in E2. rewrite Enx in E2. cbn [rbind] in E2.
  pose proof xpos as Hx. pose proof ppos as Hp. pose proof hpos as Hh. destruct Sat as (LAC & LBC & Hsat).
  set (bat := batch_evals K dh al) in *. assert (length bat = h) as Lbat by (unfold bat, batch_evals; rewrite map_length, length_dpts; reflexivity).
  pose proof (t_evals_ok K x p Hx Hp ix v bat) as T. rewrite <- Hs in T. destruct (T CA CB CC ltac:(lia) ltac:(lia) ltac:(lia)) as (te & Et & Lte & W). clear T.
  rewrite Et in E2. cbn [rbind] in E2.
  assert (forall y, peval (m_poly K v (o_za K o1) (o_zb K o1)) y = ea * peval (o_za K o1) y + eb * peval (o_zb K o1) y + ec * peval (o_za K o1) y * peval (o_zb K o1) y) as Em.
  { intro y. apply (m_poly_eval K v _ _ h); rewrite ?Oa, ?Ob; rewrite ?(nth_blind_top K dh Vh); try assumption; apply (length_blind_nz K dh Vh); assumption. }
  set (mp := m_poly K v (o_za K o1) (o_zb K o1)) in *.
  assert (forall y, peval (z_poly K x (o_w K o1) (interp K dx xs)) y = (y ^ x - 1) * peval (o_w K o1) y + peval (interp K dx xs) y) as Ez by (intro y; apply z_poly_eval; [exact Hx|exact Cw|exact Nw'|apply length_interp]).
  set (zp := z_poly K x (o_w K o1) (interp K dx xs)) in *.
  assert (forall y, peval (ModelMarlin.trim K (idft dh bat)) y = bivariate_eval K dh al y) as Er by (intro y; apply (r_alpha_eval K dh Vh); exact Hal).
  set (rp := ModelMarlin.trim K (idft dh bat)) in *.
  set (tp := interp K dh te) in *.
  unfold dom_or in E2. destruct (dnew (Nat.max (length (o_mask K o1)) (Nat.max (length rp + length mp) (length tp + length zp)))) as [d|] eqn:Ed; [|discriminate]. cbn [rbind] in E2.
  destruct (Hdom _ _ Ed) as (Vd & Ld).
  pose proof (interp_exact K d Vd (fun u => peval rp u * peval mp u - peval tp u * peval zp u) (psub (pmul rp mp) (pmul tp zp))) as I.
  rewrite length_psub in I. pose proof (length_pmul K rp mp). pose proof (length_pmul K tp zp). specialize (I ltac:(lia) ltac:(intro y; rewrite peval_psub, !peval_pmul; reflexivity)).
  set (q1 := ModelMarlin.trim K (padd (o_mask K o1) (interp K d (map (fun u => peval rp u * peval mp u - peval tp u * peval zp u) (dpts d))))) in *.
  assert (forall y, peval q1 y = peval (o_mask K o1) y + (peval rp y * peval mp y - peval tp y * peval zp y)) as Q1 by (intro y; unfold q1; rewrite peval_trim, peval_padd, I; reflexivity).
  pose proof (rem_const K dh Vh q1) as R. pose proof (pdivv_ok K h q1 Hh) as Q. destruct (pdivv K h q1) as (h1, xg1). cbn [snd] in R. destruct Q as (_ & _ & _ & _ & Q).
  destruct xg1 as [|c0 g1]; [discriminate|]. destruct (Nat.ltb_spec h 2) as [|Hh2]; [discriminate|]. injection E2 as <-. cbn [o_t o_g1 o_h1]. split; [exact Hh2|].
  assert (forall i, (i < h)%nat -> peval rp (w ^ i) = nth i bat 0) as Rb by (intros i Hi; apply (interp_dom K dh Vh), Hi).
  assert (forall i, (i < h)%nat -> peval tp (w ^ i) = nth i te 0) as Tb by (intros i Hi; apply (interp_dom K dh Vh), Hi).
  assert (sumn h (fun i => peval rp (w ^ i) * peval mp (w ^ i)) = sumn h (fun i => peval tp (w ^ i) * peval zp (w ^ i))) as S.
  { transitivity (wsum K te (zvec K p xs ws)).
    - rewrite W, !mform_z by assumption. rewrite LAC, LBC. rewrite <- !sumn_mul_l, <- !sumn_add. rewrite (sumn_trunc K (length C)); [|exact LC|].
      + apply sumn_ext. intros i Hi. rewrite Rb, Em by lia. rewrite Oa, Ob, !(blind_dom K dh Vh) by lia. rewrite Za, Zb by lia. rewrite <- Hsat by exact Hi. ring.
      + intros i Hi. rewrite Em, Oa, Ob, !(blind_dom K dh Vh) by lia. rewrite !nth_overflow by lia. ring.
    - unfold wsum. rewrite Lte. apply sumn_ext. intros i Hi. rewrite Tb, Ez, Hz by exact Hi. reflexivity. }
  assert (c0 = 0) as C0.
  { cbn [nth] in R. rewrite R. rewrite (sumn_ext K h _ (fun i => peval (o_mask K o1) (w ^ i) + (peval rp (w ^ i) * peval mp (w ^ i) - peval tp (w ^ i) * peval zp (w ^ i)))) by (intros i _; apply Q1). rewrite sumn_add, sumn_sub, S, Hm. ring. }
  split.
  - intro y. rewrite peval_trim. specialize (Q y). rewrite Q1, Er, Em, Ez, C0 in Q. cbn [peval] in Q.
    match goal with |- ?l = ?r => transitivity ((y ^ h - 1) * peval h1 y + (0 + y * peval g1 y)); [rewrite <- Q|]; ring end.
  - intros be Hbe. unfold tp, interp. rewrite peval_trim, (lagrange_eval K dh Vh te be Hbe). transitivity (wsum K te (lag K dh be)).
    + unfold wsum. rewrite Lte. apply sumn_ext. intros i Hi. unfold lag. reflexivity.
    + rewrite W. unfold tval. assert (forall l, (l < h)%nat -> nth l bat 0 = vh K dh al * finv (al - w ^ l)) as Nb' by (intros l Hl; unfold bat; rewrite (nth_batch K dh) by exact Hl; ring).
      f_equal; [f_equal|]; f_equal; apply mform_ext; try reflexivity; intros l Hl; apply Nb'; lia.
Qed.
End Outer.
End P.
