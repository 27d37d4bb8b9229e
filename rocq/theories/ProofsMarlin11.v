(** Marlin: the oracle protocol for an indexed circuit. *)
From Verif Require Import ModelMarlin SpecLC SpecCS SpecMarlin SpecMarlin2 SpecPC ProofsPC ProofsMarlinCS ProofsMarlin ProofsMarlin2 ProofsMarlin4 ProofsMarlin8 ProofsMarlin9 ProofsMarlin10.
From Verif Require Import ModelCS.
Local Open Scope fld_scope.
Section P.
Variable K : Fld.
Variable dnew : nat -> option (dom K).
Hypothesis R2 : radix2 dnew.
Variables (checks : bool) (circ : M K unit) (u : unit) (s : cs K) (ix : index K) (dx dh dk : dom K) (pub : list K).
Hypothesis Es : circ (cs_new Setup) = Ok (u, s).
Hypothesis Wf : wf s.
Hypothesis Bd : (Z.of_nat (terms (cons s)) < 2 ^ 64)%Z.
Hypothesis Ei : ahp_index K dnew checks circ = Ok ix.
Hypothesis Ed : verifier_doms K dnew (ix_info K ix) = Ok (dh, dk).
Hypothesis Ex : dnew (length (inps s)) = Some dx.
Lemma squared : exists s', make_square s = Ok (tt, s') /\ inps s' = inps s /\ cons s' = cons s ++ skipn (length (cons s)) (cons s') /\ (forall a, sat a s' <-> sat a s) /\ exists db p, ix_ok K dnew s' ix dx dh dk db p.
Proof.
  destruct (make_square_ok K s) as (s2 & Eq & E1 & E2 & E3 & Cs & Ls). destruct (make_square_sat K s s2 Eq) as (_ & Sat & _). exists s2. split; [exact Eq|]. split; [assumption|].
  split; [rewrite Cs, skipn_app, skipn_all, Nat.sub_diag; reflexivity|]. split; [exact Sat|]. destruct (index_ok K dnew R2 checks circ u s s2 ix Es Wf Bd Eq Ei) as (dx' & dh' & dk' & db & p & X). exists db, p.
  assert (dx' = dx /\ dh' = dh /\ dk' = dk) as (-> & -> & ->); [|exact X].
  pose proof (xo_dx _ _ _ _ _ _ _ _ _ X) as A1. pose proof (xo_dh _ _ _ _ _ _ _ _ _ X) as A2. pose proof (xo_dk _ _ _ _ _ _ _ _ _ X) as A3.
  unfold verifier_doms in Ed. rewrite (xo_nc _ _ _ _ _ _ _ _ _ X), (xo_nv _ _ _ _ _ _ _ _ _ X), Nat.eqb_refl in Ed. cbn [negb] in Ed. unfold dom_or in Ed. rewrite A2, A3 in Ed. cbn [rbind] in Ed. injection Ed as <- <-.
  split; [|split; reflexivity]. congruence.
Qed.
Theorem ahp_sound (als es bs gs : list K) D D2 : dnew (S (length pub)) = Some dx ->
  NoDup als -> (dsize dh <= length als)%nat -> (forall al, In al als -> al ^ dsize dh <> 1) -> (exists e1 e2, In e1 es /\ In e2 es /\ e1 <> e2) ->
  NoDup bs -> (2 * D + dsize dh + 1 <= length bs)%nat -> (forall be, In be bs -> be ^ dsize dh <> 1) -> NoDup gs -> (D2 + dsize dk + 1 <= length gs)%nat -> (4 * dsize dk <= length gs)%nat ->
  ahp_wins K dnew ix dh dk pub D D2 als es bs gs -> exists a : var -> K, (forall i, a (Input i) = nth i (1 :: pub) 0) /\ sat a s.
Proof.
  intros Ep NA LA OA HE NB LB OB NG LG LG4 W. destruct squared as (s' & _ & _ & _ & Sat & db & p & X).
  destruct (wins_sound K dnew R2 s' ix dx dh dk db p X pub als es bs gs D D2 Ep NA LA OA HE NB LB OB NG LG LG4 W) as (a & Ha & Hh). exists a. split; [exact Ha|]. apply Sat. split; [apply (Ha O)|exact Hh].
Qed.
Theorem ahp_complete (a : var -> K) (als es bs gs : list K) : length (inps s) = S (length pub) -> dsize dx = length (inps s) -> (forall i, (i < length (inps s))%nat -> a (Input i) = nth i (1 :: pub) 0) -> sat a s ->
  (forall al, In al als -> al ^ dsize dh <> 1) -> (forall be, In be bs -> be ^ dsize dh <> 1) -> ahp_wins K dnew ix dh dk pub (2 * dsize dh + 2) (3 * dsize dk) als es bs gs.
Proof.
  intros Lp Full Ha Hs OA OB. destruct squared as (s' & _ & I & _ & Sat & db & p & X). apply Sat in Hs. destruct Hs as (_ & Hs).
  apply (wins_complete K dnew R2 s' ix dx dh dk db p X a pub); try assumption; rewrite ?I; auto.
Qed.
End P.
Section V.
Variable K : Fld.
Variable PR : Pairing K.
Variable dnew : nat -> option (dom K).
Variable ro : fs K PR.
(** The verifier accepts exactly when the equations hold on the supplied evaluations and the opening check accepts them. *)
Theorem verify_exact (ivk : ivkey K PR) (pf : proof K PR) (pub : list K) c1 c2 c3 rest : pf_comms K PR pf = c1 :: c2 :: c3 :: rest ->
  let tr1 := FComms K PR c1 :: [FSeed K PR ivk pub] in let tr2 := FComms K PR c2 :: tr1 in let tr3 := FComms K PR c3 :: tr2 in
  verify_proof K PR dnew ro ivk pf pub = Ok true <->
  exists dh dk bd, verifier_doms K dnew (iv_info K PR ivk) = Ok (dh, dk) /\ degree_bounds K dnew (length (iv_comms K PR ivk)) (iv_info K PR ivk) = Ok bd /\
    let v := fs_msg K PR ro dh tr1 in let be := fs_beta K PR ro dh tr2 in let ga := fs_gamma K PR ro tr3 in
    let evs := map (fun '((l, p), e) => (l, p, e)) (combine (query_set K be ga) (pf_evals K PR pf)) in
    equality_check K dnew pub evs (mkVS K dh dk v be ga) = Ok true /\
    batch_check K PR (iv_vk K PR ivk) (map (fun '(c, l, d) => mkLC K PR l c d) (combine (combine (iv_comms K PR ivk ++ c1 ++ c2 ++ c3) poly_labels) bd)) (query_set K be ga) evs (pf_open K PR pf) (fs_xi K PR ro (FEvals K PR (pf_evals K PR pf) :: tr3)) = Ok true.
Proof.
  intros E tr1 tr2 tr3. unfold verify_proof. rewrite E. cbv zeta. fold tr1. fold tr2. fold tr3. destruct (verifier_doms K dnew (iv_info K PR ivk)) as [(dh, dk)| |] eqn:Ed; cbn [rbind]; try (split; [discriminate|intros (? & ? & ? & ? & _); discriminate]).
  destruct (degree_bounds K dnew (length (iv_comms K PR ivk)) (iv_info K PR ivk)) as [bd| |] eqn:Eb; cbn [rbind]; try (split; [discriminate|intros (? & ? & ? & _ & ? & _); discriminate]).
  split.
  - intro H. exists dh, dk, bd. split; [reflexivity|]. split; [reflexivity|].
    destruct (equality_check K dnew pub _ _) as [[|]| |]; cbn [rbind negb] in H; try discriminate. split; [reflexivity|exact H].
  - intros (dh' & dk' & bd' & Q1 & Q2 & Q3 & Q4). injection Q1 as <- <-. injection Q2 as <-. rewrite Q3. cbn [rbind negb]. exact Q4.
Qed.
End V.
