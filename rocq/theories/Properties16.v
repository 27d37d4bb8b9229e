(** Theorems C70: soundness of Marlin's oracle protocol. *)
From Verif Require Import Zp SpecLC SpecCS SpecMarlin SpecMarlin2 ProofsMarlinCS ProofsMarlin11 ExMarlin.
From Verif Require Import ModelMarlin ModelCS.
Local Open Scope fld_scope.

(** ** C70 *)
Theorem C70_oracle_soundness : forall (K : Fld) dnew, radix2 dnew -> forall checks circ u (s : cs K) ix dx dh dk pub,
  circ (cs_new Setup) = Ok (u, s) -> wf s -> (Z.of_nat (terms (cons s)) < 2 ^ 64)%Z -> ahp_index K dnew checks circ = Ok ix ->
  verifier_doms K dnew (ix_info K ix) = Ok (dh, dk) -> dnew (length (inps s)) = Some dx -> forall als es bs gs D D2, dnew (S (length pub)) = Some dx ->
  NoDup als -> (dsize dh <= length als)%nat -> (forall al, In al als -> al ^ dsize dh <> 1) -> (exists e1 e2, In e1 es /\ In e2 es /\ e1 <> e2) ->
  NoDup bs -> (2 * D + dsize dh + 1 <= length bs)%nat -> (forall be, In be bs -> be ^ dsize dh <> 1) -> NoDup gs -> (D2 + dsize dk + 1 <= length gs)%nat -> (4 * dsize dk <= length gs)%nat ->
  ahp_wins K dnew ix dh dk pub D D2 als es bs gs -> exists a : var -> K, (forall i, a (Input i) = nth i (1 :: pub) 0) /\ sat a s.
Proof. exact ahp_sound. Qed.
Print Assumptions C70_oracle_soundness.
Theorem C70_oracle_completeness : forall (K : Fld) dnew, radix2 dnew -> forall checks circ u (s : cs K) ix dx dh dk pub,
  circ (cs_new Setup) = Ok (u, s) -> wf s -> (Z.of_nat (terms (cons s)) < 2 ^ 64)%Z -> ahp_index K dnew checks circ = Ok ix ->
  verifier_doms K dnew (ix_info K ix) = Ok (dh, dk) -> dnew (length (inps s)) = Some dx -> forall a als es bs gs, length (inps s) = S (length pub) -> dsize dx = length (inps s) ->
  (forall i, (i < length (inps s))%nat -> a (Input i) = nth i (1 :: pub) 0) -> sat a s ->
  (forall al, In al als -> al ^ dsize dh <> 1) -> (forall be, In be bs -> be ^ dsize dh <> 1) -> ahp_wins K dnew ix dh dk pub (2 * dsize dh + 2) (3 * dsize dk) als es bs gs.
Proof. exact ahp_complete. Qed.
Print Assumptions C70_oracle_completeness.
Theorem C70_verify_exact : forall (K : Fld) (PR : Pairing K) dnew (ro : fs K PR) (ivk : ivkey K PR) (pf : proof K PR) (pub : list K) c1 c2 c3 rest, pf_comms K PR pf = c1 :: c2 :: c3 :: rest ->
  let tr1 := FComms K PR c1 :: [FSeed K PR ivk pub] in let tr2 := FComms K PR c2 :: tr1 in let tr3 := FComms K PR c3 :: tr2 in
  verify_proof K PR dnew ro ivk pf pub = Ok true <->
  exists dh dk bd, verifier_doms K dnew (iv_info K PR ivk) = Ok (dh, dk) /\ degree_bounds K dnew (length (iv_comms K PR ivk)) (iv_info K PR ivk) = Ok bd /\
    let v := fs_msg K PR ro dh tr1 in let be := fs_beta K PR ro dh tr2 in let ga := fs_gamma K PR ro tr3 in
    let evs := map (fun '((l, p), e) => (l, p, e)) (combine (query_set K be ga) (pf_evals K PR pf)) in
    equality_check K dnew pub evs (mkVS K dh dk v be ga) = Ok true /\
    batch_check K PR (iv_vk K PR ivk) (map (fun '(c, l, d) => mkLC K PR l c d) (combine (combine (iv_comms K PR ivk ++ c1 ++ c2 ++ c3) poly_labels) bd)) (query_set K be ga) evs (pf_open K PR pf) (fs_xi K PR ro (FEvals K PR (pf_evals K PR pf) :: tr3)) = Ok true.
Proof. exact verify_exact. Qed.
Print Assumptions C70_verify_exact.
(** Challenge sets for the circuit of C59: 4 alphas, 2 etas, 25 betas and 17 gammas, none of the first two kinds in the domain. *)
Definition als70 : list F97 := map z97 [2; 3; 4; 5]%Z.
Definition bs70 : list F97 := map (fun i => z97 (Z.of_nat i)) (seq 30 25).
Definition gs70 : list F97 := map (fun i => z97 (Z.of_nat i)) (seq 0 17).
Definition doms70 : option (nat * nat) := match ahp_index F97 dnew97 false (circ97 3 8 24) with Ok ix => match verifier_doms F97 dnew97 (ix_info F97 ix) with Ok (dh, dk) => Some (dsize dh, dsize dk) | _ => None end | _ => None end.
Lemma doms70_ok : doms70 = Some (4, 4)%nat. Proof. vm_compute. reflexivity. Qed.
Lemma doms70_inv h k : doms70 = Some (h, k) -> exists ix dh dk, ahp_index F97 dnew97 false (circ97 3 8 24) = Ok ix /\ verifier_doms F97 dnew97 (ix_info F97 ix) = Ok (dh, dk) /\ dsize dh = h /\ dsize dk = k.
Proof.
  unfold doms70. destruct (ahp_index F97 dnew97 false (circ97 3 8 24)) as [ix|e|]; [|intro H; discriminate H|intro H; discriminate H]. destruct (verifier_doms F97 dnew97 (ix_info F97 ix)) as [(dh, dk)|e|] eqn:Ed; [|intro H; discriminate H|intro H; discriminate H].
  intro H. injection H as Hh Hk. exists ix, dh, dk. split; [reflexivity|]. split; [exact Ed|]. split; assumption.
Qed.
Definition distinct (l : list F97) : bool := (fix go l := match l with [] => true | x :: r => negb (existsb (feqb x) r) && go r end) l.
Lemma distinct_ok l : distinct l = true -> NoDup l.
Proof.
  induction l as [|x l IH]; intro H; [constructor|]. change (negb (existsb (feqb x) l) && distinct l = true)%bool in H. apply Bool.andb_true_iff in H. destruct H as (H & R). constructor; [|apply IH; exact R]. intro I. apply Bool.negb_true_iff in H.
  assert (existsb (feqb x) l = true) by (apply existsb_exists; exists x; split; [exact I|apply feqb_refl]). congruence.
Qed.
Definition outside (l : list F97) : bool := forallb (fun x : F97 => negb (feqb (x ^ 4%nat) 1)) l.
Lemma outside_ok l : outside l = true -> forall x : F97, In x l -> x ^ 4%nat <> 1.
Proof. intros H x I E. unfold outside in H. rewrite forallb_forall in H. specialize (H x I). rewrite E, feqb_refl in H. discriminate. Qed.
Example ex_C70 : exists ix dx dh dk, let s := st97 (circ97 3 8 24) Setup in
  radix2 dnew97 /\ circ97 3 8 24 (cs_new Setup) = Ok (tt, s) /\ wf s /\ (Z.of_nat (terms (cons s)) < 2 ^ 64)%Z /\ ahp_index F97 dnew97 false (circ97 3 8 24) = Ok ix /\
  verifier_doms F97 dnew97 (ix_info F97 ix) = Ok (dh, dk) /\ dnew97 (length (inps s)) = Some dx /\ dnew97 2%nat = Some dx /\ dsize dh = 4%nat /\ dsize dk = 4%nat /\
  NoDup als70 /\ (forall al, In al als70 -> al ^ dsize dh <> 1) /\ NoDup bs70 /\ (forall be, In be bs70 -> be ^ dsize dh <> 1) /\ NoDup gs70 /\ length als70 = 4%nat /\ length bs70 = 25%nat /\ length gs70 = 17%nat /\
  ahp_wins F97 dnew97 ix dh dk [z97 24] 10 12 als70 [0; 1] bs70 gs70.
Proof.
  destruct (doms70_inv _ _ doms70_ok) as (ix & dh & dk & Ei & Ed & Hh & Hk). exists ix, (dom97 1), dh, dk. intro s. subst s. rewrite Hh, Hk.
  assert (W : wf (st97 (circ97 3 8 24) Setup)) by (apply wfb_ok; vm_compute; reflexivity).
  assert (OA : forall al, In al als70 -> al ^ 4%nat <> 1) by (apply outside_ok; vm_compute; reflexivity). assert (OB : forall be, In be bs70 -> be ^ 4%nat <> 1) by (apply outside_ok; vm_compute; reflexivity).
  assert (S : self_sat (st97 (circ97 3 8 24) Prove)) by (apply satb_ok; vm_compute; reflexivity).
  split; [exact radix2_97|]. split; [reflexivity|]. split; [exact W|]. split; [vm_compute; reflexivity|]. split; [exact Ei|]. split; [exact Ed|]. split; [reflexivity|]. split; [reflexivity|]. split; [reflexivity|]. split; [reflexivity|].
  split; [apply distinct_ok; vm_compute; reflexivity|]. split; [exact OA|]. split; [apply distinct_ok; vm_compute; reflexivity|]. split; [exact OB|]. split; [apply distinct_ok; vm_compute; reflexivity|]. split; [reflexivity|]. split; [reflexivity|]. split; [reflexivity|].
  pose proof (ahp_complete F97 dnew97 radix2_97 false (circ97 3 8 24) tt (st97 (circ97 3 8 24) Setup) ix (dom97 1) dh dk [z97 24] eq_refl W ltac:(vm_compute; reflexivity) Ei Ed eq_refl (wit (st97 (circ97 3 8 24) Prove)) als70 [0; 1] bs70 gs70 eq_refl eq_refl) as C.
  rewrite Hh, Hk in C. apply C; auto.
Qed.
