(** Plonk: what a proof reveals, and the verifier on malformed proofs. *)
From Coq Require Import Permutation.
From Verif Require Import ModelPlonk SpecPlonk ProofsPC ProofsPlonk1 ProofsPlonk2 ProofsPlonk3 ProofsPlonk4 ProofsPlonk5 ProofsPlonk6 ProofsPlonk7 ProofsPlonk8 ProofsPlonk9 ProofsPlonk10.
Local Open Scope fld_scope.
Section P.
Variable K : Fld.
Add Field Kf : (f_laws K).
Variable dnew : nat -> option (dom K).
Variable PC : pcs K.
Variable ro : oracle K PC.
Hypothesis F : fft_ok dnew.
Variables (ops : list (op K)) (c : composer K) (order : list nat) (ks : list K) (srs : p_srs PC) (rng0 : p_rng PC) (pk : pkey K PC) (vk : vkey K PC).
Hypothesis RO : run_ops (c_new K) ops = Ok c.
Hypothesis O : Permutation order (seq 0 (length (c_vmap c))).
Hypothesis KG : keygen dnew srs c order ks rng0 = Ok (pk, vk).
Lemma plonk_reveal rng pf : prove dnew ro pk c rng = Ok pf ->
  exists c1 c2 c3, f_comms pf = [c1; c2; c3] /\ length (f_evals pf) = 11%nat /\ forall k, (k < 4)%nat -> exists P,
    (length P <= dsize (i_dn (v_info vk)))%nat /\ (forall i, (i < dsize (i_dn (v_info vk)))%nat -> peval P (dgen (i_dn (v_info vk)) ^ i) = slot_val c (k, i)) /\
    nth (6 + k) (f_evals pf) 0 = peval P (o_zeta ro (c_pi c) c1 c2 c3).
Proof.
  intros PR. destruct (setup K dnew PC F ops c order ks srs rng0 pk vk RO O KG) as (x & ck & rk & crs & d & d4 & p & G & P & T & C & EV & EP & D & V & V4 & S4 & G4 & L). pose proof (wfc K ops c RO) as W. pose proof (gi_info _ _ _ _ _ _ _ _ G) as GI.
  assert (ED : i_dn (x_info x) = d) by (rewrite GI; reflexivity). destruct (wf_q K c W) as (_ & _ & _ & _ & _ & _ & LPI).
  replace (i_dn (v_info vk)) with d by (rewrite EV; cbn [v_info]; symmetry; exact ED).
  unfold prove in PR. rewrite EP, EV in PR. cbn [k_vk k_index k_ck k_rands v_info v_labels v_comms] in PR. cbv zeta in PR. rewrite ED in PR. unfold pad_to in PR. destruct (Nat.ltb_spec (dsize d) (length (c_pi c))); [lia|]. cbn [rbind] in PR.
  rewrite (synthesize_ok K dnew c d W D L) in PR. cbn [rbind] in PR. fold (wit K c d) in PR.
  destruct (commit_all ck (combine w_labels (map (interp d) (wit K c d))) rng) as [cr1| |] eqn:C1; try discriminate. cbn [rbind] in PR.
  destruct (o_bg ro (c_pi c) (map fst cr1)) as [beta gamma] eqn:BG. destruct (compute_z x (wit K c d) beta gamma) as [z| |] eqn:Z; try discriminate. cbn [rbind] in PR.
  match type of PR with rbind ?m _ = _ => destruct m as [cr2| |] eqn:C2; try discriminate end. cbn [rbind] in PR.
  set (alpha := o_alpha ro (c_pi c) (map fst cr1) (map fst cr2)) in *. set (pip := interp d (c_pi c ++ repeat 0 (dsize d - length (c_pi c)))) in *.
  destruct (third_list K x (map (interp d) (wit K c d)) (interp d z) pip alpha beta gamma) as (t0 & t1 & t2 & t3 & ET). rewrite ET in PR.
  match type of PR with rbind ?m _ = _ => destruct m as [cr3| |] eqn:C3; try discriminate end. cbn [rbind] in PR.
  set (zeta := o_zeta ro (c_pi c) (map fst cr1) (map fst cr2) (map fst cr3)) in *.
  set (w0 := interp d (wvals K c (dsize d) 0%nat)) in *. set (w1 := interp d (wvals K c (dsize d) 1%nat)) in *. set (w2 := interp d (wvals K c (dsize d) 2%nat)) in *. set (w3 := interp d (wvals K c (dsize d) 3%nat)) in *.
  change (map (interp d) (wit K c d)) with [w0; w1; w2; w3] in *. fold (all_polys K x w0 w1 w2 w3 (interp d z) t0 t1 t2 t3) in PR. rewrite prover_lcs, ED in PR.
  destruct (feq_dec K zeta 1) as [E1|ZN]; [rewrite E1, l1_at_one in PR; discriminate|]. rewrite (l1_at_ok K d zeta V ZN) in PR. cbn [rbind] in PR.
  pose proof (prover_evs K x w0 w1 w2 w3 (interp d z) t0 t1 t2 t3 (x_info x) alpha beta gamma zeta (peval (first_lagrange_poly d) zeta)) as PE. unfold lcs_of in PE. rewrite ED in PE. rewrite PE in PR. cbn [rbind] in PR. clear PE.
  match type of PR with rbind ?m _ = _ => destruct m as [pp| |] eqn:OP; try discriminate end. cbn [rbind] in PR. inversion PR; subst pf. clear PR.
  exists (map fst cr1), (map fst cr2), (map fst cr3). cbn [f_comms f_evals]. split; [reflexivity|]. split; [reflexivity|]. intros k Hk. exists (interp d (wvals K c (dsize d) k)). split; [apply length_interp|]. split.
  - intros i Hi. rewrite peval_interp by assumption. rewrite (nth_wvals K c (dsize d) k i W Hk). reflexivity.
  - fold zeta. destruct k as [|[|[|[|k]]]]; try reflexivity. lia.
Qed.
End P.
Section M.
Variable K : Fld.
Add Field Kf2 : (f_laws K).
Variable PC : pcs K.
Variable ro : oracle K PC.
Lemma few_lists vk pub (p : proof K PC) : (length (f_comms p) < 3)%nat -> verify ro vk pub p = Panic.
Proof.
  intro L. unfold verify. destruct (f_comms p) as [|c1 [|c2 [|c3 l]]]; cbn [nth_error orp rbind]; [reflexivity| | |cbn in L; lia]; destruct (o_bg ro pub c1); reflexivity.
Qed.
Lemma more_lists vk pub c1 c2 c3 l evs pf : verify ro vk pub (mkProof K PC (c1 :: c2 :: c3 :: l) evs pf) = verify ro vk pub (mkProof K PC [c1; c2; c3] evs pf).
Proof. reflexivity. Qed.
Lemma long_pub vk pub c1 c2 c3 l evs pf : (dsize (i_dn (v_info vk)) < length pub)%nat -> verify ro vk pub (mkProof K PC (c1 :: c2 :: c3 :: l) evs pf) = Panic.
Proof.
  intro L. unfold verify. cbn [f_comms f_evals f_pc nth_error orp rbind]. destruct (o_bg ro pub c1) as [be ga]. cbv zeta. unfold equality_check. cbv zeta. unfold pad_to. destruct (Nat.ltb_spec (dsize (i_dn (v_info vk))) (length pub)); [reflexivity|lia].
Qed.
Lemma short_err vk pub c1 c2 c3 l evs pf : (length pub <= dsize (i_dn (v_info vk)))%nat -> (length evs < 11)%nat -> verify ro vk pub (mkProof K PC (c1 :: c2 :: c3 :: l) evs pf) = Err MissingEval.
Proof.
  intros LP L. unfold verify. cbn [f_comms f_evals f_pc nth_error orp rbind]. destruct (o_bg ro pub c1) as [be ga]. cbv zeta. set (ze := o_zeta ro pub c1 c2 c3). set (al := o_alpha ro pub c1 c2).
  assert (NZ : forall pt, ev_get (combine (query_set (v_info vk) ze) evs) "z" pt = Err MissingEval).
  { intro pt. apply ev_get_missing. intros [[l0 q] v] I. unfold query_set in I. do 11 (destruct evs as [|? evs]; [cbn [combine In] in I; repeat (destruct I as [I|I]; [injection I as <- <- <-; reflexivity|]); destruct I|]). cbn [length] in L. lia. }
  assert (EG : forall e l pt, (exists v, ev_get (e : evals K) l pt = Ok v) \/ ev_get e l pt = Err MissingEval). { intros e l0 pt. unfold ev_get. destruct (find _ e); [left; eexists; reflexivity|right; reflexivity]. }
  unfold equality_check. cbv zeta. unfold pad_to. destruct (Nat.ltb_spec (dsize (i_dn (v_info vk))) (length pub)); [lia|]. cbn [rbind].
  do 4 (match goal with |- context [ev_get ?e ?s ze] => destruct (EG e s ze) as [(? & ->)| ->]; cbn [rbind]; [|reflexivity] end). rewrite NZ. reflexivity.
Qed.
Lemma zeta_one vk pub c1 c2 c3 l evs pf : (length pub <= dsize (i_dn (v_info vk)))%nat -> (11 <= length evs)%nat -> o_zeta ro pub c1 c2 c3 = 1 -> verify ro vk pub (mkProof K PC (c1 :: c2 :: c3 :: l) evs pf) = Panic.
Proof.
  intros LP L E. do 11 (destruct evs as [|? evs]; [cbn [length] in L; lia|]). rewrite verify_eq, E. destruct (Nat.ltb_spec (dsize (i_dn (v_info vk))) (length pub)); [lia|]. rewrite l1_at_one. reflexivity.
Qed.
End M.
