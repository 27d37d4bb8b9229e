(** Theorems C30, C31, C32, C54: Groth16. *)
From Verif Require Import Field Poly Module ModelLC SpecLC ModelCS SpecCS ModelGroth16 SpecGroth16 ProofsGroth16.
Local Open Scope fld_scope.

(** ** C30 *)
Theorem C30_quotient_exact : forall (K : Fld) dnew, dom_family dnew -> forall (s : cs K) d, wf s ->
  dnew (length (cons s) + length (inps s))%nat = Some d -> self_sat s ->
  exists h, witness_map K dnew s = Ok h /\ length h = dsize d /\ nth (dsize d - 1) h 0 = 0 /\
    forall t, exists a b c, instance_map K dnew s t = Ok (a, b, c, t ^ dsize d - 1, dsize d) /\
      let z := full_vector (wit s) s in dot a z * dot b z - dot c z = (t ^ dsize d - 1) * peval h t.
Proof. exact qap_complete. Qed.
Print Assumptions C30_quotient_exact.
(** No quotient of the right degree works at 2m - 1 points unless the system is satisfied. *)
Theorem C30_reduction_sound : forall (K : Fld) dnew, dom_family dnew -> forall (s : cs K) d (x : var -> K) (h ts : list K), wf s ->
  dnew (length (cons s) + length (inps s))%nat = Some d -> x ONE = 1 ->
  (length h <= dsize d - 1)%nat -> NoDup ts -> (2 * dsize d - 1 <= length ts)%nat ->
  (forall t, In t ts -> exists a b c zt m, instance_map K dnew s t = Ok (a, b, c, zt, m) /\
     let z := full_vector x s in dot a z * dot b z - dot c z = zt * peval h t) -> sat x s.
Proof. exact qap_sound_inst. Qed.
Print Assumptions C30_reduction_sound.
Theorem C30_too_many_constraints : forall (K : Fld) dnew (s : cs K) t, wf s -> dnew (length (cons s) + length (inps s))%nat = None ->
  witness_map K dnew s = Err PolynomialDegreeTooLarge /\ instance_map K dnew s t = Err PolynomialDegreeTooLarge.
Proof. exact qap_too_large. Qed.
Print Assumptions C30_too_many_constraints.

(** ** C31 *)
Theorem C31_honest_proofs_verify : forall (K : Fld) dnew, dom_family dnew -> forall (PR : Pairing K) (circuit : M K unit) s1 s2 (al be ga de t r s : K) (h1 : G1 PR) (h2 : G2 PR),
  circuit (cs_new Setup) = Ok (tt, s1) -> circuit (cs_new Prove) = Ok (tt, s2) -> same_shape s1 s2 -> wf s2 -> self_sat s2 ->
  dnew (length (cons s2) + length (inps s2))%nat <> None -> ga <> 0 -> de <> 0 ->
  exists p pf, generate_parameters K PR dnew circuit al be ga de t h1 h2 = Ok p /\ create_proof K PR dnew p circuit r s = Ok pf /\
    verify_proof K PR (prepare K PR (pvk K PR p)) pf (skipn 1 (inps s2)) = Ok true.
Proof. exact groth16_complete. Qed.
Print Assumptions C31_honest_proofs_verify.

(** ** C32 *)
Theorem C32_wrong_arity_refused : forall (K : Fld) (PR : Pairing K) pk pf xs, (length xs + 1)%nat <> length (pv_abc K PR pk) ->
  verify_proof K PR pk pf xs = Err MalformedVerifyingKey.
Proof. exact verify_arity. Qed.
Print Assumptions C32_wrong_arity_refused.
(** Acceptance is exactly the pairing equation, with the public inputs entering through one weighted key sum. *)
Theorem C32_acceptance_exact : forall (K : Fld) (PR : Pairing K) pk pf xs,
  verify_proof K PR pk pf xs = Ok true <-> (length xs + 1)%nat = length (pv_abc K PR pk) /\
  gadd (gadd (pair_e (pa K PR pf) (pb K PR pf)) (pair_e (msm (pv_abc K PR pk) (1 :: xs)) (gamma_g2_neg K PR pk)))
    (pair_e (pc K PR pf) (delta_g2_neg K PR pk)) = alpha_g1_beta_g2 K PR pk.
Proof. exact verify_exact. Qed.
Print Assumptions C32_acceptance_exact.
Theorem C32_same_key_sum : forall (K : Fld) (PR : Pairing K) pk pf xs ys,
  (forall u v, pair_e u (gamma_g2_neg K PR pk) = pair_e v (gamma_g2_neg K PR pk) -> u = v) ->
  verify_proof K PR pk pf xs = Ok true -> verify_proof K PR pk pf ys = Ok true ->
  msm (pv_abc K PR pk) (1 :: xs) = msm (pv_abc K PR pk) (1 :: ys).
Proof. intros K PR pk pf xs ys I H1 H2. apply I. exact (verify_same_sum K PR pk pf xs ys H1 H2). Qed.
Print Assumptions C32_same_key_sum.

(** ** C54 *)
Theorem C54_proofs_are_malleable : forall (K : Fld) (PR : Pairing K) vk pf xs k,
  verify_proof K PR (prepare K PR vk) pf xs = Ok true ->
  verify_proof K PR (prepare K PR vk) (mkPrf K PR (pa K PR pf) (gadd (pb K PR pf) (gsm k (delta_g2 K PR vk))) (gadd (pc K PR pf) (gsm k (pa K PR pf)))) xs = Ok true /\
  (k <> 0 -> verify_proof K PR (prepare K PR vk) (mkPrf K PR (gsm k (pa K PR pf)) (gsm (finv k) (pb K PR pf)) (pc K PR pf)) xs = Ok true).
Proof. intros K PR vk pf xs k H. split; [apply verify_shift, H|]. intro Hk. apply verify_rescale; assumption. Qed.
Print Assumptions C54_proofs_are_malleable.

(** ** Concrete instances: y = x^2 + x with public y, over the Goldilocks field and its 4-element subgroup *)
From Verif Require Import Gold Zp ProofsCS.
Definition z_ (z : Z) : Fg := of_Z z.
Definition d4 : dom Fg := mkDom 4 (z_ 281474976710656) (z_ 7).
Lemma d4_valid : valid_dom d4.
Proof.
  split; [cbn; lia|]. split; [apply feqb_eq; vm_compute; reflexivity|]. split.
  - apply (NoDup_map_inv (fun x : Fg => zv _ x)). assert (map (fun x : Fg => zv _ x) (dpts d4) = [1; 281474976710656; 18446744069414584320; 18446462594437873665]%Z) as -> by (vm_compute; reflexivity).
    repeat constructor; cbn [In]; intros H; repeat (destruct H as [H|H]; [discriminate H|]); contradiction.
  - split; [apply feqb_neq; vm_compute; reflexivity|]. split; apply feqb_neq; vm_compute; reflexivity.
Qed.
Definition dnew4 (n : nat) : option (dom Fg) := if Nat.leb n 4 then Some d4 else None.
Lemma dnew4_family : dom_family dnew4.
Proof. intros n d. unfold dnew4. destruct (Nat.leb_spec n 4) as [L|L]; intro H; [|discriminate]. injection H as <-. split; [apply d4_valid|exact L]. Qed.
Definition square_circuit (x : Z) : M Fg unit :=
  vx <- alloc (Ok (z_ x)) ;;
  vy <- alloc_input (Ok (z_ (x * x + x))) ;;
  vt <- alloc (Ok (z_ (x * x))) ;;
  enforce [(vx, f1)] [(vx, f1)] [(vt, f1)] ;;;
  enforce [(vt, f1); (vx, f1)] [(ONE, f1)] [(vy, f1)].
Definition run_of (m : mode) : cs Fg := match square_circuit 5 (cs_new m) with Ok (_, s) => s | _ => cs_new m end.
Lemma square_sat : self_sat (run_of Prove) /\ wf (run_of Prove).
Proof.
  split.
  - split; [reflexivity|]. repeat constructor; apply feqb_eq; vm_compute; reflexivity.
  - split; [exists [z_ 30]; reflexivity|]. repeat constructor; cbn; lia.
Qed.
Example ex_C31 : exists p pf, generate_parameters Fg (self_pairing Fg) dnew4 (square_circuit 5) (z_ 3) (z_ 4) (z_ 5) (z_ 6) (z_ 11) (z_ 1) (z_ 2) = Ok p /\
  create_proof Fg (self_pairing Fg) dnew4 p (square_circuit 5) (z_ 8) (z_ 9) = Ok pf /\
  verify_proof Fg (self_pairing Fg) (prepare Fg (self_pairing Fg) (pvk Fg _ p)) pf [z_ 30] = Ok true.
Proof.
  destruct square_sat as [S W].
  refine (C31_honest_proofs_verify Fg dnew4 dnew4_family (self_pairing Fg) (square_circuit 5) (run_of Setup) (run_of Prove) (z_ 3) (z_ 4) (z_ 5) (z_ 6) (z_ 11) (z_ 8) (z_ 9) (z_ 1) (z_ 2) _ _ _ W S _ _ _);
    try reflexivity.
  - repeat split.
  - discriminate.
  - apply feqb_neq; vm_compute; reflexivity.
  - apply feqb_neq; vm_compute; reflexivity.
Qed.
Example ex_C30 : exists h, witness_map Fg dnew4 (run_of Prove) = Ok h /\ length h = 4%nat.
Proof.
  destruct square_sat as [S W]. destruct (C30_quotient_exact Fg dnew4 dnew4_family (run_of Prove) d4 W eq_refl S) as (h & E & L & _). exists h. split; [exact E|exact L].
Qed.
(** The same parameters reject a false public input; verification of the model runs. *)
Definition ex_accepts (ys : list Fg) : bool :=
  match generate_parameters Fg (self_pairing Fg) dnew4 (square_circuit 5) (z_ 3) (z_ 4) (z_ 5) (z_ 6) (z_ 11) (z_ 1) (z_ 2) with
  | Ok p => match create_proof Fg (self_pairing Fg) dnew4 p (square_circuit 5) (z_ 8) (z_ 9) with
            | Ok pf => match verify_proof Fg (self_pairing Fg) (prepare Fg (self_pairing Fg) (pvk Fg _ p)) pf ys with Ok b => b | _ => false end
            | _ => false end
  | _ => false end.
Example ex_C32 : ex_accepts [z_ 30] = true /\ ex_accepts [z_ 31] = false /\ ex_accepts [z_ 30; z_ 0] = false.
Proof. vm_compute. auto. Qed.
(** The hypotheses of the soundness half are met: the honest quotient, cut to its three coefficients, at seven points. *)
Definition ex_h : list Fg := match witness_map Fg dnew4 (run_of Prove) with Ok h => firstn 3 h | _ => [] end.
Definition ex_ts : list Fg := map z_ [0; 1; 2; 3; 4; 5; 6]%Z.
Definition ex_id (t : Fg) : bool :=
  match instance_map Fg dnew4 (run_of Prove) t with
  | Ok (a, b, c, zt, _) => let z := full_vector (wit (run_of Prove)) (run_of Prove) in feqb (dot a z * dot b z - dot c z) (zt * peval ex_h t)
  | _ => false end.
Example ex_C30_sound : sat (wit (run_of Prove)) (run_of Prove).
Proof.
  destruct square_sat as [S W].
  apply (C30_reduction_sound Fg dnew4 dnew4_family (run_of Prove) d4 (wit (run_of Prove)) ex_h ex_ts W eq_refl).
  - apply feqb_eq; vm_compute; reflexivity.
  - vm_compute. lia.
  - apply (NoDup_map_inv (fun x : Fg => zv _ x)). assert (map (fun x : Fg => zv _ x) ex_ts = [0; 1; 2; 3; 4; 5; 6]%Z) as -> by (vm_compute; reflexivity).
    repeat constructor; cbn [In]; intros H; repeat (destruct H as [H|H]; [discriminate H|]); contradiction.
  - vm_compute. lia.
  - assert (F : forallb ex_id ex_ts = true) by (vm_compute; reflexivity). rewrite forallb_forall in F. intros t It. specialize (F t It). unfold ex_id in F.
    destruct (instance_map Fg dnew4 (run_of Prove) t) as [[[[[a b] c] zt] m]| |]; try discriminate. exists a, b, c, zt, m. split; [reflexivity|]. apply feqb_eq. exact F.
Qed.
(** The rerandomised proof differs from the original and is still accepted. *)
Example ex_C54 :
  match generate_parameters Fg (self_pairing Fg) dnew4 (square_circuit 5) (z_ 3) (z_ 4) (z_ 5) (z_ 6) (z_ 11) (z_ 1) (z_ 2) with
  | Ok p => match create_proof Fg (self_pairing Fg) dnew4 p (square_circuit 5) (z_ 8) (z_ 9) with
            | Ok pf => let PR := self_pairing Fg in
                let pf' := mkPrf Fg PR (pa Fg PR pf) (gadd (pb Fg PR pf) (gsm f1 (delta_g2 Fg PR (pvk Fg PR p)))) (gadd (pc Fg PR pf) (gsm f1 (pa Fg PR pf))) in
                geqb (pb Fg PR pf) (pb Fg PR pf') = false /\
                match verify_proof Fg PR (prepare Fg PR (pvk Fg PR p)) pf' [z_ 30] with Ok true => True | _ => False end
            | _ => False end
  | _ => False end.
Proof. vm_compute. auto. Qed.
