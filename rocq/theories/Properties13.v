(** Theorems C38, C39, C59, C60: Marlin. *)
From Verif Require Import Zp SpecLC SpecCS SpecMarlin ProofsMarlinCS ProofsMarlin4 ProofsMarlin5 ProofsMarlin6 ProofsMarlin7 AttackMarlin ExMarlin.
From Verif Require Import ModelMarlin ModelCS.
Local Open Scope fld_scope.

(** ** C38 *)
Theorem C38_balance_preserves_relation : forall (K : Fld) checks (a b c a' b' : list (list (K * nat))), length a = length b -> (Z.of_nat (density a + density b) < 2 ^ 64)%Z ->
  balance checks a b = Ok (a', b') -> forall z, msat z a' b' c <-> msat z a b c.
Proof. intros. eapply balance_relation; eassumption. Qed.
Print Assumptions C38_balance_preserves_relation.
Theorem C38_release_total : forall (K : Fld) (a b : list (list (K * nat))), length a = length b -> (Z.of_nat (density a + density b) < 2 ^ 64)%Z ->
  exists a' b', balance false a b = Ok (a', b').
Proof. exact balance_total. Qed.
Print Assumptions C38_release_total.
(** Finding: with overflow checks (a debug build) the function panics exactly when there is something to balance. *)
Theorem C38_debug_panics : forall (K : Fld) (a b : list (list (K * nat))), length a = length b -> (Z.of_nat (density a) < 2 ^ 64)%Z -> (Z.of_nat (density b) < 2 ^ 64)%Z ->
  balance true a b = if Nat.ltb (density b) (density a) then Panic else Ok (a, b).
Proof. exact balance_checks. Qed.
Print Assumptions C38_debug_panics.
(** The matrices handed to the protocol define the circuit's relation. *)
Theorem C38_matrices_are_the_circuit : forall (K : Fld) checks (s : cs K) a b c, wf s ->
  (Z.of_nat (density (reindex (length (inps s)) (map ca (cons s))) + density (reindex (length (inps s)) (map cb (cons s)))) < 2 ^ 64)%Z ->
  process_matrices checks s = Ok (a, b, c) -> forall x, msat (columns (length (inps s)) x) a b c <-> Forall (holds x) (cons s).
Proof. intros K checks s a b c W B E. exact (proj1 (proj2 (proj2 (proj2 (process_matrices_any K checks s a b c W B E))))). Qed.
Print Assumptions C38_matrices_are_the_circuit.
Definition ex38a : list (list (F97 * nat)) := [[(z97 1, 0%nat); (z97 2, 1%nat)]; [(z97 3, 2%nat); (z97 4, 0%nat)]].
Definition ex38b : list (list (F97 * nat)) := [[(z97 5, 0%nat)]; [(z97 6, 1%nat)]].
(** A denser than B: the first row is exchanged in a release build, a debug build panics. *)
Example ex_C38 : length ex38a = length ex38b /\ (Z.of_nat (density ex38a + density ex38b) < 2 ^ 64)%Z /\
  balance false ex38a ex38b = Ok ([nth 0 ex38b []; nth 1 ex38a []], [nth 0 ex38a []; nth 1 ex38b []]) /\ balance true ex38a ex38b = Panic.
Proof. repeat split. Qed.

(** ** C39 *)
(** Each column has its own position, and where the assignment is put. *)
Theorem C39_placement : forall (K : Fld) dnew, radix2 dnew -> forall ix circ u (s s' : cs K) ps rw ra rb coeffs o1,
  circ (cs_new Prove) = Ok (u, s) -> make_square s = Ok (tt, s') -> prover_init K dnew ix circ = Ok ps -> rw <> 0 -> first_round K ps rw ra rb coeffs = Ok o1 ->
  exists dx dh, dnew (length (inps s')) = Some dx /\ dnew (length (cons s')) = Some dh /\
  (forall i j k, (i < dsize dh)%nat -> (j < dsize dh)%nat -> reidx (dsize dh) (dsize dx) i = Ok k -> reidx (dsize dh) (dsize dx) j = Ok k -> i = j) /\
  forall j, (j < dsize dh)%nat -> exists k, reidx (dsize dh) (dsize dx) j = Ok k /\ (k < dsize dh)%nat /\
    vh K dx (dgen dh ^ k) * peval (o_w K o1) (dgen dh ^ k) + peval (interp K dx (inps s')) (dgen dh ^ k) = if Nat.ltb j (dsize dx) then nth j (inps s') 0 else nth (j - dsize dx) (auxs s') 0.
Proof. exact placement. Qed.
Print Assumptions C39_placement.
Theorem C39_exact_for_powers_of_two : forall (K : Fld) dnew, radix2 dnew -> forall ix circ u (s s' : cs K) ps rw ra rb coeffs o1 dx dh,
  circ (cs_new Prove) = Ok (u, s) -> make_square s = Ok (tt, s') -> prover_init K dnew ix circ = Ok ps -> rw <> 0 -> first_round K ps rw ra rb coeffs = Ok o1 ->
  dnew (length (inps s')) = Some dx -> dnew (length (cons s')) = Some dh -> dsize dx = length (inps s') ->
  forall j, (j < dsize dh)%nat -> exists k, reidx (dsize dh) (dsize dx) j = Ok k /\
    vh K dx (dgen dh ^ k) * peval (o_w K o1) (dgen dh ^ k) + peval (interp K dx (inps s')) (dgen dh ^ k) = columns (length (inps s')) (wit s') j.
Proof. exact placement_exact. Qed.
Print Assumptions C39_exact_for_powers_of_two.
(** Finding: otherwise the i-th auxiliary variable's column holds 0 or another variable's value. *)
Theorem C39_displaced_otherwise : forall (K : Fld) dnew, radix2 dnew -> forall ix circ u (s s' : cs K) ps rw ra rb coeffs o1 dx dh,
  circ (cs_new Prove) = Ok (u, s) -> make_square s = Ok (tt, s') -> prover_init K dnew ix circ = Ok ps -> rw <> 0 -> first_round K ps rw ra rb coeffs = Ok o1 ->
  dnew (length (inps s')) = Some dx -> dnew (length (cons s')) = Some dh -> (length (inps s') < dsize dx)%nat ->
  forall i, (length (inps s') + i < dsize dh)%nat -> exists k, reidx (dsize dh) (dsize dx) (length (inps s') + i) = Ok k /\
    columns (length (inps s')) (wit s') (length (inps s') + i) = nth i (auxs s') 0 /\
    vh K dx (dgen dh ^ k) * peval (o_w K o1) (dgen dh ^ k) + peval (interp K dx (inps s')) (dgen dh ^ k) = if Nat.ltb i (dsize dx - length (inps s')) then 0 else nth (i - (dsize dx - length (inps s'))) (auxs s') 0.
Proof. exact placement_shifted. Qed.
Print Assumptions C39_displaced_otherwise.
(** Finding: if the displaced variables do not fit, proving panics. *)
Theorem C39_prover_panics : forall (K : Fld) dnew, radix2 dnew -> forall PR ro checks circ u1 u2 (s1 s2 : cs K) srs ipk ivk co dx dh,
  circ (cs_new Setup) = Ok (u1, s1) -> circ (cs_new Prove) = Ok (u2, s2) -> same_shape s1 s2 -> wf s1 -> (Z.of_nat (terms (cons s1)) < 2 ^ 64)%Z ->
  marlin_index K PR dnew checks srs circ = Ok (ipk, ivk) ->
  let m := Nat.max (length (inps s2) + length (auxs s2)) (length (cons s2)) in
  dnew (length (inps s2)) = Some dx -> dnew m = Some dh -> (dsize dh < dsize dx + (m - length (inps s2)))%nat ->
  create_proof K PR dnew ro ipk circ co = Panic.
Proof. exact prover_panics. Qed.
Print Assumptions C39_prover_panics.
Ltac wf97 := apply wfb_ok; vm_compute; reflexivity.
Ltac sat97 := apply satb_ok; vm_compute; reflexivity.
Lemma wf_three m : wf (st97 (circ97_three 3 8 24) m). Proof. destruct m; wf97. Qed.
Lemma three_rejected : verdict (circ97_three 3 8 24) (circ97_three 3 8 24) (tl (inps (st97 (circ97_three 3 8 24) Prove))) = Ok false.
Proof. vm_compute. reflexivity. Qed.
(** Three inputs: the honest proof of a satisfied circuit is produced and rejected. *)
Theorem C39_honest_proof_rejected_refuted : exists circ s1 s2 ipk ivk pf u1 u2,
  circ (cs_new Setup) = Ok (u1, s1) /\ circ (cs_new Prove) = Ok (u2, s2) /\ same_shape s1 s2 /\ wf s1 /\ wf s2 /\ self_sat s2 /\ (Z.of_nat (terms (cons s1)) < 2 ^ 64)%Z /\
  length (inps s2) = 3%nat /\ radix2 dnew97 /\
  marlin_index F97 P97 dnew97 false srs97 circ = Ok (ipk, ivk) /\ create_proof F97 P97 dnew97 ro97 ipk circ coins97 = Ok pf /\
  verify_proof F97 P97 dnew97 ro97 ivk pf (tl (inps s2)) = Ok false.
Proof.
  destruct (verdict_inv _ _ _ _ three_rejected) as (ipk & ivk & pf & E1 & E2 & V).
  exists (circ97_three 3 8 24), (st97 (circ97_three 3 8 24) Setup), (st97 (circ97_three 3 8 24) Prove), ipk, ivk, pf, tt, tt.
  split; [reflexivity|]. split; [reflexivity|]. split; [repeat split|]. split; [apply wf_three|]. split; [apply wf_three|]. split; [sat97|]. split; [vm_compute; reflexivity|]. split; [reflexivity|]. split; [exact radix2_97|]. split; [exact E1|]. split; [exact E2|exact V].
Qed.
Print Assumptions C39_honest_proof_rejected_refuted.
(** Three inputs, one auxiliary variable: the domain of size 4 is already full of inputs. *)
Example ex_C39_panics : let s := st97 (circ97_tight 3 24 8) in wf (s Setup) /\ same_shape (s Setup) (s Prove) /\ (length (inps (s Prove)) + length (auxs (s Prove)) = 4)%nat /\
  sizes (circ97_tight 3 24 8) = Some (4%nat, 3%nat) /\ verdict (circ97_tight 3 24 8) (circ97_tight 3 24 8) [z97 24; z97 8] = Panic.
Proof. split; [wf97|]. split; [repeat split|]. split; [reflexivity|]. split; vm_compute; reflexivity. Qed.

(** ** C59 *)
Theorem C59_marlin_complete : forall (K : Fld) (PR : Pairing K) dnew, radix2 dnew -> forall ro : fs K PR,
  (forall m d tr, dnew m = Some d -> v_alpha K (fs_msg K PR ro d tr) ^ dsize d <> 1) -> (forall m d tr, dnew m = Some d -> fs_beta K PR ro d tr ^ dsize d <> 1) ->
  forall (tau : K) (g gam : G1 PR) (h : G2 PR) (n : nat) checks circ u1 u2 (s1 s2 : cs K) dx ipk ivk co pf,
  circ (cs_new Setup) = Ok (u1, s1) -> circ (cs_new Prove) = Ok (u2, s2) -> same_shape s1 s2 -> wf s1 -> wf s2 -> self_sat s2 -> (Z.of_nat (terms (cons s1)) < 2 ^ 64)%Z ->
  dnew (length (inps s2)) = Some dx -> dsize dx = length (inps s2) ->
  c_w K co <> 0 -> c_za K co <> 0 -> c_zb K co <> 0 -> (9 <= length (c_draw K co))%nat ->
  marlin_index K PR dnew checks (kzg_setup K PR n tau g gam h) circ = Ok (ipk, ivk) ->
  create_proof K PR dnew ro ipk circ co = Ok pf ->
  verify_proof K PR dnew ro ivk pf (tl (inps s2)) = Ok true.
Proof. exact marlin_complete. Qed.
Print Assumptions C59_marlin_complete.
Example ex_C59 : let s := st97 (circ97 3 8 24) in
  radix2 dnew97 /\ (forall m d tr, dnew97 m = Some d -> v_alpha F97 (fs_msg F97 P97 ro97 d tr) ^ dsize d <> 1 /\ fs_beta F97 P97 ro97 d tr ^ dsize d <> 1) /\
  same_shape (s Setup) (s Prove) /\ wf (s Setup) /\ wf (s Prove) /\ self_sat (s Prove) /\ (Z.of_nat (terms (cons (s Setup))) < 2 ^ 64)%Z /\
  (exists dx, dnew97 (length (inps (s Prove))) = Some dx /\ dsize dx = length (inps (s Prove))) /\
  c_w F97 coins97 <> 0 /\ c_za F97 coins97 <> 0 /\ c_zb F97 coins97 <> 0 /\ (9 <= length (c_draw F97 coins97))%nat /\
  verdict (circ97 3 8 24) (circ97 3 8 24) (tl (inps (s Prove))) = Ok true.
Proof.
  assert (forall x : F97, feqb x 0 = false -> x <> 0) as N0 by (intros x E ->; rewrite feqb_refl in E; discriminate).
  split; [exact radix2_97|]. split; [exact ro97_ok|]. split; [repeat split|]. split; [wf97|]. split; [wf97|]. split; [sat97|]. split; [vm_compute; reflexivity|].
  split; [eexists; split; reflexivity|]. split; [apply N0; vm_compute; reflexivity|]. split; [apply N0; vm_compute; reflexivity|]. split; [apply N0; vm_compute; reflexivity|]. split; [vm_compute; lia|vm_compute; reflexivity].
Qed.

(** ** C60 *)
(** Finding: [forge] uses only public data; its proofs verify for every circuit and every public input. *)
Theorem C60_forgery_always_verifies : forall (K : Fld) (PR : Pairing K) (tau : K) (g gam : G1 PR) (h : G2 PR) dnew, radix2 dnew -> forall ro : fs K PR,
  (forall m d tr, dnew m = Some d -> v_alpha K (fs_msg K PR ro d tr) ^ dsize d <> 1) -> (forall m d tr, dnew m = Some d -> fs_beta K PR ro d tr ^ dsize d <> 1) ->
  forall n checks circ u (s : cs K) ipk ivk pub dx, circ (cs_new Setup) = Ok (u, s) -> wf s -> (Z.of_nat (terms (cons s)) < 2 ^ 64)%Z ->
  marlin_index K PR dnew checks (kzg_setup K PR n tau g gam h) circ = Ok (ipk, ivk) ->
  (forall d, dnew (i_nc (iv_info K PR ivk)) = Some d -> 2 <= dsize d)%nat -> (forall d, dnew (i_nnz (iv_info K PR ivk)) = Some d -> 2 <= dsize d)%nat ->
  dnew (S (length pub)) = Some dx ->
  exists pf, forge K PR dnew ro (ip_ck K PR ipk) (ip_ix K PR ipk) ivk pub = Ok pf /\ verify_proof K PR dnew ro ivk pf pub = Ok true.
Proof. exact forge_accepted. Qed.
Print Assumptions C60_forgery_always_verifies.
Lemma unsat_forged : forged circ97_unsat [z97 25] = Ok true.
Proof. vm_compute. reflexivity. Qed.
(** In particular a proof can verify for a circuit that no assignment satisfies. *)
Theorem C60_soundness_refuted : exists circ u (s : cs F97) ipk ivk pf pub, circ (cs_new Setup) = Ok (u, s) /\ wf s /\
  (forall x, x (Input 0) = 1 -> ~ Forall (holds x) (cons s)) /\
  marlin_index F97 P97 dnew97 false srs97 circ = Ok (ipk, ivk) /\ verify_proof F97 P97 dnew97 ro97 ivk pf pub = Ok true.
Proof.
  destruct (forged_inv _ _ _ unsat_forged) as (ipk & ivk & pf & E1 & V).
  exists circ97_unsat, tt, (st97 circ97_unsat Setup), ipk, ivk, pf, [z97 25]. split; [reflexivity|]. split; [wf97|]. split; [|split; [exact E1|exact V]].
  intros x X F. cbn in F. do 2 (apply Forall_inv_tail in F). apply Forall_inv in F. unfold holds, SpecLC.eval, exv in F. cbn in F. rewrite X in F.
  apply (f_equal (fun y : F97 => zv _ y)) in F. vm_compute in F. discriminate.
Qed.
Print Assumptions C60_soundness_refuted.
Example ex_C60 : let s := st97 circ97_unsat Setup in radix2 dnew97 /\ wf s /\ (Z.of_nat (terms (cons s)) < 2 ^ 64)%Z /\
  sizes circ97_unsat = Some (4%nat, 4%nat) /\ forged circ97_unsat [z97 25; z97 26; z97 27] = Ok true.
Proof. split; [exact radix2_97|]. split; [wf97|]. split; [vm_compute; reflexivity|]. split; vm_compute; reflexivity. Qed.
