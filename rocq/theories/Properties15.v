(** C43-C46, C65-C69: Plonk. *)
From Coq Require Import Permutation.
From Verif Require Import Zp ExMarlin ModelPlonk SpecPlonk AttackPlonk ProofsPlonk3 ProofsPlonk8 ProofsPlonk9 ProofsPlonk11 ProofsPlonk12 ProofsPlonk13 ExPlonk.
From Verif Require Import ModelPlonk.
Local Open Scope fld_scope.

(** ** C43 *)
(** For every circuit built through the composer, every padded size and every order in which the variable map is visited. *)
Theorem C43_wire_permutation : forall (K : Fld) (ops : list (op K)) (c : composer K), run_ops (c_new K) ops = Ok c ->
  forall n order, (c_n c <= n)%nat -> Permutation order (seq 0 (length (c_vmap c))) -> exists p, wire_perm c order n = Ok p /\
  Permutation (map (target p) (slots n)) (slots n) /\ (forall s, slot_var c (target p s) = slot_var c s) /\ (forall s, slot_var c s = None -> target p s = s) /\
  forall f : wire -> K, (forall s, In s (slots n) -> f (target p s) = f s) <-> exists a : nat -> K, forall s v, slot_var c s = Some v -> f s = a v.
Proof. exact perm_all. Qed.
Print Assumptions C43_wire_permutation.
Theorem C43_order_irrelevant : forall (K : Fld) (ops : list (op K)) (c : composer K), run_ops (c_new K) ops = Ok c ->
  forall n o1 o2, (c_n c <= n)%nat -> Permutation o1 (seq 0 (length (c_vmap c))) -> Permutation o2 (seq 0 (length (c_vmap c))) -> wire_perm c o1 n = wire_perm c o2 n.
Proof. exact perm_order. Qed.
Print Assumptions C43_order_irrelevant.
(** Three gates in four rows: variable 3 occupies the output of gate 0 and the last three wires of gate 2. *)
Example ex_C43 : run_ops (c_new F97) (ops97 3 5 15 11) = Ok c97 /\ Permutation ord97 (seq 0 (length (c_vmap c97))) /\ c_n c97 = 3%nat /\
  match wire_perm c97 ord97 4 with Ok p => (target p (3, 0), target p (3, 2), target p (2, 0), target p (1, 3))%nat = ((3, 2), (2, 2), (2, 1), (1, 3))%nat | _ => False end.
Proof. split; [exact run97|]. split; [exact perm97|]. split; vm_compute; reflexivity. Qed.

(** ** C44 *)
Theorem C44_grand_product_closes : forall (K : Fld) (ops : list (op K)) (c : composer K), run_ops (c_new K) ops = Ok c ->
  forall dnew order ks x w beta gamma, fft_ok dnew -> Permutation order (seq 0 (length (c_vmap c))) -> plonk_index dnew c order ks = Ok x -> synthesize dnew c = Ok w ->
  let d := i_dn (x_info x) in
  ((forall s, In s (slots (dsize d)) -> slot_fac c ks d beta gamma s <> 0) -> exists z, compute_z x w beta gamma = Ok z) /\
  ((exists s, In s (slots (dsize d)) /\ slot_fac c ks d beta gamma s = 0) -> compute_z x w beta gamma = Panic).
Proof. exact z_closes. Qed.
Print Assumptions C44_grand_product_closes.
(** The witness of [bad97] violates a gate; its grand product closes all the same. With gamma = -beta - 5 the slot of y has factor zero. *)
Definition z_run (c : composer F97) (beta gamma : F97) : res (list F97) := rbind (plonk_index dnew97 c ord97 ks97) (fun x => rbind (synthesize dnew97 c) (fun w => compute_z x w beta gamma)).
Definition is_ok {A} (r : res A) : nat := match r with Ok _ => 0 | Err _ => 1 | Panic => 2 end.
Example ex_C44 : is_ok (z_run c97 (z97 2) (z97 31)) = 0%nat /\ is_ok (z_run bad97 (z97 2) (z97 31)) = 0%nat /\ is_ok (z_run c97 (z97 2) (- (z97 5 + z97 2 * z97 7))) = 2%nat.
Proof. repeat apply conj; vm_compute; reflexivity. Qed.

(** ** C45 *)
Theorem C45_gates : forall (K : Fld) (ops : list (op K)) (c : composer K), run_ops (c_new K) ops = Ok c -> forall a, rows_ok c a <-> Forall (rel a) ops.
Proof. exact rel_rows. Qed.
Print Assumptions C45_gates.
Theorem C45_assignment : forall (K : Fld) (ops : list (op K)) (c : composer K), run_ops (c_new K) ops = Ok c ->
  c_asg c = (0 : K) :: flat_map (fun o => match o with OAlloc v => [v] | _ => [] end) ops.
Proof. intros K ops c. exact (ops_asg K ops (c_new K) c). Qed.
Print Assumptions C45_assignment.
Theorem C45_padding : forall (K : Fld) (ops : list (op K)) (c : composer K), run_ops (c_new K) ops = Ok c -> forall (a : nat -> K) i, (c_n c <= i)%nat ->
  row (nth i (c_q0 c) 0) (nth i (c_q1 c) 0) (nth i (c_q2 c) 0) (nth i (c_q3 c) 0) (nth i (c_qm c) 0) (nth i (c_qc c) 0) (nth i (c_pi c) 0) (a 0%nat) (a 1%nat) (a 2%nat) (a 3%nat) = 0.
Proof. exact pad_rows. Qed.
Print Assumptions C45_padding.
Lemma sat97 : Forall (rel (asg c97)) (ops97 3 5 15 11).
Proof. repeat constructor; apply feqb_eq; vm_compute; reflexivity. Qed.
Example ex_C45 : Forall (rel (asg c97)) (ops97 3 5 15 11) /\ ~ Forall (rel (asg bad97)) (ops97 3 5 16 11).
Proof.
  split; [exact sat97|]. intro H. rewrite Forall_forall in H. specialize (H (OMul 1 2 3 None (z97 1) (z97 0) (z97 0)) ltac:(cbn; tauto)). cbn [rel] in H.
  apply (f_equal (fun y : F97 => zv _ y)) in H. vm_compute in H. discriminate.
Qed.

(** ** C46 *)
Theorem C46_quad_split : forall (K : Fld) n (p : list K) x, let t k := peval (nth k (quad_split n p) []) x in let zn := x ^ n in
  peval p x = t 0%nat + zn * t 1%nat + zn * zn * t 2%nat + zn * (zn * zn) * t 3%nat + x ^ (4 * n) * peval (skipn (4 * n) p) x.
Proof. exact quad_exact. Qed.
Print Assumptions C46_quad_split.
Theorem C46_chunk_sizes : forall (K : Fld) n (p : list K) k, (length (nth k (quad_split n p) []) <= n)%nat.
Proof. exact quad_length. Qed.
Print Assumptions C46_chunk_sizes.
(** Nine coefficients in chunks of two: the last one is lost. *)
Example ex_C46 : map (@length F97) (quad_split 2 (map z97 [1; 2; 3; 4; 5; 6; 7; 8; 9]%Z)) = [2; 2; 2; 2]%nat.
Proof. vm_compute. reflexivity. Qed.

(** ** C65 *)
Theorem C65_completeness : forall (K : Fld) dnew (PC : pcs K) (ro : oracle K PC), fft_ok dnew ->
  forall (ops : list (op K)) c order ks srs rng0 pk vk, run_ops (c_new K) ops = Ok c -> Permutation order (seq 0 (length (c_vmap c))) -> keygen dnew srs c order ks rng0 = Ok (pk, vk) ->
  forall rng pf, pc_complete PC -> Forall (rel (asg c)) ops -> prove dnew ro pk c rng = Ok pf -> verify ro vk (c_pi c) pf = Ok true.
Proof. exact plonk_complete. Qed.
Print Assumptions C65_completeness.
Theorem C65_prover_total : forall (K : Fld) dnew (PC : pcs K) (ro : oracle K PC), fft_ok dnew ->
  forall (ops : list (op K)) c order ks srs rng0 pk vk, run_ops (c_new K) ops = Ok c -> Permutation order (seq 0 (length (c_vmap c))) -> keygen dnew srs c order ks rng0 = Ok (pk, vk) ->
  forall rng, pc_total PC ->
  (forall c1 d, dnew (c_n c) = Some d -> forall s, In s (slots (dsize d)) -> slot_fac c ks d (fst (o_bg ro (c_pi c) c1)) (snd (o_bg ro (c_pi c) c1)) s <> 0) ->
  (forall c1 c2 c3, o_zeta ro (c_pi c) c1 c2 c3 <> 1) -> exists pf, prove dnew ro pk c rng = Ok pf.
Proof. exact prove_total. Qed.
Print Assumptions C65_prover_total.
Definition key97 (c : composer F97) := keygen dnew97 (PC := ideal_pcs F97) 32%nat c ord97 ks97 tt.
Definition run97p (c : composer F97) (pub : list F97) : res bool := rbind (key97 c) (fun '(pk, vk) => rbind (prove dnew97 ro97p pk c tt) (fun pf => verify ro97p vk pub pf)).
Example ex_C65 : fft_ok dnew97 /\ pc_complete (ideal_pcs F97) /\ pc_total (ideal_pcs F97) /\ run97p c97 (c_pi c97) = Ok true /\ run97p bad97 (c_pi bad97) = Ok false /\ run97p c97 [] = Ok false.
Proof. split; [exact fft97|]. split; [apply ideal_complete|]. split; [apply ideal_total|]. repeat apply conj; vm_compute; reflexivity. Qed.

(** ** C66 *)
(** Finding: a program without a witness produces accepted proofs for every circuit with a gate and every public input. *)
Theorem C66_forgery : forall (K : Fld) dnew (PC : pcs K) (ro : oracle K PC), fft_ok dnew ->
  forall (ops : list (op K)) c order ks srs rng0 pk vk, run_ops (c_new K) ops = Ok c -> Permutation order (seq 0 (length (c_vmap c))) -> keygen dnew srs c order ks rng0 = Ok (pk, vk) ->
  forall pub rng, pc_complete PC -> pc_total PC -> (0 < c_n c)%nat -> (length pub <= dsize (i_dn (v_info vk)))%nat -> (forall cs, o_zeta ro pub [] [] cs <> 1) ->
  exists pf, plonk_forge ro pk c pub rng = Ok pf /\ verify ro vk pub pf = Ok true.
Proof. exact forge_ok. Qed.
Print Assumptions C66_forgery.
(** x = 1 and x = 2 at once. *)
Definition ops_unsat : list (op F97) := [OAlloc (z97 0); OConst 1 (z97 1) (z97 0); OConst 1 (z97 2) (z97 0)].
Definition forge97 (l : list (op F97)) (pub : list F97) : res bool :=
  rbind (keygen dnew97 (PC := ideal_pcs F97) 32%nat (circ l) [1; 0]%nat ks97 tt) (fun '(pk, vk) => rbind (plonk_forge ro97p pk (circ l) pub tt) (fun pf => verify ro97p vk pub pf)).
Example ex_C66 : forge97 ops_unsat [] = Ok true /\ ~ exists a : nat -> F97, Forall (rel a) ops_unsat.
Proof.
  split; [vm_compute; reflexivity|]. intros (a & H). inversion H as [|? ? _ H1]; subst. inversion H1 as [|? ? E1 H2]; subst. inversion H2 as [|? ? E2 _]; subst. cbn [rel] in E1, E2. rewrite E1 in E2.
  apply (f_equal (fun y : F97 => zv _ y)) in E2. vm_compute in E2. discriminate.
Qed.

(** ** C67 *)
(** Against challenges sent after the prover's commitments (four wire polynomials, then one grand product polynomial, then
    four chunks) the ideal protocol proves the circuit: if the same wires are accepted for enough challenges, they carry an assignment satisfying it. *)
Theorem C67_soundness : forall (K : Fld) dnew (ops : list (op K)) c order ks srs pk vk, fft_ok dnew -> run_ops (c_new K) ops = Ok c -> Permutation order (seq 0 (length (c_vmap c))) ->
  keygen dnew (PC := ideal_pcs K) srs c order ks tt = Ok (pk, vk) ->
  forall (w0 w1 w2 w3 pub bs gs als zs : list K), let d := i_dn (v_info vk) in let n := dsize d in cosets_ok d ks ->
  (length w0 <= S n /\ length w1 <= S n /\ length w2 <= S n /\ length w3 <= S n)%nat ->
  NoDup bs /\ (4 * n < length bs)%nat -> NoDup gs /\ (4 * n < length gs)%nat -> NoDup als /\ (2 < length als)%nat -> NoDup zs /\ (5 * n < length zs)%nat ->
  (forall b g, In b bs -> In g gs -> exists z, (length z <= S n)%nat /\ forall al, In al als -> exists t0 t1 t2 t3, (length t0 <= S n /\ length t1 <= S n /\ length t2 <= S n /\ length t3 <= S n)%nat /\
    forall ze, In ze zs -> exists evs, verify (fixed_oracle (ideal_pcs K) b g al ze 0) vk pub (mkProof K (ideal_pcs K) [[w0; w1; w2; w3]; [z]; [t0; t1; t2; t3]] evs tt) = Ok true) ->
  exists a : nat -> K, rows_pub c pub a /\ forall k i v, slot_var c (k, i) = Some v -> peval (nth k [w0; w1; w2; w3] []) (dgen d ^ i) = a v.
Proof. exact plonk_sound. Qed.
Print Assumptions C67_soundness.
Theorem C67_relations : forall (K : Fld) (ops : list (op K)) c, run_ops (c_new K) ops = Ok c -> forall pub a, (forall i, (i < c_n c)%nat -> nth i pub 0 = nth i (c_pi c) 0) -> rows_pub c pub a -> Forall (rel a) ops.
Proof. exact sound_rel. Qed.
Print Assumptions C67_relations.
(** A one-gate circuit x = 1 + 2 accepted with x = 3 for 5 x 5 x 3 x 6 challenges. *)
Definition key_one := keygen dnew97 (PC := ideal_pcs F97) 32%nat one97 [0; 1]%nat ks97 tt.
Definition wires_one : list (list F97) := map (fun v => [z97 v]) [0; 3; 3; 3]%Z.
Definition accept_one (b g al ze : F97) : bool :=
  match key_one with
  | Ok (pk, vk) =>
      let i := v_info vk in let ts := third_round (k_index pk) wires_one [z97 1] [z97 95] al b g in
      let ps := index_polys (k_index pk) ++ combine w_labels wires_one ++ [("z"%string, [z97 1])] ++ combine t_labels ts in
      match lin_combs i al b g ze (poly_eval_lc ps) with
      | Ok lcs => match eval_all lcs ps (query_set i ze) with
                  | Ok evs => match verify (fixed_oracle (ideal_pcs F97) b g al ze 0) vk [z97 95] (mkProof F97 (ideal_pcs F97) [wires_one; [[z97 1]]; ts] evs tt) with Ok v => v | _ => false end
                  | _ => false end
      | _ => false end
  | _ => false end.
Example ex_C67 : forallb (fun b => forallb (fun g => forallb (fun al => forallb (fun ze => accept_one (z97 b) (z97 g) (z97 al) (z97 ze)) [2; 3; 4; 5; 6; 7]%Z) [1; 2; 3]%Z) [1; 2; 3; 4; 5]%Z) [1; 2; 3; 4; 5]%Z = true.
Proof. vm_compute. reflexivity. Qed.

(** ** C68 *)
(** Finding: the four wire values in a proof are the unblinded interpolants of the witness, whatever the random source. *)
Theorem C68_witness_evaluations : forall (K : Fld) dnew (PC : pcs K) (ro : oracle K PC), fft_ok dnew ->
  forall (ops : list (op K)) c order ks srs rng0 pk vk, run_ops (c_new K) ops = Ok c -> Permutation order (seq 0 (length (c_vmap c))) -> keygen dnew srs c order ks rng0 = Ok (pk, vk) ->
  forall rng pf, prove dnew ro pk c rng = Ok pf ->
  exists c1 c2 c3, f_comms pf = [c1; c2; c3] /\ length (f_evals pf) = 11%nat /\ forall k, (k < 4)%nat -> exists P,
    (length P <= dsize (i_dn (v_info vk)))%nat /\ (forall i, (i < dsize (i_dn (v_info vk)))%nat -> peval P (dgen (i_dn (v_info vk)) ^ i) = slot_val c (k, i)) /\
    nth (6 + k) (f_evals pf) 0 = peval P (o_zeta ro (c_pi c) c1 c2 c3).
Proof. exact plonk_reveal. Qed.
Print Assumptions C68_witness_evaluations.
Definition evals97 (c : composer F97) : list Z := match rbind (key97 c) (fun '(pk, vk) => prove dnew97 ro97p pk c tt) with Ok pf => map (fun y : F97 => zv _ y) (f_evals pf) | _ => [] end.
(** Two witnesses for the same public input (3 * 5 and 5 * 3) are told apart. *)
Example ex_C68 : nth 7 (evals97 c97) 0%Z <> nth 7 (evals97 (circ (ops97 5 3 15 13))) 0%Z.
Proof. vm_compute. discriminate. Qed.

(** ** C69 *)
Theorem C69_few_commitments_panic : forall (K : Fld) (PC : pcs K) (ro : oracle K PC) vk pub (p : proof K PC), (length (f_comms p) < 3)%nat -> verify ro vk pub p = Panic.
Proof. exact few_lists. Qed.
Print Assumptions C69_few_commitments_panic.
Theorem C69_extra_lists_ignored : forall (K : Fld) (PC : pcs K) (ro : oracle K PC) vk pub c1 c2 c3 l evs pf,
  verify ro vk pub (mkProof K PC (c1 :: c2 :: c3 :: l) evs pf) = verify ro vk pub (mkProof K PC [c1; c2; c3] evs pf).
Proof. exact more_lists. Qed.
Print Assumptions C69_extra_lists_ignored.
Theorem C69_long_input_panics : forall (K : Fld) (PC : pcs K) (ro : oracle K PC) vk pub c1 c2 c3 l evs pf, (dsize (i_dn (v_info vk)) < length pub)%nat ->
  verify ro vk pub (mkProof K PC (c1 :: c2 :: c3 :: l) evs pf) = Panic.
Proof. exact long_pub. Qed.
Print Assumptions C69_long_input_panics.
Theorem C69_missing_evaluations : forall (K : Fld) (PC : pcs K) (ro : oracle K PC) vk pub c1 c2 c3 l evs pf, (length pub <= dsize (i_dn (v_info vk)))%nat -> (length evs < 11)%nat ->
  verify ro vk pub (mkProof K PC (c1 :: c2 :: c3 :: l) evs pf) = Err MissingEval.
Proof. exact short_err. Qed.
Print Assumptions C69_missing_evaluations.
Theorem C69_zeta_one_panics : forall (K : Fld) (PC : pcs K) (ro : oracle K PC) vk pub c1 c2 c3 l evs pf, (length pub <= dsize (i_dn (v_info vk)))%nat -> (11 <= length evs)%nat ->
  o_zeta ro pub c1 c2 c3 = 1 -> verify ro vk pub (mkProof K PC (c1 :: c2 :: c3 :: l) evs pf) = Panic.
Proof. exact zeta_one. Qed.
Print Assumptions C69_zeta_one_panics.
Definition mal97 (comms : list (list (list F97))) (pub evs : list F97) : res bool := rbind (key97 c97) (fun '(pk, vk) => verify ro97p vk pub (mkProof F97 (ideal_pcs F97) comms evs tt)).
Example ex_C69 : mal97 [[]; []] [] [] = Panic /\ mal97 [[]; []; []] (repeat (z97 0) 5) [] = Panic /\ mal97 [[]; []; []] [] (repeat (z97 0) 10) = Err MissingEval /\
  mal97 [[]; []; []] [] (repeat (z97 0) 11) = Ok false.
Proof. repeat apply conj; vm_compute; reflexivity. Qed.
