(** C40-C42, C61-C64: the vector commitment. *)
From Verif Require Import Field Zp Poly Module ModelPC ModelAsvc SpecAsvc ProofsAsvc ProofsAsvc2 ProofsAsvc3 ExMarlin.
Local Open Scope fld_scope.

(** ** C40 *)
Theorem C40_open_verifies : forall (K : Fld) (PR : Pairing K) dnew n (d : dom K), dnew n = Some d -> dnew (dsize d) = Some d -> valid_dom d ->
  forall tau (g1 : G1 PR) (g2 : G2 PR) pk vk, key_gen dnew n tau g1 g2 = Ok (pk, vk) ->
  forall values points, (1 <= length values <= dsize d)%nat -> NoDup points -> (forall i, In i points -> (i < dsize d)%nat) ->
  exists c p, svc_commit pk values = Ok c /\ prove_pos dnew pk values points = Ok p /\ verify_pos vk c (map (entry values) points) points p (dgen d) = Ok true.
Proof. exact open_verifies. Qed.
Print Assumptions C40_open_verifies.
(** What verification decides, for any commitment, claimed values, proof and root. *)
Theorem C40_verify_equation : forall (K : Fld) (PR : Pairing K) dnew n (d : dom K), dnew n = Some d -> valid_dom d ->
  forall tau (g1 : G1 PR) (g2 : G2 PR) pk vk, key_gen dnew n tau g1 g2 = Ok (pk, vk) ->
  forall c values points p omega, NoDup (map (fun i => omega ^ i) points) -> (length points <= dsize d)%nat ->
  exists b, verify_pos vk c values points p omega = Ok b /\
  (b = true <-> pair_e c g2 = gadd (gsm (van (map (fun i => omega ^ i) points) tau) (pair_e p g2)) (gsm (interp_at (map (fun i => omega ^ i) points) values tau) (pair_e g1 g2))).
Proof. exact verify_equation. Qed.
Print Assumptions C40_verify_equation.
Theorem C40_single_exact : forall (K : Fld) (PR : Pairing K) dnew n (d : dom K), dnew n = Some d -> dnew (dsize d) = Some d -> valid_dom d ->
  forall tau (g1 : G1 PR) (g2 : G2 PR) pk vk, key_gen dnew n tau g1 g2 = Ok (pk, vk) ->
  forall values i u c p, pair_e g1 g2 <> g0 -> (1 <= length values <= dsize d)%nat -> (i < dsize d)%nat -> svc_commit pk values = Ok c -> prove_pos dnew pk values [i] = Ok p ->
  (verify_pos vk c [u] [i] p (dgen d) = Ok true <-> u = entry values i) /\ exists b, verify_pos vk c [u] [i] p (dgen d) = Ok b.
Proof. exact single_exact. Qed.
Print Assumptions C40_single_exact.
Definition key97 := key_gen (PR := P97) dnew97 5 (z97 13) (z97 2) (z97 3).
Definition vals97 : list F97 := map z97 [10; 20; 30; 40; 50]%Z.
Definition run97 (vs : list F97) (pts : list nat) (claim : list F97) : res bool :=
  rbind key97 (fun '(pk, vk) => rbind (svc_commit pk vs) (fun c => rbind (prove_pos dnew97 pk vs pts) (fun p => verify_pos vk c claim pts p (dgen (dom97 3))))).
Example ex_C40 : dnew97 5 = Some (dom97 3) /\ dnew97 (dsize (dom97 3)) = Some (dom97 3) /\ valid_dom (dom97 3) /\ match key97 with Ok _ => True | _ => False end /\
  run97 vals97 [1; 4; 6]%nat (map z97 [20; 50; 0]%Z) = Ok true /\ run97 vals97 [1; 4; 6]%nat (map z97 [20; 51; 0]%Z) = Ok false /\
  run97 vals97 [3]%nat [z97 40] = Ok true /\ run97 vals97 [3]%nat [z97 41] = Ok false.
Proof.
  split; [reflexivity|]. split; [reflexivity|]. split; [apply valid97; lia|]. split; [vm_compute; exact I|].
  repeat split; vm_compute; reflexivity.
Qed.
Example ex_C40_nondegenerate : pair_e (z97 2 : G1 P97) (z97 3 : G2 P97) <> g0.
Proof. intro E. apply (f_equal (fun y : F97 => zv _ y)) in E. vm_compute in E. discriminate. Qed.

(** ** C41 *)
(** [m] is the size the caller passes; only the domain size makes the update add [delta]. *)
Theorem C41_update_commit : forall (K : Fld) (PR : Pairing K) dnew n (d : dom K), dnew n = Some d -> valid_dom d ->
  forall tau (g1 : G1 PR) (g2 : G2 PR) pk vk, key_gen dnew n tau g1 g2 = Ok (pk, vk) ->
  forall v v' c delta pt u m, (1 <= length v <= dsize d)%nat -> (1 <= length v' <= dsize d)%nat -> nth_error (pk_upk pk) pt = Some u -> @of_nat K m <> 0 ->
  (forall k, (k < dsize d)%nat -> entry v' k = entry v k + (if Nat.eqb k pt then delta * (of_nat (dsize d) / of_nat m) else 0)) ->
  svc_commit pk v = Ok c -> update_commit c delta pt u (dgen d) m = svc_commit pk v'.
Proof. exact update_commit_gen. Qed.
Print Assumptions C41_update_commit.
Theorem C41_update_proof : forall (K : Fld) (PR : Pairing K) dnew n (d : dom K), dnew n = Some d -> dnew (dsize d) = Some d -> valid_dom d ->
  forall tau (g1 : G1 PR) (g2 : G2 PR) pk vk, key_gen dnew n tau g1 g2 = Ok (pk, vk) ->
  forall v v' p delta i j ui uj, (1 <= length v <= dsize d)%nat -> nth_error (pk_upk pk) i = Some ui -> nth_error (pk_upk pk) j = Some uj ->
  (forall k, (k < dsize d)%nat -> entry v' k = entry v k + (if Nat.eqb k j then delta else 0)) ->
  prove_pos dnew pk v [i] = Ok p -> update_proof p delta i j ui uj (dgen d) (dsize d) = prove_pos dnew pk v' [i].
Proof. exact update_proof_ok. Qed.
Print Assumptions C41_update_proof.
Definition veq (a b : res F97) : bool := match a, b with Ok x, Ok y => feqb x y | _, _ => false end.
Definition upd97 (m : nat) (v' : list F97) : bool := match key97 with Ok (pk, vk) => match nth_error (pk_upk pk) 2 with Some u =>
    veq (rbind (svc_commit pk vals97) (fun c => update_commit (PR := P97) c (z97 5) 2 u (dgen (dom97 3)) m)) (svc_commit pk v') | None => false end | _ => false end.
Definition updp97 (i : nat) (v' : list F97) : bool := match key97 with Ok (pk, vk) => match nth_error (pk_upk pk) 2, nth_error (pk_upk pk) i with Some u, Some ui =>
    veq (rbind (prove_pos dnew97 pk vals97 [i]) (fun c => update_proof (PR := P97) c (z97 5) i 2 ui u (dgen (dom97 3)) 8)) (prove_pos dnew97 pk v' [i]) | _, _ => false end | _ => false end.
Example ex_C41 : let v' := map z97 [10; 20; 35; 40; 50]%Z in upd97 8 v' = true /\ updp97 2 v' = true /\ updp97 4 v' = true /\
  (* five, the unrounded length, adds 5 * 8 / 5 *) upd97 5 v' = false /\ upd97 5 (map z97 [10; 20; 38; 40; 50]%Z) = true.
Proof. repeat split; vm_compute; reflexivity. Qed.

(** ** C42 *)
Theorem C42_aggregate : forall (K : Fld) (PR : Pairing K) dnew n (d : dom K), dnew n = Some d -> dnew (dsize d) = Some d -> valid_dom d ->
  forall tau (g1 : G1 PR) (g2 : G2 PR) pk vk, key_gen dnew n tau g1 g2 = Ok (pk, vk) ->
  forall v points proofs, points <> [] -> NoDup points -> (forall i, In i points -> (i < dsize d)%nat) ->
  mapR (fun i => prove_pos dnew pk v [i]) points = Ok proofs -> aggregate_proofs points proofs (dgen d) = prove_pos dnew pk v points.
Proof. exact aggregate_ok. Qed.
Print Assumptions C42_aggregate.
(** The empty list is the exception. *)
Theorem C42_aggregate_empty : forall (K : Fld) (PR : Pairing K) dnew n (d : dom K), dnew n = Some d -> dnew (dsize d) = Some d -> valid_dom d ->
  forall tau (g1 : G1 PR) (g2 : G2 PR) pk vk, key_gen dnew n tau g1 g2 = Ok (pk, vk) ->
  forall v proofs, (1 <= length v <= dsize d)%nat -> aggregate_proofs [] proofs (dgen d) = Ok (g0 : G1 PR) /\ prove_pos dnew pk v [] = svc_commit pk v.
Proof. exact aggregate_empty. Qed.
Print Assumptions C42_aggregate_empty.
Definition agg97 (pts : list nat) : bool := match key97 with Ok (pk, vk) => 
  veq (rbind (mapR (fun i => prove_pos dnew97 pk vals97 [i]) pts) (fun ps => aggregate_proofs (PR := P97) pts ps (dgen (dom97 3)))) (prove_pos dnew97 pk vals97 pts) | _ => false end.
Example ex_C42 : agg97 [1; 4; 6]%nat = true /\ agg97 [0; 7]%nat = true /\ agg97 []%nat = false.
Proof. repeat split; vm_compute; reflexivity. Qed.

(** ** C61 *)
(** The three polynomials depend on the two openings' positions and values only; with accepted proofs they give the pairing value divided by tau - omega^i. *)
Theorem C61_position_binding : forall (K : Fld) (PR : Pairing K) (omega : K) I vs J us i k l a b, NoDup (map (fun j => omega ^ j) I) -> NoDup (map (fun j => omega ^ j) J) ->
  nth_error I k = Some i -> nth_error vs k = Some a -> nth_error J l = Some i -> nth_error us l = Some b -> a <> b ->
  exists p1 p2 p3 : list K, (length p1 <= length I /\ length p2 <= length J /\ length p3 <= length I + length J)%nat /\
  forall dnew n d tau (g1 : G1 PR) (g2 : G2 PR) pk vk, dnew n = Some d -> valid_dom d -> (length I + length J <= dsize d)%nat -> key_gen dnew n tau g1 g2 = Ok (pk, vk) ->
  forall c w1 w2, verify_pos vk c vs I w1 omega = Ok true -> verify_pos vk c us J w2 omega = Ok true ->
  gsm (tau - omega ^ i) (gadd (gadd (pair_e w1 (msm (vk_g2 vk) p1)) (pair_e w2 (msm (vk_g2 vk) p2))) (pair_e (msm (vk_g1 vk) p3) g2)) = pair_e g1 g2.
Proof. exact binding. Qed.
Print Assumptions C61_position_binding.
(** Knowing tau = 13 one can open the same commitment to 0 and to 1 at position 1. *)
Definition cheat97 (c u : F97) : F97 := (c - z97 2 * u) / (z97 13 - dgen (dom97 3)).
Definition ver97 (c : F97) (claim : list F97) (pts : list nat) (p : F97) : res bool :=
  rbind key97 (fun '(pk, vk) => verify_pos (PR := P97) vk c claim pts p (dgen (dom97 3))).
Example ex_C61 : NoDup (map (fun j => dgen (dom97 3) ^ j) [1]%nat) /\ ver97 (z97 77) [z97 0] [1]%nat (cheat97 (z97 77) (z97 0)) = Ok true /\ ver97 (z97 77) [z97 1] [1]%nat (cheat97 (z97 77) (z97 1)) = Ok true.
Proof. split; [constructor; [intros []|constructor]|]. split; vm_compute; reflexivity. Qed.

(** ** C62 *)
(** Finding: claimed values missing at the end read as zero, extra ones are ignored. *)
Theorem C62_lengths_not_checked : forall (K : Fld) (PR : Pairing K) dnew n (d : dom K), dnew n = Some d -> valid_dom d ->
  forall tau (g1 : G1 PR) (g2 : G2 PR) pk vk, key_gen dnew n tau g1 g2 = Ok (pk, vk) ->
  forall c values points p omega, NoDup (map (fun i => omega ^ i) points) -> (length points <= dsize d)%nat ->
  verify_pos vk c values points p omega = verify_pos vk c (firstn (length points) values ++ repeat 0 (length points - length values)) points p omega.
Proof. exact missing_values. Qed.
Print Assumptions C62_lengths_not_checked.
Example ex_C62 : run97 vals97 [1; 6]%nat [z97 20] = Ok true /\ run97 vals97 [1]%nat [z97 20; z97 99] = Ok true /\ run97 vals97 [1; 4]%nat [z97 20] = Ok false.
Proof. repeat split; vm_compute; reflexivity. Qed.

(** ** C63 *)
Theorem C63_upk_exact : forall (K : Fld) (PR : Pairing K) dnew n (d : dom K), dnew n = Some d -> valid_dom d ->
  forall tau (g1 : G1 PR) (g2 : G2 PR) pk vk, key_gen dnew n tau g1 g2 = Ok (pk, vk) ->
  forall pt u, (forall a : G1 PR, pair_e a g2 = g0 -> a = g0) -> (pt < dsize d)%nat ->
  (verify_upk vk pt u (dgen d) = Ok true <-> nth_error (pk_upk pk) pt = Some u) /\ exists b, verify_upk vk pt u (dgen d) = Ok b.
Proof. exact upk_exact. Qed.
Print Assumptions C63_upk_exact.
Definition upk97 (f : upkey F97 P97 -> upkey F97 P97) (i j : nat) : res bool :=
  rbind key97 (fun '(pk, vk) => match nth_error (pk_upk pk) i with Some u => verify_upk vk j (f u) (dgen (dom97 3)) | None => Panic end).
Example ex_C63 : upk97 (fun u => u) 3 3 = Ok true /\ upk97 (fun u => u) 3 4 = Ok false /\ upk97 (fun u => mkUpk (u_ai u) (z97 1)) 3 3 = Ok false /\
  (forall a : G1 P97, pair_e a (z97 3 : G2 P97) = g0 -> a = g0).
Proof.
  repeat split; try (vm_compute; reflexivity). intros a E. cbn in a, E. destruct (f_integral F97 _ _ E) as [H|H]; [exact H|].
  apply (f_equal (fun y : F97 => zv _ y)) in H. vm_compute in H. discriminate.
Qed.

(** ** C64 *)
Theorem C64_repeated_positions_panic : forall (K : Fld) (PR : Pairing K) (vk : svc_vk K PR) c values points p omega,
  ~ NoDup (map (fun i => omega ^ i) points) -> (length points <= length values)%nat -> verify_pos vk c values points p omega = Panic.
Proof. exact repeated_verify. Qed.
Print Assumptions C64_repeated_positions_panic.
Theorem C64_repeated_aggregate_panics : forall (K : Fld) (PR : Pairing K) points (proofs : list (G1 PR)) omega,
  ~ NoDup (map (fun i => omega ^ i) points) -> (length points <= length proofs)%nat -> aggregate_proofs points proofs omega = Panic.
Proof. exact repeated_aggregate. Qed.
Print Assumptions C64_repeated_aggregate_panics.
Theorem C64_key_gen_total : forall (K : Fld) (PR : Pairing K) dnew (d : dom K), valid_dom d -> forall tau (g1 : G1 PR) (g2 : G2 PR) n, dnew n = Some d ->
  (In tau (dpts d) -> key_gen dnew n tau g1 g2 = Panic) /\ (~ In tau (dpts d) -> exists k, key_gen dnew n tau g1 g2 = Ok k).
Proof. exact key_gen_cases. Qed.
Print Assumptions C64_key_gen_total.
Example ex_C64 : ver97 (z97 77) (map z97 [1; 2]%Z) [3; 3]%nat (z97 5) = Panic /\ ver97 (z97 77) (map z97 [1; 2]%Z) [3; 11]%nat (z97 5) = Panic /\
  aggregate_proofs (PR := P97) [3; 3]%nat [z97 1; z97 2] (dgen (dom97 3)) = Panic /\ key_gen (PR := P97) dnew97 5 (dgen (dom97 3) ^ 3) (z97 2) (z97 3) = Panic.
Proof. repeat split; vm_compute; reflexivity. Qed.
