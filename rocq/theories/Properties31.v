(** Theorems C95: Groth16 against provers that compute by the group operations. *)
From Coq Require Import List Lia ZArith.
From Verif Require Import Field Poly Module ModelLC SpecLC ModelCS SpecCS ModelGroth16 SpecGroth16 SpecGroth16Alg ProofsGroth16 ProofsGroth16Alg.
Import ListNotations.
Local Open Scope list_scope.
Local Open Scope fld_scope.

(** ** C95 *)
Theorem C95_sound : forall (K : Fld) (PR : Pairing K) dnew, dom_family dnew -> forall (circuit : M K unit) s1 s, circuit (cs_new Setup) = Ok (tt, s1) -> same_shape s1 s -> wf s ->
  forall d, dnew (length (cons s) + length (inps s))%nat = Some d -> forall (g1 : G1 PR) (g2 : G2 PR), (forall k, gsm k (pair_e g1 g2) = g0 -> k = 0) ->
  forall A B C xs als bes gas des ts, grid (2 * dsize d - 1) als bes gas des ts ->
  (forall al be ga de t, In al als -> In be bes -> In ga gas -> In de des -> In t ts -> succeeds dnew circuit g1 g2 A B C xs al be ga de t) ->
  sat (with_inputs xs (c_l K C)) s.
Proof. exact alg_sound. Qed.
Print Assumptions C95_sound.
Theorem C95_complete : forall (K : Fld) (PR : Pairing K) dnew, dom_family dnew -> forall (circuit : M K unit) s1 s, circuit (cs_new Setup) = Ok (tt, s1) -> same_shape s1 s -> wf s ->
  forall d, dnew (length (cons s) + length (inps s))%nat = Some d -> forall (g1 : G1 PR) (g2 : G2 PR) (x : var -> K), x ONE = 1 -> sat x s ->
  exists A B C, c_l K C = map (fun i => x (Aux i)) (seq 0 (length (auxs s))) /\
    forall al be ga de t, ga <> 0 -> de <> 0 -> succeeds dnew circuit g1 g2 A B C (map (fun i => x (Input i)) (seq 1 (length (inps s) - 1))) al be ga de t.
Proof. exact alg_complete. Qed.
Print Assumptions C95_complete.

(** ** A prover for y = x^2 + x with y = 30 that succeeds on a whole grid of trapdoors, and the assignment read off it *)
From Verif Require Import Gold Zp ProofsCS Properties9.
Definition zs95 (l : list Z) : list Fg := map z_ l.
Lemma nd95 (l : list Z) : NoDup (map (fun x : Fg => zv _ x) (zs95 l)) -> NoDup (zs95 l).
Proof. apply NoDup_map_inv. Qed.
Ltac nd_tac := apply nd95; match goal with |- NoDup ?x => let y := eval vm_compute in x in change (NoDup y) end;
  repeat constructor; cbn [In]; intros H; repeat (destruct H as [H|H]; [discriminate H|]); contradiction.
Lemma grid95 : grid 7 (zs95 [0; 1; 2]%Z) (zs95 [0; 1; 2]%Z) (zs95 [1; 2; 3]%Z) (zs95 [1; 2; 3; 4]%Z) (zs95 [0; 1; 2; 3; 4; 5; 6]%Z).
Proof.
  constructor.
  - split; [nd_tac|cbn; lia].
  - split; [nd_tac|cbn; lia].
  - split; [nd_tac|split; [cbn; lia|]]. intro H. repeat (destruct H as [H|H]; [apply feqb_eq in H; revert H; vm_compute; discriminate|]); contradiction.
  - split; [nd_tac|split; [cbn; lia|]]. intro H. repeat (destruct H as [H|H]; [apply feqb_eq in H; revert H; vm_compute; discriminate|]); contradiction.
  - split; [nd_tac|cbn; lia].
Qed.
Example ex_C95 : exists A B C, c_l Fg C = zs95 [5; 25]%Z /\
  (forall al be ga de t, ga <> 0 -> de <> 0 -> succeeds (PR := self_pairing Fg) dnew4 (square_circuit 5) (z_ 1) (z_ 2) A B C [z_ 30] al be ga de t) /\
  sat (with_inputs [z_ 30] (c_l Fg C)) (run_of Prove).
Proof.
  destruct square_sat as [S W]. pose proof ex_C30_sound as S'.
  assert (Sh : same_shape (run_of Setup) (run_of Prove)) by (repeat split).
  destruct (C95_complete Fg (self_pairing Fg) dnew4 dnew4_family (square_circuit 5) (run_of Setup) (run_of Prove) eq_refl Sh W d4 eq_refl (z_ 1) (z_ 2) (wit (run_of Prove))) as (A & B & C & E & Suc).
  - apply feqb_eq; vm_compute; reflexivity.
  - exact S'.
  - exists A, B, C. split; [exact E|]. split; [exact Suc|].
    refine (C95_sound Fg (self_pairing Fg) dnew4 dnew4_family (square_circuit 5) (run_of Setup) (run_of Prove) eq_refl Sh W d4 eq_refl (z_ 1) (z_ 2) _ A B C [z_ 30] _ _ _ _ _ grid95 _).
    + intros k H. change (k * (z_ 1 * z_ 2) = 0) in H. destruct (f_integral Fg _ _ H) as [H'|H']; [exact H'|]. apply feqb_eq in H'. revert H'. vm_compute. discriminate.
    + intros al be ga de t _ _ Ig Id _. apply Suc; intros ->; [exact (proj2 (proj2 (gr_ga _ _ _ _ _ _ _ grid95)) Ig)|exact (proj2 (proj2 (gr_de _ _ _ _ _ _ _ grid95)) Id)].
Qed.
