(** Theorem C87: when hyrax's prover succeeds, and that the verifier accepts what it returns. *)
From Verif Require Import Field Zp Poly Module ModelTranscript ModelMle SpecMle ModelLibra SpecLibra ModelSigma ModelSpartan ModelSnark ModelHyrax SpecHyrax ProofsLibra3 ProofsHyrax8 ExMarlin Properties20 Properties22 Properties23.
From Coq Require Import String List Lia ZArith.
Import ListNotations.
Local Open Scope string_scope.
Local Open Scope list_scope.
Local Open Scope fld_scope.

(** ** C87 *)
Theorem C87_complete : forall (K : Fld) (G : Grp K) (ch : oracle K G) num r1 g r3 r4 ni na raw c S inputs witnesses n ch_hash p_hash wr zs e0 e1,
  (1 + 1 : K) <> 0 -> (1 + 1 + 1 : K) <> 0 -> pow2_above (Nat.max ni na) S -> circuit_new ni na raw = Ok c -> raw <> [] ->
  forall pf os, hx_prover K G ch (hparams_new K G num r1 g r3 r4) witnesses inputs c ch_hash p_hash n wr zs e0 e1 = Ok (pf, os) ->
  (forall i w, In (i, w) (combine (firstn n inputs) (firstn n witnesses)) -> length i = length w) ->
  os = map (fun '(i, w) => sem (intended_layer S i w) raw) (combine (firstn n inputs) (firstn n witnesses)) /\
  hx_verify K G ch (hparams_new K G num r1 g r3 r4) pf os inputs c ch_hash p_hash = Ok true.
Proof. exact hyrax_complete. Qed.
Print Assumptions C87_complete.
Theorem C87_total : forall (K : Fld) (G : Grp K) (ch : oracle K G) num r1 g r3 r4 ni na raw c S inputs witnesses n ch_hash p_hash wr zs e0 e1,
  (1 + 1 : K) <> 0 -> (1 + 1 + 1 : K) <> 0 -> pow2_above (Nat.max ni na) S -> circuit_new ni na raw = Ok c -> raw <> [] -> (forall l t, ch l t <> 0) ->
  provable S raw num n inputs witnesses ->
  exists pf, hx_prover K G ch (hparams_new K G num r1 g r3 r4) witnesses inputs c ch_hash p_hash n wr zs e0 e1 =
    Ok (pf, map (fun '(i, w) => sem (actual_layer S i w) raw) (combine (firstn n inputs) (firstn n witnesses))).
Proof. exact hyrax_total. Qed.
Print Assumptions C87_total.
Theorem C87_panics : forall (K : Fld) (G : Grp K) (ch : oracle K G) num r1 g r3 r4 ni na raw c S inputs witnesses n ch_hash p_hash wr zs e0 e1,
  (1 + 1 : K) <> 0 -> (1 + 1 + 1 : K) <> 0 -> pow2_above (Nat.max ni na) S -> circuit_new ni na raw = Ok c -> raw <> [] ->
  ~ provable S raw num n inputs witnesses ->
  hx_prover K G ch (hparams_new K G num r1 g r3 r4) witnesses inputs c ch_hash p_hash n wr zs e0 e1 = Panic.
Proof. exact hyrax_panics. Qed.
Print Assumptions C87_panics.
Theorem C87_one_instance : forall (K : Fld) (G : Grp K) (ch : oracle K G) p pf o inputs c ch_hash p_hash, (2 <= c_depth c)%nat -> hx_verify K G ch p pf [o] inputs c ch_hash p_hash = Panic.
Proof. exact verify_single. Qed.
Print Assumptions C87_one_instance.
Definition hp87 := hparams_new F97 S97' 2 (fun j => z97 (Z.of_nat j)) (z97 5) (fun j => z97 (2 + Z.of_nat j)) (fun j => z97 (3 + Z.of_nat j)).
Definition zr87 (d : nat) : zrand F97 := let r := fun j => z97 (Z.of_nat (d + j)) in mkZr F97 r r (r 1%nat) (r 2%nat) (r 3%nat) (r 4%nat) (r 5%nat) (r 6%nat) (r 7%nat) (r 8%nat) r r (r 9%nat).
Definition er87 (d : nat) : erand F97 := let r := fun j => z97 (Z.of_nat (d + j)) in mkEr F97 (r 1%nat) (r 2%nat) (r 3%nat) (r 4%nat) (fun j => (r j, r (j + 7)%nat)) (r 5%nat).
Definition ins87 : list (list F97) := [[z97 3; z97 4]; [z97 5; z97 6]].
Definition ws87 : list (list F97) := [[z97 7; z97 8]; [z97 9; z97 10]].
Lemma ok87 : provable 2 raw86 2 2 ins87 ws87.
Proof.
  assert (P : pow2_above 2 2). { exists 1%nat. split; [reflexivity|]. split; [lia|]. intros j H. exact H. }
  split; [cbn; lia|]. split; [cbn; lia|]. split; [|split; [repeat constructor|split; [repeat (constructor; [exact P|]); constructor|exists 1%nat, 1%nat; cbn; repeat split; lia]]].
  cbn [shape raw86 length]. split; [exists 1%nat; reflexivity|]. split; [right; lia|]. split; [exists 0%nat; reflexivity|]. split; [right; lia|exact I].
Qed.
(** Two instances of a circuit with two layers: the honest proof exists and is accepted. *)
Example ex_C87 : exists c pf os, circuit_new 2 2 raw86 = Ok c /\ hx_prover F97 S97' ch84 hp87 ws87 ins87 c (z97 9) (z97 10) 2 (fun j => z97 (Z.of_nat j)) zr87 (er87 3) (er87 4) = Ok (pf, os) /\ hx_verify F97 S97' ch84 hp87 pf os ins87 c (z97 9) (z97 10) = Ok true.
Proof.
  exists (built 2 2 raw86). assert (E : circuit_new 2 2 raw86 = Ok (built 2 2 raw86)) by reflexivity. assert (P : pow2_above (Nat.max 2 2) 2). { exists 1%nat. split; [reflexivity|]. split; [cbn; lia|]. intros j H. exact H. }
  destruct two97 as (T2 & T3 & _). assert (NZ : forall l t, ch84 l t <> 0) by (intros l t Q; apply (f_equal (fun y : F97 => zv _ y)) in Q; vm_compute in Q; discriminate).
  destruct (C87_total F97 S97' ch84 2 (fun j => z97 (Z.of_nat j)) (z97 5) (fun j => z97 (2 + Z.of_nat j)) (fun j => z97 (3 + Z.of_nat j)) 2 2 raw86 _ 2 ins87 ws87 2 (z97 9) (z97 10) (fun j => z97 (Z.of_nat j)) zr87 (er87 3) (er87 4) T2 T3 P E ltac:(discriminate) NZ ok87) as [pf H].
  exists pf. eexists. split; [exact E|]. split; [exact H|]. eapply (C87_complete F97 S97' ch84 2 _ _ _ _ 2 2 raw86 _ 2 ins87 ws87); [exact T2|exact T3|exact P|exact E|discriminate|exact H|].
  cbn [firstn combine ins87 ws87]. intros i w [Q|[Q|[]]]; injection Q as <- <-; reflexivity.
Qed.
(** The layer above is wider than the one below: the prover panics, though every layer has a power of two of gates. *)
Example ex_C87_wide : forall inputs witnesses : list (list F97), hx_prover F97 S97' ch84 hp87 witnesses inputs (built 2 2 [[(0, 0, 1); (1, 1, 2)]; [(0, 0, 1); (1, 0, 1); (0, 1, 1); (1, 1, 1)]]%nat) (z97 9) (z97 10) 2 (fun j => z97 (Z.of_nat j)) zr87 (er87 3) (er87 4) = Panic.
Proof.
  intros inputs witnesses. destruct two97 as (T2 & T3 & _). eapply (C87_panics F97 S97' ch84 2 _ _ _ _ 2 2 [[(0, 0, 1); (1, 1, 2)]; [(0, 0, 1); (1, 0, 1); (0, 1, 1); (1, 1, 1)]]%nat _ 2); [exact T2|exact T3|exists 1%nat; split; [reflexivity|]; split; [cbn; lia|]; intros j H; exact H|reflexivity|discriminate|].
  intros (_ & _ & (_ & _ & _ & [Q|Q] & _) & _); cbn in Q; lia.
Qed.
(** An honest proof that is rejected: the witness vectors are empty and the input vectors are not. *)
Example ex_C87_rejected : exists pf os, hx_prover F97 S97' ch84 hp87 [[]; []] [[z97 7]; [z97 8]] (built 1 1 [[(0, 0, 1)]]%nat) (z97 9) (z97 10) 2 (fun j => z97 (Z.of_nat j)) zr87 (er87 3) (er87 4) = Ok (pf, os) /\
  hx_verify F97 S97' ch84 hp87 pf os [[z97 7]; [z97 8]] (built 1 1 [[(0, 0, 1)]]%nat) (z97 9) (z97 10) = Panic.
Proof.
  assert (E : match hx_prover F97 S97' ch84 hp87 [[]; []] [[z97 7]; [z97 8]] (built 1 1 [[(0, 0, 1)]]%nat) (z97 9) (z97 10) 2 (fun j => z97 (Z.of_nat j)) zr87 (er87 3) (er87 4) with
    Ok (pf, os) => match hx_verify F97 S97' ch84 hp87 pf os [[z97 7]; [z97 8]] (built 1 1 [[(0, 0, 1)]]%nat) (z97 9) (z97 10) with Panic => true | _ => false end | _ => false end = true) by (vm_compute; reflexivity).
  destruct (hx_prover _ _ _ _ _ _ _ _ _ _ _ _ _ _) as [[pf os]| |]; try discriminate. exists pf, os. split; [reflexivity|]. destruct (hx_verify _ _ _ _ _ _ _ _ _ _); try discriminate. reflexivity.
Qed.
