(** Theorem C86: hyrax accepts forged proofs. *)
From Verif Require Import Field Zp Poly Module ModelTranscript ModelMle SpecMle ModelLibra SpecLibra ModelSigma ModelSpartan ModelSnark ModelHyrax ProofsLibra3 AttackHyrax ExMarlin Properties20 Properties22.
From Coq Require Import String List Lia ZArith.
Import ListNotations.
Local Open Scope string_scope.
Local Open Scope list_scope.
Local Open Scope fld_scope.

(** ** C86 *)
Theorem C86_forgery : forall (K : Fld) (G : Grp K) (ch : oracle K G), (forall t, ch "challenge_nextround" t <> 0) ->
  forall num r1 g r3 r4 w ni na raw c k outputs inputs ch_hash p_hash, circuit_new ni na raw = Ok c -> raw <> [] -> (1 <= k)%nat -> length outputs = (2 ^ k)%nat -> length inputs = (2 ^ k)%nat ->
  Forall (fun o => length o = length (last raw [])) outputs -> Forall (fun i => length i <= ni)%nat inputs ->
  exists pf, forge K G ch (hparams_new K G num r1 g r3 r4) w outputs inputs c ch_hash p_hash = Ok pf /\ hx_verify K G ch (hparams_new K G num r1 g r3 r4) pf outputs inputs c ch_hash p_hash = Ok true.
Proof. exact hyrax_forgery. Qed.
Print Assumptions C86_forgery.
Theorem C86_false_statement : forall (K : Fld) (G : Grp K) (ch : oracle K G) num r1 g r3 r4 w ch_hash p_hash, (forall t, ch "challenge_nextround" t <> 0) ->
  exists c, circuit_new 1 1 [[(0, 1, 1)]]%nat = Ok c /\ (forall aux ev, evaluate K c [1] aux = Ok ev -> last ev [] <> [1]) /\
  exists pf, forge K G ch (hparams_new K G num r1 g r3 r4) w [[1]; [1]] [[1]; [1]] c ch_hash p_hash = Ok pf /\ hx_verify K G ch (hparams_new K G num r1 g r3 r4) pf [[1]; [1]] [[1]; [1]] c ch_hash p_hash = Ok true.
Proof. exact hyrax_false. Qed.
Print Assumptions C86_false_statement.
Theorem C86_never_false : forall (K : Fld) (G : Grp K) (ch : oracle K G) p pf outputs inputs c ch_hash p_hash b, hx_verify K G ch p pf outputs inputs c ch_hash p_hash = Ok b -> b = true.
Proof. exact verify_true. Qed.
Print Assumptions C86_never_false.
(** Two layers and four instances; the claimed outputs are arbitrary, and no witness is given. *)
Definition raw86 : list (list (nat * nat * nat)) := [[(0, 0, 1); (1, 1, 2)]; [(1, 0, 1)]]%nat.
Example ex_C86 : exists pf, hx_verify F97 S97' ch84 (hparams_new F97 S97' 4 (fun j => z97 (Z.of_nat j)) (z97 5) (fun j => z97 (2 + Z.of_nat j)) (fun j => z97 (3 + Z.of_nat j))) pf
  [[z97 1]; [z97 2]; [z97 3]; [z97 4]] [[z97 5; z97 6]; [z97 7]; []; [z97 8]] (built 2 1 raw86) (z97 9) (z97 10) = Ok true.
Proof.
  destruct (C86_forgery F97 S97' ch84 (fun t Q => ltac:(apply (f_equal (fun y : F97 => zv _ y)) in Q; vm_compute in Q; discriminate)) 4 (fun j => z97 (Z.of_nat j)) (z97 5) (fun j => z97 (2 + Z.of_nat j)) (fun j => z97 (3 + Z.of_nat j)) 3 2 1 raw86 (built 2 1 raw86) 2
    [[z97 1]; [z97 2]; [z97 3]; [z97 4]] [[z97 5; z97 6]; [z97 7]; []; [z97 8]] (z97 9) (z97 10)) as (pf & _ & V); [reflexivity|discriminate|lia|reflexivity|reflexivity|repeat constructor|repeat constructor|exists pf; exact V].
Qed.
Example ex_C86_panic : hx_verify F97 S97' ch84 (hparams_new F97 S97' 4 (fun j => z97 1) (z97 5) (fun j => z97 2) (fun j => z97 3)) (mkHx F97 S97' [] [] (zero_dot F97 S97') (z97 0) (zero_eq F97 S97') (zero_dot F97 S97') (z97 0) (zero_eq F97 S97'))
  [[z97 1]] [[z97 5]] (built 1 1 twice) (z97 9) (z97 10) = Panic.
Proof. vm_compute. reflexivity. Qed.
