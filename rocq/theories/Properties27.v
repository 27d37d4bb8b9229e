(** Theorem C90: when the prover of libra's zero-knowledge protocol succeeds, and when the verifier accepts what it returns. *)
From Verif Require Import Field Zp Poly Module ModelTranscript ModelMle SpecMle ModelLibra SpecLibra ModelSigma SpecSigma ModelSpartan ModelSnark ModelHyrax ModelLibraZk SpecLibraZk ProofsLibra3 ProofsLibraZk3 ExMarlin Properties20 Properties22 Properties23 Properties24.
From Coq Require Import String List Lia ZArith.
Import ListNotations.
Local Open Scope string_scope.
Local Open Scope list_scope.
Local Open Scope fld_scope.

(** ** C90 *)
Theorem C90_complete : forall (K : Fld) (G : Grp K) (ch : oracle K G) num r1 g r3 r4 ni na raw c S inputs w hash p_hash wr lrs e0 e1,
  (1 + 1 : K) <> 0 -> pow2_above (Nat.max ni na) S -> circuit_new ni na raw = Ok c -> raw <> [] ->
  (forall d i, length (rr_d K (lr_one K (lrs d) i)) = 3%nat /\ length (rr_d K (lr_two K (lrs d) i)) = 3%nat) ->
  forall pf out, z_prove K G ch (hparams_new K G num r1 g r3 r4) c inputs w hash p_hash wr lrs e0 e1 = Ok (pf, out) -> length inputs = length w ->
  out = sem (intended_layer S inputs w) raw /\ z_verify K G ch (hparams_new K G num r1 g r3 r4) c out inputs hash p_hash pf = Ok true.
Proof. exact libra_zk_complete. Qed.
Print Assumptions C90_complete.
Theorem C90_total : forall (K : Fld) (G : Grp K) (ch : oracle K G) num r1 g r3 r4 ni na raw c S inputs w hash p_hash wr lrs e0 e1,
  (1 + 1 : K) <> 0 -> pow2_above (Nat.max ni na) S -> circuit_new ni na raw = Ok c -> raw <> [] ->
  (forall d i, length (rr_d K (lr_one K (lrs d) i)) = 3%nat /\ length (rr_d K (lr_two K (lrs d) i)) = 3%nat) ->
  (forall l t, ch l t <> 0) -> zk_provable S raw num inputs w ->
  exists pf, z_prove K G ch (hparams_new K G num r1 g r3 r4) c inputs w hash p_hash wr lrs e0 e1 = Ok (pf, sem (actual_layer S inputs w) raw).
Proof. exact libra_zk_total. Qed.
Print Assumptions C90_total.
Theorem C90_panics : forall (K : Fld) (G : Grp K) (ch : oracle K G) num r1 g r3 r4 ni na raw c S inputs w hash p_hash wr lrs e0 e1,
  (1 + 1 : K) <> 0 -> pow2_above (Nat.max ni na) S -> circuit_new ni na raw = Ok c -> raw <> [] ->
  (forall d i, length (rr_d K (lr_one K (lrs d) i)) = 3%nat /\ length (rr_d K (lr_two K (lrs d) i)) = 3%nat) ->
  ~ zk_provable S raw num inputs w ->
  z_prove K G ch (hparams_new K G num r1 g r3 r4) c inputs w hash p_hash wr lrs e0 e1 = Panic.
Proof. exact libra_zk_panics. Qed.
Print Assumptions C90_panics.
(** [ru] and [rv] are the points of the input layer the verifier arrives at. *)
Theorem C90_padding : forall (K : Fld) (G : Grp K) (ch : oracle K G) num r1 g r3 r4 ni na raw c S inputs w hash p_hash wr lrs e0 e1,
  (1 + 1 : K) <> 0 -> pow2_above (Nat.max ni na) S -> circuit_new ni na raw = Ok c -> raw <> [] ->
  (forall d i, length (rr_d K (lr_one K (lrs d) i)) = 3%nat /\ length (rr_d K (lr_two K (lrs d) i)) = 3%nat) ->
  forall pf out, let p := hparams_new K G num r1 g r3 r4 in
  z_prove K G ch p c inputs w hash p_hash wr lrs e0 e1 = Ok (pf, out) ->
  out = sem (actual_layer S inputs w) raw /\ exists top u gu t1 ru rv cx cy t2,
    nth_error (c_layers c) (length raw) = Some top /\ eval_output K G ch out (l_bits top) (z_init K G hash p_hash inputs out (zg_witness K G pf)) = Ok (u, gu, t1) /\
    z_check K G ch p c (zg_proofs K G pf) (length raw) (poly_commit_vec K G (mc_gens K G (pc_gen_1 K G (hp_pc K G p))) [1 * u + 0 * 0] (mc_h K G (pc_gen_1 K G (hp_pc K G p))) 0) 1 0 gu gu t1 = Ok (ru, rv, cx, cy, t2) /\
    let agree := mle (actual_layer S inputs w) ru = mle (intended_layer S inputs w) ru /\ mle (actual_layer S inputs w) rv = mle (intended_layer S inputs w) rv in
    agree -> z_verify K G ch p c out inputs hash p_hash pf = Ok true.
Proof. exact libra_zk_short. Qed.
Print Assumptions C90_padding.
(** The conclusion is in Type, as in C76: where the layers differ, a relation between the generators is computed. *)
Theorem C90_padding_exact : forall (K : Fld) (G : Grp K) (ch : oracle K G) num r1 g r3 r4 ni na raw c S inputs w hash p_hash wr lrs e0 e1,
  (1 + 1 : K) <> 0 -> pow2_above (Nat.max ni na) S -> circuit_new ni na raw = Ok c -> raw <> [] ->
  (forall d i, length (rr_d K (lr_one K (lrs d) i)) = 3%nat /\ length (rr_d K (lr_two K (lrs d) i)) = 3%nat) ->
  forall pf out top u gu t1 ru rv cx cy t2, let p := hparams_new K G num r1 g r3 r4 in
  z_prove K G ch p c inputs w hash p_hash wr lrs e0 e1 = Ok (pf, out) -> nth_error (c_layers c) (length raw) = Some top ->
  eval_output K G ch out (l_bits top) (z_init K G hash p_hash inputs out (zg_witness K G pf)) = Ok (u, gu, t1) ->
  z_check K G ch p c (zg_proofs K G pf) (length raw) (poly_commit_vec K G (mc_gens K G (pc_gen_1 K G (hp_pc K G p))) [1 * u + 0 * 0] (mc_h K G (pc_gen_1 K G (hp_pc K G p))) 0) 1 0 gu gu t1 = Ok (ru, rv, cx, cy, t2) ->
  (forall l t, ch l t <> 0) -> z_verify K G ch p c out inputs hash p_hash pf = Ok true ->
  {x : K & {r : K | x <> 0 /\ opens g (mc_h K G (hp_1 K G p)) g0 x r}} +
  {mle (actual_layer S inputs w) ru = mle (intended_layer S inputs w) ru /\ mle (actual_layer S inputs w) rv = mle (intended_layer S inputs w) rv}.
Proof. exact libra_zk_relation. Qed.
Print Assumptions C90_padding_exact.
Theorem C90_input_layer_only : forall (K : Fld) (G : Grp K) (ch : oracle K G) p c outputs inputs hash p_hash pf, c_depth c = 1%nat -> z_verify K G ch p c outputs inputs hash p_hash pf = Panic.
Proof. exact z_verify_flat. Qed.
Print Assumptions C90_input_layer_only.
Definition lr90 (d : nat) : lrand F97 := let r := fun j => z97 (Z.of_nat (d + j)) in let q := fun j => mkRR F97 (r j) (r (j + 1)%nat) [r 2%nat; r 3%nat; r j] (r 4%nat) (r 5%nat) in
  mkLR F97 q (r 1%nat) q (r 2%nat) (r 3%nat) (r 4%nat) (r 5%nat) (r 6%nat) (r 7%nat) (r 8%nat) (r 9%nat).
Lemma lr90_3 : forall d i, length (rr_d F97 (lr_one F97 (lr90 d) i)) = 3%nat /\ length (rr_d F97 (lr_two F97 (lr90 d) i)) = 3%nat.
Proof. intros d i. split; reflexivity. Qed.
Lemma above22 : pow2_above (Nat.max 2 2) 2.
Proof. exists 1%nat. split; [reflexivity|]. split; [cbn; lia|]. intros j H. exact H. Qed.
(** Two layers of gates, two inputs and two witnesses: the honest proof exists and is accepted. *)
Example ex_C90 : exists pf out, z_prove F97 S97' ch84 hp87 (built 2 2 raw86) [z97 3; z97 4] [z97 7; z97 8] (z97 9) (z97 10) (fun j => z97 (Z.of_nat j)) lr90 (er87 3) (er87 4) = Ok (pf, out) /\
  z_verify F97 S97' ch84 hp87 (built 2 2 raw86) out [z97 3; z97 4] (z97 9) (z97 10) pf = Ok true.
Proof.
  destruct two97 as (T2 & _). assert (NZ : forall l t, ch84 l t <> 0) by (intros l t Q; apply (f_equal (fun y : F97 => zv _ y)) in Q; vm_compute in Q; discriminate).
  assert (P : zk_provable 2 raw86 2 [z97 3; z97 4] [z97 7; z97 8]).
  { split; [cbn; lia|]. split; [reflexivity|]. split; [split; [exists 1%nat; split; [lia|reflexivity]|exact I]|]. exists 1%nat. split; [reflexivity|cbn; lia]. }
  destruct (C90_total F97 S97' ch84 2 (fun j => z97 (Z.of_nat j)) (z97 5) (fun j => z97 (2 + Z.of_nat j)) (fun j => z97 (3 + Z.of_nat j)) 2 2 raw86 (built 2 2 raw86) 2 [z97 3; z97 4] [z97 7; z97 8] (z97 9) (z97 10) (fun j => z97 (Z.of_nat j)) lr90 (er87 3) (er87 4) T2 above22 eq_refl ltac:(discriminate) lr90_3 NZ P) as [pf H].
  exists pf. eexists. split; [exact H|]. eapply (C90_complete F97 S97' ch84 2 _ _ _ _ 2 2 raw86 _ 2); [exact T2|exact above22|reflexivity|discriminate|exact lr90_3|exact H|reflexivity].
Qed.
(** An honest proof meeting the hypotheses of C90_padding_exact. *)
Example ex_C90_exact : exists pf out top u gu t1 ru rv cx cy t2, let p := hparams_new F97 S97' 2 (fun j => z97 (Z.of_nat j)) (z97 5) (fun j => z97 (2 + Z.of_nat j)) (fun j => z97 (3 + Z.of_nat j)) in
  let c := built 2 2 raw86 in
  z_prove F97 S97' ch84 p c [z97 3; z97 4] [z97 7; z97 8] (z97 9) (z97 10) (fun j => z97 (Z.of_nat j)) lr90 (er87 3) (er87 4) = Ok (pf, out) /\ nth_error (c_layers c) (length raw86) = Some top /\
  eval_output F97 S97' ch84 out (l_bits top) (z_init F97 S97' (z97 9) (z97 10) [z97 3; z97 4] out (zg_witness F97 S97' pf)) = Ok (u, gu, t1) /\
  z_check F97 S97' ch84 p c (zg_proofs F97 S97' pf) (length raw86) (poly_commit_vec F97 S97' (mc_gens F97 S97' (pc_gen_1 F97 S97' (hp_pc F97 S97' p))) [1 * u + 0 * 0] (mc_h F97 S97' (pc_gen_1 F97 S97' (hp_pc F97 S97' p))) 0) 1 0 gu gu t1 = Ok (ru, rv, cx, cy, t2) /\
  z_verify F97 S97' ch84 p c out [z97 3; z97 4] (z97 9) (z97 10) pf = Ok true.
Proof.
  destruct two97 as (T2 & _). destruct ex_C90 as (pf & out & E & V).
  destruct (C90_padding F97 S97' ch84 2 (fun j => z97 (Z.of_nat j)) (z97 5) (fun j => z97 (2 + Z.of_nat j)) (fun j => z97 (3 + Z.of_nat j)) 2 2 raw86 (built 2 2 raw86) 2 [z97 3; z97 4] [z97 7; z97 8] (z97 9) (z97 10) (fun j => z97 (Z.of_nat j)) lr90 (er87 3) (er87 4) T2 above22 eq_refl ltac:(discriminate) lr90_3 pf out E) as (_ & top & u & gu & t1 & ru & rv & cx & cy & t2 & A & B & C & _).
  exists pf, out, top, u, gu, t1, ru, rv, cx, cy, t2. split; [exact E|]. split; [exact A|]. split; [exact B|]. split; [exact C|exact V].
Qed.
(** A layer of one gate below another: the prover panics whatever the inputs are. *)
Example ex_C90_narrow : forall inputs w : list F97, z_prove F97 S97' ch84 hp87 (built 2 2 [[(0, 0, 1)]; [(1, 0, 0)]]%nat) inputs w (z97 9) (z97 10) (fun j => z97 (Z.of_nat j)) lr90 (er87 3) (er87 4) = Panic.
Proof.
  intros inputs w. destruct two97 as (T2 & _). eapply (C90_panics F97 S97' ch84 2 _ _ _ _ 2 2 [[(0, 0, 1)]; [(1, 0, 0)]]%nat _ 2); [exact T2|exact above22|reflexivity|discriminate|exact lr90_3|].
  intros (_ & _ & ((k & K1 & Q) & _) & _). cbn [length] in Q. destruct k; [lia|]. cbn [Nat.pow] in Q. lia.
Qed.
(** One input and two witnesses: the honest proof is rejected. *)
Example ex_C90_rejected : exists pf out, z_prove F97 S97' ch84 hp87 (built 1 2 raw86) [z97 3] [z97 7; z97 8] (z97 9) (z97 10) (fun j => z97 (Z.of_nat j)) lr90 (er87 3) (er87 4) = Ok (pf, out) /\
  z_verify F97 S97' ch84 hp87 (built 1 2 raw86) out [z97 3] (z97 9) (z97 10) pf = Panic.
Proof.
  assert (E : match z_prove F97 S97' ch84 hp87 (built 1 2 raw86) [z97 3] [z97 7; z97 8] (z97 9) (z97 10) (fun j => z97 (Z.of_nat j)) lr90 (er87 3) (er87 4) with
    Ok (pf, out) => match z_verify F97 S97' ch84 hp87 (built 1 2 raw86) out [z97 3] (z97 9) (z97 10) pf with Panic => true | _ => false end | _ => false end = true) by (vm_compute; reflexivity).
  destruct (z_prove _ _ _ _ _ _ _ _ _ _ _ _ _) as [[pf out]| |]; try discriminate. exists pf, out. split; [reflexivity|]. destruct (z_verify _ _ _ _ _ _ _ _ _ _); try discriminate. reflexivity.
Qed.
(** A circuit without a layer of gates, as in C90_input_layer_only. *)
Example ex_C90_flat : exists c, circuit_new 2 2 [] = Ok c /\ c_depth c = 1%nat.
Proof. eexists. split; reflexivity. Qed.
