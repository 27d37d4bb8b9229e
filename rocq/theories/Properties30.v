(** Theorem C94: libra's zero-knowledge verifier against arbitrary provers. *)
From Verif Require Import Field Zp Poly Module ModelTranscript ModelMle SpecMle ModelLibra SpecLibra ModelSigma SpecSigma ModelSpartan ModelHyrax ModelLibraZk SpecHyrax3 SpecSumcheck SpecRewind SpecBulletTree SpecLibraZk SpecLibraSound SpecLibraSound2.
From Verif Require Import ProofsLibra3 ProofsLibraSound2 ExRewind ExLibraSound ExMarlin Properties20 Properties22 Properties23 Properties24 Properties27 Properties28 Properties29.
From Coq Require Import String List Lia ZArith.
Import ListNotations.
Local Open Scope string_scope.
Local Open Scope list_scope.
Local Open Scope fld_scope.

(** ** C94 *)
(** The relations and the openings are computed from the runs. *)
Theorem C94_sound : forall (K : Fld) (G : Grp K) (ch : oracle K G) num (r1 r3 r4 : nat -> G) (g : G), let p := hparams_new K G num r1 g r3 r4 in
  let gs := mc_gens K G (pc_gen_n K G (hp_pc K G p)) in let h := mc_h K G (hp_1 K G p) in
  forall ni na raw k, pow2_above (Nat.max ni na) (2 ^ k) -> legal (2 * 2 ^ k) raw -> (k <= num)%nat -> let c := built ni na raw in
  forall outputs inputs hash p_hash pf R v bs, z_verify K G ch p c outputs inputs hash p_hash pf = Ok true -> zv_rewound R ch p c outputs inputs hash p_hash pf ->
  rows_open gs h (2 ^ (k - k / 2)) (zg_witness K G pf) v bs ->
  relation (mc_gens K G (hp_3 K G p)) (mc_h K G (hp_3 K G p)) + (relation (g :: gs) h +
  {es : list (ext K) & {gu : list K | exists top u t1, lget c (length raw) = Ok top /\
    eval_output K G ch outputs (l_bits top) (z_init K G hash p_hash inputs outputs (zg_witness K G pf)) = Ok (u, gu, t1) /\ length gu = l_bits top /\
    follows ch p c (zg_proofs K G pf) (length raw) (poly_commit_vec K G (mc_gens K G (hp_1 K G p)) [1 * u + 0 * 0] h 0) 1 0 gu gu t1 es /\
    let inp := intended_layer (2 ^ k) inputs (firstn (2 ^ k) v) in
    (mle outputs gu = mle (sem inp raw) gu \/ unlucky c raw inp es)}}).
Proof. exact verify_sound. Qed.
Print Assumptions C94_sound.
Lemma drawn84 (q : list F97) : drawn F97 S97' ch84 q -> length q = 2%nat -> q = [z97 3; z97 3].
Proof.
  intros D L. destruct q as [|a [|b [|d q]]]; try discriminate. unfold drawn in D. inversion D as [|? ? (l & t & ->) D2]; subst. inversion D2 as [|? ? (l' & t' & ->) D3]; subst. reflexivity.
Qed.
(** The honest proof of C90's example is accepted and rewound, and its row commitments open. *)
Example ex_C94 : exists pf out R v bs, z_verify F97 S97' ch84 hp87 (built 2 2 raw86) out [z97 3; z97 4] (z97 9) (z97 10) pf = Ok true /\
  zv_rewound R ch84 hp87 (built 2 2 raw86) out [z97 3; z97 4] (z97 9) (z97 10) pf /\ pow2_above 2 (2 ^ 1) /\ legal (2 * 2 ^ 1) raw86 /\
  rows_open (mc_gens F97 S97' (pc_gen_n F97 S97' (hp_pc F97 S97' hp87))) (mc_h F97 S97' (hp_1 F97 S97' hp87)) (2 ^ (1 - 1 / 2)) (zg_witness F97 S97' pf) v bs.
Proof.
  destruct ex_C90 as (pf & out & _ & V). destruct hp87_nz as [N1 N3].
  destruct (self_verify F97 ch84 hp87 (built 2 2 raw86) N1 N1 N3 ch84_nz out [z97 3; z97 4] (z97 9) (z97 10) pf V) as (R & HR).
  { intros d claim gu t ru rv cx cy t' Ed Ec q Cx Cy t0 Hq. injection Ed as <-. change (length raw86) with 2%nat in Ec.
    destruct (check_points F97 S97' ch84 hp87 (built 2 2 raw86) (input_new 2 2) eq_refl _ _ _ _ _ _ _ _ _ _ _ _ _ Ec) as [[L1 D1] [L2 D2]].
    assert (E : q = [z97 3; z97 3]) by (destruct Hq as [->| ->]; apply drawn84; assumption). subst q. exists 1%nat. exact (tree93 "c" Cx Cy t0). }
  destruct (self_rows F97 (mc_gens F97 S97' (pc_gen_n F97 S97' (hp_pc F97 S97' hp87))) (mc_h F97 S97' (hp_1 F97 S97' hp87)) 2 (zg_witness F97 S97' pf) (repeat (z97 7) (length (zg_witness F97 S97' pf) * 2)) N1) as (bs & HB); [apply repeat_length|].
  exists pf, out, R. eexists. exists bs. split; [exact V|]. split; [exact HR|]. split; [exact above22|]. split; [cbn; repeat constructor; lia|]. exact HB.
Qed.
