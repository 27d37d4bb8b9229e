(** In the group of the field itself, accepted runs of libra's zero-knowledge verifier can be rewound. *)
From Verif Require Import Field Poly Module ModTac ModelTranscript ModelMle ModelSigma ModelSpartan ModelLibra ModelHyrax ModelLibraZk SpecMle SpecSigma SpecRewind SpecBulletTree SpecLibraSound SpecLibraSound2.
From Verif Require Import ProofsMle ProofsSigma ExRewind.
From Coq Require Import String List Lia Arith.
Import ListNotations.
Local Open Scope string_scope.
Local Open Scope list_scope.
Local Open Scope fld_scope.
Section S.
Variable K : Fld.
Add Field Kfxl : (f_laws K).
Notation G := (self_grp K).
Notation orc := (oracle K G).
Notation tr := (transcript K G).
Lemma self_rows (gs : list G) (h : G) R (cw : list G) (v : list K) : h <> 0 -> length v = (length cw * R)%nat -> exists bs, rows_open gs h R cw v bs.
Proof.
  intros N L. set (f := (fun i : nat => gadd (nth i cw g0) (gopp (msm gs (firstn R (skipn (i * R) v)))) / h) : nat -> K). assert (Lf : length (map f (seq 0 (length cw))) = length cw) by (rewrite map_length, seq_length; reflexivity).
  exists (map f (seq 0 (length cw))). split; [exact L|]. split; [exact Lf|]. intros i Hi. rewrite (nth_indep (map f (seq 0 (length cw))) (0 : K) (f 0%nat)) by (apply (Nat.lt_le_trans _ _ _ Hi); apply PeanoNat.Nat.eq_le_incl; symmetry; exact Lf).
  rewrite (map_nth f), seq_nth by exact Hi. cbn [Nat.add]. unfold opens_vec, f. set (m := msm gs _). cbn. field. exact N.
Qed.
Lemma self_opened (ch : orc) (p : hparams K G) inputs cw q commit pf cy eq t t' : mc_h K G (pc_gen_1 K G (hp_pc K G p)) <> 0 -> z_opened K G ch p inputs cw q commit pf cy eq t = Ok t' ->
  (forall Cx, exists k T, bt_ok "c" (hp_pc K G p) Cx cy (eval_eq K (skipn (length (tl q) / 2) (tl q))) t k [] [] [] T) -> exists R, zo_rewound R ch p inputs cw q commit pf cy eq t.
Proof.
  intros N V Tr. destruct q as [|q0 pt]; [discriminate|]. cbn [z_opened] in V. match type of V with rbind ?X _ = _ => destruct X as [[ok t1]| |] eqn:V1; cbn [rbind] in V; try discriminate end.
  destruct ok; [|discriminate]. cbn [negb] in V. match type of V with rbind ?X _ = _ => destruct X as [ei| |] eqn:V2; cbn [rbind] in V; try discriminate end.
  match type of V with (let '(_, _) := ?X in _) = _ => destruct X as [ok t2] eqn:V3 end. destruct ok; [|discriminate]. destruct (self_eq K _ _ _ _ _ _ _ N V3) as (ech & epf & E).
  cbn [tl] in Tr. destruct (Tr (poly_commit_vec K G cw (eval_eq K (firstn (length pt / 2) pt)) (mc_h K G (pc_gen_1 K G (hp_pc K G p))) 0)) as (k & T & HT).
  exists (mkZO K G k T ech epf). intros q1 pt' t3 ei' Eq. injection Eq as <- <-. intros pc g1 half V1' V2'. unfold pc in V1'. rewrite V1' in V1. injection V1 as ->. rewrite V2' in V2. injection V2 as ->. split; [exact HT|exact E].
Qed.
Section V.
Variable ch : orc.
Variable p : hparams K G.
Variable c : circuit.
Hypothesis N0 : mc_h K G (pc_gen_1 K G (hp_pc K G p)) <> 0.
Hypothesis N1 : mc_h K G (hp_1 K G p) <> 0.
Hypothesis N3 : mc_h K G (hp_3 K G p) <> 0.
Hypothesis NZ : forall l t, ch l t <> 0.
Lemma self_verify outputs inputs hash p_hash pf : z_verify K G ch p c outputs inputs hash p_hash pf = Ok true ->
  (forall d claim gu t ru rv cx cy t', c_depth c = S d -> z_check K G ch p c (zg_proofs K G pf) d claim 1 0 gu gu t = Ok (ru, rv, cx, cy, t') ->
    forall q Cx Cy t, q = ru \/ q = rv -> exists k T, bt_ok "c" (hp_pc K G p) Cx Cy (eval_eq K (skipn (length (tl q) / 2) (tl q))) t k [] [] [] T) ->
  exists R, zv_rewound R ch p c outputs inputs hash p_hash pf.
Proof.
  intros V Tr. unfold z_verify in V. destruct (c_depth c) as [|d] eqn:Ed; [discriminate|]. destruct (lget c d) as [top| |] eqn:Et; cbn [rbind] in V; try discriminate.
  destruct (eval_output K G ch outputs (l_bits top) (z_init K G hash p_hash inputs outputs (zg_witness K G pf))) as [[[u gu] t1]| |] eqn:Eo; cbn [rbind] in V; try discriminate.
  destruct (Nat.eqb d (length (zg_proofs K G pf))); [|discriminate]. cbn [negb] in V.
  match type of V with rbind (z_check _ _ _ _ _ _ _ ?cl _ _ _ _ _) _ = _ => set (claim := cl) in * end.
  destruct (z_check K G ch p c (zg_proofs K G pf) d claim 1 0 gu gu t1) as [[[[[ru rv] cx] cy] t2]| |] eqn:Ec; cbn [rbind] in V; try discriminate.
  destruct (lget c 0) as [l0| |] eqn:E0; cbn [rbind] in V; try discriminate. destruct (z_inputs K (l_bits l0) inputs) as [inpad| |] eqn:Ei; cbn [rbind] in V; try discriminate.
  destruct (z_opened K G ch p inpad (zg_witness K G pf) ru cx (zg_prod0 K G pf) (zg_y0 K G pf) (zg_eq0 K G pf) t2) as [t3| |] eqn:V0; cbn [rbind] in V; try discriminate.
  destruct (z_opened K G ch p inpad (zg_witness K G pf) rv cy (zg_prod1 K G pf) (zg_y1 K G pf) (zg_eq1 K G pf) t3) as [t4| |] eqn:V1; cbn [rmap] in V; try discriminate. clear V.
  destruct (self_layers K ch p c N1 N3 NZ _ _ _ _ _ _ _ _ _ Ec) as (RL & HL).
  destruct (self_opened ch p inpad (zg_witness K G pf) ru cx _ _ _ _ _ N0 V0) as (R0 & H0); [intro Cx; eapply Tr; [reflexivity|exact Ec|left; reflexivity]|].
  destruct (self_opened ch p inpad (zg_witness K G pf) rv cy _ _ _ _ _ N0 V1) as (R1 & H1); [intro Cx; eapply Tr; [reflexivity|exact Ec|right; reflexivity]|].
  exists (mkZV K G RL R0 R1). intros d' top' u' gu' t1' Ed'. rewrite Ed in Ed'. injection Ed' as <-. rewrite Et. intro Q. injection Q as <-. rewrite Eo. intro Q. injection Q as <- <- <-. cbv zeta. fold claim. split; [exact HL|].
  intros ru' rv' cx' cy' t2' l0' inp'. rewrite Ec. intro Q. injection Q as <- <- <- <- <-. rewrite E0. intro Q. injection Q as <-. rewrite Ei. intro Q. injection Q as <-. split; [exact H0|]. intro t3'. rewrite V0. intro Q. injection Q as <-. exact H1.
Qed.
End V.
End S.
