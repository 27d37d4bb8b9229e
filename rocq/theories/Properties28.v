(** Theorems C91, C92: rewinding the sum-checks over commitments of spartan and libra, and the layers of libra's zero-knowledge protocol. *)
From Verif Require Import Field Zp Poly Module ModelTranscript ModelMle SpecMle ModelLibra SpecLibra ModelSigma SpecSigma ModelSpartan ModelSnark ModelHyrax ModelLibraZk SpecHyrax2 SpecHyrax3 SpecSumcheck SpecRewind SpecLibraZk SpecLibraSound.
From Verif Require Import ProofsLibra3 ProofsLibra4 ProofsLibraZk3 ProofsRewind ProofsLibraSound ExRewind ExMarlin Properties20 Properties22 Properties23 Properties24 Properties27.
From Coq Require Import String List Lia ZArith.
Import ListNotations.
Local Open Scope string_scope.
Local Open Scope list_scope.
Local Open Scope fld_scope.

(** ** C91 *)
(** The conclusions are in Type: the openings and the relations are computed from the answers. *)
Theorem C91_round : forall (K : Fld) (G : Grp K) (ch : oracle K G) R g1 gn CP CE CC pf r size t,
  (0 < size)%nat -> length (mc_gens K G gn) = size -> se_rewound R ch g1 gn CP CE CC pf r size t ->
  relation (mc_gens _ _ gn) (mc_h _ _ gn) +
  {p : list K & {rp : K & {bc : K & {be : K | length p = size /\ opens_vec (mc_gens _ _ gn) (mc_h _ _ gn) CP p rp /\
    opens (hd g0 (mc_gens _ _ g1)) (mc_h _ _ g1) CC (peval p 0 + peval p 1) bc /\ opens (hd g0 (mc_gens _ _ g1)) (mc_h _ _ g1) CE (peval p r) be}}}}.
Proof. exact round_extract. Qed.
Print Assumptions C91_round.
Theorem C91_rounds : forall (K : Fld) (G : Grp K) (ch : oracle K G) g1 gn size, (0 < size)%nat -> length (mc_gens K G gn) = size ->
  let g := hd g0 (mc_gens K G g1) in let h := mc_h K G g1 in
  forall n R polys evals proofs ccom t rs cfin t' a ba, sc_rewound R ch g1 gn polys evals proofs ccom size n t ->
  sc_verify K G ch g1 gn polys evals proofs ccom size n t = Ok (rs, cfin, t') -> opens g h ccom a ba ->
  relation (mc_gens _ _ gn) (mc_h _ _ gn) + (relation [g] h +
  {ps : list (list K) & {bs : list K & {e : K & {be : K | polys_open gn n polys ps bs /\ length rs = n /\ opens g h cfin e be /\ Forall (fun x => x = 0) (gaps a ps rs e)}}}}).
Proof. exact sc_extract. Qed.
Print Assumptions C91_rounds.
Theorem C91_sound : forall (K : Fld) (G : Grp K) (ch : oracle K G) g1 gn size, (0 < size)%nat -> length (mc_gens K G gn) = size ->
  let g := hd g0 (mc_gens K G g1) in let h := mc_h K G g1 in
  forall n R polys evals proofs ccom t rs cfin t' a ba, sc_rewound R ch g1 gn polys evals proofs ccom size n t ->
  sc_verify K G ch g1 gn polys evals proofs ccom size n t = Ok (rs, cfin, t') -> opens g h ccom a ba ->
  relation (mc_gens _ _ gn) (mc_h _ _ gn) + (relation [g] h +
  {ps : list (list K) & {bs : list K & {e : K & {be : K | polys_open gn n polys ps bs /\ length rs = n /\ opens g h cfin e be /\
    forall d F, low_degree d n F -> (size <= d + 1)%nat -> a <> csum n F [] -> e <> F rs \/ bad_challenge d n F ps rs}}}}).
Proof. exact sc_sound. Qed.
Print Assumptions C91_sound.

(** ** C92 *)
Theorem C92_layers : forall (K : Fld) (G : Grp K) (ch : oracle K G) (p : hparams K G), length (mc_gens K G (hp_3 K G p)) = 3%nat ->
  forall ni na raw S, pow2_above (Nat.max ni na) S -> legal (2 * S) raw ->
  let c := built ni na raw in let g := hd g0 (mc_gens K G (hp_1 K G p)) in let h := mc_h K G (hp_1 K G p) in
  forall d R pfs claim al be gu gv t ru rv cx cy t' a ba, (d < length raw)%nat ->
  (forall hi, nth_error (c_layers c) (Datatypes.S d) = Some hi -> length (l_gates hi) <= 2 ^ length gu /\ length (l_gates hi) <= 2 ^ length gv)%nat ->
  z_check K G ch p c pfs (Datatypes.S d) claim al be gu gv t = Ok (ru, rv, cx, cy, t') -> z_rewound R ch p c pfs (Datatypes.S d) claim al be gu gv t -> opens g h claim a ba ->
  relation (mc_gens _ _ (hp_3 K G p)) (mc_h _ _ (hp_3 K G p)) + (relation [g] h + {es : list (ext K) & {e : ext K |
    follows ch p c pfs (Datatypes.S d) claim al be gu gv t es /\ length es = Datatypes.S d /\ nth_error es d = Some e /\ x_ru K e = ru /\ x_rv K e = rv /\
    opens g h cx (x_x K e) (x_bx K e) /\ opens g h cy (x_y K e) (x_by K e) /\
    forall inp, length inp = (2 * S)%nat -> a <> al * mle (sem inp (firstn (Datatypes.S d) raw)) gu + be * mle (sem inp (firstn (Datatypes.S d) raw)) gv ->
      unlucky c raw inp es \/ x_x K e <> mle inp ru \/ x_y K e <> mle inp rv}}).
Proof. exact check_extract. Qed.
Print Assumptions C92_layers.
Lemma ch84_nz : forall l t, ch84 l t <> 0.
Proof. intros l t Q. apply (f_equal (fun y : F97 => zv _ y)) in Q. vm_compute in Q. discriminate. Qed.
Lemma hp87_nz : mc_h F97 S97' (hp_1 F97 S97' hp87) <> (0 : F97) /\ mc_h F97 S97' (hp_3 F97 S97' hp87) <> (0 : F97).
Proof. split; intro Q; apply (f_equal (fun y : F97 => zv _ y)) in Q; vm_compute in Q; discriminate. Qed.
(** Two rounds over three generators, accepted and rewound. *)
Example ex_C91 : exists R (polys evals : list S97') proofs rs cfin t', let g1 := hp_1 F97 S97' hp87 in let g3 := hp_3 F97 S97' hp87 in
  length (mc_gens F97 S97' g3) = 3%nat /\ sc_verify F97 S97' ch84 g1 g3 polys evals proofs (z97 5) 3 2 [] = Ok (rs, cfin, t') /\ opens (hd g0 (mc_gens F97 S97' g1)) (mc_h F97 S97' g1) (z97 5) (z97 1) (z97 0) /\
  sc_rewound R ch84 g1 g3 polys evals proofs (z97 5) 3 2 [] /\ length rs = 2%nat.
Proof.
  destruct hp87_nz as [N1 N3]. cbv zeta. set (g1 := hp_1 F97 S97' hp87) in *. set (g3 := hp_3 F97 S97' hp87) in *.
  destruct (self_round F97 ch84 g1 g3 (z97 4) (z97 6) (z97 5) (z97 7) (z97 8) (z97 3) 3
    (MG "comm_eval" (z97 6 : S97') :: MG "comm_claim_per_round" (z97 5 : S97') :: MCh "challenge_nextround" :: MG "comm_poly" (z97 4 : S97') :: []) N1 N3) as (pf1 & t1 & _ & _ & V1).
  destruct (self_round F97 ch84 g1 g3 (z97 9) (z97 10) (z97 6) (z97 7) (z97 8) (z97 3) 3
    (MG "comm_eval" (z97 10 : S97') :: MG "comm_claim_per_round" (z97 6 : S97') :: MCh "challenge_nextround" :: MG "comm_poly" (z97 9 : S97') :: t1) N1 N3) as (pf2 & t2 & _ & _ & V2).
  assert (V : sc_verify F97 S97' ch84 g1 g3 [z97 4; z97 9] [z97 6; z97 10] [pf1; pf2] (z97 5) 3 2 [] = Ok ([z97 3; z97 3], z97 10, t2)).
  { change S97' with (self_grp F97) in V1, V2 |- *. cbn [sc_verify]. unfold draw at 1. cbv beta iota zeta. change (ch84 "challenge_nextround" _) with (z97 3) at 1. rewrite V1. cbn [rbind negb]. unfold draw at 1. cbv beta iota zeta.
    change (ch84 "challenge_nextround" _) with (z97 3). rewrite V2. reflexivity. }
  destruct (self_sc F97 ch84 g1 g3 3 N1 N3 ch84_nz _ _ _ _ _ _ _ V) as (R & HR).
  exists R, [z97 4; z97 9], [z97 6; z97 10], [pf1; pf2], [z97 3; z97 3], (z97 10), t2. split; [reflexivity|]. split; [exact V|]. split; [unfold opens, g1; apply zp_eq; vm_compute; reflexivity|]. split; [exact HR|reflexivity].
Qed.
(** The honest proof of C90's example, accepted and rewound; the verifier starts from the claimed outputs. *)
Example ex_C92 : exists pfs claim u gu t R ru rv cx cy t', let c := built 2 2 raw86 in let g := hd g0 (mc_gens F97 S97' (hp_1 F97 S97' hp87)) in let h := mc_h F97 S97' (hp_1 F97 S97' hp87) in
  length (mc_gens F97 S97' (hp_3 F97 S97' hp87)) = 3%nat /\ legal (2 * 2) raw86 /\ length raw86 = 2%nat /\ z_check F97 S97' ch84 hp87 c pfs 2 claim 1 0 gu gu t = Ok (ru, rv, cx, cy, t') /\
  z_rewound R ch84 hp87 c pfs 2 claim 1 0 gu gu t /\ opens g h claim (1 * u + 0 * 0) 0 /\
  (forall hi, nth_error (c_layers c) 2 = Some hi -> length (l_gates hi) <= 2 ^ length gu /\ length (l_gates hi) <= 2 ^ length gu)%nat.
Proof.
  destruct ex_C90_exact as (pf & out & top & u & gu & t1 & ru & rv & cx & cy & t2 & HP & HT & HO & HC & _). fold hp87 in HP, HC.
  destruct hp87_nz as [N1 N3]. destruct (self_layers F97 ch84 hp87 (built 2 2 raw86) N1 N3 ch84_nz _ _ _ _ _ _ _ _ _ HC) as (R & HR).
  exists (zg_proofs _ _ pf). eexists. exists u, gu, t1, R, ru, rv, cx, cy, t2. cbv zeta. split; [reflexivity|]. split; [cbn; repeat constructor; lia|]. split; [reflexivity|]. split; [exact HC|]. split; [exact HR|]. split.
  - unfold opens, poly_commit_vec. cbn [hp_pc hp87 hparams_new pc_gen_1 mc_gens hd hp_1 mc_h]. cbn [msm]. rewrite gadd_comm, gadd_0. reflexivity.
  - intros hi E. injection E as <-. split; apply Nat.le_trans with 1%nat; try (cbn; lia); clear; induction (length gu); cbn; lia.
Qed.
