(** In the group of the field itself, where discrete logarithms are known, every accepted run can be rewound: the hypotheses of C91 to C94 are met
    by every accepted run with challenges other than zero. *)
From Verif Require Import Field Poly Module ModTac ModelTranscript ModelSigma ModelSpartan ModelLibra ModelHyrax ModelLibraZk SpecSigma SpecRewind SpecLibraSound ProofsSigma.
From Coq Require Import String List Lia.
Import ListNotations.
Local Open Scope string_scope.
Local Open Scope list_scope.
Local Open Scope fld_scope.
Section S.
Variable K : Fld.
Add Field Kfer : (f_laws K).
Notation G := (self_grp K).
Notation orc := (oracle K G).
Notation tr := (transcript K G).
Lemma self_zeros (gs : list G) : forall n, msm gs (repeat 0 n) = g0.
Proof. induction gs as [|x gs IH]; intros [|n]; try reflexivity. cbn [repeat msm]. rewrite IH. cbn. ring. Qed.
Lemma self_solve (h : K) (a : G) : h <> 0 -> gadd g0 (gsm (a / h : K) (h : G)) = a.
Proof. intro N. cbn. field. exact N. Qed.
Lemma self_geqb (a b : G) : a = b -> geqb a b = true.
Proof. intros ->. destruct (geqb_spec K G b b) as [_|Q]; [reflexivity|destruct Q; reflexivity]. Qed.
(** The oracle [ch], but x behind transcripts of length n or more. *)
Definition late (ch : orc) (n : nat) (x : K) : orc := fun l t => if Nat.leb n (length t) then x else ch l t.
Lemma late_lt ch n x l t : (length t < n)%nat -> late ch n x l t = ch l t.
Proof. unfold late. destruct (Nat.leb_spec n (length t)); [lia|reflexivity]. Qed.
Lemma late_ge ch n x l t : (n <= length t)%nat -> late ch n x l t = x.
Proof. unfold late. destruct (Nat.leb_spec n (length t)); [reflexivity|lia]. Qed.
Lemma plus_one (x : K) : x <> x + 1.
Proof. intro E. apply (f_1_neq_0 K). transitivity (x + 1 - x); [ring|]. rewrite <- E. ring. Qed.
Lemma forks_late ch l (t : tr) : forks ch (late ch (length t) (ch l t + 1)) l t.
Proof. split; [rewrite late_ge by lia; apply plus_one|]. intros l' t' H. rewrite late_lt by exact H. reflexivity. Qed.
(** Any first message of a round is answered. *)
Lemma self_round (ch : orc) (g1 gn : mcp K G) CP CE CC d dt r size t : mc_h K G g1 <> 0 -> mc_h K G gn <> 0 ->
  exists pf t1, se_d _ _ pf = d /\ se_dot _ _ pf = dt /\ sum_check_eval_verify K G ch g1 gn CP CE CC pf r size t = Ok (true, t1).
Proof.
  intros N1 Nn. pose (c := ch "c" (se_point ch CP CE CC (mkSE K G d dt [] 0 0) t)). pose (cy := gadd (gsm (se_w0 ch t) CC) (gsm (se_w1 ch t) CE)).
  pose (co := sc_coeffs K (se_w0 ch t) (se_w1 ch t) r size).
  exists (mkSE K G d dt (repeat 0 size) (gadd (gsm c CP) d / mc_h K G gn) (gadd (gadd (gsm c cy) dt) (gopp (msm (mc_gens K G g1) [dot co (repeat 0 size)])) / mc_h K G g1)).
  eexists. split; [reflexivity|]. split; [reflexivity|]. unfold sum_check_eval_verify, draw. cbn [se_d se_dot se_z se_zdelta se_zbeta]. rewrite repeat_length, Nat.ltb_irrefl. f_equal. f_equal.
  apply andb_true_intro. split; apply self_geqb.
  - fold (se_w0 ch t) (se_w1 ch t). unfold poly_commit_vec. rewrite self_zeros. rewrite self_solve by exact Nn. reflexivity.
  - fold (se_w0 ch t) (se_w1 ch t). fold co. unfold poly_commit_vec. set (m := msm (mc_gens K G g1) [dot co (repeat 0 size)]). change (gadd (gsm c cy) dt = gadd m (gsm (gadd (gadd (gsm c cy) dt) (gopp m) / mc_h K G g1) (mc_h K G g1))).
    cbn. clearbody m. clear - N1. field. exact N1.
Qed.
Lemma self_se (ch : orc) (g1 gn : mcp K G) CP CE CC pf r size t t1 : mc_h K G g1 <> 0 -> mc_h K G gn <> 0 -> (forall l t, ch l t <> 0) ->
  sum_check_eval_verify K G ch g1 gn CP CE CC pf r size t = Ok (true, t1) -> exists R, se_rewound R ch g1 gn CP CE CC pf r size t.
Proof.
  intros N1 Nn Nc V.
  assert (TW : forall (ch : orc) pf t1, sum_check_eval_verify K G ch g1 gn CP CE CC pf r size t = Ok (true, t1) -> exists ch' pf', se_twice ch ch' g1 gn CP CE CC pf pf' r size t).
  { clear - N1 Nn. intros ch pf t1 V. set (T := se_point ch CP CE CC pf t). set (ch' := late ch (length T) (ch "c" T + 1)).
    destruct (self_round ch' g1 gn CP CE CC (se_d _ _ pf) (se_dot _ _ pf) r size t N1 Nn) as (pf' & t2 & E1 & E2 & V'). exists ch', pf'. split; [apply forks_late|].
    split; [symmetry; exact E1|]. split; [symmetry; exact E2|]. split; eauto. }
  destruct (TW ch pf t1 V) as (ch1 & pf1 & T1). set (ch2 := (fun _ t' => if Nat.eqb (length t') (length t) then 0 else 1) : orc).
  destruct (self_round ch2 g1 gn CP CE CC 0 0 r size t N1 Nn) as (pf2 & t2 & _ & _ & V2). destruct (TW ch2 pf2 t2 V2) as (ch3 & pf3 & T3).
  exists (mkSR K G ch1 pf1 ch2 pf2 ch3 pf3). split; [exact T1|]. split; [exact T3|]. cbn [sr_ch2]. unfold se_w0 at 2, se_w1 at 1, ch2. rewrite Nat.eqb_refl. cbn [length].
  destruct (Nat.eqb_spec (S (length t)) (length t)); [lia|]. intro Q. apply (Nc "combine_two_claims_to_one" t). fold (se_w0 ch t). rewrite <- Q. ring.
Qed.
(** A sum-check. *)
Lemma self_sc (ch : orc) (g1 gn : mcp K G) size : mc_h K G g1 <> 0 -> mc_h K G gn <> 0 -> (forall l t, ch l t <> 0) -> forall n polys evals proofs ccom t res,
  sc_verify K G ch g1 gn polys evals proofs ccom size n t = Ok res -> exists R, sc_rewound R ch g1 gn polys evals proofs ccom size n t.
Proof.
  intros N1 Nn Nc. assert (A : se_rewind K G) by (pose (o := (fun _ _ => 0) : orc); pose (q := mkSE K G 0 0 [] 0 0); exact (mkSR K G o q o q o q)).
  induction n as [|n IH]; intros polys evals proofs ccom t res V; [exists (fun _ => A); destruct polys; exact I|]. destruct polys as [|CP polys], evals as [|CE evals], proofs as [|pf proofs]; cbn [sc_verify] in V; try discriminate.
  unfold draw in V. cbv beta iota zeta in V. set (r := ch "challenge_nextround" _) in V. set (t1 := MG "comm_eval" CE :: _) in V.
  match type of V with rbind ?X _ = _ => destruct X as [[ok t2]| |] eqn:E; cbn [rbind] in V; try discriminate end. destruct ok; [|discriminate]. cbn [negb] in V.
  match type of V with rmap _ ?X = _ => destruct X as [res'| |] eqn:E2; cbn [rmap] in V; try discriminate end.
  assert (T2 : t2 = MCh "c" :: se_point ch CP CE ccom pf t1).
  { unfold sum_check_eval_verify, draw in E. destruct (Nat.ltb _ _); [discriminate|]. injection E as _ <-. reflexivity. }
  rewrite T2 in E2. destruct (self_se ch g1 gn CP CE ccom pf r size t1 t2 N1 Nn Nc E) as (R0 & H0). destruct (IH _ _ _ _ _ _ E2) as (R & HR).
  exists (fun j => match j with O => R0 | S j => R j end). split; [exact H0|exact HR].
Qed.
Lemma self_prod (ch : orc) (p : mcp K G) pf A B P t t1 : mc_h K G p <> 0 -> product_verify K G ch p pf A B P t = Ok (true, t1) -> exists ch' pf', prod_twice ch ch' p pf pf' A B P t.
Proof.
  intros N V. set (al := pp_alpha K G pf) in *. set (be := pp_beta K G pf) in *. set (de := pp_delta K G pf) in *.
  set (T := MG "delta" de :: MG "beta" be :: MG "alpha" al :: MG "Z" P :: MG "Y" B :: MG "X" A :: t). set (ch' := late ch (length T) (ch "c" T + 1)). set (c := ch' "c" T).
  exists ch', (mkPP K G al be de [0; gadd al (gsm c A) / mc_h K G p; 0; gadd be (gsm c B) / mc_h K G p; gadd de (gsm c P) / mc_h K G p]).
  split; [apply forks_late|]. do 3 (split; [reflexivity|]). split; [eauto|]. unfold product_verify, draw. cbn [pp_z pp_alpha pp_beta pp_delta]. fold T. fold c. eexists. f_equal. f_equal.
  unfold poly_commit_vec. rewrite (self_zeros (mc_gens K G p) 1 : msm (mc_gens K G p) [0] = g0). rewrite (self_zeros [A] 1 : msm [A] [0] = g0). rewrite !self_solve by exact N. rewrite !self_geqb by reflexivity. reflexivity.
Qed.
Lemma self_eq (ch : orc) (p : mcp K G) pf C1 C2 t t1 : mc_h K G p <> 0 -> eq_verify K G ch p C1 C2 pf t = (true, t1) -> exists ch' pf', eq_twice ch ch' p pf pf' C1 C2 t.
Proof.
  intros N V. set (al := ep_alpha K G pf) in *. set (T := MG "alpha" al :: MG "C2" C2 :: MG "C1" C1 :: t). set (ch' := late ch (length T) (ch "c" T + 1)). set (c := ch' "c" T).
  exists ch', (mkEP K G al (gadd (gsm c (gadd C1 (gopp C2))) al / mc_h K G p)). split; [apply forks_late|]. split; [reflexivity|]. split; [eauto|].
  unfold eq_verify, draw. cbn [ep_alpha ep_z]. fold T. fold c. eexists. f_equal. apply self_geqb. set (m := gadd (gsm c (gadd C1 (gopp C2))) al). rewrite <- (self_solve (mc_h K G p) m N) at 2. cbn. ring.
Qed.
(** A layer, and all layers, of libra's protocol. *)
Section Layers.
Variable ch : orc.
Variable p : hparams K G.
Variable c : circuit.
Hypothesis N1 : mc_h K G (hp_1 K G p) <> 0.
Hypothesis N3 : mc_h K G (hp_3 K G p) <> 0.
Hypothesis Nc : forall l t, ch l t <> 0.
Lemma self_layer d' pf claim al be gu gv t res : z_check_layer K G ch p c d' pf claim al be gu gv t = Ok res -> exists R, zl_rewound R ch p c d' pf claim al be gu gv t.
Proof.
  intro V. unfold z_check_layer, lget in V. destruct (nth_error (c_layers c) d') as [lo|] eqn:Elo; [|discriminate]. cbn [rbind] in V. destruct (nth_error (c_layers c) (S d')) as [hi|] eqn:Ehi; [|discriminate]. cbn [rbind] in V.
  match type of V with rbind (unwrap ?X) _ = _ => destruct X as [[[ru' c1] t1]| |] eqn:V1; cbn [unwrap rbind] in V; try discriminate end.
  match type of V with rbind (unwrap ?X) _ = _ => destruct X as [[[rv' c2] t2]| |] eqn:V2; cbn [unwrap rbind] in V; try discriminate end.
  match type of V with rbind ?X _ = _ => destruct X as [[ok t3]| |] eqn:V3; cbn [rbind] in V; try discriminate end. destruct ok; [|discriminate]. cbn [negb] in V.
  match type of V with rbind ?X _ = _ => destruct X as [[add mul]| |] eqn:V4; cbn [rbind] in V; try discriminate end.
  match type of V with (let '(_, _) := ?X in _) = _ => destruct X as [ok t4] eqn:V5 end. destruct ok; [|discriminate].
  destruct (self_sc _ _ _ _ N1 N3 Nc _ _ _ _ _ _ _ V1) as (R1 & H1). destruct (self_sc _ _ _ _ N1 N3 Nc _ _ _ _ _ _ _ V2) as (R2 & H2).
  destruct (self_prod _ _ _ _ _ _ _ _ N1 V3) as (pch & ppf & H3). destruct (self_eq _ _ _ _ _ _ _ N1 V5) as (ech & epf & H4).
  exists (mkZR K G R1 R2 pch ppf ech epf). intros lo0 hi0 ru c1' t1' rv c2' t2' t3' add' mul' E1 E2. rewrite Elo in E1. rewrite Ehi in E2. injection E1 as <-. injection E2 as <-. cbv zeta. cbn [zr_one zr_two zr_pch zr_ppf zr_ech zr_epf].
  intros W1 W2 W3 W4. rewrite V1 in W1. injection W1 as <- <- <-. rewrite V2 in W2. injection W2 as <- <- <-. rewrite V3 in W3. injection W3 as <-. rewrite V4 in W4. injection W4 as <- <-.
  split; [exact H1|]. split; [exact H2|]. split; [exact H3|exact H4].
Qed.
Lemma z_rewound_ext R R' : forall d pfs claim al be gu gv t, (forall i, (i < d)%nat -> R i = R' i) -> z_rewound R ch p c pfs d claim al be gu gv t -> z_rewound R' ch p c pfs d claim al be gu gv t.
Proof.
  induction d as [|d IH]; intros [|pf pfs] claim al be gu gv t E H; try exact I. cbn [z_rewound] in *. destruct H as [H1 H2]. split; [rewrite <- E by lia; exact H1|].
  intros ru rv t1 V. apply (IH pfs _ _ _ ru rv); [intros i Hi; apply E; lia|]. apply H2. exact V.
Qed.
Lemma self_layers : forall d pfs claim al be gu gv t res, z_check K G ch p c pfs d claim al be gu gv t = Ok res -> exists R, z_rewound R ch p c pfs d claim al be gu gv t.
Proof.
  assert (A : nat -> zl_rewind K G). { intros _. pose (o := (fun _ _ => 0) : orc). pose (q := mkSE K G 0 0 [] 0 0). exact (mkZR K G (fun _ => mkSR K G o q o q o q) (fun _ => mkSR K G o q o q o q) o (mkPP K G 0 0 0 []) o (mkEP K G 0 0)). }
  induction d as [|d IH]; intros [|pf pfs] claim al be gu gv t res V; try (exists A; exact I). cbn [z_check] in V.
  match type of V with rbind ?X _ = _ => destruct X as [[[ru rv] t1]| |] eqn:VL; cbn [rbind] in V; try discriminate end.
  destruct (self_layer _ _ _ _ _ _ _ _ _ VL) as (R0 & H0). 
  assert (Q : exists R, z_rewound R ch p c pfs d (gadd (gsm (ch "challenge_alpha" t1) (zl_x K G pf)) (gsm (ch "challenge_beta" (MCh "challenge_alpha" :: t1)) (zl_y K G pf))) (ch "challenge_alpha" t1) (ch "challenge_beta" (MCh "challenge_alpha" :: t1)) ru rv (MCh "challenge_beta" :: MCh "challenge_alpha" :: t1)).
  { destruct d as [|d]; [exists A; destruct pfs; exact I|]. cbn [draw] in V. exact (IH _ _ _ _ _ _ _ _ V). }
  destruct Q as (R & HR). exists (fun i => if Nat.eqb i d then R0 else R i). cbn [z_rewound]. rewrite Nat.eqb_refl. split; [exact H0|]. intros ru0 rv0 t0 V0. rewrite VL in V0. injection V0 as <- <- <-. cbv zeta.
  apply (z_rewound_ext R); [|exact HR]. intros i Hi. destruct (Nat.eqb_spec i d); [lia|reflexivity].
Qed.
End Layers.
End S.
