(** Extraction from rewound sum-checks over commitments. *)
From Verif Require Import Field Poly Module ModTac ModelTranscript ModelSigma ModelSpartan SpecSigma SpecMle SpecHyrax2 SpecSumcheck SpecRewind ModelBulletproofs ProofsIPP ProofsBulletproofs ProofsSigma ProofsSigma2 ProofsSigma3 ProofsSumcheck.
From Coq Require Import String List Lia.
Import ListNotations.
Local Open Scope string_scope.
Local Open Scope list_scope.
Local Open Scope fld_scope.
Section S.
Variable K : Fld.
Variable G : Grp K.
Add Field Kfrw : (f_laws K).
(** The first entry where two lists of length n differ, or their equality. *)
Lemma list_diff (n : nat) : forall v w : list K, length v = n -> length w = n -> {j : nat | (j < n)%nat /\ nth j v 0 <> nth j w 0} + {v = w}.
Proof.
  induction n as [|n IH]; intros [|x v] [|y w] L L'; try discriminate; [right; reflexivity|]. injection L as L. injection L' as L'.
  destruct (feq_dec K x y) as [E|E]; [|left; exists 0%nat; split; [lia|exact E]]. destruct (IH v w L L') as [(j & Hj & N)|E2]; [left; exists (S j); split; [lia|exact N]|right; congruence].
Qed.
Lemma two_openings_vec (gs : list G) h C v w b b' : length v = length gs -> length w = length gs -> opens_vec gs h C v b -> opens_vec gs h C w b' -> relation gs h + {v = w}.
Proof.
  intros L L' O O'. destruct (list_diff (length gs) v w L L') as [(j & Hj & N)|E]; [left|right; exact E].
  set (f := fun i => nth i v 0 + (- (1)) * nth i w 0).
  exists (tab K (length gs) f), (b + (- (1)) * b'). split.
  - exists j. split; [exact Hj|]. rewrite nth_tab by exact Hj. unfold f. intro Z. apply N. transitivity (nth j v 0 + (- (1)) * nth j w 0 + nth j w 0); [ring|]. rewrite Z. ring.
  - unfold opens_vec in *. unfold f. rewrite msm_tab_add, msm_tab_mul. rewrite (msm_trunc K G gs v (length gs) (le_n _)) in O. rewrite (msm_trunc K G gs w (length gs) (le_n _)) in O'.
    transitivity (gadd C (gopp C)); [gmod; ring|]. rewrite O at 1. rewrite O'. gmod; ring.
Qed.
Lemma two_openings (g h C : G) x y b b' : opens g h C x b -> opens g h C y b' -> relation [g] h + {x = y}.
Proof.
  intros O O'. destruct (feq_dec K x y) as [E|E]; [right; exact E|left]. exists [x - y], (b - b'). split.
  - exists 0%nat. split; [cbn; lia|]. cbn [nth]. intro Z. apply E. transitivity (x - y + y); [ring|]. rewrite Z. ring.
  - unfold opens_vec, opens in *. rewrite msm1. cbn [hd]. transitivity (gadd C (gopp C)); [gmod; ring|]. rewrite O at 1. rewrite O'. gmod; ring.
Qed.
Lemma se_twice_opens (ch ch' : oracle K G) g1 gn CP CE CC pf pf' r size t : (0 < size)%nat -> length (mc_gens K G gn) = size -> se_twice ch ch' g1 gn CP CE CC pf pf' r size t ->
  {p : list K & {rp : K & {rv : K | length p = size /\ opens_vec (mc_gens _ _ gn) (mc_h _ _ gn) CP p rp /\
    opens (hd g0 (mc_gens _ _ g1)) (mc_h _ _ g1) (gadd (gsm (se_w0 ch t) CC) (gsm (se_w1 ch t) CE)) (se_w0 ch t * (peval p 0 + peval p 1) + se_w1 ch t * peval p r) rv}}}.
Proof.
  intros Hs Lg (F & Ed & Eb & V & V').
  destruct (sum_check_eval_verify K G ch g1 gn CP CE CC pf r size t) as [[ok t1]| |] eqn:E. 2,3: exfalso; destruct V; discriminate.
  destruct (sum_check_eval_verify K G ch' g1 gn CP CE CC pf' r size t) as [[ok' t1']| |] eqn:E'. 2,3: exfalso; destruct V'; discriminate.
  assert (ok = true) by (destruct V; congruence). assert (ok' = true) by (destruct V'; congruence). subst ok ok'.
  exact (sum_check_eval_sound K G ch ch' g1 gn CP CE CC pf pf' r size t t1 t1' Hs (Nat.eq_le_incl _ _ Lg) F Ed Eb E E').
Qed.
Theorem round_extract (ch : oracle K G) R g1 gn CP CE CC pf r size t : (0 < size)%nat -> length (mc_gens K G gn) = size -> se_rewound R ch g1 gn CP CE CC pf r size t ->
  relation (mc_gens _ _ gn) (mc_h _ _ gn) +
  {p : list K & {rp : K & {bc : K & {be : K | length p = size /\ opens_vec (mc_gens _ _ gn) (mc_h _ _ gn) CP p rp /\
    opens (hd g0 (mc_gens _ _ g1)) (mc_h _ _ g1) CC (peval p 0 + peval p 1) bc /\ opens (hd g0 (mc_gens _ _ g1)) (mc_h _ _ g1) CE (peval p r) be}}}}.
Proof.
  intros Hs Lg (T1 & T2 & D).
  destruct (se_twice_opens _ _ _ _ _ _ _ _ _ _ _ _ Hs Lg T1) as (p & rp & rv & Lp & Op & Ov).
  destruct (se_twice_opens _ _ _ _ _ _ _ _ _ _ _ _ Hs Lg T2) as (p' & rp' & rv' & Lp' & Op' & Ov').
  set (w0 := se_w0 ch t) in *. set (w1 := se_w1 ch t) in *. set (v0 := se_w0 (sr_ch2 K G R) t) in *. set (v1 := se_w1 (sr_ch2 K G R) t) in *. clearbody w0 w1 v0 v1.
  destruct (two_openings_vec _ _ _ _ _ _ _ (eq_trans Lp (eq_sym Lg)) (eq_trans Lp' (eq_sym Lg)) Op Op') as [Q|E]; [left; exact Q|right]. subst p'.
  set (d := w0 * v1 - v0 * w1) in *. exists p, rp, ((v1 * rv - w1 * rv') / d), ((w0 * rv' - v0 * rv) / d). split; [exact Lp|]. split; [exact Op|].
  set (g := hd g0 (mc_gens _ _ g1)) in *. set (h := mc_h _ _ g1) in *. unfold opens in *. set (s := peval p 0 + peval p 1) in *. set (e := peval p r) in *. clearbody s e. split.
  - transitivity (gsm (finv d) (gadd (gsm v1 (gadd (gsm w0 CC) (gsm w1 CE))) (gopp (gsm w1 (gadd (gsm v0 CC) (gsm v1 CE)))))); [unfold d in *; gmod; field; exact D|]. rewrite Ov, Ov'. unfold d in *. gmod; field; exact D.
  - transitivity (gsm (finv d) (gadd (gsm w0 (gadd (gsm v0 CC) (gsm v1 CE))) (gopp (gsm v0 (gadd (gsm w0 CC) (gsm w1 CE)))))); [unfold d in *; gmod; field; exact D|]. rewrite Ov, Ov'. unfold d in *. gmod; field; exact D.
Qed.
Theorem sc_extract (ch : oracle K G) g1 gn size : (0 < size)%nat -> length (mc_gens K G gn) = size ->
  let g := hd g0 (mc_gens K G g1) in let h := mc_h K G g1 in
  forall n R polys evals proofs ccom t rs cfin t' a ba, sc_rewound R ch g1 gn polys evals proofs ccom size n t ->
  sc_verify K G ch g1 gn polys evals proofs ccom size n t = Ok (rs, cfin, t') -> opens g h ccom a ba ->
  relation (mc_gens _ _ gn) (mc_h _ _ gn) + (relation [g] h +
  {ps : list (list K) & {bs : list K & {e : K & {be : K | polys_open gn n polys ps bs /\ length rs = n /\ opens g h cfin e be /\ Forall (fun x => x = 0) (gaps a ps rs e)}}}}).
Proof.
  intros Hs Lg g h. induction n as [|n IH]; intros R polys evals proofs ccom t rs cfin t' a ba HR V Oa.
  - assert (V0 : @Ok (list K * G * transcript K G) ([], ccom, t) = Ok (rs, cfin, t')) by (destruct polys; exact V). injection V0 as <- <- _. right. right. exists [], [], a, ba. split; [split; [reflexivity|]; split; [constructor|]; intros j Hj; inversion Hj|]. split; [reflexivity|]. split; [exact Oa|]. constructor; [ring|constructor].
  - destruct polys as [|CP polys]; [discriminate|]. cbn [sc_verify] in V. destruct evals as [|CE evals]; [discriminate|]. destruct proofs as [|pf proofs]; [discriminate|]. cbn [sc_rewound] in HR. destruct HR as [HR HRs].
    unfold draw in V. set (r := ch "challenge_nextround" (MG "comm_poly" CP :: t)) in *. set (t1 := MG "comm_eval" CE :: _) in *.
    destruct (sum_check_eval_verify K G ch g1 gn CP CE ccom pf r size t1) as [[ok t2]| |] eqn:E; cbn [rbind] in V; try discriminate. destruct ok; [|discriminate]. cbn [negb] in V.
    assert (Et : t2 = MCh "c" :: se_point ch CP CE ccom pf t1). { unfold sum_check_eval_verify, draw in E. destruct (Nat.ltb _ _); [discriminate|]. injection E as _ <-. reflexivity. }
    rewrite <- Et in HRs.
    destruct (sc_verify K G ch g1 gn polys evals proofs CE size n t2) as [[[rs' c'] t3]| |] eqn:E3; cbn [rmap] in V; try discriminate. injection V as <- <- <-.
    destruct (round_extract _ _ _ _ _ _ _ _ _ _ _ Hs Lg HR) as [Q|(p & rp & bc & be & Lp & Op & Oc & Oe)]; [left; exact Q|].
    destruct (two_openings _ _ _ _ _ _ _ Oa Oc) as [Q|Ea]; [right; left; exact Q|].
    destruct (IH _ _ _ _ _ _ _ _ _ _ _ HRs E3 Oe) as [Q|[Q|(ps & bs & e & be' & (Lps & W & OP) & Lr & Of & Z)]]; [left; exact Q|right; left; exact Q|].
    right. right. exists (p :: ps), (rp :: bs), e, be'. split; [split; [cbn [length]; congruence|]; split; [constructor; [congruence|exact W]|]|].
    + intros [|j] Hj; [exists CP; split; [reflexivity|exact Op]|]. apply (OP j). lia.
    + split; [cbn [length]; congruence|]. split; [exact Of|]. cbn [gaps]. constructor; [rewrite Ea; ring|exact Z].
Qed.
(** A false claim needs a bad challenge. *)
Theorem sc_sound (ch : oracle K G) g1 gn size : (0 < size)%nat -> length (mc_gens K G gn) = size ->
  let g := hd g0 (mc_gens K G g1) in let h := mc_h K G g1 in
  forall n R polys evals proofs ccom t rs cfin t' a ba, sc_rewound R ch g1 gn polys evals proofs ccom size n t ->
  sc_verify K G ch g1 gn polys evals proofs ccom size n t = Ok (rs, cfin, t') -> opens g h ccom a ba ->
  relation (mc_gens _ _ gn) (mc_h _ _ gn) + (relation [g] h +
  {ps : list (list K) & {bs : list K & {e : K & {be : K | polys_open gn n polys ps bs /\ length rs = n /\ opens g h cfin e be /\
    forall d F, low_degree d n F -> (size <= d + 1)%nat -> a <> csum n F [] -> e <> F rs \/ bad_challenge d n F ps rs}}}}).
Proof.
  intros Hs Lg g h n R polys evals proofs ccom t rs cfin t' a ba HR V Oa. destruct (sc_extract ch g1 gn size Hs Lg n R polys evals proofs ccom t rs cfin t' a ba HR V Oa) as [Q|[Q|(ps & bs & e & be & P & Lr & Oe & Z)]]; [left; exact Q|right; left; exact Q|].
  right. right. exists ps, bs, e, be. split; [exact P|]. split; [exact Lr|]. split; [exact Oe|]. intros d F HF Hd Na. destruct (feq_dec K e (F rs)) as [E|E]; [right|left; exact E].
  destruct P as (Lp & W & _). rewrite <- Lr. apply (gaps_sound K d F ps rs a); [rewrite Lr; exact HF|congruence| |rewrite <- E; exact Z|rewrite Lr; exact Na]. revert W. apply Forall_impl. intros q ->. lia.
Qed.
End S.
