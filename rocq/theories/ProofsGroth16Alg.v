(** Soundness of Groth16 against provers that compute by the group operations alone. *)
From Coq Require Import List Lia.
From Verif Require Import Field Poly Module ModTac ModelLC SpecLC ModelCS SpecCS ModelGroth16 SpecGroth16 SpecGroth16Alg ProofsGroth16.
Import ListNotations.
Local Open Scope list_scope.
Local Open Scope fld_scope.
Section S.
Variable K : Fld.
Add Field Kfga : (f_laws K).
Lemma quad_zero (xs : list K) c0 c1 c2 : NoDup xs -> (3 <= length xs)%nat -> (forall x, In x xs -> c0 + c1 * x + c2 * (x * x) = 0) -> c0 = 0 /\ c1 = 0 /\ c2 = 0.
Proof.
  intros N L H. assert (Z : is_zero [c0; c1; c2]) by (apply (roots_zero K xs N); [exact L|]; intros x Hx; etransitivity; [|exact (H x Hx)]; cbn [peval]; ring).
  pose proof (proj1 (zero_nth K _) Z) as Q. repeat split; [exact (Q 0%nat)|exact (Q 1%nat)|exact (Q 2%nat)].
Qed.
Lemma cubic_zero (xs : list K) c0 c1 c2 c3 : NoDup xs -> (4 <= length xs)%nat -> (forall x, In x xs -> c0 + c1 * x + c2 * (x * x) + c3 * (x * x * x) = 0) -> c0 = 0 /\ c1 = 0.
Proof.
  intros N L H. assert (Z : is_zero [c0; c1; c2; c3]) by (apply (roots_zero K xs N); [exact L|]; intros x Hx; etransitivity; [|exact (H x Hx)]; cbn [peval]; ring).
  pose proof (proj1 (zero_nth K _) Z) as Q. repeat split; [exact (Q 0%nat)|exact (Q 1%nat)].
Qed.
Lemma grid_some (xs : list K) n : (S n <= length xs)%nat -> exists x, In x xs.
Proof. destruct xs as [|x xs]; [cbn; lia|]. exists x. left. reflexivity. Qed.
Lemma mul_0 (x y : K) : x * y = 0 -> x <> 0 -> y = 0.
Proof. intros H N. destruct (f_integral K x y H) as [E|E]; [contradiction|exact E]. Qed.
(** The verification equation at one point t, as a polynomial in the other four trapdoor elements. *)
Lemma core n als bes gas des (ts : list K) (aa ab ad a0 pg qg rg pa qa ra bb bg bd b0 pi qi ri ca cb cd c0 pg' qg' rg' pc qc rc : K) : grid n als bes gas des ts ->
  (forall al be ga de, In al als -> In be bes -> In ga gas -> In de des ->
    (aa * al + ab * be + ad * de + a0 + (be * pg + al * qg + rg) / ga + (be * pa + al * qa + ra) / de) * (bb * be + bg * ga + bd * de + b0) =
    al * be + (be * pi + al * qi + ri) + de * (ca * al + cb * be + cd * de + c0 + (be * pg' + al * qg' + rg') / ga + (be * pc + al * qc + rc) / de)) ->
  (pi + pc) * (qi + qc) = ri + rc.
Proof.
  intros [[Na La] [Nb Lb] (Ng & Lg & Zg) (Nd & Ld & Zd) _] H.
  assert (N0 : forall x (l : list K), In x l -> ~ In 0 l -> x <> 0) by (intros x l I1 I2 E; subst; contradiction).
  (* powers of delta *)
  assert (H1 : forall al be ga, In al als -> In be bes -> In ga gas ->
    (be * pa + al * qa + ra) * (bb * be + bg * ga + b0) = 0 /\
    (aa * al + ab * be + a0 + (be * pg + al * qg + rg) / ga) * (bb * be + bg * ga + b0) + (be * pa + al * qa + ra) * bd - (al * be + (be * pi + al * qi + ri) + (be * pc + al * qc + rc)) = 0).
  { intros al be ga Ha Hb Hg. assert (Zga := N0 _ _ Hg Zg).
    set (P := aa * al + ab * be + a0 + (be * pg + al * qg + rg) / ga). set (R := be * pa + al * qa + ra). set (U := bb * be + bg * ga + b0). set (R' := be * pc + al * qc + rc). set (I := be * pi + al * qi + ri).
    set (P' := ca * al + cb * be + c0 + (be * pg' + al * qg' + rg') / ga).
    apply (cubic_zero des (R * U) (P * U + R * bd - (al * be + I + R')) (P * bd + ad * U - P') (ad * bd - cd) Nd Ld). intros de Hd. assert (Zde := N0 _ _ Hd Zd). specialize (H al be ga de Ha Hb Hg Hd).
    fold R R' I in H. assert (Q : (P + ad * de + R / de) * (U + bd * de) - (al * be + I + de * (P' + cd * de + R' / de)) = 0).
    { unfold P, U, P'. match type of H with ?l = ?r => transitivity (l - r); [ring|rewrite H; ring] end. }
    transitivity (de * ((P + ad * de + R / de) * (U + bd * de) - (al * be + I + de * (P' + cd * de + R' / de)))); [field; exact Zde|rewrite Q; ring]. }
  (* powers of gamma *)
  assert (H2 : forall al be, In al als -> In be bes ->
    (be * pa + al * qa + ra) * (bb * be + b0) = 0 /\ (be * pg + al * qg + rg) * (bb * be + b0) = 0 /\ (aa * al + ab * be + a0) * bg = 0 /\
    (aa * al + ab * be + a0) * (bb * be + b0) + (be * pg + al * qg + rg) * bg + (be * pa + al * qa + ra) * bd - (al * be + (be * pi + al * qi + ri) + (be * pc + al * qc + rc)) = 0).
  { intros al be Ha Hb. set (P := aa * al + ab * be + a0) in *. set (M := be * pg + al * qg + rg) in *. set (R := be * pa + al * qa + ra) in *. set (U := bb * be + b0). set (R' := be * pc + al * qc + rc) in *. set (I := be * pi + al * qi + ri) in *.
    assert (Q1 : R * U = 0).
    { apply (quad_zero gas (R * U) (R * bg) 0 Ng Lg). intros ga Hg. destruct (H1 al be ga Ha Hb Hg) as [E _]. fold R in E. etransitivity; [|exact E]; unfold U; ring. }
    destruct (quad_zero gas (M * U) (P * U + M * bg + R * bd - (al * be + I + R')) (P * bg) Ng Lg) as (Q2 & Q3 & Q4); [|auto].
    intros ga Hg. destruct (H1 al be ga Ha Hb Hg) as [_ E]. fold R I R' M P in E. assert (Zga := N0 _ _ Hg Zg).
    transitivity (ga * ((P + M / ga) * (bb * be + bg * ga + b0) + R * bd - (al * be + I + R'))); [unfold U; field; exact Zga|]. rewrite E. ring. }
  (* powers of beta *)
  assert (H3 : forall al, In al als -> pa * bb = 0 /\ pa * b0 + (al * qa + ra) * bb = 0 /\ ab * bb = 0 /\
    (aa * al + a0) * bb + ab * b0 + pg * bg + pa * bd - (al + pi + pc) = 0 /\ (aa * al + a0) * b0 + (al * qg + rg) * bg + (al * qa + ra) * bd - (al * qi + ri + (al * qc + rc)) = 0 /\ (aa * al + a0) * bg = 0).
  { intros al Ha.
    destruct (quad_zero bes ((al * qa + ra) * b0) (pa * b0 + (al * qa + ra) * bb) (pa * bb) Nb Lb) as (_ & Q1 & Q2). { intros be Hb. destruct (H2 al be Ha Hb) as (E & _). etransitivity; [|exact E]; ring. }
    destruct (quad_zero bes ((aa * al + a0) * bg) (ab * bg) 0 Nb Lb) as (Q3 & _ & _). { intros be Hb. destruct (H2 al be Ha Hb) as (_ & _ & E & _). etransitivity; [|exact E]; ring. }
    destruct (quad_zero bes ((aa * al + a0) * b0 + (al * qg + rg) * bg + (al * qa + ra) * bd - (al * qi + ri + (al * qc + rc))) ((aa * al + a0) * bb + ab * b0 + pg * bg + pa * bd - (al + pi + pc)) (ab * bb) Nb Lb) as (Q4 & Q5 & Q6).
    { intros be Hb. destruct (H2 al be Ha Hb) as (_ & _ & _ & E). etransitivity; [|exact E]; ring. }
    auto 10. }
  (* powers of alpha *)
  destruct (grid_some als 2 La) as (al0 & Ha0). destruct (H3 al0 Ha0) as (Pa & _ & Pb & _).
  destruct (quad_zero als (pa * b0 + ra * bb) (qa * bb) 0 Na La) as (Q1 & Q2 & _). { intros al Ha. destruct (H3 al Ha) as (_ & E & _). etransitivity; [|exact E]; ring. }
  destruct (quad_zero als (a0 * bb + ab * b0 + pg * bg + pa * bd - (pi + pc)) (aa * bb - 1) 0 Na La) as (Q3 & Q4 & _). { intros al Ha. destruct (H3 al Ha) as (_ & _ & _ & E & _). etransitivity; [|exact E]; ring. }
  destruct (quad_zero als (a0 * b0 + rg * bg + ra * bd - (ri + rc)) (aa * b0 + qg * bg + qa * bd - (qi + qc)) 0 Na La) as (Q5 & Q6 & _). { intros al Ha. destruct (H3 al Ha) as (_ & _ & _ & _ & E & _). etransitivity; [|exact E]; ring. }
  destruct (quad_zero als (a0 * bg) (aa * bg) 0 Na La) as (_ & Q7 & _). { intros al Ha. destruct (H3 al Ha) as (_ & _ & _ & _ & _ & E). etransitivity; [|exact E]; ring. }
  assert (E1 : aa * bb = 1) by (transitivity (aa * bb - 1 + 1); [ring|rewrite Q4; ring]).
  assert (Naa : aa <> 0) by (intro Z; rewrite Z in E1; apply (f_1_neq_0 K); rewrite <- E1; ring). assert (Nbb : bb <> 0) by (intro Z; rewrite Z in E1; apply (f_1_neq_0 K); rewrite <- E1; ring).
  assert (Zbg : bg = 0) by (apply (mul_0 aa); assumption). assert (Zpa : pa = 0) by (apply (mul_0 bb); [etransitivity; [|exact Pa]; ring|exact Nbb]). assert (Zab : ab = 0) by (apply (mul_0 bb); [etransitivity; [|exact Pb]; ring|exact Nbb]).
  assert (Zqa : qa = 0) by (apply (mul_0 bb); [etransitivity; [|exact Q2]; ring|exact Nbb]). assert (Zra : ra = 0) by (apply (mul_0 bb); [rewrite Zpa in Q1; etransitivity; [|exact Q1]; ring|exact Nbb]).
  rewrite Zbg, Zpa, Zab, Zqa, Zra in *.
  assert (X1 : pi + pc = a0 * bb) by (transitivity (a0 * bb - (a0 * bb + 0 * b0 + pg * 0 + 0 * bd - (pi + pc))); [ring|rewrite Q3; ring]).
  assert (X2 : qi + qc = aa * b0) by (transitivity (aa * b0 - (aa * b0 + qg * 0 + 0 * bd - (qi + qc))); [ring|rewrite Q6; ring]).
  assert (X3 : ri + rc = a0 * b0) by (transitivity (a0 * b0 - (a0 * b0 + rg * 0 + 0 * bd - (ri + rc))); [ring|rewrite Q5; ring]).
  rewrite X1, X2, X3. transitivity ((aa * bb) * (a0 * b0)); [ring|rewrite E1; ring].
Qed.
(** ** Discrete logarithms *)
Variable PR : Pairing K.
Variable dnew : nat -> option (dom K).
Hypothesis DF : dom_family dnew.
Variable circuit : M K unit.
Variables s1 s : cs K.
Hypothesis Run : circuit (cs_new Setup) = Ok (tt, s1).
Hypothesis Shape : same_shape s1 s.
Hypothesis W : wf s.
Variable d : dom K.
Hypothesis Ed : dnew (length (cons s) + length (inps s)) = Some d.
Variable g1 : G1 PR.
Variable g2 : G2 PR.
Notation ni := (length (inps s)).
Notation na := (length (auxs s)).
Notation m := (dsize d).
Definition logs1 (a b c : list K) (al be ga de t : K) (A : comb1 K) : K :=
  c_one K A + c_alpha K A * al + c_beta K A * be + c_delta K A * de + dot a (c_a K A) + dot b (c_b K A) +
  (be * dot (firstn ni a) (c_abc K A) + al * dot (firstn ni b) (c_abc K A) + dot (firstn ni c) (c_abc K A)) / ga +
  (t ^ m - 1) * peval (firstn (m - 1) (c_h K A)) t / de +
  (be * dot (skipn ni a) (c_l K A) + al * dot (skipn ni b) (c_l K A) + dot (skipn ni c) (c_l K A)) / de.
Definition logs2 (b : list K) (be ga de : K) (B : comb2 K) : K := d_one K B + d_beta K B * be + d_gamma K B * ga + d_delta K B * de + dot b (d_b K B).
Lemma dot_pow (k t : K) n : forall h i, dot (map (fun i => k * t ^ i) (seq i n)) h = k * t ^ i * peval (firstn n h) t.
Proof.
  induction n as [|n IH]; intros [|x h] i; cbn [seq map dot firstn peval]; try ring. rewrite IH. cbn [fpow]. ring.
Qed.
Lemma combine_skipn {A B} n : forall (a : list A) (b : list B), skipn n (combine a b) = combine (skipn n a) (skipn n b).
Proof. induction n as [|n IH]; intros [|x a] [|y b]; cbn [skipn combine]; try reflexivity; [destruct (skipn n a); reflexivity|apply IH]. Qed.
Notation wq be al a b c := (map (fun '((x, y), z) => be * x + al * y + z) (combine (combine a b) c)).
Lemma w_parts n be al (a b c k : list K) : length b = length a -> length c = length a ->
  dot (firstn n (wq be al a b c)) k = be * dot (firstn n a) k + al * dot (firstn n b) k + dot (firstn n c) k /\
  dot (skipn n (wq be al a b c)) k = be * dot (skipn n a) k + al * dot (skipn n b) k + dot (skipn n c) k.
Proof.
  intros Lb Lc. split.
  - rewrite firstn_map, !combine_firstn. apply dot_w; rewrite !firstn_length; congruence.
  - rewrite skipn_map, !combine_skipn. apply dot_w; rewrite !skipn_length; congruence.
Qed.
(** The key for a trapdoor: every combination of its elements is a multiple of the generator, and acceptance is an equation. *)
Lemma key_logs al be ga de t : ga <> 0 -> de <> 0 -> exists p a b c, generate_parameters K PR dnew circuit al be ga de t g1 g2 = Ok p /\ instance_map K dnew s t = Ok (a, b, c, t ^ m - 1, m) /\
  length a = (ni + na)%nat /\ length b = (ni + na)%nat /\ length c = (ni + na)%nat /\
  (forall x, dot a (full_vector x s) = peval (idft d (avx K x s)) t /\ dot b (full_vector x s) = peval (idft d (bvx K x s)) t /\ dot c (full_vector x s) = peval (idft d (cvx K x s)) t) /\
  (forall A, in1 p g1 A = gsm (logs1 a b c al be ga de t A) g1) /\ (forall B, in2 p g2 B = gsm (logs2 b be ga de B) g2) /\
  forall X Y Z xs, verify_proof K PR (prepare K PR (pvk K PR p)) (mkPrf K PR (gsm X g1) (gsm Y g2) (gsm Z g1)) xs = Ok true <->
    (length xs + 1 = ni)%nat /\ gsm (X * Y) (pair_e g1 g2) = gsm (al * be + (be * dot (firstn ni a) (1 :: xs) + al * dot (firstn ni b) (1 :: xs) + dot (firstn ni c) (1 :: xs)) + de * Z) (pair_e g1 g2).
Proof.
  intros Hg Hde. destruct (instance_ok K dnew DF s d t W Ed) as (a & b & c & Ei & La & Lb & Lc & Dx). pose proof (inps_pos K s W) as Hi. pose proof Shape as (S1 & S2 & S3).
  unfold generate_parameters. rewrite Run. cbn [rbind]. unfold num_inputs, num_constraints. rewrite S1, S2. replace (length (cons s) + (ni - 1) + 1)%nat with (length (cons s) + ni)%nat by lia.
  rewrite Ed, (shape_instance K dnew s1 s t Shape), Ei. cbn [rbind]. destruct (feqb_spec K ga 0) as [E|_]; [contradiction|]. destruct (feqb_spec K de 0) as [E|_]; [contradiction|].
  set (w := wq be al a b c). assert (Lw : length w = (ni + na)%nat) by (unfold w; rewrite map_length, !combine_length, La, Lb, Lc; lia).
  assert (map (fun '((x, y), z) => (be * x + al * y + z) * finv ga) (firstn ni (combine (combine a b) c)) = map (fun x : K => x * finv ga) (firstn ni w)) as ->.
  { unfold w. rewrite firstn_map, map_map. apply map_ext. intros [[? ?] ?]. reflexivity. }
  assert (map (fun '((x, y), z) => (be * x + al * y + z) * finv de) (combine (combine a b) c) = map (fun x : K => x * finv de) w) as ->.
  { unfold w. rewrite map_map. apply map_ext. intros [[? ?] ?]. reflexivity. }
  match goal with |- exists p a b c, Ok ?e = Ok p /\ _ => exists e, a, b, c end. split; [reflexivity|]. split; [reflexivity|]. do 3 (split; [assumption|]). split; [exact Dx|].
  assert (WP : forall k, dot (firstn ni w) k = be * dot (firstn ni a) k + al * dot (firstn ni b) k + dot (firstn ni c) k /\ dot (skipn ni w) k = be * dot (skipn ni a) k + al * dot (skipn ni b) k + dot (skipn ni c) k) by (intro k; apply w_parts; congruence).
  split; [|split].
  - intro A. unfold in1, logs1. cbn [pvk alpha_g1 beta_g1 delta_g1 a_query b_g1_query gamma_abc_g1 h_query l_query].
    rewrite skipn_map, skipn_map, !msm_base, !dot_scale_l. destruct (WP (c_abc K A)) as [-> _]. destruct (WP (c_l K A)) as [_ ->].
    assert (EH : map (fun i => gsm ((t ^ m - 1) * finv de * t ^ i) g1) (seq 0 (m - 1)) = map (fun x : K => gsm x g1) (map (fun i => ((t ^ m - 1) * finv de) * t ^ i) (seq 0 (m - 1)))) by (rewrite map_map; reflexivity).
    rewrite EH, msm_base, dot_pow. cbn [fpow]. gmod. field. split; assumption.
  - intro B. unfold in2, logs2. cbn [pvk beta_g2 gamma_g2 delta_g2 b_g2_query]. rewrite msm_base. gmod. ring.
  - intros X Y Z xs. rewrite verify_exact. unfold prepare, key_sum. cbn [pv_abc gamma_abc_g1 pvk pa pb pc gamma_g2_neg delta_g2_neg gamma_g2 delta_g2 alpha_g1_beta_g2 alpha_g1 beta_g2].
    rewrite !map_length, firstn_length, Lw, msm_base, dot_scale_l. destruct (WP (1 :: xs)) as [-> _]. replace (Nat.min ni (ni + na)) with ni by lia. set (I := be * _ + _ + _).
    rewrite <- !gsm_opp. rewrite !pair_sm_l, !pair_sm_r. set (e := pair_e g1 g2). split; intros [E1 E2]; (split; [exact E1|]).
    + transitivity (gadd (gsm (al * be) e) (gadd (gsm I e) (gsm (de * Z) e))); [|gmod; ring].
      transitivity (gadd (gadd (gadd (gsm X (gsm Y e)) (gsm (finv ga * I) (gsm (- ga) e))) (gsm Z (gsm (- de) e))) (gadd (gsm I e) (gsm (de * Z) e))); [gmod; field; exact Hg|]. rewrite E2. gmod. ring.
    + transitivity (gadd (gsm (X * Y) e) (gadd (gsm (- I) e) (gsm (- (de * Z)) e))); [gmod; field; exact Hg|]. rewrite E2. gmod. ring.
Qed.
Lemma dot_take (a : list K) k : dot a k = dot a (map (fun i => nth i k 0) (seq 0 (length a))).
Proof. rewrite !dot_sumn. apply sumn_ext. intros i Hi. f_equal. symmetry. exact (nth_map_seq (fun i => nth i k 0) (length a) i 0 Hi). Qed.
Lemma full_inputs xs w : (length xs + 1 = ni)%nat -> full_vector (with_inputs xs w) s = (1 :: xs) ++ map (fun i => nth i w 0) (seq 0 na).
Proof.
  intro L. unfold full_vector. f_equal. cbn [with_inputs]. apply nth_ext with (d := 0) (d' := 0); [rewrite map_length, seq_length; cbn; lia|]. intros i Hi. rewrite map_length, seq_length in Hi. exact (nth_map_seq (fun i => nth i (1 :: xs) 0) ni i 0 Hi).
Qed.
Lemma full_dot (a : list K) xs w : (length xs + 1 = ni)%nat -> length a = (ni + na)%nat -> dot a (full_vector (with_inputs xs w) s) = dot (firstn ni a) (1 :: xs) + dot (skipn ni a) w.
Proof.
  intros L La. rewrite full_inputs by exact L. rewrite (dot_split K ni) by (cbn; lia). f_equal. rewrite (dot_take (skipn ni a) w). do 3 f_equal. rewrite skipn_length. lia.
Qed.
Hypothesis ND : forall k, gsm k (pair_e g1 g2) = g0 -> k = 0.
Lemma nd_eq x y : gsm x (pair_e g1 g2) = gsm y (pair_e g1 g2) -> x = y.
Proof. intro E. apply (fsub_0 K). apply ND. transitivity (gadd (gsm x (pair_e g1 g2)) (gopp (gsm y (pair_e g1 g2)))); [gmod; ring|]. rewrite E. gmod; ring. Qed.
Theorem alg_sound A B C xs als bes gas des ts : grid (2 * m - 1) als bes gas des ts ->
  (forall al be ga de t, In al als -> In be bes -> In ga gas -> In de des -> In t ts -> succeeds dnew circuit g1 g2 A B C xs al be ga de t) -> sat (with_inputs xs (c_l K C)) s.
Proof.
  intros Gr H. pose proof Gr as [[Na La] [Nb Lb] (Ng & Lg & Zg) (Nd & Ld & Zd) [Nt Lt]].
  apply (qap_sound K dnew DF s d (with_inputs xs (c_l K C)) (firstn (m - 1) (c_h K C)) ts W Ed eq_refl); [rewrite firstn_length; lia|exact Nt|exact Lt|].
  intros t Ht. destruct (instance_ok K dnew DF s d t W Ed) as (a & b & c & Ei & Lna & Lnb & Lnc & Dx).
  assert (Eq : forall al be ga de, In al als -> In be bes -> In ga gas -> In de des -> (length xs + 1 = ni)%nat /\
    logs1 a b c al be ga de t A * logs2 b be ga de B = al * be + (be * dot (firstn ni a) (1 :: xs) + al * dot (firstn ni b) (1 :: xs) + dot (firstn ni c) (1 :: xs)) + de * logs1 a b c al be ga de t C).
  { intros al be ga de Ha Hb Hg Hd. assert (ga <> 0) by (intro Z; subst; contradiction). assert (de <> 0) by (intro Z; subst; contradiction).
    destruct (key_logs al be ga de t) as (p & a' & b' & c' & Ep & Ei' & _ & _ & _ & _ & E1 & E2 & V); try assumption. rewrite Ei' in Ei. injection Ei as -> -> ->.
    destruct (H al be ga de t Ha Hb Hg Hd Ht) as (p' & Ep' & HV). rewrite Ep in Ep'. injection Ep' as <-. rewrite !E1, E2 in HV. apply V in HV. destruct HV as [L E]. split; [exact L|]. apply nd_eq. exact E. }
  assert (L : (length xs + 1 = ni)%nat).
  { destruct (grid_some als 2 La) as (al & Ha). destruct (grid_some bes 2 Lb) as (be & Hb). destruct (grid_some gas 2 Lg) as (ga & Hg). destruct (grid_some des 3 Ld) as (de & Hd). apply (Eq al be ga de); assumption. }
  destruct (Dx (with_inputs xs (c_l K C))) as (<- & <- & <-). rewrite !full_dot by assumption.
  assert (Q : (dot (firstn ni a) (1 :: xs) + dot (skipn ni a) (c_l K C)) * (dot (firstn ni b) (1 :: xs) + dot (skipn ni b) (c_l K C)) =
    dot (firstn ni c) (1 :: xs) + (dot (skipn ni c) (c_l K C) + (t ^ m - 1) * peval (firstn (m - 1) (c_h K C)) t)).
  { eapply (core _ als bes gas des ts (c_alpha K A) (c_beta K A) (c_delta K A) (c_one K A + dot a (c_a K A) + dot b (c_b K A))
      (dot (firstn ni a) (c_abc K A)) (dot (firstn ni b) (c_abc K A)) (dot (firstn ni c) (c_abc K A)) (dot (skipn ni a) (c_l K A)) (dot (skipn ni b) (c_l K A)) (dot (skipn ni c) (c_l K A) + (t ^ m - 1) * peval (firstn (m - 1) (c_h K A)) t)
      (d_beta K B) (d_gamma K B) (d_delta K B) (d_one K B + dot b (d_b K B)) _ _ _ (c_alpha K C) (c_beta K C) (c_delta K C) (c_one K C + dot a (c_a K C) + dot b (c_b K C))
      (dot (firstn ni a) (c_abc K C)) (dot (firstn ni b) (c_abc K C)) (dot (firstn ni c) (c_abc K C))); [exact Gr|].
    intros al be ga de Ha Hb Hg Hd. assert (ga <> 0) by (intro Z; subst; contradiction). assert (de <> 0) by (intro Z; subst; contradiction). destruct (Eq al be ga de Ha Hb Hg Hd) as [_ E].
    transitivity (logs1 a b c al be ga de t A * logs2 b be ga de B); [unfold logs1, logs2; field; split; assumption|]. rewrite E. unfold logs1. field. split; assumption. }
  rewrite Q. ring.
Qed.
(** The other direction: from a satisfying assignment, a prover of this kind that succeeds for every trapdoor. *)
Theorem alg_complete x : x ONE = 1 -> sat x s -> exists A B C, c_l K C = map (fun i => x (Aux i)) (seq 0 na) /\
  forall al be ga de t, ga <> 0 -> de <> 0 -> succeeds dnew circuit g1 g2 A B C (map (fun i => x (Input i)) (seq 1 (ni - 1))) al be ga de t.
Proof.
  intros H1 HS. destruct (DF _ _ Ed) as [V Ld]. pose proof (inps_pos K s W) as Hi.
  destruct (quotient_exists K d (idft d (avx K x s)) (idft d (bvx K x s)) (idft d (cvx K x s)) V) as (h & Lh & Hq); try apply length_idft.
  { intros z Hz. unfold dpts in Hz. apply in_map_iff in Hz. destruct Hz as (i & <- & Hz). apply in_seq in Hz. rewrite !(idft_dom K d V) by lia. apply (rows_all K x s d Ld). apply (sat_rows K x s H1). exact HS. }
  set (F := full_vector x s). set (w := map (fun i => x (Aux i)) (seq 0 na)). set (xs := map (fun i => x (Input i)) (seq 1 (ni - 1))).
  exists (mkC1 K 0 1 0 0 F [] [] [] []), (mkC2 K 0 1 0 0 F), (mkC1 K 0 0 0 0 [] [] [] h w). split; [reflexivity|]. intros al be ga de t Hg Hde.
  destruct (key_logs al be ga de t Hg Hde) as (p & a & b & c & Ep & _ & La & Lb & Lc & Dx & E1 & E2 & HV). exists p. split; [exact Ep|]. rewrite !E1, E2. apply HV.
  assert (Lx : (length xs + 1 = ni)%nat) by (unfold xs; rewrite map_length, seq_length; lia). split; [exact Lx|]. f_equal.
  assert (EF : F = (1 :: xs) ++ w). { unfold F, full_vector, xs, w. f_equal. destruct ni as [|k]; [lia|]. cbn [seq map]. rewrite <- H1. do 2 f_equal. replace (S k - 1)%nat with k by lia. reflexivity. }
  assert (Sp : forall q : list K, dot q F = dot (firstn ni q) (1 :: xs) + dot (skipn ni q) w) by (intro q; rewrite EF; apply dot_split; cbn; lia).
  destruct (Dx x) as (DA & DB & DC). fold F in DA, DB, DC. specialize (Hq t). rewrite <- DA, <- DB, <- DC in Hq. unfold logs1, logs2. cbn [c_one c_alpha c_beta c_delta c_a c_b c_abc c_h c_l d_one d_beta d_gamma d_delta d_b].
  rewrite (firstn_all2 h) by exact Lh. assert (Z : forall q : list K, dot q [] = 0) by (intros [|? ?]; reflexivity). rewrite !Z, firstn_nil. cbn [peval].
  assert (EI : be * dot (firstn ni a) (1 :: xs) + al * dot (firstn ni b) (1 :: xs) + dot (firstn ni c) (1 :: xs) = be * dot a F + al * dot b F + dot c F - (be * dot (skipn ni a) w + al * dot (skipn ni b) w + dot (skipn ni c) w)) by (rewrite !Sp; ring).
  rewrite EI. assert (EC : dot c F = dot a F * dot b F - (t ^ m - 1) * peval h t) by (rewrite <- Hq; ring). rewrite EC. field. split; assumption.
Qed.
End S.
