(** Completeness of the product-circuit argument: what the prover sends, the verifier accepts, and both end with the extensions of the leaves. *)
From Verif Require Import Field Poly Module ModelTranscript ModelMle SpecMle ProofsMle ModelLibra ProofsLibra ModelSigma ModelSpartan ModelSpark ModelSnark ProofsSpartan3 ProofsSpartan4 ProofsSpark ProofsSpark2 ProofsSnark.
From Coq Require Import String List Lia.
Local Open Scope string_scope.
Local Open Scope list_scope.
Local Open Scope fld_scope.
Section S.
Variable K : Fld.
Variable G : Grp K.
Variable ch : oracle K G.
Add Field Kf : (f_laws K).
Notation tr := (transcript K G).
Notation triple := (triple K).
Notation dot3 := (dot3 K).
Notation all_len := (all_len K).
Notation trip_ok := (trip_ok K).
Notation trs := (trs K).
Notation mle3 := (mle3 K).
Notation t1 := (t1 K). Notation t2 := (t2 K). Notation t3 := (t3 K).
Lemma draws_length l n : forall (t : tr) xs t', draws K G ch l n t = (xs, t') -> length xs = n.
Proof.
  induction n as [|n IH]; intros t xs t' E; cbn [draws] in E; [injection E as <- _; reflexivity|]. unfold draw in E.
  destruct (draws K G ch l n _) as [ys t2'] eqn:E2. injection E as <- _. cbn. rewrite (IH _ _ _ E2). reflexivity.
Qed.
(** ** Tables of a circuit with 2^k leaves *)
Definition level (i : nat) (l : list K) : list K := Nat.iter i (step K) l.
Lemma pow_even j : Nat.odd (2 ^ S j) = false.
Proof. cbn [Nat.pow]. replace (2 * 2 ^ j)%nat with (2 * 2 ^ j + 0)%nat by lia. rewrite <- Nat.negb_even. replace (2 * 2 ^ j + 0)%nat with (2 * 2 ^ j)%nat by lia. rewrite Nat.even_mul. reflexivity. Qed.
Lemma padded_pow l j : length l = (2 ^ S j)%nat -> padded K l = l.
Proof. intro H. unfold padded. rewrite H, pow_even. reflexivity. Qed.
Lemma step_pow l j : length l = (2 ^ S j)%nat -> length (step K l) = (2 ^ j)%nat.
Proof. intro H. rewrite step_length, H. cbn [Nat.pow]. replace (2 * 2 ^ j + 1)%nat with (1 + 2 ^ j * 2)%nat by lia. rewrite Nat.div_add by lia. reflexivity. Qed.
Lemma level_S i l : level (S i) l = step K (level i l).
Proof. reflexivity. Qed.
Lemma level_in i : forall l, level i (step K l) = level (S i) l.
Proof. induction i as [|i IH]; intro l; [reflexivity|]. rewrite level_S, IH. reflexivity. Qed.
Lemma level_length k l : length l = (2 ^ k)%nat -> forall i, (i <= k)%nat -> length (level i l) = (2 ^ (k - i))%nat.
Proof.
  intros H. induction i as [|i IH]; intro Hi; [rewrite Nat.sub_0_r; exact H|]. rewrite level_S. apply step_pow. rewrite IH by lia. f_equal. lia.
Qed.
Lemma layer_nth k : forall l i, length l = (2 ^ k)%nat -> (i < k)%nat -> nth_error (product_layers K k l) i = Some (halves K (level i l)).
Proof.
  induction k as [|k IH]; intros l i H Hi; [lia|]. rewrite layer_eq. destruct i as [|i]; [cbn [nth_error]; rewrite (padded_pow l k H); reflexivity|]. cbn [nth_error].
  rewrite IH; [|apply step_pow; exact H|lia]. rewrite level_in. reflexivity.
Qed.
Lemma level_top k l : length l = (2 ^ k)%nat -> mle (level k l) [] = fprod l.
Proof.
  intro H. pose proof (level_length k l H k (le_n k)) as L. rewrite Nat.sub_diag in L. assert (Q : forall i, fprod (level i l) = fprod l) by (induction i as [|i IH]; [reflexivity|]; rewrite level_S, step_prod; exact IH).
  rewrite mle_nil. rewrite <- (Q k). destruct (level k l) as [|x [|y ?]]; cbn in L; try discriminate. cbn. ring.
Qed.
Lemma halves_pow l j : length l = (2 ^ S j)%nat -> halves K l = (firstn (2 ^ j) l, skipn (2 ^ j) l).
Proof. intro H. unfold halves. rewrite H, half_pow. reflexivity. Qed.
Lemma mle_step l j r : length l = (2 ^ S j)%nat -> length r = j -> mle (step K l) r = dot3 (fst (halves K l), snd (halves K l), eval_eq K r).
Proof.
  intros H Hr. rewrite mle_dot by (rewrite (step_pow l j H), Hr; lia). unfold step. rewrite (padded_pow l j H), (halves_pow l j H). unfold ModelSnark.dot3, pairwise. cbn [fst snd].
  assert (L1 : length (firstn (2 ^ j) l) = (2 ^ j)%nat) by (rewrite firstn_length, H; cbn [Nat.pow]; lia). rewrite L1. rewrite dot_seq by (rewrite map_length, seq_length, eval_eq_length, Hr; lia).
  rewrite eval_eq_length, Hr. apply fsum_map_ext. intros i Hi. apply in_seq in Hi. rewrite nth_map_seq. destruct (Nat.ltb_spec i (2 ^ j)); [ring|lia].
Qed.
Lemma mle_halves l j x r : length l = (2 ^ S j)%nat -> length r = j -> mle l (x :: r) = mle (fst (halves K l)) r + x * (mle (snd (halves K l)) r - mle (fst (halves K l)) r).
Proof. intros H Hr. rewrite mle_cons, (halves_pow l j H), Hr. cbn [fst snd]. ring. Qed.
(** ** The verifier's expected value *)
Lemma combine_firstn {A B} (a : list A) : forall b : list B, combine a b = combine (firstn (length b) a) b.
Proof. induction a as [|x a IH]; intros [|y b]; try reflexivity. cbn [length firstn combine]. rewrite <- IH. reflexivity. Qed.
Lemma dot_app_l (a b : list K) : forall ks, dot (a ++ b) ks = dot a ks + dot b (skipn (length a) ks).
Proof. induction a as [|x a IH]; intro ks; [cbn; ring|]. destruct ks as [|k ks]; [cbn [app dot length skipn]; destruct b; cbn; ring|]. cbn [app dot length skipn]. rewrite IH. ring. Qed.
Lemma expected_prod e rs pa pb c : mle c rs = e -> forall ks, length pa = length pb ->
  fsum (map (fun '(k, (x, y)) => k * (x * y * e)) (combine ks (combine (map (fun v => mle v rs) pa) (map (fun v => mle v rs) pb)))) = dot (map (fun x => mle3 x rs) (map (fun '(a, b) => (a, b, c)) (combine pa pb))) ks.
Proof.
  intro E. revert pb. induction pa as [|a pa IH]; intros [|b pb] ks H; cbn [length] in H; try discriminate; [destruct ks; reflexivity|]. destruct ks as [|k ks]; [cbn; reflexivity|].
  cbn [map combine dot fsum fold_right]. f_equal; [|apply IH; congruence]. unfold ProofsSnark.mle3, ProofsSnark.t1, ProofsSnark.t2, ProofsSnark.t3. cbn [fst snd]. rewrite E. ring.
Qed.
Definition fins (rs : list K) (ds : list triple) : triple := (map (fun x => mle (t1 x) rs) ds, map (fun x => mle (t2 x) rs) ds, map (fun x => mle (t3 x) rs) ds).
Lemma dotp_expected_ok rs ds : forall ks, length ks = length ds -> dotp_expected K ks (fins rs ds) = Ok (dot (map (fun x => mle3 x rs) ds) ks).
Proof.
  intros ks L. unfold dotp_expected, fins. rewrite map_length.
  assert (Q : forall (pre : list triple) ds kp ks s, length kp = length pre -> length ks = length ds ->
    foldr (fun s '(i, a) => rbind (kget K (map (fun x => mle (t2 x) rs) (pre ++ ds)) i) (fun b => rbind (kget K (map (fun x => mle (t3 x) rs) (pre ++ ds)) i) (fun c => rmap (fun k => s + k * a * b * c) (kget K (kp ++ ks) i)))) s
      (combine (seq (length pre) (length ds)) (map (fun x => mle (t1 x) rs) ds)) = Ok (s + dot (map (fun x => mle3 x rs) ds) ks)).
  { intros pre ds0. revert pre. induction ds0 as [|d ds0 IH]; intros pre kp ks0 s L1 L2; [cbn; f_equal; ring|]. destruct ks0 as [|k ks0]; [discriminate L2|]. cbn [length seq map combine foldr].
    rewrite !kget_ok by (rewrite ?map_length, ?app_length; cbn [length]; lia). cbn [rmap rbind].
    replace (nth (length pre) (kp ++ k :: ks0) 0) with k by (rewrite <- L1, app_nth2, Nat.sub_diag by lia; reflexivity).
    replace (nth (length pre) (map (fun x => mle (t2 x) rs) (pre ++ d :: ds0)) 0) with (mle (t2 d) rs) by (rewrite map_app, app_nth2 by (rewrite map_length; lia); rewrite map_length, Nat.sub_diag; reflexivity).
    replace (nth (length pre) (map (fun x => mle (t3 x) rs) (pre ++ d :: ds0)) 0) with (mle (t3 d) rs) by (rewrite map_app, app_nth2 by (rewrite map_length; lia); rewrite map_length, Nat.sub_diag; reflexivity).
    specialize (IH (pre ++ [d]) (kp ++ [k]) ks0 (s + k * mle (t1 d) rs * mle (t2 d) rs * mle (t3 d) rs)). rewrite !app_length in IH. cbn [length] in IH. rewrite <- !app_assoc in IH. cbn [app] in IH.
    rewrite !Nat.add_1_r in IH. rewrite IH by (cbn [length] in L2; lia). f_equal. cbn [dot map]. unfold ProofsSnark.mle3. ring. }
  specialize (Q [] ds [] ks 0 eq_refl L). cbn [app length] in Q. rewrite Q. f_equal. ring.
Qed.
(** ** All layers *)
Variable k : nat.
Variables (ls : list (list K)) (ds : list triple).
Hypothesis Hls : all_len k ls.
Hypothesis NE : ls <> [].
Hypothesis Hds : Forall (trip_ok (k - 1)) ds.
Hypothesis T2 : (1 + 1 : K) <> 0.
Hypothesis T3 : (1 + 1 + 1 : K) <> 0.
Notation circs := (map (product_layers K k) ls).
Lemma ds_parts : all_len (k - 1) (map t1 ds) /\ all_len (k - 1) (map t2 ds) /\ all_len (k - 1) (map t3 ds).
Proof. unfold ProofsSnark.all_len. rewrite !Forall_map. repeat split; revert Hds; apply Forall_impl; intros x (A & B & C); assumption. Qed.
Lemma trs_seq pa pb c : trs pa pb c (map t1 ds) (map t2 ds) (map t3 ds) = map (fun '(a, b) => (a, b, c)) (combine pa pb) ++ ds.
Proof. unfold ProofsSnark.trs. f_equal. clear. induction ds as [|[[a b] d] l IH]; [reflexivity|]. cbn [map combine]. rewrite IH. reflexivity. Qed.
Lemma pairs_map (f g : list K -> list K) (c : list K) : map (fun '(a, b) => (a, b, c)) (combine (map f ls) (map g ls)) = map (fun l => (f l, g l, c)) ls.
Proof. clear. induction ls as [|l ls' IH]; [reflexivity|]. cbn [map combine]. rewrite IH. reflexivity. Qed.
Lemma join_map r (f g : list K -> K) (l : list (list K)) : join K r (map f l) (map g l) = map (fun x => f x + r * (g x - f x)) l.
Proof. clear. unfold join. induction l as [|x l IH]; [reflexivity|]. cbn [map combine]. rewrite IH. reflexivity. Qed.
Lemma dot_sums_ok (e : list K) : length e = (2 ^ (k - 1))%nat -> mapr (fun '(a, b, c) => rbind (evaluate_dot_product_circuit K a b c) (fun s => if Nat.eqb (length e) (length a) then Ok s else Panic)) ds = Ok (map dot3 ds).
Proof.
  intro E. apply mapr_ok. intros [[a b] c] Hx. pose proof (proj1 (Forall_forall _ _) Hds _ Hx) as (A & B & C). unfold ProofsSnark.t1, ProofsSnark.t2, ProofsSnark.t3 in *. cbn [fst snd] in *. unfold evaluate_dot_product_circuit.
  rewrite A, B, C, E, !Nat.eqb_refl. cbn [negb rbind]. unfold ModelSnark.dot3. rewrite A. reflexivity.
Qed.
Lemma pc_ok n : (n <= k)%nat -> forall rands (t : tr), length rands = (k - n)%nat ->
  exists lps dp rands' cd t', pc_prove K G ch n circs ds (map (fun l => mle (level n l) rands) ls) rands t = Ok (lps, dp, rands', t') /\ length lps = n /\ length rands' = k /\
    pc_verify K G ch lps dp (map dot3 ds) (length ls) (k - n) (map (fun l => mle (level n l) rands) ls) rands t = Ok (map (fun l => mle l rands') ls, cd, rands', t') /\
    (n = 0%nat \/ exists rl rp, rands' = rl :: rp /\ dp = fins rp ds /\ cd = dotp_join K rl dp).
Proof.
  induction n as [|i IH]; intros Hn rands t Lr.
  - exists [], ([], [], []), rands, [], t. rewrite Nat.sub_0_r in Lr. repeat split; try reflexivity; [exact Lr|]. left. reflexivity.
  - set (claims := map (fun l => mle (level (S i) l) rands) ls).
    assert (HL : forall l, In l ls -> length (level i l) = (2 ^ S (k - S i))%nat).
    { intros l Hl. rewrite (level_length k l (proj1 (Forall_forall _ _) Hls l Hl) i) by lia. f_equal. lia. }
    set (hl := fun l => fst (halves K (level i l))). set (hr := fun l => snd (halves K (level i l))).
    assert (Hh : forall l, In l ls -> length (hl l) = (2 ^ (k - S i))%nat /\ length (hr l) = (2 ^ (k - S i))%nat).
    { intros l Hl. unfold hl, hr. apply halves_length. rewrite (HL l Hl). reflexivity. }
    assert (Le : length (eval_eq K rands) = (2 ^ (k - S i))%nat) by (rewrite eval_eq_length, Lr; reflexivity).
    cbn [pc_prove]. rewrite (mapr_ok _ (fun c : pcircuit K => match nth_error c i with Some x => x | None => ([], []) end)).
    2:{ intros c Hc. apply in_map_iff in Hc. destruct Hc as (l & <- & Hl). rewrite (layer_nth k l i (proj1 (Forall_forall _ _) Hls l Hl)) by lia. destruct (Hh l Hl) as [A B]. unfold hl, hr in A, B. rewrite A, B, Nat.eqb_refl. reflexivity. }
    cbn [rbind]. rewrite map_map. rewrite (map_ext_in _ (fun l => (hl l, hr l))).
    2:{ intros l Hl. rewrite (layer_nth k l i (proj1 (Forall_forall _ _) Hls l Hl)) by lia. unfold hl, hr. destruct (halves K (level i l)); reflexivity. }
    set (e := eval_eq K rands) in *.
    assert (Hd0 : length e = length (fst (hd ([], []) (map (fun l => (hl l, hr l)) ls)))).
    { destruct ls as [|l0 ls']; [congruence|]. cbn [map hd fst]. rewrite Le. symmetry. apply Hh. left. reflexivity. }
    rewrite <- Hd0, Nat.eqb_refl. cbn [negb]. rewrite !map_map. cbn [fst snd]. clear Hd0.
    set (ds' := if Nat.eqb i 0 then ds else []).
    assert (Hds' : Forall (trip_ok (k - S i)) ds') by (unfold ds'; destruct (Nat.eqb_spec i 0) as [->|]; [exact Hds|constructor]).
    assert (ES : mapr (fun '(a, b, c) => rbind (evaluate_dot_product_circuit K a b c) (fun s => if Nat.eqb (length e) (length a) then Ok s else Panic)) ds' = Ok (map dot3 ds')).
    { unfold ds'. destruct (Nat.eqb_spec i 0) as [->|]; [apply dot_sums_ok; exact Le|reflexivity]. }
    rewrite ES. cbn [rbind].
    destruct (draws K G ch "rand_coeffs_next_layer" (length (claims ++ map dot3 ds')) t) as [coeffs tc] eqn:Ed. pose proof (draws_length _ _ _ _ _ Ed) as Lc. rewrite app_length in Lc. unfold claims in Lc at 1. rewrite !map_length in Lc.
    set (L := trs (map hl ls) (map hr ls) e (map t1 ds') (map t2 ds') (map t3 ds')).
    assert (EL : L = map (fun l => (hl l, hr l, e)) ls ++ ds').
    { unfold L, ProofsSnark.trs. rewrite pairs_map. f_equal. clear. induction ds' as [|[[a b] d] l IH]; [reflexivity|]. cbn [map combine]. rewrite IH. reflexivity. }
    assert (A1 : all_len (k - S i) (map hl ls)) by (unfold ProofsSnark.all_len; rewrite Forall_map; apply Forall_forall; intros l Hl; apply Hh; exact Hl).
    assert (A2 : all_len (k - S i) (map hr ls)) by (unfold ProofsSnark.all_len; rewrite Forall_map; apply Forall_forall; intros l Hl; apply Hh; exact Hl).
    assert (A3 : all_len (k - S i) (map t1 ds') /\ all_len (k - S i) (map t2 ds') /\ all_len (k - S i) (map t3 ds')) by (unfold ProofsSnark.all_len; rewrite !Forall_map; repeat split; revert Hds'; apply Forall_impl; intros x (A & B & C); assumption).
    destruct A3 as (A3 & A4 & A5).
    assert (LL : length coeffs = length L) by (rewrite EL, app_length, map_length; exact Lc).
    assert (EC : dot (claims ++ map dot3 ds') coeffs = dot (map dot3 L) coeffs).
    { f_equal. rewrite EL, map_app, map_map. f_equal. unfold claims. apply map_ext_in. intros l Hl. rewrite level_S. apply (mle_step _ (k - S i)); [apply HL; exact Hl|exact Lr]. }
    destruct (sc_cubic_ok K G ch T2 T3 (k - S i) (dot (claims ++ map dot3 ds') coeffs) (map hl ls) (map hr ls) e (map t1 ds') (map t2 ds') (map t3 ds') coeffs tc) as (polys & rs & ts & L1 & L2 & EP & EV); try assumption; rewrite ?map_length; try reflexivity.
    unfold log2c. rewrite Le, Nat.log2_up_pow2 by lia. 
    change (map (fun x => fst (fst x)) ds') with (map t1 ds'). change (map (fun x => snd (fst x)) ds') with (map t2 ds'). change (map snd ds') with (map t3 ds'). change (map (fun x => hl x) ls) with (map hl ls). change (map (fun x => hr x) ls) with (map hr ls). rewrite EP. cbn [rbind].
    fold L in EV. rewrite !map_map in *. set (cl := map (fun l => mle (hl l) rs) ls). set (cr := map (fun l => mle (hr l) rs) ls). change (map (fun x => mle (t1 x) rs) ds', map (fun x => mle (t2 x) rs) ds', map (fun x => mle (t3 x) rs) ds') with (fins rs ds').
    set (tp := if Nat.eqb i 0 then absorb_dotp K G (fins rs ds') (absorb_prod K G cl cr ts) else absorb_prod K G cl cr ts).
    unfold draw. set (rl := ch "challenge_r_layer" tp).
    assert (EJ : join K rl cl cr = map (fun l => mle (level i l) (rl :: rs)) ls).
    { unfold cl, cr. rewrite join_map. apply map_ext_in. intros l Hl. rewrite (mle_halves _ (k - S i)) by (try exact L1; apply HL; exact Hl). reflexivity. }
    rewrite EJ. destruct (IH ltac:(lia) (rl :: rs) (MCh "challenge_r_layer" :: tp)) as (lps & dp & rands' & cd & t' & P & Ll & Lr' & V & Z); [cbn [length]; rewrite L1; lia|].
    rewrite P. cbn [rmap]. exists (mkLPC K polys cl cr :: lps), (if Nat.eqb i 0 then fins rs ds' else dp), rands', (if Nat.eqb i 0 then dotp_join K rl (fins rs ds') else cd), t'.
    split; [reflexivity|]. split; [cbn [length]; rewrite Ll; reflexivity|]. split; [exact Lr'|]. split.
    + assert (Elast : (match lps with [] => true | _ => false end) = Nat.eqb i 0) by (destruct lps, i; try reflexivity; discriminate Ll).
      cbn [pc_verify]. rewrite Elast. assert (ECl : (if Nat.eqb i 0 then claims ++ map dot3 ds else claims) = claims ++ map dot3 ds') by (unfold ds'; destruct (Nat.eqb i 0); [reflexivity|symmetry; apply app_nil_r]).
      rewrite ECl, Ed. unfold sum_check_cubic_verify. cbn [lc_polys lc_left lc_right]. rewrite L2, Nat.eqb_refl. cbn [negb]. rewrite EV. cbn [rbind]. unfold cl at 1 2, cr at 1. rewrite !map_length, !Nat.eqb_refl. cbn [negb]. fold cl. fold cr.
      rewrite eval_eq_x_y_ok by congruence. cbn [rbind]. rewrite <- mle_eval_eq by congruence. fold e.
      assert (EX : (if Nat.eqb i 0 then dotp_expected K (skipn (length cl) coeffs) (if Nat.eqb i 0 then fins rs ds' else dp) else Ok 0) = Ok (dot (map (fun x => mle3 x rs) ds') (skipn (length ls) coeffs))).
      { unfold cl. rewrite map_length. unfold ds' in Lc |- *. destruct (Nat.eqb i 0) eqn:Ei; [apply dotp_expected_ok; rewrite skipn_length, Lc; lia|]. cbn [map dot]. reflexivity. }
      rewrite EX. cbn [rbind].
      replace (if Nat.eqb i 0 then absorb_dotp K G (if Nat.eqb i 0 then fins rs ds' else dp) (absorb_prod K G cl cr ts) else absorb_prod K G cl cr ts) with tp by (unfold tp; destruct (Nat.eqb i 0); reflexivity).
      assert (EF : fsum (map (fun '(c, (x, y)) => c * (x * y * mle e rs)) (combine coeffs (combine cl cr))) + dot (map (fun x => mle3 x rs) ds') (skipn (length ls) coeffs) = dot (map (fun x => mle3 x rs) L) coeffs).
      { rewrite EL, map_app, dot_app_l, !map_length. f_equal. unfold cl, cr. rewrite <- (map_map hl (fun v => mle v rs)), <- (map_map hr (fun v => mle v rs)). rewrite (expected_prod (mle e rs) rs (map hl ls) (map hr ls) e eq_refl) by (rewrite !map_length; reflexivity). rewrite pairs_map. reflexivity. }
      rewrite EF, feqb_refl. cbn [negb]. unfold draw. fold rl. rewrite EJ. replace (S (k - S i)) with (k - i)%nat by lia.
      destruct i as [|i].
      * cbn [Nat.eqb] in *. destruct lps; [|discriminate Ll]. cbn [pc_verify] in V |- *. injection V as EV1 <- <- <-. cbn [rmap]. reflexivity.
      * cbn [Nat.eqb] in *. rewrite V. cbn [rmap]. reflexivity.
    + right. destruct i as [|i].
      * cbn [Nat.eqb] in *. cbn [pc_prove] in P. injection P as _ _ <- _. exists rl, rs. unfold ds'. repeat split; reflexivity.
      * cbn [Nat.eqb]. destruct Z as [Z|Z]; [discriminate Z|exact Z].
Qed.
Theorem product_circuit_complete (t : tr) : (1 <= k)%nat ->
  exists pf rl rp t', length rp = (k - 1)%nat /\ product_circuit_eval_prover K G ch (map (construct_product_circuit K) ls) ds t = Ok (pf, rl :: rp, t') /\
    product_circuit_eval_verify K G ch pf (map fprod ls) (map dot3 ds) (2 ^ k) t = Ok (map (fun l => mle l (rl :: rp)) ls, dotp_join K rl (fins rp ds), rl :: rp, t').
Proof.
  intro Hk. assert (EC : map (construct_product_circuit K) ls = circs).
  { apply map_ext_in. intros l Hl. unfold construct_product_circuit, log2c. rewrite (proj1 (Forall_forall _ _) Hls l Hl), Nat.log2_up_pow2 by lia. reflexivity. }
  assert (P2 : (2 <= 2 ^ k)%nat) by (change 2%nat with (2 ^ 1)%nat at 1; apply Nat.pow_le_mono_r; lia).
  assert (EE : mapr (evaluate_product_circuit K) (map (construct_product_circuit K) ls) = Ok (map (fun l => mle (level k l) []) ls)).
  { rewrite (mapr_ok _ (fun c => match evaluate_product_circuit K c with Ok x => x | _ => 0 end)).
    - rewrite map_map. f_equal. apply map_ext_in. intros l Hl. rewrite product_circuit_ok, (proj1 (Forall_forall _ _) Hls l Hl). destruct (Nat.leb_spec 2 (2 ^ k)); [|lia]. symmetry. apply level_top. exact (proj1 (Forall_forall _ _) Hls l Hl).
    - intros c Hc. apply in_map_iff in Hc. destruct Hc as (l & <- & Hl). rewrite product_circuit_ok, (proj1 (Forall_forall _ _) Hls l Hl). destruct (Nat.leb_spec 2 (2 ^ k)); [reflexivity|lia]. }
  destruct (pc_ok k (le_n k) [] t) as (lps & dp & rands' & cd & t' & P & Ll & Lr & V & Z); [rewrite Nat.sub_diag; reflexivity|]. destruct Z as [Z|(rl & rp & -> & -> & ->)]; [lia|].
  exists (mkPCP K lps (fins rp ds)), rl, rp, t'. split; [cbn [length] in Lr; lia|]. split.
  - unfold product_circuit_eval_prover. rewrite EE. cbn [rbind]. destruct ls as [|l0 ls'] eqn:El; [congruence|]. rewrite <- El in *. rewrite EC. rewrite El at 1. cbn [map]. 
    assert (Lp : forall n (l : list K), length (product_layers K n l) = n) by (clear; induction n as [|n IH]; intro l; [reflexivity|]; rewrite layer_eq; cbn [length]; rewrite IH; reflexivity).
    rewrite Lp, P. reflexivity.
  - unfold product_circuit_eval_verify, log2c. cbn [pe_layers pe_dotp]. rewrite Ll, Nat.log2_up_pow2 by lia. rewrite Nat.eqb_refl. cbn [negb]. rewrite Nat.sub_diag in V. rewrite map_length.
    replace (map fprod ls) with (map (fun l => mle (level k l) []) ls); [exact V|]. apply map_ext_in. intros l Hl. apply level_top. exact (proj1 (Forall_forall _ _) Hls l Hl).
Qed.
End S.
