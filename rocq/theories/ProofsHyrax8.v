(** Hyrax: when the prover succeeds, and that the verifier then accepts. *)
From Verif Require Import Field Poly Module ModTac ProofsPC ModelTranscript ModelMle SpecMle ProofsMle ModelLibra SpecLibra ProofsLibra ProofsLibra2 ProofsLibra3 ProofsLibra4 ModelSigma ProofsSigma ProofsSigma3 ProofsSigma4 ModelSpartan ProofsSpartan3 ModelSnark ModelSpark ProofsSpark ModelHyrax SpecHyrax AttackHyrax ProofsHyrax3 ProofsHyrax4 ProofsHyrax6 ProofsHyrax7.
From Coq Require Import String List Lia.
Import ListNotations.
Local Open Scope string_scope.
Local Open Scope list_scope.
Local Open Scope fld_scope.
Lemma np_iff n : next_pow2 n = n <-> exists k, n = (2 ^ k)%nat.
Proof. unfold next_pow2. split; [intros <-; eauto|]. intros [k ->]. rewrite Nat.log2_up_pow2 by lia. reflexivity. Qed.
Lemma shape_steps raw : forall (l0 : layer), next_pow2 (l_count l0) = l_count l0 -> forall dep, steps_ok (mkCirc dep (l0 :: map mid raw)) (length raw) <-> shape (l_count l0) raw.
Proof.
  induction raw as [|l raw IH]; intros l0 P dep; [split; [intros _; exact I|intros _ e lo hi He; inversion He]|]. cbn [shape length]. split.
  - intro H. destruct (H 0%nat l0 (mid l) ltac:(lia) eq_refl eq_refl) as [A B]. cbn [mid l_count] in A, B. split; [apply np_iff, A|]. split; [rewrite P in B; exact B|].
    apply (IH (mid l) A dep). intros e lo hi He Hlo Hhi. apply (H (S e) lo hi); [lia|exact Hlo|exact Hhi].
  - intros (A & B & C). apply np_iff in A. apply (IH (mid l) A dep) in C. intros [|e] lo hi He Hlo Hhi.
    + cbn in Hlo, Hhi. injection Hlo as <-. injection Hhi as <-. split; [exact A|rewrite P; exact B].
    + apply (C e lo hi); [lia|exact Hlo|exact Hhi].
Qed.
Lemma steps_dec c d : steps_ok c d \/ ~ steps_ok c d.
Proof.
  induction d as [|d IH]; [left; intros e lo hi He; inversion He|]. destruct IH as [A|A]; [|right; intro Q; apply A; intros e lo hi He; apply Q; lia].
  destruct (nth_error (c_layers c) d) as [lo|] eqn:E1; [destruct (nth_error (c_layers c) (S d)) as [hi|] eqn:E2; [destruct (step_dec (l_count lo) (l_count hi)) as [B|B]|]|].
  - left. intros e a b He Ha Hb. destruct (Nat.eq_dec e d) as [->|]; [congruence|apply (A e a b); [lia|assumption|assumption]].
  - right. intro Q. apply B, (Q d lo hi); [lia|assumption|assumption].
  - left. intros e a b He Ha Hb. destruct (Nat.eq_dec e d) as [->|]; [congruence|apply (A e a b); [lia|assumption|assumption]].
  - left. intros e a b He Ha Hb. destruct (Nat.eq_dec e d) as [->|]; [congruence|apply (A e a b); [lia|assumption|assumption]].
Qed.
Lemma mapr_if {A B} (f : A -> res B) (g : A -> B) (b : A -> bool) l : (forall x, f x = if b x then Ok (g x) else Panic) -> mapr f l = if forallb b l then Ok (map g l) else Panic.
Proof. intro H. induction l as [|x l IH]; [reflexivity|]. cbn [mapr forallb map]. rewrite H. destruct (b x); cbn [rbind andb]; [|reflexivity]. rewrite IH. destruct (forallb b l); reflexivity. Qed.
Lemma last_nth {A} (l : list A) d n : length l = S n -> last l d = nth n l d.
Proof. revert n. induction l as [|x l IH]; intros n H; [discriminate|]. destruct l as [|y l]; [cbn in H; assert (n = 0)%nat by lia; subst; reflexivity|]. destruct n as [|n]; [cbn in H; lia|]. change (last (x :: y :: l) d) with (last (y :: l) d). rewrite (IH n) by (cbn in H |- *; lia). reflexivity. Qed.
Section S.
Variable K : Fld.
Variable G : Grp K.
Variable ch : oracle K G.
Add Field Kf : (f_laws K).
Notation tr := (transcript K G).
Notation com p x b := (poly_commit_vec K G (mc_gens K G p) x (mc_h K G p) b).
Notation V := (V K).
Notation padded := (padded K).
Notation lgn m := (log2c (next_pow2 m)).
Lemma open_bad (p : hparams K G) wv wb qa q0 qt v bv e (t : tr) :
  ~ (length wv = (2 ^ length (qa ++ qt))%nat /\ (2 ^ (length (qa ++ qt) - length (qa ++ qt) / 2) <= pc_n K G (hp_pc K G p))%nat) -> hx_open K G ch p wv wb qa (q0 :: qt) v bv e t = Panic.
Proof.
  intro N. unfold hx_open. set (ry := qa ++ qt) in *. rewrite eval_value_ok. destruct (Nat.leb_spec (length wv) (2 ^ length ry)) as [Lw|]; [|reflexivity]. cbn [rbind]. unfold reduce_prover, log2c.
  destruct (Nat.eqb_spec (length ry) (Nat.log2_up (length wv))) as [Ls|]; [|reflexivity]. cbn [negb]. rewrite <- Ls. set (k := length ry) in *.
  destruct (negb (Nat.eqb (2 ^ (k / 2)) _)); [reflexivity|]. destruct (Nat.ltb_spec (length wv) (2 ^ (k / 2) * 2 ^ (k - k / 2))) as [|Ln]; [reflexivity|].
  pose proof (half_le k). rewrite <- Nat.pow_add_r in Ln. replace (k / 2 + (k - k / 2))%nat with k in Ln by lia.
  destruct (Nat.ltb_spec (pc_n K G (hp_pc K G p)) (length (eval_eq K (skipn (k / 2) ry)))) as [|Lr]; [reflexivity|]. exfalso. apply N. rewrite eval_eq_length, skipn_length in Lr. split; [lia|exact Lr].
Qed.
Lemma sem_length : forall raw (v : list K), raw <> [] -> length (sem v raw) = length (last raw []).
Proof. induction raw as [|l raw IH]; intros v N; [congruence|]. destruct raw as [|l' raw]; [cbn [sem last]; apply map_length|]. change (last (l :: l' :: raw) []) with (last (l' :: raw) []). cbn [sem]. apply IH. discriminate. Qed.
(** With one instance the verifier never returns. *)
Lemma verify_single (p : hparams K G) pf o inputs (c : circuit) ch_hash p_hash : (2 <= c_depth c)%nat -> hx_verify K G ch p pf [o] inputs c ch_hash p_hash = Panic.
Proof.
  intro Hd. unfold hx_verify. cbn [length]. change (next_pow2 1) with 1%nat. cbn [Nat.eqb negb]. destruct (Nat.eqb_spec (c_depth c) 0); [reflexivity|]. destruct (Nat.ltb (length inputs) 1); [reflexivity|].
  match goal with |- context [eval_outputs K G ch [o] ?t] => generalize t end. intro t0. unfold eval_outputs. destruct (draws K G ch _ _ t0) as [q t1]. destruct (existsb _ _); [reflexivity|]. destruct (draws K G ch _ _ t1) as [qa t2]. cbn [rbind].
  destruct (c_depth c - 1)%nat as [|d] eqn:E; [lia|]. cbn [hx_check]. destruct (hx_proofs K G pf) as [|z zs]; [reflexivity|]. unfold lget. destruct (nth_error (c_layers c) d) as [lo|]; [|reflexivity]. destruct (nth_error (c_layers c) (S d)) as [hi|]; [|reflexivity]. cbn [rbind].
  unfold zk_verify. match goal with |- context [zk_challenges K G ch ?a ?b ?e ?x ?y] => assert (Q : zk_challenges K G ch a b e x y = Panic \/ exists r, zk_challenges K G ch a b e x y = Ok r) end.
  { match goal with |- zk_challenges K G ch ?a ?b ?e ?x ?y = Panic \/ _ => generalize x, y, b, e; generalize a end. clear. intro m. induction m as [|m IH]; intros x y b e; [right; eexists; destruct b, e; reflexivity|]. cbn [zk_challenges]. destruct b as [|b0 b]; [left; reflexivity|]. destruct e as [|e0 e]; [left; reflexivity|]. unfold draw. match goal with |- context [zk_challenges K G ch m ?b ?e ?x ?y] => destruct (IH x y b e) as [Q|[[r1 r2] Q]]; rewrite Q end; [left; reflexivity|right; eexists; reflexivity]. }
  destruct Q as [Q|[[all t3] Q]]; rewrite Q; [reflexivity|]. cbn [rbind]. change (log2c 1) with 0%nat. reflexivity.
Qed.
Section Main.
Variables (num : nat) (r1 : nat -> G) (g : G) (r3 r4 : nat -> G) (ni na : nat) (raw : list raw_layer) (s : nat).
Notation SS := (2 ^ s)%nat.
Hypothesis two : (1 + 1 : K) <> 0.
Hypothesis three : (1 + 1 + 1 : K) <> 0.
Hypothesis HS : pow2_above (Nat.max ni na) SS.
Hypothesis HL : legal (2 * SS) raw.
Hypothesis Hraw : raw <> [].
Notation p := (hparams_new K G num r1 g r3 r4).
Notation c := (built ni na raw).
Definition full (x : list K * list K) : list (list K) := let v := actual_layer SS (fst x) (snd x) in v :: sems K v raw.
Definition small (x : list K * list K) : bool := Nat.leb (length (fst x)) SS && Nat.leb (length (snd x)) SS.
Lemma eval_full i w : unwrap (evaluate K c i w) = if small (i, w) then Ok (full (i, w)) else Panic.
Proof. rewrite (evaluate_ok K ni na raw SS) by assumption. unfold small, full. cbn [fst snd]. destruct (_ && _); reflexivity. Qed.
Lemma count0 l0 : nth_error (c_layers c) 0 = Some l0 -> l_count l0 = (2 * SS)%nat.
Proof. intro E. cbn [c_layers built nth_error] in E. injection E as <-. rewrite input_new_bits. cbn [l_count]. rewrite (pow2_above_unique _ _ _ HS (next_pow2_above _)). reflexivity. Qed.
Lemma runs_full xs : forallb small xs = true -> runs K c (map full xs).
Proof.
  intros H ev I. apply in_map_iff in I. destruct I as ((i & w) & <- & I). rewrite forallb_forall in H. specialize (H _ I). unfold small in H. cbn [fst snd] in H. apply Bool.andb_true_iff in H. destruct H as [A B]. apply Nat.leb_le in A, B.
  unfold full. cbn [fst snd]. set (v := actual_layer SS i w). assert (Lv : length v = (2 * SS)%nat) by (apply actual_length; assumption). split; [exact (built_run K ni na raw SS v HS Lv HL)|].
  intros d lo Hlo. destruct d as [|d]; [exists v; split; [reflexivity|rewrite (count0 _ Hlo); exact Lv]|].
  cbn [c_layers built nth_error] in Hlo. rewrite nth_error_map in Hlo. destruct (nth_error raw d) as [l|] eqn:El; [|discriminate]. injection Hlo as <-.
  destruct (nth_error (v :: sems K v raw) (S d)) as [u|] eqn:Eu.
  - exists u. split; [reflexivity|]. cbn [mid l_count]. rewrite <- Lv in HL. destruct (sems_nth K raw v (S d) u HL Eu) as (_ & _ & Q). exact (Q l d eq_refl El).
  - exfalso. apply nth_error_None in Eu. cbn [length] in Eu. rewrite sems_length in Eu. assert (nth_error raw d <> None) as Q by congruence. apply nth_error_Some in Q. lia.
Qed.
Definition outs (xs : list (list K * list K)) : list (list K) := map (fun '(i, w) => sem (actual_layer SS i w) raw) xs.
Lemma outs_lay xs : map (fun ev => last ev []) (map full xs) = outs xs /\ lay K (map full xs) (length raw) = outs xs.
Proof.
  unfold lay, outs. rewrite !map_map. assert (Q : forall x, nth (length raw) (full x) [] = let '(i, w) := x in sem (actual_layer SS i w) raw).
  { intros [i w]. unfold full. cbn [fst snd]. apply nth_error_nth. apply sems_last. }
  split; apply map_ext; intro x; [rewrite (last_nth _ _ (length raw)) by (unfold full; cbn [length]; rewrite sems_length; reflexivity)|]; apply Q.
Qed.
Lemma outputs_ok xs k (t : tr) : length xs = (2 ^ k)%nat -> exists qa q t', eval_outputs K G ch (outs xs) t = Ok (V (outs xs) qa q, qa, q, t') /\ length qa = k /\ length q = lgn (length (last raw [])).
Proof.
  intro L. assert (Lo : forall o, In o (outs xs) -> length o = length (last raw [])). { unfold outs. intros o I. apply in_map_iff in I. destruct I as ((i & w) & <- & _). apply sem_length, Hraw. }
  assert (Ln : length (outs xs) = (2 ^ k)%nat) by (unfold outs; rewrite map_length; exact L). unfold eval_outputs.
  destruct (outs xs) as [|o0 os] eqn:Eo; [exfalso; cbn [length] in Ln; symmetry in Ln; revert Ln; apply Nat.pow_nonzero; lia|]. rewrite <- Eo in *. rewrite (Lo o0) by (rewrite Eo; left; reflexivity). rewrite Ln.
  assert (P : next_pow2 (2 ^ k) = (2 ^ k)%nat) by (apply np_iff; eauto). rewrite P. unfold log2c at 2. rewrite Nat.log2_up_pow2 by lia.
  pose proof (draws_length K G ch "challenge_nextround" (lgn (length (last raw []))) t) as D1. destruct (draws K G ch "challenge_nextround" _ t) as [q t1]. cbn [fst] in D1.
  assert (X : existsb (fun o => Nat.ltb (next_pow2 (length (last raw []))) (length o)) (outs xs) = false). { apply Bool.not_true_is_false. intro X. apply existsb_exists in X. destruct X as (o & I & Q). apply Nat.ltb_lt in Q. rewrite (Lo o I) in Q. pose proof (np_le (length (last raw []))). lia. }
  rewrite X. pose proof (draws_length K G ch "challenge_nextround" k t1) as D2. destruct (draws K G ch "challenge_nextround" k t1) as [qa t2]. cbn [fst] in D2.
  exists qa, q, t2. split; [|split; assumption]. do 4 f_equal. unfold ProofsHyrax3.V. rewrite mle_dot by (rewrite map_length, Ln, D2; lia). f_equal. apply map_ext_in. intros o I. symmetry. apply mle_dot. rewrite (Lo o I), D1, log2c_np. apply np_le.
Qed.
Variables (inputs witnesses : list (list K)) (n : nat) (ch_hash p_hash : K) (wr : nat -> K) (zs : nat -> zrand K) (e0 e1 : erand K).
Notation ins := (firstn n inputs).
Notation ws := (firstn n witnesses).
Notation xs := (combine ins ws).
Notation run_p := (hx_prover K G ch p witnesses inputs c ch_hash p_hash n wr zs e0 e1).
Lemma prover_cases : (run_p = Panic /\ ~ provable SS raw num n inputs witnesses) \/
  (provable SS raw num n inputs witnesses /\ exists k cw wb pfs rs r0 r0t r1 r1t rx ry t2,
    n = (2 ^ k)%nat /\ length rs = k /\ length r0t = s /\ length r1t = s /\ length (padded ws) = (2 ^ (k + s))%nat /\ (2 ^ (k + s - (k + s) / 2) <= pc_n K G (hp_pc K G p))%nat /\
    packing_poly_commit K G (mc_gens K G (pc_gen_n K G (hp_pc K G p))) (padded ws) (mc_h K G (pc_gen_n K G (hp_pc K G p))) wr true = Ok (cw, wb) /\
    run_p = rbind (hx_open K G ch p (padded ws) wb rs (r0 :: r0t) (V (lay K (map full xs) 0) rs (r0 :: r0t)) rx e0 t2) (fun '(pf0, y0, eq0, t) =>
      rmap (fun '(pf1, y1, eq1, t) => (mkHx K G cw pfs pf0 y0 eq0 pf1 y1 eq1, outs xs)) (hx_open K G ch p (padded ws) wb rs (r1 :: r1t) (V (lay K (map full xs) 0) rs (r1 :: r1t)) ry e1 t)) /\
    forall pf0 y0 eq0 pf1 y1 eq1, hx_verify K G ch p (mkHx K G cw pfs pf0 y0 eq0 pf1 y1 eq1) (outs xs) inputs c ch_hash p_hash =
      rbind (hx_opened K G ch p ins cw rs (r0 :: r0t) (com (hp_1 K G p) [V (lay K (map full xs) 0) rs (r0 :: r0t)] rx) pf0 y0 eq0 t2) (fun t =>
      rmap (fun _ => true) (hx_opened K G ch p ins cw rs (r1 :: r1t) (com (hp_1 K G p) [V (lay K (map full xs) 0) rs (r1 :: r1t)] ry) pf1 y1 eq1 t))).
Proof.
  unfold hx_prover. change (c_depth c) with (S (length raw)). cbn [Nat.eqb].
  destruct (Nat.ltb_spec (length inputs) n) as [|Li]; [left; split; [reflexivity|intros (Q & _); lia]|].
  destruct (Nat.ltb_spec (length witnesses) n) as [|Lw]; [left; split; [reflexivity|intros (_ & Q & _); lia]|]. cbn [orb].
  assert (Lxs : length xs = n) by (rewrite combine_length, !firstn_length; lia).
  rewrite (mapr_if _ full small) by (intros [i w]; apply eval_full).
  destruct (forallb small xs) eqn:Hsm.
  2:{ left. split; [reflexivity|]. intros (_ & _ & _ & A & B & _). apply Bool.not_true_iff_false in Hsm. apply Hsm. apply forallb_forall. intros [i w] I. unfold small. cbn [fst snd]. rewrite Forall_forall in A, B.
      apply Bool.andb_true_iff. split; apply Nat.leb_le; [exact (A i (in_combine_l _ _ _ _ I))|]. destruct (B w (in_combine_r _ _ _ _ I)) as (? & _ & Q & _). exact Q. }
  cbn [rbind]. destruct (outs_lay xs) as [O1 O2]. rewrite O1.
  destruct (Nat.eqb_spec (next_pow2 n) n) as [Pn|Pn]; [|left; split; [reflexivity|intros (_ & _ & _ & _ & _ & k & s' & Q & _); apply Pn, np_iff; eauto]]. cbn [negb].
  destruct (proj1 (np_iff n) Pn) as (k & Ek). apply (fun H => eq_trans H Ek) in Lxs.
  assert (Wall : Forall (fun w => length w <= SS)%nat ws /\ Forall (fun i => length i <= SS)%nat ins).
  { rewrite forallb_forall in Hsm. assert (Z : forall j, (j < n)%nat -> small (nth j ins [], nth j ws []) = true).
    { intros j Hj. apply Hsm. rewrite <- combine_nth by (rewrite !firstn_length; lia). apply nth_In. rewrite combine_length, !firstn_length. lia. }
    split; apply Forall_forall; intros x I; apply (In_nth _ _ []) in I; destruct I as (j & Hj & <-); rewrite firstn_length in Hj; specialize (Z j ltac:(lia)); unfold small in Z; cbn [fst snd] in Z; apply Bool.andb_true_iff in Z; destruct Z as [Z1 Z2]; apply Nat.leb_le in Z1, Z2; assumption. }
  destruct Wall as [Ww Wi].
  assert (Pp : (provable SS raw num n inputs witnesses -> length (padded ws) = (2 ^ (k + s))%nat)).
  { intros (_ & _ & _ & _ & B & _). rewrite (padded_length K SS), firstn_length, Nat.min_l, Ek, Nat.pow_add_r by (try lia; revert B; apply Forall_impl; intros a Q; symmetry; exact (pow2_above_unique _ _ _ Q (next_pow2_above _))). reflexivity. }
  destruct (packing_poly_commit K G _ (padded ws) _ wr true) as [[cw wb]| |] eqn:Epk.
  2:{ exfalso. unfold packing_poly_commit in Epk. destruct (negb _); discriminate. }
  2:{ left. split; [reflexivity|]. intro Q. destruct (packing_total K G (mc_gens K G (pc_gen_n K G (hp_pc K G p))) (padded ws) (mc_h K G (pc_gen_n K G (hp_pc K G p))) wr true _ (Pp Q)) as [r Er]. congruence. }
  cbn [rbind]. match goal with |- context [eval_outputs K G ch (outs xs) ?t] => set (t0 := t) end.
  destruct (outputs_ok xs k t0 Lxs) as (qa & q & t1 & EO & Lqa & Lq). rewrite EO. cbn [rbind]. set (u := V (outs xs) qa q) in *.
  replace (S (length raw) - 1)%nat with (length raw) by lia.
  destruct (length raw) as [|d] eqn:Ed; [destruct raw; [congruence|discriminate]|].
  assert (Hhi : exists hi, nth_error (c_layers c) (S d) = Some hi /\ l_count hi = length (last raw [])).
  { cbn [c_layers built nth_error]. rewrite nth_error_map, (last_nth raw [] d Ed). destruct (nth_error raw d) as [l|] eqn:El; [|apply nth_error_None in El; lia]. exists (mid l). split; [reflexivity|]. rewrite (nth_error_nth _ _ [] El). reflexivity. }
  destruct Hhi as (hi & Hhi & Chi).
  set (l0 := input_new ni na). assert (H0 : nth_error (c_layers c) 0 = Some l0) by reflexivity.
  assert (Hcnt : forall d hi, nth_error (c_layers c) (S d) = Some hi -> l_count hi = length (l_gates hi)).
  { intros d' hi' E. cbn [c_layers built nth_error] in E. rewrite nth_error_map in E. destruct (nth_error raw d'); [|discriminate]. injection E as <-. cbn [mid l_count l_gates]. rewrite mk_length. reflexivity. }
  assert (Hn : length (map full xs) = (2 ^ k)%nat) by (rewrite map_length; exact Lxs).
  assert (Hu : u = V (lay K (map full xs) (S d)) qa q * 1 + V (lay K (map full xs) (S d)) qa q * 0) by (rewrite O2; unfold u; ring).
  destruct (layers_ok K G ch p c (map full xs) k zs l0 two three (runs_full xs Hsm) Hn Hcnt H0 d hi u 0 1 0 qa q q 0 0 0 0 (com (hp_1 K G p) [u] 0) (com (hp_1 K G p) [u] 0) (MG "comm_claim_a0" (com (hp_1 K G p) [u] 0) :: t1) Hhi Lqa ltac:(rewrite Chi; exact Lq) ltac:(rewrite Chi; exact Lq) Hu) as [LO LP].
  assert (Sh : steps_ok c (S d) <-> shape (2 * SS) raw).
  { rewrite <- Ed, <- (count0 l0 H0). apply shape_steps. rewrite (count0 l0 H0). apply np_iff. exists (S s). reflexivity. }
  rewrite <- Ek in *.
  destruct (Nat.eq_dec k 0) as [K0|K1].
  { left. rewrite LP by (left; exact K0). split; [reflexivity|]. intros (_ & _ & _ & _ & _ & k' & s' & Q & Q2 & _). rewrite Ek in Q. apply Nat.pow_inj_r in Q; lia. }
  destruct (steps_dec c (S d)) as [St|St].
  2:{ left. rewrite LP by (right; exact St). split; [reflexivity|]. intros (_ & _ & Q & _). apply St, Sh, Q. }
  destruct (LO ltac:(lia) St) as (pfs & rs & rl & rr & rx & ry & t2 & EL & EC & Lrs & Lrl & Lrr). clear LO LP.
  rewrite <- Ek in EL, EC. rewrite EL. cbn [rbind].
  rewrite (count0 l0 H0) in Lrl, Lrr. assert (L2 : log2c (next_pow2 (2 * SS)) = S s). { rewrite (proj2 (np_iff (2 * SS)) (ex_intro _ (S s) eq_refl)). unfold log2c. change (2 * SS)%nat with (2 ^ S s)%nat. apply Nat.log2_up_pow2. lia. }
  rewrite L2 in Lrl, Lrr. destruct rl as [|r0 r0t]; [discriminate|]. destruct rr as [|r1' r1t]; [discriminate|]. injection Lrl as Lrl. injection Lrr as Lrr.
  assert (Lpt : length (rs ++ r0t) = (k + s)%nat) by (rewrite app_length; lia).
  destruct (Nat.eq_dec (length (padded ws)) (2 ^ (k + s))) as [El|Nl]; [destruct (le_dec (2 ^ (k + s - (k + s) / 2)) (pc_n K G (hp_pc K G p))) as [Ef|Nf]|].
  2:{ left. rewrite open_bad by (rewrite Lpt; tauto). split; [reflexivity|]. intros (_ & _ & _ & _ & _ & k' & s' & Q & _ & Q2 & Q3). apply Nf. rewrite Ek in Q. apply Nat.pow_inj_r in Q; [|lia]. apply Nat.pow_inj_r in Q2; [|lia]. subst k' s'. cbn [hp_pc pc_n hparams_new]. apply Nat.pow_le_mono_r; lia. }
  2:{ left. rewrite open_bad by (rewrite Lpt; tauto). split; [reflexivity|]. intro Q. apply Nl, Pp, Q. }
  right. assert (Pr : provable SS raw num n inputs witnesses).
  { split; [exact Li|]. split; [exact Lw|]. split; [apply Sh, St|]. split; [exact Wi|]. split.
    - assert (Q : Forall (fun v => next_pow2 (length v) = SS) ws). { apply (padded_short K); [exact Ww|apply np_iff; eauto|]. rewrite El, firstn_length, Nat.min_l, Nat.pow_add_r by lia. congruence. }
      revert Q. apply Forall_impl. intros a Q. rewrite <- Q. apply next_pow2_above.
    - exists k, s. split; [exact Ek|]. split; [lia|]. split; [reflexivity|]. cbn [hp_pc pc_n hparams_new] in Ef. apply (Nat.pow_le_mono_r_iff 2); [lia|exact Ef]. }
  split; [exact Pr|]. exists k, cw, wb, pfs, rs, r0, r0t, r1', r1t, rx, ry, t2. repeat (split; [first [assumption|reflexivity]|]).
  intros pf0 y0 eq0 pf1 y1 eq1. unfold hx_verify. cbn [hx_witness hx_proofs hx_prod0 hx_prod1 hx_y0 hx_y1 hx_eq0 hx_eq1]. change (c_depth c) with (S (length raw)). rewrite Ed. cbn [Nat.eqb].
  assert (Lo : length (outs xs) = n) by (unfold outs; rewrite map_length; congruence). rewrite Lo, Pn, Nat.eqb_refl. cbn [negb]. destruct (Nat.ltb_spec (length inputs) n); [lia|]. fold t0. rewrite EO. cbn [rbind]. fold u.
  replace (S (S d) - 1)%nat with (S d) by lia. rewrite EC. reflexivity.
Qed.
Theorem prover_total : (forall l t, ch l t <> 0) -> provable SS raw num n inputs witnesses -> exists pf, run_p = Ok (pf, outs xs).
Proof.
  intros NZ P. destruct prover_cases as [[_ N]|(_ & k & cw & wb & pfs & rs & r0 & r0t & r1' & r1t & rx & ry & t2 & En & L1 & L2 & L3 & Lp & Lf & Epk & ER & _)]; [contradiction|]. rewrite ER.
  assert (Lb : length wb = (2 ^ ((k + s) / 2))%nat). { destruct (packing_ok K G _ _ _ _ _ (k + s) _ _ Lp Epk (repeat 0 ((k + s) / 2)) (repeat 0 (k + s - (k + s) / 2))) as [Q _]; [apply repeat_length|apply repeat_length|exact Q]. }
  assert (N1 : mc_gens K G (pc_gen_1 K G (hp_pc K G p)) <> []) by discriminate.
  assert (Eg : length (mc_gens K G (pc_gen_n K G (hp_pc K G p))) = pc_n K G (hp_pc K G p)) by (cbn [hp_pc pc_gen_n mc_gens hparams_new mc_new pc_n]; rewrite map_length, seq_length; reflexivity).
  destruct (open_total K G ch p Eg NZ N1 (padded ws) wb rs r0 r0t (V (lay K (map full xs) 0) rs (r0 :: r0t)) rx e0 t2) as [[[[pf0 y0] eq0] t3] E]; try (rewrite app_length, L1, L2; assumption). rewrite E. cbn [rbind].
  destruct (open_total K G ch p Eg NZ N1 (padded ws) wb rs r1' r1t (V (lay K (map full xs) 0) rs (r1' :: r1t)) ry e1 t3) as [[[[pf1 y1] eq1] t4] E']; try (rewrite app_length, L1, L3; assumption). rewrite E'. cbn [rmap]. eauto.
Qed.
Theorem prover_panics : ~ provable SS raw num n inputs witnesses -> run_p = Panic.
Proof. intro N. destruct prover_cases as [[E _]|[P _]]; [exact E|contradiction]. Qed.
Theorem prover_complete pf os : run_p = Ok (pf, os) -> (forall i w, In (i, w) xs -> length i = length w) -> os = outs xs /\ hx_verify K G ch p pf os inputs c ch_hash p_hash = Ok true.
Proof.
  intros E Hl. destruct prover_cases as [[E' _]|(P & k & cw & wb & pfs & rs & r0 & r0t & r1' & r1t & rx & ry & t2 & En & L1 & L2 & L3 & Lp & Lf & Epk & ER & EV)]; [congruence|]. rewrite ER in E.
  destruct (hx_open K G ch p (padded ws) wb rs (r0 :: r0t) _ rx e0 t2) as [[[[pf0 y0] eq0] t3]| |] eqn:O0; cbn [rbind] in E; try discriminate.
  destruct (hx_open K G ch p (padded ws) wb rs (r1' :: r1t) _ ry e1 t3) as [[[[pf1 y1] eq1] t4]| |] eqn:O1; cbn [rmap] in E; try discriminate. injection E as <- <-. split; [reflexivity|]. rewrite EV.
  destruct P as (Li & Lw & _ & Wi & Ww & _).
  assert (Ww' : Forall (fun v => next_pow2 (length v) = SS) ws) by (revert Ww; apply Forall_impl; intros a Q; symmetry; exact (pow2_above_unique _ _ _ Q (next_pow2_above _))).
  assert (Ll : length ins = length ws) by (rewrite !firstn_length; lia).
  assert (Wi' : Forall (fun v => next_pow2 (length v) = SS) ins).
  { apply Forall_forall. intros x I. apply (In_nth _ _ []) in I. destruct I as (j & Hj & <-). rewrite Forall_forall in Ww'. rewrite (Hl (nth j ins []) (nth j ws [])).
    - apply Ww', nth_In. lia.
    - rewrite <- combine_nth by exact Ll. apply nth_In. rewrite combine_length. lia. }
  assert (Lay : lay K (map full xs) 0 = map (fun '(i, w) => intended_layer SS i w) xs).
  { unfold lay. rewrite map_map. apply map_ext_in. intros [i w] I. unfold full. cbn [fst snd nth]. apply layer_same, Hl, I. }
  assert (Lws : length ws = (2 ^ k)%nat) by (rewrite firstn_length; lia).
  assert (Key : forall q0 qt, length qt = s -> (length (padded ins) <= 2 ^ length (rs ++ qt))%nat /\ V (lay K (map full xs) 0) rs (q0 :: qt) = (1 - q0) * mle (padded ws) (rs ++ qt) + q0 * mle (padded ins) (rs ++ qt)).
  { intros q0 qt Lt. split; [rewrite (padded_length K SS) by exact Wi'; rewrite Ll, Lws, app_length, L1, Lt, Nat.pow_add_r; lia|].
    rewrite Lay, (V_split K s) by (try assumption; try (rewrite Lws, L1; lia); revert Ww'; apply Forall_impl; intros a Q; rewrite <- Q; apply np_le).
    rewrite !(padded_mle K s) by (try assumption; rewrite ?Ll, Lws, L1; lia). reflexivity. }
  assert (E1 : hp_1 K G p = pc_gen_1 K G (hp_pc K G p)) by reflexivity. assert (Eh : mc_h K G (pc_gen_n K G (hp_pc K G p)) = mc_h K G (pc_gen_1 K G (hp_pc K G p))) by reflexivity.
  assert (Eg : length (mc_gens K G (pc_gen_n K G (hp_pc K G p))) = pc_n K G (hp_pc K G p)) by (cbn [hp_pc pc_gen_n mc_gens hparams_new mc_new pc_n]; rewrite map_length, seq_length; reflexivity).
  rewrite (open_complete K G ch p E1 Eh Eg _ _ _ _ ins _ _ _ _ _ _ _ _ _ _ Epk O0) by (intros a b Q; injection Q as <- <-; apply Key, L2). cbn [rbind].
  rewrite (open_complete K G ch p E1 Eh Eg _ _ _ _ ins _ _ _ _ _ _ _ _ _ _ Epk O1) by (intros a b Q; injection Q as <- <-; apply Key, L3). reflexivity.
Qed.
End Main.
End S.
(** ** As stated in Properties24 *)
Section Final.
Variable K : Fld.
Variable G : Grp K.
Variable ch : oracle K G.
Variables (num : nat) (r1 : nat -> G) (g : G) (r3 r4 : nat -> G) (ni na : nat) (raw : list raw_layer) (c : circuit) (S : nat).
Variables (inputs witnesses : list (list K)) (n : nat) (ch_hash p_hash : K) (wr : nat -> K) (zs : nat -> zrand K) (e0 e1 : erand K).
Notation p := (hparams_new K G num r1 g r3 r4).
Notation xs := (combine (firstn n inputs) (firstn n witnesses)).
Notation run_p := (hx_prover K G ch p witnesses inputs c ch_hash p_hash n wr zs e0 e1).
Hypothesis two : (1 + 1 : K) <> 0.
Hypothesis three : (1 + 1 + 1 : K) <> 0.
Hypothesis HS : pow2_above (Nat.max ni na) S.
Hypothesis Hc : circuit_new ni na raw = Ok c.
Hypothesis Hraw : raw <> [].
Theorem hyrax_total : (forall l t, ch l t <> 0) -> provable S raw num n inputs witnesses -> exists pf, run_p = Ok (pf, map (fun '(i, w) => sem (actual_layer S i w) raw) xs).
Proof. destruct (circuit_new_inv ni na raw c S HS Hc) as [HL ->]. destruct HS as (s & Es & HS'). clear HS'. rewrite Es in *. apply prover_total; assumption. Qed.
Theorem hyrax_panics : ~ provable S raw num n inputs witnesses -> run_p = Panic.
Proof. destruct (circuit_new_inv ni na raw c S HS Hc) as [HL ->]. destruct HS as (s & Es & HS'). clear HS'. rewrite Es in *. apply prover_panics; assumption. Qed.
Theorem hyrax_complete pf os : run_p = Ok (pf, os) -> (forall i w, In (i, w) xs -> length i = length w) ->
  os = map (fun '(i, w) => sem (intended_layer S i w) raw) xs /\ hx_verify K G ch p pf os inputs c ch_hash p_hash = Ok true.
Proof.
  destruct (circuit_new_inv ni na raw c S HS Hc) as [HL ->]. destruct HS as (s & Es & HS'). clear HS'. rewrite Es in *. intros E Hl.
  destruct (prover_complete K G ch num r1 g r3 r4 ni na raw s two three HS HL Hraw inputs witnesses n ch_hash p_hash wr zs e0 e1 pf os E Hl) as [-> V]. split; [|exact V].
  unfold outs. apply map_ext_in. intros [i w] I. rewrite layer_same by (apply Hl, I). reflexivity.
Qed.
End Final.
