(** The plain Libra prover and verifier on circuits built by `Circuit::new`; the input layer. *)
From Verif Require Import Field Poly ProofsPC SpecMle ProofsMle SpecLibra ProofsLibra ProofsLibra2 ProofsLibra3.
From Verif Require Import ModelLibra.
Local Open Scope string_scope.
Local Open Scope list_scope.
Local Open Scope fld_scope.
Section P.
Variable K : Fld.
Variable G : Type.
Variable ch : oracle K G.
Add Field KfLib4 : (f_laws K).
Notation tr := (transcript K G).
Implicit Types inputs aux : list K.

Lemma circuit_new_inv ni na raw c S : pow2_above (Nat.max ni na) S -> circuit_new ni na raw = Ok c -> legal (2 * S) raw /\ c = built ni na raw.
Proof.
  intros P H. destruct (circuit_new_ok ni na raw S P) as [A B]. assert (legal (2 * S) raw \/ ~ legal (2 * S) raw) as [L|L].
  { generalize (2 * S)%nat as n. clear. induction raw as [|l raw IH]; intro n; [left; exact I|]. cbn [legal]. destruct (raw_ok_dec n l) as [Q|Q]; [|right; intros [X _]; contradiction]. destruct (IH (length l)); [left; split; assumption|right; tauto]. }
  - split; [exact L|]. rewrite (A L) in H. congruence.
  - rewrite (B L) in H. discriminate.
Qed.
Lemma sems_length raw : forall p : list K, length (sems K p raw) = length raw.
Proof. induction raw as [|l raw IH]; intro p; [reflexivity|]. cbn [sems length]. rewrite IH. reflexivity. Qed.
Lemma pow_exact n k : n = (2 ^ k)%nat -> n = (2 ^ Nat.log2_up n)%nat.
Proof. intros ->. rewrite Nat.log2_up_pow2 by lia. reflexivity. Qed.
Lemma built_length ni na raw : length (c_layers (built ni na raw)) = c_depth (built ni na raw).
Proof. unfold built. cbn [c_layers c_depth length]. rewrite map_length. reflexivity. Qed.
(** The length of layer i against its bits. *)
Lemma built_sizes ni na raw S inp i lo v : pow2_above (Nat.max ni na) S -> length inp = (2 * S)%nat -> legal (2 * S) raw -> nth_error (c_layers (built ni na raw)) i = Some lo -> nth_error (inp :: sems K inp raw) i = Some v ->
  (i = 0 /\ length v = 2 ^ l_bits lo)%nat \/ exists l j, i = Datatypes.S j /\ nth_error raw j = Some l /\ length v = length l /\ l_bits lo = Nat.log2_up (length l).
Proof.
  intros P Li L Hlo Hv. destruct i as [|j].
  - left. split; [reflexivity|]. cbn [c_layers built nth_error] in Hlo, Hv. injection Hlo as <-. injection Hv as <-. rewrite input_new_bits. cbn [l_bits]. rewrite Li, (pow2_above_unique _ _ _ P (next_pow2_above _)). unfold next_pow2. reflexivity.
  - right. cbn [c_layers built nth_error] in Hlo. rewrite nth_error_map in Hlo. destruct (nth_error raw j) as [l|] eqn:El; [|discriminate]. injection Hlo as <-. exists l, j. split; [reflexivity|]. split; [exact El|]. split; [|reflexivity].
    rewrite <- Li in L. destruct (sems_nth K raw inp (Datatypes.S j) v L Hv) as (_ & _ & C). apply (C l j eq_refl El).
Qed.
Lemma libra_complete ni na raw c S inputs aux hash : (1 + 1 : K) <> 0 -> pow2_above (Nat.max ni na) S -> circuit_new ni na raw = Ok c -> raw <> [] -> inner_pow2 raw ->
  (length inputs <= S)%nat -> (length aux <= S)%nat -> exists pf, gkr_prove K G ch c inputs aux hash = Ok (pf, sem (actual_layer S inputs aux) raw) /\
    gkr_verify K G ch c (sem (actual_layer S inputs aux) raw) (actual_layer S inputs aux) hash pf = Ok true.
Proof.
  intros two P Hc Hr Hi L1 L2. destruct (circuit_new_inv _ _ _ _ _ P Hc) as [L ->]. set (inp := actual_layer S inputs aux). assert (length inp = (2 * S)%nat) as Li by (apply actual_length; assumption).
  assert (evaluate K (built ni na raw) inputs aux = Ok (inp :: sems K inp raw)) as Ev. { rewrite (evaluate_ok K ni na raw S inputs aux P L). apply Nat.leb_le in L1, L2. rewrite L1, L2. reflexivity. }
  destruct (gkr_complete K G ch two (built ni na raw) (inp :: sems K inp raw) inputs aux hash) as (pf & i' & o' & Pr & E0 & E1 & V).
  - apply (built_run K ni na raw S inp P Li L).
  - exact Ev.
  - cbn [c_depth built]. destruct raw; [contradiction|cbn; lia].
  - apply built_length.
  - intros i lo v Hi' Hlo Hv. cbn [c_depth built] in Hi'. destruct (built_sizes ni na raw S inp i lo v P Li L Hlo Hv) as [[_ E]|(l & j & -> & El & E1 & E2)]; [exact E|]. rewrite E1, E2.
    rewrite inner_nth in Hi. destruct (Hi j l) as (k & Ek); [lia|exact El|]. apply (pow_exact _ k Ek).
  - cbn [nth_error] in E0. injection E0 as <-. cbn [c_depth built] in E1. replace (Datatypes.S (length raw) - 1)%nat with (length raw) in E1 by lia. pose proof (sems_last K raw inp) as Q. rewrite Q in E1. injection E1 as <-. exists pf. split; assumption.
Qed.

(** ** The prover panics when an inner layer is not a power of two *)
Definition noerr {A} (r : res A) : Prop := match r with Err _ => False | _ => True end.
Lemma noerr_bind {A B} (m : res A) (f : A -> res B) : noerr m -> (forall a, noerr (f a)) -> noerr (rbind m f).
Proof. destruct m; cbn; intros; auto. Qed.
Lemma noerr_map {A B} (m : res A) (f : A -> B) : noerr m -> noerr (rmap f m).
Proof. destruct m; cbn; auto. Qed.
Lemma kget_noerr (l : list K) i : noerr (kget K l i). Proof. unfold kget. destruct (nth_error l i); exact I. Qed.
Lemma add_at_noerr (l : list K) i x : noerr (add_at K l i x). Proof. unfold add_at. destruct (nth_error l i); exact I. Qed.
Lemma hg_noerr eg v gs : forall acc, noerr (foldr (hg_gate K eg v) acc gs).
Proof.
  induction gs as [|g gs IH]; intro acc; [exact I|]. cbn [foldr]. apply noerr_bind; [|exact IH]. destruct acc as [[m a1] a2]. unfold hg_gate. destruct (Nat.eqb (gt_op g) 1); [|destruct (Nat.eqb (gt_op g) 0); [|exact I]].
  - apply noerr_bind; [apply kget_noerr|]. intro e. apply noerr_bind; [apply kget_noerr|]. intro y. apply noerr_map, add_at_noerr.
  - apply noerr_bind; [apply kget_noerr|]. intro e. apply noerr_bind; [apply add_at_noerr|]. intro y. apply noerr_bind; [apply kget_noerr|]. intro y'. apply noerr_map, add_at_noerr.
Qed.
Lemma prove_layers_bad (two : (1 + 1 : K) <> 0) c evals : run K c evals -> length evals = length (c_layers c) -> forall d al be gu gv ru_ rv_ (t : tr) hi out,
  nth_error (c_layers c) d = Some hi -> nth_error evals d = Some out -> length gu = l_bits hi -> length gv = l_bits hi -> al * ru_ + be * rv_ = al * mle out gu + be * mle out gv ->
  (exists i lo v, (i < d)%nat /\ nth_error (c_layers c) i = Some lo /\ nth_error evals i = Some v /\ length v <> (2 ^ l_bits lo)%nat) ->
  prove_layers K G ch c evals d al be gu gv ru_ rv_ t = Panic.
Proof.
  intros Hrun Hlen. induction d as [|d IH]; intros al be gu gv ru_ rv_ t hi out Hhi Hout Lgu Lgv E (i & lo_ & v_ & Hi & Hlo_ & Hv_ & Hbad); [lia|].
  assert (d < length (c_layers c))%nat as Ld by (assert (S d < length (c_layers c))%nat by (apply nth_error_Some; congruence); lia).
  destruct (nth_error (c_layers c) d) as [lo|] eqn:Elo; [|apply nth_error_None in Elo; lia].
  destruct (nth_error evals d) as [v|] eqn:Ev; [|apply nth_error_None in Ev; lia].
  destruct (Hrun d lo hi v Elo Hhi Ev) as (Hg & Hix & Hb & Ho). rewrite Hout in Ho. injection Ho as ->.
  cbn [prove_layers]. unfold lget, vget. rewrite Elo, Hhi, Ev. cbn [rbind].
  destruct (Nat.eq_dec (length v) (2 ^ l_bits lo)) as [Lv|Nv].
  - destruct (layer_step K G ch two v (l_gates hi) (l_bits lo) gu gv al be ru_ rv_ t) as (g1 & p1 & ru & t1 & g2 & p2 & rv & t2 & I1 & P1 & I2 & P2 & Lru & Lrv & S2 & N1 & N2 & _); try assumption; try congruence.
    rewrite I1. cbn [rbind]. rewrite P1. cbn [rbind]. rewrite I2. cbn [rbind]. rewrite P2. cbn [rbind]. destruct d as [|d'].
    + assert (i = 0)%nat as -> by lia. rewrite Elo in Hlo_. rewrite Ev in Hv_. congruence.
    + unfold draw. cbv beta iota zeta. rewrite S2, N2.
      rewrite (IH _ _ ru rv (mle v ru) (mle v rv) _ lo v); try assumption; try reflexivity. exists i, lo_, v_. repeat split; try assumption.
      destruct (Nat.eq_dec i (S d')) as [->|]; [|lia]. rewrite Elo in Hlo_. rewrite Ev in Hv_. congruence.
  - assert (noerr (initialize_phase_one K gu gv (l_gates hi) v (l_bits lo) al be)) as NE. { unfold initialize_phase_one. apply noerr_bind; [unfold evals_g; destruct (Nat.leb _ _); exact I|]. intro eg. apply hg_noerr. }
    destruct (initialize_phase_one K gu gv (l_gates hi) v (l_bits lo) al be) as [[[m a1] a2]| |]; [|destruct NE|reflexivity]. cbn [rbind]. unfold phase_one_prover. apply Nat.eqb_neq in Nv. rewrite Nv, !andb_false_r. reflexivity.
Qed.
Lemma libra_panics ni na raw c S inputs aux hash : (1 + 1 : K) <> 0 -> pow2_above (Nat.max ni na) S -> circuit_new ni na raw = Ok c -> ~ inner_pow2 raw -> gkr_prove K G ch c inputs aux hash = Panic.
Proof.
  intros two P Hc Hn. destruct (circuit_new_inv _ _ _ _ _ P Hc) as [L ->]. unfold gkr_prove. rewrite (evaluate_ok K ni na raw S inputs aux P L).
  destruct (Nat.leb_spec (length inputs) S) as [L1|]; [|reflexivity]. destruct (Nat.leb_spec (length aux) S) as [L2|]; [|reflexivity]. cbn [andb]. set (inp := actual_layer S inputs aux). assert (length inp = (2 * S)%nat) as Li by (apply actual_length; assumption).
  change (c_depth (built ni na raw)) with (Datatypes.S (length raw)). cbv iota beta. unfold vget at 1. rewrite sems_last. cbn [rbind vget nth_error].
  assert (length (inp :: sems K inp raw) = length (c_layers (built ni na raw))) as Le. { cbn [length c_layers built]. rewrite map_length, sems_length. reflexivity. }
  destruct (nth_error (c_layers (built ni na raw)) (length raw)) as [top|] eqn:Et; [|apply nth_error_None in Et; rewrite built_length in Et; cbn [c_depth built] in Et; exact (False_ind _ (Nat.nle_succ_diag_l _ Et))]. unfold lget. rewrite Et. cbn [rbind].
  assert (exists j l, (Datatypes.S j < length raw)%nat /\ nth_error raw j = Some l /\ forall k, length l <> (2 ^ k)%nat) as (j & l & Hj & El & Hl).
  { clear -Hn. induction raw as [|l raw IH]; [destruct Hn; exact I|]. destruct raw as [|l' raw]; [destruct Hn; exact I|]. change (inner_pow2 (l :: l' :: raw)) with ((exists k, length l = (2 ^ k)%nat) /\ inner_pow2 (l' :: raw)) in Hn.
    destruct (Nat.eq_dec (length l) (2 ^ Nat.log2_up (length l))) as [E|N].
    - destruct IH as (j & x & A & B & C); [intro Q; apply Hn; split; [eauto|exact Q]|]. exists (S j), x. repeat split; [cbn [length] in *; lia|exact B|exact C].
    - exists 0%nat, l. repeat split; [cbn; lia|]. intros k Ek. apply N. apply (pow_exact _ k Ek). }
  destruct (eval_output_ok K G ch (sem inp raw) (l_bits top) (gkr_init K G hash inp (sem inp raw))) as (gu & t & EO & Lgu).
  { destruct (built_sizes ni na raw S inp (length raw) top (sem inp raw) P Li L Et (sems_last K raw inp)) as [[_ E]|(l' & j' & _ & _ & E1 & E2)]; [lia|]. rewrite E1, E2. apply log2_up_le. }
  rewrite EO. cbn [rbind]. rewrite (prove_layers_bad two _ _ (built_run K ni na raw S inp P Li L) Le _ _ _ _ _ _ _ _ top (sem inp raw)); [reflexivity|exact Et|apply sems_last|exact Lgu|rewrite repeat_length; exact Lgu|ring|].
  destruct (nth_error (c_layers (built ni na raw)) (Datatypes.S j)) as [lo|] eqn:Elo; [|apply nth_error_None in Elo; rewrite <- Le in Elo; cbn [length] in Elo; rewrite sems_length in Elo; lia].
  destruct (nth_error (inp :: sems K inp raw) (Datatypes.S j)) as [v|] eqn:Ev; [|apply nth_error_None in Ev; rewrite Le, built_length in Ev; cbn [c_depth built] in Ev; lia].
  exists (Datatypes.S j), lo, v. repeat split; try assumption. destruct (built_sizes ni na raw S inp (Datatypes.S j) lo v P Li L Elo Ev) as [[Q _]|(l' & j' & Q & El' & E1 & E2)]; [discriminate|]. injection Q as <-. rewrite El in El'. injection El' as <-. rewrite E1. apply Hl.
Qed.

(** ** The input layer *)
Lemma layer_inputs S inputs aux i : (length inputs <= S)%nat -> (i < length inputs)%nat -> nth (length aux + (S - length inputs) + i) (actual_layer S inputs aux) 0 = nth i inputs 0.
Proof.
  intros L H. unfold actual_layer. rewrite app_nth2 by lia. replace (length aux + (S - length inputs) + i - length aux)%nat with (S - length inputs + i)%nat by lia. rewrite app_nth2 by (rewrite repeat_length; lia). rewrite repeat_length.
  replace (S - length inputs + i - (S - length inputs))%nat with i by lia. apply app_nth1. exact H.
Qed.
Lemma firstn_exact (u w : list K) n : length u = n -> firstn n (u ++ w) = u.
Proof. intros <-. rewrite firstn_app, firstn_all, Nat.sub_diag. cbn [firstn]. apply app_nil_r. Qed.
Lemma skipn_exact (u w : list K) n : length u = n -> skipn n (u ++ w) = w.
Proof. intros <-. rewrite skipn_app, skipn_all, Nat.sub_diag. reflexivity. Qed.
Lemma intended_split k inputs aux r0 r : length r = k -> (length inputs <= 2 ^ k)%nat -> (length aux <= 2 ^ k)%nat ->
  mle (intended_layer (2 ^ k) inputs aux) (r0 :: r) = (1 - r0) * mle aux r + r0 * mle inputs r.
Proof.
  intros R L1 L2. rewrite mle_cons, R. unfold intended_layer. rewrite app_assoc. assert (length (aux ++ repeat (0 : K) (2 ^ k - length aux)) = (2 ^ k)%nat) as E by (rewrite app_length, repeat_length; lia).
  rewrite (firstn_exact _ _ _ E), (skipn_exact _ _ _ E), !mle_pad. reflexivity.
Qed.
Lemma mle_inj k (v w : list K) : length v = (2 ^ k)%nat -> length w = (2 ^ k)%nat -> (forall r, length r = k -> mle v r = mle w r) -> v = w.
Proof.
  intros Lv Lw H. apply (nth_ext _ _ 0 0); [congruence|]. intros i Hi. assert (In i (map bits_val (cube k))) as Q by (rewrite cube_vals; apply in_seq; lia). apply in_map_iff in Q. destruct Q as (bs & <- & Q). apply cube_in in Q.
  specialize (H (map bit bs)). rewrite map_length in H. specialize (H Q). rewrite !mle_bits in H. exact H.
Qed.
Lemma split_exact k inputs aux : (length inputs <= 2 ^ k)%nat -> (length aux <= 2 ^ k)%nat ->
  (forall r0 r, length r = k -> mle (actual_layer (2 ^ k) inputs aux) (r0 :: r) = (1 - r0) * mle aux r + r0 * mle inputs r) <-> actual_layer (2 ^ k) inputs aux = intended_layer (2 ^ k) inputs aux.
Proof.
  intros L1 L2. split; intro H.
  - apply (mle_inj (S k)); [rewrite actual_length by assumption; reflexivity|unfold intended_layer; rewrite !app_length, !repeat_length; cbn [Nat.pow]; lia|].
    intros [|r0 r] R; [discriminate|]. injection R as R. rewrite H, intended_split by assumption. reflexivity.
  - intros r0 r R. rewrite H. apply intended_split; assumption.
Qed.
Lemma layer_same S inputs aux : length inputs = length aux -> actual_layer S inputs aux = intended_layer S inputs aux.
Proof. intro H. unfold actual_layer, intended_layer. rewrite H. reflexivity. Qed.
Lemma layer_differs S inputs aux : (length inputs <= S)%nat -> (length aux <= S)%nat -> length inputs <> length aux -> (forall x, In x inputs -> x <> 0) -> inputs <> [] -> actual_layer S inputs aux <> intended_layer S inputs aux.
Proof.
  intros L1 L2 N Z E H. unfold actual_layer, intended_layer in H. apply app_inv_head in H. 
  assert (forall a b (u : list K) w w', (a < b)%nat -> u <> [] -> (forall x, In x u -> x <> 0) -> repeat 0 a ++ u ++ w = repeat 0 b ++ w' -> False) as Q.
  { clear. induction a as [|a IH]; intros b u w w' L Nu Zu E; (destruct b as [|b]; [lia|]).
    - cbn [repeat app] in E. destruct u as [|x u]; [contradiction|]. injection E as E _. apply (Zu x); [left; reflexivity|exact E].
    - cbn [repeat app] in E. injection E as E. apply (IH b u w w'); try assumption. lia. }
  destruct (Nat.lt_ge_cases (S - length inputs) (S - length aux)) as [B|B]; [apply (Q _ _ _ _ _ B E Z H)|]. assert (S - length aux < S - length inputs)%nat as B' by lia. symmetry in H. apply (Q _ _ _ _ _ B' E Z H).
Qed.
End P.
