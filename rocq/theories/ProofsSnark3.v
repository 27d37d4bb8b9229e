(** Extensions of concatenated tables and of fingerprints; openings. *)
From Verif Require Import Field Poly Module ModTac ModelTranscript ModelBulletproofs ModelMle SpecMle ProofsMle ModelLibra ProofsLibra ProofsLibra3 ModelSigma ProofsSigma3 ProofsSigma4 ModelSpartan ModelSpark SpecSpark ModelSnark ProofsSpark ProofsSpark2 ProofsSnark.
From Coq Require Import String List Lia.
Local Open Scope string_scope.
Local Open Scope list_scope.
Local Open Scope fld_scope.
Section S.
Variable K : Fld.
Add Field Kf : (f_laws K).
Notation all_len := (all_len K).
(** ** Blocks *)
Lemma next_pow2_mul b k : (1 <= b)%nat -> next_pow2 (b * 2 ^ k) = (next_pow2 b * 2 ^ k)%nat.
Proof. intro H. unfold next_pow2. rewrite Nat.log2_up_mul_pow2 by lia. rewrite Nat.pow_add_r. lia. Qed.
Lemma concat_length k (bs : list (list K)) : all_len k bs -> length (concat bs) = (length bs * 2 ^ k)%nat.
Proof. induction bs as [|b bs IH]; intro H; [reflexivity|]. cbn [concat length]. rewrite app_length, IH by exact (Forall_inv_tail H). pose proof (Forall_inv H) as Q. cbv beta in Q. lia. Qed.
Lemma concat_repeat n k : concat (repeat (repeat (0 : K) k) n) = repeat 0 (n * k).
Proof. induction n as [|n IH]; [reflexivity|]. cbn [repeat concat]. rewrite IH, <- repeat_app. f_equal. Qed.
Definition padb (k : nat) (bs : list (list K)) : list (list K) := bs ++ repeat (repeat 0 (2 ^ k)) (next_pow2 (length bs) - length bs).
Lemma pad_blocks k bs : bs <> [] -> all_len k bs -> pad2 (concat bs) = concat (padb k bs).
Proof.
  intros NE H. unfold pad2, padb. rewrite (concat_length k bs H), next_pow2_mul by (destruct bs; [congruence|cbn [length]; lia]). rewrite concat_app, concat_repeat. f_equal. f_equal. nia.
Qed.
Lemma padb_len k bs : all_len k bs -> all_len k (padb k bs).
Proof. intro H. apply Forall_app. split; [exact H|]. apply Forall_forall. intros x Hx. apply repeat_spec in Hx. subst x. apply repeat_length. Qed.
Lemma next_pow2_ge n : (n <= next_pow2 n)%nat.
Proof. exact (log2_up_le n). Qed.
Lemma padb_count k bs : length (padb k bs) = next_pow2 (length bs).
Proof. unfold padb. rewrite app_length, repeat_length. pose proof (next_pow2_ge (length bs)). lia. Qed.
Lemma pad2_length (l : list K) : length (pad2 l) = next_pow2 (length l).
Proof. unfold pad2. rewrite app_length, repeat_length. pose proof (next_pow2_ge (length l)). lia. Qed.
Lemma mle_zeros n r : mle (repeat (0 : K) n) r = 0.
Proof. rewrite <- (app_nil_l (repeat 0 n)), mle_pad. unfold mle. induction (cube (length r)) as [|b l IH]; [reflexivity|]. cbn [map fsum]. rewrite IH. destruct (bits_val b); cbn; ring. Qed.
Lemma padb_mles k bs r : map (fun b => mle b r) (padb k bs) = pad2 (map (fun b => mle b r) bs).
Proof.
  unfold padb, pad2. rewrite map_app, map_length. f_equal. generalize (next_pow2 (length bs) - length bs)%nat. induction n as [|n IH]; [reflexivity|]. cbn [repeat map]. rewrite IH, mle_zeros. reflexivity.
Qed.
Lemma firstn_concat k n : forall bs : list (list K), all_len k bs -> firstn (n * 2 ^ k) (concat bs) = concat (firstn n bs) /\ skipn (n * 2 ^ k) (concat bs) = concat (skipn n bs).
Proof.
  induction n as [|n IH]; intros bs H; [split; reflexivity|]. destruct bs as [|b bs]; [cbn [concat firstn skipn]; rewrite firstn_nil, skipn_nil; split; reflexivity|]. destruct (IH bs (Forall_inv_tail H)) as [A B]. pose proof (Forall_inv H) as Q. cbv beta in Q.
  cbn [concat firstn skipn]. cbn [Nat.mul]. rewrite firstn_app, skipn_app, Q. replace (2 ^ k + n * 2 ^ k - 2 ^ k)%nat with (n * 2 ^ k)%nat by lia. rewrite A, B. rewrite firstn_all2, skipn_all2 by lia. split; reflexivity.
Qed.
Lemma mle_blocks k cs : forall bs r, all_len k bs -> length bs = (2 ^ length cs)%nat -> length r = k -> mle (concat bs) (cs ++ r) = mle (map (fun b => mle b r) bs) cs.
Proof.
  induction cs as [|x cs IH]; intros bs r H L Lr.
  - destruct bs as [|b [|? ?]]; cbn in L; try discriminate. cbn [concat app map]. rewrite app_nil_r, mle_nil. reflexivity.
  - cbn [app]. rewrite !mle_cons. rewrite app_length, Lr, Nat.pow_add_r. destruct (firstn_concat k (2 ^ length cs) bs H) as [A B]. rewrite A, B, firstn_map, skipn_map. cbn [length Nat.pow] in L.
    rewrite <- (firstn_skipn (2 ^ length cs) bs) in H. apply Forall_app in H. destruct H as [H1 H2]. rewrite !IH; [reflexivity|exact H2|rewrite skipn_length; lia|exact Lr|exact H1|rewrite firstn_length; lia|exact Lr].
Qed.
Lemma to_one_ok cs : forall evals, length evals = (2 ^ length cs)%nat -> to_one K evals cs = Ok (mle evals cs).
Proof.
  induction cs as [|x cs IH] using rev_ind; intros evals L.
  - unfold to_one. cbn [rev foldr rbind]. destruct evals as [|e [|? ?]]; cbn in L; try discriminate. rewrite mle_nil. reflexivity.
  - unfold to_one in *. rewrite rev_app_distr. cbn [rev app foldr]. rewrite app_length in L. cbn [length] in L. rewrite Nat.add_1_r in L. destruct (bot_ok K x evals (length cs) L) as (w & E & Lw & Hw). rewrite E. cbn [rbind].
    rewrite IH by exact Lw. rewrite Hw by reflexivity. reflexivity.
Qed.
(** ** Fingerprints *)
Lemma mle_one n r : length r = n -> mle (repeat (1 : K) (2 ^ n)) r = 1.
Proof.
  revert r. induction n as [|n IH]; intros r L; destruct r as [|x r]; cbn [length] in L; try discriminate; [rewrite mle_nil; reflexivity|]. injection L as L. rewrite mle_cons, L. cbn [Nat.pow].
  replace (2 * 2 ^ n)%nat with (2 ^ n + 2 ^ n)%nat by lia. rewrite repeat_app. rewrite firstn_app, skipn_app, repeat_length, Nat.sub_diag, firstn_all2, skipn_all2 by (rewrite repeat_length; lia). cbn [firstn skipn app]. rewrite app_nil_r, !IH by exact L. ring.
Qed.
Lemma nth_ones n i : (i < n)%nat -> nth i (repeat (1 : K) n) 0 = 1.
Proof. intro H. rewrite (nth_indep _ 0 1) by (rewrite repeat_length; exact H). apply nth_repeat. Qed.
Variables gamma1 gamma2 : K.
Notation finger := (finger K gamma1 gamma2).
Lemma mle_finger n (a v t : list K) (d : K) r : length r = n -> mle (map (fun i => finger (nth i a 0) (nth i v 0) (nth i t 0 + d)) (seq 0 (2 ^ n))) r = finger (mle a r) (mle v r) (mle t r + d).
Proof.
  intro L. set (u1 := map (fun i => gamma1 * gamma1 * nth i a 0 + gamma1 * nth i v 0) (seq 0 (2 ^ n))). set (u2 := map (fun i => 1 * nth i u1 0 + 1 * nth i t 0) (seq 0 (2 ^ n))).
  assert (E1 : mle u1 r = gamma1 * gamma1 * mle a r + gamma1 * mle v r) by (apply mle_lin; intros i Hi; unfold u1; rewrite nth_map_seq; rewrite L in Hi; destruct (Nat.ltb_spec i (2 ^ n)); [reflexivity|lia]).
  assert (E2 : mle u2 r = 1 * mle u1 r + 1 * mle t r) by (apply mle_lin; intros i Hi; unfold u2; rewrite nth_map_seq; rewrite L in Hi; destruct (Nat.ltb_spec i (2 ^ n)); [reflexivity|lia]).
  rewrite (mle_lin K 1 (d - gamma2) u2 (repeat 1 (2 ^ n))).
  - rewrite mle_one by exact L. rewrite E2, E1. unfold SpecSpark.finger. ring.
  - intros i Hi. rewrite L in Hi. rewrite nth_map_seq. unfold u2, u1. rewrite !nth_map_seq. destruct (Nat.ltb_spec i (2 ^ n)); [|lia]. rewrite nth_ones by exact Hi. unfold SpecSpark.finger. ring.
Qed.
Lemma mle_trace mem d k l ts r : length l = (2 ^ k)%nat -> length ts = (2 ^ k)%nat -> length r = k ->
  mle (trace K gamma1 gamma2 mem d l ts) r = finger (mle (map of_nat l) r) (mle (map (fun a => nth a mem 0) l) r) (mle (map of_nat ts) r + d).
Proof.
  intros L1 L2 Lr. rewrite <- (mle_finger k) by exact Lr. f_equal. unfold trace. rewrite (map_combine_nth K (fun a s => finger (of_nat a) (nth a mem 0) (of_nat s + d)) l ts (2 ^ k)) by assumption.
  apply map_ext_in. intros i Hi. apply in_seq in Hi. rewrite !nth_map_nat by lia. reflexivity.
Qed.
Lemma mle_cells mem s acc r : length r = s ->
  mle (cells K gamma1 gamma2 mem (2 ^ s) acc) r = finger (mle (map of_nat (seq 0 (2 ^ s))) r) (mle mem r) (mle (map (fun a => of_nat (times acc a)) (seq 0 (2 ^ s))) r).
Proof.
  intro Lr. replace (mle (map (fun a => of_nat (times acc a)) (seq 0 (2 ^ s))) r) with (mle (map (fun a => of_nat (times acc a)) (seq 0 (2 ^ s))) r + 0) by ring. rewrite <- (mle_finger s) by exact Lr. f_equal. unfold cells. apply map_ext_in. intros i Hi. apply in_seq in Hi.
  rewrite !nth_map_nat by (rewrite seq_length; lia). rewrite seq_nth by lia. cbn [Nat.add]. rewrite fadd_0_r. reflexivity.
Qed.
Lemma of_nat_pow2 n : of_nat (K := K) (2 ^ n) = fpow (1 + 1) n.
Proof. induction n as [|n IH]; [reflexivity|]. cbn [Nat.pow fpow]. rewrite <- IH. unfold of_nat. rewrite Nat2Z.inj_mul, of_Z_mul. reflexivity. Qed.
Lemma of_nat_add a b : of_nat (K := K) (a + b) = of_nat a + of_nat b.
Proof. unfold of_nat. rewrite Nat2Z.inj_add. apply of_Z_add. Qed.
(** The extension of the addresses is the address itself, read as a number with field elements for bits. *)
Lemma mle_index (r : list K) : mle (map of_nat (seq 0 (2 ^ length r))) r = fsum (map (fun i => nth i r 0 * fpow (1 + 1) (length r - i - 1)) (seq 0 (length r))).
Proof.
  induction r as [|x r IH]; [rewrite mle_nil; reflexivity|]. rewrite mle_cons. cbn [length Nat.pow]. replace (2 * 2 ^ length r)%nat with (2 ^ length r + 2 ^ length r)%nat by lia. rewrite seq_app, map_app, firstn_app, skipn_app, map_length, seq_length, Nat.sub_diag, firstn_all2, skipn_all2 by (rewrite map_length, seq_length; lia).
  cbn [firstn skipn app Nat.add]. rewrite app_nil_r, IH.
  assert (E : mle (map of_nat (seq (2 ^ length r) (2 ^ length r))) r = fpow (1 + 1) (length r) + mle (map of_nat (seq 0 (2 ^ length r))) r).
  { rewrite (mle_lin K (fpow (1 + 1) (length r)) 1 (repeat 1 (2 ^ length r)) (map of_nat (seq 0 (2 ^ length r)))); [rewrite mle_one by reflexivity; ring|]. intros i Hi.
    rewrite !nth_map_nat by (rewrite seq_length; exact Hi). rewrite !seq_nth by exact Hi. rewrite of_nat_add, of_nat_pow2. rewrite nth_ones by exact Hi. cbn [Nat.add]. ring. }
  rewrite E, IH. set (sg := fsum (map (fun i => nth i r 0 * fpow (1 + 1) (length r - i - 1)) (seq 0 (length r)))).
  transitivity (x * fpow (1 + 1) (length r) + sg); [ring|]. cbn [seq map fsum]. cbn [nth]. f_equal; [f_equal; f_equal; lia|]. rewrite <- seq_shift, map_map. reflexivity.
Qed.
End S.

Section O.
Variable K : Fld.
Variable G : Grp K.
Variable ch : oracle K G.
Add Field Kf2 : (f_laws K).
Notation tr := (transcript K G).
Notation all_len := (all_len K).
(** What setup guarantees for a key that opens polynomials with [v] variables. *)
Definition key_for (p : pcp K G) (v : nat) : Prop :=
  mc_gens K G (pc_gen_1 K G p) <> [] /\ mc_h K G (pc_gen_n K G p) = mc_h K G (pc_gen_1 K G p) /\ (2 ^ (v - v / 2) <= length (mc_gens K G (pc_gen_n K G p)))%nat.
Lemma opens lbl jl (p : pcp K G) k bs commit rands ip (t : tr) : bs <> [] -> all_len k bs -> length rands = k -> key_for p (Nat.log2_up (length bs) + k) -> pack K G p (pad2 (concat bs)) = Ok commit ->
  (forall pf t', open_prove K G ch lbl jl p (pad2 (map (fun b => mle b rands) bs)) (pad2 (concat bs)) rands ip t = Ok (pf, t') ->
    open_verify K G ch lbl jl p (pad2 (map (fun b => mle b rands) bs)) rands commit pf t = Ok t') /\
  ((forall l t, ch l t <> 0) -> (Nat.log2_up (length bs) + k <= length (ip_bv K ip))%nat -> exists pf t', open_prove K G ch lbl jl p (pad2 (map (fun b => mle b rands) bs)) (pad2 (concat bs)) rands ip t = Ok (pf, t')).
Proof.
  intros NE H Lr (K1 & K2 & K3) Ec. unfold open_prove, open_verify. set (evals := pad2 (map (fun b => mle b rands) bs)). set (poly := pad2 (concat bs)) in *.
  assert (Le : length evals = (2 ^ Nat.log2_up (length bs))%nat) by (unfold evals; rewrite pad2_length, map_length; reflexivity).
  unfold log2c. rewrite Le, Nat.log2_up_pow2 by lia. destruct (draws K G ch lbl (Nat.log2_up (length bs)) t) as [cs t1] eqn:Ed.
  assert (Lcs : length cs = Nat.log2_up (length bs)).
  { clear -Ed. revert t cs t1 Ed. generalize (Nat.log2_up (length bs)). induction n as [|n IH]; intros t cs t1 E; cbn [draws] in E; [injection E as <- _; reflexivity|]. unfold draw in E. destruct (draws K G ch lbl n _) as [ys t2] eqn:E2. injection E as <- _. cbn. rewrite (IH _ _ _ E2). reflexivity. }
  rewrite (to_one_ok K cs evals) by (rewrite Le, Lcs; reflexivity). cbn [rbind].
  assert (EM : mle poly (cs ++ rands) = mle evals cs).
  { unfold poly, evals. rewrite (pad_blocks K k bs NE H), <- (padb_mles K k). apply (mle_blocks K k); [apply padb_len, H|rewrite padb_count, Lcs; reflexivity|exact Lr]. }
  assert (Lrs : length (cs ++ rands) = (Nat.log2_up (length bs) + k)%nat) by (rewrite app_length, Lcs, Lr; reflexivity).
  assert (Lp : length poly = (2 ^ length (cs ++ rands))%nat) by (unfold poly; rewrite pad2_length, (concat_length K k bs H), Lrs, next_pow2_mul by (destruct bs; [congruence|cbn [length]; lia]); unfold next_pow2; rewrite Nat.pow_add_r; reflexivity).
  set (t2 := MF jl (mle evals cs) :: t1). split.
  - intros pf t' E. destruct (inner_product_proof K G ch p poly [] (cs ++ rands) 0 (mle evals cs) (ip_d K ip) (ip_delta K ip) (ip_beta K ip) (ip_bv K ip) t2) as [[[pf0 c0] t3]| |] eqn:E0; cbn [rmap] in E; try discriminate. injection E as <- <-.
    unfold pack in Ec. destruct (packing_poly_commit K G (mc_gens K G (pc_gen_n K G p)) poly (mc_h K G (pc_gen_n K G p)) (fun _ => 0) false) as [[cm bl]| |] eqn:Ep; cbn [rmap fst] in Ec; try discriminate. injection Ec as <-.
    destruct (mc_gens K G (pc_gen_1 K G p)) as [|q qs] eqn:Eq; [congruence|].
    destruct (inner_product_exact K G ch p q qs poly (fun _ => 0) false cm bl [] (cs ++ rands) 0 (mle evals cs) (ip_d K ip) (ip_delta K ip) (ip_beta K ip) (ip_bv K ip) t2 pf0 c0 t3 Eq K2 ltac:(rewrite Lrs; exact K3) Ep (or_intror (conj eq_refl eq_refl)) E0) as (EC & bs' & gh & ga & t4 & _ & EV). cbv zeta in EV.
    rewrite <- EC. rewrite EV. rewrite EM. cbn [rbind]. 
    assert (Z : geqb (gsm (bs' * ch "challenge_tau" (MG "beta" (dp_beta K G pf0) :: MG "delta" (dp_delta K G pf0) :: t4) * (mle evals cs - mle evals cs)) q) g0 = true).
    { destruct (geqb_spec _ G (gsm (bs' * ch "challenge_tau" (MG "beta" (dp_beta K G pf0) :: MG "delta" (dp_delta K G pf0) :: t4) * (mle evals cs - mle evals cs)) q) g0) as [|N]; [reflexivity|]. exfalso. apply N. gmod. ring. }
    rewrite Z. reflexivity.
  - intros NZ Lb. destruct (inner_product_total K G ch p poly [] (cs ++ rands) 0 (mle evals cs) (ip_d K ip) (ip_delta K ip) (ip_beta K ip) (ip_bv K ip) t2 NZ Lp (or_introl eq_refl)) as [[[pf c] t'] E].
    + rewrite Lrs. exact K3.
    + exact K1.
    + rewrite Lrs. lia.
    + exists pf, t'. rewrite E. reflexivity.
Qed.
End O.
