(** Completeness of the hash layer. *)
From Verif Require Import Field Poly Module ModelTranscript ModelMle SpecMle ProofsMle ModelLibra ProofsLibra ProofsSpartan4 ModelSigma ModelSpartan ModelSpark SpecSpark ModelSnark ProofsSpark ProofsSpark2 ProofsSnark ProofsSnark2 ProofsSnark3 ProofsSnark4.
From Coq Require Import String List Lia.
Local Open Scope string_scope.
Local Open Scope list_scope.
Local Open Scope fld_scope.
Section S.
Variable K : Fld.
Variable G : Grp K.
Variable ch : oracle K G.
Add Field Kf : (f_laws K).
Notation tr := (transcript K G).
Notation all_len := (all_len K).
Variables gamma1 gamma2 : K.
Notation finger := (finger K gamma1 gamma2).
Notation traces := (traces K gamma1 gamma2).
Notation cells := (cells K gamma1 gamma2).
(** What `memory_in_the_head` returns. *)
Definition ts_of (m : nat) (lists : list (list nat)) : addr_ts K :=
  mkTs K lists (map (map of_nat) lists) (map (map of_nat) (stamps_of [] lists)) (map (fun a => of_nat (times (concat lists) a)) (seq 0 m)).
Definition at_pt (r : list K) (ls : list (list K)) : list K := map (fun l => mle l r) ls.
Lemma at_pt_length r ls : length (at_pt r ls) = length ls.
Proof. apply map_length. Qed.
Lemma mle_times_nil s r : mle (map (fun a => of_nat (times [] a)) (seq 0 (2 ^ s))) r = (0 : K).
Proof.
  assert (Z : forall n o, map (fun a => of_nat (times [] a)) (seq o n) = repeat (0 : K) n) by (induction n as [|n IH]; intro o; [reflexivity|]; cbn [repeat seq map]; rewrite IH; reflexivity).
  rewrite Z. apply mle_zeros.
Qed.
Lemma ts_ok k s lists r ro mo : length lists = 3%nat -> accesses_ok lists (2 ^ k) (2 ^ s) -> length r = s -> length mo = s -> length ro = k ->
  ts_verify K mo r (mle (cells (eval_eq K r) (2 ^ s) []) mo, at_pt ro (traces (eval_eq K r) 0 lists (stamps_of [] lists)), at_pt ro (traces (eval_eq K r) 1 lists (stamps_of [] lists)), mle (cells (eval_eq K r) (2 ^ s) (concat lists)) mo)
    (at_pt ro (derefs K (eval_eq K r) lists)) (at_pt ro (at_addrs K (ts_of (2 ^ s) lists))) (at_pt ro (at_read K (ts_of (2 ^ s) lists))) (mle (at_audit K (ts_of (2 ^ s) lists)) mo) gamma1 gamma2 = Ok tt.
Proof.
  intros L3 H Lr Lm Lo. unfold ts_verify. rewrite eval_eq_x_y_ok by congruence. cbn [rbind].
  assert (V : fsum (map (fun bs => chi bs r * chi bs mo) (cube (length r))) = mle (eval_eq K r) mo).
  { rewrite mle_eval_eq by congruence. rewrite Lr, Lm. apply fsum_map_ext. intros bs _. ring. }
  rewrite V. rewrite !(mle_cells K gamma1 gamma2) by exact Lm. rewrite mle_times_nil. pose proof (mle_index K mo) as I. rewrite Lm in I at 1. rewrite <- I.
  unfold SpecSpark.finger at 1. replace (mle (map of_nat (seq 0 (2 ^ s))) mo * gamma1 * gamma1 + mle (eval_eq K r) mo * gamma1 + 0 - gamma2) with (mle (map of_nat (seq 0 (2 ^ s))) mo * gamma1 * gamma1 + mle (eval_eq K r) mo * gamma1 - gamma2) by ring. rewrite feqb_refl. cbn [rbind].
  destruct lists as [|l0 [|l1 [|l2 [|? ?]]]]; try discriminate L3. clear L3. pose proof (accesses_lengths _ _ _ H) as HL. pose proof (Forall_inv HL) as H0. pose proof (Forall_inv (Forall_inv_tail HL)) as H1. pose proof (Forall_inv (Forall_inv_tail (Forall_inv_tail HL))) as H2. cbv beta in H0, H1, H2.
  unfold ts_of, derefs, ProofsSpark2.traces, at_pt. cbn [at_addrs at_read at_audit stamps_of combine map length seq foldr]. unfold kget. cbn [nth_error rbind].
  rewrite !(mle_trace K gamma1 gamma2 _ _ k) by (try exact Lo; try assumption; rewrite stamps_length; assumption). unfold SpecSpark.finger. cbv beta. repeat (rewrite feqb_refl; cbn [rbind rmap]). reflexivity.
Qed.
Lemma evals_ok k ro l : all_len k l -> length ro = k -> mapr (fun v => eval_value K v ro) l = Ok (at_pt ro l).
Proof.
  intros H L. apply mapr_ok. intros v Hv. unfold ProofsSnark.all_len in H. rewrite Forall_forall in H. rewrite eval_value_ok, L, (H v Hv). rewrite Nat.leb_refl. reflexivity.
Qed.
Lemma maps_len (lists : list (list nat)) n : Forall (fun l => length l = n) lists -> Forall (fun l : list K => length l = n) (map (map of_nat) lists).
Proof. intro H. apply Forall_map. eapply Forall_impl; [|exact H]. intros l L. cbv beta. rewrite map_length. exact L. Qed.
Lemma pre_ok k s lists ro mo : accesses_ok lists (2 ^ k) (2 ^ s) -> length ro = k -> length mo = s ->
  pre_timestamp K ro mo (ts_of (2 ^ s) lists) = Ok (at_pt ro (at_addrs K (ts_of (2 ^ s) lists)), at_pt ro (at_read K (ts_of (2 ^ s) lists)), mle (at_audit K (ts_of (2 ^ s) lists)) mo).
Proof.
  intros H Lo Lm. unfold pre_timestamp. pose proof (accesses_lengths _ _ _ H) as HL. rewrite !(evals_ok k) by (try exact Lo; apply maps_len; try exact HL; apply stamps_of_lengths; exact HL). cbn [rbind]. rewrite eval_value_ok. assert (LA : length (at_audit K (ts_of (2 ^ s) lists)) = (2 ^ s)%nat) by (cbn [ts_of at_audit]; rewrite map_length; apply seq_length). rewrite LA, Lm, Nat.leb_refl. reflexivity.
Qed.
(** The encoding of the matrices. *)
Definition ops_blocks (m : nat) (rows cols : list (list nat)) (vals : list (list K)) : list (list K) :=
  at_addrs K (ts_of m rows) ++ at_read K (ts_of m rows) ++ at_addrs K (ts_of m cols) ++ at_read K (ts_of m cols) ++ vals.
Definition mem_blocks (m : nat) (rows cols : list (list nat)) : list (list K) := [at_audit K (ts_of m rows); at_audit K (ts_of m cols)].
Definition em_of (m : nat) (rows cols : list (list nat)) (vals : list (list K)) : enc_memory K :=
  mkEM K (ts_of m rows) (ts_of m cols) vals (pad2 (concat (ops_blocks m rows cols vals))) (pad2 (at_audit K (ts_of m rows) ++ at_audit K (ts_of m cols))).
Lemma pad2_two (a b : K) : pad2 [a; b] = [a; b].
Proof. reflexivity. Qed.
Theorem hash_layer_ok (p : evalp K G) c dc k s rows cols vals rx ry ro mo i1 i2 i3 (t : tr) :
  accesses_ok rows (2 ^ k) (2 ^ s) -> accesses_ok cols (2 ^ k) (2 ^ s) -> all_len k vals -> length rows = 3%nat -> length cols = 3%nat -> length vals = 3%nat ->
  length rx = s -> length ry = s -> length ro = k -> length mo = s ->
  key_for K G (ev_derefs K G p) (3 + k) -> key_for K G (ev_ops K G p) (4 + k) -> key_for K G (ev_mem K G p) (1 + s) ->
  let er := derefs K (eval_eq K rx) rows in let ec := derefs K (eval_eq K ry) cols in let em := em_of (2 ^ s) rows cols vals in
  pack K G (ev_derefs K G p) (pad2 (concat (er ++ ec))) = Ok dc -> pack K G (ev_ops K G p) (em_ops K em) = Ok (ec_ops K G c) -> pack K G (ev_mem K G p) (em_mem K em) = Ok (ec_mem K G c) ->
  (forall hl t', hash_layer_prover K G ch p em ro mo er ec (pad2 (concat (er ++ ec))) i1 i2 i3 t = Ok (hl, t') ->
    hash_layer_verify K G ch p hl rx ry ro mo gamma1 gamma2
      (mle (cells (eval_eq K rx) (2 ^ s) []) mo, at_pt ro (traces (eval_eq K rx) 0 rows (stamps_of [] rows)), at_pt ro (traces (eval_eq K rx) 1 rows (stamps_of [] rows)), mle (cells (eval_eq K rx) (2 ^ s) (concat rows)) mo)
      (mle (cells (eval_eq K ry) (2 ^ s) []) mo, at_pt ro (traces (eval_eq K ry) 0 cols (stamps_of [] cols)), at_pt ro (traces (eval_eq K ry) 1 cols (stamps_of [] cols)), mle (cells (eval_eq K ry) (2 ^ s) (concat cols)) mo)
      (concat (map (fun x => [mle (t1 K x) ro; mle (t2 K x) ro; mle (t3 K x) ro]) (triples K er ec vals))) c dc t = Ok tt) /\
  ((forall l t, ch l t <> 0) -> (3 + k <= length (ip_bv K i1))%nat -> (4 + k <= length (ip_bv K i2))%nat -> (1 + s <= length (ip_bv K i3))%nat ->
    exists hl t', hash_layer_prover K G ch p em ro mo er ec (pad2 (concat (er ++ ec))) i1 i2 i3 t = Ok (hl, t')).
Proof.
  intros Hr Hc Hv L1 L2 L3 Lrx Lry Lro Lmo K1 K2 K3 er ec em C1 C2 C3.
  assert (Her : all_len k er) by (eapply derefs_len; exact Hr). assert (Hec : all_len k ec) by (eapply derefs_len; exact Hc).
  assert (Ler : length er = 3%nat) by (unfold er, derefs; rewrite map_length; exact L1). assert (Lec : length ec = 3%nat) by (unfold ec, derefs; rewrite map_length; exact L2).
  assert (HO : all_len k (ops_blocks (2 ^ s) rows cols vals)).
  { unfold ops_blocks, ProofsSnark.all_len. rewrite !Forall_app. pose proof (accesses_lengths _ _ _ Hr) as A. pose proof (accesses_lengths _ _ _ Hc) as B. repeat split; try exact Hv; apply maps_len; try assumption; apply stamps_of_lengths; assumption. }
  assert (HM : all_len s (mem_blocks (2 ^ s) rows cols)) by (repeat constructor; cbn [ts_of at_audit]; rewrite map_length; apply seq_length).
  assert (LO : length (ops_blocks (2 ^ s) rows cols vals) = 15%nat) by (unfold ops_blocks, ts_of; cbn [at_addrs at_read]; rewrite !app_length, !map_length, !stamps_of_length, L1, L2, L3; reflexivity).
  assert (LD : length (er ++ ec) = 6%nat) by (rewrite app_length, Ler, Lec; reflexivity).
  assert (HD : all_len k (er ++ ec)) by (apply Forall_app; split; assumption).
  unfold hash_layer_prover. rewrite !(evals_ok k ro) by assumption. cbn [rbind].
  assert (EN : Nat.eqb (log2c (length (pad2 (concat (er ++ ec))))) (length ro + log2c (length (pad2 (at_pt ro er ++ at_pt ro ec)))) = true).
  { apply Nat.eqb_eq. rewrite !pad2_length, (concat_length K k _ HD), LD, app_length. unfold at_pt. rewrite !map_length, Ler, Lec, Lro. rewrite next_pow2_mul by lia. unfold log2c. change (next_pow2 6) with 8%nat. change (next_pow2 (3 + 3)) with 8%nat. rewrite Nat.log2_up_mul_pow2 by lia. change (Nat.log2_up 8) with 3%nat. lia. }
  rewrite EN. cbn [negb]. subst em. unfold em_of in *. cbn [em_row em_col em_val em_ops em_mem] in *.
  set (td := MFs "evals_ops_val" (pad2 (at_pt ro er ++ at_pt ro ec)) :: MU "protocol-name:Derefs evaluation proof" 0 :: MU "protocol-name:Sparse polynomial hash layer proof" 0 :: t).
  assert (ND : er ++ ec <> []) by (intro Z; rewrite Z in LD; discriminate).
  assert (NO : ops_blocks (2 ^ s) rows cols vals <> []) by (intro Z; rewrite Z in LO; discriminate).
  assert (EVA : at_pt ro er ++ at_pt ro ec = map (fun b => mle b ro) (er ++ ec)) by (rewrite map_app; reflexivity).
  assert (EMM : pad2 (at_audit K (ts_of (2 ^ s) rows) ++ at_audit K (ts_of (2 ^ s) cols)) = pad2 (concat (mem_blocks (2 ^ s) rows cols))) by (unfold mem_blocks; cbn [concat]; rewrite app_nil_r; reflexivity).
  rewrite EMM in C3 |- *.
  assert (O1 := fun i t => opens K G ch "challenge_combine_n_to_one" "joint_claim_eval" (ev_derefs K G p) k (er ++ ec) dc ro i t ND HD Lro). rewrite LD in O1. specialize (fun i t => O1 i t K1 C1). rewrite <- EVA in O1.
  assert (O2 := fun i t => opens K G ch "challenge_combine_n_to_one" "joint_claim_eval_ops" (ev_ops K G p) k (ops_blocks (2 ^ s) rows cols vals) (ec_ops K G c) ro i t NO HO Lro). rewrite LO in O2. specialize (fun i t => O2 i t K2 C2).
  assert (O3 := fun i t => opens K G ch "challenge_combine_two_to_one" "joint_claim_eval_mem" (ev_mem K G p) s (mem_blocks (2 ^ s) rows cols) (ec_mem K G c) mo i t ltac:(discriminate) HM Lmo K3 C3). change (pad2 (map (fun b => mle b mo) (mem_blocks (2 ^ s) rows cols))) with [mle (at_audit K (ts_of (2 ^ s) rows)) mo; mle (at_audit K (ts_of (2 ^ s) cols)) mo] in O3. change (Nat.log2_up (length (mem_blocks (2 ^ s) rows cols))) with 1%nat in O3.
  assert (EVO : at_pt ro (at_addrs K (ts_of (2 ^ s) rows)) ++ at_pt ro (at_read K (ts_of (2 ^ s) rows)) ++ at_pt ro (at_addrs K (ts_of (2 ^ s) cols)) ++ at_pt ro (at_read K (ts_of (2 ^ s) cols)) ++ at_pt ro vals = map (fun b => mle b ro) (ops_blocks (2 ^ s) rows cols vals)) by (unfold ops_blocks; rewrite !map_app; reflexivity).
  rewrite !(pre_ok k s) by assumption.
  split.
  - intros hl t' E. destruct (open_prove K G ch "challenge_combine_n_to_one" "joint_claim_eval" (ev_derefs K G p) _ _ ro i1 td) as [[pd ta]| |] eqn:E1; cbn [rbind] in E; try discriminate. rewrite EVO in E.
    destruct (open_prove K G ch "challenge_combine_n_to_one" "joint_claim_eval_ops" (ev_ops K G p) _ _ ro i2 _) as [[po tb]| |] eqn:E2; cbn [rbind] in E; try discriminate.
    destruct (open_prove K G ch "challenge_combine_two_to_one" "joint_claim_eval_mem" (ev_mem K G p) _ _ mo i3 _) as [[pm tc]| |] eqn:E3; cbn [rbind] in E; try discriminate. injection E as <- <-.
    apply (proj1 (O1 _ _)) in E1. apply (proj1 (O2 _ _)) in E2. apply (proj1 (O3 _ _)) in E3.
    unfold hash_layer_verify. cbn [hl_derefs hl_ops hl_mem hl_evr hl_evc hl_row hl_col hl_val].
    assert (Lcd : forall T, length T = 3%nat -> length (concat (map (fun x => [mle (t1 K x) ro; mle (t2 K x) ro; mle (t3 K x) ro]) T)) = 9%nat) by (intros [|? [|? [|? [|? ?]]]] LT; try discriminate LT; reflexivity).
    assert (LT : length (triples K er ec vals) = 3%nat) by (pose proof (combine_length (combine er ec) vals) as Q; rewrite (combine_length er), Ler, Lec, L3 in Q; exact Q).
    rewrite (Lcd _ LT). cbn [Nat.eqb negb]. rewrite !at_pt_length, Ler, Lec, L3. cbn [Nat.eqb andb negb]. fold td. rewrite E1. cbn [rbind]. 
    match goal with |- context [forallb ?f (seq 0 3)] => assert (EF : forallb f (seq 0 3) = true) end.
    { clear -Ler Lec L3. destruct er as [|a0 [|a1 [|a2 [|? ?]]]]; try discriminate Ler. destruct ec as [|b0 [|b1 [|b2 [|? ?]]]]; try discriminate Lec. destruct vals as [|c0 [|c1 [|c2 [|? ?]]]]; try discriminate L3.
      unfold triples, at_pt, t1, t2, t3. cbn [combine map concat app seq forallb Nat.mul Nat.add nth fst snd]. rewrite !feqb_refl. reflexivity. }
    rewrite EF. cbn [negb]. pose proof (ts_ok k s rows rx ro mo L1 Hr Lrx Lmo Lro) as Q1. pose proof (ts_ok k s cols ry ro mo L2 Hc Lry Lmo Lro) as Q2. cbn [ts_of at_addrs at_read at_audit] in EVO, E2, E3, Q1, Q2. rewrite EVO, E2. cbn [rbind]. rewrite E3. cbn [rbind]. unfold er, ec. rewrite Q1. cbn [rbind]. exact Q2.
  - intros NZ B1 B2 B3. destruct (proj2 (O1 i1 td) NZ B1) as (pd & ta & E1). rewrite E1. cbn [rbind]. rewrite EVO.
    match goal with |- context [open_prove K G ch _ _ (ev_ops K G p) _ _ ro i2 ?tt] => destruct (proj2 (O2 i2 tt) NZ B2) as (po & tb & E2) end. rewrite E2. cbn [rbind].
    match goal with |- context [open_prove K G ch _ _ (ev_mem K G p) _ _ mo i3 ?tt] => destruct (proj2 (O3 i3 tt) NZ B3) as (pm & tc & E3) end. rewrite E3. cbn [rbind]. eauto.
Qed.
End S.
