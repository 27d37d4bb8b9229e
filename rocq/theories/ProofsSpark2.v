(** Product circuits; memory checking succeeds for time stamps made by [memory_in_the_head]. *)
From Verif Require Import Field Poly Module ModelTranscript ModelBulletproofs ModelMle ModelSigma ModelSpark SpecSpark ProofsMle ProofsLibra ProofsLibra3 ProofsSpark.
From Coq Require Import Lia.
Local Open Scope fld_scope.
Section S.
Variable K : Fld.
Add Field Kf : (f_laws K).
Lemma fadd_0_r (x : K) : x + 0 = x.
Proof. ring. Qed.
(** ** Products *)
Lemma fprod_map_mul {A} (f g : A -> K) l : fprod (map (fun x => f x * g x) l) = fprod (map f l) * fprod (map g l).
Proof. induction l as [|x l IH]; [cbn; ring|]. cbn [map fprod fold_right]. cbn in IH |- *. rewrite IH. ring. Qed.
Lemma map_nth_seq (l : list K) n : length l = n -> map (fun j => nth j l 0) (seq 0 n) = l.
Proof.
  intros <-. induction l as [|x l IH]; [reflexivity|]. cbn [length seq map nth]. f_equal. rewrite <- seq_shift, map_map. exact IH.
Qed.
(** One layer: padded, then the products of the two halves. *)
Definition padded (l : list K) : list K := if Nat.odd (length l) then l ++ [1] else l.
Definition halves (l : list K) : list K * list K := (firstn (length l / 2) l, skipn (length l / 2) l).
Definition pairwise (x : list K * list K) : list K := map (fun j => nth j (fst x) 0 * nth j (snd x) 0) (seq 0 (length (fst x))).
Definition step (l : list K) : list K := pairwise (halves (padded l)).
Lemma padded_even l : exists h, length (padded l) = (2 * h)%nat /\ h = ((length l + 1) / 2)%nat.
Proof.
  unfold padded. destruct (Nat.odd (length l)) eqn:E.
  - apply Nat.odd_spec in E. destruct E as [h E]. exists (S h). rewrite app_length. cbn [length]. rewrite E. replace (2 * h + 1 + 1)%nat with (S h * 2)%nat by lia. rewrite Nat.div_mul by lia. lia.
  - assert (Nat.even (length l) = true) as E2 by (rewrite <- Nat.negb_odd, E; reflexivity). apply Nat.even_spec in E2. destruct E2 as [h E2]. exists h. split; [exact E2|]. rewrite E2. replace (2 * h + 1)%nat with (1 + h * 2)%nat by lia. rewrite Nat.div_add by lia. reflexivity.
Qed.
Lemma halves_length l h : length l = (2 * h)%nat -> length (fst (halves l)) = h /\ length (snd (halves l)) = h.
Proof. intro E. unfold halves. cbn [fst snd]. rewrite firstn_length, skipn_length, E. replace (2 * h)%nat with (h * 2)%nat by lia. rewrite Nat.div_mul by lia. lia. Qed.
Lemma layer_eq n l : product_layers K (S n) l = halves (padded l) :: product_layers K n (step l).
Proof.
  cbn [product_layers]. fold (padded l). unfold step, pairwise. destruct (padded_even l) as (h & E & _). destruct (halves_length _ _ E) as [A _]. rewrite A.
  unfold halves. cbn [fst snd]. rewrite E. replace (2 * h / 2)%nat with h by (replace (2 * h)%nat with (h * 2)%nat by lia; rewrite Nat.div_mul by lia; reflexivity). reflexivity.
Qed.
Lemma step_length l : length (step l) = ((length l + 1) / 2)%nat.
Proof. unfold step, pairwise. rewrite map_length, seq_length. destruct (padded_even l) as (h & E & <-). apply (halves_length _ _ E). Qed.
Lemma step_prod l : fprod (step l) = fprod l.
Proof.
  unfold step, pairwise. destruct (padded_even l) as (h & E & _). destruct (halves_length _ _ E) as [A B]. rewrite A, fprod_map_mul, !map_nth_seq by assumption.
  unfold halves. cbn [fst snd]. rewrite <- fprod_app, firstn_skipn. unfold padded. destruct (Nat.odd (length l)); [|reflexivity]. rewrite fprod_app. cbn. ring.
Qed.
Lemma log2_up_half L n : (2 <= L)%nat -> Nat.log2_up L = S n -> Nat.log2_up ((L + 1) / 2) = n.
Proof.
  intros HL E. pose proof (Nat.log2_up_spec L ltac:(lia)) as [A B]. rewrite E in A, B. cbn [Nat.pred] in A. destruct n as [|n].
  - cbn in A, B. assert (L = 2)%nat as -> by lia. reflexivity.
  - apply Nat.log2_up_unique; [lia|]. cbn [Nat.pred]. cbn [Nat.pow] in *. split.
    + apply Nat.div_le_lower_bound with (q := S (2 ^ n)) in A || (assert (2 ^ n + 1 <= (L + 1) / 2)%nat by (apply Nat.div_le_lower_bound; lia); lia).
    + assert ((L + 1) / 2 < 2 ^ n + (2 ^ n + 0) + 1)%nat by (apply Nat.div_lt_upper_bound; lia). lia.
Qed.
Lemma eval_tail x c : c <> [] -> evaluate_product_circuit K (x :: c) = evaluate_product_circuit K c.
Proof. intro H. unfold evaluate_product_circuit. cbn [rev]. destruct (rev c) as [|y r] eqn:E; [|reflexivity]. exfalso. apply H. rewrite <- (rev_involutive c), E. reflexivity. Qed.
Lemma product_layers_eval n : forall l, (2 <= length l)%nat -> Nat.log2_up (length l) = S n -> evaluate_product_circuit K (product_layers K (S n) l) = Ok (fprod l).
Proof.
  induction n as [|n IH]; intros l L E.
  - pose proof (Nat.log2_up_spec (length l) ltac:(lia)) as [_ B]. rewrite E in B. cbn in B. destruct l as [|x [|y [|z l]]]; cbn [length] in *; try lia. cbn. f_equal. ring.
  - rewrite layer_eq, eval_tail by (rewrite layer_eq; discriminate). rewrite IH; [rewrite step_prod; reflexivity|..]; rewrite step_length.
    + pose proof (Nat.log2_up_spec (length l) ltac:(lia)) as [A _]. rewrite E in A. cbn [Nat.pred] in A. assert (2 <= 2 ^ S n)%nat by (change 2%nat with (2 ^ 1)%nat at 1; apply Nat.pow_le_mono_r; lia).
      apply Nat.div_le_lower_bound; lia.
    + apply log2_up_half; [exact L|exact E].
Qed.
Theorem product_circuit_ok (l : list K) : evaluate_product_circuit K (construct_product_circuit K l) = if Nat.leb 2 (length l) then Ok (fprod l) else Panic.
Proof.
  unfold construct_product_circuit, log2c. destruct (Nat.leb_spec 2 (length l)) as [H|H].
  - destruct (Nat.log2_up (length l)) as [|n] eqn:E; [|apply product_layers_eval; assumption]. apply Nat.log2_up_null in E. lia.
  - replace (Nat.log2_up (length l)) with 0%nat; [reflexivity|]. symmetry. apply Nat.log2_up_null. lia.
Qed.

(** ** Memory checking *)
Variables gamma1 gamma2 : K.
Notation finger := (finger K gamma1 gamma2).
Notation cpc := (construct_product_circuit K).
Lemma circuit_hash_ok (a v t : list K) n : length a = n -> length v = n -> length t = n ->
  exists h, circuit_hash K a v t gamma1 = Ok h /\ map (fun x => x - gamma2) h = map (fun i => finger (nth i a 0) (nth i v 0) (nth i t 0)) (seq 0 n).
Proof. intros A B C. unfold circuit_hash. rewrite A, B, C, Nat.eqb_refl. cbn [negb]. eexists. split; [reflexivity|]. rewrite map_map. reflexivity. Qed.
Lemma map_combine_nth (f : nat -> nat -> K) : forall (a b : list nat) n, length a = n -> length b = n -> map (fun '(x, y) => f x y) (combine a b) = map (fun i => f (nth i a 0%nat) (nth i b 0%nat)) (seq 0 n).
Proof.
  induction a as [|x a IH]; intros b n A B; cbn [length] in A; subst n; [destruct b; [reflexivity|discriminate B]|]. destruct b as [|y b]; [discriminate B|]. cbn [length] in B. injection B as B.
  cbn [combine map length seq nth]. f_equal. rewrite (IH b (length a)) by auto. rewrite <- seq_shift, map_map. reflexivity.
Qed.
Lemma nth_map_nat (l : list nat) (f : nat -> K) i : (i < length l)%nat -> nth i (map f l) 0 = f (nth i l 0%nat).
Proof. intro H. rewrite (nth_indep _ 0 (f 0%nat)) by (rewrite map_length; exact H). apply map_nth. Qed.
Lemma trace_app (mem : list K) d a b ts us : length a = length ts -> trace K gamma1 gamma2 mem d (a ++ b) (ts ++ us) = trace K gamma1 gamma2 mem d a ts ++ trace K gamma1 gamma2 mem d b us.
Proof.
  unfold trace. intro H. rewrite <- map_app. f_equal. revert ts H. induction a as [|x a IH]; intros [|s ts] H; cbn [length] in H; try discriminate; [reflexivity|]. cbn [app combine]. rewrite IH by congruence. reflexivity.
Qed.
Definition derefs (mem : list K) (lists : list (list nat)) : list (list K) := map (map (fun a => nth a mem 0)) lists.
Definition traces (mem : list K) (d : K) (lists : list (list nat)) (ts : list (list nat)) : list (list K) := map (fun '(l, t) => trace K gamma1 gamma2 mem d l t) (combine lists ts).
Lemma traces_concat mem d lists : forall seen, fprod (map fprod (traces mem d lists (stamps_of seen lists))) = fprod (trace K gamma1 gamma2 mem d (concat lists) (stamps seen (concat lists))).
Proof.
  induction lists as [|l ls IH]; intro seen; [reflexivity|]. cbn [stamps_of combine concat]. unfold traces. cbn [combine map]. rewrite stamps_app, trace_app by (rewrite stamps_length; reflexivity).
  rewrite fprod_app. cbn [fprod fold_right]. f_equal. apply IH.
Qed.
(** The hashes of the lists, with the stamps increased by d. *)
Lemma hashes_ok mem n (d : K) (f : list K -> list K) : (forall l, length (f l) = length l) -> (forall l i, (i < length l)%nat -> nth i (f l) 0 = nth i l 0 + d) ->
  forall lists ts, length ts = length lists -> Forall (fun l => length l = n) lists -> Forall (fun l => length l = n) ts ->
  exists hs, mapr (fun '(l, r, e) => circuit_hash K l e (f r) gamma1) (combine (combine (map (map of_nat) lists) (map (map of_nat) ts)) (derefs mem lists)) = Ok hs /\
  map (hash_circuit K gamma2) hs = map cpc (traces mem d lists ts).
Proof.
  intros Hf Hd. induction lists as [|l ls IH]; intros [|t ts] L A B; cbn [length] in L; try discriminate; [exists []; split; reflexivity|]. injection L as L.
  destruct (IH ts L (Forall_inv_tail A) (Forall_inv_tail B)) as (hs & E1 & E2). pose proof (Forall_inv A) as Al. pose proof (Forall_inv B) as Bt. cbv beta in Al, Bt.
  destruct (circuit_hash_ok (map of_nat l) (map (fun a => nth a mem 0) l) (f (map of_nat t)) n) as (h & E3 & E4); [rewrite map_length; exact Al|rewrite map_length; exact Al|rewrite Hf, map_length; exact Bt|].
  exists (h :: hs). unfold derefs in *. cbn [map combine mapr]. rewrite E3. cbn [rbind]. rewrite E1. split; [reflexivity|]. cbn [map]. unfold traces in *. cbn [combine map]. rewrite E2. f_equal. unfold hash_circuit. f_equal. rewrite E4.
  unfold trace. rewrite (map_combine_nth (fun a s => finger (of_nat a) (nth a mem 0) (of_nat s + d)) l t n) by assumption.
  apply map_ext_in. intros i Hi. apply in_seq in Hi. rewrite Hd by (rewrite map_length; lia). rewrite !nth_map_nat by lia. reflexivity.
Qed.
Lemma accesses_lengths lists n m : accesses_ok lists n m -> Forall (fun l => length l = n) lists.
Proof. apply Forall_impl. intros l [H _]. exact H. Qed.
Lemma accesses_all lists n m : accesses_ok lists n m -> Forall (fun a => a < m)%nat (concat lists).
Proof. induction lists as [|l ls IH]; intro H; [constructor|]. cbn [concat]. apply Forall_app. split; [exact (proj2 (Forall_inv H))|apply IH; exact (Forall_inv_tail H)]. Qed.
(** The fingerprints of the memory, each cell with its number of accesses. *)
Definition cells (mem : list K) (m : nat) (acc : list nat) : list K := map (fun a => finger (of_nat a) (nth a mem 0) (of_nat (times acc a))) (seq 0 m).
Lemma cells_length mem m acc : length (cells mem m acc) = m.
Proof. unfold cells. rewrite map_length. apply seq_length. Qed.
Definition honest_prods mem m lists : mprod K :=
  mkMProd K (cpc (cells mem m [])) (map cpc (traces mem 0 lists (stamps_of [] lists))) (map cpc (traces mem 1 lists (stamps_of [] lists))) (cpc (cells mem m (concat lists))).
Definition honest_claims mem m lists : K * list K * list K * K :=
  (fprod (cells mem m []), map fprod (traces mem 0 lists (stamps_of [] lists)), map fprod (traces mem 1 lists (stamps_of [] lists)), fprod (cells mem m (concat lists))).
Lemma traces_length mem d lists ts n : length ts = length lists -> Forall (fun l => length l = n) lists -> Forall (fun l => length l = n) ts -> Forall (fun l => length l = n) (traces mem d lists ts).
Proof.
  unfold traces. revert ts. induction lists as [|l ls IH]; intros [|t ts] L A B; cbn [length] in L; try discriminate; [constructor|]. cbn [combine map]. constructor.
  - unfold trace. rewrite map_length, combine_length. pose proof (Forall_inv A) as Q1. pose proof (Forall_inv B) as Q2. cbv beta in Q1, Q2. lia.
  - apply IH; [congruence|exact (Forall_inv_tail A)|exact (Forall_inv_tail B)].
Qed.
Lemma evals_traces mem d lists n m : accesses_ok lists n m -> mapr (evaluate_product_circuit K) (map cpc (traces mem d lists (stamps_of [] lists))) = if Nat.leb 2 n || (match lists with [] => true | _ => false end) then Ok (map fprod (traces mem d lists (stamps_of [] lists))) else Panic.
Proof.
  intro H. pose proof (traces_length mem d lists (stamps_of [] lists) n (stamps_of_length _ _) (accesses_lengths _ _ _ H) (stamps_of_lengths _ _ _ (accesses_lengths _ _ _ H))) as T.
  destruct lists as [|l0 ls]; [rewrite Bool.orb_true_r; reflexivity|]. rewrite Bool.orb_false_r. assert (NE : traces mem d (l0 :: ls) (stamps_of [] (l0 :: ls)) <> []) by (cbn; discriminate). set (T0 := traces _ _ _ _) in *. clearbody T0.
  destruct (Nat.leb_spec 2 n) as [L|L].
  - clear NE. induction T0 as [|x T0 IH]; [reflexivity|]. cbn [map mapr]. rewrite product_circuit_ok. pose proof (Forall_inv T) as Q. cbv beta in Q. destruct (Nat.leb_spec 2 (length x)); [|lia]. cbn [rbind]. rewrite IH by exact (Forall_inv_tail T). reflexivity.
  - destruct T0 as [|x T0]; [congruence|]. cbn [map mapr]. rewrite product_circuit_ok. pose proof (Forall_inv T) as Q. cbv beta in Q. destruct (Nat.leb_spec 2 (length x)); [lia|]. reflexivity.
Qed.
Theorem check_prod_ok mem m n lists : (2 <= m)%nat -> accesses_ok lists n m -> lists <> [] ->
  check_prod K (honest_prods mem m lists) = if Nat.leb 2 n then Ok (honest_claims mem m lists) else Panic.
Proof.
  intros Hm H NE. unfold check_prod, honest_prods. cbn [mp_init mp_read mp_write mp_audit]. rewrite !product_circuit_ok. rewrite !cells_length. destruct (Nat.leb_spec 2 m); [|lia]. cbn [rbind].
  rewrite !(evals_traces _ _ _ _ _ H). destruct lists as [|l0 ls]; [congruence|]. rewrite Bool.orb_false_r. destruct (Nat.leb 2 n); [|reflexivity]. cbn [rbind]. rewrite !traces_concat.
  pose proof (memory_identity K gamma1 gamma2 mem m (concat (l0 :: ls)) [] (accesses_all _ _ _ H)) as I. cbn [app] in I. unfold state in I. fold (cells mem m []) in I. fold (cells mem m (concat (l0 :: ls))) in I. rewrite I. rewrite feqb_refl. reflexivity.
Qed.
Theorem memory_checking_ok mem m n lists : length mem = m -> (2 <= m)%nat -> accesses_ok lists n m -> lists <> [] ->
  memory_checking K (map (map of_nat) lists) mem (map (map of_nat) (stamps_of [] lists)) (map (fun a => of_nat (times (concat lists) a)) (seq 0 m)) (derefs mem lists) gamma1 gamma2
  = if Nat.leb 2 n then Ok (honest_prods mem m lists) else Panic.
Proof.
  intros Lm Hm H NE. unfold memory_checking. rewrite !map_length, stamps_of_length, seq_length, Lm, !Nat.eqb_refl. unfold derefs at 1. rewrite map_length, Nat.eqb_refl. cbn [negb].
  destruct (circuit_hash_ok (map of_nat (seq 0 m)) mem (repeat 0 m) m) as (h0 & E0 & E0'); [rewrite map_length; apply seq_length|exact Lm|apply repeat_length|]. rewrite E0. cbn [rbind].
  destruct (hashes_ok mem n 0 (fun l => l) ltac:(reflexivity) (fun l i _ => eq_sym (fadd_0_r (nth i l 0))) lists (stamps_of [] lists) (stamps_of_length _ _) (accesses_lengths _ _ _ H) (stamps_of_lengths _ _ _ (accesses_lengths _ _ _ H))) as (h1 & E1 & E1'). rewrite E1. cbn [rbind].
  destruct (hashes_ok mem n 1 (fun l => map (fun x => x + 1) l)) with (lists := lists) (ts := stamps_of [] lists) as (h2 & E2 & E2');
    [intro; apply map_length|intros l i Hi; rewrite (nth_indep _ 0 (0 + 1)) by (rewrite map_length; exact Hi); rewrite (map_nth (fun x => x + 1)); reflexivity|apply stamps_of_length|apply (accesses_lengths _ _ _ H)|apply stamps_of_lengths, (accesses_lengths _ _ _ H)|]. rewrite E2. cbn [rbind].
  destruct (circuit_hash_ok (map of_nat (seq 0 m)) mem (map (fun a => of_nat (times (concat lists) a)) (seq 0 m)) m) as (h3 & E3 & E3'); [rewrite map_length; apply seq_length|exact Lm|rewrite map_length; apply seq_length|]. rewrite E3. cbn [rbind].
  rewrite E1', E2'. unfold hash_circuit. rewrite E0', E3'.
  assert (C0 : map (fun i => finger (nth i (map of_nat (seq 0 m)) 0) (nth i mem 0) (nth i (repeat 0 m) 0)) (seq 0 m) = cells mem m []).
  { unfold cells. apply map_ext_in. intros i Hi. apply in_seq in Hi. rewrite nth_map_nat by (rewrite seq_length; lia). rewrite seq_nth by lia. f_equal. rewrite nth_repeat. reflexivity. }
  assert (C1 : map (fun i => finger (nth i (map of_nat (seq 0 m)) 0) (nth i mem 0) (nth i (map (fun a => of_nat (times (concat lists) a)) (seq 0 m)) 0)) (seq 0 m) = cells mem m (concat lists)).
  { unfold cells. apply map_ext_in. intros i Hi. apply in_seq in Hi. rewrite !nth_map_nat by (rewrite seq_length; lia). rewrite seq_nth by lia. reflexivity. }
  rewrite C0, C1. fold (honest_prods mem m lists). rewrite (check_prod_ok mem m n lists Hm H NE). destruct (Nat.leb 2 n); reflexivity.
Qed.
Theorem memory_checking_exact mem m n lists ts : length mem = m -> (2 <= m)%nat -> accesses_ok lists n m -> lists <> [] -> memory_in_the_head K lists n m = Ok ts ->
  if Nat.leb 2 n
  then exists p, memory_checking K (at_addrs K ts) mem (at_read K ts) (at_audit K ts) (derefs mem lists) gamma1 gamma2 = Ok p /\
    check_prod K p = Ok (honest_claims mem m lists) /\ fprod (cells mem m []) * fprod (map fprod (traces mem 1 lists (stamps_of [] lists))) = fprod (map fprod (traces mem 0 lists (stamps_of [] lists))) * fprod (cells mem m (concat lists))
  else memory_checking K (at_addrs K ts) mem (at_read K ts) (at_audit K ts) (derefs mem lists) gamma1 gamma2 = Panic.
Proof.
  intros Lm Hm H NE E. rewrite (memory_in_the_head_ok K lists n m H) in E. injection E as <-. cbn [at_addrs at_read at_audit]. rewrite (memory_checking_ok mem m n lists Lm Hm H NE).
  pose proof (check_prod_ok mem m n lists Hm H NE) as C. destruct (Nat.leb 2 n); [|reflexivity]. exists (honest_prods mem m lists). split; [reflexivity|]. split; [exact C|]. rewrite !traces_concat. exact (memory_identity K gamma1 gamma2 mem m (concat lists) [] (accesses_all _ _ _ H)).
Qed.
End S.
