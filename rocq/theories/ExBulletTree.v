(** In the group of the field itself, trees of accepted runs of the log-size dot-product proof exist for every statement. *)
From Verif Require Import Field Poly Module ModTac ModelTranscript ModelSigma SpecSigma SpecBulletTree ProofsIPP ProofsSigma ProofsSigma2 ProofsBulletTree ExRewind.
From Coq Require Import String List Lia.
Import ListNotations.
Local Open Scope string_scope.
Local Open Scope list_scope.
Local Open Scope fld_scope.
Section S.
Variable K : Fld.
Add Field Kfxt : (f_laws K).
Notation G := (self_grp K).
Notation orc := (oracle K G).
Notation tr := (transcript K G).
(** The oracle that answers the rounds behind a transcript of length n with [xs]. *)
Definition along (n : nat) (xs : list K) : orc := fun _ t => nth ((length t - n - 2) / 3) xs 0.
Lemma along_challenges n xs0 (ch : orc) m : (forall l t, (length t < m)%nat -> ch l t = along n xs0 l t) -> forall xs ls rs j (t : tr), length t = (n + 3 * j)%nat -> (length t + 3 * length xs <= m)%nat ->
  length ls = length xs -> length rs = length xs -> (forall i, (i < length xs)%nat -> nth (j + i) xs0 0 = nth i xs 0) -> Forall (fun x => x <> 0) xs ->
  exists t1, bullet_challenges K G ch ls rs t = Ok (xs, t1) /\ length t1 = (length t + 3 * length xs)%nat.
Proof.
  intro A. induction xs as [|x xs IH]; intros [|l ls] [|r rs] j t Lt Lm L1 L2 N F; try discriminate.
  - exists t. split; [reflexivity|cbn; lia].
  - cbn [length] in *. cbn [bullet_challenges]. unfold draw. cbv beta iota zeta.
    assert (E : ch "x" (MG "R" r :: MG "L" l :: t) = x).
    { rewrite A by (cbn [length]; lia). unfold along. cbn [length]. rewrite Lt. replace (S (S (n + 3 * j)) - n - 2)%nat with (j * 3)%nat by lia. rewrite PeanoNat.Nat.div_mul by lia. specialize (N 0%nat ltac:(lia)). rewrite PeanoNat.Nat.add_0_r in N. exact N. }
    rewrite E. inversion F; subst. destruct (feqb_spec K (ch "x" (MG "R" r :: MG "L" l :: t)) 0) as [Q|_]; [congruence|].
    destruct (IH ls rs (S j) (MCh "x" :: MG "R" r :: MG "L" l :: t)) as (t1 & E1 & L3); cbn [length]; try lia; try assumption.
    + intros i Hi. specialize (N (S i) ltac:(lia)). cbn [nth] in N. rewrite <- N. f_equal. lia.
    + exists t1. rewrite E1. split; [reflexivity|cbn [length] in L3; lia].
Qed.
Section Tree.
Variable lbl : string.
Variable p : pcp K G.
Variables Cx Cy : G.
Variable r_eq : list K.
Variable t : tr.
Notation gs := (mc_gens K G (pc_gen_n K G p)).
Notation h := (mc_h K G (pc_gen_1 K G p)).
Hypothesis Nh : h <> 0.
Hypothesis Ne : mc_gens K G (pc_gen_1 K G p) <> [].
Lemma self_leaf ls rs xs : length ls = length xs -> length rs = length xs -> (2 ^ length xs <= length r_eq)%nat -> (2 ^ length xs <= length gs)%nat -> Forall (fun x => x <> 0) xs ->
  dot (svec K xs) r_eq <> 0 -> exists T, bt_ok lbl p Cx Cy r_eq t 0 ls rs xs T.
Proof.
  intros L1 L2 B1 B2 F N. set (t0 := MG "Cy" Cy :: MG "Cx" Cx :: t : tr). set (m := (length t0 + 3 * length xs + 2)%nat).
  assert (Any : forall ch : orc, (forall l t', (length t' < m)%nat -> ch l t' = along (length t0) xs l t') -> exists t1 gh ga pf, length t1 = (m - 2)%nat /\
    bullet_challenges K G ch ls rs t0 = Ok (xs, t1) /\ bullet_verify K G ch gs ls rs (gadd Cx Cy) r_eq t0 = Ok (dot (svec K xs) r_eq, gh, ga, t1) /\
    dp_l _ _ pf = ls /\ dp_r _ _ pf = rs /\ dp_delta _ _ pf = 0 /\ dp_beta _ _ pf = 0 /\ exists t', log_dot_verify K G ch lbl p Cx Cy r_eq pf t = Ok (true, t')).
  { intros ch A. destruct (along_challenges (length t0) xs ch m A xs ls rs 0 t0) as (t1 & E & L3); try assumption; try (unfold m; lia); [reflexivity|].
    assert (BV : bullet_verify K G ch gs ls rs (gadd Cx Cy) r_eq t0 = Ok (dot (svec K xs) r_eq, msm gs (svec K xs), gadd (side K G ls rs xs) (gadd Cx Cy), t1)).
    { unfold bullet_verify. rewrite L1, L2, PeanoNat.Nat.eqb_refl. cbn [negb]. rewrite E. cbn [rbind]. change (fold_left (fun acc x : K => acc * finv x) xs 1) with (invprod K xs). rewrite s_vec_ok by exact F.
      destruct (PeanoNat.Nat.ltb_spec (length r_eq) (2 ^ length xs)); [lia|]. destruct (PeanoNat.Nat.ltb_spec (length gs) (2 ^ length xs)); [lia|]. cbn [orb]. rewrite dot_comm. reflexivity. }
    set (c := ch lbl (MG "beta" (0 : G) :: MG "delta" (0 : G) :: t1)). set (lhs := gadd (gsm (dot (svec K xs) r_eq) (gadd (gsm c (gadd (side K G ls rs xs) (gadd Cx Cy))) (0 : G))) (0 : G) : G).
    exists t1, (msm gs (svec K xs)), (gadd (side K G ls rs xs) (gadd Cx Cy)), (mkDP K G ls rs (0 : G) (0 : G) 0 (lhs / h)). split; [unfold m; lia|]. split; [exact E|]. split; [exact BV|]. do 4 (split; [reflexivity|]).
    unfold log_dot_verify. fold t0. cbn [dp_l dp_r dp_delta dp_beta dp_z1 dp_z2]. rewrite BV. cbn [rbind]. unfold draw. cbv beta iota zeta. destruct (mc_gens K G (pc_gen_1 K G p)) as [|q qs]; [destruct (Ne eq_refl)|]. eexists. f_equal. f_equal. apply self_geqb.
    fold c. fold lhs. rewrite <- (self_solve K h lhs Nh) at 1. cbn. ring. }
  destruct (Any (along (length t0) xs)) as (t1 & gh & ga & pf & Lt & E & BV & P1 & P2 & P3 & P4 & V); [reflexivity|].
  set (tt := MG "beta" (0 : G) :: MG "delta" (0 : G) :: t1 : tr). assert (Ltt : length tt = m) by (unfold tt; cbn [length]; unfold m in *; lia).
  destruct (Any (late K (along (length t0) xs) (length tt) (along (length t0) xs lbl tt + 1))) as (t2 & gh' & ga' & pf' & _ & _ & _ & Q1 & Q2 & Q3 & Q4 & V'); [intros l t' H; apply late_lt; rewrite Ltt; exact H|].
  eexists (BLeaf K G (along (length t0) xs) _ pf pf'). cbn [bt_ok]. do 4 (split; [assumption|]). split; [congruence|]. split; [congruence|]. split; [exact V|]. split; [exact V'|]. fold t0.
  exists (dot (svec K xs) r_eq), gh, ga, t1. split; [exact E|]. split; [exact BV|]. split; [exact N|]. rewrite P3, P4. apply forks_late.
Qed.
(** Three challenges with different squares, used in every round. *)
Lemma self_tree x1 x2 x3 : x1 <> 0 -> x2 <> 0 -> x3 <> 0 -> x1 * x1 <> x2 * x2 -> x1 * x1 <> x3 * x3 -> x2 * x2 <> x3 * x3 -> forall k ls rs xs,
  length ls = length xs -> length rs = length xs -> (2 ^ (length xs + k) <= length r_eq)%nat -> (2 ^ (length xs + k) <= length gs)%nat -> Forall (fun x => x <> 0) xs ->
  (forall ys, length ys = k -> Forall (fun y => In y [x1; x2; x3]) ys -> dot (svec K (xs ++ ys)) r_eq <> 0) -> exists T, bt_ok lbl p Cx Cy r_eq t k ls rs xs T.
Proof.
  intros N1 N2 N3 D1 D2 D3. induction k as [|k IH]; intros ls rs xs L1 L2 B1 B2 F N.
  - rewrite PeanoNat.Nat.add_0_r in B1, B2. apply self_leaf; try assumption. specialize (N [] eq_refl (Forall_nil _)). rewrite app_nil_r in N. exact N.
  - assert (Sub : forall x, In x [x1; x2; x3] -> exists T, bt_ok lbl p Cx Cy r_eq t k (ls ++ [0 : G]) (rs ++ [0 : G]) (xs ++ [x]) T).
    { intros x Hx. assert (Nx : x <> 0) by (destruct Hx as [<-|[<-|[<-|[]]]]; assumption). apply IH.
      + rewrite !app_length. cbn [length]. lia.
      + rewrite !app_length. cbn [length]. lia.
      + rewrite app_length. cbn [length]. replace (length xs + 1 + k)%nat with (length xs + S k)%nat by lia. exact B1.
      + rewrite app_length. cbn [length]. replace (length xs + 1 + k)%nat with (length xs + S k)%nat by lia. exact B2.
      + apply Forall_app. split; [exact F|repeat constructor; exact Nx].
      + intros ys Ly Fy. rewrite <- app_assoc. apply N; [cbn; lia|constructor; assumption]. }
    destruct (Sub x1) as (T1 & H1); [cbn; auto|]. destruct (Sub x2) as (T2 & H2); [cbn; auto|]. destruct (Sub x3) as (T3 & H3); [cbn; auto|].
    exists (BNode K G (0 : G) (0 : G) x1 x2 x3 T1 T2 T3). cbn [bt_ok]. repeat split; assumption.
Qed.
End Tree.
End S.
