(** Hyrax: the rounds, the chain of claims and the rows of the matrix. *)
From Verif Require Import Field Poly Module ModTac ProofsPC ModelTranscript ModelMle SpecMle ProofsMle ModelLibra ProofsLibra ModelSigma ProofsSigma ModelSpartan ProofsSpartan3 ModelSnark ModelHyrax.
From Coq Require Import String List Lia.
Import ListNotations.
Local Open Scope string_scope.
Local Open Scope list_scope.
Local Open Scope fld_scope.
Section S.
Variable K : Fld.
Variable G : Grp K.
Variable ch : oracle K G.
Add Field Kf : (f_laws K).
Notation tr := (transcript K G).
Notation com p x b := (poly_commit_vec K G (mc_gens K G p) x (mc_h K G p) b).

(** ** The chain of claims *)
Fixpoint chain (claim : K) (ps : list (list K)) (rs : list K) (fin : K) : Prop :=
  match ps, rs with
  | [], [] => claim = fin
  | p :: ps, r :: rs => claim = peval p 0 + peval p 1 /\ chain (peval p r) ps rs fin
  | _, _ => False
  end.
Lemma chain_app ps rs ps' rs' b c : forall a, chain a ps rs b -> chain b ps' rs' c -> chain a (ps ++ ps') (rs ++ rs') c.
Proof.
  revert rs. induction ps as [|p ps IH]; intros [|r rs] a; cbn [chain app]; try contradiction; [intros ->; exact (fun H => H)|]. intros [A B] C. split; [exact A|]. apply IH; assumption.
Qed.
Lemma peval_widen w (p : list K) x : peval (widen K w p) x = peval p x.
Proof.
  unfold widen. generalize (w - length p)%nat as k. intro k. induction p as [|c p IH]; cbn [app peval]; [|rewrite IH; reflexivity]. induction k as [|k IH]; [reflexivity|]. cbn [repeat peval]. rewrite IH. ring.
Qed.
Lemma msm_app_zeros (gs : list G) (x : list K) n : msm gs (x ++ repeat 0 n) = msm gs x.
Proof.
  revert gs. induction x as [|a x IH]; intros gs; cbn [app].
  - transitivity (g0 : G); [|destruct gs; reflexivity]. revert gs. induction n as [|n IH]; intros [|g gs]; try reflexivity. cbn [repeat msm]. rewrite IH. gmod; ring.
  - destruct gs as [|g gs]; [reflexivity|]. cbn [msm]. rewrite IH. reflexivity.
Qed.
Lemma com_widen (p : mcp K G) w x b : com p (widen K w x) b = com p x b.
Proof. unfold poly_commit_vec, widen. rewrite msm_app_zeros. reflexivity. Qed.
Lemma widen_length w (p : list K) : (length p <= w)%nat -> length (widen K w p) = w.
Proof. intro H. unfold widen. rewrite app_length, repeat_length. lia. Qed.
Lemma chain_widen w ps rs b : forall a, chain a ps rs b -> chain a (map (widen K w) ps) rs b.
Proof. revert rs. induction ps as [|p ps IH]; intros [|r rs] a; cbn [chain map]; try contradiction; [exact (fun H => H)|]. intros [A B]. rewrite !peval_widen. split; [exact A|apply IH, B]. Qed.

(** ** The rounds *)
Theorem hx_rounds_ok rp T size g1 gn ra re : good K rp T size -> forall n j ts claim ccom (t : tr),
  Forall (fun v => length v = (2 ^ n)%nat) ts -> claim = total K T ts n -> (forall i, (i < n)%nat -> exists b, re (j + i)%nat = Ok b) ->
  exists polys cps ces rs ts' claim' ccom' t',
    hx_rounds K G ch rp g1 gn size n ra re j ts claim ccom t = Ok (polys, cps, ces, rs, ts', claim', ccom', t') /\
    length rs = n /\ ts' = map (fun v => [mle v rs]) ts /\ claim' = T (map (fun v => mle v rs) ts) /\
    chain claim polys rs claim' /\ Forall (fun p => length p = size) polys /\ length polys = n /\ length ces = n /\ length cps = n /\
    (forall i, (i < n)%nat -> nth_error cps i = Some (com gn (nth i polys []) (ra (j + i)%nat))) /\
    forall m cps2 ces2, zk_challenges K G ch (n + m) (cps ++ cps2) (ces ++ ces2) ccom t = rmap (fun '(rs', t) => (rs ++ rs', t)) (zk_challenges K G ch m cps2 ces2 ccom' t').
Proof.
  intro Hg. induction n as [|n IH]; intros j ts claim ccom t L E Hre.
  - cbn [hx_rounds]. exists [], [], [], [], ts, claim, ccom, t. split; [reflexivity|]. split; [reflexivity|].
    assert (A : claim = T (map (fun v => mle v []) ts)).
    { rewrite E. unfold total. cbn [Nat.pow seq map fsum]. rewrite (map_ext (fun v => mle v []) (fun v => nth 0 v 0)) by (intro v; apply mle_nil). unfold at_j. ring. }
    split; [|split; [exact A|]].
    + rewrite <- (map_id ts) at 1. apply map_ext_in. intros v Hv. rewrite Forall_forall in L. specialize (L v Hv). cbn in L. destruct v as [|x [|? ?]]; cbn in L; try lia. rewrite mle_nil. reflexivity.
    + repeat split; try reflexivity; [constructor|intros i Hi; lia|]. intros m cps2 ces2. cbn [app Nat.add]. destruct (zk_challenges _ _ _ m _ _ _ _) as [[rs' t']| |]; reflexivity.
  - cbn [hx_rounds]. destruct (Hg n ts claim L E) as (p & Hp & Lp & H01 & Ep). rewrite Hp. cbn [rbind]. unfold draw. cbv beta iota zeta.
    set (cp := com gn p (ra j)). set (r := ch "challenge_nextround" (MG "comm_poly" cp :: t)). rewrite (combine_all_ok K n) by exact L. cbn [rbind].
    destruct (Hre 0%nat ltac:(lia)) as [be Hbe]. rewrite Nat.add_0_r in Hbe. rewrite Hbe. cbn [rbind].
    match goal with |- context [hx_rounds K G ch rp g1 gn size n ra re (S j) ?ts' ?cl ?cc ?tt] => destruct (IH (S j) ts' cl cc tt) as (polys & cps & ces & rs & ts1 & claim' & ccom' & t' & R & Lrs & A & B & C & D & L1 & L2 & L3 & I & V) end;
      [apply comb_lengths, L|apply Ep|intros i Hi; destruct (Hre (S i) ltac:(lia)) as [b Hb]; exists b; rewrite <- Hb; f_equal; lia|].
    rewrite R. cbn [rbind]. do 8 eexists. split; [reflexivity|].
    assert (M : forall v, In v ts -> mle (comb K r v) rs = mle v (r :: rs)) by (intros v Hv; apply comb_mle; rewrite Lrs; rewrite Forall_forall in L; apply L, Hv).
    split; [cbn; lia|]. split; [|split; [|split; [|split; [|split; [|split; [|split; [|split]]]]]]].
    + rewrite A, map_map. apply map_ext_in. intros v Hv. rewrite M by exact Hv. reflexivity.
    + rewrite B, map_map. f_equal. apply map_ext_in. exact M.
    + cbn [chain]. rewrite !peval_widen. split; [exact H01|exact C].
    + constructor; [apply widen_length, Lp|exact D].
    + cbn; lia.
    + cbn; lia.
    + cbn; lia.
    + intros [|i] Hi; cbn [nth_error nth]; [rewrite com_widen, Nat.add_0_r; reflexivity|]. rewrite I by lia. do 3 f_equal. lia.
    + intros m cps2 ces2. cbn [Nat.add app zk_challenges]. unfold draw. cbv beta iota zeta. fold r. rewrite V. destruct (zk_challenges _ _ _ m _ _ _ _) as [[rs' t'']| |]; reflexivity.
Qed.
Theorem hx_rounds_panic rp T size g1 gn ra re : good K rp T size -> forall n j ts claim ccom (t : tr) i,
  Forall (fun v => length v = (2 ^ n)%nat) ts -> claim = total K T ts n -> (i < n)%nat -> re (j + i)%nat = Panic -> (forall i', (i' < i)%nat -> exists b, re (j + i')%nat = Ok b) ->
  hx_rounds K G ch rp g1 gn size n ra re j ts claim ccom t = Panic.
Proof.
  intro Hg. induction n as [|n IH]; intros j ts claim ccom t i L E Hi Hp Hb; [lia|].
  cbn [hx_rounds]. destruct (Hg n ts claim L E) as (p & Ep & Lp & H01 & Hev). rewrite Ep. cbn [rbind]. unfold draw. cbv beta iota zeta. rewrite (combine_all_ok K n) by exact L. cbn [rbind].
  destruct i as [|i]; [rewrite Nat.add_0_r in Hp; rewrite Hp; reflexivity|]. destruct (Hb 0%nat ltac:(lia)) as [be Hbe]. rewrite Nat.add_0_r in Hbe. rewrite Hbe. cbn [rbind].
  rewrite (IH (S j) _ _ _ _ i); [reflexivity|apply comb_lengths, L|apply Hev|lia|rewrite <- Hp; f_equal; lia|]. intros i' Hi'. destruct (Hb (S i') ltac:(lia)) as [b Hb']. exists b. rewrite <- Hb'. f_equal. lia.
Qed.

(** ** The rows *)
Lemma dot_app (a b c d : list K) : length a = length c -> dot (a ++ b) (c ++ d) = dot a c + dot b d.
Proof. revert c. induction a as [|x a IH]; intros [|y c] H; try discriminate; cbn [app dot]; [ring|]. injection H as H. rewrite IH by exact H. ring. Qed.
Lemma dot_zeros_l n (c : list K) : dot (repeat 0 n) c = 0.
Proof. revert c. induction n as [|n IH]; intros [|y c]; try reflexivity. cbn [repeat dot]. rewrite IH. ring. Qed.
Lemma dot_ends w (p : list K) : length p = w -> (0 < w)%nat -> dot (ends K w) p = peval p 0 + peval p 1.
Proof.
  intros <- H. destruct p as [|c p]; [cbn in H; lia|]. unfold ends. cbn [length dot peval]. rewrite Nat.sub_0_r || idtac. replace (S (length p) - 1)%nat with (length p) by lia.
  assert (dot (repeat 1 (length p)) p = peval p 1) as ->; [|ring]. clear. induction p as [|c p IH]; cbn [length repeat dot peval]; [reflexivity|]. rewrite IH. ring.
Qed.
Lemma dot_neg_pows r (p : list K) : dot (neg_pows K r (length p)) p = - peval p r.
Proof.
  unfold neg_pows. assert (Q : forall s, dot (map (fun a => - fpow r a) (seq s (length p))) p = - (fpow r s * peval p r)).
  { induction p as [|c p IH]; intro s; cbn [length seq map dot peval]; [ring|]. rewrite IH. cbn [fpow]. ring. }
  rewrite Q. cbn [fpow]. ring.
Qed.
Lemma mat_rows_dot (ps : list (list K)) : forall ws rs a fin3 tail fin pre, Forall (fun w => 0 < w)%nat ws -> map (@length K) ps = ws -> chain a ps rs fin -> dot fin3 tail = fin -> ps <> [] ->
  Forall (fun row => dot row (pre ++ concat ps ++ tail) = 0) (mat_rows K (length pre) ws rs fin3) /\ dot (ends K (hd 0%nat ws)) (concat ps ++ tail) = a.
Proof.
  induction ps as [|p ps IH]; intros ws rs a fin3 tail fin pre Hw E C F N; [contradiction|]. destruct rs as [|r rs]; [destruct C|]. cbn [chain] in C. destruct C as [C1 C2]. cbn [map] in E. subst ws. inversion Hw as [|? ? W1 W2]; subst.
  cbn [mat_rows hd concat]. rewrite <- !app_assoc.
  assert (E1 : forall (u q rest : list K), length u = length q -> dot u (q ++ rest) = dot u q) by (intros u q rest Hl; rewrite <- (app_nil_r u) at 1; rewrite dot_app by exact Hl; cbn [dot]; ring).
  assert (Le : length (ends K (length p)) = length p) by (unfold ends; cbn [length]; rewrite repeat_length; lia).
  split; [|rewrite E1, (dot_ends (length p)) by (try reflexivity; assumption); reflexivity].
  destruct ps as [|p' ps].
  - destruct rs; [|destruct C2]. cbn [chain] in C2. cbn [map mat_rows concat app]. constructor; [|constructor]. rewrite dot_app by (rewrite repeat_length; reflexivity). rewrite dot_zeros_l. rewrite dot_app by (unfold neg_pows; rewrite map_length, seq_length; reflexivity). rewrite dot_neg_pows, C2. ring.
  - destruct (IH (map (@length K) (p' :: ps)) rs (peval p r) fin3 tail (dot fin3 tail) (pre ++ p)) as [R1 R2]; [exact W2|reflexivity|exact C2|reflexivity|discriminate|]. cbn [map] in *. constructor.
    + rewrite dot_app by (rewrite repeat_length; reflexivity). rewrite dot_zeros_l. rewrite dot_app by (unfold neg_pows; rewrite map_length, seq_length; reflexivity). rewrite dot_neg_pows. cbn [hd] in R2. rewrite R2. ring.
    + rewrite app_length in R1. eapply Forall_impl; [|exact R1]. intros row Hr. rewrite <- Hr, <- !app_assoc. reflexivity.
Qed.
Lemma dot_widen w (l p : list K) : dot (widen K w l) p = dot l p.
Proof. unfold widen. generalize (w - length l)%nat as n. intro n. revert p. induction l as [|a l IH]; intros p; cbn [app]; [apply dot_zeros_l|]. destruct p as [|b p]; [reflexivity|]. cbn [dot]. rewrite IH. reflexivity. Qed.
(** The random combination of the rows. *)
Lemma rows_comb (m : list (list K)) (rou pie : list K) (rounds width : nat) : length pie = width -> Forall (fun row => length row = width) m -> length m = (rounds + 1)%nat ->
  fsum (map (fun k => fsum (map (fun j => nth j rou 0 * nth k (nth j m []) 0) (seq 0 (rounds + 1))) * nth k pie 0) (seq 0 width)) = fsum (map (fun j => nth j rou 0 * dot (nth j m []) pie) (seq 0 (rounds + 1))).
Proof.
  intros Lp Hm Lm.
  transitivity (fsum (map (fun k => fsum (map (fun j => nth j rou 0 * (nth k (nth j m []) 0 * nth k pie 0)) (seq 0 (rounds + 1)))) (seq 0 width))).
  { apply fsum_map_ext. intros k _. generalize (seq 0 (rounds + 1)) as l. induction l as [|j l IH]; cbn [map fsum]; [ring|]. rewrite <- IH. ring. }
  rewrite (fsum_swap K (fun k j => nth j rou 0 * (nth k (nth j m []) 0 * nth k pie 0))). apply fsum_map_ext. intros j Hj. apply in_seq in Hj.
  rewrite (dot_seq K (nth j m [])) by (rewrite Forall_forall in Hm; rewrite (Hm (nth j m [])), Lp by (apply nth_In; lia); lia). rewrite Lp. generalize (seq 0 width) as l. induction l as [|k l IH]; cbn [map fsum]; [ring|]. rewrite IH. ring.
Qed.
End S.
