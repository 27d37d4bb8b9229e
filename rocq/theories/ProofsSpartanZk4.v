(** What spartan's proofs reveal: the theorems about `create_nizk_proof` and `create_snark_proof`. *)
From Verif Require Import Field Poly Module ModTac ProofsPC ModelTranscript ModelMle SpecMle ProofsMle ModelLibra ProofsLibra SpecLibra ProofsLibra3 ModelLC SpecLC ModelCS SpecCS SpecMode ModelSigma ProofsSigma ProofsSigma2 ProofsSigma3 ProofsSigma4 ModelSpartan SpecSpartan ProofsSpartan ProofsSpartan2 ProofsSpartan3 AttackSpartan ProofsSpartan4 ProofsSpartan5 ProofsSpartan6 ModelSnark.
From Verif Require Import SpecSigmaZk SpecSpartanZk ProofsSpartanZk2 ProofsSpartanZk3.
From Coq Require Import String List Lia.
Local Open Scope string_scope.
Local Open Scope list_scope.
Local Open Scope fld_scope.
Section S.
Variable K : Fld.
Variable G : Grp K.
Variable ch : oracle K G.
Add Field Kf2 : (f_laws K).
Notation tr := (transcript K G).
Ltac step Z := match type of Z with rbind ?X _ = _ => destruct X as [?| |] eqn:?; cbn [rbind] in Z; try discriminate end.
Lemma wry_same v (pf : satproof K G) : sa_wry K G pf = v -> with_wry v pf = pf.
Proof. intros <-. destruct pf. reflexivity. Qed.
Lemma sat_switch p i nc nc' inputs aux aux' (t : tr) sr pf rx ry t' : wf_inst i -> setup_for G p i -> inst_sat (assign inputs aux) i -> inst_sat (assign inputs aux') i ->
  length inputs = r_inputs K i -> length aux = r_aux K i -> length aux' = r_aux K i -> r_cons K i = (2 ^ log2c nc)%nat -> r_cons K i = (2 ^ log2c nc')%nat -> (1 + 1 : K) <> 0 -> (1 + 1 + 1 : K) <> 0 ->
  spans (mc_h K G (sp_1 K G p)) -> spans (mc_h K G (sp_3 K G p)) -> spans (mc_h K G (sp_4 K G p)) ->
  sr_ok i sr -> sat_prove K G ch p i nc inputs aux sr t = Ok (pf, rx, ry, t') ->
  exists sr', sr_ok i sr' /\ sat_prove K G ch p i nc' inputs aux' sr' t = Ok (with_wry (mle (private i aux') (tl ry)) pf, rx, ry, t') /\
    forall sr2 rx2 ry2 t2, sr_ok i sr2 -> sat_prove K G ch p i nc' inputs aux' sr2 t = Ok (with_wry (mle (private i aux') (tl ry)) pf, rx2, ry2, t2) -> sr_same i sr2 sr'.
Proof.
  intros W SP SA SA' LI LA LA' NC NC' T2 T3 H1 H3 H4 O E. destruct (sat_honest K G ch p i nc inputs aux t W SP SA LI LA NC T2 T3 sr pf rx ry t' O E) as (Sh & _ & Ly & V).
  apply (sat_coins K G ch p i nc' inputs aux' t W SP SA' LI LA' NC' T2 T3 H1 H3 H4 (with_wry (mle (private i aux') (tl ry)) pf) rx ry t'); [exact Sh|reflexivity|exact Ly|exact V].
Qed.
Section Two.
Variables circuit1 circuit2 circuit' : M K unit.
Variables u1 u2 : unit.
Variables s1 s2 : cs K.
Variable i : r1cs K.
Hypothesis F1 : fits any circuit1 circuit'.
Hypothesis F2 : fits any circuit2 circuit'.
Hypothesis E1 : circuit1 (cs_new Prove) = Ok (u1, s1).
Hypothesis E2 : circuit2 (cs_new Prove) = Ok (u2, s2).
Hypothesis W1 : wf s1.
Hypothesis W2 : wf s2.
Hypothesis A1 : self_sat s1.
Hypothesis A2 : self_sat s2.
Hypothesis EI : inps s1 = inps s2.
Hypothesis Ei : generate_r1cs K circuit' = Ok i.
Hypothesis T2 : (1 + 1 : K) <> 0.
Hypothesis T3 : (1 + 1 + 1 : K) <> 0.
Lemma switch p sr (t : tr) pf rx ry t' : setup_for G p i -> spans (mc_h K G (sp_1 K G p)) -> spans (mc_h K G (sp_3 K G p)) -> spans (mc_h K G (sp_4 K G p)) -> sr_ok i sr ->
  sat_prove K G ch p i (length (ModelCS.cons s1)) (inps s1) (auxs s1) sr t = Ok (pf, rx, ry, t') ->
  exists sr', sr_ok i sr' /\ sat_prove K G ch p i (length (ModelCS.cons s2)) (inps s2) (auxs s2) sr' t = Ok (with_wry (mle (private i (auxs s2)) (tl ry)) pf, rx, ry, t') /\
    forall sr2 rx2 ry2 t2, sr_ok i sr2 -> sat_prove K G ch p i (length (ModelCS.cons s2)) (inps s2) (auxs s2) sr2 t = Ok (with_wry (mle (private i (auxs s2)) (tl ry)) pf, rx2, ry2, t2) -> sr_same i sr2 sr'.
Proof.
  intros SP H1 H3 H4 O E. destruct (instance_fits K circuit1 circuit' u1 s1 i F1 E1 W1 Ei) as (W & LI & LA & NC & Hs). destruct (instance_fits K circuit2 circuit' u2 s2 i F2 E2 W2 Ei) as (_ & LI' & LA' & NC' & Hs').
  assert (SA2 : inst_sat (assign (inps s1) (auxs s2)) i) by (apply Hs'; rewrite EI; exact A2). rewrite <- EI. rewrite <- EI in LI'. apply (sat_switch p i (length (ModelCS.cons s1)) (length (ModelCS.cons s2)) (inps s1) (auxs s1) (auxs s2) t sr pf rx ry t' W SP); try assumption. apply Hs; exact A1.
Qed.
Theorem nizk_reveals p rh ph sr pf : setup_for G p i -> spans (mc_h K G (sp_1 K G p)) -> spans (mc_h K G (sp_3 K G p)) -> spans (mc_h K G (sp_4 K G p)) -> sr_ok i sr ->
  create_nizk_proof K G ch p i circuit1 rh ph sr = Ok pf -> let value s := mle (private i (auxs s)) (tl (nz_ry K G pf)) in
  sa_wry K G (nz_sat K G pf) = value s1 /\
  (exists sr', sr_ok i sr' /\ create_nizk_proof K G ch p i circuit2 rh ph sr' = Ok (mkNizk K G (with_wry (value s2) (nz_sat K G pf)) (nz_rx K G pf) (nz_ry K G pf)) /\
    forall sr2, sr_ok i sr2 -> create_nizk_proof K G ch p i circuit2 rh ph sr2 = Ok (mkNizk K G (with_wry (value s2) (nz_sat K G pf)) (nz_rx K G pf) (nz_ry K G pf)) -> sr_same i sr2 sr') /\
  ((exists sr', sr_ok i sr' /\ create_nizk_proof K G ch p i circuit2 rh ph sr' = Ok pf) <-> value s1 = value s2).
Proof.
  intros SP H1 H3 H4 O E value. unfold create_nizk_proof in E. rewrite E1 in E. match type of E with rmap _ ?X = _ => destruct X as [[[[sp rx] ry] t']| |] eqn:P; cbn [rmap rbind] in E; try discriminate end. injection E as <-. cbn [nz_sat nz_rx nz_ry] in *.
  assert (L1 : sa_wry K G sp = value s1) by exact (proj2 (sat_leak K G ch _ _ _ _ _ _ _ _ _ _ _ P)). destruct (switch p sr _ sp rx ry t' SP H1 H3 H4 O P) as (sr' & O' & P' & U). split; [exact L1|].
  assert (C2 : create_nizk_proof K G ch p i circuit2 rh ph sr' = Ok (mkNizk K G (with_wry (value s2) sp) rx ry)) by (unfold create_nizk_proof; rewrite E2, P'; reflexivity).
  split; [|split].
  - exists sr'. split; [exact O'|]. split; [exact C2|]. intros sr2 O2 Z. unfold create_nizk_proof in Z. rewrite E2 in Z. match type of Z with rmap _ ?X = _ => destruct X as [[[[sp2 rx2] ry2] t2]| |] eqn:P2; cbn [rmap rbind] in Z; try discriminate end. injection Z as -> _ _. exact (U _ _ _ _ O2 P2).
  - intros (sr2 & O2 & Z). unfold create_nizk_proof in Z. rewrite E2 in Z. match type of Z with rmap _ ?X = _ => destruct X as [[[[sp2 rx2] ry2] t2]| |] eqn:P2; cbn [rmap rbind] in Z; try discriminate end. injection Z as -> -> ->.
    rewrite <- L1. exact (proj2 (sat_leak K G ch _ _ _ _ _ _ _ _ _ _ _ P2)).
  - intro Q. exists sr'. split; [exact O'|]. rewrite C2, wry_same by congruence. reflexivity.
Qed.
Theorem snark_reveals p em c rh ph eh sr i1 i2 i3 pf : setup_for G (sn_sat K G p) i -> spans (mc_h K G (sp_1 K G (sn_sat K G p))) -> spans (mc_h K G (sp_3 K G (sn_sat K G p))) -> spans (mc_h K G (sp_4 K G (sn_sat K G p))) -> sr_ok i sr ->
  create_snark_proof K G ch p i circuit1 em c rh ph eh sr i1 i2 i3 = Ok pf -> exists ry, let value s := mle (private i (auxs s)) (tl ry) in
  (forall rx' ry' t', sat_verify K G ch (sn_sat K G p) i (tl (inps s1)) (sk_sat K G pf) (sk_evals K G pf) [MF "encode_hash" eh; MF "params_hash" ph; MF "r1cs_hash" rh] = Ok (true, rx', ry', t') -> ry' = ry) /\
  sa_wry K G (sk_sat K G pf) = value s1 /\
  exists sr', sr_ok i sr' /\ create_snark_proof K G ch p i circuit2 em c rh ph eh sr' i1 i2 i3 = Ok (mkSnark K G (with_wry (value s2) (sk_sat K G pf)) (sk_evals K G pf) (sk_ev K G pf)) /\
    forall sr2 j1 j2 j3, sr_ok i sr2 -> create_snark_proof K G ch p i circuit2 em c rh ph eh sr2 j1 j2 j3 = Ok (mkSnark K G (with_wry (value s2) (sk_sat K G pf)) (sk_evals K G pf) (sk_ev K G pf)) -> sr_same i sr2 sr'.
Proof.
  intros SP H1 H3 H4 O E. destruct (instance_fits K circuit1 circuit' u1 s1 i F1 E1 W1 Ei) as (W & LI & LA & NC & Hs). pose proof W as (_ & _ & (La & Lb & Lc) & (Ra & Rb & Rc)). assert (SI : inst_sat (assign (inps s1) (auxs s1)) i) by (apply Hs; exact A1).
  unfold create_snark_proof in E. rewrite E1 in E. cbn [rbind] in E. match type of E with unwrap (rbind ?X _) = _ => destruct X as [[[[sp rx] ry] t']| |] eqn:P; cbn [rbind unwrap] in E; try discriminate end.
  match type of P with sat_prove _ _ _ ?a ?b ?c ?d ?e _ ?tt = _ => destruct (sat_honest K G ch a b c d e tt W SP SI LI LA NC T2 T3 sr sp rx ry t' O P) as (_ & Lx & Ly & _) end.
  assert (EV := E). destruct (evaluate_inst K i (r_a K i) rx ry W La Ra Lx Ly) as (Ka & _). destruct (evaluate_inst K i (r_b K i) rx ry W Lb Rb Lx Ly) as (Kb & _). destruct (evaluate_inst K i (r_c K i) rx ry W Lc Rc Lx Ly) as (Kc & _).
  rewrite Ka, Kb, Kc in E. cbn [rbind] in E. match type of E with unwrap (rmap _ ?X) = _ => destruct X as [[ev t2]| |] eqn:Q; cbn [rmap rbind unwrap] in E; try discriminate end. injection E as <-. cbn [sk_sat sk_evals sk_ev].
  exists ry. cbv zeta. split; [|split; [exact (proj2 (sat_leak K G ch _ _ _ _ _ _ _ _ _ _ _ P))|]].
  - intros rx' ry' t'' V. assert (ER : enough_rand i sr) by (destruct O as ([? ?] & [? ?] & _); split; split; [lia|assumption|lia|assumption]).
    match type of P with sat_prove _ _ _ _ _ ?c _ _ _ ?tt = _ => destruct (sat_run K G ch (sn_sat K G p) i c (inps s1) (auxs s1) sr tt W SP ER SI LI LA NC T2 T3) as (rx0 & ry0 & ry1 & blinds & t3 & mk & _ & _ & _ & _ & Eq & H) end. rewrite Eq in P.
    match type of P with rbind ?X _ = _ => destruct X as [[[wpf cry] t4]| |]; cbn [rbind] in P; try discriminate end. destruct (H wpf cry t4 eq_refl) as (pf0 & t0 & Em & ra & rb & rc & beta & cc & cc' & tc & tv & _ & V0 & _). rewrite Em in P. injection P as -> -> <- _. cbv zeta in V0.
    rewrite V in V0. match type of V0 with context [if ?b then _ else _] => destruct b end; [injection V0 as _ -> _; reflexivity|discriminate].
  - destruct (switch (sn_sat K G p) sr _ sp rx ry t' SP H1 H3 H4 O P) as (sr' & O' & P' & U). exists sr'. split; [exact O'|]. split.
    + unfold create_snark_proof. rewrite E2. cbn [rbind]. rewrite P'. cbn [rbind]. rewrite Ka, Kb, Kc. cbn [rbind]. rewrite Q. reflexivity.
    + intros sr2 j1 j2 j3 O2 Z. unfold create_snark_proof in Z. rewrite E2 in Z. cbn [rbind] in Z. match type of Z with unwrap (rbind ?X _) = _ => destruct X as [[[[sp2 rx2] ry2] t2']| |] eqn:P2; cbn [rbind unwrap] in Z; try discriminate end.
      do 3 (match type of Z with unwrap (rbind ?X _) = _ => destruct X as [?| |]; cbn [rbind unwrap] in Z; try discriminate end). match type of Z with unwrap (rmap _ ?X) = _ => destruct X as [[ev2 t3]| |]; cbn [rmap rbind unwrap] in Z; try discriminate end.
      injection Z as -> _ _ _ _. exact (U _ _ _ _ O2 P2).
Qed.
End Two.
(** Enough proofs for one witness give the witness away. *)
Lemma sumn_pick n j (f : nat -> K) : (j < n)%nat -> sumn n (fun b => f b * (if Nat.eqb b j then 1 else 0)) = f j.
Proof.
  intro L. induction n as [|n IH]; [lia|]. cbn [sumn]. destruct (Nat.eqb_spec n j) as [->|N].
  - rewrite sumn_0; [ring|]. intros b Hb. destruct (Nat.eqb_spec b j); [lia|]. ring.
  - rewrite IH by lia. ring.
Qed.
Lemma swap_sums {A} (l : list A) (c : A -> K) (e : A -> nat -> K) (w : nat -> K) n : fsum (map (fun x => c x * sumn n (fun b => w b * e x b)) l) = sumn n (fun b => w b * fsum (map (fun x => c x * e x b) l)).
Proof.
  induction l as [|x l IH]; cbn [map fsum].
  - symmetry. apply sumn_0. intros. ring.
  - rewrite IH. clear IH. induction n as [|n IH]; cbn [sumn]; [ring|]. rewrite <- IH. ring.
Qed.
Lemma nth_repeat0 k n : nth k (repeat (0 : K) n) 0 = 0.
Proof. revert k. induction n as [|n IH]; intros [|k]; cbn [repeat nth]; auto. Qed.
Theorem nizk_recover p i circuit u s rh ph j (l : list (K * nizk K G)) : circuit (cs_new Prove) = Ok (u, s) -> (j < half_len K i)%nat ->
  (forall c pf, In (c, pf) l -> exists sr, create_nizk_proof K G ch p i circuit rh ph sr = Ok pf) ->
  (forall b, (b < half_len K i)%nat -> fsum (map (fun x => fst x * nth b (eval_eq K (tl (nz_ry K G (snd x)))) 0) l) = if Nat.eqb b j then 1 else 0) ->
  nth j (auxs s) 0 = fsum (map (fun x => fst x * sa_wry K G (nz_sat K G (snd x))) l).
Proof.
  intros E Lj Hl Hs. set (wv := private i (auxs s)).
  assert (Hw : forall c pf, In (c, pf) l -> sa_wry K G (nz_sat K G pf) = sumn (half_len K i) (fun b => nth b wv 0 * nth b (eval_eq K (tl (nz_ry K G pf))) 0)).
  { intros c pf I. destruct (Hl c pf I) as (sr & P). unfold create_nizk_proof in P. rewrite E in P. match type of P with rmap _ ?X = _ => destruct X as [[[[sp rx] ry] t']| |] eqn:Z; cbn [rmap rbind] in P; try discriminate end. injection P as <-. cbn [nz_sat nz_ry].
    destruct (sat_leak K G ch _ _ _ _ _ _ _ _ _ _ _ Z) as [_ ->]. fold wv.
    unfold sat_prove in Z. destruct (negb _) in Z; [discriminate|]. unfold pad_to in Z. destruct (Nat.ltb_spec (half_len K i) (length (auxs s))) as [|La]; [discriminate|].
    assert (Lw : length wv = half_len K i) by (unfold wv, private; rewrite app_length, repeat_length; lia).
    rewrite <- Lw, <- dot_sumn. apply mle_dot.
    cbn [rbind] in Z. destruct (Nat.ltb _ (length (inps s))) in Z; [discriminate|]. cbn [rbind] in Z. cbv zeta in Z. change (auxs s ++ repeat 0 (half_len K i - length (auxs s))) with wv in Z.
    match type of Z with rbind ?X _ = _ => destruct X as [[cw wb]| |]; cbn [rbind] in Z; try discriminate end. destruct (draws _ _ _ _ _ _) as [tau t2] in Z. do 3 step Z.
    match type of Z with rbind ?X _ = _ => destruct X as [[[[[one rx''] [[[va' vb'] vc'] ve']] bl1'] t3']| |]; cbn [rbind] in Z; try discriminate end.
    destruct (knowledge_proof _ _ _ _ vc' _ _ _ _) as [[kpf' Cc'] t4'] in Z. destruct (product_proof _ _ _ _ va' _ _ _ _ _ _ _ _ _ _ _) as [[[[ppf' Ca'] Cb'] Cp'] t5'] in Z.
    destruct (eq_proof _ _ _ _ (ve' * (va' * vb' - vc')) _ _ _ _ _) as [eq1' t7'] in Z. unfold draw in Z. cbv beta iota zeta in Z. do 3 step Z.
    match type of Z with rbind ?X _ = _ => destruct X as [[[[[two' rys] [vs' vz']] bl2'] t9']| |]; cbn [rbind] in Z; try discriminate end. destruct rys as [|ry0' ryt]; [discriminate|].
    match type of Z with rbind ?X _ = _ => destruct X as [ew'| |] eqn:Zw; cbn [rbind] in Z; try discriminate end. match type of Z with rbind ?X _ = _ => destruct X as [[[wpf' cry'] t10']| |]; cbn [rbind] in Z; try discriminate end.
    destruct (eq_proof _ _ _ _ (vs' * vz') _ _ _ _ _) as [eq2' t11'] in Z. injection Z as _ _ <- _. cbn [tl]. rewrite eval_value_ok in Zw. destruct (Nat.leb_spec (length wv) (2 ^ length ryt)); [assumption|discriminate]. }
  assert (Hr : fsum (map (fun x => fst x * sa_wry K G (nz_sat K G (snd x))) l) = fsum (map (fun x => fst x * sumn (half_len K i) (fun b => nth b wv 0 * nth b (eval_eq K (tl (nz_ry K G (snd x)))) 0)) l)).
  { apply f_equal, map_ext_in. intros [c pf] I. cbn [fst snd]. rewrite (Hw c pf I). reflexivity. }
  rewrite Hr, (swap_sums l (fun x => fst x) (fun x b => nth b (eval_eq K (tl (nz_ry K G (snd x)))) 0)).
  rewrite (sumn_ext K _ _ (fun b => nth b wv 0 * (if Nat.eqb b j then 1 else 0))) by (intros b Hb; rewrite (Hs b Hb); reflexivity).
  rewrite sumn_pick by exact Lj. unfold wv, private. destruct (Nat.ltb_spec j (length (auxs s))) as [L|L].
  - rewrite app_nth1 by exact L. reflexivity.
  - rewrite app_nth2, nth_overflow by exact L. symmetry. apply nth_repeat0.
Qed.
End S.
