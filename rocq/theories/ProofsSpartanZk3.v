(** What spartan's proofs reveal: exactly one evaluation of the private assignment. *)
From Verif Require Import Field Poly Module ModTac ProofsPC ModelTranscript ModelMle SpecMle ProofsMle ModelLibra ProofsLibra SpecLibra ProofsLibra3 ModelLC SpecLC ModelCS SpecCS SpecMode ModelSigma ProofsSigma ProofsSigma2 ProofsSigma3 ProofsSigma4 ModelSpartan SpecSpartan ProofsSpartan ProofsSpartan2 ProofsSpartan3 AttackSpartan ProofsSpartan4 ProofsSpartan5 ProofsSpartan6 ModelSnark ProofsBulletproofs.
From Verif Require Import SpecSigmaZk SpecSpartanZk ProofsSigmaZk ProofsSigmaZk2 ProofsSigmaZk3 ProofsLibraCoins ProofsLibraCoins2 ProofsLibraCoins3 ProofsSpartanZk ProofsSpartanZk2.
From Coq Require Import String List Lia.
Local Open Scope string_scope.
Local Open Scope list_scope.
Local Open Scope fld_scope.
Section S.
Variable K : Fld.
Variable G : Grp K.
Variable ch : oracle K G.
Add Field Kf2 : (f_laws K).
Notation tr := (transcript K G).
Notation com p x b := (poly_commit_vec K G (mc_gens K G p) x (mc_h K G p) b).
Ltac step Z := match type of Z with rbind ?X _ = _ => destruct X as [?| |] eqn:?; cbn [rbind] in Z; try discriminate end.
(** The value in the clear, without any condition. *)
Theorem sat_leak p i ncons inputs aux sr (t : tr) pf rx ry t' : sat_prove K G ch p i ncons inputs aux sr t = Ok (pf, rx, ry, t') -> ry <> [] /\ sa_wry K G pf = mle (private i aux) (tl ry).
Proof.
  unfold sat_prove. intro Z. destruct (negb _) in Z; [discriminate|]. unfold pad_to in Z. destruct (Nat.ltb _ (length aux)) in Z; [discriminate|]. cbn [rbind] in Z. destruct (Nat.ltb _ (length inputs)) in Z; [discriminate|]. cbn [rbind] in Z. cbv zeta in Z.
  change (aux ++ repeat 0 (half_len K i - length aux)) with (private i aux) in Z.
  match type of Z with rbind ?X _ = _ => destruct X as [[cw wb]| |]; cbn [rbind] in Z; try discriminate end. destruct (draws _ _ _ _ _ _) as [tau t2] in Z. do 3 step Z.
  match type of Z with rbind ?X _ = _ => destruct X as [[[[[one rx''] [[[va' vb'] vc'] ve']] bl1'] t3']| |]; cbn [rbind] in Z; try discriminate end.
  destruct (knowledge_proof _ _ _ _ vc' _ _ _ _) as [[kpf' Cc'] t4'] in Z. destruct (product_proof _ _ _ _ va' _ _ _ _ _ _ _ _ _ _ _) as [[[[ppf' Ca'] Cb'] Cp'] t5'] in Z.
  destruct (eq_proof _ _ _ _ (ve' * (va' * vb' - vc')) _ _ _ _ _) as [eq1' t7'] in Z. unfold draw in Z. cbv beta iota zeta in Z. do 3 step Z.
  match type of Z with rbind ?X _ = _ => destruct X as [[[[[two' rys] [vs' vz']] bl2'] t9']| |]; cbn [rbind] in Z; try discriminate end. destruct rys as [|ry0' ryt]; [discriminate|].
  match type of Z with rbind ?X _ = _ => destruct X as [ew'| |] eqn:Zw; cbn [rbind] in Z; try discriminate end. match type of Z with rbind ?X _ = _ => destruct X as [[[wpf' cry'] t10']| |]; cbn [rbind] in Z; try discriminate end.
  destruct (eq_proof _ _ _ _ (vs' * vz') _ _ _ _ _) as [eq2' t11'] in Z. injection Z as <- _ <- _. cbn [sa_wry tl]. split; [discriminate|]. rewrite eval_value_ok in Zw. destruct (Nat.leb _ _); [injection Zw as <-; reflexivity|discriminate].
Qed.
Section Run.
Variable p : satp K G.
Variable i : r1cs K.
Variable ncons : nat.
Variables inputs aux : list K.
Variable t : tr.
Hypothesis W : wf_inst i.
Hypothesis SP : setup_for G p i.
Hypothesis SAT : inst_sat (assign inputs aux) i.
Hypothesis LI : length inputs = r_inputs K i.
Hypothesis LA : length aux = r_aux K i.
Hypothesis NC : r_cons K i = (2 ^ log2c ncons)%nat.
Hypothesis T2 : (1 + 1 : K) <> 0.
Hypothesis T3 : (1 + 1 + 1 : K) <> 0.
Notation dense := (fun ry => mle (public i inputs) ry).
Notation evals_at rx ry := (mat_mle K i (r_a K i) rx ry, mat_mle K i (r_b K i) rx ry, mat_mle K i (r_c K i) rx ry).
Theorem sat_honest sr pf rx ry t' : sr_ok i sr -> sat_prove K G ch p i ncons inputs aux sr t = Ok (pf, rx, ry, t') ->
  sat_shape i pf /\ length rx = rounds_x K i /\ length ry = rounds_y K i /\ sat_check K G ch dense p i (tl inputs) pf (evals_at rx ry) t = Ok (true, rx, ry, t').
Proof.
  intros (O1 & O2 & O3) E. assert (ER : enough_rand i sr) by (destruct O1, O2; split; split; [lia|assumption|lia|assumption]).
  destruct (sat_run_check K G ch p i ncons inputs aux sr t W SP ER SAT LI LA NC T2 T3 dense) as (rx0 & ry0 & ry' & blinds & t2 & mk & Lx & Ly & Laux & Lbl & Eq & H).
  assert (E0 := E). rewrite Eq in E. match type of E with rbind ?X _ = _ => destruct X as [[[wpf cry] t3]| |] eqn:Ei; cbn [rbind] in E; try discriminate end.
  destruct (H wpf cry t3 eq_refl) as (pf0 & t0 & Em & ra & rb & rc & beta & c & c' & tc & tv & Hc & V & Hd). clear H. rewrite Em in E. injection E as -> <- <- ->. cbv zeta in V, Hd.
  destruct Hd as [-> ->]; [ring|].
  split; [|split; [exact Lx|split; [cbn [length]; unfold rounds_y; lia|]]].
  2:{ rewrite V. replace (geqb _ _) with true; [reflexivity|]. symmetry. apply geqb_true. gmod; ring. }
  clear V Em Hc Eq Ei. revert E0. unfold sat_prove. intro Z. destruct (negb _) in Z; [discriminate|]. unfold pad_to in Z. destruct (Nat.ltb_spec (half_len K i) (length aux)) as [|La]; [discriminate|]. cbn [rbind] in Z. destruct (Nat.ltb _ (length inputs)) in Z; [discriminate|]. cbn [rbind] in Z. cbv zeta in Z.
  change (aux ++ repeat 0 (half_len K i - length aux)) with (private i aux) in Z. change (length (private i aux) = (2 ^ log2c (half_len K i))%nat) in Laux. set (k := log2c (half_len K i)) in *.
  match type of Z with rbind ?X _ = _ => destruct X as [[cw wb]| |] eqn:Epk; cbn [rbind] in Z; try discriminate end. destruct (draws _ _ _ _ _ _) as [tau t2'] in Z. do 3 step Z.
  match type of Z with rbind ?X _ = _ => destruct X as [[[[[one rx''] [[[va' vb'] vc'] ve']] bl1'] t3']| |] eqn:Z1; cbn [rbind] in Z; try discriminate end.
  destruct (knowledge_proof _ _ _ _ vc' _ _ _ _) as [[kpf' Cc'] t4'] in Z. destruct (product_proof _ _ _ _ va' _ _ _ _ _ _ _ _ _ _ _) as [[[[ppf' Ca'] Cb'] Cp'] t5'] eqn:Zp in Z.
  destruct (eq_proof _ _ _ _ (ve' * (va' * vb' - vc')) _ _ _ _ _) as [eq1' t7'] in Z. unfold draw in Z. cbv beta iota zeta in Z. do 3 step Z.
  match type of Z with rbind ?X _ = _ => destruct X as [[[[[two' rys] [vs' vz']] bl2'] t9']| |] eqn:Z2; cbn [rbind] in Z; try discriminate end. destruct rys as [|ry0' ryt]; [discriminate|].
  match type of Z with rbind ?X _ = _ => destruct X as [ew'| |] eqn:Zw; cbn [rbind] in Z; try discriminate end. match type of Z with rbind ?X _ = _ => destruct X as [[[wpf' cry'] t10']| |] eqn:Zi; cbn [rbind] in Z; try discriminate end.
  destruct (eq_proof _ _ _ _ (vs' * vz') _ _ _ _ _) as [eq2' t11'] in Z. injection Z as <- <- <- <- _. unfold sat_shape. cbn [sa_witness sa_one sa_two sa_pprod sa_prod].
  unfold sum_check_one in Z1. destruct (negb _) in Z1; [discriminate|]. match type of Z1 with rbind ?X _ = _ => destruct X as [[[[[sc1 q1] ts1] w1] u1]| |] eqn:Z1'; cbn [rbind] in Z1; try discriminate end.
  assert (sc1 = one) as -> by (revert Z1; clear; intro Z1; repeat (match type of Z1 with match ?l with _ => _ end = _ => destruct l; try discriminate end); injection Z1 as -> _ _ _ _ _ _ _; reflexivity).
  unfold sum_check_two in Z2. destruct (negb _) in Z2; [discriminate|]. destruct (negb _) in Z2; [discriminate|]. match type of Z2 with rbind ?X _ = _ => destruct X as [[[[[sc2 q2] ts2] w2] u2]| |] eqn:Z2'; cbn [rbind] in Z2; try discriminate end.
  assert (sc2 = two') as -> by (revert Z2; clear; intro Z2; repeat (match type of Z2 with match ?l with _ => _ end = _ => destruct l; try discriminate end); injection Z2 as -> _ _ _ _ _; reflexivity).
  fold k. split; [|split; [exact (rounds_shape K G ch _ _ _ _ _ _ _ _ _ _ _ _ _ _ _ _ O1 Z1')|split; [exact (rounds_shape K G ch _ _ _ _ _ _ _ _ _ _ _ _ _ _ _ _ O2 Z2')|split]]].
  - unfold packing_poly_commit, log2c in Epk. rewrite Laux, Nat.log2_up_pow2 in Epk by lia. destruct (negb _) in Epk; [discriminate|]. injection Epk as <- _. rewrite map_length, seq_length. reflexivity.
  - unfold product_proof, draw in Zp. injection Zp as <- _ _ _ _. reflexivity.
  - destruct SP as (_ & _ & _ & S4). fold k in S4. unfold inner_product_proof, log2c in Zi. rewrite Laux, Nat.log2_up_pow2, Ly, Nat.eqb_refl in Zi by lia. cbn [negb] in Zi. destruct (negb _) in Zi; [discriminate|]. destruct (Nat.ltb _ _) in Zi; [discriminate|].
    match type of Zi with rbind ?X _ = _ => destruct X as [[[[pf1 Cl] Cr] t1']| |] eqn:P; cbn [rbind] in Zi; try discriminate end. injection Zi as <- _ _.
    refine (log_dot_shape K G ch _ _ _ _ _ _ _ _ _ _ _ _ _ _ _ _ _ _ _ S4 P); [rewrite row_comb_tab, length_tab; reflexivity|rewrite eval_eq_length, skipn_length, Ly; reflexivity].
Qed.
End Run.
End S.
