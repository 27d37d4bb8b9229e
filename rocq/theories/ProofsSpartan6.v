(** The theorems about `create_nizk_proof` and `verify_nizk_proof`. *)
From Verif Require Import Field Poly Module ModTac ModelTranscript ModelMle SpecMle ProofsMle SpecLibra ProofsLibra3 ModelLC SpecLC ModelCS SpecCS SpecMode ModelSigma ProofsSigma ProofsSigma3 ProofsSigma4 ModelSpartan SpecSpartan ProofsSpartan ProofsSpartan2 ProofsSpartan4 ProofsSpartan5.
From Coq Require Import String List Lia.
Local Open Scope string_scope.
Local Open Scope list_scope.
Local Open Scope fld_scope.
Section S.
Variable K : Fld.
Variable G : Grp K.
Variable ch : oracle K G.
Add Field Kf2 : (f_laws K).
Notation tr := (transcript K G).

(** What synthesis with values says about the instance made by synthesis without. *)
Lemma instance_fits (circuit circuit' : M K unit) u s i : fits any circuit circuit' -> circuit (cs_new Prove) = Ok (u, s) -> wf s -> generate_r1cs K circuit' = Ok i ->
  wf_inst i /\ length (inps s) = r_inputs K i /\ length (auxs s) = r_aux K i /\ r_cons K i = (2 ^ log2c (length (ModelCS.cons s)))%nat /\ (forall a, inst_sat a i <-> sat a s).
Proof.
  intros F E Ws Ei. destruct (F (cs_new Prove) (cs_new Setup) (conj eq_refl (conj eq_refl eq_refl)) eq_refl u s E) as (u' & s' & E' & _ & (L1 & L2 & Ec) & _).
  destruct (generate_ok K circuit' u' s' E') as (i' & Ei' & Hi & Ha & Hc & Hs & Hw). assert (i' = i) by congruence. subst i'.
  destruct Ws as ((r & Hr) & Wc). split.
  - apply Hw; [rewrite <- L1, Hr; cbn; lia|]. rewrite <- Ec. revert Wc. apply Forall_impl. intros c (A & B & C).
    assert (AL : forall v, allocated s v -> allocated s' v) by (intros [v|v]; cbn; lia).
    split; [|split]; [revert A|revert B|revert C]; apply Forall_impl; intros t; apply AL.
  - split; [congruence|]. split; [congruence|]. split.
    + rewrite <- Ec in Hc. pose proof (pow2_above_log (length (ModelCS.cons s))) as P. destruct Hc as (a & Ea & La & Ma). destruct P as (b & Eb & Lb & Mb). rewrite Ea, Eb in *. apply Nat.le_antisymm; [apply Ma|apply Mb]; lia.
    + intro a. rewrite Hs. unfold sat. rewrite Ec. reflexivity.
Qed.

Section Run.
Variable p : satp K G.
Variables circuit circuit' : M K unit.
Variable u : unit.
Variable s : cs K.
Variable i : r1cs K.
Variables rh ph : K.
Variable sr : srand K.
Hypothesis F : fits any circuit circuit'.
Hypothesis E : circuit (cs_new Prove) = Ok (u, s).
Hypothesis Ws : wf s.
Hypothesis SAT : self_sat s.
Hypothesis Ei : generate_r1cs K circuit' = Ok i.
Hypothesis SP : setup_for G p i.
Hypothesis ER : enough_rand i sr.
Hypothesis T2 : (1 + 1 : K) <> 0.
Hypothesis T3 : (1 + 1 + 1 : K) <> 0.

Theorem nizk_exact pf : create_nizk_proof K G ch p i circuit rh ph sr = Ok pf ->
  length (nz_rx K G pf) = rounds_x K i /\ length (nz_ry K G pf) = rounds_y K i /\ exists (ra rb rc beta c c' : K) tc, c' = ch "c" tc /\
    let rx := nz_rx K G pf in let ry := nz_ry K G pf in let z := public i (inps s) in
    let vs := ra * mat_mle K i (r_a K i) rx ry + rb * mat_mle K i (r_b K i) rx ry + rc * mat_mle K i (r_c K i) rx ry in
    let d := mle (squeeze K z) (tl ry) - mle z (tl ry) in
    verify_nizk_proof K G ch p i (tl (inps s)) pf rh ph = Ok (geqb (gsm ((c - c') * beta) (mc_h K G (sp_1 K G p))) (gsm (c' * (vs * (hd 0 ry * d))) (hd g0 (mc_gens K G (sp_1 K G p))))) /\ (d = 0 -> c = c').
Proof.
  intro Epf. destruct (instance_fits circuit circuit' u s i F E Ws Ei) as (W & LI & LA & NC & Hs). pose proof W as (_ & _ & (La & Lb & Lc) & (Ra & Rb & Rc)).
  assert (SI : inst_sat (assign (inps s) (auxs s)) i) by (apply Hs; exact SAT).
  destruct (sat_run K G ch p i (length (ModelCS.cons s)) (inps s) (auxs s) sr [MF "params_hash" ph; MF "r1cs_hash" rh] W SP ER SI LI LA NC T2 T3) as (rx & ry0 & ry' & blinds & t2 & mk & Lx & Ly & _ & _ & Eq & H).
  unfold create_nizk_proof in Epf. rewrite E, Eq in Epf. destruct (inner_product_proof _ _ _ _ _ _ _ _ _ _ _ _ _ _) as [[[wpf cry] t3]| |]; cbn [rbind rmap] in Epf; [|discriminate|discriminate].
  destruct (H wpf cry t3 eq_refl) as (sp & t' & Em & ra & rb & rc & beta & c & c' & tc & tv & Hc & V & Hd). clear H. rewrite Em in Epf. injection Epf as <-. cbn [nz_rx nz_ry nz_sat].
  assert (Ly' : length (ry0 :: ry') = rounds_y K i) by (cbn [length]; unfold rounds_y; lia).
  split; [exact Lx|]. split; [exact Ly'|]. exists ra, rb, rc, beta, c, c', tc. split; [exact Hc|]. cbv zeta. cbn [hd tl]. split; [|intro D; apply Hd, D].
  unfold verify_nizk_proof. cbn [nz_rx nz_ry nz_sat]. destruct (evaluate_inst K i (r_a K i) rx (ry0 :: ry') W La Ra Lx Ly') as (-> & _). destruct (evaluate_inst K i (r_b K i) rx (ry0 :: ry') W Lb Rb Lx Ly') as (-> & _). destruct (evaluate_inst K i (r_c K i) rx (ry0 :: ry') W Lc Rc Lx Ly') as (-> & _).
  cbn [rbind]. rewrite V. destruct SP as (S1 & _). rewrite S1. cbn [rmap]. match goal with |- context [if ?b then _ else _] => destruct b end; reflexivity.
Qed.
Theorem nizk_complete pf : (forall a b, (a < b)%nat -> nth a (inps s) 0 = 0 -> nth b (inps s) 0 = 0) -> create_nizk_proof K G ch p i circuit rh ph sr = Ok pf ->
  verify_nizk_proof K G ch p i (tl (inps s)) pf rh ph = Ok true.
Proof.
  intros Z Epf. destruct (nizk_exact pf Epf) as (_ & _ & ra & rb & rc & beta & c & c' & tc & _ & V & Hd). cbv zeta in *.
  assert (D : mle (squeeze K (public i (inps s))) (tl (nz_ry K G pf)) - mle (public i (inps s)) (tl (nz_ry K G pf)) = 0).
  { rewrite (mle_nth K (squeeze K (public i (inps s))) (public i (inps s))); [ring|]. intros j _. revert j. apply squeeze_trailing.
    assert (P : forall j, nth j (public i (inps s)) 0 = nth j (inps s) 0).
    { intro j. unfold public. destruct (Nat.lt_ge_cases j (length (inps s))) as [L|L]; [apply app_nth1, L|]. rewrite app_nth2, (nth_overflow (inps s)) by exact L. apply nth_repeat. }
    intros a b L. rewrite !P. apply Z, L. }
  rewrite V, D, (Hd D). f_equal. apply geqb_true. gmod; ring.
Qed.
Theorem nizk_total : (forall l t, ch l t <> 0) -> (log2c (half_len K i) - log2c (half_len K i) / 2 <= length (sr_bv K sr))%nat ->
  exists pf, create_nizk_proof K G ch p i circuit rh ph sr = Ok pf.
Proof.
  intros N B. destruct (instance_fits circuit circuit' u s i F E Ws Ei) as (W & LI & LA & NC & Hs).
  assert (SI : inst_sat (assign (inps s) (auxs s)) i) by (apply Hs; exact SAT).
  destruct (sat_run K G ch p i (length (ModelCS.cons s)) (inps s) (auxs s) sr [MF "params_hash" ph; MF "r1cs_hash" rh] W SP ER SI LI LA NC T2 T3) as (rx & ry0 & ry' & blinds & t2 & mk & Lx & Ly & Laux & Lbl & Eq & H).
  unfold create_nizk_proof. rewrite E, Eq. destruct SP as (S1 & S2 & S3 & S4).
  destruct (inner_product_total K G ch (sp_pc K G p) (auxs s ++ repeat 0 (half_len K i - length (auxs s))) blinds ry' (sr_ry K sr) (mle (auxs s ++ repeat 0 (half_len K i - length (auxs s))) ry') (sr_d K sr) (sr_delta K sr) (sr_beta K sr) (sr_bv K sr) t2 N) as ([[wpf cry] t3] & Ex); [rewrite Ly; exact Laux|right; rewrite Ly; exact Lbl|rewrite Ly; exact S4|exact S2|rewrite Ly; exact B|].
  rewrite Ex. cbn [rbind rmap]. destruct (mk wpf cry t3) as [[[? ?] ?] ?]. eauto.
Qed.
End Run.
End S.
