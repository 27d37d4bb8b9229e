(** The theorems about `create_snark_proof` and `verify_snark_proof`. *)
From Verif Require Import Field Poly Module ModTac ModelTranscript ModelMle SpecMle ProofsMle SpecLibra ProofsLibra3 ModelLC SpecLC ModelCS SpecCS SpecMode ModelSigma ProofsSigma ProofsSigma3 ProofsSigma4 ModelSpartan SpecSpartan ProofsSpartan ProofsSpartan2 ProofsSpartan4 ProofsSpartan5 ProofsSpartan6 ModelSpark SpecSpark SpecSnark ModelSnark ProofsSpark ProofsSpark2 ProofsSnark ProofsSnark2 ProofsSnark3 ProofsSnark4 ProofsSnark5 ProofsSnark6 ProofsSnark7.
From Coq Require Import String List Lia Sorted.
Local Open Scope string_scope.
Local Open Scope list_scope.
Local Open Scope fld_scope.
Section S.
Variable K : Fld.
Variable G : Grp K.
Variable ch : oracle K G.
Add Field Kf3 : (f_laws K).
Notation tr := (transcript K G).
(** ** Counting the entries *)
Lemma listed_none : forall vals rows cols r c, Forall (fun q => q <> (r, c)) (combine rows cols) -> listed vals rows cols r c = (0 : K).
Proof.
  induction vals as [|v vals IH]; intros [|r0 rows] [|c0 cols] r c H; try reflexivity. cbn [listed combine] in *. pose proof (Forall_inv H) as H0. cbv beta in H0. rewrite (IH _ _ _ _ (Forall_inv_tail H)).
  destruct (Nat.eqb_spec r0 r) as [->|]; destruct (Nat.eqb_spec c0 c) as [->|]; cbn [andb]; try ring. contradiction.
Qed.
Lemma after_ne p q : after p q -> q <> p.
Proof. intros H ->. unfold after in H. lia. Qed.
Lemma count_lonely i m : wf_inst i -> length m = r_cons K i -> in_range (r_inputs K i) (r_aux K i) m -> (count_of K i m <= 1)%nat <-> lonely (half_len K i) m.
Proof.
  intros W Lm R. destruct (half_len_pow K i) as (_ & Ha & Hi). unfold count_of. destruct (switch_matrix_to_list K m (half_len K i)) as [[v r] c] eqn:E. cbn [fst snd].
  destruct (switch_ok K m _ _ _ v r c R Hi Ha E) as (L1 & L2 & Nz & _ & _ & So & Hl). split.
  - intros L a b a' b'. rewrite <- !Hl. destruct v as [|v0 [|v1 v]], r as [|r0 [|r1 r]], c as [|c0 [|c1 c]]; cbn [length] in *; try lia; cbn [listed]; [intro H; exfalso; apply H; reflexivity|].
    destruct (Nat.eqb_spec r0 a), (Nat.eqb_spec c0 b), (Nat.eqb_spec r0 a'), (Nat.eqb_spec c0 b'); cbn [andb]; intros H H'; try (exfalso; apply H; ring); try (exfalso; apply H'; ring). split; congruence.
  - intro Lo. destruct (Nat.le_gt_cases (length r) 1) as [|G1]; [assumption|exfalso]. destruct v as [|v0 [|v1 v]], r as [|r0 [|r1 r]], c as [|c0 [|c1 c]]; cbn [length] in *; try lia.
    cbn [combine] in So. inversion So as [|? ? So1 F1]; subst. inversion So1 as [|? ? _ F2]; subst. pose proof (Forall_inv F1) as A. pose proof (Forall_inv Nz) as N0. pose proof (Forall_inv (Forall_inv_tail Nz)) as N1. cbv beta in A, N0, N1.
    assert (Q0 : entry (half_len K i) m r0 c0 = v0).
    { rewrite <- Hl. change (listed (v0 :: v1 :: v) (r0 :: r1 :: r) (c0 :: c1 :: c) r0 c0) with ((if Nat.eqb r0 r0 && Nat.eqb c0 c0 then v0 else 0) + listed (v1 :: v) (r1 :: r) (c1 :: c) r0 c0). rewrite !Nat.eqb_refl. cbn [andb]. rewrite listed_none; [ring|]. revert F1. apply Forall_impl. intros q. apply after_ne. }
    assert (Q1 : entry (half_len K i) m r1 c1 = v1).
    { rewrite <- Hl. change (listed (v0 :: v1 :: v) (r0 :: r1 :: r) (c0 :: c1 :: c) r1 c1) with ((if Nat.eqb r0 r1 && Nat.eqb c0 c1 then v0 else 0) + ((if Nat.eqb r1 r1 && Nat.eqb c1 c1 then v1 else 0) + listed v r c r1 c1)). rewrite !Nat.eqb_refl. cbn [andb]. rewrite listed_none; [|revert F2; apply Forall_impl; intros q; apply after_ne].
      apply after_ne in A. destruct (Nat.eqb_spec r0 r1) as [->|]; destruct (Nat.eqb_spec c0 c1) as [->|]; cbn [andb]; try ring. contradiction. }
    apply after_ne in A. destruct (Lo r0 c0 r1 c1) as [-> ->]; [rewrite Q0; exact N0|rewrite Q1; exact N1|]. contradiction.
Qed.
(** ** The keys *)
Lemma key_new num rnd v : (v <= num)%nat -> key_for K G (pc_new K G num rnd) v.
Proof.
  intro H. unfold key_for, pc_new. cbn [pc_gen_1 pc_gen_n mc_gens mc_h]. split; [discriminate|]. split; [reflexivity|]. rewrite map_length, seq_length. apply Nat.pow_le_mono_r; [lia|].
  pose proof (Nat.div_mod_eq v 2). pose proof (Nat.div_mod_eq num 2). pose proof (Nat.mod_upper_bound v 2 ltac:(lia)). pose proof (Nat.mod_upper_bound num 2 ltac:(lia)). lia.
Qed.
Lemma setup_new i r1 r2 r3 r4 r5 r6 : setup_for G (sn_sat K G (snark_params_new K G i r1 r2 r3 r4 r5 r6)) i.
Proof. destruct (key_new (log2c (half_len K i)) r1 (log2c (half_len K i)) (Nat.le_refl _)) as (A & B & C). repeat split; assumption. Qed.

Section Run.
Variables circuit circuit' : M K unit.
Variable u : unit.
Variable s : cs K.
Variable i : r1cs K.
Variables rh ph eh : K.
Variable sr : srand K.
Variables i1 i2 i3 : iprand K.
Variables r1 r2 r3 r4 r5 r6 : nat -> G.
Variable em : enc_memory K.
Variable c : enc_commit K G.
Let p := snark_params_new K G i r1 r2 r3 r4 r5 r6.
Hypothesis F : fits any circuit circuit'.
Hypothesis E : circuit (cs_new Prove) = Ok (u, s).
Hypothesis Ws : wf s.
Hypothesis SAT : self_sat s.
Hypothesis Ei : generate_r1cs K circuit' = Ok i.
Hypothesis Ee : encode K G (sn_evals K G p) i = Ok (em, c).
Hypothesis ER : enough_rand i sr.
Hypothesis T2 : (1 + 1 : K) <> 0.
Hypothesis T3 : (1 + 1 + 1 : K) <> 0.
Lemma one_entry_count : wf_inst i -> one_entry_each i <-> (Nat.max (Nat.max (count_of K i (r_a K i)) (count_of K i (r_b K i))) (count_of K i (r_c K i)) <= 1)%nat.
Proof.
  intro W. pose proof W as (_ & _ & (La & Lb & Lc) & (Ra & Rb & Rc)). unfold one_entry_each. rewrite <- (count_lonely i (r_a K i) W La Ra), <- (count_lonely i (r_b K i) W Lb Rb), <- (count_lonely i (r_c K i) W Lc Rc). lia.
Qed.
(** The structure of a run. *)
Lemma snark_run : exists rx ry0 ry' blinds t2 (mk : dproof K G -> G -> tr -> satproof K G * list K * list K * tr),
  let aux' := auxs s ++ repeat 0 (half_len K i - length (auxs s)) in let sp := sn_sat K G p in let kk := log2c (half_len K i) in let ry := ry0 :: ry' in
  let ea := mat_mle K i (r_a K i) rx ry in let eb := mat_mle K i (r_b K i) rx ry in let ec := mat_mle K i (r_c K i) rx ry in
  length rx = rounds_x K i /\ length ry' = kk /\ length aux' = (2 ^ kk)%nat /\ length blinds = (2 ^ (kk / 2))%nat /\
  let ip := inner_product_proof K G ch (sp_pc K G sp) aux' blinds ry' (sr_ry K sr) (mle aux' ry') (sr_d K sr) (sr_delta K sr) (sr_beta K sr) (sr_bv K sr) t2 in
  (forall wpf cry t3, ip = Ok (wpf, cry, t3) -> exists sat t', mk wpf cry t3 = (sat, rx, ry, t') /\
    create_snark_proof K G ch p i circuit em c rh ph eh sr i1 i2 i3 = unwrap (rmap (fun '(ev, _) => mkSnark K G sat (ea, eb, ec) ev) (sparse_poly_eval_proof K G ch (sn_evals K G p) rx ry (ea, eb, ec) em i1 i2 i3 (absorb_evals K G (ea, eb, ec) c t'))) /\
    ((forall a b, (a < b)%nat -> nth a (inps s) 0 = 0 -> nth b (inps s) 0 = 0) -> sat_verify K G ch sp i (tl (inps s)) sat (ea, eb, ec) [MF "encode_hash" eh; MF "params_hash" ph; MF "r1cs_hash" rh] = Ok (true, rx, ry, t'))) /\
  ((forall x, ip <> Ok x) -> create_snark_proof K G ch p i circuit em c rh ph eh sr i1 i2 i3 = Panic).
Proof.
  destruct (instance_fits K circuit circuit' u s i F E Ws Ei) as (W & LI & LA & NC & Hs). pose proof W as (_ & _ & (La & Lb & Lc) & (Ra & Rb & Rc)).
  assert (SI : inst_sat (assign (inps s) (auxs s)) i) by (apply Hs; exact SAT). pose proof (setup_new i r1 r2 r3 r4 r5 r6) as SP. fold p in SP.
  destruct (sat_run K G ch (sn_sat K G p) i (length (ModelCS.cons s)) (inps s) (auxs s) sr [MF "encode_hash" eh; MF "params_hash" ph; MF "r1cs_hash" rh] W SP ER SI LI LA NC T2 T3) as (rx & ry0 & ry' & blinds & t2 & mk & Lx & Ly & Laux & Lbl & Eq & H).
  exists rx, ry0, ry', blinds, t2, mk. cbv zeta. split; [exact Lx|]. split; [exact Ly|]. split; [exact Laux|]. split; [exact Lbl|].
  assert (Ly' : length (ry0 :: ry') = rounds_y K i) by (cbn [length]; unfold rounds_y; lia). unfold create_snark_proof. rewrite E. cbn [rbind]. rewrite Eq. split.
  - intros wpf cry t3 Eip. rewrite Eip. cbn [rbind]. destruct (H wpf cry t3 Eip) as (sp & t' & Em & ra & rb & rc & beta & cc & cc' & tc & tv & _ & V & Hd). clear H. exists sp, t'. split; [exact Em|]. rewrite Em. cbn [rbind].
    destruct (evaluate_inst K i (r_a K i) rx (ry0 :: ry') W La Ra Lx Ly') as (-> & _). destruct (evaluate_inst K i (r_b K i) rx (ry0 :: ry') W Lb Rb Lx Ly') as (-> & _). destruct (evaluate_inst K i (r_c K i) rx (ry0 :: ry') W Lc Rc Lx Ly') as (-> & _). cbn [rbind]. split; [reflexivity|].
    intro Z. cbv zeta in V, Hd.
    assert (D : mle (squeeze K (public i (inps s))) ry' - mle (public i (inps s)) ry' = 0).
    { rewrite (mle_nth K (squeeze K (public i (inps s))) (public i (inps s))); [ring|]. intros j _. revert j. apply squeeze_trailing.
      assert (P : forall j, nth j (public i (inps s)) 0 = nth j (inps s) 0).
      { intro j. unfold public. destruct (Nat.lt_ge_cases j (length (inps s))) as [L|L]; [apply app_nth1, L|]. rewrite app_nth2, (nth_overflow (inps s)) by exact L. apply nth_repeat. }
      intros a b L. rewrite !P. apply Z, L. }
    destruct (Hd D) as [-> ->]. rewrite V, D. match goal with |- context [geqb ?a ?b] => assert (Q : geqb a b = true) by (apply geqb_true; gmod; ring); rewrite Q end. reflexivity.
  - intro N. destruct (inner_product_proof _ _ _ _ _ _ _ _ _ _ _ _ _ _) as [[[w y] t3]| |]; [exfalso; eapply N; reflexivity|reflexivity|reflexivity].
Qed.
(** The encoding together with the keys made for it. *)
Lemma encoded : wf_inst i -> exists k s0 rows cols vals, em = em_of K (2 ^ S s0) rows cols vals /\ accesses_ok rows (2 ^ k) (2 ^ S s0) /\ accesses_ok cols (2 ^ k) (2 ^ S s0) /\ all_len K k vals /\ length rows = 3%nat /\ length cols = 3%nat /\ length vals = 3%nat /\
  (k = 0%nat <-> one_entry_each i) /\ S s0 = Nat.max (rounds_x K i) (rounds_y K i) /\ (k <= log2c (r_cons K i * (half_len K i * 2)))%nat /\
  forall rx ry t, length rx = rounds_x K i -> length ry = rounds_y K i -> (1 <= k)%nat ->
  let e := (mat_mle K i (r_a K i) rx ry, mat_mle K i (r_b K i) rx ry, mat_mle K i (r_c K i) rx ry) in
  (forall ev t', sparse_poly_eval_proof K G ch (sn_evals K G p) rx ry e em i1 i2 i3 t = Ok (ev, t') -> sparse_poly_eval_verify K G ch (sn_evals K G p) ev c rx ry e t = Ok true) /\
  ((forall l t, ch l t <> 0) -> (3 + k <= length (ip_bv K i1))%nat -> (4 + k <= length (ip_bv K i2))%nat -> (1 + S s0 <= length (ip_bv K i3))%nat -> exists ev t', sparse_poly_eval_proof K G ch (sn_evals K G p) rx ry e em i1 i2 i3 t = Ok (ev, t')).
Proof.
  intro W. destruct (encode_ok K G (sn_evals K G p) i W) as (k & s0 & rows & cols & vals & c0 & Ee' & Cn & Cm & Ek & Es & Bk & Hr & Hc & Hv & L1 & L2 & L3 & P1 & P2 & EV). rewrite Ee in Ee'. injection Ee' as Eem Ec. rewrite <- Ec in *.
  exists k, s0, rows, cols, vals. split; [exact Eem|]. do 6 (split; [assumption|]). split.
  { rewrite (one_entry_count W), Ek. unfold log2c. rewrite Nat.log2_up_null. reflexivity. }
  split; [exact Es|]. split; [exact Bk|]. intros rx ry t Lx Ly K1. cbv zeta. rewrite Eem.
  assert (Lm : Nat.max (length rx) (length ry) = S s0) by (rewrite Lx, Ly; symmetry; exact Es).
  apply sparse_ok; try assumption; try (apply key_new; lia); [|apply EV; assumption].
  apply key_new. destruct (half_len_pow K i) as (En & _ & _). pose proof W as (_ & (kx & Ex) & _).
  assert (Rx : r_cons K i = (2 ^ rounds_x K i)%nat) by (unfold rounds_x, log2c; rewrite Ex, Nat.log2_up_pow2 by lia; reflexivity).
  assert (Ry : (half_len K i * 2 = 2 ^ rounds_y K i)%nat) by (unfold rounds_y; rewrite Nat.add_1_r; cbn [Nat.pow]; lia).
  rewrite Ry, Rx, pow_max, (Nat.max_comm (rounds_y K i)), <- Es. unfold next_pow2, log2c. rewrite Nat.log2_up_pow2 by lia. replace (2 ^ S s0 * 2)%nat with (2 ^ S (S s0))%nat by (cbn [Nat.pow]; lia). rewrite Nat.log2_up_pow2 by lia. lia.
Qed.
Theorem snark_panics : one_entry_each i -> create_snark_proof K G ch p i circuit em c rh ph eh sr i1 i2 i3 = Panic.
Proof.
  intro O. destruct (instance_fits K circuit circuit' u s i F E Ws Ei) as (W & _).
  destruct (encoded W) as (k & s0 & rows & cols & vals & Eem & Hr & Hc & Hv & L1 & L2 & L3 & Hk & Es & _ & _). apply Hk in O. subst k.
  destruct snark_run as (rx & ry0 & ry' & blinds & t2 & mk & Lx & Ly & _ & _ & HO & HN). cbv zeta in HO, HN.
  assert (Lm : Nat.max (length rx) (length (ry0 :: ry')) = S s0) by (rewrite Lx, Es; cbn [length]; unfold rounds_y; lia).
  destruct (inner_product_proof _ _ _ _ _ _ _ _ _ _ _ _ _ _) as [[[w y] t3]| |]; [|apply HN; discriminate|apply HN; discriminate].
  destruct (HO w y t3 eq_refl) as (sat & t' & _ & -> & _). rewrite Eem, (sparse_panics K G ch (sn_evals K G p) 0 s0 rows cols vals i1 i2 i3 Hr Hc Hv L1 rx (ry0 :: ry') _ _ eq_refl Lm). reflexivity.
Qed.
Theorem snark_complete pf : (forall a b, (a < b)%nat -> nth a (inps s) 0 = 0 -> nth b (inps s) 0 = 0) -> create_snark_proof K G ch p i circuit em c rh ph eh sr i1 i2 i3 = Ok pf ->
  verify_snark_proof K G ch p i (tl (inps s)) pf c rh ph eh = Ok true.
Proof.
  intros Z Epf. destruct (instance_fits K circuit circuit' u s i F E Ws Ei) as (W & _).
  destruct (encoded W) as (k & s0 & rows & cols & vals & _ & _ & _ & _ & _ & _ & _ & Hk & Es & _ & HS).
  destruct k as [|k']; [rewrite snark_panics in Epf by (apply Hk; reflexivity); discriminate|].
  destruct snark_run as (rx & ry0 & ry' & blinds & t2 & mk & Lx & Ly & _ & _ & HO & HN). cbv zeta in HO, HN.
  assert (Ly' : length (ry0 :: ry') = rounds_y K i) by (cbn [length]; unfold rounds_y; lia).
  destruct (inner_product_proof _ _ _ _ _ _ _ _ _ _ _ _ _ _) as [[[w y] t3]| |]; [|rewrite HN in Epf by discriminate; discriminate|rewrite HN in Epf by discriminate; discriminate].
  destruct (HO w y t3 eq_refl) as (sat & t' & _ & EC & V). rewrite EC in Epf. clear HO HN.
  destruct (HS rx (ry0 :: ry') (absorb_evals K G (mat_mle K i (r_a K i) rx (ry0 :: ry'), mat_mle K i (r_b K i) rx (ry0 :: ry'), mat_mle K i (r_c K i) rx (ry0 :: ry')) c t') Lx Ly' ltac:(lia)) as [HX _].
  destruct (sparse_poly_eval_proof _ _ _ _ _ _ _ _ _ _ _ _) as [[ev t4]| |] eqn:ES; try discriminate. cbn [rmap unwrap] in Epf. injection Epf as <-.
  unfold verify_snark_proof. cbn [sk_sat sk_evals sk_ev]. rewrite (V Z). cbn [rbind negb]. rewrite (HX _ _ eq_refl). reflexivity.
Qed.
Theorem snark_total : ~ one_entry_each i -> (forall l t, ch l t <> 0) -> (log2c (half_len K i) - log2c (half_len K i) / 2 <= length (sr_bv K sr))%nat ->
  (3 + log2c (r_cons K i * (half_len K i * 2)) <= length (ip_bv K i1))%nat -> (4 + log2c (r_cons K i * (half_len K i * 2)) <= length (ip_bv K i2))%nat -> (1 + Nat.max (rounds_x K i) (rounds_y K i) <= length (ip_bv K i3))%nat ->
  exists pf, create_snark_proof K G ch p i circuit em c rh ph eh sr i1 i2 i3 = Ok pf.
Proof.
  intros O N B B1 B2 B3. destruct (instance_fits K circuit circuit' u s i F E Ws Ei) as (W & _).
  destruct (encoded W) as (k & s0 & rows & cols & vals & _ & _ & _ & _ & _ & _ & _ & Hk & Es & Bk & HS).
  destruct k as [|k']; [exfalso; apply O, Hk; reflexivity|]. destruct (setup_new i r1 r2 r3 r4 r5 r6) as (S1 & S2 & S3 & S4). fold p in S1, S2, S3, S4.
  destruct snark_run as (rx & ry0 & ry' & blinds & t2 & mk & Lx & Ly & Laux & Lbl & HO & _). cbv zeta in HO, Laux.
  assert (Ly' : length (ry0 :: ry') = rounds_y K i) by (cbn [length]; unfold rounds_y; lia).
  destruct (inner_product_total K G ch (sp_pc K G (sn_sat K G p)) (auxs s ++ repeat 0 (half_len K i - length (auxs s))) blinds ry' (sr_ry K sr) (mle (auxs s ++ repeat 0 (half_len K i - length (auxs s))) ry') (sr_d K sr) (sr_delta K sr) (sr_beta K sr) (sr_bv K sr) t2 N) as ([[wpf cry] t3] & Ex); [rewrite Ly; exact Laux|right; rewrite Ly; exact Lbl|rewrite Ly; exact S4|exact S2|rewrite Ly; exact B|].
  destruct (HO _ _ _ Ex) as (sat & t' & _ & -> & _). clear HO.
  destruct (HS rx (ry0 :: ry') (absorb_evals K G (mat_mle K i (r_a K i) rx (ry0 :: ry'), mat_mle K i (r_b K i) rx (ry0 :: ry'), mat_mle K i (r_c K i) rx (ry0 :: ry')) c t') Lx Ly' ltac:(lia)) as [_ HT].
  destruct (HT N) as (ev & t4 & ->); [lia|lia|lia|]. cbn. eauto.
Qed.
End Run.
(** ** The verifier never answers no on account of the evaluation proof *)
Definition noerr {A} (r : res A) : Prop := forall e, r <> Err e.
Lemma noerr_bind {A B} (r : res A) (f : A -> res B) : noerr r -> (forall a, noerr (f a)) -> noerr (rbind r f).
Proof. intros H Hf. destruct r as [a|e|]; cbn [rbind]; [apply Hf|destruct (H e eq_refl)|discriminate]. Qed.
Lemma noerr_map {A B} (f : A -> B) (r : res A) : noerr r -> noerr (rmap f r).
Proof. intros H. destruct r as [a|e|]; cbn [rmap]; [discriminate|destruct (H e eq_refl)|discriminate]. Qed.
Lemma noerr_ok {A} (a : A) : noerr (Ok a).
Proof. discriminate. Qed.
Lemma noerr_panic {A} : noerr (@Panic A).
Proof. discriminate. Qed.
Lemma noerr_unwrap {A} (r : res A) : noerr (unwrap r).
Proof. destruct r; discriminate. Qed.
Lemma noerr_kget (l : list K) i : noerr (ModelLibra.kget K l i).
Proof. unfold ModelLibra.kget. destruct (nth_error l i); discriminate. Qed.
Lemma noerr_fold {A B} (f : A -> B -> res A) : (forall a b, noerr (f a b)) -> forall l a, noerr (ModelLibra.foldr f a l).
Proof. intros H. induction l as [|x l IH]; intro a; [discriminate|]. cbn [ModelLibra.foldr]. apply noerr_bind; [apply H|exact IH]. Qed.
Lemma noerr_cubic polys : forall claim t, noerr (cubic_check K G ch polys claim t).
Proof. induction polys as [|q polys IH]; intros claim t; [discriminate|]. cbn [cubic_check]. destruct (negb _); [discriminate|]. unfold draw. apply noerr_map, IH. Qed.
Lemma noerr_pc layers : forall dotp cdotp k nr claims rands t, noerr (pc_verify K G ch layers dotp cdotp k nr claims rands t).
Proof.
  induction layers as [|lp rest IH]; intros; [discriminate|]. cbn [pc_verify]. destruct (ModelLibra.draws _ _ _ _ _ _) as [coeffs t1]. apply noerr_bind; [unfold sum_check_cubic_verify; destruct (negb _); [discriminate|apply noerr_cubic]|].
  intros [[r final] t2]. destruct (negb _); [discriminate|]. destruct (negb _); [discriminate|]. apply noerr_bind; [unfold eval_eq_x_y; destruct (Nat.eqb _ _); discriminate|]. intro e. apply noerr_bind.
  - destruct rest; [|discriminate]. unfold dotp_expected. destruct dotp as [[row col] val]. apply noerr_fold. intros sm [j a]. apply noerr_bind; [apply noerr_kget|]. intro b. apply noerr_bind; [apply noerr_kget|]. intro d. apply noerr_map, noerr_kget.
  - intro extra. destruct (negb _); [discriminate|]. unfold draw. apply noerr_map, IH.
Qed.
Lemma noerr_sparse p pf c rx ry evals t : noerr (sparse_poly_eval_verify K G ch p pf c rx ry evals t).
Proof.
  unfold sparse_poly_eval_verify. destruct evals as [[ea eb] ec]. destruct (equalize_length K rx ry) as [rx' ry']. destruct (negb _); [discriminate|]. unfold draw. apply noerr_bind.
  - unfold product_layer_verify. destruct (pl_row K (ep_prod K G pf)) as [[[? ?] ?] ?]. destruct (pl_col K (ep_prod K G pf)) as [[[? ?] ?] ?]. repeat (match goal with |- noerr (if ?b then _ else _) => destruct b; [discriminate|] end).
    apply noerr_bind; [unfold product_circuit_eval_verify; destruct (negb _); [discriminate|apply noerr_pc]|]. intros [[[? ?] ?] ?]. apply noerr_bind; [unfold product_circuit_eval_verify; destruct (negb _); [discriminate|apply noerr_pc]|]. intros [[[? ?] ?] ?]. discriminate.
  - intros [[[[[? ?] ?] m] ?] ?]. destruct (negb _); [discriminate|]. destruct m as [|? [|? [|? [|? [|? ?]]]]]; try discriminate. apply noerr_map, noerr_unwrap.
Qed.
Theorem snark_verdict p i inputs pf c rh ph eh : verify_snark_proof K G ch p i inputs pf c rh ph eh = Ok false <->
  exists rx ry t, sat_verify K G ch (sn_sat K G p) i inputs (sk_sat K G pf) (sk_evals K G pf) [MF "encode_hash" eh; MF "params_hash" ph; MF "r1cs_hash" rh] = Ok (false, rx, ry, t).
Proof.
  unfold verify_snark_proof. destruct (sat_verify _ _ _ _ _ _ _ _ _) as [[[[ok rx] ry] t]| |]; cbn [rbind]; [|split; [discriminate|intros (? & ? & ? & ?); discriminate]..]. split.
  - intro H. exists rx, ry, t. destruct ok; [|reflexivity]. cbn [negb] in H. pose proof (noerr_sparse (sn_evals K G p) (sk_ev K G pf) c rx ry (sk_evals K G pf) (absorb_evals K G (sk_evals K G pf) c t)) as N.
    destruct (sparse_poly_eval_verify _ _ _ _ _ _ _ _ _ _) as [|e|]; try discriminate. destruct (N e eq_refl).
  - intros (? & ? & ? & H). injection H as -> _ _ _. reflexivity.
Qed.
Theorem encode_total (p : evalp K G) i : wf_inst i -> exists em c, encode K G p i = Ok (em, c).
Proof. intro W. destruct (encode_ok K G p i W) as (k & s & rows & cols & vals & c & E & _). eauto. Qed.
End S.
