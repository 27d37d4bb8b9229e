(** Theorem C99: what spartan's proofs reveal about the private assignment: the value in the field w_ry, and nothing else. *)
From Verif Require Import Field Zp Poly Module ModelTranscript ModelMle SpecMle ModelLC SpecLC ModelCS SpecCS SpecMode ModelSigma ModelSpartan SpecSpartan ModelSnark SpecSigmaZk SpecSpartanZk.
From Verif Require Import ProofsMle ProofsSpartanZk4 ProofsSnark8 ExMarlin Properties20 Properties22 Properties33 Properties34.
From Coq Require Import String List Lia ZArith.
Import ListNotations.
Local Open Scope string_scope.
Local Open Scope list_scope.
Local Open Scope fld_scope.

(** ** C99 *)
Theorem C99_nizk : forall (K : Fld) (G : Grp K) (ch : oracle K G) (circuit1 circuit2 circuit' : M K unit) u1 u2 s1 s2 i,
  fits any circuit1 circuit' -> fits any circuit2 circuit' -> circuit1 (cs_new Prove) = Ok (u1, s1) -> circuit2 (cs_new Prove) = Ok (u2, s2) -> wf s1 -> wf s2 -> self_sat s1 -> self_sat s2 -> inps s1 = inps s2 ->
  generate_r1cs K circuit' = Ok i -> (1 + 1 : K) <> 0 -> (1 + 1 + 1 : K) <> 0 ->
  forall p rh ph sr pf, setup_for G p i -> spans (mc_h K G (sp_1 K G p)) -> spans (mc_h K G (sp_3 K G p)) -> spans (mc_h K G (sp_4 K G p)) -> sr_ok i sr ->
  create_nizk_proof K G ch p i circuit1 rh ph sr = Ok pf -> let value s := mle (private i (auxs s)) (tl (nz_ry K G pf)) in
  sa_wry K G (nz_sat K G pf) = value s1 /\
  (exists sr', sr_ok i sr' /\ create_nizk_proof K G ch p i circuit2 rh ph sr' = Ok (mkNizk K G (with_wry (value s2) (nz_sat K G pf)) (nz_rx K G pf) (nz_ry K G pf)) /\
    forall sr2, sr_ok i sr2 -> create_nizk_proof K G ch p i circuit2 rh ph sr2 = Ok (mkNizk K G (with_wry (value s2) (nz_sat K G pf)) (nz_rx K G pf) (nz_ry K G pf)) -> sr_same i sr2 sr') /\
  ((exists sr', sr_ok i sr' /\ create_nizk_proof K G ch p i circuit2 rh ph sr' = Ok pf) <-> value s1 = value s2).
Proof. exact nizk_reveals. Qed.
Print Assumptions C99_nizk.
Theorem C99_recover : forall (K : Fld) (G : Grp K) (ch : oracle K G) p i (circuit : M K unit) u s rh ph j (l : list (K * nizk K G)), circuit (cs_new Prove) = Ok (u, s) -> (j < half_len K i)%nat ->
  (forall c pf, In (c, pf) l -> exists sr, create_nizk_proof K G ch p i circuit rh ph sr = Ok pf) ->
  (forall b, (b < half_len K i)%nat -> fsum (map (fun x => fst x * nth b (eval_eq K (tl (nz_ry K G (snd x)))) 0) l) = if Nat.eqb b j then 1 else 0) ->
  nth j (auxs s) 0 = fsum (map (fun x => fst x * sa_wry K G (nz_sat K G (snd x))) l).
Proof. exact nizk_recover. Qed.
Print Assumptions C99_recover.
Theorem C99_snark : forall (K : Fld) (G : Grp K) (ch : oracle K G) (circuit1 circuit2 circuit' : M K unit) u1 u2 s1 s2 i,
  fits any circuit1 circuit' -> fits any circuit2 circuit' -> circuit1 (cs_new Prove) = Ok (u1, s1) -> circuit2 (cs_new Prove) = Ok (u2, s2) -> wf s1 -> wf s2 -> self_sat s1 -> self_sat s2 -> inps s1 = inps s2 ->
  generate_r1cs K circuit' = Ok i -> (1 + 1 : K) <> 0 -> (1 + 1 + 1 : K) <> 0 ->
  forall p em c rh ph eh sr i1 i2 i3 pf, setup_for G (sn_sat K G p) i -> spans (mc_h K G (sp_1 K G (sn_sat K G p))) -> spans (mc_h K G (sp_3 K G (sn_sat K G p))) -> spans (mc_h K G (sp_4 K G (sn_sat K G p))) -> sr_ok i sr ->
  create_snark_proof K G ch p i circuit1 em c rh ph eh sr i1 i2 i3 = Ok pf -> exists ry, let value s := mle (private i (auxs s)) (tl ry) in
  (forall rx' ry' t', sat_verify K G ch (sn_sat K G p) i (tl (inps s1)) (sk_sat K G pf) (sk_evals K G pf) [MF "encode_hash" eh; MF "params_hash" ph; MF "r1cs_hash" rh] = Ok (true, rx', ry', t') -> ry' = ry) /\
  sa_wry K G (sk_sat K G pf) = value s1 /\
  exists sr', sr_ok i sr' /\ create_snark_proof K G ch p i circuit2 em c rh ph eh sr' i1 i2 i3 = Ok (mkSnark K G (with_wry (value s2) (sk_sat K G pf)) (sk_evals K G pf) (sk_ev K G pf)) /\
    forall sr2 j1 j2 j3, sr_ok i sr2 -> create_snark_proof K G ch p i circuit2 em c rh ph eh sr2 j1 j2 j3 = Ok (mkSnark K G (with_wry (value s2) (sk_sat K G pf)) (sk_evals K G pf) (sk_ev K G pf)) -> sr_same i sr2 sr'.
Proof. exact snark_reveals. Qed.
Print Assumptions C99_snark.

(** ** The secret square roots 3 and -3 of 9: no randomness makes the proof for 3 a proof for -3, and one proof gives the secret away *)
Lemma spans97 (x : F97) : zv _ x <> 0%Z -> spans (G := S97') x.
Proof. intros N. apply self_spans. intros ->. apply N. reflexivity. Qed.
Lemma rbind_ok {A B} (r : res A) (f : A -> res B) b : rbind r f = Ok b -> exists a, r = Ok a /\ f a = Ok b.
Proof. destruct r as [a| |]; try discriminate. intro H. exists a. split; [reflexivity|exact H]. Qed.
Lemma ok_inj {A} (a b : A) : Ok a = Ok b -> a = b.
Proof. intro H. injection H as ->. reflexivity. Qed.
Lemma val_neq (x y : F97) : zv _ x <> zv _ y -> x <> y.
Proof. intros N ->. apply N. reflexivity. Qed.
Lemma nz11 : zv _ (z97 11) <> 0%Z.
Proof. vm_compute. discriminate. Qed.
Lemma run80 a b x : circuit80 (Ok a) (Ok b) (Ok x) (cs_new Prove) = Ok (tt, state80 a b x).
Proof. reflexivity. Qed.
Lemma wf80 a b x : wf (state80 a b x).
Proof. split; [eexists; reflexivity|]. repeat constructor; cbn; lia. Qed.
Example ex_C99 : setup_for S97' p80 inst80 /\ sr_ok inst80 sr80 /\ exists pf c,
  create_nizk_proof F97 S97' ch80 p80 inst80 (circuit80 (Ok (z97 5)) (Ok (z97 9)) (Ok (z97 3))) (z97 50) (z97 51) sr80 = Ok pf /\
  verify_nizk_proof F97 S97' ch80 p80 inst80 [z97 5; z97 9] pf (z97 50) (z97 51) = Ok true /\
  self_sat (state80 (z97 5) (z97 9) (z97 3)) /\ self_sat (state80 (z97 5) (z97 9) (z97 94)) /\
  (forall sr', sr_ok inst80 sr' -> create_nizk_proof F97 S97' ch80 p80 inst80 (circuit80 (Ok (z97 5)) (Ok (z97 9)) (Ok (z97 94))) (z97 50) (z97 51) sr' <> Ok pf) /\
  c * nth 0 (eval_eq F97 (tl (nz_ry F97 S97' pf))) 0 = 1 /\ z97 3 = c * sa_wry F97 S97' (nz_sat F97 S97' pf).
Proof.
  destruct ex_C80 as (SP & _ & A & V & _). split; [exact SP|].
  assert (O : sr_ok inst80 sr80) by (split; [split; [reflexivity|repeat constructor]|split; [split; [reflexivity|repeat constructor]|reflexivity]]). split; [exact O|].
  destruct (rbind_ok _ _ _ V) as (pf & E & V'). exists pf, (z97 88). split; [exact E|]. split; [exact V'|]. split; [exact A|].
  assert (A' : self_sat (state80 (z97 5) (z97 9) (z97 94))) by (split; [reflexivity|]; repeat constructor; apply zp_eq; vm_compute; reflexivity). split; [exact A'|].
  assert (Q : rmap (fun pf => (map (zv _) (tl (nz_ry F97 S97' pf)), zv _ (sa_wry F97 S97' (nz_sat F97 S97' pf)))) (create_nizk_proof F97 S97' ch80 p80 inst80 (circuit80 (Ok (z97 5)) (Ok (z97 9)) (Ok (z97 3))) (z97 50) (z97 51) sr80) = Ok ([51; 62], 32)%Z) by (vm_compute; reflexivity).
  rewrite E in Q. assert (Q2 := ok_inj _ _ Q). clear Q. cbv beta in Q2. assert (Qr : tl (nz_ry F97 S97' pf) = map z97 [51; 62]%Z).
  { apply (map_one_to_one (fun y : F97 => zv _ y)); [intros y y' R; apply zp_eq; exact R|]. refine (eq_trans (f_equal fst Q2) _). vm_compute. reflexivity. }
  assert (Qw : sa_wry F97 S97' (nz_sat F97 S97' pf) = z97 32) by (apply zp_eq; refine (eq_trans (f_equal snd Q2) _); vm_compute; reflexivity).
  split; [|rewrite Qr, Qw; split; apply zp_eq; vm_compute; reflexivity].
  intros sr' O' E'. destruct two97 as (T2 & T3 & _). destruct (C99_nizk F97 S97' ch80 (circuit80 (Ok (z97 5)) (Ok (z97 9)) (Ok (z97 3))) (circuit80 (Ok (z97 5)) (Ok (z97 9)) (Ok (z97 94))) (circuit80 Panic Panic Panic) tt tt (state80 (z97 5) (z97 9) (z97 3)) (state80 (z97 5) (z97 9) (z97 94)) inst80
    (fits80 _ _ _ _ _ _) (fits80 _ _ _ _ _ _) (run80 _ _ _) (run80 _ _ _) (wf80 _ _ _) (wf80 _ _ _) A A' eq_refl (proj1 ex_C79) T2 T3 p80 (z97 50) (z97 51) sr80 pf SP
    (spans97 _ nz11) (spans97 _ nz11) (spans97 _ nz11) O E) as (_ & _ & [H _]).
  specialize (H (ex_intro _ sr' (conj O' E'))). cbv beta zeta in H. rewrite Qr in H. revert H. apply val_neq. vm_compute. discriminate.
Qed.
