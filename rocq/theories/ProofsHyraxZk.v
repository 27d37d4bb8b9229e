(** Hyrax: the rounds of one sum-check, with the random values as the unknowns. *)
From Verif Require Import Field Poly Module ModTac ProofsPC ModelTranscript ModelMle SpecMle ProofsMle ModelLibra ProofsLibra ProofsLibra2 ModelSigma ProofsSigma ModelSpartan ProofsSpartan3 ModelHyrax ProofsHyrax SpecSigmaZk ProofsSigmaZk2.
From Coq Require Import String List Lia.
Import ListNotations.
Local Open Scope string_scope.
Local Open Scope list_scope.
Local Open Scope fld_scope.
Section S.
Variable K : Fld.
Variable G : Grp K.
Variable ch : oracle K G.
Add Field Kf : (f_laws K).
Notation tr := (transcript K G).
Notation com p x b := (poly_commit_vec K G (mc_gens K G p) x (mc_h K G p) b).
Lemma com_solve (q : mcp K G) (v : list K) (C : G) : spans (mc_h K G q) -> exists b, com q v b = C /\ forall b', com q v b' = C -> b' = b.
Proof. intro Sp. exact (spans_sub K G _ (msm (mc_gens K G q) v) C Sp). Qed.
Section R.
Variables (rp : nat -> list (list K) -> K -> res (list K)) (T : list K -> K) (size : nat) (g1 gn : mcp K G).
Hypothesis Hg : good K rp T size.
Hypothesis S1 : spans (mc_h K G g1).
Hypothesis Sn : spans (mc_h K G gn).
Lemma rounds_solve : forall n ts claim ccom (t : tr) cps ces, Forall (fun v => length v = (2 ^ n)%nat) ts -> claim = total K T ts n -> length cps = n -> length ces = n ->
  exists out bp be, length bp = n /\ length be = n /\
  (forall ra re j, (forall i, (i < n)%nat -> ra (j + i)%nat = nth i bp 0 /\ re (j + i)%nat = Ok (nth i be 0)) -> exists polys rs ts' claim' ccom' t', out = (polys, cps, ces, rs, ts', claim', ccom', t') /\ hx_rounds K G ch rp g1 gn size n ra re j ts claim ccom t = Ok out) /\
  (forall ra re j polys rs ts' claim' ccom' t', hx_rounds K G ch rp g1 gn size n ra re j ts claim ccom t = Ok (polys, cps, ces, rs, ts', claim', ccom', t') -> forall i, (i < n)%nat -> ra (j + i)%nat = nth i bp 0 /\ re (j + i)%nat = Ok (nth i be 0)).
Proof.
  induction n as [|n IH]; intros ts claim ccom t cps ces L E Lc Le.
  - destruct cps; [|discriminate]. destruct ces; [|discriminate]. exists ([], [], [], [], ts, claim, ccom, t), [], []. split; [reflexivity|]. split; [reflexivity|]. split; [intros; do 6 eexists; split; reflexivity|]. intros. lia.
  - destruct cps as [|cp cps]; [discriminate|]. destruct ces as [|ce ces]; [discriminate|]. injection Lc as Lc. injection Le as Le.
    destruct (Hg n ts claim L E) as (p & Hp & Lp & H01 & Ep). destruct (com_solve gn p cp Sn) as (b & Eb & Ub). set (r := ch "challenge_nextround" (MG "comm_poly" cp :: t)).
    destruct (com_solve g1 [peval p r] ce S1) as (e & Ee & Ue).
    destruct (IH (map (comb K r) ts) (peval p r) ce (MG "comm_eval" ce :: MG "comm_claim_per_round" ccom :: MCh "challenge_nextround" :: MG "comm_poly" cp :: t) cps ces) as (out & bp & be & Lb & Lbe & Run & Un); [apply comb_lengths, L|apply Ep|exact Lc|exact Le|].
    destruct out as [[[[[[[polys cps0] ces0] rs] ts'] claim'] ccom'] t'].
    exists (widen K size p :: polys, cp :: cps, ce :: ces, r :: rs, ts', claim', ccom', t'), (b :: bp), (e :: be). split; [cbn; lia|]. split; [cbn; lia|]. split.
    + intros ra re j H. do 6 eexists. split; [reflexivity|]. cbn [hx_rounds]. rewrite Hp. cbn [rbind]. destruct (H 0%nat ltac:(lia)) as [Ha Hb]. rewrite Nat.add_0_r in Ha, Hb. cbn [nth] in Ha, Hb. rewrite Ha, Eb. unfold draw. cbv beta iota zeta. fold r. rewrite (combine_all_ok K n) by exact L. cbn [rbind]. rewrite Hb. cbn [rbind]. rewrite Ee.
      destruct (Run ra re (S j)) as (polys1 & rs1 & ts1 & cl1 & cc1 & t1 & Eo & R). { intros i Hi. destruct (H (S i) ltac:(lia)) as [Ha' Hb']. cbn [nth] in Ha', Hb'. rewrite <- Ha', <- Hb'. split; f_equal; lia. }
      injection Eo as -> -> -> -> -> -> -> ->. rewrite R. reflexivity.
    + intros ra re j polys1 rs1 ts1 cl1 cc1 t1 R i Hi. cbn [hx_rounds] in R. rewrite Hp in R. cbn [rbind] in R. unfold draw in R. cbv beta iota zeta in R. rewrite (combine_all_ok K n) in R by exact L. cbn [rbind] in R.
      destruct (re j) as [be0| |] eqn:Er; cbn [rbind] in R; try discriminate.
      match type of R with rbind ?X _ = _ => destruct X as [[[[[[[[polys2 cps2] ces2] rs2] ts2] cl2] cc2] t2]| |] eqn:R2; cbn [rbind] in R; try discriminate end.
      injection R as _ F1 F2 F3 F4 _ _ _ _ _. subst cps2 ces2. rewrite F1 in *. fold r in R2, F3. rewrite F3 in R2.
      destruct i as [|i]; [rewrite Nat.add_0_r; cbn [nth]; split; [apply Ub, F1|rewrite Er; f_equal; apply Ue; exact F3]|].
      destruct (Un ra re (S j) _ _ _ _ _ _ R2 i ltac:(lia)) as [A B]. cbn [nth]. rewrite <- A, <- B. split; f_equal; lia.
Qed.
(** Together with what the rounds compute. *)
Theorem rounds_exact n ts claim ccom (t : tr) cps ces : Forall (fun v => length v = (2 ^ n)%nat) ts -> claim = total K T ts n -> length cps = n -> length ces = n ->
  exists polys rs ccom' t' bp be, let claim' := T (map (fun v => mle v rs) ts) in let ts' := map (fun v => [mle v rs]) ts in
  length bp = n /\ length be = n /\ length rs = n /\ chain K claim polys rs claim' /\ Forall (fun p => length p = size) polys /\ length polys = n /\
  (forall i, (i < n)%nat -> nth_error cps i = Some (com gn (nth i polys []) (nth i bp 0))) /\
  (forall m cps2 ces2, zk_challenges K G ch (n + m) (cps ++ cps2) (ces ++ ces2) ccom t = rmap (fun '(rs', t) => (rs ++ rs', t)) (zk_challenges K G ch m cps2 ces2 ccom' t')) /\
  (forall ra re j, (forall i, (i < n)%nat -> ra (j + i)%nat = nth i bp 0 /\ re (j + i)%nat = Ok (nth i be 0)) -> hx_rounds K G ch rp g1 gn size n ra re j ts claim ccom t = Ok (polys, cps, ces, rs, ts', claim', ccom', t')) /\
  (forall ra re j polys0 rs0 ts0 claim0 ccom0 t0, hx_rounds K G ch rp g1 gn size n ra re j ts claim ccom t = Ok (polys0, cps, ces, rs0, ts0, claim0, ccom0, t0) -> forall i, (i < n)%nat -> ra (j + i)%nat = nth i bp 0 /\ re (j + i)%nat = Ok (nth i be 0)).
Proof.
  intros L E Lc Le. destruct (rounds_solve n ts claim ccom t cps ces L E Lc Le) as (out & bp & be & Lb & Lbe & Run & Un).
  destruct (Run (fun i => nth i bp 0) (fun i => Ok (nth i be 0)) 0%nat (fun i _ => conj eq_refl eq_refl)) as (polys & rs & ts' & claim' & ccom' & t' & -> & R).
  destruct (hx_rounds_ok K G ch rp T size g1 gn (fun i => nth i bp 0) (fun i => Ok (nth i be 0)) Hg n 0 ts claim ccom t L E (fun i _ => ex_intro _ _ eq_refl)) as (polys0 & cps0 & ces0 & rs0 & ts0 & cl0 & cc0 & t0 & R0 & Lrs & T0 & C0 & Ch0 & W0 & Lp0 & _ & _ & N0 & Z0).
  rewrite R in R0. injection R0 as <- <- <- <- <- <- <- <-. subst ts' claim'. exists polys, rs, ccom', t', bp, be. cbv zeta. do 6 (split; [assumption|]). split; [exact N0|]. split; [exact Z0|]. split; [|exact Un].
  intros ra re j H. destruct (Run ra re j H) as (polys1 & rs1 & ts1 & cl1 & cc1 & t1 & Eo & ->). reflexivity.
Qed.
End R.
End S.
