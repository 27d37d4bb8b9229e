(** Committed sum-checks: coins correspond one to one to the accepted proofs. *)
From Verif Require Import Field Poly Module ModTac ProofsPC ModelTranscript ModelMle SpecMle ProofsMle ModelLibra ProofsLibra ModelSigma ProofsSigma ProofsSigma2 ModelSpartan ProofsSpartan3 SpecSigmaZk ProofsSigmaZk ProofsSigmaZk2.
From Coq Require Import String List Lia.
Local Open Scope string_scope.
Local Open Scope list_scope.
Local Open Scope fld_scope.
Section S.
Variable K : Fld.
Variable G : Grp K.
Variable ch : oracle K G.
Add Field Kf : (f_laws K).
Notation tr := (transcript K G).
Notation com p x b := (poly_commit_vec K G (mc_gens K G p) x (mc_h K G p) b).

Lemma eval_tr g1 gn poly C bp claim bc ev be size r d rd rb d' rd' rb' t pf t1 t2 :
  sum_check_eval_prover K G ch g1 gn poly C bp claim bc ev be size r d rd rb t = Ok (pf, t1) -> sum_check_eval_prover K G ch g1 gn poly C bp claim bc ev be size r d' rd' rb' t = Ok (pf, t2) -> t1 = t2.
Proof.
  unfold sum_check_eval_prover, draw. destruct (Nat.ltb size (length poly)); [discriminate|]. intros E1 E2. injection E1 as <- <-. injection E2 as H1 H2 _ _ _ <-. rewrite H1, H2. reflexivity.
Qed.
Lemma rounds_coins rp T size g1 gn : good K rp T size -> (0 < size)%nat -> spans (mc_h K G g1) -> spans (mc_h K G gn) -> forall n ts claim bclaim sc (t : tr) rs c t',
  Forall (fun v => length v = (2 ^ n)%nat) ts -> claim = total K T ts n -> sc_shape size n sc ->
  sc_verify K G ch g1 gn (scp_polys K G sc) (scp_evals K G sc) (scp_proofs K G sc) (com g1 [claim] bclaim) size n t = Ok (rs, c, t') ->
  exists rnds, rr_shape size n rnds /\ (exists ts' b, zk_rounds K G ch rp g1 gn size n ts claim bclaim (com g1 [claim] bclaim) rnds t = Ok (sc, rs, ts', b, t')) /\
    forall rnds' rs' ts' b' t2, rr_shape size n rnds' -> zk_rounds K G ch rp g1 gn size n ts claim bclaim (com g1 [claim] bclaim) rnds' t = Ok (sc, rs', ts', b', t2) -> rnds' = rnds.
Proof.
  intros Hg Hs S1 Sn. induction n as [|n IH]; intros ts claim bclaim [cps ces pfs] t rs c t' L E (L1 & L2 & L3 & Hz) V; cbn [scp_polys scp_evals scp_proofs] in *.
  - destruct cps; [|discriminate]. destruct ces; [|discriminate]. destruct pfs; [|discriminate]. injection V as <- <- <-. exists []. split; [split; [reflexivity|constructor]|]. split; [repeat eexists|].
    intros rnds' rs' ts' b' t2 [Lr _] _. destruct rnds'; [reflexivity|discriminate].
  - destruct cps as [|cp cps]; [discriminate|]. destruct ces as [|ce ces]; [discriminate|]. destruct pfs as [|pf pfs]; [discriminate|]. cbn [length] in L1, L2, L3. cbn [sc_verify zk_rounds] in *.
    destruct (Hg n ts claim L E) as (p & Hp & Lp & H01 & Ep). rewrite Hp. cbn [rbind]. unfold draw in *. cbv beta iota zeta in *.
    destruct (spans_sub K G _ (msm (mc_gens K G gn) p) cp Sn) as (bp & Ecp & Up). set (r := ch "challenge_nextround" (MG "comm_poly" cp :: t)) in *.
    destruct (spans_sub K G _ (msm (mc_gens K G g1) [peval p r]) ce S1) as (be & Ece & Ue).
    match type of V with rbind ?X _ = _ => destruct X as [[ok t1]| |] eqn:Es; cbn [rbind] in V; try discriminate end. destruct ok; [|discriminate]. cbn [negb] in V.
    match type of V with rmap _ ?X = _ => destruct X as [[[rs1 c1] t2]| |] eqn:Er; cbn [rmap rbind] in V; try discriminate end. injection V as <- <- <-.
    change (com gn p bp = cp) in Ecp. change (com g1 [peval p r] be = ce) in Ece. rewrite <- Ecp, <- Ece in Es.
    pose proof (Forall_inv Hz) as Hz1. pose proof (Forall_inv_tail Hz) as Hz2. cbv beta in Hz1.
    apply (conj Hz1) in Es. apply (eval_coins K G ch g1 gn p bp claim bclaim (peval p r) be size r _ pf t1 Hs Lp H01 eq_refl) in Es. destruct Es as ([[d rd] rb] & [Ld Es] & Us).
    rewrite <- Ece in Er.
    destruct (IH (map (comb K r) ts) (peval p r) be (mkScP K G cps ces pfs) t1 rs1 c1 t2) as (rnds & [Lr Hr] & (ts' & b & Ez) & U); [apply comb_lengths, L|apply Ep|repeat split; cbn [scp_polys scp_evals scp_proofs]; try lia; exact Hz2|exact Er|].
    exists (mkRR K bp be d rd rb :: rnds). split; [split; [cbn; lia|constructor; [exact Ld|exact Hr]]|]. cbn [rr_poly rr_eval rr_d rr_delta rr_beta]. split.
    + rewrite Ecp. fold r. rewrite (combine_all_ok K n) by exact L. cbn [rbind]. rewrite <- Ecp, Es. cbn [rbind]. rewrite Ez. cbn [rbind scp_polys scp_evals scp_proofs]. rewrite Ece. repeat eexists.
    + intros [|[bp' be' d' rd' rb'] rnds'] rs' ts2 b' t3 [Lr' Hr'] E'; [discriminate Lr'|]. cbn [rr_poly rr_eval rr_d rr_delta rr_beta length] in *.
      rewrite (combine_all_ok K n) in E' by exact L. cbn [rbind] in E'.
      match type of E' with rbind ?X _ = _ => destruct X as [[pf' t4]| |] eqn:Es'; cbn [rbind] in E'; try discriminate end.
      match type of E' with rbind ?X _ = _ => destruct X as [[[[[[cps' ces' pfs'] rs3] ts3] b3] t5]| |] eqn:Ez'; cbn [rbind] in E'; try discriminate end. cbn [scp_polys scp_evals scp_proofs] in E'.
      injection E' as H1 H2 H3 H4 H5 H6 _ _ _ _. subst cps' ces' pfs' pf'.
      assert (Qp : bp' = bp) by (apply Up; exact H1). subst bp'. rewrite Ecp in H3, Es', Ez'. fold r in H3, Es', Ez'.
      assert (Qe : be' = be) by (apply Ue; exact H3). subst be'.
      pose proof (Forall_inv Hr') as Hd'. cbn [rr_d] in Hd'. rewrite <- Ecp in Es'. assert (Qt : t4 = t1) by (symmetry; exact (eval_tr _ _ _ _ _ _ _ _ _ _ _ _ _ _ _ _ _ _ _ _ _ Es Es')). subst t4.
      assert (Q : (d', rd', rb') = (d, rd, rb)). { symmetry. apply Us. split; [exact Hd'|]. exact Es'. }
      injection Q as -> -> ->. f_equal. eapply U; [split; [lia|exact (Forall_inv_tail Hr')]|]. exact Ez'.
Qed.
Lemma rounds_shape rp size g1 gn : forall n ts claim bclaim ccom rnds (t : tr) sc rs ts' b t', rr_shape size n rnds ->
  zk_rounds K G ch rp g1 gn size n ts claim bclaim ccom rnds t = Ok (sc, rs, ts', b, t') -> sc_shape size n sc.
Proof.
  induction n as [|n IH]; intros ts claim bclaim ccom rnds t sc rs ts' b t' [L D] E; cbn [zk_rounds] in E.
  - injection E as <- _ _ _ _. repeat split; constructor.
  - destruct rnds as [|rr rnds]; [discriminate|]. inversion D as [|? ? D1 D2]; subst.
    match type of E with rbind ?X _ = _ => destruct X as [poly| |]; cbn [rbind] in E; try discriminate end. unfold draw at 1 in E. cbv beta iota zeta in E.
    match type of E with rbind ?X _ = _ => destruct X as [ts2| |]; cbn [rbind] in E; try discriminate end.
    match type of E with rbind ?X _ = _ => destruct X as [[pf t2]| |] eqn:Ep; cbn [rbind] in E; try discriminate end.
    match type of E with rbind ?X _ = _ => destruct X as [[[[[sc2 rs2] ts3] b2] t3]| |] eqn:Er; cbn [rbind] in E; try discriminate end. injection E as <- _ _ _ _.
    destruct (IH _ _ _ _ rnds _ _ _ _ _ _ (conj (eq_add_S _ _ L) D2) Er) as (L1 & L2 & L3 & L4). unfold sc_shape. cbn [scp_polys scp_evals scp_proofs length]. rewrite L1, L2, L3. repeat split. constructor; [|exact L4].
    unfold sum_check_eval_prover, draw in Ep. destruct (Nat.ltb_spec (length (rr_d K rr)) (length poly)); [discriminate|]. injection Ep as <- _. cbn [se_z]. rewrite map_length, combine_length, app_length, repeat_length. lia.
Qed.
Lemma rounds_iff rp T size g1 gn n ts claim bclaim sc (t : tr) : good K rp T size -> (0 < size)%nat -> spans (mc_h K G g1) -> spans (mc_h K G gn) ->
  Forall (fun v => length v = (2 ^ n)%nat) ts -> claim = total K T ts n ->
  (sc_shape size n sc /\ exists rs c t', sc_verify K G ch g1 gn (scp_polys K G sc) (scp_evals K G sc) (scp_proofs K G sc) (com g1 [claim] bclaim) size n t = Ok (rs, c, t')) <->
  exists! rnds, rr_shape size n rnds /\ exists rs ts' b t', zk_rounds K G ch rp g1 gn size n ts claim bclaim (com g1 [claim] bclaim) rnds t = Ok (sc, rs, ts', b, t').
Proof.
  intros Hg Hs S1 Sn L E. split.
  - intros (Sh & rs & c & t' & V). destruct (rounds_coins rp T size g1 gn Hg Hs S1 Sn n ts claim bclaim sc t rs c t' L E Sh V) as (rnds & Hr & (ts' & b & Ez) & U).
    exists rnds. split; [split; [exact Hr|]; exists rs, ts', b, t'; exact Ez|]. intros rnds' (Hr' & rs' & ts2 & b2 & t2 & E2). symmetry. exact (U _ _ _ _ _ Hr' E2).
  - intros (rnds & (Hr & rs & ts' & b & t' & Ez) & _). split; [exact (rounds_shape _ _ _ _ _ _ _ _ _ _ _ _ _ _ _ _ Hr Ez)|].
    destruct Hr as [Lr Hr]. destruct (zk_rounds_ok K G ch rp T size g1 gn Hg Hs n ts claim bclaim rnds t L E ltac:(lia) Hr) as (sc0 & rs0 & ts0 & b0 & t0 & E0 & _ & _ & V).
    rewrite Ez in E0. injection E0 as -> -> -> -> ->. eauto.
Qed.
Lemma phases_coins g1 gn n ts claim bclaim sc (t : tr) : spans (mc_h K G g1) -> spans (mc_h K G gn) -> Forall (fun v => length v = (2 ^ n)%nat) ts -> (1 + 1 : K) <> 0 ->
  (forall T, T = term_abc K \/ T = term_one K \/ (exists fu, T = term_two K fu) -> claim = fsum (map (fun j => T (map (fun v => nth j v 0) ts)) (seq 0 (2 ^ n))) ->
    (sc_shape 3 n sc /\ exists rs c t', sc_verify K G ch g1 gn (scp_polys K G sc) (scp_evals K G sc) (scp_proofs K G sc) (com g1 [claim] bclaim) 3 n t = Ok (rs, c, t')) <->
    exists! rnds, rr_shape 3 n rnds /\ exists rs ts' b t', zk_rounds K G ch (round_quad K T) g1 gn 3 n ts claim bclaim (com g1 [claim] bclaim) rnds t = Ok (sc, rs, ts', b, t')) /\
  ((1 + 1 + 1 : K) <> 0 -> claim = fsum (map (fun j => term_r1cs K (map (fun v => nth j v 0) ts)) (seq 0 (2 ^ n))) ->
    (sc_shape 4 n sc /\ exists rs c t', sc_verify K G ch g1 gn (scp_polys K G sc) (scp_evals K G sc) (scp_proofs K G sc) (com g1 [claim] bclaim) 4 n t = Ok (rs, c, t')) <->
    exists! rnds, rr_shape 4 n rnds /\ exists rs ts' b t', zk_rounds K G ch (round_cubic K (term_r1cs K)) g1 gn 4 n ts claim bclaim (com g1 [claim] bclaim) rnds t = Ok (sc, rs, ts', b, t')).
Proof.
  intros S1 Sn L T2. split.
  - intros T HT E. apply (rounds_iff (round_quad K T) T 3 g1 gn n ts claim bclaim sc t); try assumption; [|lia]. apply good_quad; [|exact T2].
    destruct HT as [->|[->|[fu ->]]]; [apply term_abc_quad|apply term_one_quad|apply term_two_quad].
  - intros T3 E. apply (rounds_iff (round_cubic K (term_r1cs K)) (term_r1cs K) 4 g1 gn n ts claim bclaim sc t); try assumption; [|lia]. apply good_cubic; [apply term_r1cs_cubic|exact T2|exact T3].
Qed.
End S.
