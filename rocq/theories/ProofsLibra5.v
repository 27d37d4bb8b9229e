(** The plain Libra verifier does not look at the gates; forged proofs are accepted. *)
From Verif Require Import Field Poly ProofsPC SpecMle ProofsMle SpecLibra ProofsLibra ProofsLibra2 ProofsLibra3 ProofsLibra4.
From Verif Require Import ModelLibra AttackLibra.
Local Open Scope string_scope.
Local Open Scope list_scope.
Local Open Scope fld_scope.
Section P.
Variable K : Fld.
Variable G : Type.
Variable ch : oracle K G.
Add Field KfLib5 : (f_laws K).
Notation tr := (transcript K G).

Lemma lget_bits c c' i : map l_bits (c_layers c) = map l_bits (c_layers c') -> rmap l_bits (lget c i) = rmap l_bits (lget c' i).
Proof.
  intro H. unfold lget. assert (option_map l_bits (nth_error (c_layers c) i) = option_map l_bits (nth_error (c_layers c') i)) as Q by (rewrite <- !nth_error_map, H; reflexivity).
  destruct (nth_error (c_layers c) i), (nth_error (c_layers c') i); cbn in *; congruence.
Qed.
Lemma rbind_bits {A} (m m' : res layer) (f : nat -> res A) : rmap l_bits m = rmap l_bits m' -> rbind m (fun l => f (l_bits l)) = rbind m' (fun l => f (l_bits l)).
Proof. destruct m, m'; cbn; congruence. Qed.
Lemma verify_layers_bits c c' : map l_bits (c_layers c) = map l_bits (c_layers c') -> forall pfs d al be u v (t : tr), verify_layers K G ch c pfs d al be u v t = verify_layers K G ch c' pfs d al be u v t.
Proof.
  intros H pfs. induction pfs as [|pf pfs IH]; intros d al be u v t; [destruct d; reflexivity|]. destruct d as [|d]; [reflexivity|]. cbn [verify_layers]. pose proof (lget_bits c c' d H) as Q.
  destruct (lget c d) as [l| |], (lget c' d) as [l'| |]; cbn [rmap] in Q; try discriminate; cbn [rbind]; try congruence. injection Q as ->.
  destruct (sc_check _ _ _ _ _ _ _) as [[[ru cl] t1]| |]; cbn [rbind]; try reflexivity. destruct (negb _); [reflexivity|]. destruct (negb _); [reflexivity|].
  destruct (sc_check _ _ _ _ _ _ _) as [[[rv cl2] t2]| |]; cbn [rbind]; try reflexivity. destruct (negb _); [reflexivity|]. destruct (negb _); [reflexivity|]. destruct d; [reflexivity|]. unfold draw. apply IH.
Qed.
Lemma verify_bits c c' outs ins hash pf : c_depth c = c_depth c' -> map l_bits (c_layers c) = map l_bits (c_layers c') -> gkr_verify K G ch c outs ins hash pf = gkr_verify K G ch c' outs ins hash pf.
Proof.
  intros D H. unfold gkr_verify. rewrite D. destruct (c_depth c') as [|d]; [reflexivity|]. pose proof (lget_bits c c' d H) as Q.
  destruct (lget c d) as [l| |], (lget c' d) as [l'| |]; cbn [rmap] in Q; try discriminate; cbn [rbind]; try congruence. injection Q as ->.
  destruct (eval_output K G ch outs (l_bits l') (gkr_init K G hash ins outs)) as [[[u rs] t]| |]; cbn [rbind]; try reflexivity. destruct (negb _); [reflexivity|]. rewrite (verify_layers_bits c c' H). reflexivity.
Qed.

(** ** The forgery *)
Lemma f_rounds_ok n : forall claim (t : tr) ps rs cl t', f_rounds K G ch n claim t = (ps, rs, cl, t') -> sc_check K G ch n ps claim t = Ok (rs, cl, t') /\ length rs = n /\ (forall x, In x rs -> exists t, x = ch "challenge_nextround" t).
Proof.
  induction n as [|n IH]; intros claim t ps rs cl t' H; cbn [f_rounds] in H.
  - injection H as <- <- <- <-. repeat split. intros x [].
  - unfold draw in H. set (p := ptrim K [0; claim]) in *. set (r := ch "challenge_nextround" (MFs "poly" p :: t)) in *.
    destruct (f_rounds K G ch n (claim * r) (MCh "challenge_nextround" :: MFs "poly" p :: t)) as [[[ps' rs'] cl'] t2] eqn:E. injection H as <- <- <- <-. destruct (IH _ _ _ _ _ _ E) as (C & L & I).
    assert (forall X, peval p X = claim * X) as P by (intro X; unfold p; rewrite peval_ptrim; cbn [peval]; ring).
    split; [|split; [cbn [length]; lia|]].
    + cbn [sc_check]. rewrite !P. replace (claim * 0 + claim * 1) with claim by ring. rewrite feqb_refl. cbn [negb]. unfold draw. fold r. rewrite P, C. reflexivity.
    + intros x [<-|Hx]; [eexists; reflexivity|apply I, Hx].
Qed.
Lemma solve_ok (u v cl a b : K) : solve K u v cl = Some (a, b) -> cl = a * v * u + b * u + b * v.
Proof.
  unfold solve. destruct (feqb_spec K (v * u) 0) as [E|N]; cbn [negb].
  - destruct (feqb_spec K (u + v) 0) as [E2|N2]; cbn [negb].
    + destruct (feqb_spec K cl 0) as [->|]; [|discriminate]. intro H. injection H as <- <-. ring.
    + intro H. injection H as <- <-. field. exact N2.
  - intro H. injection H as <- <-. assert (u <> 0) by (intros ->; apply N; ring). assert (v <> 0) by (intros ->; apply N; ring). field. split; assumption.
Qed.
Lemma solve_none (u v cl : K) : solve K u v cl = None -> u = 0 /\ v = 0.
Proof.
  unfold solve. destruct (feqb_spec K (v * u) 0) as [E|N]; cbn [negb]; [|discriminate]. destruct (feqb_spec K (u + v) 0) as [E2|N2]; cbn [negb]; [|discriminate]. intros _.
  destruct (f_integral K _ _ E) as [-> | ->]; split; try reflexivity; rewrite <- E2; ring.
Qed.
Lemma mle_in_ok inputs r : (length inputs <= 2 ^ length r)%nat -> mle_in K inputs r = mle inputs r /\ eval_value K inputs r = Ok (mle inputs r).
Proof. intro H. unfold mle_in. rewrite eval_value_ok. apply Nat.leb_le in H. rewrite H. split; reflexivity. Qed.
Lemma forge_layers_ok c inputs l0 : nth_error (c_layers c) 0 = Some l0 -> (length inputs <= 2 ^ l_bits l0)%nat -> forall d al be u v (t : tr) pfs, (1 <= d)%nat -> forge_layers K G ch c inputs d al be u v t = Some pfs ->
  length pfs = d /\ exists ru rv, verify_layers K G ch c pfs d al be u v t = Ok (ru, rv, mle inputs ru, mle inputs rv) /\ length ru = l_bits l0 /\ length rv = l_bits l0.
Proof.
  intros Hl0 Li. induction d as [|d IH]; intros al be u v t pfs Hd H; [lia|]. cbn [forge_layers] in H. destruct (nth_error (c_layers c) d) as [lo|] eqn:Elo; [|discriminate].
  destruct (f_rounds K G ch (l_bits lo) (al * u + be * v) t) as [[[p1 ru] c1] t1] eqn:E1. set (u' := match d with O => mle_in K inputs ru | S _ => 1 end) in *.
  destruct (f_rounds K G ch (l_bits lo) c1 (MFs "claim_final" [u'; 0; 0; c1] :: t1)) as [[[p2 rv] c2] t2] eqn:E2. set (v' := match d with O => mle_in K inputs rv | S _ => 1 end) in *.
  destruct (solve K u' v' c2) as [[a b]|] eqn:Es; [|discriminate]. apply solve_ok in Es.
  destruct (f_rounds_ok _ _ _ _ _ _ _ E1) as (C1 & L1 & _). destruct (f_rounds_ok _ _ _ _ _ _ _ E2) as (C2 & L2 & _).
  assert (forall rest, verify_layers K G ch c (mkLP K (mkSC K p1 [u'; 0; 0; c1]) (mkSC K p2 [v'; a; b]) :: rest) (S d) al be u v t =
    match d with O => Ok (ru, rv, u', v') | S _ => let '(al, t) := draw K G ch "challenge_alpha" (MFs "claim_final" [v'; a; b] :: t2) in let '(be, t) := draw K G ch "challenge_beta" t in verify_layers K G ch c rest d al be u' v' t end) as V.
  { intro rest. cbn [verify_layers]. unfold lget. rewrite Elo. cbn [rbind lp_one lp_two s_polys s_vals]. rewrite C1. cbn [rbind length Nat.leb negb nth]. replace (u' * 0 + u' * 0 + c1) with c1 by ring. rewrite feqb_refl. cbn [negb]. rewrite C2. cbn [rbind].
    rewrite <- Es, feqb_refl. reflexivity. }
  destruct d as [|d'].
  - cbn [option_map] in H. injection H as <-. split; [reflexivity|]. exists ru, rv. rewrite V. rewrite Hl0 in Elo. injection Elo as <-. subst u' v'. destruct (mle_in_ok inputs ru) as [-> _]; [rewrite L1; exact Li|]. destruct (mle_in_ok inputs rv) as [-> _]; [rewrite L2; exact Li|]. repeat split; assumption.
  - unfold draw in H, V. cbv beta iota zeta in H. destruct (forge_layers K G ch c inputs (S d') _ _ u' v' _) as [rest|] eqn:Ef in H; [|discriminate]. cbn [option_map] in H. injection H as <-.
    destruct (IH _ _ _ _ _ _ ltac:(lia) Ef) as (Lp & ru' & rv' & V' & R). split; [cbn [length]; lia|]. exists ru', rv'. rewrite V. split; [exact V'|exact R].
Qed.
Lemma forge_ok c inputs outputs hash pf l0 : (2 <= c_depth c)%nat -> nth_error (c_layers c) 0 = Some l0 -> (length inputs <= 2 ^ l_bits l0)%nat -> forge K G ch c inputs outputs hash = Some pf ->
  gkr_verify K G ch c outputs inputs hash pf = Ok true.
Proof.
  intros D Hl0 Li H. unfold forge in H. unfold gkr_verify, lget. destruct (c_depth c) as [|d]; [lia|]. destruct (nth_error (c_layers c) d) as [top|]; [|discriminate]. cbn [rbind].
  destruct (eval_output K G ch outputs (l_bits top) (gkr_init K G hash inputs outputs)) as [[[u rs] t]| |]; try discriminate. cbn [rbind].
  destruct (forge_layers_ok c inputs l0 Hl0 Li d 1 0 u 0 t pf ltac:(lia) H) as (L & ru & rv & V & R1 & R2). rewrite L, Nat.eqb_refl. cbn [negb]. rewrite V. cbn [rbind].
  destruct (mle_in_ok inputs ru) as [_ ->]; [rewrite R1; exact Li|]. destruct (mle_in_ok inputs rv) as [_ ->]; [rewrite R2; exact Li|]. cbn [rbind]. rewrite !feqb_refl. reflexivity.
Qed.
Lemma forge_layers_some c inputs l0 : nth_error (c_layers c) 0 = Some l0 -> (length inputs <= 2 ^ l_bits l0)%nat ->
  (forall r, length r = l_bits l0 -> (forall x, In x r -> exists t, x = ch "challenge_nextround" t) -> mle inputs r <> 0) -> forall d al be u v (t : tr), (d < length (c_layers c))%nat -> exists pfs, forge_layers K G ch c inputs d al be u v t = Some pfs.
Proof.
  intros Hl0 Li Hnz. induction d as [|d IH]; intros al be u v t Hd; [eexists; reflexivity|]. cbn [forge_layers]. destruct (nth_error (c_layers c) d) as [lo|] eqn:Elo; [|apply nth_error_None in Elo; lia].
  destruct (f_rounds K G ch (l_bits lo) (al * u + be * v) t) as [[[p1 ru] c1] t1] eqn:E1. destruct (f_rounds_ok _ _ _ _ _ _ _ E1) as (_ & L1 & I1). 
  set (u' := match d with O => mle_in K inputs ru | S _ => 1 end).
  destruct (f_rounds K G ch (l_bits lo) c1 (MFs "claim_final" [u'; 0; 0; c1] :: t1)) as [[[p2 rv] c2] t2] eqn:E2. set (v' := match d with O => mle_in K inputs rv | S _ => 1 end).
  destruct (solve K u' v' c2) as [[a b]|] eqn:Es.
  - destruct d as [|d']; [eexists; reflexivity|]. unfold draw. cbv beta iota zeta. match goal with |- exists _, option_map _ (forge_layers K G ch c inputs _ ?al ?be ?x ?y ?t) = _ => destruct (IH al be x y t) as (pfs & ->); [lia|] end. eexists. reflexivity.
  - exfalso. apply solve_none in Es. destruct Es as [Eu _]. destruct d as [|d']; subst u'; [|exact (f_1_neq_0 K Eu)]. rewrite Hl0 in Elo. injection Elo as <-. destruct (mle_in_ok inputs ru) as [E _]; [rewrite L1; exact Li|]. rewrite E in Eu. exact (Hnz ru L1 I1 Eu).
Qed.
Lemma forge_some c inputs outputs hash l0 top : length (c_layers c) = c_depth c -> nth_error (c_layers c) 0 = Some l0 -> (length inputs <= 2 ^ l_bits l0)%nat -> nth_error (c_layers c) (c_depth c - 1) = Some top -> (length outputs <= 2 ^ l_bits top)%nat ->
  (forall r, length r = l_bits l0 -> (forall x, In x r -> exists t, x = ch "challenge_nextround" t) -> mle inputs r <> 0) -> exists pf, forge K G ch c inputs outputs hash = Some pf.
Proof.
  intros Le Hl0 Li Ht Lo Hnz. unfold forge. destruct (c_depth c) as [|d] eqn:Ed; [destruct (c_layers c); discriminate|]. replace (S d - 1)%nat with d in Ht by lia. rewrite Ht.
  destruct (eval_output_ok K G ch outputs (l_bits top) (gkr_init K G hash inputs outputs) Lo) as (rs & t & -> & _). apply (forge_layers_some c inputs l0 Hl0 Li Hnz). lia.
Qed.
(** A verifier run on layer 0 only (no gate layer) always panics on a full input layer. *)
Lemma depth_one_panics c outputs inputs hash pf : c_depth c = 1%nat -> (1 < length inputs)%nat -> gkr_verify K G ch c outputs inputs hash pf <> Ok true.
Proof.
  intros D L H. unfold gkr_verify in H. rewrite D in H. destruct (lget c 0) as [top| |]; try discriminate. cbn [rbind] in H. destruct (eval_output _ _ _ _ _ _) as [[[u rs] t]| |]; try discriminate. cbn [rbind] in H.
  destruct pf as [|p pf]; [|discriminate H]. cbn [length Nat.eqb negb verify_layers rbind] in H. rewrite eval_value_ok in H. cbn [length Nat.pow] in H. destruct (Nat.leb_spec (length inputs) 1); [lia|]. discriminate H.
Qed.

(** ** In terms of the circuit description *)
Lemma next_pow2_ex n : exists S, pow2_above n S. Proof. exists (next_pow2 n). apply next_pow2_above. Qed.
Lemma ignores_gates ni na raw raw' c c' outs ins hash pf : circuit_new ni na raw = Ok c -> circuit_new ni na raw' = Ok c' -> map (@length _) raw = map (@length _) raw' ->
  gkr_verify K G ch c outs ins hash pf = gkr_verify K G ch c' outs ins hash pf.
Proof.
  intros H H' E. destruct (next_pow2_ex (Nat.max ni na)) as (S & P). apply (circuit_new_inv ni na raw c S P) in H. apply (circuit_new_inv ni na raw' c' S P) in H'. destruct H as [_ ->]. destruct H' as [_ ->].
  assert (length raw = length raw') as L by (rewrite <- (map_length (@length _)), E; apply map_length). apply verify_bits.
  - unfold built. cbn [c_depth]. rewrite L. reflexivity.
  - unfold built. cbn [c_layers map]. f_equal. rewrite !map_map. cbn [mid l_bits]. rewrite <- !(map_map (@length (nat * nat * nat)) Nat.log2_up), E. reflexivity.
Qed.
Lemma last_nth_error (raw : list raw_layer) l : raw <> [] -> last raw l = nth (length raw - 1) raw l.
Proof. revert l. induction raw as [|x raw IH]; intros l H; [contradiction|]. destruct raw as [|y raw]; [reflexivity|]. change (last (x :: y :: raw) l) with (last (y :: raw) l). rewrite IH by discriminate. cbn [length]. rewrite !Nat.sub_0_r || rewrite !Nat.sub_succ, !Nat.sub_0_r. reflexivity. Qed.
Lemma libra_forgeable ni na raw c k inputs outputs hash : pow2_above (Nat.max ni na) (2 ^ k) -> circuit_new ni na raw = Ok c -> raw <> [] -> (length inputs <= 2 ^ S k)%nat -> (length outputs <= length (last raw []))%nat ->
  (forall r, length r = S k -> (forall x, In x r -> exists t, x = ch "challenge_nextround" t) -> mle inputs r <> 0) ->
  exists pf, forge K G ch c inputs outputs hash = Some pf /\ gkr_verify K G ch c outputs inputs hash pf = Ok true.
Proof.
  intros P H Hr Li Lo Hnz. destruct (circuit_new_inv ni na raw c _ P H) as [_ ->].
  assert (Li0 : l_bits (input_new ni na) = S k). { rewrite input_new_bits. cbn [l_bits]. pose proof (pow2_above_unique _ _ _ P (next_pow2_above _)) as Q. unfold next_pow2 in Q. apply Nat.pow_inj_r in Q; lia. }
  set (l := last raw []) in *. assert (nth_error (c_layers (built ni na raw)) (c_depth (built ni na raw) - 1) = Some (mid l)) as Ht.
  { change (c_depth (built ni na raw)) with (Datatypes.S (length raw)). cbn [c_layers built]. destruct (length raw) as [|n] eqn:E; [destruct raw; [contradiction|discriminate]|]. replace (S (S n) - 1)%nat with (S n) by lia. cbn [nth_error].
    rewrite nth_error_map. unfold l. rewrite last_nth_error, E by assumption. replace (S n - 1)%nat with n by lia. rewrite (nth_error_nth' raw []) by lia. reflexivity. }
  assert (length (c_layers (built ni na raw)) = c_depth (built ni na raw)) as Le by (cbn [c_layers c_depth built length]; rewrite map_length; reflexivity).
  destruct (forge_some (built ni na raw) inputs outputs hash (input_new ni na) (mid l) Le eq_refl) as (pf & F).
  - rewrite Li0. exact Li.
  - exact Ht.
  - cbn [mid l_bits]. pose proof (log2_up_le (length l)). lia.
  - rewrite Li0. exact Hnz.
  - exists pf. split; [exact F|]. apply (forge_ok _ _ _ _ _ (input_new ni na)); [|reflexivity|rewrite Li0; exact Li|exact F]. change (c_depth (built ni na raw)) with (Datatypes.S (length raw)). destruct raw; [contradiction|cbn [length]; lia].
Qed.
Lemma evaluate_sem ni na raw c S inputs aux : pow2_above (Nat.max ni na) S -> circuit_new ni na raw = Ok c ->
  ((length inputs <= S)%nat -> (length aux <= S)%nat -> exists vals, evaluate K c inputs aux = Ok vals /\ length vals = Datatypes.S (length raw) /\ forall d, (d <= length raw)%nat -> nth_error vals d = Some (sem (actual_layer S inputs aux) (firstn d raw))) /\
  ((S < length inputs)%nat \/ (S < length aux)%nat -> evaluate K c inputs aux = Panic).
Proof.
  intros P H. destruct (circuit_new_inv ni na raw c S P H) as [L ->]. rewrite (evaluate_ok K ni na raw S inputs aux P L). split.
  - intros L1 L2. apply Nat.leb_le in L1, L2. rewrite L1, L2. cbn [andb]. eexists. split; [reflexivity|]. split; [cbn [length]; rewrite sems_length; reflexivity|]. generalize (actual_layer S inputs aux). clear. induction raw as [|l raw IH]; intros p [|d] Hd; try reflexivity; [cbn [length] in Hd; lia|].
    cbn [sems nth_error firstn sem]. apply IH. cbn [length] in Hd. lia.
  - intros [X|X]; apply Nat.leb_gt in X; rewrite X; [reflexivity|]. rewrite Bool.andb_false_r. reflexivity.
Qed.
Lemma circuit_new_legal ni na raw S : pow2_above (Nat.max ni na) S -> (legal (2 * S) raw -> exists c, circuit_new ni na raw = Ok c) /\ (~ legal (2 * S) raw -> circuit_new ni na raw = Panic).
Proof. intro P. destruct (circuit_new_ok ni na raw S P) as [A B]. split; [intro L; eexists; apply A, L|exact B]. Qed.
End P.
