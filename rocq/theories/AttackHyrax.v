(** A program that makes accepted hyrax proofs for every statement, without a witness. *)
From Verif Require Import Field Poly Module ModTac ModelTranscript ModelMle SpecMle ProofsMle ModelLibra ProofsLibra SpecLibra ProofsLibra3 ProofsLibra4 ProofsLibra5 ModelSigma ProofsSigma ModelSpartan ModelSpark ModelSnark AttackSpartan ModelHyrax.
From Coq Require Import String List Lia.
Local Open Scope string_scope.
Local Open Scope list_scope.
Local Open Scope fld_scope.
Section S.
Variable K : Fld.
Variable G : Grp K.
Variable ch : oracle K G.
Add Field Kf : (f_laws K).
Notation tr := (transcript K G).
Notation com1 p x := (poly_commit_vec K G (mc_gens K G (hp_1 K G p)) [x] (mc_h K G (hp_1 K G p)) 0).
Notation hparams := (hparams K G).
Notation zkproof := (zkproof K G).
(** A proof of one layer in which every round polynomial, every mask and every opening is zero. *)
Definition blank (pp : pproof K G) (a0 cx cy cz : G) (rounds base : nat) : zkproof :=
  mkZk K G pp a0 g0 cx cy cz (repeat g0 rounds) (repeat g0 rounds) (repeat g0 rounds) (repeat 0 base) (repeat 0 rounds) 0.
Definition blank0 (rounds base : nat) : zkproof := blank (mkPP K G g0 g0 g0 [0; 0; 0; 0; 0]) g0 g0 g0 g0 rounds base.
(** The coefficients of x, y and xy in the random combination of the rows. *)
Definition jcoef (m : list (list K)) (rou : list K) (rounds k : nat) : K := fsum (map (fun j => nth j rou 0 * nth k (nth j m []) 0) (seq 0 (rounds + 1))).
(** The value that the point q of the input layer would have with a zero witness. *)
Definition pub_value (inputs : list (list K)) (qa q : list K) : res K :=
  match q with [] => Panic | q0 :: qt => rmap (fun e => q0 * e) (eval_value K (padded K inputs) (qa ++ qt)) end.
(** The lowest layer: commitments to the values of the public inputs, and the commitment [zk_a0] solved from the final equation. *)
Definition forge_last (p : hparams) (inputs : list (list K)) (comm_a : G) (u0 u1 : K) (qa ql qr : list K) (gates : list gate) (n ng : nat) (t : tr) : res zkproof :=
  let log_g := log2c ng in let log_n := log2c n in
  let rounds := (log_n + 2 * log_g)%nat in
  let base := (4 * log_n + 6 * log_g)%nat in
  let z := repeat g0 rounds in
  rbind (zk_challenges K G ch rounds z z comm_a t) (fun '(all, t) =>
  let rs := firstn log_n all in
  let r0 := firstn log_g (skipn log_n all) in
  let r1 := skipn (log_n + log_g) all in
  rbind (construct_matrix K rs r0 r1 qa ql qr gates u0 u1 log_n log_g) (fun m =>
  rbind (pub_value inputs rs r0) (fun x => rbind (pub_value inputs rs r1) (fun y =>
  let '(pp, cx, cy, cz, t) := product_proof K G ch (hp_1 K G p) x 0 y 0 (x * y) 0 0 0 0 0 0 t in
  let '(rou, _) := draws K G ch "challenge_nextround" (rounds + 1) (rev (map (MG "comm_delta") z) ++ t) in
  let sum := gadd (gadd (gsm (jcoef m rou rounds base) cx) (gsm (jcoef m rou rounds (base + 1)) cy)) (gsm (jcoef m rou rounds (base + 2)) cz) in
  Ok (blank pp (gsm (finv (nth 0 rou 0)) sum) cx cy cz rounds base))))).
(** All layers: blank proofs, then the lowest layer. The verifier's own code gives the next state. *)
Fixpoint forge_layers (p : hparams) (c : circuit) (inputs : list (list K)) (n d : nat) (comm_a : G) (u0 u1 : K) (qa ql qr : list K) (t : tr) : res (list zkproof) :=
  match d with
  | O => Ok []
  | S d' =>
      rbind (lget c d') (fun lo => rbind (lget c d) (fun hi =>
      let ng := next_pow2 (l_count lo) in
      match d' with
      | O => rmap (fun pf => [pf]) (forge_last p inputs comm_a u0 u1 qa ql qr (l_gates hi) n ng t)
      | S _ =>
          let pf := blank0 (log2c n + 2 * log2c ng) (4 * log2c n + 6 * log2c ng) in
          rbind (zk_verify K G ch p pf comm_a u0 u1 qa ql qr (l_gates hi) n ng t) (fun '(cx, cy, qa, ql, qr, t) =>
          let '(u0, t) := draw K G ch "u0" t in let '(u1, t) := draw K G ch "u1" t in
          let comm_a := gadd (gsm u0 cx) (gsm u1 cy) in
          rmap (cons pf) (forge_layers p c inputs n d' comm_a u0 u1 qa ql qr (MG "comm_a_i" comm_a :: t)))
      end))
  end.
(** Zero openings of a zero witness; [w] zero commitments stand for it. *)
Definition zero_dot : dproof K G := mkDP K G [] [] g0 g0 0 0.
Definition zero_eq : eproof K G := mkEP K G g0 0.
Definition forge (p : hparams) (w : nat) (outputs inputs : list (list K)) (c : circuit) (ch_hash p_hash : K) : res (hproof K G) :=
  let n := length outputs in
  let inputs := firstn n inputs in
  let t := MGs "comm_witness" (repeat g0 w) :: hx_init K G ch_hash p_hash inputs outputs in
  rbind (eval_outputs K G ch outputs t) (fun '(result_u, qa, q, t) =>
  let comm_a := com1 p result_u in
  rmap (fun pfs => mkHx K G (repeat g0 w) pfs zero_dot g0 zero_eq zero_dot g0 zero_eq)
    (forge_layers p c inputs n (c_depth c - 1) comm_a 1 0 qa q q (MG "comm_claim_a0" comm_a :: t))).

Lemma msm_zeros (gs : list G) n : msm gs (repeat (0 : K) n) = g0.
Proof. revert n. induction gs as [|g gs IH]; intros [|n]; try reflexivity. cbn [repeat msm]. rewrite IH. gmod; ring. Qed.
Lemma msm_zeros_l (ks : list K) : forall n, msm (repeat (g0 : G) n) ks = g0.
Proof. induction ks as [|k ks IH]; intros [|n]; try reflexivity. cbn [repeat msm]. rewrite IH. gmod; ring. Qed.
Lemma challenges_zeros n : forall m (cl : G) (t : tr), (n <= m)%nat -> exists all t', zk_challenges K G ch n (repeat g0 m) (repeat g0 m) cl t = Ok (all, t') /\ length all = n.
Proof.
  induction n as [|n IH]; intros m cl t H; [exists [], t; split; reflexivity|]. destruct m as [|m]; [lia|]. cbn [repeat zk_challenges]. unfold draw.
  destruct (IH m g0 (MG "comm_eval" g0 :: MG "comm_claim_per_round" cl :: MCh "challenge_nextround" :: MG "comm_poly" g0 :: t) ltac:(lia)) as (all & t' & E & L).
  rewrite E. cbn [rmap]. eexists _, _. split; [reflexivity|]. cbn. rewrite L. reflexivity.
Qed.
Definition fits (nh nl : nat) (g : gate) : Prop := (gt_g g < nh /\ gt_l g < nl /\ gt_r g < nl)%nat.
Lemma gate_evals_total e0 eql eqr er0 er1 u0 u1 gates : Forall (fits (Nat.min (length eql) (length eqr)) (Nat.min (length er0) (length er1))) gates ->
  forall am, exists am', foldr (gate_step K e0 eql eqr er0 er1 u0 u1) am gates = Ok am'.
Proof.
  induction gates as [|g gates IH]; intros H am; [exists am; reflexivity|]. inversion H as [|? ? Hg Hs]; subst. destruct Hg as (A & B & C). cbn [foldr]. unfold gate_step at 1.
  rewrite (kget_ok K eql) by lia. rewrite (kget_ok K eqr) by lia. cbn [rbind]. rewrite (kget_ok K er0) by lia. rewrite (kget_ok K er1) by lia. cbn [rbind].
  destruct (Nat.eqb (gt_op g) 0); [apply IH, Hs|]. destruct (Nat.eqb (gt_op g) 1); apply IH, Hs.
Qed.
Lemma matrix_total rs r0 r1 qa ql qr gates u0 u1 log_n log_g : (1 <= log_n)%nat -> length qa = length rs -> Forall (fits (Nat.min (2 ^ length ql) (2 ^ length qr)) (Nat.min (2 ^ length r0) (2 ^ length r1))) gates ->
  exists m, construct_matrix K rs r0 r1 qa ql qr gates u0 u1 log_n log_g = Ok m.
Proof.
  intros Hn Hq Hg. unfold construct_matrix. destruct (Nat.eqb_spec log_n 0); [lia|]. unfold eval_eq_x_y. rewrite Hq, Nat.eqb_refl. cbn [rbind]. unfold gate_evals.
  edestruct (gate_evals_total) as ((x & y) & E); [|rewrite E; cbn [rbind]; eexists; reflexivity]. rewrite !(eval_eq_length K). exact Hg.
Qed.
Lemma slice_zeros base off w : (off + w <= base)%nat -> slice K (repeat 0 base) off w = Ok (repeat 0 w).
Proof.
  intro H. unfold slice. rewrite repeat_length. destruct (Nat.ltb_spec base (off + w)); [lia|]. f_equal.
  replace base with (off + (w + (base - off - w)))%nat by lia. rewrite !repeat_app. rewrite skipn_app, skipn_all2 by (rewrite repeat_length; lia). rewrite repeat_length, Nat.sub_diag. cbn [skipn app]. rewrite firstn_app, firstn_all2 by (rewrite repeat_length; lia). rewrite repeat_length, Nat.sub_diag. cbn [firstn]. apply app_nil_r.
Qed.
Lemma repeat_get {A} (x : A) n i : (i < n)%nat -> nth_error (repeat x n) i = Some x.
Proof. revert i. induction n as [|n IH]; intros [|i] H; try lia; [reflexivity|]. cbn. apply IH. lia. Qed.
Lemma deltas_zeros (p : hparams) pp a0 cx cy cz log_n log_g c js : (forall j, In j js -> j < log_n + 2 * log_g)%nat ->
  delta_checks K G p (blank pp a0 cx cy cz (log_n + 2 * log_g) (4 * log_n + 6 * log_g)) log_n c js = Ok true.
Proof.
  induction js as [|j js IH]; intro H; [reflexivity|]. cbn [delta_checks blank zk_polys zk_deltas zk_zs zk_zdeltas]. pose proof (H j (or_introl eq_refl)) as Hj. unfold gget. rewrite !repeat_get by exact Hj. cbn [rbind]. unfold kget. rewrite repeat_get by exact Hj.
  destruct (Nat.ltb_spec j log_n); rewrite slice_zeros by lia; cbn [rbind rmap].
  - unfold poly_commit_vec. rewrite msm_zeros. match goal with |- context [geqb ?a ?b] => replace (geqb a b) with true by (symmetry; apply geqb_true; gmod; ring) end. apply IH. intros i Hi. apply H. right. exact Hi.
  - unfold poly_commit_vec. rewrite msm_zeros. match goal with |- context [geqb ?a ?b] => replace (geqb a b) with true by (symmetry; apply geqb_true; gmod; ring) end. apply IH. intros i Hi. apply H. right. exact Hi.
Qed.
Lemma blank_ok p pp a0 cx cy cz cl u0 u1 qa ql qr gates n ng (t t1 t2 t3 : tr) all m rou :
  let rounds := (log2c n + 2 * log2c ng)%nat in let base := (4 * log2c n + 6 * log2c ng)%nat in
  let rs := firstn (log2c n) all in let r0 := firstn (log2c ng) (skipn (log2c n) all) in let r1 := skipn (log2c n + log2c ng) all in
  zk_challenges K G ch rounds (repeat g0 rounds) (repeat g0 rounds) cl t = Ok (all, t1) ->
  construct_matrix K rs r0 r1 qa ql qr gates u0 u1 (log2c n) (log2c ng) = Ok m ->
  product_verify K G ch (hp_1 K G p) pp cx cy cz t1 = Ok (true, t2) ->
  draws K G ch "challenge_nextround" (rounds + 1) (rev (map (MG "comm_delta") (repeat g0 rounds)) ++ t2) = (rou, t3) ->
  gsm (nth 0 rou 0) a0 = gadd (gadd (gsm (jcoef m rou rounds base) cx) (gsm (jcoef m rou rounds (base + 1)) cy)) (gsm (jcoef m rou rounds (base + 2)) cz) ->
  zk_verify K G ch p (blank pp a0 cx cy cz rounds base) cl u0 u1 qa ql qr gates n ng t = Ok (cx, cy, rs, r0, r1, MCh "challenge_nextround" :: MG "comm_c" g0 :: t3).
Proof.
  intros rounds base rs r0 r1 E1 E2 E3 E4 E5. unfold zk_verify. cbn [blank zk_polys zk_evals]. fold rounds base. rewrite E1. cbn [rbind]. fold rs r0 r1. rewrite E2. cbn [rbind]. unfold sumcheck_verify. cbn [blank zk_prod zk_x zk_y zk_z zk_deltas zk_c zk_zs zk_zc zk_a0]. rewrite E3. cbn [rbind negb]. fold rounds base. rewrite E4. unfold draw.
  assert (D : forall c, delta_checks K G p (blank pp a0 cx cy cz rounds base) (log2c n) c (seq 0 rounds) = Ok true) by (intro c; apply deltas_zeros; intros j Hj; apply in_seq in Hj; unfold rounds in Hj; lia).
  unfold blank in D. rewrite D. cbn [rbind negb]. rewrite repeat_length, Nat.ltb_irrefl.
  assert (J : forall k, (k < base + 3)%nat -> nth k (map (fun k => fsum (map (fun j => nth j rou 0 * nth k (nth j m []) 0) (seq 0 (rounds + 1)))) (seq 0 (base + 3))) 0 = jcoef m rou rounds k).
  { intros k Hk. rewrite (nth_map_seq K (fun k => fsum (map (fun j => nth j rou 0 * nth k (nth j m []) 0) (seq 0 (rounds + 1))))). destruct (Nat.ltb_spec k (base + 3)); [reflexivity|lia]. }
  rewrite !J by lia. rewrite (fsum_map_0 K) by (intros k _; rewrite nth_repeat; ring).
  match goal with |- context [geqb ?a ?b] => replace (geqb a b) with true; [reflexivity|symmetry; apply geqb_true] end.
  rewrite E5. unfold poly_commit_vec. rewrite msm1. gmod; ring.
Qed.

Lemma blank0_ok p cl u0 u1 qa ql qr gates n ng (t : tr) : (1 <= log2c n)%nat -> length qa = log2c n -> Forall (fits (Nat.min (2 ^ length ql) (2 ^ length qr)) (2 ^ log2c ng)) gates ->
  exists rs r0 r1 t', zk_verify K G ch p (blank0 (log2c n + 2 * log2c ng) (4 * log2c n + 6 * log2c ng)) cl u0 u1 qa ql qr gates n ng t = Ok (g0, g0, rs, r0, r1, t') /\
    length rs = log2c n /\ length r0 = log2c ng /\ length r1 = log2c ng.
Proof.
  intros Hn Hq Hg. set (ln := log2c n) in *. set (lg := log2c ng) in *. destruct (challenges_zeros (ln + 2 * lg) (ln + 2 * lg) cl t (le_n _)) as (all & t1 & E1 & L).
  assert (L1 : length (firstn ln all) = ln) by (rewrite firstn_length; lia). assert (L2 : length (firstn lg (skipn ln all)) = lg) by (rewrite firstn_length, skipn_length; lia). assert (L3 : length (skipn (ln + lg) all) = lg) by (rewrite skipn_length; lia).
  destruct (matrix_total (firstn ln all) (firstn lg (skipn ln all)) (skipn (ln + lg) all) qa ql qr gates u0 u1 ln lg Hn) as (m & E2); [lia|rewrite L2, L3, Nat.min_id; exact Hg|].
  destruct (draws K G ch "challenge_nextround" (ln + 2 * lg + 1) (rev (map (MG "comm_delta") (repeat g0 (ln + 2 * lg))) ++ MCh "c" :: MG "delta" g0 :: MG "beta" g0 :: MG "alpha" g0 :: MG "Z" g0 :: MG "Y" g0 :: MG "X" g0 :: t1)) as [rou t3] eqn:E4.
  eexists _, _, _, _. split; [|split; [exact L1|split; [exact L2|exact L3]]]. eapply (blank_ok p _ g0 g0 g0 g0 cl u0 u1 qa ql qr gates n ng t t1 _ t3 all m rou E1 E2); [|exact E4|gmod; ring].
  unfold product_verify, draw. cbn [pp_z pp_alpha pp_beta pp_delta]. do 2 f_equal. rewrite !Bool.andb_true_iff. repeat split; apply geqb_true; unfold poly_commit_vec; rewrite !msm1; cbn [hd]; gmod; ring.
Qed.
Hypothesis nz : forall t, ch "challenge_nextround" t <> 0.
Lemma forge_last_ok p inputs cl u0 u1 qa ql qr gates n ng (t : tr) : (1 <= log2c n)%nat -> (1 <= log2c ng)%nat -> length qa = log2c n -> Forall (fits (Nat.min (2 ^ length ql) (2 ^ length qr)) (2 ^ log2c ng)) gates ->
  (length (padded K inputs) <= 2 ^ (log2c n + log2c ng - 1))%nat ->
  exists pf rs r0 r1 t' x y, forge_last p inputs cl u0 u1 qa ql qr gates n ng t = Ok pf /\ zk_verify K G ch p pf cl u0 u1 qa ql qr gates n ng t = Ok (com1 p x, com1 p y, rs, r0, r1, t') /\
    length rs = log2c n /\ length r0 = log2c ng /\ length r1 = log2c ng /\ pub_value inputs rs r0 = Ok x /\ pub_value inputs rs r1 = Ok y.
Proof.
  intros Hn Hng Hq Hg Hp. set (ln := log2c n) in *. set (lg := log2c ng) in *. destruct (challenges_zeros (ln + 2 * lg) (ln + 2 * lg) cl t (le_n _)) as (all & t1 & E1 & L).
  assert (L1 : length (firstn ln all) = ln) by (rewrite firstn_length; lia). assert (L2 : length (firstn lg (skipn ln all)) = lg) by (rewrite firstn_length, skipn_length; lia). assert (L3 : length (skipn (ln + lg) all) = lg) by (rewrite skipn_length; lia).
  destruct (matrix_total (firstn ln all) (firstn lg (skipn ln all)) (skipn (ln + lg) all) qa ql qr gates u0 u1 ln lg Hn) as (m & E2); [lia|rewrite L2, L3, Nat.min_id; exact Hg|].
  assert (PV : forall q, length q = lg -> exists x, pub_value inputs (firstn ln all) q = Ok x).
  { intros [|q0 qt] Lq; [cbn in Lq; lia|]. cbn [pub_value]. rewrite (eval_value_ok K), app_length, L1. cbn [length] in Lq. replace (ln + length qt)%nat with (ln + lg - 1)%nat by lia. destruct (Nat.leb_spec (length (padded K inputs)) (2 ^ (ln + lg - 1))); [|lia]. eexists. reflexivity. }
  destruct (PV _ L2) as (x & Ex). destruct (PV _ L3) as (y & Ey).
  destruct (product_proof K G ch (hp_1 K G p) x 0 y 0 (x * y) 0 0 0 0 0 0 t1) as [[[[pp cx] cy] cz] t2] eqn:E3.
  destruct (draws K G ch "challenge_nextround" (ln + 2 * lg + 1) (rev (map (MG "comm_delta") (repeat g0 (ln + 2 * lg))) ++ t2)) as [rou t3] eqn:E4.
  assert (C : cx = com1 p x /\ cy = com1 p y). { unfold product_proof, draw in E3. injection E3 as _ <- <- _ _. split; reflexivity. } destruct C as [Cx Cy].
  assert (R0 : nth 0 rou 0 <> 0). { rewrite Nat.add_1_r in E4. cbn [draws] in E4. unfold draw in E4. destruct (draws K G ch "challenge_nextround" (ln + 2 * lg) _) as [ys t4] in E4. injection E4 as <- _. apply nz. }
  eexists _, (firstn ln all), (firstn lg (skipn ln all)), (skipn (ln + lg) all), _, x, y. split; [|split; [|split; [exact L1|split; [exact L2|split; [exact L3|split; [exact Ex|exact Ey]]]]]].
  - unfold forge_last. fold ln lg. rewrite E1. cbn [rbind]. rewrite E2. cbn [rbind]. rewrite Ex. cbn [rbind]. rewrite Ey. cbn [rbind]. rewrite E3, E4. reflexivity.
  - rewrite <- Cx, <- Cy. apply (blank_ok p pp _ cx cy cz cl u0 u1 qa ql qr gates n ng t t1 t2 t3 all m rou E1 E2); [|exact E4|].
    + exact (product_complete K G ch (hp_1 K G p) x 0 y 0 (x * y) 0 0 0 0 0 0 t1 pp cx cy cz t2 eq_refl E3).
    + fold ln lg. gmod; field; exact R0.
Qed.
(** Every layer fits on the one below, with room for the values up to the next power of two. *)
Definition circ_ok (c : circuit) : Prop := length (c_layers c) = c_depth c /\ forall d lo hi, nth_error (c_layers c) d = Some lo -> nth_error (c_layers c) (S d) = Some hi -> Forall (fits (l_count hi) (l_count lo)) (l_gates hi).
Lemma fits_weaken nh nl nh' nl' gs : (nh <= nh')%nat -> (nl <= nl')%nat -> Forall (fits nh nl) gs -> Forall (fits nh' nl') gs.
Proof. intros A B. apply Forall_impl. intros g (P & Q & R). unfold fits. lia. Qed.
Lemma log2c_np n : (2 ^ log2c (next_pow2 n) = next_pow2 n)%nat.
Proof. unfold log2c. rewrite next_pow2_log. reflexivity. Qed.
Lemma np_le n : (n <= next_pow2 n)%nat.
Proof. apply log2_up_le. Qed.
Lemma forge_layers_ok p c inputs n l0 : circ_ok c -> (1 <= log2c n)%nat -> nth_error (c_layers c) 0 = Some l0 -> (1 <= log2c (next_pow2 (l_count l0)))%nat ->
  (length (padded K inputs) <= 2 ^ (log2c n + log2c (next_pow2 (l_count l0)) - 1))%nat ->
  forall d cl u0 u1 qa ql qr cx0 cy0 hi (t : tr), (1 <= d)%nat -> nth_error (c_layers c) d = Some hi -> length qa = log2c n -> (l_count hi <= 2 ^ length ql)%nat -> (l_count hi <= 2 ^ length qr)%nat ->
  exists pfs rs r0 r1 t' x y, forge_layers p c inputs n d cl u0 u1 qa ql qr t = Ok pfs /\ hx_check K G ch p c n d pfs cl u0 u1 qa ql qr cx0 cy0 t = Ok (rs, r0, r1, com1 p x, com1 p y, t') /\ pub_value inputs rs r0 = Ok x /\ pub_value inputs rs r1 = Ok y.
Proof.
  intros (Lc & Hc) Hn H0 Hb Hp. induction d as [|d IH]; intros cl u0 u1 qa ql qr cx0 cy0 hi t Hd Hhi Hq Hl Hr; [lia|].
  destruct (nth_error (c_layers c) d) as [lo|] eqn:Elo; [|apply nth_error_None in Elo; pose proof (proj1 (nth_error_Some (c_layers c) (S d)) ltac:(congruence)); lia].
  pose proof (Hc d lo hi Elo Hhi) as Hg. cbn [forge_layers hx_check]. unfold lget. rewrite Elo, Hhi. cbn [rbind].
  destruct d as [|d'].
  - rewrite H0 in Elo. injection Elo as <-. destruct (forge_last_ok p inputs cl u0 u1 qa ql qr (l_gates hi) n (next_pow2 (l_count l0)) t Hn Hb Hq) as (pf & rs & r0 & r1 & t' & x & y & F & V & _ & _ & _ & X & Y).
    + apply (fits_weaken (l_count hi) (l_count l0)); [lia|rewrite log2c_np; apply np_le|exact Hg].
    + exact Hp.
    + rewrite F. cbn [rmap]. exists [pf], rs, r0, r1, t', x, y. split; [reflexivity|]. rewrite V. cbn [rbind]. split; [reflexivity|split; assumption].
  - destruct (blank0_ok p cl u0 u1 qa ql qr (l_gates hi) n (next_pow2 (l_count lo)) t Hn Hq) as (rs & r0 & r1 & t' & V & L1 & L2 & L3).
    + apply (fits_weaken (l_count hi) (l_count lo)); [lia|rewrite log2c_np; apply np_le|exact Hg].
    + rewrite V. cbn [rbind]. unfold draw.
      edestruct (IH (gadd (gsm (ch "u0" t') g0) (gsm (ch "u1" (MCh "u0" :: t')) g0)) (ch "u0" t') (ch "u1" (MCh "u0" :: t')) rs r0 r1 g0 g0 lo) as (pfs & rs' & r0' & r1' & t'' & x & y & F & C & X & Y);
        [lia|reflexivity|exact L1|rewrite L2, log2c_np; apply np_le|rewrite L3, log2c_np; apply np_le|].
      rewrite F. cbn [rmap]. exists (blank0 (log2c n + 2 * log2c (next_pow2 (l_count lo))) (4 * log2c n + 6 * log2c (next_pow2 (l_count lo))) :: pfs), rs', r0', r1', t'', x, y. split; [reflexivity|]. rewrite V. cbn [rbind]. unfold draw. split; [exact C|split; assumption].
Qed.
Lemma opened_ok p inputs w qa q x (t : tr) : hp_1 K G p = pc_gen_1 K G (hp_pc K G p) -> mc_gens K G (hp_1 K G p) <> [] -> mc_gens K G (pc_gen_n K G (hp_pc K G p)) <> [] -> pub_value inputs qa q = Ok x ->
  exists t', hx_opened K G ch p inputs (repeat g0 w) qa q (com1 p x) zero_dot g0 zero_eq t = Ok t'.
Proof.
  intros E1 N1 Nn X. destruct q as [|q0 qt]; [discriminate|]. cbn [pub_value] in X. destruct (eval_value K (padded K inputs) (qa ++ qt)) as [e| |] eqn:Ee; [|discriminate|discriminate]. cbn [rmap] in X. injection X as <-.
  cbn [hx_opened]. unfold reduce_verifier, log_dot_verify, bullet_verify. cbn [zero_dot dp_l dp_r dp_delta dp_beta dp_z1 dp_z2 length bullet_challenges rbind Nat.eqb negb Nat.pow].
  rewrite <- E1. assert (B : forall r : list K, Nat.ltb (length (eval_eq K r)) 1 = false). { intro r. rewrite (eval_eq_length K). apply Nat.ltb_ge. pose proof (Nat.pow_nonzero 2 (length r)). lia. } rewrite B.
  destruct (mc_gens K G (pc_gen_n K G (hp_pc K G p))) as [|g gs]; [contradiction|]. cbn [length Nat.ltb Nat.leb orb rbind]. unfold draw. destruct (mc_gens K G (hp_1 K G p)) as [|h hs] eqn:Eh; [contradiction|]. cbn [rbind].
  match goal with |- context [geqb ?a ?b] => replace (geqb a b) with true end.
  2: { symmetry. apply geqb_true. unfold poly_commit_vec. rewrite msm_zeros_l. cbn [map msm]. gmod; ring. }
  cbn [negb]. rewrite Ee. cbn [rbind]. unfold eq_verify, draw. cbn [zero_eq ep_alpha ep_z].
  match goal with |- context [geqb ?a ?b] => replace (geqb a b) with true end.
  2: { symmetry. apply geqb_true. match goal with |- context [ch "c" ?x] => generalize (ch "c" x); intro c end. unfold poly_commit_vec. rewrite !msm1. cbn [hd]. gmod; ring. }
  cbn [negb]. eexists. reflexivity.
Qed.
Lemma forge_ok p w outputs inputs c l0 top width ch_hash p_hash : hp_1 K G p = pc_gen_1 K G (hp_pc K G p) -> mc_gens K G (hp_1 K G p) <> [] -> mc_gens K G (pc_gen_n K G (hp_pc K G p)) <> [] ->
  circ_ok c -> (2 <= c_depth c)%nat -> nth_error (c_layers c) 0 = Some l0 -> (1 <= log2c (next_pow2 (l_count l0)))%nat -> nth_error (c_layers c) (c_depth c - 1) = Some top -> (l_count top <= next_pow2 width)%nat ->
  next_pow2 (length outputs) = length outputs -> (2 <= length outputs)%nat -> Forall (fun o => length o = width) outputs -> (length outputs <= length inputs)%nat ->
  (length (padded K (firstn (length outputs) inputs)) <= 2 ^ (log2c (length outputs) + log2c (next_pow2 (l_count l0)) - 1))%nat ->
  exists pf, forge p w outputs inputs c ch_hash p_hash = Ok pf /\ hx_verify K G ch p pf outputs inputs c ch_hash p_hash = Ok true.
Proof.
  intros E1 N1 Nn Hc Hd H0 Hb Ht Hw Hn Hn2 Ho Hi Hp. unfold forge, hx_verify. cbn [hx_witness]. set (t := MGs "comm_witness" (repeat g0 w) :: hx_init K G ch_hash p_hash (firstn (length outputs) inputs) outputs).
  assert (EO : exists u qa q t', eval_outputs K G ch outputs t = Ok (u, qa, q, t') /\ length qa = log2c (length outputs) /\ length q = log2c (next_pow2 width)).
  { unfold eval_outputs. destruct outputs as [|o0 os] eqn:Eo; [cbn in Hn2; lia|]. rewrite <- Eo in *. assert (W : length o0 = width) by (rewrite Eo in Ho; exact (Forall_inv Ho)). rewrite W, Hn.
    destruct (draws K G ch "challenge_nextround" (log2c (next_pow2 width)) t) as [q t1] eqn:D1.
    assert (X : existsb (fun o => Nat.ltb (next_pow2 width) (length o)) outputs = false). { apply Bool.not_true_is_false. intro X. apply existsb_exists in X. destruct X as (o & I & L). apply Nat.ltb_lt in L. rewrite Forall_forall in Ho. rewrite (Ho o I) in L. pose proof (np_le width). lia. }
    rewrite X. destruct (draws K G ch "challenge_nextround" (log2c (length outputs)) t1) as [qa t2] eqn:D2.
    eexists _, _, _, _. split; [reflexivity|]. split; [exact (draws_length K G ch _ _ _ _ _ D2)|exact (draws_length K G ch _ _ _ _ _ D1)]. }
  destruct EO as (u & qa & q & t' & EO & Lqa & Lq). rewrite EO. cbn [rbind].
  assert (Hln : (1 <= log2c (length outputs))%nat) by (unfold log2c; apply Nat.log2_up_pos; lia).
  edestruct (forge_layers_ok p c (firstn (length outputs) inputs) (length outputs) l0 Hc Hln H0 Hb Hp (c_depth c - 1) (com1 p u) 1 0 qa q q (com1 p u) (com1 p u) top) as (pfs & rs & r0 & r1 & t2 & x & y & F & C & X & Y);
    [lia|exact Ht|exact Lqa|rewrite Lq, log2c_np; exact Hw|rewrite Lq, log2c_np; exact Hw|].
  rewrite F. cbn [rmap]. eexists. split; [reflexivity|]. cbn [hx_witness hx_proofs hx_prod0 hx_prod1 hx_y0 hx_y1 hx_eq0 hx_eq1]. rewrite Hn, Nat.eqb_refl. cbn [negb]. destruct (Nat.eqb_spec (c_depth c) 0); [lia|]. destruct (Nat.ltb_spec (length inputs) (length outputs)); [lia|]. fold t. rewrite EO. cbn [rbind]. rewrite C. cbn [rbind].
  destruct (opened_ok p (firstn (length outputs) inputs) w rs r0 x t2 E1 N1 Nn X) as (t3 & O3). rewrite O3. cbn [rbind].
  destruct (opened_ok p (firstn (length outputs) inputs) w rs r1 y t3 E1 N1 Nn Y) as (t4 & O4). rewrite O4. reflexivity.
Qed.
(** ** Circuits from Circuit::new and parameters from Parameters::new *)
Lemma built_ok ni na raw : legal (2 * next_pow2 (Nat.max ni na)) raw -> circ_ok (built ni na raw).
Proof.
  intro L. split; [apply built_length|]. intros d lo hi Hlo Hhi. cbn [c_layers built] in *. cbn [nth_error] in Hhi. rewrite nth_error_map in Hhi. destruct (nth_error raw d) as [l|] eqn:El; [|discriminate]. injection Hhi as <-.
  assert (Q : forall raw n d l, legal n raw -> nth_error raw d = Some l -> Forall (raw_ok (match d with O => n | S d => length (nth d raw []) end)) l).
  { clear. induction raw as [|r raw IH]; intros n [|d] l L E; try discriminate.
    - injection E as <-. exact (proj1 L).
    - cbn [nth_error] in E. pose proof (IH _ _ _ (proj2 L) E) as Q. destruct d; exact Q. }
  pose proof (Q raw _ d l L El) as R. cbn [mid l_gates l_count]. apply mk_ok in R. assert (l_count lo = match d with O => 2 * next_pow2 (Nat.max ni na) | S d => length (nth d raw []) end)%nat as ->.
  { destruct d as [|d]; cbn [nth_error] in Hlo; [injection Hlo as <-; rewrite input_new_bits; reflexivity|]. rewrite nth_error_map in Hlo. destruct (nth_error raw d) as [l'|] eqn:El'; [|discriminate]. injection Hlo as <-. cbn [mid l_count]. rewrite (nth_error_nth raw d [] El'). reflexivity. }
  revert R. apply Forall_impl. intros g (_ & A & B & C). unfold fits. lia.
Qed.
Lemma padded_le S (inputs : list (list K)) : Forall (fun i => next_pow2 (length i) <= S)%nat inputs -> (length (padded K inputs) <= length inputs * S)%nat.
Proof.
  unfold padded. induction inputs as [|i inputs IH]; intro H; [cbn; lia|]. inversion H as [|? ? A B]; subst. cbn [map concat length]. rewrite app_length, app_length, repeat_length. specialize (IH B). pose proof (np_le (length i)). cbn [Nat.mul]. lia.
Qed.
Lemma np_mono a b : (a <= b)%nat -> (next_pow2 a <= next_pow2 b)%nat.
Proof. intro H. unfold next_pow2. apply Nat.pow_le_mono_r; [lia|]. apply Nat.log2_up_le_mono. exact H. Qed.
Theorem hyrax_forgery num r1 g r3 r4 w ni na raw c k outputs inputs ch_hash p_hash :
  circuit_new ni na raw = Ok c -> raw <> [] -> (1 <= k)%nat -> length outputs = (2 ^ k)%nat -> length inputs = (2 ^ k)%nat ->
  Forall (fun o => length o = length (last raw [])) outputs -> Forall (fun i => length i <= ni)%nat inputs ->
  exists pf, forge (hparams_new K G num r1 g r3 r4) w outputs inputs c ch_hash p_hash = Ok pf /\ hx_verify K G ch (hparams_new K G num r1 g r3 r4) pf outputs inputs c ch_hash p_hash = Ok true.
Proof.
  intros H Hr Hk Lo Li Ho Hi. set (SS := next_pow2 (Nat.max ni na)). destruct (circuit_new_inv ni na raw c _ (next_pow2_above _) H) as [L ->]. fold SS in L.
  assert (Pk : (2 <= 2 ^ k)%nat). { destruct k as [|k]; [lia|]. cbn [Nat.pow]. pose proof (Nat.pow_nonzero 2 k). lia. }
  assert (B0 : log2c (next_pow2 (l_count (input_new ni na))) = S (Nat.log2_up (Nat.max ni na))).
  { rewrite input_new_bits. cbn [l_count]. unfold log2c. rewrite next_pow2_log. change (2 * next_pow2 (Nat.max ni na))%nat with (2 ^ S (Nat.log2_up (Nat.max ni na)))%nat. apply Nat.log2_up_pow2. lia. }
  assert (Lk : log2c (2 ^ k) = k) by (unfold log2c; apply Nat.log2_up_pow2; lia).
  apply (forge_ok _ w outputs inputs (built ni na raw) (input_new ni na) (mid (last raw [])) (length (last raw []))).
  - reflexivity.
  - discriminate.
  - cbn [hparams_new hp_pc pc_gen_n mc_new mc_gens]. pose proof (Nat.pow_nonzero 2 (num - num / 2)). destruct (2 ^ (num - num / 2))%nat; [lia|]. discriminate.
  - apply built_ok, L.
  - cbn [built c_depth]. destruct raw; [contradiction|]. cbn [length]. lia.
  - reflexivity.
  - rewrite B0. lia.
  - change (c_depth (built ni na raw)) with (Datatypes.S (length raw)). cbn [c_layers built]. destruct (length raw) as [|m] eqn:E; [destruct raw; [contradiction|discriminate]|]. replace (S (S m) - 1)%nat with (S m) by lia. cbn [nth_error].
    rewrite nth_error_map. rewrite last_nth_error, E by assumption. replace (S m - 1)%nat with m by lia. rewrite (nth_error_nth' raw []) by lia. reflexivity.
  - cbn [mid l_count]. apply np_le.
  - rewrite Lo. unfold next_pow2. rewrite Nat.log2_up_pow2 by lia. reflexivity.
  - lia.
  - exact Ho.
  - lia.
  - rewrite firstn_all2 by lia. rewrite Lo, Lk, B0. replace (k + S (Nat.log2_up (Nat.max ni na)) - 1)%nat with (k + Nat.log2_up (Nat.max ni na))%nat by lia. rewrite Nat.pow_add_r, <- Li. apply padded_le. revert Hi. apply Forall_impl. intros i Hi. apply np_mono. lia.
Qed.
End S.
(** ** A statement without a witness *)
Section N.
Variable K : Fld.
Variable G : Grp K.
Add Field Kf2 : (f_laws K).
(** One gate that adds the public input to itself. *)
Definition twice : list (list (nat * nat * nat)) := [[(0, 1, 1)]]%nat.
Lemma twice_built : circuit_new 1 1 twice = Ok (built 1 1 twice).
Proof. reflexivity. Qed.
Lemma twice_never w ev : evaluate K (built 1 1 twice) [1] w = Ok ev -> last ev [] <> [1].
Proof.
  assert (one : (1 : K) <> 0) by (apply (Field_theory.F_1_neq_0 (f_laws K))).
  intros E A. destruct w as [|x [|y w]].
  - cbn in E. injection E as <-. cbn in A. injection A as A. apply one. rewrite <- A. ring.
  - cbn in E. injection E as <-. cbn in A. injection A as A. apply one. transitivity (1 + 1 - 1 : K); [ring|]. rewrite A. ring.
  - cbn in E. discriminate.
Qed.
Theorem hyrax_false (ch : oracle K G) num r1 g r3 r4 w ch_hash p_hash : (forall t, ch "challenge_nextround" t <> 0) ->
  exists c, circuit_new 1 1 twice = Ok c /\ (forall aux ev, evaluate K c [1] aux = Ok ev -> last ev [] <> [1]) /\
  exists pf, forge K G ch (hparams_new K G num r1 g r3 r4) w [[1]; [1]] [[1]; [1]] c ch_hash p_hash = Ok pf /\ hx_verify K G ch (hparams_new K G num r1 g r3 r4) pf [[1]; [1]] [[1]; [1]] c ch_hash p_hash = Ok true.
Proof.
  intro nz. exists (built 1 1 twice). split; [exact twice_built|]. split; [exact twice_never|].
  apply (hyrax_forgery K G ch nz num r1 g r3 r4 w 1 1 twice _ 1 [[1]; [1]] [[1]; [1]] ch_hash p_hash twice_built); try reflexivity; try discriminate; repeat constructor.
Qed.
Theorem verify_true (ch : oracle K G) p pf outputs inputs c ch_hash p_hash b : hx_verify K G ch p pf outputs inputs c ch_hash p_hash = Ok b -> b = true.
Proof.
  unfold hx_verify. destruct (negb _); [discriminate|]. destruct (Nat.eqb _ _); [discriminate|]. destruct (Nat.ltb _ _); [discriminate|].
  destruct (eval_outputs _ _ _ _ _) as [[[[u qa] q] t]| |]; cbn [rbind]; try discriminate. destruct (hx_check _ _ _ _ _ _ _ _ _ _ _ _ _ _ _ _ _) as [[[[[[qa' ql] qr] cx] cy] t']| |]; cbn [rbind]; try discriminate.
  destruct (hx_opened _ _ _ _ _ _ _ _ _ _ _ _ _) as [t''| |]; cbn [rbind]; try discriminate. destruct (hx_opened _ _ _ _ _ _ _ _ _ _ _ _ _) as [t3| |]; cbn [rmap]; try discriminate. intro H. injection H as <-. reflexivity.
Qed.
End N.
