(** Theorems C76-C78: the sigma protocols of spartan, libra and hyrax. *)
From Verif Require Import Field Zp Poly Module ModelTranscript ModelBulletproofs ModelMle ModelSigma SpecSigma SpecMle ProofsSigma ProofsSigma2 ProofsSigma3 ProofsSigma4 ExMarlin.
Local Open Scope string_scope.
Local Open Scope list_scope.
Local Open Scope fld_scope.

(** ** C76 *)
Theorem C76_knowledge_complete : forall (K : Fld) (G : Grp K) (ch : oracle K G) p claim blind t1 t2 t pf C t', knowledge_proof K G ch p claim blind t1 t2 t = (pf, C, t') ->
  knowledge_verify K G ch p pf C t = (true, t').
Proof. exact knowledge_complete. Qed.
Print Assumptions C76_knowledge_complete.
Theorem C76_product_complete : forall (K : Fld) (G : Grp K) (ch : oracle K G) p a ba b bb pr bpr b1 b2 b3 b4 b5 t pf A B P t', pr = a * b ->
  product_proof K G ch p a ba b bb pr bpr b1 b2 b3 b4 b5 t = (pf, A, B, P, t') -> product_verify K G ch p pf A B P t = Ok (true, t').
Proof. exact product_complete. Qed.
Print Assumptions C76_product_complete.
Theorem C76_eq_complete : forall (K : Fld) (G : Grp K) (ch : oracle K G) p c1 b1 c2 b2 r t pf t', c1 = c2 -> eq_proof K G ch p c1 b1 c2 b2 r t = (pf, t') ->
  eq_verify K G ch p (poly_commit_vec K G (mc_gens _ _ p) [c1] (mc_h _ _ p) b1) (poly_commit_vec K G (mc_gens _ _ p) [c2] (mc_h _ _ p) b2) pf t = (true, t').
Proof. exact eq_complete. Qed.
Print Assumptions C76_eq_complete.
Theorem C76_round_complete : forall (K : Fld) (G : Grp K) (ch : oracle K G) g1 gn poly bp claim bc eval be size r d rd rb t pf t',
  let com1 x b := poly_commit_vec K G (mc_gens _ _ g1) [x] (mc_h _ _ g1) b in
  let C := poly_commit_vec K G (mc_gens _ _ gn) poly (mc_h _ _ gn) bp in
  (0 < size)%nat -> length d = size -> claim = peval poly 0 + peval poly 1 -> eval = peval poly r ->
  sum_check_eval_prover K G ch g1 gn poly C bp claim bc eval be size r d rd rb t = Ok (pf, t') ->
  sum_check_eval_verify K G ch g1 gn C (com1 eval be) (com1 claim bc) pf r size t = Ok (true, t').
Proof. exact sum_check_eval_complete. Qed.
Print Assumptions C76_round_complete.
(** From here on conclusions are in Type: a proof of them, using no axiom, is a program that computes the openings from two runs. (In a group of prime order
    openings to any value exist; what counts is that they are computed.) *)
Theorem C76_knowledge_sound : forall (K : Fld) (G : Grp K) (ch ch' : oracle K G) p pf pf' C t t1 t1', let tt := MG "alpha" (kp_t _ _ pf) :: MG "C" C :: t in
  forks ch ch' "c" tt -> kp_t _ _ pf = kp_t _ _ pf' ->
  knowledge_verify K G ch p pf C t = (true, t1) -> knowledge_verify K G ch' p pf' C t = (true, t1') ->
  {x : K & {r : K | opens (hd g0 (mc_gens _ _ p)) (mc_h _ _ p) C x r}}.
Proof. exact knowledge_sound. Qed.
Print Assumptions C76_knowledge_sound.
Theorem C76_product_sound : forall (K : Fld) (G : Grp K) (ch ch' : oracle K G) p pf pf' A B P t t1 t1',
  let tt := MG "delta" (pp_delta _ _ pf) :: MG "beta" (pp_beta _ _ pf) :: MG "alpha" (pp_alpha _ _ pf) :: MG "Z" P :: MG "Y" B :: MG "X" A :: t in
  forks ch ch' "c" tt -> pp_alpha _ _ pf = pp_alpha _ _ pf' -> pp_beta _ _ pf = pp_beta _ _ pf' -> pp_delta _ _ pf = pp_delta _ _ pf' ->
  product_verify K G ch p pf A B P t = Ok (true, t1) -> product_verify K G ch' p pf' A B P t = Ok (true, t1') ->
  {x : K & {rx : K & {y : K & {ry : K & {rz : K | let g := hd g0 (mc_gens _ _ p) in let h := mc_h _ _ p in opens g h A x rx /\ opens g h B y ry /\ opens g h P (x * y) rz}}}}}.
Proof. exact product_sound. Qed.
Print Assumptions C76_product_sound.
Theorem C76_eq_sound : forall (K : Fld) (G : Grp K) (ch ch' : oracle K G) p C1 C2 pf pf' t t1 t1', let tt := MG "alpha" (ep_alpha _ _ pf) :: MG "C2" C2 :: MG "C1" C1 :: t in
  forks ch ch' "c" tt -> ep_alpha _ _ pf = ep_alpha _ _ pf' ->
  eq_verify K G ch p C1 C2 pf t = (true, t1) -> eq_verify K G ch' p C1 C2 pf' t = (true, t1') ->
  {d : K | C1 = gadd C2 (gsm d (mc_h _ _ p))}.
Proof. exact eq_sound. Qed.
Print Assumptions C76_eq_sound.
Theorem C76_round_sound : forall (K : Fld) (G : Grp K) (ch ch' : oracle K G) (g1 gn : mcp K G) CP CE CC pf pf' r size t t1 t1',
  let w0 := ch "combine_two_claims_to_one" t in
  let w1 := ch "combine_two_claims_to_one" (MCh "combine_two_claims_to_one" :: t) in
  let CV := gadd (gsm w0 CC) (gsm w1 CE) in
  let tt := MG "beta" (se_dot _ _ pf) :: MG "delta" (se_d _ _ pf) :: MG "Cy" CV :: MG "Cx" CP :: MCh "combine_two_claims_to_one" :: MCh "combine_two_claims_to_one" :: t in
  (0 < size)%nat -> (length (mc_gens _ _ gn) <= size)%nat ->
  forks ch ch' "c" tt -> se_d _ _ pf = se_d _ _ pf' -> se_dot _ _ pf = se_dot _ _ pf' ->
  sum_check_eval_verify K G ch g1 gn CP CE CC pf r size t = Ok (true, t1) ->
  sum_check_eval_verify K G ch' g1 gn CP CE CC pf' r size t = Ok (true, t1') ->
  {p : list K & {rp : K & {rv : K | length p = size /\ opens_vec (mc_gens _ _ gn) (mc_h _ _ gn) CP p rp /\
    opens (hd g0 (mc_gens _ _ g1)) (mc_h _ _ g1) CV (w0 * (peval p 0 + peval p 1) + w1 * peval p r) rv}}}.
Proof. exact sum_check_eval_sound. Qed.
Print Assumptions C76_round_sound.
Definition S97 : Grp F97 := self_grp F97.
(** Challenges depend on the position; [fork97 n] answers differently after n messages. *)
Definition ch76 : oracle F97 S97 := fun _ t => z97 (Z.of_nat (length t) + 2).
Definition fork76 (n : nat) : oracle F97 S97 := fun l t => if Nat.leb n (length t) then z97 50 else ch76 l t.
Definition g76 : mcp F97 S97 := mkMcp F97 S97 [z97 6] (z97 11).
Definition gn76 : mcp F97 S97 := mkMcp F97 S97 [z97 6; z97 9; z97 13] (z97 11).
Definition kp76 (ch : oracle F97 S97) := knowledge_proof F97 S97 ch g76 (z97 20) (z97 21) (z97 3) (z97 4) [].
Definition pp76 (ch : oracle F97 S97) := product_proof F97 S97 ch g76 (z97 20) (z97 21) (z97 5) (z97 8) (z97 20 * z97 5) (z97 9) (z97 1) (z97 2) (z97 3) (z97 4) (z97 5) [].
Definition ep76 (ch : oracle F97 S97) := eq_proof F97 S97 ch g76 (z97 20) (z97 21) (z97 20) (z97 8) (z97 3) [].
Definition q76 : list F97 := [z97 4; z97 7; z97 2].
Definition se76 (ch : oracle F97 S97) := sum_check_eval_prover F97 S97 ch g76 gn76 q76 (poly_commit_vec F97 S97 (mc_gens _ _ gn76) q76 (mc_h _ _ gn76) (z97 9)) (z97 9)
  (peval q76 0 + peval q76 1) (z97 12) (peval q76 (z97 5)) (z97 14) 3 (z97 5) [z97 3; z97 1; z97 8] (z97 31) (z97 32) [].
Lemma forks76 n t : length t = n -> (n < 40)%nat -> forks ch76 (fork76 n) "c" t.
Proof.
  intros L H. split.
  - unfold fork76. rewrite L, Nat.leb_refl. unfold ch76. rewrite L. clear L. do 40 (destruct n as [|n]; [intro E; apply (f_equal (fun y : F97 => zv _ y)) in E; vm_compute in E; discriminate|]). lia.
  - intros l' t' Ht. unfold fork76. destruct (Nat.leb_spec n (length t')); [lia|reflexivity].
Qed.
Example ex_C76_knowledge : exists pf C t1 pf' t1', kp76 ch76 = (pf, C, t1) /\ kp76 (fork76 2) = (pf', C, t1') /\ forks ch76 (fork76 2) "c" [MG "alpha" (kp_t _ _ pf); MG "C" C] /\ kp_t _ _ pf = kp_t _ _ pf' /\ kp_z1 _ _ pf <> kp_z1 _ _ pf'.
Proof.
  do 5 eexists. split; [reflexivity|]. split; [reflexivity|]. split; [apply forks76; [reflexivity|lia]|]. split; [reflexivity|].
  intro E. apply (f_equal (fun y : F97 => zv _ y)) in E. vm_compute in E. discriminate.
Qed.
Example ex_C76_product : exists pf A B P t1 pf' t1', pp76 ch76 = (pf, A, B, P, t1) /\ pp76 (fork76 6) = (pf', A, B, P, t1') /\
  forks ch76 (fork76 6) "c" [MG "delta" (pp_delta _ _ pf); MG "beta" (pp_beta _ _ pf); MG "alpha" (pp_alpha _ _ pf); MG "Z" P; MG "Y" B; MG "X" A] /\
  pp_alpha _ _ pf = pp_alpha _ _ pf' /\ pp_beta _ _ pf = pp_beta _ _ pf' /\ pp_delta _ _ pf = pp_delta _ _ pf'.
Proof. do 7 eexists. split; [reflexivity|]. split; [reflexivity|]. split; [apply forks76; [reflexivity|lia]|]. split; [reflexivity|]. split; reflexivity. Qed.
Example ex_C76_eq : exists pf t1 pf' t1', ep76 ch76 = (pf, t1) /\ ep76 (fork76 3) = (pf', t1') /\ ep_alpha _ _ pf = ep_alpha _ _ pf' /\ forall C1 C2, forks ch76 (fork76 3) "c" [MG "alpha" (ep_alpha _ _ pf); MG "C2" C2; MG "C1" C1].
Proof. do 4 eexists. split; [reflexivity|]. split; [reflexivity|]. split; [reflexivity|]. intros. apply forks76; [reflexivity|lia]. Qed.
Example ex_C76_round : (length (mc_gens _ _ gn76) <= 3)%nat /\ exists pf t1 pf' t1', se76 ch76 = Ok (pf, t1) /\ se76 (fork76 6) = Ok (pf', t1') /\ se_d _ _ pf = se_d _ _ pf' /\ se_dot _ _ pf = se_dot _ _ pf' /\
  forall CV CP, forks ch76 (fork76 6) "c" [MG "beta" (se_dot _ _ pf); MG "delta" (se_d _ _ pf); MG "Cy" CV; MG "Cx" CP; MCh "combine_two_claims_to_one"; MCh "combine_two_claims_to_one"].
Proof. split; [cbn; lia|]. do 4 eexists. split; [reflexivity|]. split; [reflexivity|]. split; [reflexivity|]. split; [reflexivity|]. intros. apply forks76; [reflexivity|lia]. Qed.

(** ** C77 *)
Theorem C77_evaluation_exact : forall (K : Fld) (G : Grp K) (ch : oracle K G) (p : pcp K G) q qs poly rnd isb commits blinds bp ry ryb eval d rd rb bv t pf Cry t',
  mc_gens _ _ (pc_gen_1 _ _ p) = q :: qs -> mc_h _ _ (pc_gen_n _ _ p) = mc_h _ _ (pc_gen_1 _ _ p) ->
  (2 ^ (length ry - length ry / 2) <= length (mc_gens _ _ (pc_gen_n _ _ p)))%nat ->
  packing_poly_commit K G (mc_gens _ _ (pc_gen_n _ _ p)) poly (mc_h _ _ (pc_gen_n _ _ p)) rnd isb = Ok (commits, blinds) ->
  bp = blinds \/ bp = [] /\ isb = false ->
  inner_product_proof K G ch p poly bp ry ryb eval d rd rb bv t = Ok (pf, Cry, t') ->
  Cry = poly_commit_vec K G (q :: qs) [eval] (mc_h _ _ (pc_gen_1 _ _ p)) ryb /\
  exists bs gh ga t1, let Clz := poly_commit_vec K G commits (eval_eq K (firstn (length ry / 2) ry)) (mc_h _ _ (pc_gen_1 _ _ p)) 0 in
    bullet_verify K G ch (mc_gens _ _ (pc_gen_n _ _ p)) (dp_l _ _ pf) (dp_r _ _ pf) (gadd Clz Cry) (eval_eq K (skipn (length ry / 2) ry))
      (MG "Cy" Cry :: MG "Cx" Clz :: MU "protocol-name:polynomial evaluation proof" 0 :: t) = Ok (bs, gh, ga, t1) /\
    inner_product_verify K G ch p ry commits Cry pf t =
      Ok (geqb (gsm (bs * ch "challenge_tau" (MG "beta" (dp_beta _ _ pf) :: MG "delta" (dp_delta _ _ pf) :: t1) * (eval - mle poly ry)) q) g0, t').
Proof. exact inner_product_exact. Qed.
Print Assumptions C77_evaluation_exact.
Theorem C77_prover_total : forall (K : Fld) (G : Grp K) (ch : oracle K G) (p : pcp K G) poly bp ry ryb eval d rd rb bv t, (forall l t, ch l t <> 0) -> length poly = (2 ^ length ry)%nat ->
  bp = [] \/ length bp = (2 ^ (length ry / 2))%nat -> (2 ^ (length ry - length ry / 2) <= length (mc_gens _ _ (pc_gen_n _ _ p)))%nat ->
  mc_gens _ _ (pc_gen_1 _ _ p) <> [] -> (length ry - length ry / 2 <= length bv)%nat ->
  exists r, inner_product_proof K G ch p poly bp ry ryb eval d rd rb bv t = Ok r.
Proof. exact inner_product_total. Qed.
Print Assumptions C77_prover_total.
Definition p77 : pcp F97 S97 := mkPcp F97 S97 4 (mkMcp F97 S97 [z97 6; z97 9; z97 13; z97 31] (z97 11)) (mkMcp F97 S97 [z97 17] (z97 11)).
Definition v77 : list F97 := map z97 [3; 1; 4; 1; 5; 9; 2; 6]%Z.
Definition ry77 : list F97 := [z97 8; z97 3; z97 7].
Definition rnd77 (i : nat) : F97 := z97 (Z.of_nat i + 40).
(** Commit, prove the evaluation [e], verify. *)
Definition verdict77 (e : F97) : res bool :=
  rbind (packing_poly_commit F97 S97 (mc_gens _ _ (pc_gen_n _ _ p77)) v77 (z97 11) rnd77 true) (fun '(commits, blinds) =>
  rbind (inner_product_proof F97 S97 ch76 p77 v77 blinds ry77 (z97 14) e (z97 1) (z97 2) (z97 3) [(z97 4, z97 5); (z97 6, z97 7)] []) (fun '(pf, Cry, _) =>
  rmap fst (inner_product_verify F97 S97 ch76 p77 ry77 commits Cry pf []))).
Example ex_C77 : (2 ^ (length ry77 - length ry77 / 2) <= length (mc_gens _ _ (pc_gen_n _ _ p77)))%nat /\ length v77 = (2 ^ length ry77)%nat /\
  verdict77 (mle v77 ry77) = Ok true /\ verdict77 (mle v77 ry77 + 1) = Ok false.
Proof. split; [cbn; lia|]. split; [reflexivity|]. split; vm_compute; reflexivity. Qed.

(** ** C78 *)
Theorem C78_honest_needs_luck : forall (K : Fld) (G : Grp K) (ch : oracle K G) (p : pcp K G) x bx a y by_ d rb rd t pf Cx Cy t1 t2, length d = length x ->
  dot_product_prover K G ch p x bx a y by_ d rb rd t = Ok (pf, Cx, Cy, t1) -> dot_product_verify K G ch p pf Cx Cy a t = Ok (true, t2) ->
  gsm (ch "c" (MG "beta" (ld_beta _ _ pf) :: MG "delta" (ld_delta _ _ pf) :: MG "Cy" Cy :: MG "Cx" Cx :: t) -
       ch "c" (MG "beta" Cy :: MG "delta" Cx :: MG "Cy" Cy :: MG "Cx" Cx :: t)) Cx = g0.
Proof. exact dot_product_honest. Qed.
Print Assumptions C78_honest_needs_luck.
Theorem C78_forgery : forall (K : Fld) (G : Grp K) (ch : oracle K G) (p : pcp K G) x1 bx a1 a2 a y by_ t, x1 <> 0 -> fprod (a1 :: a2 :: a) <> 0 -> mc_h _ _ (pc_gen_n _ _ p) = mc_h _ _ (pc_gen_1 _ _ p) ->
  let xs := x1 :: repeat 0 (S (length a)) in
  exists pf t', dot_product_verify K G ch p pf (poly_commit_vec K G (mc_gens _ _ (pc_gen_n _ _ p)) xs (mc_h _ _ (pc_gen_n _ _ p)) bx)
    (poly_commit_vec K G (mc_gens _ _ (pc_gen_1 _ _ p)) [y] (mc_h _ _ (pc_gen_1 _ _ p)) by_) (a1 :: a2 :: a) t = Ok (true, t').
Proof. exact dot_product_forgery. Qed.
Print Assumptions C78_forgery.
(** An oracle that reads the last message, so that the two sides' transcripts matter. *)
Definition ch78 : oracle F97 S97 := fun _ t => match t with MG _ g :: _ => (g : F97) | _ => z97 1 end.
Definition a78 : list F97 := [z97 3; z97 4].
Definition x78 : list F97 := [z97 5; z97 6].
Definition verdict78 (ch : oracle F97 S97) : res bool :=
  rbind (dot_product_prover F97 S97 ch p77 x78 (z97 7) a78 (dot x78 a78) (z97 8) [z97 2; z97 9] (z97 1) (z97 3) []) (fun '(pf, Cx, Cy, _) =>
  rmap fst (dot_product_verify F97 S97 ch p77 pf Cx Cy a78 [])).
(** An honest proof is rejected, also by a constant oracle; and the forgery's hypotheses hold for a false claim. *)
Example ex_C78 : verdict78 ch78 = Ok false /\ verdict78 (fun _ _ => z97 5) = Ok false /\ z97 5 <> 0 /\ fprod a78 <> 0 /\ dot [z97 5; 0] a78 <> z97 42.
Proof.
  split; [vm_compute; reflexivity|]. split; [vm_compute; reflexivity|].
  split; [|split]; intro E; apply (f_equal (fun y : F97 => zv _ y)) in E; vm_compute in E; discriminate.
Qed.
