(** Completeness of the sparse evaluation proof, for an honest encoding. *)
From Verif Require Import Field Poly Module ModelTranscript ModelMle SpecMle ProofsMle ModelLibra ProofsLibra ModelSigma ProofsSigma4 ModelSpartan ModelSpark SpecSpark ModelSnark ProofsSpark ProofsSpark2 ProofsSnark ProofsSnark2 ProofsSnark3 ProofsSnark4 ProofsSnark5.
From Coq Require Import String List Lia.
Local Open Scope string_scope.
Local Open Scope list_scope.
Local Open Scope fld_scope.
Section S.
Variable K : Fld.
Variable G : Grp K.
Variable ch : oracle K G.
Add Field Kf : (f_laws K).
Notation tr := (transcript K G).
Notation all_len := (all_len K).
Notation dot3 := (dot3 K).
Lemma derefs_ok mem lists n m : length mem = m -> accesses_ok lists n m -> mapr (mapr (kget K mem)) lists = Ok (derefs K mem lists).
Proof.
  intros Lm H. apply mapr_ok. intros l Hl. unfold accesses_ok in H. rewrite Forall_forall in H. destruct (H l Hl) as [_ Ha]. rewrite Forall_forall in Ha. apply mapr_ok. intros a Ia. apply kget_ok. rewrite Lm. apply Ha, Ia.
Qed.
Lemma pack_total p (v : list K) k : length v = (2 ^ k)%nat -> exists c, pack K G p v = Ok c.
Proof. intro L. unfold pack. destruct (packing_total K G (mc_gens K G (pc_gen_n K G p)) v (mc_h K G (pc_gen_n K G p)) (fun _ => 0) false k L) as [[a b] E]. rewrite E. cbn. eauto. Qed.
Lemma pad2_pow (l : list K) : length (pad2 l) = (2 ^ Nat.log2_up (length l))%nat.
Proof. apply pad2_length. Qed.
Lemma equalize_lengths (rx ry : list K) : length (fst (equalize_length K rx ry)) = Nat.max (length rx) (length ry) /\ length (snd (equalize_length K rx ry)) = Nat.max (length rx) (length ry).
Proof. unfold equalize_length. destruct (Nat.ltb_spec (length rx) (length ry)); [|destruct (Nat.ltb_spec (length ry) (length rx))]; cbn [fst snd]; rewrite ?app_length, ?repeat_length; lia. Qed.
Section Run.
Variable p : evalp K G.
Variable c : enc_commit K G.
Variables k s : nat.
Variables rows cols : list (list nat).
Variable vals : list (list K).
Variables i1 i2 i3 : iprand K.
Hypothesis Hr : accesses_ok rows (2 ^ k) (2 ^ S s).
Hypothesis Hc : accesses_ok cols (2 ^ k) (2 ^ S s).
Hypothesis Hv : all_len k vals.
Hypothesis L1 : length rows = 3%nat.
Hypothesis L2 : length cols = 3%nat.
Hypothesis L3 : length vals = 3%nat.
Let em := em_of K (2 ^ S s) rows cols vals.
(** With a single access per list the prover panics. *)
Theorem sparse_panics rx ry evals (t : tr) : k = 0%nat -> Nat.max (length rx) (length ry) = S s -> sparse_poly_eval_proof K G ch p rx ry evals em i1 i2 i3 t = Panic.
Proof.
  intros -> Lm. unfold sparse_poly_eval_proof. destruct evals as [[ea eb] ec]. pose proof (equalize_lengths rx ry) as [A B]. destruct (equalize_length K rx ry) as [rx' ry']. cbn [fst snd] in A, B. unfold em, em_of, ts_of. cbn [em_row em_col em_val at_index at_addrs at_read at_audit].
  rewrite (derefs_ok _ rows 1 (2 ^ S s)) by (try exact Hr; rewrite eval_eq_length, A, Lm; reflexivity). rewrite (derefs_ok _ cols 1 (2 ^ S s)) by (try exact Hc; rewrite eval_eq_length, B, Lm; reflexivity). cbn [rbind].
  destruct (pack_total (ev_derefs K G p) _ _ (pad2_pow (concat (derefs K (eval_eq K rx') rows ++ derefs K (eval_eq K ry') cols)))) as (dc & ->). cbn [rbind]. unfold draw.
  rewrite (memory_checking_ok K _ _ (eval_eq K rx') (2 ^ S s) 1 rows); [reflexivity|rewrite eval_eq_length, A, Lm; reflexivity|apply two_pow|exact Hr|intros ->; discriminate].
Qed.
Hypothesis K1 : key_for K G (ev_derefs K G p) (3 + k).
Hypothesis K2 : key_for K G (ev_ops K G p) (4 + k).
Hypothesis K3 : key_for K G (ev_mem K G p) (1 + S s).
Hypothesis C2 : pack K G (ev_ops K G p) (em_ops K em) = Ok (ec_ops K G c).
Hypothesis C3 : pack K G (ev_mem K G p) (em_mem K em) = Ok (ec_mem K G c).
Hypothesis Cn : ec_n K G c = (2 ^ k)%nat.
Hypothesis Cm : ec_m K G c = (2 ^ S s)%nat.
Hypothesis T2 : (1 + 1 : K) <> 0.
Hypothesis T3 : (1 + 1 + 1 : K) <> 0.
Theorem sparse_ok rx ry ea eb ec (t : tr) : (1 <= k)%nat -> Nat.max (length rx) (length ry) = S s ->
  [ea; eb; ec] = map dot3 (triples K (derefs K (eval_eq K (fst (equalize_length K rx ry))) rows) (derefs K (eval_eq K (snd (equalize_length K rx ry))) cols) vals) ->
  (forall ev t', sparse_poly_eval_proof K G ch p rx ry (ea, eb, ec) em i1 i2 i3 t = Ok (ev, t') -> sparse_poly_eval_verify K G ch p ev c rx ry (ea, eb, ec) t = Ok true) /\
  ((forall l t, ch l t <> 0) -> (3 + k <= length (ip_bv K i1))%nat -> (4 + k <= length (ip_bv K i2))%nat -> (1 + S s <= length (ip_bv K i3))%nat ->
    exists ev t', sparse_poly_eval_proof K G ch p rx ry (ea, eb, ec) em i1 i2 i3 t = Ok (ev, t')).
Proof.
  destruct k as [|k']; [lia|]. intros _ Lm EE. unfold sparse_poly_eval_proof, sparse_poly_eval_verify. pose proof (equalize_lengths rx ry) as [A B]. destruct (equalize_length K rx ry) as [rx' ry']. cbn [fst snd] in A, B, EE. rewrite Lm in A, B.
  assert (M1 : length (eval_eq K rx') = (2 ^ S s)%nat) by (rewrite eval_eq_length, A; reflexivity). assert (M2 : length (eval_eq K ry') = (2 ^ S s)%nat) by (rewrite eval_eq_length, B; reflexivity).
  change (at_index K (em_row K em)) with rows. change (at_index K (em_col K em)) with cols. rewrite (derefs_ok _ rows (2 ^ S k') (2 ^ S s) M1 Hr), (derefs_ok _ cols (2 ^ S k') (2 ^ S s) M2 Hc). cbn [rbind].
  destruct (pack_total (ev_derefs K G p) _ _ (pad2_pow (concat (derefs K (eval_eq K rx') rows ++ derefs K (eval_eq K ry') cols)))) as (dc & C1). rewrite C1. cbn [rbind]. unfold draw. rewrite Cm, Cn, A, Nat.eqb_refl. cbn [negb].
  set (t0 := MGs "comm_poly_row_col_ops_val" dc :: MU "protocol-name:sparse polynomial evaluation proof" 0 :: t). set (g1 := ch "challenge_gamma_hash" t0). set (g2 := ch "challenge_gamma_hash" (MCh "challenge_gamma_hash" :: t0)). set (t1 := MCh "challenge_gamma_hash" :: MCh "challenge_gamma_hash" :: t0).
  change (memory_checking K (at_addrs K (em_row K em)) (eval_eq K rx') (at_read K (em_row K em)) (at_audit K (em_row K em))) with (memory_checking K (map (map of_nat) rows) (eval_eq K rx') (map (map of_nat) (stamps_of [] rows)) (map (fun a => of_nat (times (concat rows) a)) (seq 0 (2 ^ S s)))).
  change (memory_checking K (at_addrs K (em_col K em)) (eval_eq K ry') (at_read K (em_col K em)) (at_audit K (em_col K em))) with (memory_checking K (map (map of_nat) cols) (eval_eq K ry') (map (map of_nat) (stamps_of [] cols)) (map (fun a => of_nat (times (concat cols) a)) (seq 0 (2 ^ S s)))).
  rewrite (memory_checking_ok K g1 g2 (eval_eq K rx') (2 ^ S s) (2 ^ S k') rows M1 (two_pow s) Hr) by (intros ->; discriminate). rewrite (memory_checking_ok K g1 g2 (eval_eq K ry') (2 ^ S s) (2 ^ S k') cols M2 (two_pow s) Hc) by (intros ->; discriminate).
  pose proof (two_pow k') as P2. destruct (Nat.leb_spec 2 (2 ^ S k')) as [_|]; [|lia]. cbn [rbind]. change (em_val K em) with vals.
  destruct (product_layer_ok K G ch g1 g2 k' s T2 T3 (eval_eq K rx') (eval_eq K ry') rows cols vals [ea; eb; ec] t1 Hr Hc Hv L1 L2 L3 EE) as (pl & rl & rp & ml & mp & t2 & Lrp & Lmp & EP & EV). rewrite EP. cbn [rbind].
  destruct (hash_layer_ok K G ch g1 g2 p c dc (S k') (S s) rows cols vals rx' ry' (rl :: rp) (ml :: mp) i1 i2 i3 t2 Hr Hc Hv L1 L2 L3 A B ltac:(cbn [length]; lia) ltac:(cbn [length]; lia) K1 K2 K3 C1 C2 C3) as [HX HT]. cbv zeta in HX, HT. fold em in HX, HT. split.
  - intros ev t' E. destruct (hash_layer_prover K G ch p em (rl :: rp) (ml :: mp) _ _ _ i1 i2 i3 t2) as [[hl t3]| |] eqn:EH; cbn [rmap] in E; try discriminate. injection E as <- <-. cbn [ep_prod ep_hash ep_commit]. fold t0 g1 g2 t1. rewrite EV. cbn [rbind].
    specialize (HX hl t3 eq_refl).
    assert (LT : forall mem d l, length l = 3%nat -> length (traces K g1 g2 mem d l (stamps_of [] l)) = 3%nat) by (intros mem d l L; unfold traces; rewrite map_length, combine_length, stamps_of_length, L; reflexivity).
    unfold ops_of. rewrite !map_app. fold (at_pt K (rl :: rp) (traces K g1 g2 (eval_eq K rx') 0 rows (stamps_of [] rows))). fold (at_pt K (rl :: rp) (traces K g1 g2 (eval_eq K rx') 1 rows (stamps_of [] rows))). fold (at_pt K (rl :: rp) (traces K g1 g2 (eval_eq K ry') 0 cols (stamps_of [] cols))). fold (at_pt K (rl :: rp) (traces K g1 g2 (eval_eq K ry') 1 cols (stamps_of [] cols))).
    pose proof (at_pt_length K (rl :: rp) (traces K g1 g2 (eval_eq K rx') 0 rows (stamps_of [] rows))) as Q1. rewrite LT in Q1 by exact L1. pose proof (at_pt_length K (rl :: rp) (traces K g1 g2 (eval_eq K rx') 1 rows (stamps_of [] rows))) as Q2. rewrite LT in Q2 by exact L1.
    pose proof (at_pt_length K (rl :: rp) (traces K g1 g2 (eval_eq K ry') 0 cols (stamps_of [] cols))) as Q3. rewrite LT in Q3 by exact L2. pose proof (at_pt_length K (rl :: rp) (traces K g1 g2 (eval_eq K ry') 1 cols (stamps_of [] cols))) as Q4. rewrite LT in Q4 by exact L2.
    assert (QT : length (triples K (derefs K (eval_eq K rx') rows) (derefs K (eval_eq K ry') cols) vals) = 3%nat) by (apply (f_equal (@length K)) in EE; rewrite map_length in EE; symmetry; exact EE).
    destruct (at_pt K (rl :: rp) (traces K g1 g2 (eval_eq K rx') 0 rows (stamps_of [] rows))) as [|x0 [|x1 [|x2 [|? ?]]]]; try discriminate Q1. destruct (at_pt K (rl :: rp) (traces K g1 g2 (eval_eq K rx') 1 rows (stamps_of [] rows))) as [|y0 [|y1 [|y2 [|? ?]]]]; try discriminate Q2.
    destruct (at_pt K (rl :: rp) (traces K g1 g2 (eval_eq K ry') 0 cols (stamps_of [] cols))) as [|z0 [|z1 [|z2 [|? ?]]]]; try discriminate Q3. destruct (at_pt K (rl :: rp) (traces K g1 g2 (eval_eq K ry') 1 cols (stamps_of [] cols))) as [|w0 [|w1 [|w2 [|? ?]]]]; try discriminate Q4.
    assert (Lcd : forall T : list (triple K), length T = 3%nat -> length (concat (map (fun x => [mle (ProofsSnark.t1 K x) (rl :: rp); mle (ProofsSnark.t2 K x) (rl :: rp); mle (ProofsSnark.t3 K x) (rl :: rp)]) T)) = 9%nat) by (intros [|? [|? [|? [|? ?]]]] LT'; try discriminate LT'; reflexivity).
    rewrite (Lcd _ QT). cbn [app length Nat.eqb andb negb]. unfold mems_of. cbn [map firstn skipn]. rewrite HX. reflexivity.
  - intros NZ B1 B2 B3. destruct (HT NZ B1 B2 B3) as (hl & t3 & EH). rewrite EH. cbn [rmap]. eauto.
Qed.
End Run.
End S.
