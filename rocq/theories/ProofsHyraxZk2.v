(** Hyrax: the final check of one layer, with the random values as the unknowns. *)
From Verif Require Import Field Poly Module ModTac ProofsPC ModelTranscript ModelMle SpecMle ProofsMle ModelLibra ProofsLibra ProofsLibra2 ModelSigma ProofsSigma ModelSpartan ProofsSpartan3 ModelSnark ModelHyrax ProofsHyrax ProofsHyrax2 ProofsHyrax10 SpecSigmaZk ProofsSigmaZk ProofsSigmaZk2 SpecHyraxZk ProofsHyraxZk.
From Coq Require Import String List Lia.
Import ListNotations.
Local Open Scope string_scope.
Local Open Scope list_scope.
Local Open Scope fld_scope.
Section S.
Variable K : Fld.
Variable G : Grp K.
Variable ch : oracle K G.
Add Field Kf : (f_laws K).
Notation tr := (transcript K G).
Notation com p x b := (poly_commit_vec K G (mc_gens K G p) x (mc_h K G p) b).
(** What a layer's proof must look like: the verifier never checks these lengths, and never looks at the commitment to the claim (C86). *)
Definition zk_shaped (log_n log_ng : nat) (ca : G) (pf : zkproof K G) : Prop :=
  zk_a0 K G pf = ca /\ length (pp_z K G (zk_prod K G pf)) = 5%nat /\ length (zk_polys K G pf) = (log_n + 2 * log_ng)%nat /\ length (zk_evals K G pf) = (log_n + 2 * log_ng)%nat /\
  length (zk_deltas K G pf) = (log_n + 2 * log_ng)%nat /\ length (zk_zdeltas K G pf) = (log_n + 2 * log_ng)%nat /\ length (zk_zs K G pf) = (4 * log_n + 6 * log_ng)%nat.
Lemma list_by_nth {A} (d : A) (f : nat -> A) l n : length l = n -> (forall j, (j < n)%nat -> nth_error l j = Some (f j)) -> l = map f (seq 0 n).
Proof.
  intros L H. apply nth_ext with (d := d) (d' := d); [rewrite map_length, seq_length; exact L|]. intros j Hj. rewrite (nth_error_nth _ _ d (H j ltac:(lia))). symmetry. apply nth_error_nth. rewrite nth_error_map, (nth_error_nth' _ 0%nat) by (rewrite seq_length; lia). rewrite seq_nth by lia. reflexivity.
Qed.
Lemma fsum_lin c (a f g : nat -> K) (l : list nat) : fsum (map (fun k => a k * (c * f k + g k)) l) = c * fsum (map (fun k => a k * f k) l) + fsum (map (fun k => a k * g k) l).
Proof. induction l as [|k l IH]; cbn [map fsum]; [ring|]. rewrite IH. ring. Qed.
Lemma product_coms p a ba b bb pr bpr b1 b2 b3 b4 b5 (t : tr) pf A B P t' : product_proof K G ch p a ba b bb pr bpr b1 b2 b3 b4 b5 t = (pf, A, B, P, t') -> A = com p [a] ba /\ B = com p [b] bb /\ P = com p [pr] bpr.
Proof. intro E. unfold product_proof, draw in E. injection E as _ <- <- <- _. repeat split. Qed.
Section L.
Variable p : hparams K G.
Variables (x y claim rc0 add mul : K) (log_n log_g : nat) (polys : list (list K)) (rs : list K) (bp be : nat -> K) (pf : zkproof K G).
Hypothesis Hn : (1 <= log_n)%nat.
Hypothesis Hw : map (@length K) polys = widths log_n log_g.
Hypothesis Hc : chain K claim polys rs (add * x + add * y + mul * (x * y)).
Hypothesis Hp : forall j, (j < log_n + 2 * log_g)%nat -> nth_error (zk_polys K G pf) j = Some (com (if Nat.ltb j log_n then hp_4 K G p else hp_3 K G p) (nth j polys []) (bp j)).
Hypothesis Hs : zk_shaped log_n log_g (com (hp_1 K G p) [claim] rc0) pf.
Hypothesis S1 : spans (mc_h K G (hp_1 K G p)).
Let rounds := (log_n + 2 * log_g)%nat.
Let base := (4 * log_n + 6 * log_g)%nat.
Let pie := concat polys ++ [x; y; x * y].
Let m := map (widen K (4 * log_n + 6 * log_g + 3)) (ends K 4 :: mat_rows K 0 (widths log_n log_g) rs [add; add; mul]).
Theorem final_exact (t t' : tr) : sumcheck_verify K G ch p pf m log_g log_n t = Ok (true, t') ->
  let out := (zk_prod K G pf, zk_x K G pf, zk_y K G pf, zk_z K G pf, zk_deltas K G pf, zk_c K G pf, zk_zs K G pf, zk_zdeltas K G pf, zk_zc K G pf) in
  exists z, zr_poly K z = bp /\ zr_eval K z = be /\ sumcheck_prover K G ch p x y log_g log_n m pie rc0 z t = (out, t') /\
    zk_x K G pf = com (hp_1 K G p) [x] (zr_x K z) /\ zk_y K G pf = com (hp_1 K G p) [y] (zr_y K z) /\
    forall z' t'', (forall j, (j < rounds)%nat -> zr_poly K z' j = bp j /\ zr_eval K z' j = be j) -> sumcheck_prover K G ch p x y log_g log_n m pie rc0 z' t = (out, t'') -> zr_same log_n log_g z' z.
Proof.
  intros V out. destruct Hs as (Ha & L5 & Lp & Le & Ld & Lzd & Lzs). fold rounds in Lp, Le, Ld, Lzd. fold base in Lzs.
  destruct (com_solve K G (hp_1 K G p) [x] (zk_x K G pf) S1) as (bx & Ex & Ux). destruct (com_solve K G (hp_1 K G p) [y] (zk_y K G pf) S1) as (by_ & Ey & Uy). destruct (com_solve K G (hp_1 K G p) [x * y] (zk_z K G pf) S1) as (bz & Ez & Uz).
  assert (exists t1, product_verify K G ch (hp_1 K G p) (zk_prod K G pf) (zk_x K G pf) (zk_y K G pf) (zk_z K G pf) t = Ok (true, t1)) as [t1 Pv].
  { unfold sumcheck_verify in V. destruct (product_verify _ _ _ _ _ _ _ _ _) as [[ok t1]| |]; cbn [rbind] in V; try discriminate. destruct ok; [|discriminate]. exists t1. reflexivity. }
  pose proof (sumcheck_verify_inv K G ch p pf m log_g log_n t t1 t' Pv V) as Q. cbv zeta in Q. fold rounds in Q. fold base in Q.
  set (D := draws K G ch "challenge_nextround" (rounds + 1) (rev (map (MG "comm_delta") (zk_deltas K G pf)) ++ t1)) in Q.
  assert (Et : t' = MCh "challenge_nextround" :: MG "comm_c" (zk_c K G pf) :: snd D).
  { unfold sumcheck_verify in V. rewrite Pv in V. cbn [rbind negb] in V. fold rounds in V. fold D in V. rewrite (surjective_pairing D) in V. unfold draw in V. cbv beta iota zeta in V. destruct (delta_checks _ _ _ _ _ _ _) as [[]| |]; cbn [rbind negb] in V; try discriminate. destruct (Nat.ltb _ _); [discriminate|]. injection V as _ <-. reflexivity. }
  set (c := ch "challenge_nextround" (MG "comm_c" (zk_c K G pf) :: snd D)) in *. set (rou := fst D) in *.
  destruct (proj1 (product_coins K G ch (hp_1 K G p) x bx y by_ bz t (zk_prod K G pf) t1)) as ([[[[b1 b2] b3] b4] b5] & Pp & Up); [rewrite Ex, Ey, Ez; split; assumption|]. rewrite Ex, Ey, Ez in Pp, Up.
  set (jv := map (fun k => fsum (map (fun j => nth j rou 0 * nth k (nth j m []) 0) (seq 0 (rounds + 1)))) (seq 0 (base + 3))) in *.
  destruct Q as (Qd & _ & Qe).
  set (d := fun k => nth k (zk_zs K G pf) 0 - c * nth k pie 0). set (dl := fun j => nth j (zk_zdeltas K G pf) 0 - c * bp j).
  set (zc := zk_zc K G pf - c * (nth 0 rou 0 * rc0 - nth base jv 0 * bx - nth (base + 1) jv 0 * by_ - nth (base + 2) jv 0 * bz)).
  set (z := mkZr K bp be bx by_ bz b1 b2 b3 b4 b5 d dl zc).
  (* the masked polynomials *)
  assert (Zs : forall off w, map (fun k => nth k (zk_zs K G pf) 0) (seq off w) = map (fun k => c * nth k pie 0 + d k) (seq off w)) by (intros off w; apply map_ext; intro k; unfold d; ring).
  set (f := fun (zd : nat -> K) (zb : nat -> K) j => if Nat.ltb j log_n then com (hp_4 K G p) (firstn 4 (skipn (j * 4) (map zd (seq 0 base)))) (zb j) else com (hp_3 K G p) (firstn 3 (skipn (log_n + j * 3) (map zd (seq 0 base)))) (zb j)).
  assert (Dl : zk_deltas K G pf = map (f d dl) (seq 0 rounds)).
  { apply (list_by_nth g0); [exact Ld|]. intros j Hj. destruct (deltas_inv K G _ _ _ _ _ Qd j ltac:(apply in_seq; lia)) as (cp & dj & zd & F1 & F2 & F3 & F4). rewrite F2. f_equal. rewrite (Hp j Hj) in F1. injection F1 as <-.
    pose proof (poly_slice K x y log_n log_g polys Hn Hw j Hj) as P. fold pie in P. pose proof (off_bound log_n log_g Hn j Hj) as B. fold base in B.
    assert (Zd : zd = c * bp j + dl j) by (unfold dl; rewrite (nth_error_nth _ _ 0 F3); ring). unfold f. destruct (Nat.ltb j log_n); destruct F4 as [_ F4]; rewrite P, Zs, Zd, com_lin in F4; rewrite slice_seq by exact B; exact (gadd_cancel K G _ _ _ F4). }
  assert (Cc : zk_c K G pf = com (hp_1 K G p) [fsum (map (fun k => nth k jv 0 * nth k (map d (seq 0 base)) 0) (seq 0 base))] zc).
  { set (F := fsum _). assert (E : fsum (map (fun k => nth k jv 0 * nth k (zk_zs K G pf) 0) (seq 0 base)) = c * (nth 0 rou 0 * claim - nth base jv 0 * x - nth (base + 1) jv 0 * y - nth (base + 2) jv 0 * (x * y)) + F).
    { pose proof (combination K x y claim add mul log_n log_g polys rs Hn Hw Hc rou) as C. cbv zeta in C. fold m rounds base pie in C. fold jv in C. rewrite <- C. unfold F. rewrite <- fsum_lin. apply fsum_map_ext. intros k Hk. apply in_seq in Hk. rewrite (ProofsMle.nth_map_seq K). destruct (Nat.ltb_spec k base); [unfold d; ring|lia]. }
    rewrite E in Qe. rewrite Ha, <- Ex, <- Ey, <- Ez in Qe. unfold poly_commit_vec in Qe |- *. rewrite !msm1 in Qe. rewrite !msm1. unfold zc. set (g := hd g0 (mc_gens K G (hp_1 K G p))) in *. set (h := mc_h K G (hp_1 K G p)) in *.
    match type of Qe with gadd ?A _ = ?B => transitivity (gadd B (gopp A)); [rewrite <- Qe; gmod; ring|] end. gmod; ring. }
  exists z. split; [reflexivity|]. split; [reflexivity|]. split; [|split; [symmetry; exact Ex|]]. 2: split; [symmetry; exact Ey|].
  - unfold sumcheck_prover. unfold z. cbn [zr_poly zr_eval zr_x zr_y zr_z zr_b1 zr_b2 zr_b3 zr_b4 zr_b5 zr_d zr_delta zr_c]. rewrite Pp. cbv beta iota zeta. fold rounds. fold base. fold (f d dl). rewrite <- Dl. fold D. rewrite (surjective_pairing D). fold rou. fold jv. rewrite <- Cc. unfold draw. fold c. rewrite Et. unfold out.
    assert (zk_zs K G pf = map (fun k => c * nth k pie 0 + nth k (map d (seq 0 base)) 0) (seq 0 base)) as <-.
    { apply (list_by_nth 0); [exact Lzs|]. intros k Hk. rewrite (nth_error_nth' _ 0) by lia. rewrite (ProofsMle.nth_map_seq K). destruct (Nat.ltb_spec k base); [|lia]. f_equal. unfold d. ring. }
    assert (zk_zdeltas K G pf = map (fun k => c * bp k + dl k) (seq 0 rounds)) as <-. { apply (list_by_nth 0); [exact Lzd|]. intros k Hk. rewrite (nth_error_nth' _ 0) by lia. f_equal. unfold dl. ring. }
    unfold zc. do 2 f_equal. ring.
  - intros z' t'' Hb P'. unfold sumcheck_prover in P'.
    match type of P' with context [product_proof ?a1 ?a2 ?a3 ?a4 ?a5 ?a6 ?a7 ?a8 ?a9 ?c1 ?c2 ?c3 ?c4 ?c5 ?c6 ?c7] => destruct (product_proof a1 a2 a3 a4 a5 a6 a7 a8 a9 c1 c2 c3 c4 c5 c6 c7) as [[[[pp cx] cy] cz] t1'] eqn:Epp end.
    pose proof (product_coms _ _ _ _ _ _ _ _ _ _ _ _ _ _ _ _ _ _ Epp) as Ec.
    destruct Ec as (Ecx & Ecy & Ecz). cbv beta iota zeta in P'. fold rounds in P'. fold base in P'. fold (f (zr_d K z') (zr_delta K z')) in P'. set (dls := map (f (zr_d K z') (zr_delta K z')) (seq 0 rounds)) in *.
    set (D' := draws K G ch "challenge_nextround" (rounds + 1) (rev (map (MG "comm_delta") dls) ++ t1')) in *. rewrite (surjective_pairing D') in P'. set (jv' := map (fun k => fsum (map (fun j => nth j (fst D') 0 * nth k (nth j m []) 0) (seq 0 (rounds + 1)))) (seq 0 (base + 3))) in *.
    set (cc' := com (hp_1 K G p) [_] (zr_c K z')) in *. unfold draw in P'. set (c' := ch "challenge_nextround" (MG "comm_c" cc' :: snd D')) in *.
    unfold out in P'. injection P' as Q1 Q2 Q3 Q4 Q5 Q6 Q7 Q8 Q9 _.
    assert (t1' = t1). { pose proof (product_complete K G ch _ _ _ _ _ _ _ _ _ _ _ _ _ _ _ _ _ _ eq_refl Epp) as W. rewrite Q1, Q2, Q3, Q4, Pv in W. injection W as ->. reflexivity. } subst t1'.
    assert (D' = D) as ED by (unfold D', D; rewrite Q5; reflexivity). assert (c' = c) as Ec by (unfold c', c; rewrite Q6, ED; reflexivity). assert (jv' = jv) as Ej by (unfold jv', jv, rou; rewrite ED; reflexivity).
    assert (X : zr_x K z' = bx) by (apply Ux; rewrite <- Q2, Ecx; reflexivity). assert (Y : zr_y K z' = by_) by (apply Uy; rewrite <- Q3, Ecy; reflexivity). assert (Z : zr_z K z' = bz) by (apply Uz; rewrite <- Q4, Ecz; reflexivity).
    rewrite Ec in Q7, Q8, Q9. rewrite Ej, ED in Q9. fold rou in Q9.
    assert (Hd : forall k, (k < base)%nat -> zr_d K z' k = d k).
    { intros k Hk. unfold d. rewrite <- Q7. rewrite (ProofsMle.nth_map_seq K (fun k => c * nth k pie 0 + nth k (map (zr_d K z') (seq 0 base)) 0)). destruct (Nat.ltb_spec k base); [|lia]. rewrite (ProofsMle.nth_map_seq K). destruct (Nat.ltb_spec k base); [ring|lia]. }
    constructor.
    + intros j Hj. destruct (Hb j Hj) as [A B]. split; [exact A|]. split; [exact B|]. unfold z. cbn [zr_delta]. unfold dl. rewrite <- Q8. rewrite (ProofsMle.nth_map_seq K (fun k => c * zr_poly K z' k + zr_delta K z' k)). fold rounds in Hj. destruct (Nat.ltb_spec j rounds); [|lia]. rewrite A. ring.
    + exact Hd.
    + unfold z. cbn [zr_x zr_y zr_z]. rewrite X, Y, Z. reflexivity.
    + symmetry. apply (Up (zr_b1 K z', zr_b2 K z', zr_b3 K z', zr_b4 K z', zr_b5 K z')). cbv beta iota. rewrite <- X, <- Y, <- Z. rewrite Epp, Q1, Q2, Q3, Q4. reflexivity.
    + unfold z. cbn [zr_c]. unfold zc. rewrite <- Q9, X, Y, Z. ring.
Qed.
End L.
End S.
