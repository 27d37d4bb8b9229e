(** Theorem C88: what two accepted proofs of one of hyrax's layers give. *)
From Verif Require Import Field Zp Poly Module ModelTranscript ModelMle SpecMle ModelLibra ModelSigma SpecSigma ModelSpartan ModelSnark ModelHyrax SpecHyrax2 ProofsHyrax10 ExMarlin Properties20 Properties24.
From Coq Require Import String List Lia ZArith.
Import ListNotations.
Local Open Scope string_scope.
Local Open Scope list_scope.
Local Open Scope fld_scope.

(** ** C88 *)
(** The conclusion is in Type, as in C76: the polynomials and openings are computed from the two proofs. *)
Theorem C88_layer_special_sound : forall (K : Fld) (G : Grp K) (ch ch' : oracle K G) p pf pf' cc u0 u1 qa ql qr gates n ng t t0 t1 cx cy rs r0 r1 t2 cx' cy' rs' r0' r1' t2' all,
  zk_challenges K G ch (log2c n + 2 * log2c ng) (zk_polys K G pf) (zk_evals K G pf) cc t = Ok (all, t0) ->
  product_verify K G ch (hp_1 K G p) (zk_prod K G pf) (zk_x K G pf) (zk_y K G pf) (zk_z K G pf) t0 = Ok (true, t1) ->
  let D := draws K G ch "challenge_nextround" (log2c n + 2 * log2c ng + 1) (rev (map (MG "comm_delta") (zk_deltas K G pf)) ++ t1) in
  forks ch ch' "challenge_nextround" (MG "comm_c" (zk_c K G pf) :: snd D) -> same_first pf pf' ->
  zk_verify K G ch p pf cc u0 u1 qa ql qr gates n ng t = Ok (cx, cy, rs, r0, r1, t2) -> zk_verify K G ch' p pf' cc u0 u1 qa ql qr gates n ng t = Ok (cx', cy', rs', r0', r1', t2') ->
  {_ : all = rs ++ r0 ++ r1 /\ (cx, cy, rs, r0, r1) = (cx', cy', rs', r0', r1') /\ cx = zk_x K G pf /\ cy = zk_y K G pf &
  {ps : list (list K) & {bs : list K & {_ : length ps = (log2c n + 2 * log2c ng)%nat /\
    forall j, (j < log2c n + 2 * log2c ng)%nat -> let mp := if Nat.ltb j (log2c n) then hp_4 K G p else hp_3 K G p in exists C,
       nth_error (zk_polys K G pf) j = Some C /\ length (nth j ps []) = (if Nat.ltb j (log2c n) then 4%nat else 3%nat) /\ opens_vec (mc_gens K G mp) (mc_h K G mp) C (nth j ps []) (nth j bs 0) &
    forall a ba x bx y b_y z bz, let g := hd g0 (mc_gens K G (hp_1 K G p)) in let h := mc_h K G (hp_1 K G p) in
      opens g h (zk_a0 K G pf) a ba -> opens g h (zk_x K G pf) x bx -> opens g h (zk_y K G pf) y b_y -> opens g h (zk_z K G pf) z bz ->
      {b : K | opens g h g0 (dot (fst D) (gaps a ps all (wiring 0 qa rs ql qr r0 r1 u0 u1 gates * (x + y) + wiring 1 qa rs ql qr r0 r1 u0 u1 gates * z))) b}}}}}.
Proof. exact zk_sound. Qed.
Print Assumptions C88_layer_special_sound.
Definition ch88 : oracle F97 S97' := fun _ t => z97 (Z.of_nat (length t) + 2).
Definition fork88 (n : nat) : oracle F97 S97' := fun l t => if Nat.leb n (length t) then z97 91 else ch88 l t.
Definition gates88 : list gate := [mkGate 0 0 0 1; mkGate 1 1 1 1]%nat.
Definition a88 : S97' := poly_commit_vec F97 S97' (mc_gens _ _ (hp_1 _ _ hp87)) [z97 14] (mc_h _ _ (hp_1 _ _ hp87)) (z97 4).
Definition run88 (ch : oracle F97 S97') := zk_prover F97 S97' ch hp87 (z97 14) a88 (z97 4) (z97 1) (z97 2) [z97 3] [z97 5] [z97 6] gates88 [[z97 3; z97 4]; [z97 5; z97 6]] 2 2 (zr87 1) [].
Definition ver88 (ch : oracle F97 S97') pf := zk_verify F97 S97' ch hp87 pf a88 (z97 1) (z97 2) [z97 3] [z97 5] [z97 6] gates88 2 2 [].
Fixpoint eqs88 (a b : list S97') : bool := match a, b with [], [] => true | x :: a, y :: b => geqb x y && eqs88 a b | _, _ => false end.
Lemma eqs88_ok a : forall b, eqs88 a b = true -> a = b.
Proof. induction a as [|x a IH]; intros [|y b] H; try discriminate; [reflexivity|]. cbn [eqs88] in H. apply andb_prop in H. destruct H as [H1 H2]. f_equal; [|apply IH, H2]. destruct (geqb_spec _ _ x y); [assumption|discriminate]. Qed.
Definition flat88 (pf : zkproof F97 S97') : list S97' := [zk_a0 _ _ pf; zk_c _ _ pf; zk_x _ _ pf; zk_y _ _ pf; zk_z _ _ pf; pp_alpha _ _ (zk_prod _ _ pf); pp_beta _ _ (zk_prod _ _ pf); pp_delta _ _ (zk_prod _ _ pf)].
Definition okay88 : bool :=
  match run88 ch88, run88 (fork88 27) with
  | Ok (pf, _, _, _, _, _, _), Ok (pf', _, _, _, _, _, _) =>
      match zk_challenges F97 S97' ch88 3 (zk_polys _ _ pf) (zk_evals _ _ pf) a88 [], ver88 ch88 pf, ver88 (fork88 27) pf' with
      | Ok (all, t0), Ok _, Ok _ =>
          match product_verify F97 S97' ch88 (hp_1 _ _ hp87) (zk_prod _ _ pf) (zk_x _ _ pf) (zk_y _ _ pf) (zk_z _ _ pf) t0 with
          | Ok (true, t1) => Nat.eqb (length t1) 19 && Nat.eqb (length (zk_deltas _ _ pf)) 3 && eqs88 (flat88 pf) (flat88 pf') && eqs88 (pp_z _ _ (zk_prod _ _ pf)) (pp_z _ _ (zk_prod _ _ pf'))
              && eqs88 (zk_polys _ _ pf) (zk_polys _ _ pf') && eqs88 (zk_evals _ _ pf) (zk_evals _ _ pf') && eqs88 (zk_deltas _ _ pf) (zk_deltas _ _ pf') && negb (eqs88 (zk_zs _ _ pf) (zk_zs _ _ pf'))
          | _ => false
          end
      | _, _, _ => false
      end
  | _, _ => false
  end.
(** A layer with two gates over two instances: the honest prover under two oracles that differ at the last challenge gives such a pair. *)
Example ex_C88 : exists pf pf' all t0 t1 r r',
  zk_challenges F97 S97' ch88 (log2c 2 + 2 * log2c 2) (zk_polys _ _ pf) (zk_evals _ _ pf) a88 [] = Ok (all, t0) /\
  product_verify F97 S97' ch88 (hp_1 _ _ hp87) (zk_prod _ _ pf) (zk_x _ _ pf) (zk_y _ _ pf) (zk_z _ _ pf) t0 = Ok (true, t1) /\
  forks ch88 (fork88 27) "challenge_nextround" (MG "comm_c" (zk_c _ _ pf) :: snd (draws F97 S97' ch88 "challenge_nextround" (log2c 2 + 2 * log2c 2 + 1) (rev (map (MG "comm_delta") (zk_deltas _ _ pf)) ++ t1))) /\
  same_first pf pf' /\ pf <> pf' /\ ver88 ch88 pf = Ok r /\ ver88 (fork88 27) pf' = Ok r'.
Proof.
  assert (H : okay88 = true) by (vm_compute; reflexivity). unfold okay88 in H. change (log2c 2 + 2 * log2c 2)%nat with 3%nat.
  destruct (run88 ch88) as [[[[[[[pf w1] w2] w3] w4] w5] w6]| |]; [|discriminate|discriminate]. destruct (run88 (fork88 27)) as [[[[[[[pf' v1] v2] v3] v4] v5] v6]| |]; [|discriminate|discriminate].
  destruct (zk_challenges F97 S97' ch88 3 (zk_polys _ _ pf) (zk_evals _ _ pf) a88 []) as [[all t0]| |] eqn:E0; [|discriminate|discriminate].
  destruct (ver88 ch88 pf) as [r| |] eqn:E1; [|discriminate|discriminate]. destruct (ver88 (fork88 27) pf') as [r'| |] eqn:E2; [|discriminate|discriminate].
  destruct (product_verify F97 S97' ch88 _ _ _ _ _ t0) as [[[|] t1]| |] eqn:E3; try discriminate.
  repeat (apply andb_prop in H; let H' := fresh "Q" in destruct H as [H H']). apply Nat.eqb_eq in H. apply Nat.eqb_eq in Q5.
  exists pf, pf', all, t0, t1, r, r'. split; [exact E0|]. split; [exact E3|]. split; [|split; [|split; [|split; [exact E1|exact E2]]]].
  - match goal with |- forks _ _ _ ?T => assert (L : length T = 27%nat) by (cbn [length]; destruct (draws_shape F97 S97' ch88 "challenge_nextround" (3 + 1) (rev (map (MG "comm_delta") (zk_deltas _ _ pf)) ++ t1)) as [-> _]; rewrite !app_length, rev_length, map_length, repeat_length, H, Q5; reflexivity); set (T0 := T) in * end.
    clearbody T0. split.
    + unfold fork88, ch88. rewrite L. intro E. apply (f_equal (fun y : F97 => zv _ y)) in E. vm_compute in E. discriminate.
    + intros l t Lt. unfold fork88. destruct (Nat.leb_spec 27 (length t)); [lia|reflexivity].
  - apply eqs88_ok in Q0, Q1, Q2, Q3, Q4. assert (N : forall i, nth i (flat88 pf) (g0 : S97') = nth i (flat88 pf') g0) by (intro; rewrite Q4; reflexivity).
    assert (P : zk_prod _ _ pf = zk_prod _ _ pf'). { pose proof (N 5%nat) as N5. pose proof (N 6%nat) as N6. pose proof (N 7%nat) as N7. unfold flat88 in N5, N6, N7. cbn [nth] in N5, N6, N7. clear - N5 N6 N7 Q3. destruct (zk_prod _ _ pf), (zk_prod _ _ pf'). cbn in N5, N6, N7, Q3. f_equal; assumption. }
    exact (conj P (conj (N 0%nat) (conj (N 1%nat) (conj (N 2%nat) (conj (N 3%nat) (conj (N 4%nat) (conj Q2 (conj Q1 Q0)))))))).
  - intros <-. apply Bool.negb_true_iff in Q. assert (R : forall l, eqs88 l l = true) by (induction l as [|x l IH]; [reflexivity|]; cbn [eqs88]; rewrite IH; destruct (geqb_spec _ _ x x); [reflexivity|contradiction]). rewrite R in Q. discriminate.
Qed.
