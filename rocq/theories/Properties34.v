(** Theorem C98: libra's zero-knowledge protocol is perfectly zero-knowledge: for true outputs the accepted proofs are exactly the honest ones, each from one choice of the coins. *)
From Verif Require Import Field Zp Poly Module ModelTranscript ModelMle SpecMle ModelLibra SpecLibra ModelSigma ModelSpartan ModelHyrax ModelLibraZk SpecLibraZk SpecSigmaZk SpecLibraCoins.
From Verif Require Import ProofsLibra3 ProofsLibraCoins3 ExMarlin Properties20 Properties22 Properties23 Properties24 Properties27 Properties28 Properties33.
From Coq Require Import String List Lia ZArith.
Import ListNotations.
Local Open Scope list_scope.
Local Open Scope fld_scope.

(** ** C98 *)
Theorem C98_coins : forall (K : Fld) (G : Grp K) (ch : oracle K G) num r1 g r3 r4 ni na raw c s inputs hash p_hash, let p := hparams_new K G num r1 g r3 r4 in
  (1 + 1 : K) <> 0 -> pow2_above (Nat.max ni na) (2 ^ s) -> circuit_new ni na raw = Ok c -> raw <> [] -> spans (mc_h K G (hp_1 K G p)) -> spans (mc_h K G (hp_3 K G p)) ->
  forall w pf, zk_provable (2 ^ s) raw num inputs w -> length inputs = length w -> let out := sem (intended_layer (2 ^ s) inputs w) raw in
  let prove x := z_prove K G ch p c inputs w hash p_hash (zc_w x) (zc_l x) (zc_0 x) (zc_1 x) in
  (zg_shape K G c (length raw) s pf /\ z_verify K G ch p c out inputs hash p_hash pf = Ok true) <->
  exists x, zc_ok K x /\ prove x = Ok (pf, out) /\ forall x' o, zc_ok K x' -> prove x' = Ok (pf, o) -> zc_same K c (length raw) s x' x.
Proof. exact libra_coins. Qed.
Print Assumptions C98_coins.
Theorem C98_witnesses : forall (K : Fld) (G : Grp K) (ch : oracle K G) num r1 g r3 r4 ni na raw c s inputs hash p_hash, let p := hparams_new K G num r1 g r3 r4 in
  (1 + 1 : K) <> 0 -> pow2_above (Nat.max ni na) (2 ^ s) -> circuit_new ni na raw = Ok c -> raw <> [] -> spans (mc_h K G (hp_1 K G p)) -> spans (mc_h K G (hp_3 K G p)) ->
  let prove w x := z_prove K G ch p c inputs w hash p_hash (zc_w x) (zc_l x) (zc_0 x) (zc_1 x) in
  forall w w' x pf o, zk_provable (2 ^ s) raw num inputs w -> zk_provable (2 ^ s) raw num inputs w' -> length inputs = length w ->
  sem (intended_layer (2 ^ s) inputs w) raw = sem (intended_layer (2 ^ s) inputs w') raw -> zc_ok K x -> prove w x = Ok (pf, o) ->
  exists x', zc_ok K x' /\ prove w' x' = Ok (pf, o) /\ forall y o', zc_ok K y -> prove w' y = Ok (pf, o') -> zc_same K c (length raw) s y x'.
Proof. exact libra_witnesses. Qed.
Print Assumptions C98_witnesses.

(** ** The witnesses (7, 8) and (-7, -8) give the same output: every proof made for the first is one made for the second *)
Lemma map_one_to_one {A B} (f : A -> B) : (forall y y', f y = f y' -> y = y') -> forall l l', map f l = map f l' -> l = l'.
Proof. intros I. induction l as [|a l IH]; intros [|a' l'] Q; try discriminate; [reflexivity|]. injection Q as Q1 Q2. f_equal; [apply I; exact Q1|apply IH; exact Q2]. Qed.
Lemma prov98 (a b : F97) : zk_provable 2 raw86 2 [z97 3; z97 4] [a; b].
Proof. split; [cbn; lia|]. split; [reflexivity|]. split; [split; [exists 1%nat; split; [lia|reflexivity]|exact I]|]. exists 1%nat. split; [reflexivity|cbn; lia]. Qed.
Example ex_C98 : exists pf out, let x := mkZC F97 (fun j => z97 (Z.of_nat j)) lr90 (er87 3) (er87 4) in zc_ok F97 x /\
  z_prove F97 S97' ch84 hp87 (built 2 2 raw86) [z97 3; z97 4] [z97 7; z97 8] (z97 9) (z97 10) (zc_w x) (zc_l x) (zc_0 x) (zc_1 x) = Ok (pf, out) /\
  zg_shape F97 S97' (built 2 2 raw86) 2 1 pf /\ z_verify F97 S97' ch84 hp87 (built 2 2 raw86) (sem (intended_layer 2 [z97 3; z97 4] [z97 7; z97 8]) raw86) [z97 3; z97 4] (z97 9) (z97 10) pf = Ok true /\
  exists x', zc_ok F97 x' /\ z_prove F97 S97' ch84 hp87 (built 2 2 raw86) [z97 3; z97 4] [z97 90; z97 89] (z97 9) (z97 10) (zc_w x') (zc_l x') (zc_0 x') (zc_1 x') = Ok (pf, out).
Proof.
  destruct ex_C90 as (pf & out & E & V). exists pf, out. cbv zeta. set (x := mkZC F97 (fun j => z97 (Z.of_nat j)) lr90 (er87 3) (er87 4)).
  assert (O : zc_ok F97 x) by (intro i; split; intro j; reflexivity). split; [exact O|]. split; [exact E|].
  pose proof (self_spans F97 _ (proj1 hp87_nz)) as S1. pose proof (self_spans F97 _ (proj2 hp87_nz)) as S3. destruct two97 as (T2 & _).
  assert (Ew : sem (intended_layer (2 ^ 1) [z97 3; z97 4] [z97 90; z97 89]) raw86 = sem (intended_layer (2 ^ 1) [z97 3; z97 4] [z97 7; z97 8]) raw86).
  { apply (map_one_to_one (fun y : F97 => zv _ y)); [intros y y' Q; apply zp_eq; exact Q|]. vm_compute. reflexivity. }
  destruct (C98_witnesses F97 S97' ch84 2 (fun j => z97 (Z.of_nat j)) (z97 5) (fun j => z97 (2 + Z.of_nat j)) (fun j => z97 (3 + Z.of_nat j)) 2 2 raw86 (built 2 2 raw86) 1 [z97 3; z97 4] (z97 9) (z97 10) T2 above22 eq_refl ltac:(discriminate) S1 S3
    [z97 7; z97 8] [z97 7; z97 8] x pf out (prov98 _ _) (prov98 _ _) eq_refl eq_refl O E) as (y & Oy & Ey & Uy).
  destruct (C98_witnesses F97 S97' ch84 2 (fun j => z97 (Z.of_nat j)) (z97 5) (fun j => z97 (2 + Z.of_nat j)) (fun j => z97 (3 + Z.of_nat j)) 2 2 raw86 (built 2 2 raw86) 1 [z97 3; z97 4] (z97 9) (z97 10) T2 above22 eq_refl ltac:(discriminate) S1 S3
    [z97 7; z97 8] [z97 90; z97 89] x pf out (prov98 _ _) (prov98 _ _) eq_refl (eq_sym Ew) O E) as (x' & Ox' & Ex' & _).
  destruct (C90_complete F97 S97' ch84 2 _ _ _ _ 2 2 raw86 _ 2 _ _ _ _ _ _ _ _ T2 above22 eq_refl ltac:(discriminate) lr90_3 pf out E eq_refl) as [Eo _]. rewrite Eo in Ey.
  destruct (proj2 (C98_coins F97 S97' ch84 2 (fun j => z97 (Z.of_nat j)) (z97 5) (fun j => z97 (2 + Z.of_nat j)) (fun j => z97 (3 + Z.of_nat j)) 2 2 raw86 (built 2 2 raw86) 1 [z97 3; z97 4] (z97 9) (z97 10) T2 above22 eq_refl ltac:(discriminate) S1 S3
    [z97 7; z97 8] pf (prov98 _ _) eq_refl) (ex_intro _ y (conj Oy (conj Ey Uy)))) as [Sh V'].
  split; [exact Sh|]. split; [exact V'|]. exists x'. split; [exact Ox'|exact Ex'].
Qed.
