(** Groups as modules over the scalar field, pairings as bilinear maps: the interface of
    ark_ec's AffineCurve/ProjectiveCurve/PairingEngine (and curve25519-dalek) the code relies on. *)
From Verif Require Import Field.
Local Open Scope fld_scope.

Record Grp (K : Fld) := mkGrp {
  gcar :> Type;
  g0 : gcar;
  gadd : gcar -> gcar -> gcar;
  gopp : gcar -> gcar;
  gsm : K -> gcar -> gcar;
  geqb : gcar -> gcar -> bool;
  gadd_assoc : forall a b c, gadd a (gadd b c) = gadd (gadd a b) c;
  gadd_comm : forall a b, gadd a b = gadd b a;
  gadd_0 : forall a, gadd g0 a = a;
  gadd_opp : forall a, gadd a (gopp a) = g0;
  gsm_add_l : forall x y a, gsm (x + y) a = gadd (gsm x a) (gsm y a);
  gsm_add_r : forall x a b, gsm x (gadd a b) = gadd (gsm x a) (gsm x b);
  gsm_mul : forall x y a, gsm (x * y) a = gsm x (gsm y a);
  gsm_1 : forall a, gsm 1 a = a;
  geqb_spec : forall a b, reflect (a = b) (geqb a b)
}.
Arguments g0 {K _}. Arguments gadd {K _}. Arguments gopp {K _}. Arguments gsm {K _}. Arguments geqb {K _}.
Declare Scope grp_scope.
Delimit Scope grp_scope with grp.
Infix "+" := gadd : grp_scope.
Notation "- x" := (gopp x) : grp_scope.
Notation "a - b" := (gadd a (gopp b)) : grp_scope.
Infix "*:" := gsm (at level 38, right associativity) : grp_scope.

(** Sum of scalar multiples over the zipped prefix: VariableBaseMSM::multi_scalar_mul (ark_ec) zips. *)
Fixpoint msm {K : Fld} {G : Grp K} (gs : list G) (ks : list K) : G :=
  match gs, ks with g :: gs', k :: ks' => gadd (gsm k g) (msm gs' ks') | _, _ => g0 end.

Record Pairing (K : Fld) := mkPairing {
  G1 : Grp K; G2 : Grp K; GT : Grp K;
  pair_e : G1 -> G2 -> GT;
  pair_add_l : forall a b c, pair_e (gadd a b) c = gadd (pair_e a c) (pair_e b c);
  pair_add_r : forall a b c, pair_e a (gadd b c) = gadd (pair_e a b) (pair_e a c);
  pair_sm_l : forall x a b, pair_e (gsm x a) b = gsm x (pair_e a b);
  pair_sm_r : forall x a b, pair_e a (gsm x b) = gsm x (pair_e a b)
}.
Arguments G1 {K}. Arguments G2 {K}. Arguments GT {K}. Arguments pair_e {K _}.

Section G.
Variable K : Fld.
Add Field KfG : (f_laws K).
Section One.
Variable G : Grp K.
Local Open Scope grp_scope.
Implicit Types a b c : G.
Lemma gadd_0r a : a + g0 = a. Proof. rewrite gadd_comm. apply gadd_0. Qed.
Lemma gadd_cancel a b c : a + b = a + c -> b = c.
Proof.
  intro H. rewrite <- (gadd_0 _ _ b), <- (gadd_0 _ _ c), <- (gadd_opp _ _ a). rewrite (gadd_comm _ _ a (- a)), <- !gadd_assoc, H. reflexivity.
Qed.
Lemma gsm_0 a : gsm 0%fld a = g0.
Proof.
  apply (gadd_cancel (gsm 0%fld a)). rewrite gadd_0r, <- gsm_add_l. f_equal. ring.
Qed.
Lemma gsm_g0 x : gsm x (g0 : G) = g0.
Proof. rewrite <- (gsm_0 g0), <- gsm_mul. f_equal. ring. Qed.
Lemma gopp_unique a b : a + b = g0 -> b = - a.
Proof. intro H. apply (gadd_cancel a). rewrite H, gadd_opp. reflexivity. Qed.
Lemma gopp_sm a : - a = gsm (- (1))%fld a.
Proof.
  symmetry. apply gopp_unique. rewrite <- (gsm_1 _ _ a) at 1. rewrite <- gsm_add_l. rewrite <- (gsm_0 a). f_equal. ring.
Qed.
Lemma gsm_opp x a : gsm (- x)%fld a = - gsm x a.
Proof. rewrite gopp_sm, <- gsm_mul. f_equal. ring. Qed.
Lemma gsm_sub x y a : gsm (x - y)%fld a = gsm x a - gsm y a.
Proof. rewrite <- gsm_opp, <- gsm_add_l. f_equal. ring. Qed.
Lemma gsub_0 a b : a - b = g0 <-> a = b.
Proof.
  split; intro H; [|subst; apply gadd_opp]. apply (gadd_cancel (- b)). rewrite (gadd_comm _ _ _ a), H, gadd_comm, gadd_opp. reflexivity.
Qed.
Lemma geqb_eq a b : geqb a b = true <-> a = b.
Proof. destruct (geqb_spec _ G a b); split; congruence. Qed.
Lemma geqb_neq a b : geqb a b = false <-> a <> b.
Proof. destruct (geqb_spec _ G a b); split; congruence. Qed.
Lemma geqb_refl a : geqb a a = true.
Proof. apply geqb_eq. reflexivity. Qed.
Lemma gadd_swap a b c : a + (b + c) = b + (a + c).
Proof. rewrite !gadd_assoc, (gadd_comm _ _ a b). reflexivity. Qed.
Lemma gadd4 (a b c d : G) : (a + b) + (c + d) = (a + c) + (b + d).
Proof. rewrite <- !gadd_assoc. f_equal. apply gadd_swap. Qed.
Lemma gopp_add a b : - (a + b) = - a + - b.
Proof. rewrite !gopp_sm. apply gsm_add_r. Qed.
Lemma gopp_opp a : - - a = a.
Proof. rewrite !gopp_sm, <- gsm_mul. rewrite <- (gsm_1 _ _ a) at 2. f_equal. ring. Qed.
Lemma gopp_0 : - (g0 : G) = g0.
Proof. rewrite gopp_sm. apply gsm_g0. Qed.
(** Multi-scalar multiplication with all bases multiples of one element. *)
Lemma msm_base (g : G) xs : forall ks, msm (map (fun x => gsm x g) xs) ks = gsm (dot xs ks) g.
Proof.
  induction xs as [|x xs IH]; intros [|k ks]; cbn [map msm dot]; try (symmetry; apply gsm_0).
  rewrite IH, <- gsm_mul, <- gsm_add_l. f_equal. ring.
Qed.
Lemma msm_nil_r gs : msm gs ([] : list K) = (g0 : G). Proof. destruct gs; reflexivity. Qed.
Lemma msm_app (gs hs : list G) ks ls : length gs = length ks -> msm (gs ++ hs) (ks ++ ls) = msm gs ks + msm hs ls.
Proof.
  revert ks. induction gs as [|g gs IH]; intros [|k ks] L; try discriminate; cbn [app msm]; [rewrite gadd_0; reflexivity|].
  rewrite IH by (injection L as L; exact L). apply gadd_assoc.
Qed.
Lemma msm_scale (gs : list G) x ks : msm gs (map (fmul x) ks) = gsm x (msm gs ks).
Proof.
  revert ks. induction gs as [|g gs IH]; intros [|k ks]; cbn [map msm]; try (symmetry; apply gsm_g0).
  rewrite IH, gsm_add_r, gsm_mul. reflexivity.
Qed.
End One.
End G.

(** The field as a module over itself: a group with known discrete logarithms, for concrete cases. *)
Section Self.
Variable K : Fld.
Add Field KfGS : (f_laws K).
Definition self_grp : Grp K.
Proof.
  refine (mkGrp K K 0 fadd fopp fmul feqb _ _ _ _ _ _ _ _ (feqb_spec K)); intros; ring.
Defined.
Definition self_pairing : Pairing K.
Proof.
  refine (mkPairing K self_grp self_grp self_grp fmul _ _ _ _); intros; cbn; ring.
Defined.
End Self.
