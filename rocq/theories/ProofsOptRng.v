(** Proofs about the optional generator. *)
From Verif Require Import Field Poly Module ModelPC ModelOptRng.
Local Open Scope fld_scope.

Theorem draw_some {S A} (f : S -> A * S) s : rng_draw f (rng_from s) = Ok (fst (f s), Some (snd (f s))).
Proof. unfold rng_draw, rng_from. destruct (f s); reflexivity. Qed.
Theorem draw_none {S A} (f : S -> A * S) : rng_draw f None = Panic.
Proof. reflexivity. Qed.
Theorem try_never_panics {S A X} (f : S -> (X + A) * S) r : (fst (rng_try f r) = inl CustomStart <-> r = None) /\
  forall s, r = Some s -> rng_try f r = (match fst (f s) with inl e => inl (Inner e) | inr a => inr a end, Some (snd (f s))).
Proof.
  split.
  - destruct r as [s|]; cbn [rng_try]; [|split; reflexivity]. destruct (f s) as [[e|a] s']; cbn [fst]; split; discriminate.
  - intros s ->. cbn [rng_try]. destruct (f s); reflexivity.
Qed.

Section C.
Variable K : Fld.
Variable PR : Pairing K.
Notation nohb := (fun x : lpoly K * (list K * list K) => lp_hb K (fst x) = None).

(** With a generator: the commitments of ModelPC. *)
Theorem commit_on ck polys : pc_commit_rng K PR true ck polys = pc_commit K PR ck polys.
Proof.
  induction polys as [|[p [d1 d2]] l IH]; [reflexivity|]. cbn [pc_commit_rng pc_commit]. rewrite IH. reflexivity.
Qed.
(** Without one: never MissingRng; success exactly when nothing hides. *)
Lemma kzg_off_some pw p hb d o : kzg_commit_rng K PR pw p (Some hb) (wrap K false d) <> Ok o.
Proof.
  unfold kzg_commit_rng, wrap, rand_poly, rng_draw. destruct (degree K p) as [n| |]; try discriminate. cbn [rbind]. destruct (check_degree n _) as [[]| |]; try discriminate. cbn [rbind].
  destruct (msm_from _ _ _ _) as [c| |]; try discriminate. cbn [rbind]. destruct (check_hiding _ _) as [[]| |]; discriminate.
Qed.
Lemma not_missing {A B} (m : res A) (f : A -> res B) : m <> Err MissingRng -> (forall a, f a <> Err MissingRng) -> rbind m f <> Err MissingRng.
Proof. intros H1 H2. destruct m; cbn [rbind]; [apply H2|intro E; injection E as ->; apply H1; reflexivity|discriminate]. Qed.
Lemma skip_not p : forall n, skip_zeros K p n <> Err MissingRng.
Proof. induction p as [|c p IH]; intro n; cbn [skip_zeros]; [discriminate|]. destruct (feqb c 0); [apply IH|discriminate]. Qed.
Lemma kzg_wrap_not on pw p hb d : kzg_commit_rng K PR pw p hb (wrap K on d) <> Err MissingRng.
Proof.
  unfold kzg_commit_rng. apply not_missing; [unfold degree; destruct (forallb _ _); [discriminate|destruct (feqb _ _); discriminate]|]. intro n.
  apply not_missing; [unfold check_degree; destruct (Nat.ltb _ _); [discriminate|destruct (Nat.ltb _ _); discriminate]|]. intros [].
  apply not_missing; [unfold msm_from; apply not_missing; [apply skip_not|intros [q cs]; destruct (Nat.ltb _ _); discriminate]|]. intro c. destruct hb as [hb|]; [|discriminate]. unfold wrap.
  apply not_missing; [unfold check_hiding; destruct (Nat.eqb _ _); [discriminate|destruct (Nat.ltb _ _); discriminate]|]. intros []. unfold rand_poly, rng_draw, rng_from. destruct on; discriminate.
Qed.
Theorem commit_never_missing on ck polys : pc_commit_rng K PR on ck polys <> Err MissingRng.
Proof.
  induction polys as [|[p [d1 d2]] l IH]; cbn [pc_commit_rng]; [discriminate|]. apply not_missing.
  - unfold commit_one_rng. apply not_missing; [apply kzg_wrap_not|]. intros [c r]. destruct (lp_db K p) as [b|]; [|discriminate]. destruct (shifted_powers _ _ _ _) as [spw|]; [|discriminate].
    apply not_missing; [apply kzg_wrap_not|]. intros [sc sr]. discriminate.
  - intros [c r]. apply not_missing; [exact IH|]. intros [cs rs]. discriminate.
Qed.
Lemma one_off ck p d1 d2 e1 e2 : lp_hb K p = None -> commit_one_rng K PR false ck p d1 d2 = commit_one K PR ck p e1 e2.
Proof. intro H. unfold commit_one_rng, commit_one. rewrite H. reflexivity. Qed.
Theorem commit_off_plain ck polys : Forall nohb polys -> forall draws, pc_commit_rng K PR false ck polys = pc_commit K PR ck (map (fun x => (fst x, draws (fst x))) polys).
Proof.
  intros F draws. induction F as [|[p [d1 d2]] l H F IH]; [reflexivity|]. cbn [map fst pc_commit_rng pc_commit]. destruct (draws p) as [e1 e2]. cbn [fst] in H. rewrite (one_off ck p d1 d2 e1 e2 H), IH. reflexivity.
Qed.
Theorem commit_off_ok ck polys o : pc_commit_rng K PR false ck polys = Ok o -> Forall nohb polys.
Proof.
  revert o. induction polys as [|[p [d1 d2]] l IH]; intros o E; [constructor|]. cbn [pc_commit_rng] in E.
  destruct (commit_one_rng K PR false ck p d1 d2) as [[c r]| |] eqn:E1; try discriminate E. cbn [rbind] in E. destruct (pc_commit_rng K PR false ck l) as [[cs rs]| |] eqn:E2; try discriminate E.
  constructor; [|apply (IH _ eq_refl)]. cbn [fst]. destruct (lp_hb K p) as [hb|] eqn:Eh; [|reflexivity]. exfalso. unfold commit_one_rng in E1. rewrite Eh in E1.
  destruct (kzg_commit_rng _ _ _ _ _ _) as [o'| |] eqn:E3; try discriminate E1. exact (kzg_off_some _ _ _ _ _ E3).
Qed.
(** The first hiding polynomial that could be committed to panics. *)
Theorem commit_off_panics ck pre p d post o d' o' : Forall nohb pre -> pc_commit_rng K PR false ck pre = Ok o -> lp_hb K p <> None -> kzg_commit K PR (ck_pw K PR ck) (lp_poly K p) (lp_hb K p) d' = Ok o' ->
  pc_commit_rng K PR false ck (pre ++ (p, d) :: post) = Panic.
Proof.
  intros F. revert o. induction F as [|[q [d1 d2]] l H F IH]; intros o E Hp Ek; cbn [app pc_commit_rng].
  - destruct d as [d1 d2]. unfold commit_one_rng. destruct (lp_hb K p) as [hb|]; [|contradiction]. clear Hp E.
    assert (kzg_commit_rng K PR (ck_pw K PR ck) (lp_poly K p) (Some hb) (wrap K false d1) = Panic) as ->; [|reflexivity].
    unfold kzg_commit in Ek. unfold kzg_commit_rng. destruct (degree _ _) as [n| |]; try discriminate Ek. cbn [rbind] in *. destruct (check_degree _ _) as [[]| |]; try discriminate Ek. cbn [rbind] in *.
    destruct (msm_from _ _ _ _) as [c| |]; try discriminate Ek. cbn [rbind] in *. unfold wrap. destruct (check_hiding _ _) as [[]| |]; try discriminate Ek. reflexivity.
  - cbn [pc_commit_rng] in E. destruct (commit_one_rng _ _ _ _ _ _ _) as [[c r]| |]; try discriminate E. cbn [rbind] in *. destruct (pc_commit_rng K PR false ck l) as [[cs rs]| |] eqn:E2; try discriminate E.
    rewrite (IH _ eq_refl Hp Ek). reflexivity.
Qed.
(** Below the wrapper the error does exist. *)
Theorem kzg_missing pw p hb d' o : kzg_commit K PR pw p (Some hb) d' = Ok o -> kzg_commit_rng K PR pw p (Some hb) None = Err MissingRng.
Proof.
  intro Ek. unfold kzg_commit in Ek. unfold kzg_commit_rng. destruct (degree _ _) as [n| |]; try discriminate Ek. cbn [rbind] in *. destruct (check_degree _ _) as [[]| |]; try discriminate Ek. cbn [rbind] in *.
  destruct (msm_from _ _ _ _) as [c| |]; try discriminate Ek. reflexivity.
Qed.
End C.
