(** A reflective decision step for equations between module elements: compare the coefficients of all atoms. *)
From Verif Require Import Field Module.
Local Open Scope fld_scope.
Section R.
Variable K : Fld.
Variable G : Grp K.
Add Field KfR : (f_laws K).
Inductive gexp := GV (i : nat) | GZ | GA (a b : gexp) | GN (a : gexp) | GS (x : K) (a : gexp).
Fixpoint gden (env : list G) (e : gexp) : G :=
  match e with GV i => nth i env g0 | GZ => g0 | GA a b => gadd (gden env a) (gden env b) | GN a => gopp (gden env a) | GS x a => gsm x (gden env a) end.
Fixpoint gcoef (e : gexp) (j : nat) : K :=
  match e with
  | GV i => if Nat.eqb i j then 1 else 0
  | GZ => 0
  | GA a b => gcoef a j + gcoef b j
  | GN a => - gcoef a j
  | GS x a => x * gcoef a j
  end.
Fixpoint lcomb (env : list G) (f : nat -> K) : G :=
  match env with [] => g0 | g :: r => gadd (gsm (f O) g) (lcomb r (fun i => f (S i))) end.
Lemma lcomb_ext env : forall f g, (forall i, (i < length env)%nat -> f i = g i) -> lcomb env f = lcomb env g.
Proof. induction env as [|a r IH]; intros f g H; [reflexivity|]. cbn. rewrite (H 0%nat) by (cbn; lia). f_equal. apply IH. intros i Hi. apply H. cbn; lia. Qed.
Lemma lcomb_0 env : forall f, (forall i, f i = 0) -> lcomb env f = g0.
Proof. induction env as [|a r IH]; intros f H; [reflexivity|]. cbn. rewrite H, gsm_0, IH by (intro; apply H). apply gadd_0. Qed.
Lemma lcomb_add env : forall f g, lcomb env (fun i => f i + g i) = gadd (lcomb env f) (lcomb env g).
Proof. induction env as [|a r IH]; intros f g; [symmetry; apply gadd_0|]. cbn. rewrite gsm_add_l, (IH (fun i => f (S i))). apply gadd4. Qed.
Lemma lcomb_mul env x : forall f, lcomb env (fun i => x * f i) = gsm x (lcomb env f).
Proof. induction env as [|a r IH]; intros f; [symmetry; apply gsm_g0|]. cbn. rewrite gsm_mul, (IH (fun i => f (S i))), gsm_add_r. reflexivity. Qed.
Lemma lcomb_var env : forall j, lcomb env (fun i => if Nat.eqb j i then 1 else 0) = nth j env g0.
Proof.
  induction env as [|a r IH]; intros [|j]; try reflexivity.
  - cbn. rewrite gsm_1, lcomb_0 by reflexivity. apply gadd_0r.
  - cbn. rewrite gsm_0, gadd_0. apply IH.
Qed.
Lemma gden_lcomb env e : gden env e = lcomb env (gcoef e).
Proof.
  induction e as [i| |a IHa b IHb|a IHa|x a IHa]; cbn.
  - symmetry. apply lcomb_var.
  - symmetry. apply lcomb_0. reflexivity.
  - rewrite IHa, IHb. symmetry. apply lcomb_add.
  - rewrite IHa, gopp_sm, <- lcomb_mul. apply lcomb_ext. intros; ring.
  - rewrite IHa. symmetry. apply lcomb_mul.
Qed.
Fixpoint alln (n : nat) (P : nat -> Prop) : Prop := match n with O => True | S m => P O /\ alln m (fun i => P (S i)) end.
Lemma alln_ok n : forall P, alln n P -> forall i, (i < n)%nat -> P i.
Proof. induction n; intros P H i Hi; [lia|]. destruct H as [H0 H]. destruct i; [exact H0|]. apply (IHn (fun i => P (S i)) H). lia. Qed.
Lemma gsolve env e1 e2 : alln (length env) (fun i => gcoef e1 i = gcoef e2 i) -> gden env e1 = gden env e2.
Proof. intro H. rewrite !gden_lcomb. apply lcomb_ext. exact (alln_ok _ _ H). Qed.
End R.
Arguments GV {K}. Arguments GZ {K}. Arguments GA {K}. Arguments GN {K}. Arguments GS {K}.

Ltac g_in a l := match l with nil => constr:(false) | cons a _ => constr:(true) | cons _ ?r => g_in a r end.
Ltac g_atoms l e :=
  match e with
  | gadd ?a ?b => let l1 := g_atoms l a in g_atoms l1 b
  | gopp ?a => g_atoms l a
  | gsm _ ?a => g_atoms l a
  | g0 => l
  | ?a => match g_in a l with true => l | false => constr:(cons a l) end
  end.
Ltac g_idx a l := match l with cons a _ => constr:(O) | cons _ ?r => let n := g_idx a r in constr:(S n) end.
Ltac g_reify K l e :=
  match e with
  | gadd ?a ?b => let x := g_reify K l a in let y := g_reify K l b in constr:(@GA K x y)
  | gopp ?a => let x := g_reify K l a in constr:(@GN K x)
  | gsm ?c ?a => let x := g_reify K l a in constr:(@GS K c x)
  | g0 => constr:(@GZ K)
  | ?a => let i := g_idx a l in constr:(@GV K i)
  end.
(** Turn an equation of group elements into one field equation per atom. *)
Ltac gmod :=
  match goal with
  | |- @eq (@gcar ?K ?G) ?a ?b =>
      let l0 := constr:(@nil (@gcar K G)) in
      let l1 := g_atoms l0 a in let l := g_atoms l1 b in
      let x := g_reify K l a in let y := g_reify K l b in
      change (@gden K G l x = @gden K G l y); apply gsolve; cbn [alln length gcoef Nat.eqb]; repeat split
  end.
