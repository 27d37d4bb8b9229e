(** When Marlin's indexer succeeds. *)
From Verif Require Import Zp SpecLC SpecCS SpecMarlin SpecPC ProofsPC ProofsPC2 ProofsMarlinCS ProofsMarlin ProofsMarlin4.
From Verif Require Import ModelPC ModelMarlin ModelCS.
Local Open Scope fld_scope.

Section E.
Variable K : Fld.
Variable PR : Pairing K.
Variables (tau : K) (g gam : G1 PR) (h : G2 PR).
Definition nonconst (p : lpoly K) : bool := Nat.ltb 1 (length (lp_poly K p)).
Lemma commit_all ck sd : good_pw K PR tau g gam (ck_pw K PR ck) 0 (S sd) (S sd) -> forall l : list (lpoly K),
  Forall (fun p => canonical (lp_poly K p) /\ (length (lp_poly K p) <= S sd)%nat /\ lp_db K p = None /\ lp_hb K p = None) l ->
  if forallb nonconst l then exists o, pc_commit K PR ck (no_draw K l) = Ok o else pc_commit K PR ck (no_draw K l) = Err DegreeIsZero.
Proof.
  intros G l F. induction F as [|p l (C & L & Db & Hb) F IH]; [cbn; eauto|]. unfold no_draw in *. cbn [forallb map pc_commit]. unfold commit_one. rewrite Db, Hb. unfold nonconst at 1.
  destruct (Nat.ltb_spec 1 (length (lp_poly K p))) as [N|N]; cbn [andb].
  - destruct (commit_total K PR tau g gam (ck_pw K PR ck) 0 (S sd) (S sd) (lp_poly K p) None [] G C (conj N L) I) as (c & r & ->). cbn [rbind].
    destruct (forallb nonconst l); [destruct IH as ([cs rs] & ->); cbn [rbind]; eauto|rewrite IH; reflexivity].
  - assert (kzg_commit K PR (ck_pw K PR ck) (lp_poly K p) None [] = Err DegreeIsZero) as ->; [|reflexivity].
    destruct (lp_poly K p) as [|c [|c' q]]; [apply (constants_rejected K PR (ck_pw K PR ck) 0 None [] [] 0)|apply (constants_rejected K PR (ck_pw K PR ck) c None [] [] 0)|cbn [length] in N; lia].
Qed.
Lemma interp_canonical d (v : list K) : canonical (interp K d v) /\ (length (interp K d v) <= dsize d)%nat.
Proof. unfold interp, trim. split; [apply ptrim_canonical|]. pose proof (length_ptrim K (idft d v)) as L. rewrite length_idft in L. exact L. Qed.
Lemma compose_polys m dx dh dk db st : compose K m dx dh dk db = Ok st ->
  Forall (fun p => canonical p /\ (length p <= dsize dk)%nat) [st_row K st; st_col K st; st_val K st; st_rc K st].
Proof.
  intro E. unfold compose in E. match type of E with rbind ?m _ = _ => destruct m; try discriminate E end. cbn [rbind] in E. destruct (Nat.ltb _ _); [discriminate E|].
  match type of E with rbind ?m _ = _ => destruct m; try discriminate E end. cbn [rbind] in E. injection E as <-. cbn [st_row st_col st_val st_rc]. repeat constructor; apply interp_canonical.
Qed.
Variable dnew : nat -> option (dom K).
Lemma index_polys_ok checks circ ix : ahp_index K dnew checks circ = Ok ix -> exists dk, dnew (i_nnz (ix_info K ix)) = Some dk /\
  Forall (fun p => canonical (lp_poly K p) /\ (length (lp_poly K p) <= dsize dk)%nat /\ lp_db K p = None /\ lp_hb K p = None) (index_polys K ix).
Proof.
  intro E. unfold ahp_index in E. destruct (circ (cs_new Setup)) as [[u s]| |]; try discriminate E. cbn [rbind] in E. destruct (make_square s) as [[u' s']| |]; try discriminate E. cbn [rbind] in E.
  destruct (process_matrices checks s') as [[[a b] c]| |]; try discriminate E. cbn [rbind] in E. cbv zeta in E.
  unfold dom_or in E. destruct (dnew (length (inps s'))) as [dx|]; try discriminate E. cbn [rbind] in E. destruct (dnew (length (inps s') + length (auxs s'))%nat) as [dh|]; try discriminate E. cbn [rbind] in E.
  destruct (dnew (num_non_zeros a b c)) as [dk|] eqn:Dk; try discriminate E. cbn [rbind] in E. destruct (dnew (3 * dsize dk - 3)%nat) as [db|]; try discriminate E. cbn [rbind] in E.
  destruct (compose K a dx dh dk db) as [sa| |] eqn:Ea; try discriminate E. cbn [rbind] in E. destruct (compose K b dx dh dk db) as [sb| |] eqn:Eb; try discriminate E. cbn [rbind] in E.
  destruct (compose K c dx dh dk db) as [sc| |] eqn:Ec; try discriminate E. cbn [rbind] in E. injection E as <-. cbn [ix_info i_nnz]. exists dk. split; [exact Dk|].
  apply compose_polys in Ea, Eb, Ec. unfold index_polys. cbn [st_a st_b st_c].
  assert (forall n st, Forall (fun p => canonical p /\ (length p <= dsize dk)%nat) [st_row K st; st_col K st; st_val K st; st_rc K st] ->
    Forall (fun p => canonical (lp_poly K p) /\ (length (lp_poly K p) <= dsize dk)%nat /\ lp_db K p = None /\ lp_hb K p = None) (star_polys K n st)) as S.
  { intros n st F. unfold star_polys. do 4 (apply Forall_cons_iff in F; let H := fresh "H" in destruct F as [H F]; apply Forall_cons; [cbn [lp_poly lp_db lp_hb]; tauto|]). constructor. }
  repeat (apply Forall_app; split); apply S; assumption.
Qed.
Theorem index_exact checks n circ ix md : ahp_index K dnew checks circ = Ok ix -> max_degree K dnew (ix_info K ix) = Ok md ->
  if Nat.ltb n md then marlin_index K PR dnew checks (kzg_setup K PR n tau g gam h) circ = Err IndexTooLarge
  else if forallb nonconst (index_polys K ix) then exists keys, marlin_index K PR dnew checks (kzg_setup K PR n tau g gam h) circ = Ok keys
  else marlin_index K PR dnew checks (kzg_setup K PR n tau g gam h) circ = Err DegreeIsZero.
Proof.
  intros Ei Em. destruct (index_polys_ok checks circ ix Ei) as (dk & Dk & F). unfold marlin_index. rewrite Ei. cbn [rbind]. rewrite Em. cbn [rbind].
  replace (length (u_g K PR (kzg_setup K PR n tau g gam h)) - 1)%nat with n by (unfold kzg_setup; cbn [u_g]; rewrite map_length, seq_length; lia).
  destruct (Nat.ltb_spec n md) as [|L]; [reflexivity|]. destruct (trim_total K PR tau g gam h n md L) as (ck & vk & Et). rewrite Et. cbn [rbind].
  destruct (trim_ok K PR tau g gam h n md ck vk Et) as (_ & G & _ & _).
  assert (dsize dk <= S md)%nat as Ld. { unfold max_degree in Em. rewrite Dk in Em. destruct (dnew (Nat.max _ _)) as [dh|]; [|discriminate Em]. injection Em as <-. lia. }
  pose proof (commit_all ck md G (index_polys K ix)) as C. destruct (forallb nonconst (index_polys K ix)).
  - destruct C as ([cs rs] & ->); [|cbn [rbind]; eauto]. eapply Forall_impl; [|exact F]. intros p (A & B & D). split; [exact A|]. split; [lia|exact D].
  - rewrite C; [reflexivity|]. eapply Forall_impl; [|exact F]. intros p (A & B & D). split; [exact A|]. split; [lia|exact D].
Qed.
(** The degree is known whenever the matrices could be arranged. *)
Theorem degree_known checks circ ix : ahp_index K dnew checks circ = Ok ix -> i_nc (ix_info K ix) = i_nv (ix_info K ix) -> exists md, max_degree K dnew (ix_info K ix) = Ok md.
Proof.
  intros E Sq. destruct (index_polys_ok checks circ ix E) as (dk & Dk & _). unfold max_degree. rewrite Dk, Sq, Nat.max_id.
  assert (exists dh, dnew (i_nv (ix_info K ix)) = Some dh) as (dh & ->); [|eauto].
  unfold ahp_index in E. destruct (circ (cs_new Setup)) as [[u s]| |]; try discriminate E. cbn [rbind] in E. destruct (make_square s) as [[u' s']| |]; try discriminate E. cbn [rbind] in E.
  destruct (process_matrices checks s') as [[[a b] c]| |]; try discriminate E. cbn [rbind] in E. cbv zeta in E.
  unfold dom_or in E. destruct (dnew (length (inps s'))) as [dx|]; try discriminate E. cbn [rbind] in E. destruct (dnew (length (inps s') + length (auxs s'))%nat) as [dh|] eqn:Dh; try discriminate E. cbn [rbind] in E.
  repeat match type of E with rbind ?m _ = _ => destruct m; try discriminate E; cbn [rbind] in E end. injection E as <-. cbn [ix_info i_nv]. eauto.
Qed.
End E.

(** The same, without booleans. *)
Theorem index_iff (K : Fld) (PR : Pairing K) tau g gam h dnew checks n circ ix md : ahp_index K dnew checks circ = Ok ix -> max_degree K dnew (ix_info K ix) = Ok md ->
  let r := marlin_index K PR dnew checks (kzg_setup K PR n tau g gam h) circ in
  ((n < md)%nat -> r = Err IndexTooLarge) /\
  ((md <= n)%nat -> ((exists keys, r = Ok keys) <-> Forall (fun p => (2 <= length (lp_poly K p))%nat) (index_polys K ix)) /\
    (Exists (fun p => (length (lp_poly K p) < 2)%nat) (index_polys K ix) -> r = Err DegreeIsZero)).
Proof.
  intros Ei Em r. pose proof (index_exact K PR tau g gam h dnew checks n circ ix md Ei Em) as H. fold r in H. split.
  - intro L. apply Nat.ltb_lt in L. rewrite L in H. exact H.
  - intro L. apply Nat.ltb_ge in L. rewrite L in H. destruct (forallb (nonconst K) (index_polys K ix)) eqn:B.
    + assert (Forall (fun p => (2 <= length (lp_poly K p))%nat) (index_polys K ix)) as F.
      { rewrite forallb_forall in B. apply Forall_forall. intros p I. specialize (B p I). unfold nonconst in B. apply Nat.ltb_lt in B. lia. }
      split; [tauto|]. intro X. exfalso. apply Exists_exists in X. destruct X as (p & I & Lp). rewrite Forall_forall in F. specialize (F p I). lia.
    + split; [|tauto]. split; [intros (keys & E); rewrite E in H; discriminate H|]. intro F. exfalso.
      assert (forallb (nonconst K) (index_polys K ix) = true) as B'; [|congruence].
      apply forallb_forall. intros p I. rewrite Forall_forall in F. specialize (F p I). unfold nonconst. apply Nat.ltb_lt. lia.
Qed.
