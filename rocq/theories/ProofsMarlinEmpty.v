(** Marlin's indexer on circuits whose constraints all have an empty right-hand side. *)
From Verif Require Import Zp SpecLC SpecCS SpecMarlin ProofsMarlinCS ProofsMarlin4 ProofsPC2 ModelBoolean.
From Verif Require Import ModelPC ModelMarlin ModelCS.
Local Open Scope fld_scope.

Section E.
Variable K : Fld.
Add Field Kf : (f_laws K).
Lemma entries_empty hx hh (hs diag : list K) : forall m i, Forall (fun r => r = []) m -> entries K hx hh hs diag i m = Ok [].
Proof. induction m as [|r m IH]; intros i F; cbn [entries]; [reflexivity|]. inversion F as [|? ? -> F']. subst. cbn [entries_row rbind]. rewrite IH by exact F'. reflexivity. Qed.
Lemma sort_empty ni (l : list (constraint K)) : Forall (fun c => cc c = []) l -> Forall (fun r => r = []) (sort_columns (reindex ni (map cc l))).
Proof. intro F. unfold sort_columns, reindex. rewrite !map_map. apply Forall_map. eapply Forall_impl; [|exact F]. intros c E. cbv beta in *. rewrite E. reflexivity. Qed.
Lemma sumn_0 n (f : nat -> K) : (forall i, f i = 0) -> sumn n f = 0.
Proof. intro H. induction n as [|n IH]; cbn [sumn]; [reflexivity|]. rewrite IH, H. ring. Qed.
Lemma ptrim_0 (l : list K) : Forall (fun c => c = 0) l -> ptrim K l = [].
Proof. induction 1 as [|c l E F IH]; [reflexivity|]. cbn [ptrim fold_right]. fold (ptrim K l). rewrite IH. rewrite E, feqb_refl. reflexivity. Qed.
Lemma interp_0 d n : interp K d (repeat 0 n) = [].
Proof.
  unfold interp, trim, idft. apply ptrim_0. apply Forall_forall. intros x Hx. apply in_map_iff in Hx. destruct Hx as (j & <- & _).
  rewrite sumn_0; [ring|]. intro i. rewrite nth_repeat. ring.
Qed.
Lemma map_rep A B (f : A -> B) a n : map f (repeat a n) = repeat (f a) n.
Proof. induction n as [|n IH]; [reflexivity|]. cbn [repeat map]. rewrite IH. reflexivity. Qed.
Lemma compose_empty m dx dh dk db st : Forall (fun r => r = []) m -> compose K m dx dh dk db = Ok st -> st_val K st = [].
Proof.
  intros F E. unfold compose in E. rewrite entries_empty in E by exact F. cbn [rbind length app] in E. destruct (Nat.ltb (dsize dk) 0); [discriminate|].
  match type of E with rbind ?m _ = _ => destruct m as [h0| |]; try discriminate E end. cbn [rbind] in E. injection E as <-. cbn [st_val].
  rewrite map_rep. cbn [snd]. apply interp_0.
Qed.
(** Circuits of bits. *)
Lemma bits_empty (bs : list (option bool)) : forall (s : cs K) r s', mapM bit_alloc bs s = Ok (r, s') -> Forall (fun c => cc c = []) (cons s) -> Forall (fun c => cc c = []) (cons s').
Proof.
  induction bs as [|b bs IH]; intros s r s' E F; cbn [mapM] in E.
  - unfold ret in E. injection E as _ <-. exact F.
  - unfold bind at 1 in E. destruct (bit_alloc b s) as [[v s1]| |] eqn:E1; try discriminate E. unfold bind at 1 in E. destruct (mapM bit_alloc bs s1) as [[vs s2]| |] eqn:E2; try discriminate E.
    unfold ret in E. injection E as _ <-. apply (IH _ _ _ E2). unfold bit_alloc, bind in E1. destruct (alloc _ s) as [[w t]| |] eqn:E3; try discriminate E1.
    unfold enforce, ret in E1. injection E1 as _ <-. cbn [ModelCS.cons]. apply Forall_app. split; [|constructor; [reflexivity|constructor]].
    unfold alloc in E3. destruct (md s); [|destruct (bit_witness b)]; inversion E3; subst; exact F.
Qed.
Definition bits_circuit (bs : list (option bool)) : M K unit := mapM bit_alloc bs ;;; ret tt.
Lemma bits_setup (bs : list (option bool)) : exists s, bits_circuit bs (cs_new Setup) = Ok (tt, s) /\ Forall (fun c => cc c = []) (cons s).
Proof.
  assert (forall (s : cs K), md s = Setup -> exists r s', mapM bit_alloc bs s = Ok (r, s')) as T.
  { induction bs as [|b bs IH]; intros s M; cbn [mapM]; [unfold ret; eauto|].
    assert (exists v t, bit_alloc b s = Ok (v, t) /\ md t = Setup) as (v & t & E1 & M1) by (unfold bit_alloc, bind, alloc, enforce, ret; rewrite M; eauto).
    destruct (IH t M1) as (r & s' & E). unfold bind. rewrite E1, E. unfold ret. eauto. }
  destruct (T (cs_new Setup) eq_refl) as (r & s & E). exists s. split; [unfold bits_circuit, bind; rewrite E; reflexivity|]. eapply bits_empty; [exact E|constructor].
Qed.
Section P.
Variable PR : Pairing K.
Lemma commit_member ck (l : list (lpoly K * (list K * list K))) p d : In (p, d) l -> lp_poly K p = [] -> forall o, pc_commit K PR ck l <> Ok o.
Proof.
  induction l as [|[q [d1 d2]] l IH]; intros H E o; [contradiction|]. cbn [pc_commit]. destruct H as [H|H].
  - injection H as <- <-. unfold commit_one. rewrite E. destruct (constants_rejected K PR (ck_pw K PR ck) 0 (lp_hb K q) d1 [] 0) as (_ & -> & _). discriminate.
  - destruct (commit_one K PR ck q d1 d2) as [[c r]| |]; try discriminate. cbn [rbind]. destruct (pc_commit K PR ck l) as [[cs rs]| |] eqn:C; try discriminate. exfalso. exact (IH H E _ eq_refl).
Qed.
Theorem index_refuses dnew checks srs circ u (s : cs K) : circ (cs_new Setup) = Ok (u, s) -> Forall (fun c => cc c = []) (cons s) ->
  forall keys, marlin_index K PR dnew checks srs circ <> Ok keys.
Proof.
  intros Ec F keys E. unfold marlin_index in E. destruct (ahp_index K dnew checks circ) as [ix| |] eqn:Eix; try discriminate E. cbn [rbind] in E.
  assert (st_val K (st_c K ix) = []) as V.
  { unfold ahp_index in Eix. rewrite Ec in Eix. cbn [rbind] in Eix. destruct (make_square_ok K s) as (s' & Eq & _ & _ & _ & Cs & _). rewrite Eq in Eix. cbn [rbind] in Eix.
    unfold process_matrices in Eix. destruct (balance _ _ _) as [[a b]| |]; try discriminate Eix. cbn [rbind] in Eix.
    repeat match type of Eix with rbind ?m _ = _ => let Q := fresh "Q" in destruct m eqn:Q; try discriminate Eix; cbn [rbind] in Eix end.
    injection Eix as <-. cbn [st_c]. eapply compose_empty; [|eassumption]. apply sort_empty. rewrite Cs. apply Forall_app. split; [exact F|].
    apply Forall_forall. intros c Hc. apply repeat_spec in Hc. subst. reflexivity. }
  destruct (max_degree K dnew (ix_info K ix)) as [md| |]; try discriminate E. cbn [rbind] in E. destruct (Nat.ltb _ md); [discriminate E|].
  destruct (kzg_trim K PR srs md) as [[ck vk]| |]; try discriminate E. cbn [rbind] in E.
  destruct (pc_commit K PR ck (no_draw K (index_polys K ix))) as [o| |] eqn:C; try discriminate E.
  refine (commit_member ck _ (mkLP K "c_val" (st_val K (st_c K ix)) None None) ([], []) _ V o C).
  unfold no_draw. apply in_map_iff. eexists. split; [reflexivity|]. unfold index_polys. apply in_or_app. right. apply in_or_app. right. unfold star_polys. cbn [In]. tauto.
Qed.
Theorem bits_refused dnew checks srs bs keys : marlin_index K PR dnew checks srs (bits_circuit bs) <> Ok keys.
Proof. destruct (bits_setup bs) as (s & E & F). exact (index_refuses dnew checks srs _ tt s E F keys). Qed.
End P.
End E.
