(** The equations an accepted evaluation proof of spartan's SNARK satisfies before any sum-check. *)
From Verif Require Import Field Poly Module ModelTranscript ModelMle ModelLibra ModelSigma ModelSpartan ModelSpark ModelSnark SpecSnark2.
From Coq Require Import String List Lia.
Import ListNotations.
Local Open Scope string_scope.
Local Open Scope list_scope.
Local Open Scope fld_scope.
Section S.
Variable K : Fld.
Variable G : Grp K.
Variable ch : oracle K G.
Add Field Ksn9 : (f_laws K).
Lemma claims_ok_balanced x : claims_ok K x = true -> balanced x.
Proof.
  destruct x as [[[i r] w] a]. unfold claims_ok. intro H. apply Bool.andb_true_iff in H. destruct H as [H E]. apply Bool.andb_true_iff in H. destruct H as [H1 H2]. apply PeanoNat.Nat.eqb_eq in H1, H2. apply feqb_eq in E.
  destruct r as [|r0 [|r1 [|r2 [|? ?]]]]; try discriminate. destruct w as [|w0 [|w1 [|w2 [|? ?]]]]; try discriminate. exists i, r0, r1, r2, w0, w1, w2, a. split; [reflexivity|]. cbn in E. 
  transitivity (i * (w0 * (w1 * (w2 * 1)))); [ring|]. rewrite E. ring.
Qed.
Theorem eval_checks p pf c rx ry ea eb ec t b : sparse_poly_eval_verify K G ch p pf c rx ry (ea, eb, ec) t = Ok b ->
  b = true /\ balanced (pl_row K (ep_prod K G pf)) /\ balanced (pl_col K (ep_prod K G pf)) /\
  exists l0 l1 l2 r0 r1 r2, pl_dleft K (ep_prod K G pf) = [l0; l1; l2] /\ pl_dright K (ep_prod K G pf) = [r0; r1; r2] /\ l0 + r0 = ea /\ l1 + r1 = eb /\ l2 + r2 = ec.
Proof.
  unfold sparse_poly_eval_verify. destruct (equalize_length K rx ry) as [rx' ry']. destruct (negb _); [discriminate|]. unfold draw. cbv zeta. intro H.
  match type of H with rbind ?X _ = _ => destruct X as [[[[[[co cd] orr] cm] mr] t']| |] eqn:E; cbn [rbind] in H; try discriminate end.
  split. { destruct (negb _); [discriminate|]. destruct cm as [|? [|? [|? [|? [|? ?]]]]]; try discriminate. match type of H with rmap _ ?X = _ => destruct X; cbn [rmap] in H; try discriminate end. congruence. }
  clear H. unfold product_layer_verify in E. cbv zeta in E. destruct (pl_row K (ep_prod K G pf)) as [[[ri rr] rw] ra] eqn:Er. destruct (pl_col K (ep_prod K G pf)) as [[[ci cr] cw] ca] eqn:Ec.
  match type of E with (if negb ?x then _ else _) = _ => destruct x eqn:L; cbn [negb] in E; [|discriminate] end.
  match type of E with (if negb ?x then _ else _) = _ => destruct x eqn:C1; cbn [negb] in E; [|discriminate] end.
  match type of E with (if negb ?x then _ else _) = _ => destruct x eqn:C2; cbn [negb] in E; [|discriminate] end.
  match type of E with (if negb ?x then _ else _) = _ => destruct x eqn:C3; cbn [negb] in E; [|discriminate] end. clear E.
  split; [apply claims_ok_balanced, C1|]. split; [apply claims_ok_balanced, C2|].
  apply Bool.andb_true_iff in L. destruct L as [L _]. apply Bool.andb_true_iff in L. destruct L as [L1 L2]. apply PeanoNat.Nat.eqb_eq in L1, L2.
  destruct (pl_dleft K (ep_prod K G pf)) as [|l0 [|l1 [|l2 [|? ?]]]]; try discriminate. destruct (pl_dright K (ep_prod K G pf)) as [|r0 [|r1 [|r2 [|? ?]]]]; try discriminate.
  exists l0, l1, l2, r0, r1, r2. split; [reflexivity|]. split; [reflexivity|]. cbn [combine forallb] in C3. apply Bool.andb_true_iff in C3. destruct C3 as [A C3]. apply Bool.andb_true_iff in C3. destruct C3 as [B C3]. apply Bool.andb_true_iff in C3. destruct C3 as [C _]. apply feqb_eq in A, B, C. auto.
Qed.
End S.
