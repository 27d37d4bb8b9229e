(** Soundness of sum-check runs. *)
From Verif Require Import Field Poly SpecMle ProofsMle ModelLibra ModelHyrax SpecHyrax2 SpecSumcheck.
From Coq Require Import List Lia Bool.
Import ListNotations.
Local Open Scope fld_scope.
Section S.
Variable K : Fld.
Add Field Kf : (f_laws K).
Lemma pf_const d (c : K) : poly_fun d (fun _ => c).
Proof. exists [c]. split; [cbn; lia|]. intro x. cbn [peval]. ring. Qed.
Lemma pf_add d (f g : K -> K) : poly_fun d f -> poly_fun d g -> poly_fun d (fun x => f x + g x).
Proof. intros (p & Lp & Hp) (q & Lq & Hq). exists (padd p q). split; [rewrite length_padd; lia|]. intro x. rewrite peval_padd, Hp, Hq. reflexivity. Qed.
Lemma pf_sub d (f g : K -> K) : poly_fun d f -> poly_fun d g -> poly_fun d (fun x => f x - g x).
Proof. intros (p & Lp & Hp) (q & Lq & Hq). exists (padd p (pscale (- (1)) q)). split; [rewrite length_padd; unfold pscale; rewrite map_length; lia|]. intro x. rewrite peval_padd, peval_pscale, Hp, Hq. ring. Qed.
Lemma pf_mul d e (f g : K -> K) : poly_fun d f -> poly_fun e g -> poly_fun (d + e) (fun x => f x * g x).
Proof.
  intros (p & Lp & Hp) (q & Lq & Hq). destruct q as [|b q].
  - exists []. split; [cbn; lia|]. intro x. rewrite Hp, Hq. cbn [peval]. ring.
  - exists (pmul p (b :: q)). split; [|intro x; rewrite peval_pmul, Hp, Hq; reflexivity]. pose proof (length_pmul1 K p (b :: q) ltac:(cbn; lia)). lia.
Qed.
Lemma pf_le d e (f : K -> K) : (d <= e)%nat -> poly_fun d f -> poly_fun e f.
Proof. intros H (p & Lp & Hp). exists p. split; [lia|exact Hp]. Qed.
Lemma pf_ext d (f g : K -> K) : (forall x, f x = g x) -> poly_fun d g -> poly_fun d f.
Proof. intros H (p & Lp & Hp). exists p. split; [exact Lp|]. intro x. rewrite H. apply Hp. Qed.
Lemma pf_sum {A} d (f : A -> K -> K) l : (forall a, In a l -> poly_fun d (f a)) -> poly_fun d (fun x => fsum (map (fun a => f a x) l)).
Proof.
  induction l as [|a l IH]; intro H; [apply (pf_const d 0)|]. cbn [map fsum]. apply pf_add; [apply H; left; reflexivity|]. apply IH. intros b Hb. apply H. right. exact Hb.
Qed.
Lemma pf_affine (f : K -> K) : (forall x, f x = (1 - x) * f 0 + x * f 1) -> poly_fun 1 f.
Proof. intro H. exists [f 0; f 1 - f 0]. split; [cbn; lia|]. intro x. rewrite H. cbn [peval]. ring. Qed.
Lemma csum_split n (F : list K -> K) pre : csum (S n) F pre = csum n F (pre ++ [0]) + csum n F (pre ++ [1]).
Proof.
  unfold csum. cbn [cube]. rewrite map_app, fsum_app, !map_map. f_equal; f_equal; apply map_ext; intro bs; cbn [map bit]; rewrite <- app_assoc; reflexivity.
Qed.
Lemma csum_poly d n (F : list K -> K) pre m : low_degree d m F -> (length pre + S n = m)%nat -> poly_fun d (fun x => csum n F (pre ++ [x])).
Proof.
  intros H L. unfold csum. apply (pf_sum d (fun bs x => F ((pre ++ [x]) ++ map bit bs))). intros bs Hb. apply cube_in in Hb. apply (pf_ext d _ (fun x => F (pre ++ x :: map bit bs))); [intro x; rewrite <- app_assoc; reflexivity|]. apply H. rewrite map_length. lia.
Qed.
Lemma gaps_sound_pre d N (F : list K -> K) : low_degree d N F -> forall ps rs pre a, (length pre + length ps = N)%nat -> length ps = length rs -> Forall (fun p => length p <= d + 1)%nat ps ->
  Forall (fun x => x = 0) (gaps a ps rs (F (pre ++ rs))) -> a <> csum (length ps) F pre ->
  exists j q, (j < length ps)%nat /\ (length q <= d + 1)%nat /\ (forall x, peval q x = peval (nth j ps []) x - csum (length ps - j - 1) F (pre ++ firstn j rs ++ [x])) /\
    (exists x, peval q x <> 0) /\ peval q (nth j rs 0) = 0.
Proof.
  intro HF. induction ps as [|p ps IH]; intros rs pre a L E W Z N1.
  - destruct rs; [|discriminate]. cbn [gaps] in Z. inversion Z as [|? ? Z1 _]; subst. exfalso. apply N1. unfold csum. cbn [length cube map fsum]. rewrite !app_nil_r in *. transitivity (F pre - (F pre - a)); [ring|]. rewrite Z1. ring.
  - destruct rs as [|r rs]; [discriminate|]. injection E as E. cbn [gaps length] in *. inversion Z as [|? ? Z1 Z2]; subst. inversion W as [|? ? W1 W2]; subst.
    destruct (feqb_spec K (peval p r) (csum (length ps) F (pre ++ [r]))) as [Q|Q].
    + assert (PF : poly_fun d (fun x => peval p x - csum (length ps) F (pre ++ [x]))) by (apply pf_sub; [exists p; split; [exact W1|reflexivity]|apply (csum_poly d _ F pre (length pre + S (length ps))); [exact HF|reflexivity]]).
      destruct PF as (q & Lq & Hq). exists 0%nat, q. split; [lia|]. split; [exact Lq|]. split; [intro x; rewrite <- Hq; cbn [firstn app nth]; replace (S (length ps) - 0 - 1)%nat with (length ps) by lia; reflexivity|].
      split; [|cbn [nth]; rewrite <- Hq, Q; ring].
      destruct (feqb_spec K (peval q 0) 0) as [q0|q0]; [|exists 0; exact q0]. destruct (feqb_spec K (peval q 1) 0) as [q1|q1]; [|exists 1; exact q1]. exfalso. apply N1. rewrite csum_split. rewrite <- Hq in q0, q1.
      transitivity (peval p 0 + peval p 1 - (peval p 0 + peval p 1 - a)); [ring|]. rewrite Z1. transitivity ((peval p 0 - csum (length ps) F (pre ++ [0])) + (peval p 1 - csum (length ps) F (pre ++ [1])) + (csum (length ps) F (pre ++ [0]) + csum (length ps) F (pre ++ [1]))); [ring|]. rewrite q0, q1. ring.
    + destruct (IH rs (pre ++ [r]) (peval p r)) as (j & q & Lj & Lq & Hq & Nz & R); [rewrite app_length; cbn [length]; lia|exact E|exact W2|rewrite <- app_assoc; exact Z2|exact Q|].
      exists (S j), q. split; [lia|]. split; [exact Lq|]. split; [|split; [exact Nz|exact R]]. intro x. rewrite Hq. cbn [nth firstn]. rewrite <- app_assoc. reflexivity.
Qed.
Lemma gaps_sound d (F : list K -> K) ps rs a : low_degree d (length rs) F -> length ps = length rs -> Forall (fun p => length p <= d + 1)%nat ps ->
  Forall (fun x => x = 0) (gaps a ps rs (F rs)) -> a <> csum (length rs) F [] -> bad_challenge d (length rs) F ps rs.
Proof.
  intros HF L W Z N. pose proof (gaps_sound_pre d (length rs) F HF ps rs [] a ltac:(cbn; exact L) L W Z ltac:(rewrite L; exact N)) as Q. rewrite L in Q. exact Q.
Qed.
(** A vector of gaps that is not zero is orthogonal to few challenge vectors: in one position at most one value fits. *)
Lemma dot_one_value (gs : list K) : forall u w v v', nth (length u) gs 0 <> 0 -> dot (u ++ v :: w) gs = 0 -> dot (u ++ v' :: w) gs = 0 -> v = v'.
Proof.
  induction gs as [|g gs IH]; intros u w v v' N H H'; [destruct u; cbn in N; contradiction|]. destruct u as [|x u]; cbn [app length nth dot] in *.
  - assert (Q : (v - v') * g = 0) by (transitivity (v * g + dot w gs - (v' * g + dot w gs)); [ring|]; rewrite H, H'; ring).
    destruct (feqb_spec K v v') as [E|E]; [exact E|]. exfalso. apply N. assert (D : v - v' <> 0) by (intro Z; apply E; transitivity (v - v' + v'); [ring|]; rewrite Z; ring).
    transitivity ((v - v') * g / (v - v')); [field; exact D|]. rewrite Q. field. exact D.
  - apply (f_equal (fun y => y - x * g)) in H. apply (f_equal (fun y => y - x * g)) in H'.
    assert (E : dot (u ++ v :: w) gs = dot (u ++ v' :: w) gs) by (transitivity (x * g + dot (u ++ v :: w) gs - x * g); [ring|]; rewrite H, <- H'; ring).
    assert (L : forall u (a : K), dot (u ++ a :: w) gs = dot (u ++ 0 :: w) gs + a * nth (length u) gs 0). { clear. intros u a. revert gs. induction u as [|y u IH]; intros [|g gs]; cbn [app length nth dot]; try ring. rewrite IH. ring. }
    rewrite (L u v), (L u v') in E. assert (Q : (v - v') * nth (length u) gs 0 = 0) by (transitivity (dot (u ++ 0 :: w) gs + v * nth (length u) gs 0 - (dot (u ++ 0 :: w) gs + v' * nth (length u) gs 0)); [ring|]; rewrite E; ring).
    destruct (feqb_spec K v v') as [E'|E']; [exact E'|]. exfalso. apply N. assert (D : v - v' <> 0) by (intro Z; apply E'; transitivity (v - v' + v'); [ring|]; rewrite Z; ring).
    transitivity ((v - v') * nth (length u) gs 0 / (v - v')); [field; exact D|]. rewrite Q. field. exact D.
Qed.
End S.
