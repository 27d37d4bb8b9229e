(** Marlin: carrying the coins of one run over to another run with the same public part. *)
From Coq Require Import String Bool Lia List.
From Verif Require Import ModelMarlin SpecLC SpecCS SpecMarlin SpecPC ProofsPC ProofsPC2 ProofsMarlinCS ProofsMarlin ProofsMarlin2 ProofsMarlin3 ProofsMarlin4 ProofsMarlin8.
From Verif Require Import Field Poly Module ModelLC ModelCS SpecMarlinZk.
From Coq Require Import List.
Import ListNotations.
Local Open Scope list_scope.
Local Open Scope fld_scope.
Section P.
Variable K : Fld.
Add Field Kfzk2 : (f_laws K).
Section Transfer.
Variables dx dh : dom K.
Notation x := (dsize dx).
Notation h := (dsize dh).
Variables tau a be : K.
Variable e : nat.
Variables rp tp xp : list K.
Variables ea eb ec : K.
(** What the private assignment contributes: the values on H of w, z_a and z_b. *)
Record side := mkSide { sw : list K; sva : list K; svb : list K }.
Definition rho (v1 v2 : list K) (r : K) : K := r + (peval (interp K dh v1) be - peval (interp K dh v2) be) * finv (be ^ h - 1).
Definition wq (v : list K) (r : K) : list K := fst (pdivv K x (blind K dh v r)).
Definition Spoly (wp za zb : list K) : list K :=
  psub (pmul rp (padd (padd (pscale ea za) (pscale eb zb)) (pscale ec (pmul za zb)))) (pmul tp (padd (pmul (xpow1 K x) wp) xp)).
Definition SS (s : side) (rw ra rb : K) : list K := Spoly (wq (sw s) rw) (blind K dh (sva s) ra) (blind K dh (svb s) rb).
Definition kap (p1 p2 : list K) : K := a * (peval p1 tau - peval p2 tau) * finv (tau - be).
Definition bump (k : K) (d : list K) : list K := match d with d0 :: d1 :: r => (d0 - k * be) :: (d1 + k) :: r | _ => d end.
Definition cc_ (S1 S2 : list K) : K := (peval S2 tau - peval S1 tau) * finv (tau * (tau - be)).
Definition addv (n : nat) (u v : list K) : list K := map (fun i => nth i u 0 + nth i v 0) (seq 0 n).
Definition lam (c : K) : list K := [0; - (c * be); c].
Definition draw' (kw ka kb kg ks : K) (d : list (list K * list K)) : list (list K * list K) :=
  match d with
  | dw :: da :: db :: dm :: dt :: dg :: r => (bump kw (fst dw), snd dw) :: (bump ka (fst da), snd da) :: (bump kb (fst db), snd db) :: dm :: dt :: (bump kg (fst dg), bump ks (snd dg)) :: r
  | _ => d
  end.
Definition transfer (s1 s2 : side) (co : coins K) : coins K :=
  let rw := rho (sw s1) (sw s2) (c_w K co) in let ra := rho (sva s1) (sva s2) (c_za K co) in let rb := rho (svb s1) (svb s2) (c_zb K co) in
  let S1 := SS s1 (c_w K co) (c_za K co) (c_zb K co) in let S2 := SS s2 rw ra rb in
  let c := cc_ S1 S2 in
  mkCoins K rw ra rb (addv (3 * h) (c_mask K co) (padd (psub S1 S2) (lam c)))
    (draw' (kap (wq (sw s1) (c_w K co)) (wq (sw s2) rw)) (kap (blind K dh (sva s1) (c_za K co)) (blind K dh (sva s2) ra)) (kap (blind K dh (svb s1) (c_zb K co)) (blind K dh (svb s2) rb))
      (- (a * c)) (- (a * c * tau ^ e)) (c_draw K co)).
Lemma rho_back v1 v2 r : rho v2 v1 (rho v1 v2 r) = r.
Proof. unfold rho. ring. Qed.
Lemma bump_back k k' d : k' = - k -> bump k' (bump k d) = d.
Proof. intros ->. destruct d as [|d0 [|d1 d]]; cbn [bump]; try reflexivity. f_equal; [ring|]. f_equal. ring. Qed.
Lemma bump_len k d : length (bump k d) = length d.
Proof. destruct d as [|d0 [|d1 d]]; reflexivity. Qed.
Lemma kap_anti p q : kap q p = - kap p q. Proof. unfold kap. ring. Qed.
Lemma cc_anti p q : cc_ q p = - cc_ p q. Proof. unfold cc_. ring. Qed.
Lemma addv_len n u v : length (addv n u v) = n. Proof. unfold addv. rewrite map_length, seq_length. reflexivity. Qed.
Lemma addv_nth n u v i : (i < n)%nat -> nth i (addv n u v) 0 = nth i u 0 + nth i v 0.
Proof. intro H. unfold addv. apply (nth_map_seq (fun i => nth i u 0 + nth i v 0) 0 n i H). Qed.
Lemma addv_back n u v v' : length u = n -> (forall i, nth i v 0 + nth i v' 0 = 0) -> addv n (addv n u v) v' = u.
Proof.
  intros L H. apply nth_ext with (d := 0) (d' := 0); [rewrite addv_len; auto|]. intros i Hi. rewrite addv_len in Hi. rewrite !addv_nth by exact Hi.
  transitivity (nth i u 0 + (nth i v 0 + nth i v' 0)); [ring|]. rewrite H. ring.
Qed.
Lemma peval_addv n u v y : length u = n -> (length v <= n)%nat -> peval (addv n u v) y = peval u y + peval v y.
Proof.
  intros Lu Lv. rewrite <- peval_padd. apply nth_eq_peval. intro i. rewrite nth_padd. destruct (Nat.lt_ge_cases i n) as [H|H]; [apply addv_nth, H|]. rewrite !nth_overflow; [ring|lia|lia|rewrite addv_len; exact H].
Qed.
Theorem transfer_back s1 s2 co : shaped h co -> transfer s2 s1 (transfer s1 s2 co) = co.
Proof.
  intros (Lm & Ld & _). destruct co as [rw ra rb m d]. cbn [c_mask c_draw] in Lm, Ld. unfold transfer. cbn [c_w c_za c_zb c_mask c_draw]. rewrite !rho_back.
  set (S1 := SS s1 rw ra rb). set (S2 := SS s2 _ _ _). f_equal.
  - apply addv_back; [exact Lm|]. intro i. rewrite !nth_padd, !nth_psub, (cc_anti S1 S2). unfold lam. destruct i as [|[|[|i]]]; cbn [nth]; try ring. destruct i; ring.
  - do 9 (destruct d as [|(?, ?) d]; [discriminate|]). destruct d; [|discriminate]. cbn [draw' fst snd]. repeat (f_equal; try (rewrite bump_back; [reflexivity|]));
    try apply kap_anti; rewrite (cc_anti S1 S2); ring.
Qed.
Theorem transfer_shaped s1 s2 co : shaped h co -> shaped h (transfer s1 s2 co).
Proof.
  intros (Lm & Ld & F). unfold transfer, shaped. cbn [c_mask c_draw]. split; [apply addv_len|]. destruct co as [rw ra rb m d]. cbn [c_draw c_mask c_w c_za c_zb] in *. generalize (- (a * cc_ (SS s1 rw ra rb) (SS s2 (rho (sw s1) (sw s2) rw) (rho (sva s1) (sva s2) ra) (rho (svb s1) (svb s2) rb)))). intro u.
  do 9 (destruct d as [|(?, ?) d]; [discriminate|]). destruct d; [|discriminate]. cbn [draw' fst snd length]. split; [reflexivity|].
  repeat match goal with H : Forall _ (_ :: _) |- _ => inversion H; clear H; subst end. cbn [fst snd] in *. repeat constructor; cbn [fst snd]; rewrite ?bump_len; tauto.
Qed.
End Transfer.
End P.
