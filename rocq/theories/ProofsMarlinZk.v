(** Marlin's commitments: polynomials and blinding polynomials that give the same commitments and openings. *)
From Coq Require Import String Bool Lia List.
From Verif Require Import Field Poly Module ModTac ModelPC SpecPC ProofsPC ProofsPC2.
From Coq Require Import List.
Import ListNotations.
Local Open Scope list_scope.
Local Open Scope fld_scope.
Section P.
Variable K : Fld.
Variable PR : Pairing K.
Add Field Kfzk1 : (f_laws K).
Notation G := (G1 PR).
Variables (tau a : K) (g gam : G).
Hypothesis Ega : g = gsm a gam.
(** What an opening shows: the witness and the value of the blinding polynomial, zero if there is none. *)
Definition rv (k : kproof K PR) : K := match k_rand_v K PR k with Some x => x | None => 0 end.
Lemma open_form pw n m p r z pf : good_pw K PR tau g gam pw 0 n m -> (length r <= S m)%nat -> kzg_open K PR pw p z r = Ok pf ->
  gsm (tau - z) (k_w K PR pf) = gsm (a * (peval p tau - peval p z) + (peval r tau - peval r z)) gam /\ rv pf = peval r z.
Proof.
  intros [E1 E2] Lr E. unfold kzg_open in E. destruct (degree K p) as [d| |] eqn:Ed; try discriminate. cbn [rbind] in E. unfold check_degree in E.
  destruct (Nat.ltb_spec d 1) as [|D1]; [discriminate|]. destruct (Nat.ltb_spec (length (pg K PR pw)) d) as [|D2]; [discriminate|]. cbn [rbind] in E.
  destruct (canonical_degree _ _ _ Ed) as [Hd C]. specialize (C D1). rewrite ptrim_id in Hd by exact C. rewrite E1, map_length, seq_length in D2.
  unfold witness_poly in E. destruct (msm_from K PR (pg K PR pw) (ptrim K (fst (pdivx z p)))) as [w| |] eqn:Ew; try discriminate. cbn [rbind] in E. apply msm_from_ok in Ew.
  destruct (pdivx_spec K p z) as (q & Eq & Lq & Hq). rewrite Eq in Ew. rewrite E1, msm_powers_le, peval_ptrim in Ew by (pose proof (length_ptrim K q); lia).
  specialize (Hq tau). destruct (is_hiding K r) eqn:Eh.
  - injection E as <-. unfold rv. cbn [k_rand_v k_w]. split; [|reflexivity]. destruct (pdivx_spec K r z) as (q' & Eq' & Lq' & Hq'). rewrite Eq', E2, msm_powers_le, peval_ptrim by (pose proof (length_ptrim K q'); lia).
    specialize (Hq' tau). rewrite Ew, Ega, Hq, Hq'. gmod; ring.
  - injection E as <-. unfold rv. cbn [k_rand_v k_w]. unfold is_hiding in Eh. apply negb_false_iff, forallb_zero in Eh. rewrite !(peval_zero K r _ Eh), Ew, Ega, Hq. split; [gmod; ring|reflexivity].
Qed.
Definition tw (sd : nat) (z : K) (p r p' r' : list K) : Prop :=
  peval p z = peval p' z /\ peval r z = peval r' z /\ a * peval p tau + peval r tau = a * peval p' tau + peval r' tau /\ (length r <= S sd)%nat /\ (length r' <= S sd)%nat.
Lemma open_same pw sd p r p' r' z pf pf' : good_pw K PR tau g gam pw 0 (S sd) (S sd) -> z <> tau -> tw sd z p r p' r' -> kzg_open K PR pw p z r = Ok pf -> kzg_open K PR pw p' z r' = Ok pf' ->
  k_w K PR pf = k_w K PR pf' /\ rv pf = rv pf'.
Proof.
  intros Hp N (A & B & C & L & L') E E'. destruct (open_form pw (S sd) (S sd) p r z pf Hp ltac:(lia) E) as (W & R). destruct (open_form pw (S sd) (S sd) p' r' z pf' Hp ltac:(lia) E') as (W' & R').
  split; [|congruence]. assert (H : gsm (tau - z) (k_w K PR pf) = gsm (tau - z) (k_w K PR pf')).
  { rewrite W, W'. f_equal. rewrite A, B. transitivity (a * peval p tau + peval r tau - a * peval p' z - peval r' z); [ring|]. rewrite C. ring. }
  assert (D : tau - z <> 0) by (intro Z; apply N; symmetry; apply (proj1 (fsub_0 K _ _)); exact Z).
  rewrite <- (gsm_1 K G (k_w K PR pf)), <- (gsm_1 K G (k_w K PR pf')), <- (finv_l K _ D), !gsm_mul, H. reflexivity.
Qed.
(** Two labelled polynomials with their blinding polynomials that look alike at [z]. *)
Definition twin (sd : nat) (z : K) (x x' : lpoly K * randomness K) : Prop :=
  lp_label K (fst x) = lp_label K (fst x') /\ lp_db K (fst x) = lp_db K (fst x') /\ tw sd z (lp_poly K (fst x)) (rn K (snd x)) (lp_poly K (fst x')) (rn K (snd x')) /\
  match lp_db K (fst x) with
  | None => True
  | Some b => match rn_shift K (snd x), rn_shift K (snd x') with
              | Some s, Some s' => peval s z = peval s' z /\ a * (tau ^ (sd - b) * peval (lp_poly K (fst x)) tau) + peval s tau = a * (tau ^ (sd - b) * peval (lp_poly K (fst x')) tau) + peval s' tau /\ (length s <= S sd)%nat /\ (length s' <= S sd)%nat
              | _, _ => True
              end
  end.
Lemma loop_same sd z xi l l' : Forall2 (twin sd z) l l' -> forall p r p' r' chal P R P' R', tw sd z p r p' r' ->
  open_loop K sd xi l p r chal = Ok (P, R) -> open_loop K sd xi l' p' r' chal = Ok (P', R') -> tw sd z P R P' R'.
Proof.
  induction 1 as [|(q, rd) (q', rd') l l' T _ IH]; intros p r p' r' chal P R P' R' H E E'; cbn [open_loop] in *.
  - injection E as <- <-. injection E' as <- <-. exact H.
  - destruct T as (_ & Db & T & Sh). cbn [fst snd] in *. rewrite <- Db in E'.
    assert (H1 : tw sd z (acc_poly K p chal (lp_poly K q)) (acc_poly K r chal (rn K rd)) (acc_poly K p' chal (lp_poly K q')) (acc_poly K r' chal (rn K rd'))).
    { destruct H as (A & B & C & L & L'). destruct T as (A1 & B1 & C1 & L1 & L1'). unfold tw. rewrite !peval_acc, A, B, A1, B1. split; [reflexivity|]. split; [reflexivity|].
      pose proof (length_acc K r chal (rn K rd)). pose proof (length_acc K r' chal (rn K rd')). split; [|lia].
      transitivity ((a * peval p tau + peval r tau) + chal * (a * peval (lp_poly K q) tau + peval (rn K rd) tau)); [ring|]. rewrite C, C1. ring. }
    destruct (lp_db K q) as [b|].
    + destruct (rn_shift K rd) as [s|]; [|discriminate]. destruct (rn_shift K rd') as [s'|]; [|discriminate]. destruct (Nat.ltb sd b); [discriminate|].
      eapply IH; [|exact E|exact E']. destruct H1 as (A & B & C & L & L'). destruct T as (A1 & _). destruct Sh as (S1 & S2 & S3 & S4). unfold tw. rewrite !(peval_acc K (acc_poly _ _ _ _)), !peval_shift_poly, A, B, A1, S1. split; [reflexivity|]. split; [reflexivity|].
      pose proof (length_acc K (acc_poly K r chal (rn K rd)) (chal * xi) s). pose proof (length_acc K (acc_poly K r' chal (rn K rd')) (chal * xi) s'). split; [|lia].
      set (u := peval (acc_poly K p chal (lp_poly K q)) tau) in *. set (v := peval (acc_poly K r chal (rn K rd)) tau) in *.
      transitivity ((a * u + v) + chal * xi * (a * (tau ^ (sd - b) * peval (lp_poly K q) tau) + peval s tau)); [ring|]. rewrite C, S2. ring.
    + eapply IH; [exact H1|exact E|exact E'].
Qed.
Definition same_open (x y : kproof K PR) : Prop := k_w K PR x = k_w K PR y /\ rv x = rv y.
Lemma combine_split {A B} (l : list (A * B)) : combine (map fst l) (map snd l) = l.
Proof. induction l as [|(x, y) l IH]; [reflexivity|]. cbn. rewrite IH. reflexivity. Qed.
Lemma mapR_two {A B C} (f : A -> res B) (f' : A -> res C) (R : B -> C -> Prop) l : (forall x y z, In x l -> f x = Ok y -> f' x = Ok z -> R y z) -> forall r r', mapR f l = Ok r -> mapR f' l = Ok r' -> Forall2 R r r'.
Proof.
  induction l as [|x l IH]; intros H r r' E E'; cbn [mapR] in *; [injection E as <-; injection E' as <-; constructor|].
  destruct (f x) as [y| |] eqn:Ey; try discriminate. destruct (f' x) as [y'| |] eqn:Ey'; try discriminate. cbn [rbind] in *.
  destruct (mapR f l) as [ys| |]; try discriminate. destruct (mapR f' l) as [ys'| |]; try discriminate. cbn [rbind] in *. injection E as <-. injection E' as <-.
  constructor; [apply (H x); [left; reflexivity|assumption|assumption]|]. apply IH; [|reflexivity|reflexivity]. intros u y1 z1 Hu. apply H. right. exact Hu.
Qed.
(** Two lists of polynomials whose entries look alike wherever the query set asks. *)
Definition alike (sd : nat) (qs : list (string * K)) (x x' : lpoly K * randomness K) : Prop :=
  lp_label K (fst x) = lp_label K (fst x') /\ forall z, In (lp_label K (fst x), z) qs -> twin sd z x x' /\ (z <> tau \/ x = x').
Lemma lookup_alike sd qs l L L' : Forall2 (alike sd qs) L L' ->
  match lookup_last (fun x => lp_label K (fst x)) l L, lookup_last (fun x => lp_label K (fst x)) l L' with
  | Some x, Some x' => alike sd qs x x' /\ lp_label K (fst x) = l | None, None => True | _, _ => False end.
Proof.
  induction 1 as [|x x' L L' H _ IH]; cbn [lookup_last]; [exact I|].
  destruct (lookup_last _ l L), (lookup_last _ l L'); try (exact IH || contradiction).
  rewrite <- (proj1 H). destruct (String.eqb_spec (lp_label K (fst x)) l); [split; assumption|exact I].
Qed.
Lemma batch_same ck sd qs xi ps rs ps' rs' op op' (Gr : forall z ls l, In (z, ls) (group K qs) -> In l ls -> In (l, z) qs) :
  good_pw K PR tau g gam (ck_pw K PR ck) 0 (S sd) (S sd) -> ck_sd K PR ck = sd ->
  Forall2 (alike sd qs) (combine ps rs) (combine ps' rs') -> batch_open K PR ck ps qs xi rs = Ok op -> batch_open K PR ck ps' qs xi rs' = Ok op' -> Forall2 same_open op op'.
Proof.
  intros Hp Hs F E E'. unfold batch_open in E, E'. revert E E'. apply mapR_two. intros (z, ls) y y' Hin E E'.
  destruct (mapR _ ls) as [prs| |] eqn:Em; try discriminate. cbn [rbind] in E. destruct (mapR _ ls) as [prs'| |] eqn:Em' in E'; try discriminate. cbn [rbind] in E'.
  assert (T : Forall2 (fun x x' => twin sd z x x' /\ (z <> tau \/ x = x')) prs prs').
  { revert Em Em'. apply mapR_two. intros l x x' Hl El El'. pose proof (lookup_alike sd qs l _ _ F) as H.
    destruct (lookup_last _ l (combine ps rs)) as [u|]; [|discriminate]. destruct (lookup_last _ l (combine ps' rs')) as [u'|]; [|discriminate]. injection El as <-. injection El' as <-.
    destruct H as ((_ & H) & El). apply H. rewrite El. exact (Gr z ls l Hin Hl). }
  destruct (feqb_spec K z tau) as [Z|Nt].
  { assert (prs = prs') as <-. { clear -T Z. induction T as [|x x' l l' (_ & [N | ->]) _ IH]; [reflexivity|contradiction|]. rewrite IH. reflexivity. }
    rewrite E in E'. injection E' as <-. split; reflexivity. }
  assert (T' : Forall2 (twin sd z) prs prs') by (clear -T; induction T as [|x x' l l' (H & _) _ IH]; constructor; assumption).
  unfold pc_open in E, E'. rewrite combine_split in E, E'. rewrite Hs in E, E'.
  destruct (open_loop K sd xi prs [] [] 1) as [(P, R)| |] eqn:El; try discriminate. destruct (open_loop K sd xi prs' [] [] 1) as [(P', R')| |] eqn:El'; try discriminate. cbn [rbind] in E, E'.
  apply (open_same (ck_pw K PR ck) sd P R P' R' z); try assumption. apply (loop_same sd z xi prs prs' T' [] [] [] [] 1 P R P' R'); try assumption. unfold tw. cbn. repeat split; lia.
Qed.
End P.
