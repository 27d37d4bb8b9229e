(** Completeness of the batched cubic sum-check. *)
From Verif Require Import Field Poly Module ModelTranscript ModelMle SpecMle ProofsMle ModelLibra ProofsLibra ModelSigma ModelSpartan ModelSpark ModelSnark ProofsSpartan3 ProofsSpark ProofsSpark2.
From Coq Require Import String List Lia.
Local Open Scope string_scope.
Local Open Scope list_scope.
Local Open Scope fld_scope.
Section S.
Variable K : Fld.
Variable G : Grp K.
Variable ch : oracle K G.
Add Field Kf : (f_laws K).
Notation tr := (transcript K G).
Notation triple := (triple K).
Notation dot3 := (dot3 K).
Notation cubicf := (cubicf K).
Definition t1 (x : triple) := fst (fst x).
Definition t2 (x : triple) := snd (fst x).
Definition t3 (x : triple) := snd x.
Definition trip_ok (n : nat) (x : triple) : Prop := length (t1 x) = (2 ^ n)%nat /\ length (t2 x) = (2 ^ n)%nat /\ length (t3 x) = (2 ^ n)%nat.
Definition comb3 (X : K) (x : triple) : triple := (comb K X (t1 x), comb K X (t2 x), comb K X (t3 x)).
Definition mle3 (x : triple) (r : list K) : K := mle (t1 x) r * mle (t2 x) r * mle (t3 x) r.
Lemma comb3_ok n X x : trip_ok (S n) x -> trip_ok n (comb3 X x).
Proof. intros (A & B & C). unfold trip_ok, comb3, t1, t2, t3. cbn [fst snd]. repeat split; apply comb_length; assumption. Qed.
Lemma dot3_eq n x : trip_ok n x -> dot3 x = fsum (map (fun i => nth i (t1 x) 0 * nth i (t2 x) 0 * nth i (t3 x) 0) (seq 0 (2 ^ n))).
Proof. intros (A & _). destruct x as [[a b] c]. unfold ModelSnark.dot3, t1, t2, t3 in *. cbn [fst snd] in *. rewrite A. reflexivity. Qed.
Lemma dot3_comb n X x : trip_ok (S n) x -> dot3 (comb3 X x) = fsum (map (fun i => (X * nth (i + 2 ^ n) (t1 x) 0 + (1 - X) * nth i (t1 x) 0) * (X * nth (i + 2 ^ n) (t2 x) 0 + (1 - X) * nth i (t2 x) 0) * (X * nth (i + 2 ^ n) (t3 x) 0 + (1 - X) * nth i (t3 x) 0)) (seq 0 (2 ^ n))).
Proof.
  intros (A & B & C). rewrite (dot3_eq n _ (comb3_ok n X x (conj A (conj B C)))). f_equal. apply map_ext_in. intros i Hi. apply in_seq in Hi. unfold comb3, t1, t2, t3 in *. cbn [fst snd].
  rewrite !(comb_nth K _ _ n) by (assumption || lia). reflexivity.
Qed.
Lemma dot3_cubic n x : trip_ok (S n) x -> cubicf (fun X => dot3 (comb3 X x)).
Proof.
  intro H. destruct (cubic_sum K (seq 0 (2 ^ n)) (fun i X => (X * nth (i + 2 ^ n) (t1 x) 0 + (1 - X) * nth i (t1 x) 0) * (X * nth (i + 2 ^ n) (t2 x) 0 + (1 - X) * nth i (t2 x) 0) * (X * nth (i + 2 ^ n) (t3 x) 0 + (1 - X) * nth i (t3 x) 0))) as (a & b & c & d & E).
  - intros i _. set (a0 := nth i (t1 x) 0). set (a1 := nth (i + 2 ^ n) (t1 x) 0 - a0). set (b0 := nth i (t2 x) 0). set (b1 := nth (i + 2 ^ n) (t2 x) 0 - b0). set (c0 := nth i (t3 x) 0). set (c1 := nth (i + 2 ^ n) (t3 x) 0 - c0).
    exists (a1 * b1 * c1), (a1 * b1 * c0 + a1 * b0 * c1 + a0 * b1 * c1), (a1 * b0 * c0 + a0 * b1 * c0 + a0 * b0 * c1), (a0 * b0 * c0). intro X. unfold a1, b1, c1. ring.
  - exists a, b, c, d. intro X. rewrite (dot3_comb n X x H). apply E.
Qed.
Lemma dot3_split n x : trip_ok (S n) x -> dot3 x = dot3 (comb3 0 x) + dot3 (comb3 1 x).
Proof.
  intro H. rewrite !(dot3_comb n _ x H), (dot3_eq (S n) x H). cbn [Nat.pow]. replace (2 * 2 ^ n)%nat with (2 ^ n + 2 ^ n)%nat by lia. rewrite seq_app, map_app, fsum_app. cbn [Nat.add]. f_equal.
  - apply fsum_map_ext. intros i _. ring.
  - rewrite <- (Nat.add_0_r (2 ^ n)) at 1. rewrite <- map_add_seq, map_map. apply fsum_map_ext. intros i _. rewrite (Nat.add_comm (2 ^ n) i). ring.
Qed.
Lemma cubic_evals_ok n x : trip_ok (S n) x -> cubic_evals K x = Ok (dot3 (comb3 0 x), dot3 (comb3 (1 + 1) x), dot3 (comb3 (1 + 1 + 1) x)).
Proof.
  intro H. rewrite !(dot3_comb n _ x H). destruct H as (A & B & C). destruct x as [[a b] c]. unfold t1, t2, t3 in *. cbn [fst snd] in *. unfold cubic_evals. rewrite A, B, C, Nat.eqb_refl. cbn [negb]. rewrite half_pow.
  f_equal. f_equal; [f_equal|]; apply fsum_map_ext; intros i _; rewrite ?(Nat.add_comm (2 ^ n) i); ring.
Qed.
(** ** A round *)
Definition trs (pa pb : list (list K)) (c : list K) (sa sb sc : list (list K)) : list triple := map (fun '(a, b) => (a, b, c)) (combine pa pb) ++ combine (combine sa sb) sc.
Lemma fsum_dot {A} (f : A -> K) : forall (l : list A) (ks : list K), fsum (map (fun '(e, x) => f e * x) (combine l ks)) = dot (map f l) ks.
Proof. induction l as [|x l IH]; intros [|k ks]; try reflexivity. cbn [combine map fsum dot fold_right]. f_equal. apply IH. Qed.
Lemma cubic_dot (f : triple -> K -> K) : forall (l : list triple) (ks : list K), (forall x, In x l -> cubicf (f x)) -> cubicf (fun X => dot (map (fun x => f x X) l) ks).
Proof.
  induction l as [|x l IH]; intros ks H; [exists 0, 0, 0, 0; intro X; cbn; ring|]. destruct ks as [|k ks]; [exists 0, 0, 0, 0; intro X; cbn; ring|].
  destruct (IH ks (fun y Hy => H y (or_intror Hy))) as (a & b & c & d & E). destruct (H x (or_introl eq_refl)) as (a' & b' & c' & d' & E').
  exists (a + k * a'), (b + k * b'), (c + k * c'), (d + k * d'). intro X. cbn [map dot]. rewrite E, E'. ring.
Qed.
Lemma dot_map_add {A} (f g : A -> K) : forall (l : list A) ks, dot (map (fun x => f x + g x) l) ks = dot (map f l) ks + dot (map g l) ks.
Proof. induction l as [|x l IH]; intros [|k ks]; cbn [map dot]; try ring. rewrite IH. ring. Qed.
Lemma trs_length pa pb c sa sb sc : length pa = length pb -> length sa = length sb -> length sa = length sc -> length (trs pa pb c sa sb sc) = (length pa + length sa)%nat.
Proof. intros A B C. unfold trs. rewrite app_length, map_length, !combine_length. lia. Qed.
Lemma batch_poly_ok n claim pa pb c sa sb sc coeffs : (1 + 1 : K) <> 0 -> (1 + 1 + 1 : K) <> 0 -> length pa = length pb -> Forall (trip_ok (S n)) (trs pa pb c sa sb sc) -> length coeffs = length (trs pa pb c sa sb sc) ->
  claim = dot (map dot3 (trs pa pb c sa sb sc)) coeffs ->
  exists p, batch_poly K claim pa pb c sa sb sc coeffs = Ok p /\ forall X, peval p X = dot (map (fun x => dot3 (comb3 X x)) (trs pa pb c sa sb sc)) coeffs.
Proof.
  intros T2 T3 Lp H Lc Ec. unfold batch_poly. rewrite Lp, Nat.eqb_refl. cbn [negb]. set (ev := fun x => (dot3 (comb3 0 x), dot3 (comb3 (1 + 1) x), dot3 (comb3 (1 + 1 + 1) x))).
  pose proof (proj1 (Forall_app _ _ _) H) as [H1 H2]. rewrite (mapr_ok _ ev) by (intros x Hx; apply (cubic_evals_ok n); exact (proj1 (Forall_forall _ _) H1 x Hx)). cbn [rbind].
  rewrite (mapr_ok _ ev) by (intros x Hx; apply (cubic_evals_ok n); exact (proj1 (Forall_forall _ _) H2 x Hx)). cbn [rbind]. rewrite <- map_app. change (map _ (combine pa pb) ++ _) with (trs pa pb c sa sb sc). rewrite map_length, Lc, Nat.eqb_refl. cbn [negb].
  set (L := trs pa pb c sa sb sc) in *. clearbody L. set (f := fun X => dot (map (fun x => dot3 (comb3 X x)) L) coeffs).
  assert (Q : cubicf f) by (apply (cubic_dot (fun x X => dot3 (comb3 X x))); intros x Hx; apply (dot3_cubic n); exact (proj1 (Forall_forall _ _) H x Hx)).
  destruct (cubic_poly_ok K f Q T2 T3) as (p & Ep & _ & Vp). exists p. split; [|exact Vp].
  rewrite !(fsum_dot (fun e => fst (fst e))), !(fsum_dot (fun e => snd (fst e))), !(fsum_dot snd), !map_map. cbn [ev fst snd]. unfold ev. cbn [fst snd]. fold (f 0). fold (f (1 + 1)). fold (f (1 + 1 + 1)).
  replace (claim - f 0) with (f 1); [exact Ep|]. rewrite Ec. rewrite (map_ext_in dot3 (fun x => dot3 (comb3 0 x) + dot3 (comb3 1 x))) by (intros x Hx; apply (dot3_split n); exact (proj1 (Forall_forall _ _) H x Hx)).
  rewrite dot_map_add. unfold f. ring.
Qed.
Lemma trs_comb X pa pb c sa sb sc : map (comb3 X) (trs pa pb c sa sb sc) = trs (map (comb K X) pa) (map (comb K X) pb) (comb K X c) (map (comb K X) sa) (map (comb K X) sb) (map (comb K X) sc).
Proof.
  unfold trs. rewrite map_app. f_equal.
  - revert pb. induction pa as [|a pa IH]; intros [|b pb]; try reflexivity. cbn [combine map]. rewrite IH. reflexivity.
  - revert sb sc. induction sa as [|a sa IH]; intros [|b sb] [|d sc]; try reflexivity. cbn [combine map]. rewrite IH. reflexivity.
Qed.
Definition all_len (n : nat) (l : list (list K)) : Prop := Forall (fun v => length v = (2 ^ n)%nat) l.
Lemma trs_ok n pa pb c sa sb sc : all_len n pa -> all_len n pb -> length c = (2 ^ n)%nat -> all_len n sa -> all_len n sb -> all_len n sc -> Forall (trip_ok n) (trs pa pb c sa sb sc).
Proof.
  intros A B C D E F. apply Forall_app. split; apply Forall_forall; intros x Hx.
  - apply in_map_iff in Hx. destruct Hx as ([a b] & <- & Hx). pose proof (in_combine_l _ _ _ _ Hx) as Ha. pose proof (in_combine_r _ _ _ _ Hx) as Hb. unfold trip_ok, t1, t2, t3. cbn [fst snd].
    split; [exact (proj1 (Forall_forall _ _) A a Ha)|]. split; [exact (proj1 (Forall_forall _ _) B b Hb)|exact C].
  - destruct x as [[a b] d]. pose proof (in_combine_l _ _ _ _ Hx) as Hab. pose proof (in_combine_r _ _ _ _ Hx) as Hd. pose proof (in_combine_l _ _ _ _ Hab) as Ha. pose proof (in_combine_r _ _ _ _ Hab) as Hb. unfold trip_ok, t1, t2, t3. cbn [fst snd].
    split; [exact (proj1 (Forall_forall _ _) D a Ha)|]. split; [exact (proj1 (Forall_forall _ _) E b Hb)|exact (proj1 (Forall_forall _ _) F d Hd)].
Qed.
Lemma heads_ok l : all_len 0 l -> mapr (fun v => kget K v 0) l = Ok (map (fun v => mle v []) l).
Proof. intro H. apply mapr_ok. intros v Hv. rewrite mle_nil. apply kget_ok. rewrite (proj1 (Forall_forall _ _) H v Hv). cbn. lia. Qed.
Lemma map_comb_mle n x rs l : all_len (S n) l -> length rs = n -> map (fun v => mle v rs) (map (comb K x) l) = map (fun v => mle v (x :: rs)) l.
Proof. intros H L. rewrite map_map. apply map_ext_in. intros v Hv. apply comb_mle. rewrite L. exact (proj1 (Forall_forall _ _) H v Hv). Qed.
Theorem sc_cubic_ok (T2 : (1 + 1 : K) <> 0) (T3 : (1 + 1 + 1 : K) <> 0) n : forall claim pa pb c sa sb sc coeffs (t : tr),
  all_len n pa -> all_len n pb -> length c = (2 ^ n)%nat -> all_len n sa -> all_len n sb -> all_len n sc -> length pa = length pb -> length sa = length sb -> length sa = length sc ->
  length coeffs = length (trs pa pb c sa sb sc) -> claim = dot (map dot3 (trs pa pb c sa sb sc)) coeffs ->
  exists polys rs t', length rs = n /\ length polys = n /\
    sc_cubic K G ch n claim pa pb c sa sb sc coeffs t = Ok (polys, rs, (map (fun v => mle v rs) pa, map (fun v => mle v rs) pb), (map (fun v => mle v rs) sa, map (fun v => mle v rs) sb, map (fun v => mle v rs) sc), t') /\
    cubic_check K G ch polys claim t = Ok (rs, dot (map (fun x => mle3 x rs) (trs pa pb c sa sb sc)) coeffs, t').
Proof.
  induction n as [|n IH]; intros claim pa pb c sa sb sc coeffs t A B C D E F Lp Ls1 Ls2 Lc Ec.
  - exists [], [], t. split; [reflexivity|]. split; [reflexivity|]. cbn [sc_cubic cubic_check]. rewrite !heads_ok by assumption. cbn [rbind]. rewrite kget_ok by (rewrite C; cbn; lia). cbn [rbind]. split; [reflexivity|].
    do 3 f_equal. rewrite Ec. f_equal. apply map_ext_in. intros x Hx. pose proof (proj1 (Forall_forall _ _) (trs_ok 0 _ _ _ _ _ _ A B C D E F) x Hx) as Q. rewrite (dot3_eq 0 x Q). unfold mle3. rewrite !mle_nil. cbn. ring.
  - destruct (batch_poly_ok n claim pa pb c sa sb sc coeffs T2 T3 Lp (trs_ok (S n) _ _ _ _ _ _ A B C D E F) Lc Ec) as (p & Ep & Vp).
    cbn [sc_cubic]. rewrite Ep. cbn [rbind]. unfold draw. set (T := MFs "comm_poly" p :: t). set (r := ch "challenge_nextround" T).
    rewrite (combine_ok K r c n C). cbn [rbind]. rewrite (combine_all_ok K n pa r A). cbn [rbind]. rewrite (combine_all_ok K n pb r B). cbn [rbind]. rewrite (combine_all_ok K n sa r D). cbn [rbind]. rewrite (combine_all_ok K n sb r E). cbn [rbind]. rewrite (combine_all_ok K n sc r F). cbn [rbind].
    destruct (IH (peval p r) (map (comb K r) pa) (map (comb K r) pb) (comb K r c) (map (comb K r) sa) (map (comb K r) sb) (map (comb K r) sc) coeffs (MCh "challenge_nextround" :: T)) as (polys & rs & t' & L1 & L2 & P & V).
    + apply comb_lengths, A.
    + apply comb_lengths, B.
    + apply comb_length, C.
    + apply comb_lengths, D.
    + apply comb_lengths, E.
    + apply comb_lengths, F.
    + rewrite !map_length; exact Lp.
    + rewrite !map_length; exact Ls1.
    + rewrite !map_length; exact Ls2.
    + rewrite <- trs_comb, map_length. exact Lc.
    + rewrite Vp, <- trs_comb, map_map. reflexivity.
    + exists (p :: polys), (r :: rs), t'. split; [cbn; rewrite L1; reflexivity|]. split; [cbn; rewrite L2; reflexivity|]. rewrite P. cbn [rmap]. split.
      * rewrite !(map_comb_mle n) by assumption. reflexivity.
      * cbn [cubic_check]. fold T. assert (Q : peval p 0 + peval p 1 = claim).
        { rewrite !Vp, Ec. rewrite <- dot_map_add. f_equal. apply map_ext_in. intros x Hx. symmetry. apply (dot3_split n). exact (proj1 (Forall_forall _ _) (trs_ok (S n) _ _ _ _ _ _ A B C D E F) x Hx). }
        rewrite Q, feqb_refl. cbn [negb]. unfold draw. fold r. rewrite V. cbn [rmap]. do 3 f_equal. rewrite <- trs_comb, map_map. f_equal. apply map_ext_in. intros x Hx.
        pose proof (proj1 (Forall_forall _ _) (trs_ok (S n) _ _ _ _ _ _ A B C D E F) x Hx) as (Q1 & Q2 & Q3). unfold mle3, comb3, t1, t2, t3 in *. cbn [fst snd]. rewrite !comb_mle by (rewrite L1; assumption). reflexivity.
Qed.
End S.
