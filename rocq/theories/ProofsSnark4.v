(** Completeness of the product layer. *)
From Verif Require Import Field Poly Module ModelTranscript ModelMle SpecMle ProofsMle ModelLibra ProofsLibra ModelSigma ModelSpartan ModelSpark SpecSpark ModelSnark ProofsSpark ProofsSpark2 ProofsSnark ProofsSnark2 ProofsSnark3.
From Coq Require Import String List Lia.
Local Open Scope string_scope.
Local Open Scope list_scope.
Local Open Scope fld_scope.
Section S.
Variable K : Fld.
Variable G : Grp K.
Variable ch : oracle K G.
Add Field Kf : (f_laws K).
Notation tr := (transcript K G).
Notation triple := (triple K).
Notation dot3 := (dot3 K).
Notation all_len := (all_len K).
Notation trip_ok := (trip_ok K).
Definition lhalf (j : nat) (x : triple) : triple := (firstn (2 ^ j) (t1 K x), firstn (2 ^ j) (t2 K x), firstn (2 ^ j) (t3 K x)).
Definition rhalf (j : nat) (x : triple) : triple := (skipn (2 ^ j) (t1 K x), skipn (2 ^ j) (t2 K x), skipn (2 ^ j) (t3 K x)).
Lemma half_ok j x : trip_ok (S j) x -> trip_ok j (lhalf j x) /\ trip_ok j (rhalf j x).
Proof. intros (A & B & C). cbn [Nat.pow] in *. split; (split; [|split]); unfold lhalf, rhalf, t1, t2, t3 in *; cbn [fst snd] in *; rewrite ?firstn_length, ?skipn_length; lia. Qed.
Lemma half_dot j x : trip_ok (S j) x -> dot3 (lhalf j x) + dot3 (rhalf j x) = dot3 x.
Proof.
  intro H. destruct (half_ok j x H) as [L R]. rewrite (dot3_eq K j _ L), (dot3_eq K j _ R), (dot3_eq K (S j) x H). cbn [Nat.pow]. replace (2 * 2 ^ j)%nat with (2 ^ j + 2 ^ j)%nat by lia. rewrite seq_app, map_app, fsum_app. cbn [Nat.add]. f_equal.
  - apply fsum_map_ext. intros i Hi. apply in_seq in Hi. unfold lhalf, t1, t2, t3. cbn [fst snd]. rewrite !nth_firstn. destruct (Nat.ltb_spec i (2 ^ j)); [reflexivity|lia].
  - symmetry. rewrite <- (Nat.add_0_r (2 ^ j)) at 1. rewrite <- map_add_seq, map_map. apply fsum_map_ext. intros i _. unfold rhalf, t1, t2, t3. cbn [fst snd]. rewrite !nth_skipn. reflexivity.
Qed.
Lemma split_ok j x : trip_ok (S j) x -> split_dotp K x (dot3 x) = Ok (lhalf j x, rhalf j x).
Proof.
  intro H. pose proof (half_dot j x H) as D. destruct H as (A & B & C). destruct x as [[a b] c]. unfold lhalf, rhalf, t1, t2, t3 in *. cbn [fst snd] in *. unfold split_dotp. rewrite A, B, C, !Nat.eqb_refl. cbn [negb]. rewrite half_pow, D, feqb_refl. reflexivity.
Qed.
Definition halved (j : nat) (hs : list triple) : list triple := concat (map (fun x => [lhalf j x; rhalf j x]) hs).
Lemma halved_ok j hs : Forall (trip_ok (S j)) hs -> Forall (trip_ok j) (halved j hs).
Proof. intro H. apply Forall_concat, Forall_map. eapply Forall_impl; [|exact H]. intros x Hx. destruct (half_ok j x Hx). repeat constructor; apply H0 || apply H1. Qed.
Lemma join_halves (v : list K) j r rp : length v = (2 ^ S j)%nat -> length rp = j -> mle (firstn (2 ^ j) v) rp + r * (mle (skipn (2 ^ j) v) rp - mle (firstn (2 ^ j) v) rp) = mle v (r :: rp).
Proof. intros L Lr. rewrite mle_cons, Lr. ring. Qed.
Lemma dotp_join_ok j r rp x y z : trip_ok (S j) x -> trip_ok (S j) y -> trip_ok (S j) z -> length rp = j ->
  dotp_join K r (fins K rp (halved j [x; y; z])) = concat (map (fun x => [mle (t1 K x) (r :: rp); mle (t2 K x) (r :: rp); mle (t3 K x) (r :: rp)]) [x; y; z]).
Proof.
  intros (X1 & X2 & X3) (Y1 & Y2 & Y3) (Z1 & Z2 & Z3) Lr. unfold fins, halved. cbn [map concat app]. unfold dotp_join. cbn [length]. change (seq 0 (6 / 2)) with [0; 1; 2]%nat. cbn [map concat app]. cbn [Nat.mul Nat.add nth].
  unfold lhalf, rhalf, t1, t2, t3 in *. cbn [fst snd]. rewrite !join_halves by assumption. reflexivity.
Qed.
Variables gamma1 gamma2 : K.
Variables k s : nat.
Hypothesis T2 : (1 + 1 : K) <> 0.
Hypothesis T3 : (1 + 1 + 1 : K) <> 0.
Lemma two_pow n : (2 <= 2 ^ S n)%nat.
Proof. cbn [Nat.pow]. pose proof (Nat.pow_nonzero 2 n). lia. Qed.
Lemma honest_claims_ok mem m n lists : length lists = 3%nat -> accesses_ok lists n m -> claims_ok K (honest_claims K gamma1 gamma2 mem m lists) = true.
Proof.
  intros L H. unfold claims_ok, honest_claims, traces. rewrite !map_length, !combine_length, stamps_of_length, L, Nat.eqb_refl. cbn [andb]. fold (traces K gamma1 gamma2 mem 1 lists (stamps_of [] lists)). fold (traces K gamma1 gamma2 mem 0 lists (stamps_of [] lists)). rewrite !traces_concat.
  pose proof (memory_identity K gamma1 gamma2 mem m (concat lists) [] (accesses_all _ _ _ H)) as I. unfold cells. cbn [app] in I. unfold state in I. rewrite I. apply feqb_refl.
Qed.
Definition triples (er ec vals : list (list K)) : list triple := combine (combine er ec) vals.
(** The four groups of traces. *)
Definition ops_of (mrow mcol : list K) (rows cols : list (list nat)) : list (list K) :=
  traces K gamma1 gamma2 mrow 0 rows (stamps_of [] rows) ++ traces K gamma1 gamma2 mrow 1 rows (stamps_of [] rows) ++ traces K gamma1 gamma2 mcol 0 cols (stamps_of [] cols) ++ traces K gamma1 gamma2 mcol 1 cols (stamps_of [] cols).
Definition mems_of (mrow mcol : list K) (m : nat) (rows cols : list (list nat)) : list (list K) :=
  [cells K gamma1 gamma2 mrow m []; cells K gamma1 gamma2 mrow m (concat rows); cells K gamma1 gamma2 mcol m []; cells K gamma1 gamma2 mcol m (concat cols)].
Lemma derefs_len mem lists n m : accesses_ok lists n m -> Forall (fun l => length l = n) (derefs K mem lists).
Proof. intro H. apply Forall_map. eapply Forall_impl; [|exact H]. intros l [L _]. rewrite map_length. exact L. Qed.
Theorem product_layer_ok mrow mcol rows cols vals evals (t : tr) :
  accesses_ok rows (2 ^ S k) (2 ^ S s) -> accesses_ok cols (2 ^ S k) (2 ^ S s) -> all_len (S k) vals -> length rows = 3%nat -> length cols = 3%nat -> length vals = 3%nat ->
  evals = map dot3 (triples (derefs K mrow rows) (derefs K mcol cols) vals) ->
  exists pf rl rp ml mp t', length rp = k /\ length mp = s /\
    product_layer_prover K G ch vals (derefs K mrow rows) (derefs K mcol cols) (honest_prods K gamma1 gamma2 mrow (2 ^ S s) rows) (honest_prods K gamma1 gamma2 mcol (2 ^ S s) cols) evals t = Ok (pf, rl :: rp, ml :: mp, t') /\
    product_layer_verify K G ch pf (2 ^ S k) (2 ^ S s) evals t =
      Ok (map (fun l => mle l (rl :: rp)) (ops_of mrow mcol rows cols), concat (map (fun x => [mle (t1 K x) (rl :: rp); mle (t2 K x) (rl :: rp); mle (t3 K x) (rl :: rp)]) (triples (derefs K mrow rows) (derefs K mcol cols) vals)), rl :: rp,
          map (fun l => mle l (ml :: mp)) (mems_of mrow mcol (2 ^ S s) rows cols), ml :: mp, t').
Proof.
  intros Hr Hc Hv L1 L2 L3 ->. unfold product_layer_prover, product_layer_verify.
  rewrite (check_prod_ok K gamma1 gamma2 mrow (2 ^ S s) (2 ^ S k) rows (two_pow s) Hr) by (intros ->; discriminate). rewrite (check_prod_ok K gamma1 gamma2 mcol (2 ^ S s) (2 ^ S k) cols (two_pow s) Hc) by (intros ->; discriminate).
  pose proof (two_pow k) as P2. destruct (Nat.leb_spec 2 (2 ^ S k)) as [_|]; [|lia]. cbn [rbind].
  assert (Ht : Forall (trip_ok (S k)) (triples (derefs K mrow rows) (derefs K mcol cols) vals)).
  { pose proof (derefs_len mrow rows _ _ Hr) as A. pose proof (derefs_len mcol cols _ _ Hc) as B. apply Forall_forall. intros [[a b] c] I. unfold triples in I. pose proof (in_combine_l _ _ _ _ I) as I1. pose proof (in_combine_r _ _ _ _ I) as I2. pose proof (in_combine_l _ _ _ _ I1) as I3. pose proof (in_combine_r _ _ _ _ I1) as I4.
    rewrite Forall_forall in A, B. unfold ProofsSnark.all_len in Hv. rewrite Forall_forall in Hv. repeat split; unfold t1, t2, t3; cbn [fst snd]; auto. }
  assert (D1 : length (derefs K mrow rows) = 3%nat) by (unfold derefs; rewrite map_length; exact L1). assert (D2 : length (derefs K mcol cols) = 3%nat) by (unfold derefs; rewrite map_length; exact L2).
  assert (LT : length (triples (derefs K mrow rows) (derefs K mcol cols) vals) = 3%nat) by (pose proof (combine_length (combine (derefs K mrow rows) (derefs K mcol cols)) vals) as Q; rewrite (combine_length (derefs K mrow rows)), D1, D2, L3 in Q; exact Q).
  rewrite map_length, LT, D1, D2, L3. cbn [Nat.eqb andb negb]. fold (triples (derefs K mrow rows) (derefs K mcol cols) vals).
  set (hs := triples (derefs K mrow rows) (derefs K mcol cols) vals) in *. destruct hs as [|x [|y [|z [|? ?]]]] eqn:Eh; try discriminate LT. clear Eh.
  pose proof (Forall_inv Ht) as Hx. pose proof (Forall_inv (Forall_inv_tail Ht)) as Hy. pose proof (Forall_inv (Forall_inv_tail (Forall_inv_tail Ht))) as Hz.
  cbn [map combine mapr]. rewrite !split_ok with (j := k) by assumption. cbn [rbind rmap map fst snd].
  change (concat [[lhalf k x; rhalf k x]; [lhalf k y; rhalf k y]; [lhalf k z; rhalf k z]]) with (halved k [x; y; z]).
  set (t0 := MU "protocol-name:Sparse polynomial product layer proof" 0 :: t). set (t9 := absorb_halves K G _ _ _).
  assert (HO : all_len (S k) (ops_of mrow mcol rows cols)).
  { unfold ops_of, ProofsSnark.all_len. rewrite !Forall_app. repeat split; apply traces_length; try apply stamps_of_length; try apply stamps_of_lengths; eapply accesses_lengths; eassumption. }
  assert (HM : all_len (S s) (mems_of mrow mcol (2 ^ S s) rows cols)) by (repeat constructor; apply cells_length).
  assert (NO : ops_of mrow mcol rows cols <> []).
  { unfold ops_of. destruct rows as [|r0 rows]; [discriminate|]. cbn [stamps_of]. unfold traces at 1. cbn [combine map app]. discriminate. }
  destruct (product_circuit_complete K G ch (S k) (ops_of mrow mcol rows cols) (halved k [x; y; z]) HO NO) with (t := t9) as (po & rl & rp & t2 & Lrp & EP & EV); [rewrite Nat.sub_succ, Nat.sub_0_r; apply halved_ok; exact Ht|exact T2|exact T3|lia|]. rewrite Nat.sub_succ, Nat.sub_0_r in Lrp.
  destruct (product_circuit_complete K G ch (S s) (mems_of mrow mcol (2 ^ S s) rows cols) [] HM) with (t := t2) as (pm & ml & mp & t3 & Lmp & EP2 & EV2); [discriminate|constructor|exact T2|exact T3|lia|]. rewrite Nat.sub_succ, Nat.sub_0_r in Lmp.
  exists (mkPLP K pm po [dot3 (lhalf k x); dot3 (lhalf k y); dot3 (lhalf k z)] [dot3 (rhalf k x); dot3 (rhalf k y); dot3 (rhalf k z)] (honest_claims K gamma1 gamma2 mrow (2 ^ S s) rows) (honest_claims K gamma1 gamma2 mcol (2 ^ S s) cols)), rl, rp, ml, mp, t3.
  split; [exact Lrp|]. split; [exact Lmp|]. split.
  - unfold ops_of in EP. rewrite !map_app in EP. unfold honest_prods. cbn [mp_read mp_write mp_init mp_audit]. rewrite EP. cbn [rbind]. unfold mems_of in EP2. cbn [map] in EP2. rewrite EP2. reflexivity.
  - cbn [pl_row pl_col pl_dleft pl_dright pl_ops pl_mem]. rewrite !(honest_claims_ok _ (2 ^ S s) (2 ^ S k)) by assumption. unfold honest_claims at 1 2. cbn [length Nat.eqb andb negb combine forallb map concat app]. rewrite !half_dot, !feqb_refl by assumption. cbn [andb negb]. fold t0. fold t9.
    unfold ops_of in EV at 1. rewrite !map_app in EV. unfold halved in EV at 1. cbn [map concat app] in EV. rewrite EV. cbn [rbind]. unfold mems_of in EV2 at 1. cbn [map] in EV2. rewrite EV2. cbn [rbind]. rewrite dotp_join_ok by assumption. reflexivity.
Qed.
End S.
