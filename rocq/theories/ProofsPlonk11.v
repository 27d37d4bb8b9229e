(** Soundness of the polynomial protocol: the extraction. *)
From Coq Require Import Permutation.
From Verif Require Import ModelPlonk SpecPlonk ProofsPC ProofsPlonk1 ProofsPlonk2 ProofsPlonk3 ProofsPlonk4 ProofsPlonk5 ProofsPlonk6 ProofsPlonk7 ProofsPlonk8 ProofsPlonk10.
Local Open Scope fld_scope.
Section P.
Variable K : Fld.
Add Field Kf : (f_laws K).
(** *** products *)
Lemma fprod_zero (l : list K) : fprod l = 0 -> In 0 l.
Proof. induction l as [|x l IH]; cbn [fprod]; intro E; [exfalso; apply (f_1_neq_0 K); exact E|]. apply f_integral in E. destruct E as [->|E]; [left; reflexivity|right; apply IH; exact E]. Qed.
Lemma len_pvanish (xs : list K) : (length (pvanish xs) <= S (length xs))%nat.
Proof. unfold pvanish. induction xs as [|a xs IH]; [cbn; lia|]. cbn [fold_right length]. pose proof (deg_mul K [- a; 1] (fold_right (fun a p => pmul [- a; 1] p) [1] xs) 1 (length xs) ltac:(cbn [length]; lia) IH). cbn [Nat.add] in H. exact H. Qed.
Lemma prods_eq {A} (u v : A -> K) (l : list A) (gs : list K) : NoDup gs -> (length l < length gs)%nat -> (forall g, In g gs -> fprod (map (fun s => u s + g) l) = fprod (map (fun s => v s + g) l)) ->
  forall s, In s l -> exists s', In s' l /\ v s = u s'.
Proof.
  intros N L H s I.
  assert (PV : forall (f : A -> K) g, peval (pvanish (map (fun s => - f s) l)) g = fprod (map (fun s => f s + g) l)). { intros f g. rewrite peval_pvanish, map_map. f_equal. apply map_ext. intro a. ring. }
  pose proof (agree_eq K gs (pvanish (map (fun s => - u s) l)) (pvanish (map (fun s => - v s) l)) N) as E.
  specialize (E ltac:(pose proof (len_pvanish (map (fun s => - u s) l)) as Q; rewrite map_length in Q; lia) ltac:(pose proof (len_pvanish (map (fun s => - v s) l)) as Q; rewrite map_length in Q; lia)).
  specialize (E ltac:(intros g Ig; rewrite !PV; apply H; exact Ig)). pose proof (nth_eq_peval K _ _ E (- v s)) as E'. rewrite !PV in E'.
  assert (Z : fprod (map (fun s0 => v s0 + - v s) l) = 0). { clear - I. induction l as [|a l IH]; [destruct I|]. cbn [map fprod]. destruct I as [->|I]; [ring|]. rewrite IH by exact I. ring. }
  rewrite Z in E'. apply fprod_zero in E'. apply in_map_iff in E'. destruct E' as (s' & E' & I'). exists s'. split; [exact I'|]. transitivity (u s' - (u s' + - v s)); [ring|]. rewrite E'. ring.
Qed.
Lemma NoDup_map_inj {A B} (f : A -> B) l : NoDup l -> (forall x y, In x l -> In y l -> f x = f y -> x = y) -> NoDup (map f l).
Proof.
  induction 1 as [|a l Ha N IH]; intro H; [constructor|]. cbn. constructor; [|apply IH; intros; apply H; auto; right; assumption]. intro I. apply in_map_iff in I. destruct I as (b & E & I). apply Ha. rewrite <- (H b a); auto; [right; exact I|left; reflexivity].
Qed.
(** Values and identities agree when the products agree for enough challenges. *)
Lemma copy_sound (f : wire -> K) (id : wire -> K) (pi : wire -> wire) (l : list wire) (bs gs : list K) : NoDup bs -> NoDup gs -> (length l < length bs)%nat -> (length l < length gs)%nat ->
  (forall s, In s l -> In (pi s) l) -> (forall s u, In s l -> In u l -> id s = id u -> s = u) ->
  (forall b g, In b bs -> In g gs -> fprod (map (fun s => f s + b * id s + g) l) = fprod (map (fun s => f s + b * id (pi s) + g) l)) -> forall s, In s l -> f (pi s) = f s.
Proof.
  intros NB NG LB LG PI ID H s I. destruct (feq_dec K (f (pi s)) (f s)) as [E|NE]; [exact E|exfalso].
  set (h := fun b => find (fun u => feqb (f s + b * id (pi s)) (f u + b * id u)) l).
  assert (HS : forall b, In b bs -> exists u, h b = Some u /\ In u l /\ f s + b * id (pi s) = f u + b * id u).
  { intros b Ib. destruct (prods_eq (fun s => f s + b * id s) (fun s => f s + b * id (pi s)) l gs NG LG (fun g Ig => H b g Ib Ig) s I) as (u & Iu & Eu). unfold h.
    destruct (find _ l) as [u'|] eqn:E; [apply find_some in E; destruct E as [E1 E2]; apply feqb_eq in E2; eauto|]. exfalso. apply (find_none _ _ E) in Iu. apply feqb_neq in Iu. contradiction. }
  assert (ND : NoDup (map h bs)).
  { apply NoDup_map_inj; [exact NB|]. intros b1 b2 I1 I2 E. destruct (HS b1 I1) as (u & E1 & Iu & Q1). destruct (HS b2 I2) as (u2 & E2 & _ & Q2). rewrite E1, E2 in E. injection E as <-. destruct (feq_dec K b1 b2) as [|D]; [assumption|exfalso].
    assert (Z : (b1 - b2) * (id (pi s) - id u) = 0). { transitivity ((f s + b1 * id (pi s)) - (f s + b2 * id (pi s)) - ((f u + b1 * id u) - (f u + b2 * id u))); [ring|]. rewrite Q1, Q2. ring. }
    apply f_integral in Z. destruct Z as [Z|Z]; [apply (proj1 (fsub_0 K _ _)) in Z; contradiction|]. apply (proj1 (fsub_0 K _ _)) in Z. assert (pi s = u) by (apply ID; auto). subst u. apply NE.
    transitivity ((f (pi s) + b1 * id (pi s)) - b1 * id (pi s)); [ring|]. rewrite <- Q1. ring. }
  pose proof (NoDup_incl_length ND (l' := map Some l)) as NI. rewrite !map_length in NI. assert (length bs <= length l)%nat; [|lia]. apply NI. intros o Io. apply in_map_iff in Io. destruct Io as (b & <- & Ib). destruct (HS b Ib) as (u & -> & Iu & _). apply in_map. exact Iu.
Qed.
(** *** polynomial identity from enough points *)
Lemma peval_shl k (p : list K) y : peval (repeat 0 k ++ p) y = y ^ k * peval p y.
Proof. rewrite peval_app, peval_repeat0, repeat_length. ring. Qed.
Section I.
Variables (d : dom K) (ks : list K) (alpha beta gamma : K).
Variables (w0 w1 w2 w3 q0 q1 q2 q3 qm qc qa pi s0 s1 s2 s3 z l1 t0 t1 t2 t3 : list K).
Notation n := (dsize d).
Hypothesis V : valid_dom d.
Hypothesis LW : (length w0 <= S n /\ length w1 <= S n /\ length w2 <= S n /\ length w3 <= S n)%nat.
Hypothesis LQ : (length q0 <= S n /\ length q1 <= S n /\ length q2 <= S n /\ length q3 <= S n /\ length qm <= S n /\ length qc <= S n /\ length qa <= S n /\ length pi <= S n)%nat.
Hypothesis LS : (length s0 <= S n /\ length s1 <= S n /\ length s2 <= S n /\ length s3 <= S n)%nat.
Hypothesis LZ : (length z <= S n /\ length l1 <= S n)%nat.
Hypothesis LT : (length t0 <= S n /\ length t1 <= S n /\ length t2 <= S n /\ length t3 <= S n)%nat.
Notation ip := (ipoly K d ks alpha beta gamma w0 w1 w2 w3 q0 q1 q2 q3 qm qc qa pi s0 s1 s2 s3 z l1).
Lemma length_ip : (length ip <= S (5 * n))%nat.
Proof.
  destruct V as (Hn & _).
  assert (D : forall a (p : list K) b, (length p <= S a)%nat -> (a <= b)%nat -> (length p <= S b)%nat) by (intros; lia).
  assert (NF : forall w k, (length w <= S n)%nat -> (length (nfp K beta gamma w k) <= S n)%nat) by (intros; unfold nfp; rewrite !length_padd; cbn [length]; lia).
  assert (DF : forall w s, (length w <= S n)%nat -> (length s <= S n)%nat -> (length (dfp K beta gamma w s) <= S n)%nat) by (intros; unfold dfp; rewrite !length_padd, length_pscale; cbn [length]; lia).
  unfold ipoly. apply deg_add; [|apply deg_add; [apply deg_scale, deg_sub|apply deg_scale]].
  - apply (D (n + n + n + n)%nat); [|lia]. apply deg_mul; [|lia]. repeat apply deg_add; try lia;
      [apply (D (n + n)%nat); [apply deg_mul; lia|lia]..|apply deg_mul; [apply deg_mul|]; lia].
  - apply (D (n + n + n + n + n)%nat); [|lia]. repeat apply deg_mul; try (apply NF; lia). lia.
  - apply (D (n + n + n + n + n)%nat); [|lia]. repeat apply deg_mul; try (apply DF; lia). rewrite length_shift. lia.
  - apply (D (n + n)%nat); [|lia]. apply deg_mul; [|lia]. rewrite length_psub. cbn [length]. lia.
Qed.
Definition tpoly : list K := pmul (padd t0 (padd (repeat 0 n ++ t1) (padd (repeat 0 (2 * n) ++ t2) (repeat 0 (3 * n) ++ t3)))) (- (1) :: repeat 0 (n - 1) ++ [1]).
Lemma length_tpoly : (length tpoly <= S (5 * n))%nat.
Proof.
  destruct V as (Hn & _). unfold tpoly. replace (5 * n)%nat with (4 * n + n)%nat by lia. apply deg_mul; [|cbn [length]; rewrite app_length, repeat_length; cbn [length]; lia].
  rewrite !length_padd, !app_length, !repeat_length. lia.
Qed.
Lemma identity_all (i : info K) (zs : list K) : i_n i = n -> NoDup zs -> (5 * n < length zs)%nat ->
  (forall ze, In ze zs -> t_of K t0 t1 t2 t3 i ze * (ze ^ n - 1) = peval ip ze) -> forall j, (j < n)%nat -> peval ip (dgen d ^ j) = 0.
Proof.
  intros EI N L H j Hj. destruct (V) as (Hn & E1 & _).
  assert (ET : forall y, peval tpoly y = t_of K t0 t1 t2 t3 i y * (y ^ n - 1)).
  { intro y. unfold tpoly, t_of. rewrite EI. cbv zeta. rewrite peval_pmul, peval_xn1 by exact Hn. rewrite !peval_padd, !peval_shl. assert (P2 : y ^ (2 * n) = y ^ n * y ^ n) by (replace (2 * n)%nat with (n + n)%nat by lia; apply fpow_add).
    assert (P3 : y ^ (3 * n) = y ^ n * (y ^ n * y ^ n)) by (replace (3 * n)%nat with (n + (n + n))%nat by lia; rewrite !fpow_add; ring). rewrite P2, P3. ring. }
  pose proof (agree_eq K zs ip tpoly N) as A. specialize (A ltac:(pose proof length_ip; lia) ltac:(pose proof length_tpoly; lia)). specialize (A ltac:(intros y Iy; rewrite ET; symmetry; apply H; exact Iy)).
  rewrite (nth_eq_peval K _ _ A), ET. replace ((dgen d ^ j) ^ n) with (@f1 K); [ring|]. rewrite <- fpow_mul, Nat.mul_comm, fpow_mul, E1, fpow_1. reflexivity.
Qed.
End I.
Lemma quad_zero (a b c : K) al : NoDup al -> (2 < length al)%nat -> (forall x, In x al -> a + (b * x + c * (x * x)) = 0) -> a = 0 /\ b = 0 /\ c = 0.
Proof.
  intros N L H. assert (Z : is_zero [a; b; c]). { apply (roots_zero K al N); [cbn [length]; lia|]. intros x I. rewrite <- (H x I). cbn [peval]. ring. }
  inversion Z as [|? ? Z1 Z2]; subst. inversion Z2 as [|? ? Z3 Z4]; subst. inversion Z4; subst. auto.
Qed.
Lemma grand_prod n (z num den : nat -> K) : (0 < n)%nat -> z 0%nat = 1 -> (forall i, (i < n)%nat -> num i * z i - den i * z (Nat.modulo (S i) n) = 0) -> fprod (map num (seq 0 n)) = fprod (map den (seq 0 n)).
Proof.
  intros Hn Z0 H. assert (G : forall m, (m < n)%nat -> fprod (map num (seq 0 m)) = fprod (map den (seq 0 m)) * z m).
  { induction m as [|m IH]; intro L; [cbn; rewrite Z0; ring|]. rewrite !seq_S, !map_app, !fprod_app. cbn [map fprod Nat.add]. rewrite IH by lia. specialize (H m ltac:(lia)). rewrite Nat.mod_small in H by lia. apply (proj1 (fsub_0 K _ _)) in H.
    transitivity (fprod (map den (seq 0 m)) * (num m * z m)); [ring|]. rewrite H. ring. }
  replace n with (S (n - 1)) by lia. rewrite !seq_S, !map_app, !fprod_app. cbn [map fprod Nat.add]. rewrite G by lia. specialize (H (n - 1)%nat ltac:(lia)). replace (S (n - 1)) with n in H by lia. rewrite Nat.mod_same, Z0 in H by lia. apply (proj1 (fsub_0 K _ _)) in H.
  transitivity (fprod (map den (seq 0 (n - 1))) * (num (n - 1)%nat * z (n - 1)%nat)); [ring|]. rewrite H. ring.
Qed.
Lemma nth_dft (d : dom K) p i : (i < dsize d)%nat -> nth i (dft d p) 0 = peval p (dgen d ^ i).
Proof. intro H. unfold dft, dpts. rewrite map_map. apply nth_ms with (f := fun i => peval p (dgen d ^ i)). exact H. Qed.
Lemma exists_in {A} (l : list A) k : (k < length l)%nat -> exists x, In x l. Proof. destruct l as [|x l]; [cbn; lia|]. exists x. left. reflexivity. Qed.
(** *** extraction *)
Section X.
Variable dnew : nat -> option (dom K).
Variables (ops : list (op K)) (c : composer K) (order : list nat) (ks : list K) (srs : nat) (pk : pkey K (ideal_pcs K)) (vk : vkey K (ideal_pcs K)).
Hypothesis F : fft_ok dnew.
Hypothesis RO : run_ops (c_new K) ops = Ok c.
Hypothesis O : Permutation order (seq 0 (length (c_vmap c))).
Hypothesis KG : keygen dnew (PC := ideal_pcs K) srs c order ks tt = Ok (pk, vk).
Variables (w0 w1 w2 w3 pub : list K) (bs gs als zs : list K).
Notation d := (i_dn (v_info vk)). Notation n := (dsize d).
Hypothesis CK : cosets_ok d ks.
Hypothesis LW : (length w0 <= S n /\ length w1 <= S n /\ length w2 <= S n /\ length w3 <= S n)%nat.
Hypothesis NB : NoDup bs /\ (4 * n < length bs)%nat.
Hypothesis NG : NoDup gs /\ (4 * n < length gs)%nat.
Hypothesis NA : NoDup als /\ (2 < length als)%nat.
Hypothesis NZ : NoDup zs /\ (5 * n < length zs)%nat.
Hypothesis ACC : forall b g, In b bs -> In g gs -> exists z, (length z <= S n)%nat /\ forall al, In al als -> exists t0 t1 t2 t3, (length t0 <= S n /\ length t1 <= S n /\ length t2 <= S n /\ length t3 <= S n)%nat /\
  forall ze, In ze zs -> exists evs, verify (fixed_oracle (ideal_pcs K) b g al ze 0) vk pub (mkProof K (ideal_pcs K) [[w0; w1; w2; w3]; [z]; [t0; t1; t2; t3]] evs tt) = Ok true.
Lemma plonk_sound : exists a : nat -> K, rows_pub c pub a /\
  forall k i v, slot_var c (k, i) = Some v -> peval (nth k [w0; w1; w2; w3] []) (dgen d ^ i) = a v.
Proof.
  destruct (setup K dnew (ideal_pcs K) F ops c order ks srs tt pk vk RO O KG) as (x & ck & rk & crs & d0 & d4 & p & G & P & T & C & EV & EP & D & V & V4 & S4 & G4 & L). pose proof (gi_info _ _ _ _ _ _ _ _ G) as GI. pose proof (wfc K ops c RO) as W.
  assert (ED : d = d0) by (rewrite EV; cbn [v_info]; rewrite GI; reflexivity). rewrite ED in *. clear ED. rename d0 into d'. assert (EN : i_n (x_info x) = dsize d') by (rewrite GI; reflexivity).
  apply commit_ideal in C.
  set (f := fun s : wire => peval (nth (fst s) [w0; w1; w2; w3] []) (dgen d' ^ snd s)).
  set (pin := pub ++ repeat 0 (dsize d' - length pub)).
  set (wl := map (dft d') [w0; w1; w2; w3]).
  assert (FW : forall k i, (k < 4)%nat -> (i < dsize d')%nat -> nth i (nth k wl []) 0 = f (k, i)). { intros k i Hk Hi. unfold wl, f. cbn [fst snd]. rewrite (nth_indep _ _ (dft d' [])) by (cbn; lia). rewrite map_nth. apply nth_dft. exact Hi. }
  (* what acceptance means on the domain *)
  assert (KEY : forall b g, In b bs -> In g gs -> exists z : list K, (length pub <= dsize d')%nat /\ forall i, (i < dsize d')%nat ->
     row (nth i (c_q0 c) 0) (nth i (c_q1 c) 0) (nth i (c_q2 c) 0) (nth i (c_q3 c) 0) (nth i (c_qm c) 0) (nth i (c_qc c) 0) (nth i pub 0) (f (0, i)%nat) (f (1, i)%nat) (f (2, i)%nat) (f (3, i)%nat) * (if Nat.ltb i (c_n c) then 1 else 0) = 0 /\
     pnum K x wl b g i * nth i (dft d' z) 0 - pden K x wl b g i * nth (Nat.modulo (S i) (dsize d')) (dft d' z) 0 = 0 /\ (nth i (dft d' z) 0 - 1) * (if Nat.eqb i 0 then 1 else 0) = 0).
  { intros b g Ib Ig. destruct (ACC b g Ib Ig) as (z & LZ & AL). exists z.
    assert (AC : forall al, In al als -> exists t0 t1 t2 t3, (length t0 <= S (dsize d') /\ length t1 <= S (dsize d') /\ length t2 <= S (dsize d') /\ length t3 <= S (dsize d'))%nat /\ forall ze, In ze zs ->
        (length pub <= dsize d')%nat /\ t_of K t0 t1 t2 t3 (x_info x) ze * (ze ^ dsize d' - 1) = iev K ks d' x [w0; w1; w2; w3] z (interp d' pin) al b g ze).
    { intros al Ia. destruct (AL al Ia) as (t0 & t1 & t2 & t3 & LT & H). exists t0, t1, t2, t3. split; [exact LT|]. intros ze Iz. destruct (H ze Iz) as (evs & A).
      destruct (ideal_accept K dnew c ks d' d4 p x (map fst crs) vk rk pub _ _ _ _ _ _ _ _ _ _ _ _ _ _ _ _ V G C EV A) as (A1 & _ & A2). split; [exact A1|exact A2]. }
    split. { destruct (exists_in als 2 ltac:(apply NA)) as (al & Ia). destruct (exists_in zs (5 * dsize d') ltac:(apply NZ)) as (ze & Iz). destruct (AC al Ia) as (t0 & t1 & t2 & t3 & LT & H). apply (H ze Iz). }
    intros i Hi.
    assert (IE : forall al, In al als -> iev K ks d' x [w0; w1; w2; w3] z (interp d' pin) al b g (dgen d' ^ i) = 0).
    { intros al Ia. destruct (AC al Ia) as (t0 & t1 & t2 & t3 & LT & H).
      pose proof (identity_all d' ks al b g w0 w1 w2 w3 (t_poly (x_q0 x)) (t_poly (x_q1 x)) (t_poly (x_q2 x)) (t_poly (x_q3 x)) (t_poly (x_qm x)) (t_poly (x_qc x)) (t_poly (x_qa x)) (interp d' pin)
         (t_poly (x_s0 x)) (t_poly (x_s1 x)) (t_poly (x_s2 x)) (t_poly (x_s3 x)) z (first_lagrange_poly d') t0 t1 t2 t3 V LW) as Q.
      assert (TL : forall v, (length (t_poly (mk_tri d' d4 v)) <= S (dsize d'))%nat) by (intro v; pose proof (tri_length K d' d4 v); lia). assert (IL : forall v : list K, (length (interp d' v) <= S (dsize d'))%nat) by (intro v; pose proof (length_interp K d' v); lia).
      match type of Q with ?A -> _ => assert (QA : A) by (rewrite (gi_q0 _ _ _ _ _ _ _ _ G), (gi_q1 _ _ _ _ _ _ _ _ G), (gi_q2 _ _ _ _ _ _ _ _ G), (gi_q3 _ _ _ _ _ _ _ _ G), (gi_qm _ _ _ _ _ _ _ _ G), (gi_qc _ _ _ _ _ _ _ _ G), (gi_qa _ _ _ _ _ _ _ _ G); repeat split; try apply TL; apply IL); specialize (Q QA); clear QA end.
      match type of Q with ?A -> _ => assert (QA : A) by (rewrite (gi_s0 _ _ _ _ _ _ _ _ G), (gi_s1 _ _ _ _ _ _ _ _ G), (gi_s2 _ _ _ _ _ _ _ _ G), (gi_s3 _ _ _ _ _ _ _ _ G); repeat split; apply TL); specialize (Q QA); clear QA end.
      match type of Q with ?A -> _ => assert (QA : A) by (split; [exact LZ|unfold first_lagrange_poly; apply IL]); specialize (Q QA); clear QA end.
      specialize (Q LT (x_info x) zs EN (proj1 NZ) (proj2 NZ)).
      assert (Q' : forall ze, In ze zs -> t_of K t0 t1 t2 t3 (x_info x) ze * (ze ^ dsize d' - 1) = peval (ipoly K d' ks al b g w0 w1 w2 w3 (t_poly (x_q0 x)) (t_poly (x_q1 x)) (t_poly (x_q2 x)) (t_poly (x_q3 x)) (t_poly (x_qm x)) (t_poly (x_qc x)) (t_poly (x_qa x)) (interp d' pin)
         (t_poly (x_s0 x)) (t_poly (x_s1 x)) (t_poly (x_s2 x)) (t_poly (x_s3 x)) z (first_lagrange_poly d')) ze) by (intros ze Iz; rewrite peval_ipoly; apply (H ze Iz)).
      specialize (Q Q' i Hi). rewrite peval_ipoly in Q. exact Q. }
    assert (TR : forall al, iev K ks d' x [w0; w1; w2; w3] z (interp d' pin) al b g (dgen d' ^ i) = iev K ks d' x (map (interp d') wl) (interp d' (dft d' z)) (interp d' pin) al b g (dgen d' ^ i)).
    { intro al. unfold iev, wl. cbn [map nth]. rewrite !(pow_next K c d' L V i Hi). rewrite !(peval_interp K d' (dft d' _)) by (try exact V; try exact Hi; apply (in_mod K c d' L); exact Hi). rewrite !nth_dft by (try exact Hi; apply (in_mod K c d' L); exact Hi). reflexivity. }
    assert (QZ : forall al, In al als -> row (nth i (c_q0 c) 0) (nth i (c_q1 c) 0) (nth i (c_q2 c) 0) (nth i (c_q3 c) 0) (nth i (c_qm c) 0) (nth i (c_qc c) 0) (nth i pub 0) (f (0, i)%nat) (f (1, i)%nat) (f (2, i)%nat) (f (3, i)%nat) * (if Nat.ltb i (c_n c) then 1 else 0) +
      ((pnum K x wl b g i * nth i (dft d' z) 0 - pden K x wl b g i * nth (Nat.modulo (S i) (dsize d')) (dft d' z) 0) * al + (nth i (dft d' z) 0 - 1) * (if Nat.eqb i 0 then 1 else 0) * (al * al)) = 0).
    { intros al Ia. pose proof (IE al Ia) as Q. rewrite TR, (iev_dom K dnew c ks d' d4 p x W L V G) in Q by (try reflexivity; exact Hi). rewrite !FW in Q by (try exact Hi; lia). unfold pin in Q. rewrite nth_pad0 in Q. exact Q. }
    exact (quad_zero _ _ _ als (proj1 NA) (proj2 NA) QZ). }
  (* copy constraints *)
  assert (PS : shape (dsize d') p) by (destruct (wire_perm_spec K c (dsize d') order W L O) as (p0 & E & S & _); congruence).
  assert (LS : length (slots (dsize d')) = (4 * dsize d')%nat) by (unfold slots; cbn [seq flat_map]; rewrite !app_length, !map_length, seq_length; cbn [length]; lia).
  assert (INV : forall s, In s (slots (dsize d')) -> f (target p s) = f s).
  { apply (copy_sound f (sigma_of d' ks) (target p) (slots (dsize d')) bs gs (proj1 NB) (proj1 NG)); [rewrite LS; apply NB|rewrite LS; apply NG| |exact CK|].
    - intros s I. eapply Permutation_in; [exact (wire_perm_bij K c (dsize d') order W L O p P)|]. apply in_map. exact I.
    - intros b g Ib Ig. destruct (KEY b g Ib Ig) as (z & _ & H).
      pose proof (grand_prod (dsize d') (fun i => nth i (dft d' z) 0) (pnum K x wl b g) (pden K x wl b g)) as GP. rewrite (fprod_slots K (dsize d') (fun s => f s + b * sigma_of d' ks s + g)), (fprod_slots K (dsize d') (fun s => f s + b * sigma_of d' ks (target p s) + g)).
      transitivity (fprod (map (pnum K x wl b g) (seq 0 (dsize d')))).
      { f_equal. apply map_ext_in. intros i I. apply in_seq in I. unfold pnum. rewrite GI. cbn [i_ks i_dn]. cbv zeta. rewrite !FW by lia. unfold nfac, sigma_of. cbn [fst snd]. ring. }
      rewrite GP.
      + f_equal. apply map_ext_in. intros i I. apply in_seq in I. unfold pden. rewrite (gi_s0 _ _ _ _ _ _ _ _ G), (gi_s1 _ _ _ _ _ _ _ _ G), (gi_s2 _ _ _ _ _ _ _ _ G), (gi_s3 _ _ _ _ _ _ _ _ G). unfold mk_tri. cbn [t_val]. cbv zeta. rewrite !FW by lia. rewrite !nth_sigma by (try exact PS; lia). unfold dfac. ring.
      + apply V.
      + destruct (H 0%nat ltac:(apply V)) as (_ & _ & H0). cbn [Nat.eqb] in H0. apply (proj1 (fsub_0 K _ _)). match type of H0 with ?A * ?B = 0 => assert (Q : A * B = A) by ring; rewrite Q in H0; exact H0 end.
      + intros i Hi. apply (H i Hi). }
  destruct (proj1 (wire_perm_const K c (dsize d') order W L O p f P) INV) as (a & HA). exists a. split.
  - destruct (exists_in bs _ (proj2 NB)) as (b & Ib). destruct (exists_in gs _ (proj2 NG)) as (g & Ig). destruct (KEY b g Ib Ig) as (z & _ & H). intros i Hi. destruct (H i ltac:(lia)) as (R & _ & _). destruct (Nat.ltb_spec i (c_n c)); [|lia].
    assert (SV : forall k, (k < 4)%nat -> f (k, i) = a (nth i (col c k) 0%nat)). { intros k Hk. apply HA. unfold slot_var. cbn [fst snd]. apply nth_error_nth'. destruct (wf_w K c W) as (W0 & W1 & W2 & W3). unfold col. destruct k as [|[|[|[|k]]]]; cbn [nth]; lia. }
    pose proof (SV 0%nat ltac:(lia)) as A0. pose proof (SV 1%nat ltac:(lia)) as A1. pose proof (SV 2%nat ltac:(lia)) as A2. pose proof (SV 3%nat ltac:(lia)) as A3. unfold col in A0, A1, A2, A3. cbn [nth] in A0, A1, A2, A3. rewrite A0, A1, A2, A3 in R. match type of R with ?A * ?B = 0 => assert (Q : A * B = A) by ring; rewrite Q in R; exact R end.
  - intros k i v E. exact (HA (k, i) v E).
Qed.
End X.
End P.
