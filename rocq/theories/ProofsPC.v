(** Proofs about the polynomial commitment scheme. *)
From Verif Require Import Field Poly Module ModTac ModelPC SpecPC.
Local Open Scope fld_scope.
Section P.
Variable K : Fld.
Variable PR : Pairing K.
Add Field Kf : (f_laws K).
Notation G := (G1 PR).
Notation ptrim := (ptrim K).
(** ** trimming *)
Lemma forallb_zero (p : list K) : forallb (fun c => feqb c 0) p = true <-> is_zero p.
Proof. rewrite forallb_forall. unfold is_zero. rewrite Forall_forall. split; intros H x I; [apply feqb_eq|apply feqb_eq]; auto. Qed.
Lemma ptrim_cons c p : ptrim (c :: p) = match ptrim p with [] => if feqb c 0 then [] else [c] | _ => c :: ptrim p end.
Proof. reflexivity. Qed.
Lemma nth_ptrim p : forall i, nth i (ptrim p) 0 = nth i p 0.
Proof.
  induction p as [|c p IH]; intro i; [reflexivity|]. rewrite ptrim_cons. destruct (ptrim p) as [|d q] eqn:E.
  - destruct (feqb_spec _ c 0) as [->|]; destruct i as [|i]; cbn [nth]; try reflexivity; rewrite <- IH; try (destruct i; reflexivity).
  - destruct i as [|i]; cbn [nth]; [reflexivity|]. apply IH.
Qed.
Lemma peval_ptrim p x : peval (ptrim p) x = peval p x.
Proof. apply nth_eq_peval. apply nth_ptrim. Qed.
Lemma length_ptrim p : (length (ptrim p) <= length p)%nat.
Proof. induction p as [|c p IH]; [cbn; lia|]. rewrite ptrim_cons. destruct (ptrim p); [destruct (feqb c 0); cbn; lia|cbn [length] in *; lia]. Qed.
Lemma ptrim_canonical p : canonical (ptrim p).
Proof.
  induction p as [|c p IH]; [intro H; exfalso; apply H; reflexivity|]. rewrite ptrim_cons. destruct (ptrim p) as [|d q] eqn:E.
  - destruct (feqb_spec _ c 0) as [->|N]; intro H; [congruence|exact N].
  - intros _. change (last (c :: d :: q) 0) with (last (d :: q) 0). apply IH. discriminate.
Qed.
Lemma ptrim_id p : canonical p -> ptrim p = p.
Proof.
  induction p as [|c p IH]; intro C; [reflexivity|]. rewrite ptrim_cons. destruct p as [|d p].
  - cbn. destruct (feqb_spec _ c 0) as [->|]; [|reflexivity]. exfalso. apply C; [discriminate|reflexivity].
  - rewrite IH; [reflexivity|]. intros _. apply C. discriminate.
Qed.
Lemma canonical_degree p d : degree K p = Ok d -> d = (length (ptrim p) - 1)%nat /\ (1 <= d -> canonical p)%nat.
Proof.
  unfold degree. destruct (forallb _ p) eqn:E.
  - intro H. injection H as <-. split; [|lia]. apply forallb_zero in E. assert (Z : ptrim p = []); [|rewrite Z; reflexivity].
    induction E as [|c p Hc E IH]; [reflexivity|]. rewrite ptrim_cons, IH, Hc. destruct (feqb_spec _ (0 : K) 0); [reflexivity|congruence].
  - destruct (feqb_spec _ (last p 0) 0) as [|N]; [discriminate|]. intro H. injection H as <-. rewrite ptrim_id by (intros _; exact N). split; [reflexivity|]. intros _ _. exact N.
Qed.
Lemma degree_canonical p : canonical p -> degree K p = Ok (length p - 1)%nat.
Proof.
  intro C. unfold degree. destruct (forallb _ p) eqn:E.
  - apply forallb_zero in E. destruct p as [|c p]; [reflexivity|]. exfalso. assert (last (c :: p) 0 = 0); [|apply C; [discriminate|assumption]].
    apply zero_nth with (K := K) in E || rewrite zero_nth in E. specialize (E (length p)). rewrite <- E. clear. revert c. induction p as [|d p IH]; intro c; [reflexivity|]. exact (IH d).
  - destruct (feqb_spec _ (last p 0) 0) as [N|]; [|reflexivity]. destruct p as [|c p]; [discriminate|]. exfalso. apply C; [discriminate|exact N].
Qed.
(** ** sums *)
Lemma msm_powers (beta : K) (g : G) n : forall s p, msm (map (fun i => gsm (beta ^ i) g) (seq s n)) p = gsm (beta ^ s * peval (firstn n p) beta) g.
Proof.
  induction n as [|n IH]; intros s p.
  - cbn [seq map firstn peval]. destruct p; cbn [msm]; gmod; ring.
  - destruct p as [|c p]; cbn [seq map firstn peval msm]; [gmod; ring|]. rewrite IH. cbn [fpow]. gmod; ring.
Qed.
Lemma msm_powers_le beta (g : G) n p : (length p <= n)%nat -> msm (map (fun i => gsm (beta ^ i) g) (seq 0 n)) p = gsm (peval p beta) g.
Proof. intro L. rewrite msm_powers, firstn_all2 by exact L. cbn [fpow]. gmod; ring. Qed.
Lemma skip_ok p : forall n m cs, skip_zeros K p n = Ok (m, cs) -> exists k, m = (n + k)%nat /\ p = repeat 0 k ++ cs.
Proof.
  induction p as [|c p IH]; intros n m cs E; cbn [skip_zeros] in E; [discriminate|]. destruct (feqb_spec _ c 0) as [->|].
  - apply IH in E. destruct E as (k & -> & ->). exists (S k). split; [lia|reflexivity].
  - injection E as <- <-. exists 0%nat. split; [lia|reflexivity].
Qed.
Lemma skip_total p : ~ is_zero p -> forall n, exists m cs, skip_zeros K p n = Ok (m, cs).
Proof.
  induction p as [|c p IH]; intros Z n; [exfalso; apply Z; constructor|]. cbn [skip_zeros]. destruct (feqb_spec _ c 0) as [->|]; [|eauto].
  apply IH. intro H. apply Z. constructor; auto.
Qed.
Lemma msm_zeros (gs : list G) : forall k cs, msm gs (repeat 0 k ++ cs) = msm (skipn k gs) cs.
Proof.
  induction gs as [|g gs IH]; intros [|k] cs; cbn [repeat app msm skipn]; try reflexivity. rewrite IH, gsm_0, gadd_0. reflexivity.
Qed.
Lemma msm_from_ok gs p w : msm_from K PR gs p = Ok w -> w = msm gs p.
Proof.
  unfold msm_from. destruct (skip_zeros K p 0) as [[m cs]| |] eqn:E; try discriminate. cbn [rbind]. destruct (Nat.ltb _ _); [discriminate|]. intro H. injection H as <-.
  apply skip_ok in E. destruct E as (k & -> & ->). cbn [Nat.add]. symmetry. apply msm_zeros.
Qed.
Lemma msm_from_total gs p : ~ is_zero p -> (length p <= length gs)%nat -> msm_from K PR gs p = Ok (msm gs p).
Proof.
  intros Z L. unfold msm_from. destruct (skip_total p Z 0) as (m & cs & E). rewrite E. cbn [rbind]. apply skip_ok in E. destruct E as (k & -> & ->). cbn [Nat.add].
  rewrite app_length, repeat_length in L. destruct (Nat.ltb_spec (length gs) k); [lia|]. f_equal. symmetry. apply msm_zeros.
Qed.
(** ** the key *)
Variables (beta : K) (g gam : G) (h : G2 PR).
Definition good_pw (pw : powers K PR) (s n m : nat) : Prop := pg K PR pw = map (fun i => gsm (beta ^ i) g) (seq s n) /\ pgam K PR pw = map (fun i => gsm (beta ^ i) gam) (seq 0 m).
Definition good_vk (vk : vkey K PR) (sd : nat) : Prop := vk = mkVK K PR g gam h (gsm beta h) sd.
Lemma firstn_map_seq {A} (f : nat -> A) a : forall n s, (a <= n)%nat -> firstn a (map f (seq s n)) = map f (seq s a).
Proof. induction a as [|a IH]; intros [|n] s L; try lia; try reflexivity. cbn [seq map firstn]. rewrite IH by lia. reflexivity. Qed.
Lemma skipn_map_seq {A} (f : nat -> A) a : forall n s, skipn a (map f (seq s n)) = map f (seq (s + a) (n - a)).
Proof.
  induction a as [|a IH]; intros n s; [rewrite Nat.add_0_r, Nat.sub_0_r; reflexivity|]. destruct n as [|n]; [reflexivity|]. cbn [Nat.sub seq map skipn]. rewrite IH. replace (S s + a)%nat with (s + S a)%nat by lia. reflexivity.
Qed.
Lemma trim_ok n sd ck vk : kzg_trim K PR (kzg_setup K PR n beta g gam h) sd = Ok (ck, vk) -> (sd <= n)%nat /\ good_pw (ck_pw K PR ck) 0 (S sd) (S sd) /\ ck_sd K PR ck = sd /\ good_vk vk sd.
Proof.
  unfold kzg_trim. change (u_g K PR (kzg_setup K PR n beta g gam h)) with (map (fun i => gsm (beta ^ i) g) (seq 0 (S n))). change (u_gamma K PR (kzg_setup K PR n beta g gam h)) with (map (fun i => gsm (beta ^ i) gam) (seq 0 (S n))).
  rewrite !map_length, !seq_length. destruct (Nat.ltb_spec (S n - 1) sd) as [|L]; [discriminate|]. destruct (Nat.ltb_spec (S n) (S sd)); [lia|]. cbn [orb].
  rewrite !firstn_map_seq by lia. cbn [seq map]. intro E. injection E as <- <-. cbn [ck_pw ck_sd]. split; [lia|]. split; [split; reflexivity|]. split; [reflexivity|]. unfold good_vk. f_equal; cbn [fpow]; apply gsm_1.
Qed.
Lemma trim_total n sd : (sd <= n)%nat -> exists ck vk, kzg_trim K PR (kzg_setup K PR n beta g gam h) sd = Ok (ck, vk).
Proof.
  intro L. unfold kzg_trim. change (u_g K PR (kzg_setup K PR n beta g gam h)) with (map (fun i => gsm (beta ^ i) g) (seq 0 (S n))). change (u_gamma K PR (kzg_setup K PR n beta g gam h)) with (map (fun i => gsm (beta ^ i) gam) (seq 0 (S n))).
  rewrite !map_length, !seq_length. destruct (Nat.ltb_spec (S n - 1) sd); [lia|]. destruct (Nat.ltb_spec (S n) (S sd)); [lia|]. cbn [orb]. rewrite !firstn_map_seq by lia. cbn [seq map]. eauto.
Qed.
(** ** KZG *)
Lemma commit_ok pw s n m p hb dr c r : good_pw pw s n m -> (match hb with Some b => b < m | None => True end)%nat ->
  kzg_commit K PR pw p hb dr = Ok (c, r) -> c = ped g gam (beta ^ s * peval p beta) (peval r beta) /\ (length r <= m)%nat /\ canonical p /\ (length p <= n)%nat /\ (1 < length p)%nat.
Proof.
  intros [E1 E2] Hb E. unfold kzg_commit in E. destruct (degree K p) as [d| |] eqn:Ed; try discriminate. cbn [rbind] in E. unfold check_degree in E.
  destruct (Nat.ltb_spec d 1) as [|D1]; [discriminate|]. destruct (Nat.ltb_spec (pow_degree K PR pw) d) as [|D2]; [discriminate|]. cbn [rbind] in E.
  destruct (canonical_degree _ _ Ed) as [Hd C]. specialize (C D1). rewrite ptrim_id in Hd by exact C.
  unfold pow_degree in D2. rewrite E1, map_length, seq_length in D2.
  destruct (msm_from K PR (pg K PR pw) p) as [w| |] eqn:Ew; try discriminate. cbn [rbind] in E. apply msm_from_ok in Ew. rewrite E1, msm_powers, firstn_all2 in Ew by lia.
  unfold ped. destruct hb as [b|].
  - unfold check_hiding in E. destruct (Nat.eqb b 0); [discriminate|]. destruct (Nat.ltb _ b); [discriminate|]. cbn [rbind] in E. injection E as <- <-.
    assert (Lr : (length (ptrim (firstn (S b) dr)) <= m)%nat) by (pose proof (length_ptrim (firstn (S b) dr)) as L1; rewrite firstn_length in L1; lia).
    rewrite E2, msm_powers_le by exact Lr. rewrite Ew. split; [reflexivity|]. split; [exact Lr|]. split; [exact C|]. lia.
  - injection E as <- <-. rewrite Ew. cbn [peval length]. split; [gmod; ring|]. split; [lia|]. split; [exact C|]. lia.
Qed.
Lemma commit_total pw s n m p hb dr : good_pw pw s n m -> canonical p -> (1 < length p <= n)%nat -> (match hb with Some b => 1 <= b <= n | None => True end)%nat ->
  exists c r, kzg_commit K PR pw p hb dr = Ok (c, r).
Proof.
  intros [E1 E2] C L Hb. unfold kzg_commit. rewrite degree_canonical by exact C. cbn [rbind]. unfold check_degree, pow_degree. rewrite E1, map_length, seq_length.
  destruct (Nat.ltb_spec (length p - 1) 1); [lia|]. destruct (Nat.ltb_spec (n - 1) (length p - 1)); [lia|]. cbn [rbind].
  rewrite msm_from_total; [|intro Z; apply (C ltac:(intro H'; subst; cbn in L; lia)); rewrite zero_nth in Z; specialize (Z (length p - 1)%nat)|rewrite map_length, seq_length; lia].
  - cbn [rbind]. destruct hb as [b|]; [|eauto]. unfold check_hiding. destruct (Nat.eqb_spec b 0); [lia|]. destruct (Nat.ltb_spec n b); [lia|]. cbn [rbind]. eauto.
  - rewrite <- Z. clear. induction p as [|c p IH]; [reflexivity|]. destruct p as [|d p]; [reflexivity|]. cbn [length] in *. replace (S (S (length p)) - 1)%nat with (S (S (length p) - 1)) by lia. cbn [nth]. exact IH.
Qed.
Lemma pdivx_spec (p : list K) (z : K) : exists q, fst (pdivx z p) = q /\ length q = (length p - 1)%nat /\ forall x, peval p x = (x - z) * peval q x + peval p z.
Proof.
  pose proof (pdivx_ok K z p) as H. destruct (pdivx z p) as [q v]. destruct H as (L & -> & H). exists q. auto.
Qed.
Lemma pair_g0_l (v : G2 PR) : pair_e (g0 : G) v = g0.
Proof. rewrite <- (gsm_0 K (G1 PR) g0), pair_sm_l. apply gsm_0. Qed.
Lemma pair_beta_z (w : G) (z : K) : pair_e w (gadd (gsm beta h) (gopp (gsm z h))) = pair_e (gsm (beta - z) w) h.
Proof. rewrite pair_add_r, gopp_sm, <- gsm_mul, !pair_sm_r, pair_sm_l. gmod; ring. Qed.
(** The verdict for a key made by setup. *)
Lemma check_exact vk sd c z v pf : good_vk vk sd -> kzg_check K PR vk c z v pf =
  Ok (geqb (pair_e (gadd (gadd c (gopp (gsm v g))) (match k_rand_v K PR pf with Some rv => gopp (gsm rv gam) | None => g0 end)) h) (pair_e (gsm (beta - z) (k_w K PR pf)) h)).
Proof.
  intro Ev. unfold good_vk in Ev. subst vk. unfold kzg_check. cbn [vk_g vk_gamma vk_h vk_beta_h]. rewrite pair_beta_z. destruct (k_rand_v K PR pf); [reflexivity|]. rewrite gadd_0r. reflexivity.
Qed.
Lemma open_check pw n m sd vk p r z pf : good_pw pw 0 n m -> good_vk vk sd -> (length r <= S m)%nat -> kzg_open K PR pw p z r = Ok pf ->
  kzg_check K PR vk (ped g gam (peval p beta) (peval r beta)) z (peval p z) pf = Ok true.
Proof.
  intros [E1 E2] Ev Lr E. rewrite (check_exact vk sd) by exact Ev. unfold kzg_open in E. destruct (degree K p) as [d| |] eqn:Ed; try discriminate. cbn [rbind] in E. unfold check_degree in E.
  destruct (Nat.ltb_spec d 1) as [|D1]; [discriminate|]. destruct (Nat.ltb_spec (length (pg K PR pw)) d) as [|D2]; [discriminate|]. cbn [rbind] in E.
  destruct (canonical_degree _ _ Ed) as [Hd C]. specialize (C D1). rewrite ptrim_id in Hd by exact C. rewrite E1, map_length, seq_length in D2.
  unfold witness_poly in E. destruct (msm_from K PR (pg K PR pw) (ptrim (fst (pdivx z p)))) as [w| |] eqn:Ew; try discriminate. cbn [rbind] in E. apply msm_from_ok in Ew.
  destruct (pdivx_spec p z) as (q & Eq & Lq & Hq). rewrite Eq in Ew. rewrite E1, msm_powers_le, peval_ptrim in Ew by (pose proof (length_ptrim q); lia).
  f_equal. apply geqb_eq. f_equal. unfold ped. specialize (Hq beta). destruct (is_hiding K r) eqn:Eh.
  - injection E as <-. cbn [k_rand_v k_w]. destruct (pdivx_spec r z) as (q' & Eq' & Lq' & Hq'). rewrite Eq', E2, msm_powers_le, peval_ptrim by (pose proof (length_ptrim q'); lia).
    specialize (Hq' beta). rewrite Ew, Hq, Hq'. gmod; ring.
  - injection E as <-. cbn [k_rand_v k_w]. unfold is_hiding in Eh. apply negb_false_iff, forallb_zero in Eh. rewrite (peval_zero K r _ Eh), Ew, Hq. gmod; ring.
Qed.
Lemma quotient_nonzero p z : canonical p -> (1 < length p)%nat -> ~ is_zero (ptrim (fst (pdivx z p))).
Proof.
  intros C L Z. assert (Z' : is_zero (fst (pdivx z p))) by (apply zero_nth; intro i; rewrite <- nth_ptrim; revert i; apply zero_nth; exact Z).
  clear Z. apply C; [intro H; subst; cbn in L; lia|]. revert L Z'. clear C. destruct p as [|c p]; [cbn; lia|]. revert c. induction p as [|d p IH]; intros c L Z; [cbn in L; lia|].
  change (last (c :: d :: p) 0) with (last (d :: p) 0). cbn [pdivx] in Z. fold (pdivx z (d :: p)) in Z. destruct p as [|e p].
  - cbn in Z. exact (Forall_inv Z).
  - apply IH; [cbn; lia|]. change (is_zero (fst (let '(q, v) := pdivx z (d :: e :: p) in (v :: q, c + z * v)))) in Z. destruct (pdivx z (d :: e :: p)) as [q v]. cbn [fst] in *. inversion Z; subst; assumption.
Qed.
Lemma open_total pw n m p r z : good_pw pw 0 n m -> canonical p -> (1 < length p <= S n)%nat -> exists pf, kzg_open K PR pw p z r = Ok pf.
Proof.
  intros [E1 E2] C L. unfold kzg_open. rewrite degree_canonical by exact C. cbn [rbind]. unfold check_degree. rewrite E1, map_length, seq_length.
  destruct (Nat.ltb_spec (length p - 1) 1); [lia|]. destruct (Nat.ltb_spec n (length p - 1)); [lia|]. cbn [rbind]. unfold witness_poly.
  rewrite msm_from_total; [cbn [rbind]; eauto|apply quotient_nonzero; [exact C|lia]|].
  rewrite map_length, seq_length. destruct (pdivx_spec p z) as (q & -> & Lq & _). pose proof (length_ptrim q). lia.
Qed.
End P.
