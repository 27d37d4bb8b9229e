(** Proofs about the encodings (C119-C122). *)
From Verif Require Import Field Module ModelLC ProofsLC ModelCS ModelGroth16 ModelSerial SpecSerial ModelContract.
Notation all := (fun _ => True).

Lemma usize_ll : lossless c_usize (fun n => 0 <= n < 2 ^ 64)%Z.
Proof.
  intros n r H. unfold c_usize, de, ser. rewrite app_length, le_bytes_length. replace (8 + length r <? 8)%nat with false by (symmetry; apply Nat.ltb_ge; lia).
  rewrite firstn_app, skipn_app, le_bytes_length, Nat.sub_diag, firstn_O, app_nil_r, firstn_all2, skipn_all2 by (rewrite le_bytes_length; lia). cbn [app skipn]. rewrite of_le_bytes_le by (exact H). reflexivity.
Qed.
Lemma usize_loc : local c_usize.
Proof.
  intros b n r H. unfold c_usize, de in *. destruct (Nat.ltb_spec (length b) 8) as [|L]; [discriminate|]. injection H as <- <-. exists (firstn 8 b). split; [symmetry; apply firstn_skipn|]. intro r'.
  assert (length (firstn 8 b) = 8%nat) as E by (rewrite firstn_length; lia). rewrite app_length, E. replace (8 + length r' <? 8)%nat with false by (symmetry; apply Nat.ltb_ge; lia).
  rewrite firstn_app, skipn_app, E, Nat.sub_diag, firstn_O, app_nil_r, (skipn_all2 (firstn 8 b)), (firstn_all2 (firstn 8 b)) by lia. reflexivity.
Qed.
Lemma usize_needs : needs c_usize 8.
Proof. intros b n r H. unfold c_usize, de in H. destruct (Nat.ltb_spec (length b) 8) as [|L]; [discriminate|]. assert (r = skipn 8 b) as -> by congruence. rewrite skipn_length. lia. Qed.
Lemma usize_size : sized c_usize 8. Proof. intro. apply le_bytes_length. Qed.

Section Comb.
Context {A B : Type} (a : codec A) (b : codec B).
Lemma pair_ll P Q : lossless a P -> lossless b Q -> lossless (c_pair a b) (fun '(x, y) => P x /\ Q y).
Proof. intros H1 H2 [x y] r [p q]. cbn [c_pair ser de]. rewrite <- app_assoc, H1, H2 by assumption. reflexivity. Qed.
Lemma pair_loc : local a -> local b -> local (c_pair a b).
Proof.
  intros H1 H2 w [x y] r E. cbn [c_pair de] in *. destruct (de a w) as [[x' w1]|] eqn:E1; [|discriminate]. destruct (de b w1) as [[y' w2]|] eqn:E2; [|discriminate]. injection E as -> -> ->.
  destruct (H1 _ _ _ E1) as (u & -> & U). destruct (H2 _ _ _ E2) as (v & -> & V). exists (u ++ v). split; [apply app_assoc|]. intro r'. rewrite <- app_assoc, U, V. reflexivity.
Qed.
Lemma pair_needs n m : needs a n -> needs b m -> needs (c_pair a b) (n + m).
Proof.
  intros H1 H2 w [x y] r E. cbn [c_pair de] in E. destruct (de a w) as [[x' w1]|] eqn:E1; [|discriminate]. destruct (de b w1) as [[y' w2]|] eqn:E2; [|discriminate]. injection E as -> -> ->.
  specialize (H1 _ _ _ E1). specialize (H2 _ _ _ E2). lia.
Qed.
Lemma pair_size n m : sized a n -> sized b m -> sized (c_pair a b) (n + m).
Proof. intros H1 H2 [x y]. cbn [c_pair ser]. rewrite app_length, H1, H2. reflexivity. Qed.
Variables (f : A -> B) (g : B -> A).
Lemma iso_ll P : (forall y, f (g y) = y) -> lossless a P -> lossless (c_iso f g a) (fun y => P (g y)).
Proof. intros FG H y r p. cbn [c_iso ser de]. rewrite H, FG by exact p. reflexivity. Qed.
Lemma iso_loc : local a -> local (c_iso f g a).
Proof.
  intros H w y r E. cbn [c_iso de] in *. destruct (de a w) as [[x w1]|] eqn:E1; [|discriminate]. injection E as <- ->. destruct (H _ _ _ E1) as (u & -> & U). exists u. split; [reflexivity|]. intro r'. rewrite U. reflexivity.
Qed.
Lemma iso_needs n : needs a n -> needs (c_iso f g a) n.
Proof. intros H w y r E. cbn [c_iso de] in E. destruct (de a w) as [[x w1]|] eqn:E1; [|discriminate]. injection E as <- ->. exact (H _ _ _ E1). Qed.
Lemma many_ll P : lossless a P -> forall l r, Forall P l -> de_many a (length l) (flat_map (ser a) l ++ r) = Some (l, r).
Proof. intros H l r F. induction F as [|x l p F IH]; [reflexivity|]. cbn [length flat_map de_many]. rewrite <- app_assoc, H, IH by exact p. reflexivity. Qed.
Lemma many_loc : local a -> forall n w l r, de_many a n w = Some (l, r) -> exists u, w = u ++ r /\ forall r', de_many a n (u ++ r') = Some (l, r').
Proof.
  intros H. induction n as [|n IH]; intros w l r E; cbn [de_many] in *; [injection E as <- <-; exists []; split; reflexivity|].
  destruct (de a w) as [[x w1]|] eqn:E1; [|discriminate]. destruct (de_many a n w1) as [[l' w2]|] eqn:E2; [|discriminate]. injection E as <- ->.
  destruct (H _ _ _ E1) as (u & -> & U). destruct (IH _ _ _ E2) as (v & -> & V). exists (u ++ v). split; [apply app_assoc|]. intro r'. rewrite <- app_assoc, U, V. reflexivity.
Qed.
Lemma many_len n : forall w l r, de_many a n w = Some (l, r) -> length l = n.
Proof.
  induction n as [|n IH]; intros w l r E; cbn [de_many] in E; [injection E as <- <-; reflexivity|].
  destruct (de a w) as [[x w1]|] eqn:E1; [|discriminate]. destruct (de_many a n w1) as [[l' w2]|] eqn:E2; [|discriminate]. injection E as <- ->. cbn [length]. f_equal. exact (IH _ _ _ E2).
Qed.
Lemma many_needs k : needs a k -> forall n w l r, de_many a n w = Some (l, r) -> (k * n + length r <= length w)%nat.
Proof.
  intro H. induction n as [|n IH]; intros w l r E; cbn [de_many] in E; [injection E as <- <-; lia|].
  destruct (de a w) as [[x w1]|] eqn:E1; [|discriminate]. destruct (de_many a n w1) as [[l' w2]|] eqn:E2; [|discriminate]. injection E as <- ->. specialize (H _ _ _ E1). specialize (IH _ _ _ E2). lia.
Qed.
Lemma vec_ll P : lossless a P -> lossless (c_vec a) (fun l => Forall P l /\ u64_len l).
Proof.
  intros H l r [F L]. cbn [c_vec ser de]. rewrite <- app_assoc, usize_ll by (unfold u64_len in L; lia).
  rewrite Nat2Z.id. exact (many_ll P H l r F).
Qed.
Lemma vec_loc : local a -> local (c_vec a).
Proof.
  intros H w l r E. cbn [c_vec de] in *. destruct (de c_usize w) as [[n w1]|] eqn:E1; [|discriminate]. destruct (usize_loc _ _ _ E1) as (u & -> & U). destruct (many_loc H _ _ _ _ E) as (v & -> & V).
  exists (u ++ v). split; [apply app_assoc|]. intro r'. rewrite <- app_assoc, U. apply V.
Qed.
Lemma flat_size n : sized a n -> forall l, length (flat_map (ser a) l) = (n * length l)%nat.
Proof. intros H l. induction l as [|x l IH]; cbn [flat_map length]; [lia|]. rewrite app_length, H, IH. lia. Qed.
Lemma vec_size n : sized a n -> forall l, length (ser (c_vec a) l) = (8 + n * length l)%nat.
Proof. intros H l. cbn [c_vec ser]. rewrite app_length, usize_size, (flat_size n H). reflexivity. Qed.
(** No strict prefix of an encoding can be read. *)
Lemma truncated P : lossless a P -> local a -> forall x k, P x -> (k < length (ser a x))%nat -> de a (firstn k (ser a x)) = None.
Proof.
  intros LL LO x k p L. destruct (de a (firstn k (ser a x))) as [[y r]|] eqn:E; [|reflexivity]. exfalso. destruct (LO _ _ _ E) as (u & Eu & U).
  pose proof (LL x [] p) as R. rewrite app_nil_r, <- (firstn_skipn k (ser a x)), Eu, <- app_assoc, U in R. injection R as _ R. apply app_eq_nil in R. destruct R as [_ R]. apply (f_equal (@length Z)) in R. rewrite skipn_length in R. cbn in R. lia.
Qed.
(** Two values with a common encoded beginning are equal. *)
Lemma prefix_free P : lossless a P -> forall x y r s, P x -> P y -> ser a x ++ r = ser a y ++ s -> x = y /\ r = s.
Proof. intros LL x y r s p q E. pose proof (LL x r p) as H. rewrite E, (LL y s q) in H. injection H as -> ->. split; reflexivity. Qed.
End Comb.

Section Keys.
Variable K : PFld.
Variable PR : Pairing K.
Variables (c1 : codec (G1 PR)) (c2 : codec (G2 PR)).
Definition good_vk (v : vkey K PR) : Prop := u64_len (gamma_abc_g1 K PR v).
Definition good_params (p : params K PR) : Prop :=
  good_vk (pvk K PR p) /\ u64_len (a_query K PR p) /\ u64_len (b_g1_query K PR p) /\ u64_len (b_g2_query K PR p) /\ u64_len (h_query K PR p) /\ u64_len (l_query K PR p).
Lemma Fall {A} (l : list A) : Forall all l. Proof. apply Forall_forall. trivial. Qed.
Lemma ll_weak {A} (c : codec A) (P Q : A -> Prop) : (forall x, Q x -> P x) -> lossless c P -> lossless c Q.
Proof. intros H L x r q. apply L, H, q. Qed.
Lemma proof_ll : lossless c1 all -> lossless c2 all -> lossless (c_proof K PR c1 c2) all.
Proof. intros H1 H2. eapply ll_weak; [|apply iso_ll; [|apply pair_ll; [exact H1|apply pair_ll; [exact H2|exact H1]]]]; [cbn; tauto|intros []; reflexivity]. Qed.
Lemma vkey_ll : lossless c1 all -> lossless c2 all -> lossless (c_vkey K PR c1 c2) good_vk.
Proof.
  intros H1 H2. eapply ll_weak; [|apply iso_ll; [|apply pair_ll; [exact H1|apply pair_ll; [exact H2|apply pair_ll; [exact H2|apply pair_ll; [exact H2|apply vec_ll; exact H1]]]]]]; [|intros []; reflexivity].
  intros v G. cbn. repeat split; [apply Fall|exact G].
Qed.
Lemma params_ll : lossless c1 all -> lossless c2 all -> lossless (c_params K PR c1 c2) good_params.
Proof.
  intros H1 H2. eapply ll_weak; [|apply iso_ll; [|apply pair_ll; [exact (vkey_ll H1 H2)|apply pair_ll; [exact H1|apply pair_ll; [exact H1|apply pair_ll; [apply vec_ll; exact H1|apply pair_ll; [apply vec_ll; exact H1|apply pair_ll; [apply vec_ll; exact H2|apply pair_ll; apply vec_ll; exact H1]]]]]]]]; [|intros []; reflexivity].
  intros v (G0 & G1' & G2' & G3 & G4 & G5). cbn. repeat split; try apply Fall; assumption.
Qed.
Lemma proof_loc : local c1 -> local c2 -> local (c_proof K PR c1 c2).
Proof. intros H1 H2. apply iso_loc. repeat apply pair_loc; assumption. Qed.
Lemma vkey_loc : local c1 -> local c2 -> local (c_vkey K PR c1 c2).
Proof. intros H1 H2. apply iso_loc. repeat apply pair_loc; try assumption. apply vec_loc, H1. Qed.
Lemma params_loc : local c1 -> local c2 -> local (c_params K PR c1 c2).
Proof. intros H1 H2. apply iso_loc. repeat apply pair_loc; try apply vec_loc; try assumption. apply vkey_loc; assumption. Qed.
Lemma proof_needs n m : needs c1 n -> needs c2 m -> needs (c_proof K PR c1 c2) (n + (m + n)).
Proof. intros H1 H2. apply iso_needs. repeat apply pair_needs; assumption. Qed.
Lemma proof_size n m : sized c1 n -> sized c2 m -> sized (c_proof K PR c1 c2) (n + (m + n)).
Proof. intros H1 H2 p. exact (pair_size c1 (c_pair c2 c1) n (m + n) H1 (pair_size c2 c1 m n H2 H1) (pa K PR p, (pb K PR p, pc K PR p))). Qed.
Lemma vkey_size n m v : sized c1 n -> sized c2 m -> length (ser (c_vkey K PR c1 c2) v) = (n + 3 * m + 8 + n * length (gamma_abc_g1 K PR v))%nat.
Proof. intros H1 H2. unfold c_vkey. cbn [c_iso c_pair ser]. rewrite !app_length, H1, !H2, (vec_size c1 n H1). lia. Qed.
Lemma params_size n m p : sized c1 n -> sized c2 m -> length (ser (c_params K PR c1 c2) p) =
  (length (ser (c_vkey K PR c1 c2) (pvk K PR p)) + 2 * n + 40 + n * (length (a_query K PR p) + length (b_g1_query K PR p) + length (h_query K PR p) + length (l_query K PR p)) + m * length (b_g2_query K PR p))%nat.
Proof. intros H1 H2. unfold c_params. cbn [c_iso c_pair ser]. rewrite !app_length, !H1, !(vec_size c1 n H1), (vec_size c2 m H2). lia. Qed.
End Keys.

(** ** Scripts *)
Section Script.
Context {VK P X : Type} (cv : codec VK) (cp : codec P) (cx : codec X) (verify : VK -> P -> list X -> res bool).
Lemma script_honest GV GP GX v p x j1 j2 j3 : lossless cv GV -> lossless cp GP -> lossless cx GX -> GV v -> GP p -> GX x ->
  main_single (read_all cv) (read_all cp) (read_all cx) verify (cells (ser cv v ++ j1) (ser cp p ++ j2) (ser cx x ++ j3)) = verdict (verify v p [x]).
Proof. intros L1 L2 L3 g1 g2 g3. unfold main_single, with_cells, cells, decode, read_all. rewrite L1, L2, L3 by assumption. reflexivity. Qed.
Lemma script_short n b : needs cp n -> (length b < n)%nat -> forall a c, main_single (read_all cv) (read_all cp) (read_all cx) verify (cells a b c) = Fail EEncoding.
Proof.
  intros N L a c. unfold main_single, with_cells, cells, decode, read_all. destruct (de cv a) as [[v r]|]; [|reflexivity]. destruct (de cp b) as [[p r']|] eqn:E; [|reflexivity]. specialize (N _ _ _ E). lia.
Qed.
End Script.

(** ** IndexInfo *)
Section Info.
Context {F D : Type} (f : codec F) (d : codec D).
Lemma info_ll PF PD : lossless f PF -> lossless d PD -> forall x r, (0 <= ii_n x < 2 ^ 64)%Z -> PF (ii_k0 x) -> PF (ii_k1 x) -> PF (ii_k2 x) -> PF (ii_k3 x) -> PD (ii_domain x) ->
  info_de f d (info_ser f d x ++ r) = Some (x, r).
Proof. intros L1 L2 [n k0 k1 k2 k3 g] r N A B C E G. unfold info_de, info_ser. cbn [ii_n ii_k0 ii_k1 ii_k2 ii_k3 ii_domain] in *. rewrite <- !app_assoc, usize_ll, !L1, L2 by assumption. reflexivity. Qed.
Lemma info_len n m x : sized f n -> sized d m -> length (info_ser f d x) = info_size (fun _ => n) (fun _ => m) x.
Proof. intros H1 H2. unfold info_ser, info_size. rewrite !app_length, usize_size, !H1, H2. lia. Qed.
Lemma info_loc : local f -> local d -> local (mkCodec (info_ser f d) (info_de f d)).
Proof.
  intros H1 H2. assert (L : local (c_iso (fun '(n, (k0, (k1, (k2, (k3, g))))) => mkInfo n k0 k1 k2 k3 g) (fun x => (ii_n x, (ii_k0 x, (ii_k1 x, (ii_k2 x, (ii_k3 x, ii_domain x)))))) (c_pair c_usize (c_pair f (c_pair f (c_pair f (c_pair f d))))))).
  { apply iso_loc. repeat apply pair_loc; try assumption. apply usize_loc. }
  assert (E : forall w, info_de f d w = de (c_iso (fun '(n, (k0, (k1, (k2, (k3, g))))) => mkInfo n k0 k1 k2 k3 g) (fun x => (ii_n x, (ii_k0 x, (ii_k1 x, (ii_k2 x, (ii_k3 x, ii_domain x)))))) (c_pair c_usize (c_pair f (c_pair f (c_pair f (c_pair f d)))))) w).
  { intro w. unfold info_de. cbn [c_iso c_pair de]. repeat (match goal with |- context [match ?e with Some _ => _ | None => _ end] => destruct e as [[? ?]|]; [|reflexivity] end). reflexivity. }
  intros b x r H. cbn [de] in H. rewrite E in H. destruct (L _ _ _ H) as (u & -> & U). exists u. split; [reflexivity|]. intro r'. cbn [de]. rewrite E. apply U.
Qed.
End Info.

(** ** Accessors and conversions *)
Lemma slices_ok {A} lo (q : list A) n : (lo <= n <= length q)%nat -> slices lo q n = Ok (firstn (n - lo) (skipn lo q), skipn n q) /\
  firstn lo q ++ firstn (n - lo) (skipn lo q) ++ skipn n q = q /\ length (firstn (n - lo) (skipn lo q)) = (n - lo)%nat /\ length (skipn n q) = (length q - n)%nat.
Proof.
  intros [L1 L2]. unfold slices. rewrite (proj2 (Nat.leb_le _ _) L1), (proj2 (Nat.leb_le _ _) L2). split; [reflexivity|]. split; [|split].
  - replace (skipn n q) with (skipn (n - lo) (skipn lo q)); [rewrite !firstn_skipn; reflexivity|]. replace n with (lo + (n - lo))%nat at 2 by lia. generalize (n - lo)%nat. clear. revert q. induction lo as [|lo IH]; intros [|x q] k; cbn; try reflexivity; [apply skipn_nil|apply IH].
  - rewrite firstn_length, skipn_length. lia.
  - apply skipn_length.
Qed.
Lemma slices_panic {A} lo (q : list A) n : ~ (lo <= n <= length q)%nat -> slices lo q n = Panic.
Proof. intro H. unfold slices. destruct (Nat.leb_spec lo n); [|reflexivity]. destruct (Nat.leb_spec n (length q)); [lia|reflexivity]. Qed.
Lemma msm_app {K : Fld} {G : Grp K} (u v : list G) : forall a b, length u = length a -> msm (u ++ v) (a ++ b) = gadd (msm u a) (msm v b).
Proof. induction u as [|x u IH]; intros [|k a] b L; try discriminate; cbn [app msm]; [rewrite gadd_0; reflexivity|]. rewrite IH by (cbn in L; lia). apply gadd_assoc. Qed.
(** The accumulators over the whole query are the sums over the two slices. *)
Lemma slices_sum {K : PFld} {G : Grp K} (ini : G) q vkp (xs ws : list K) : (S (length xs) <= length q)%nat ->
  exists q0 u v, hd_error q = Some q0 /\ slices 1 q (S (length xs)) = Ok (u, v) /\ calculate_coeff K ini q vkp (xs ++ ws) = Ok (gadd (gadd (gadd ini q0) (gadd (msm u xs) (msm v ws))) vkp).
Proof.
  intro L. destruct q as [|q0 q]; [cbn in L; lia|]. destruct (slices_ok 1 (q0 :: q) (S (length xs)) ltac:(lia)) as (E & J & L1 & _). 
  revert E J L1. generalize (firstn (S (length xs) - 1) (skipn 1 (q0 :: q))) (skipn (S (length xs)) (q0 :: q)). intros u v E J L1. exists q0, u, v. split; [reflexivity|]. split; [exact E|].
  cbn [firstn app] in J. injection J as J. cbn [calculate_coeff]. rewrite <- J, msm_app; [reflexivity|]. rewrite L1. lia.
Qed.
Section Conv.
Variable K : PFld.
Variable PR : Pairing K.
Lemma default_rejects e m (pf : proof K PR) xs : verify_proof K PR (pvk_default K PR e m) pf xs = Err MalformedVerifyingKey /\ verify_proof K PR (pvk_of_vk K PR (vk_default K PR)) pf xs = Err MalformedVerifyingKey.
Proof. split; unfold verify_proof; cbn; replace (length xs + 1)%nat with (S (length xs)) by lia; reflexivity. Qed.
Lemma conv_id v : vk_of_pvk K PR (pvk_of_vk K PR v) = v. Proof. reflexivity. Qed.
Lemma conv_back p : pvk_of_vk K PR (vk_of_pvk K PR p) = p <-> exists v, p = prepare K PR v.
Proof. split; [intro E; exists (vk_of_pvk K PR p); symmetry; exact E|intros [v ->]; reflexivity]. Qed.
End Conv.
