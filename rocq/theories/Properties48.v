(** Theorems C119 to C122: byte encodings, accessors and conversions of keys, cells of the scripts. *)
From Verif Require Import Field Poly Module ModelLC ModelCS SpecCS ModelGroth16 ModelSerial SpecSerial ModelContract ProofsSerial ProofsSerial2.
Local Open Scope nat_scope.
Definition any {A : Type} (x : A) : Prop := True.
(** Vector lengths fit into u64. *)
Definition vk_fits (K : PFld) (PR : Pairing K) (v : vkey K PR) : Prop := u64_len (gamma_abc_g1 K PR v).
Definition params_fit (K : PFld) (PR : Pairing K) (p : params K PR) : Prop :=
  vk_fits K PR (pvk K PR p) /\ u64_len (a_query K PR p) /\ u64_len (b_g1_query K PR p) /\ u64_len (b_g2_query K PR p) /\ u64_len (h_query K PR p) /\ u64_len (l_query K PR p).

(** ** C119: plonk's IndexInfo *)
Theorem C119_info_round_trip : forall (F D : Type) (f : codec F) (d : codec D), lossless f any -> lossless d any ->
  lossless (mkCodec (info_ser f d) (info_de f d)) (fun x => 0 <= ii_n x < 2 ^ 64)%Z.
Proof. intros F D f d H1 H2 x r N. exact (info_ll f d any any H1 H2 x r N I I I I I). Qed.
Print Assumptions C119_info_round_trip.
Theorem C119_info_local : forall (F D : Type) (f : codec F) (d : codec D), local f -> local d -> local (mkCodec (info_ser f d) (info_de f d)).
Proof. exact @info_loc. Qed.
Print Assumptions C119_info_local.
Theorem C119_info_size : forall (F D : Type) (f : codec F) (d : codec D) n m, sized f n -> sized d m -> forall x, length (info_ser f d x) = info_size (fun _ => n) (fun _ => m) x.
Proof. intros F D f d n m H1 H2 x. exact (info_len f d n m x H1 H2). Qed.
Print Assumptions C119_info_size.
Theorem C119_info_truncated : forall (F D : Type) (f : codec F) (d : codec D), lossless f any -> lossless d any -> local f -> local d ->
  forall x k, (0 <= ii_n x < 2 ^ 64)%Z -> k < length (info_ser f d x) -> info_de f d (firstn k (info_ser f d x)) = None.
Proof. intros F D f d H1 H2 H3 H4. exact (truncated (mkCodec (info_ser f d) (info_de f d)) _ (C119_info_round_trip F D f d H1 H2) (info_loc f d H3 H4)). Qed.
Print Assumptions C119_info_truncated.

(** ** C120: Groth16 proofs, verification keys and parameters *)
Theorem C120_round_trip : forall (K : PFld) (PR : Pairing K) (c1 : codec (G1 PR)) (c2 : codec (G2 PR)), lossless c1 any -> lossless c2 any ->
  lossless (c_proof K PR c1 c2) any /\ lossless (c_vkey K PR c1 c2) (vk_fits K PR) /\ lossless (c_params K PR c1 c2) (params_fit K PR).
Proof. intros K PR c1 c2 H1 H2. exact (conj (proof_ll K PR c1 c2 H1 H2) (conj (vkey_ll K PR c1 c2 H1 H2) (params_ll K PR c1 c2 H1 H2))). Qed.
Print Assumptions C120_round_trip.
Theorem C120_local : forall (K : PFld) (PR : Pairing K) (c1 : codec (G1 PR)) (c2 : codec (G2 PR)), local c1 -> local c2 ->
  local (c_proof K PR c1 c2) /\ local (c_vkey K PR c1 c2) /\ local (c_params K PR c1 c2).
Proof. intros K PR c1 c2 H1 H2. exact (conj (proof_loc K PR c1 c2 H1 H2) (conj (vkey_loc K PR c1 c2 H1 H2) (params_loc K PR c1 c2 H1 H2))). Qed.
Print Assumptions C120_local.
(** Nothing shorter than an encoding can be read, and no encoding begins another. *)
Theorem C120_truncated : forall (A : Type) (c : codec A) (P : A -> Prop), lossless c P -> local c -> forall x k, P x -> k < length (ser c x) -> de c (firstn k (ser c x)) = None.
Proof. exact @truncated. Qed.
Print Assumptions C120_truncated.
Theorem C120_prefix_free : forall (A : Type) (c : codec A) (P : A -> Prop), lossless c P -> forall x y r s, P x -> P y -> ser c x ++ r = ser c y ++ s -> x = y /\ r = s.
Proof. exact @prefix_free. Qed.
Print Assumptions C120_prefix_free.
Theorem C120_sizes : forall (K : PFld) (PR : Pairing K) (c1 : codec (G1 PR)) (c2 : codec (G2 PR)) n m, sized c1 n -> sized c2 m ->
  (forall pf, length (ser (c_proof K PR c1 c2) pf) = 2 * n + m) /\ (forall v, length (ser (c_vkey K PR c1 c2) v) = n + 3 * m + 8 + n * length (gamma_abc_g1 K PR v)).
Proof. intros K PR c1 c2 n m H1 H2. split; [intro pf; rewrite (proof_size K PR c1 c2 n m H1 H2 pf); lia|]. intro v. exact (vkey_size K PR c1 c2 n m v H1 H2). Qed.
Print Assumptions C120_sizes.
(** A generated key, in terms of the circuit's numbers of inputs (with the constant) and private variables and the domain. *)
Theorem C120_key_sizes : forall (K : PFld) (PR : Pairing K) dnew (c1 : codec (G1 PR)) (c2 : codec (G2 PR)) n m (circuit : M K unit) (al be ga de t : K) (h1 : G1 PR) (h2 : G2 PR) p, sized c1 n -> sized c2 m ->
  generate_parameters K PR dnew circuit al be ga de t h1 h2 = Ok p ->
  exists s d, circuit (cs_new Setup) = Ok (tt, s) /\ dnew (length (cons s) + (length (inps s) - 1) + 1) = Some d /\
    length (ser (c_vkey K PR c1 c2) (pvk K PR p)) = n + 3 * m + 8 + n * length (inps s) /\
    length (ser (c_params K PR c1 c2) p) = n + 3 * m + 8 + n * length (inps s) + 2 * n + 40 + n * (2 * (length (inps s) + length (auxs s)) + (dsize d - 1) + length (auxs s)) + m * (length (inps s) + length (auxs s)).
Proof.
  intros K PR dnew c1 c2 n m circuit al be ga de t h1 h2 p H1 H2 E. destruct (gen_sizes K PR dnew circuit al be ga de t h1 h2 p E) as (s & Es & L1 & L2 & L3 & L4 & L5 & d & Ed & L6). exists s, d. split; [exact Es|]. split; [exact Ed|].
  rewrite (params_size K PR c1 c2 n m p H1 H2), (vkey_size K PR c1 c2 n m _ H1 H2), L1, L2, L3, L4, L5, L6. unfold num_inputs, num_aux. split; [reflexivity|]. f_equal. f_equal. f_equal. lia.
Qed.
Print Assumptions C120_key_sizes.

(** ** C121: cells of the verifier scripts *)
(** Encodings matching the script's decoders, with any bytes after them, give the verifier's answer. *)
Theorem C121_trailing_bytes : forall (VK P X : Type) (cv : codec VK) (cp : codec P) (cx : codec X) (verify : VK -> P -> list X -> res bool) GV GP GX, lossless cv GV -> lossless cp GP -> lossless cx GX ->
  forall v p x j1 j2 j3, GV v -> GP p -> GX x ->
  main_single (read_all cv) (read_all cp) (read_all cx) verify (cells (ser cv v ++ j1) (ser cp p ++ j2) (ser cx x ++ j3)) = verdict (verify v p [x]).
Proof. intros VK P X cv cp cx verify GV GP GX L1 L2 L3 v p x j1 j2 j3. exact (script_honest cv cp cx verify GV GP GX v p x j1 j2 j3 L1 L2 L3). Qed.
Print Assumptions C121_trailing_bytes.
(** The Groth16 script reads the longer, uncompressed form, the command line program writes the compressed one: its proofs are refused, whatever the other cells. *)
Theorem C121_compressed_proofs_refused : forall (K : PFld) (PR : Pairing K) (c1 u1 : codec (G1 PR)) (c2 u2 : codec (G2 PR)) n1 n2 m1 m2,
  sized c1 n1 -> sized c2 n2 -> needs u1 m1 -> needs u2 m2 -> 2 * n1 + n2 < 2 * m1 + m2 ->
  forall (X : Type) (cx : codec X) (verify : vkey K PR -> proof K PR -> list X -> res bool) pf a c,
  program_entry (main_single (read_all (c_vkey K PR u1 u2)) (read_all (c_proof K PR u1 u2)) (read_all cx) verify (cells a (ser (c_proof K PR c1 c2) pf) c)) = Some (code_of EEncoding).
Proof.
  intros K PR c1 u1 c2 u2 n1 n2 m1 m2 S1 S2 N1 N2 L X cx verify pf a c. rewrite (script_short (c_vkey K PR u1 u2) (c_proof K PR u1 u2) cx verify (m1 + (m2 + m1)) _ (proof_needs K PR u1 u2 m1 m2 N1 N2)); [reflexivity|].
  rewrite (proof_size K PR c1 c2 n1 n2 S1 S2 pf). lia.
Qed.
Print Assumptions C121_compressed_proofs_refused.

(** ** C122: accessors, conversions, defaults *)
Theorem C122_slices : forall (K : PFld) (PR : Pairing K) (p : params K PR) n,
  (1 <= n <= length (a_query K PR p) -> exists q0 u v, get_a_query K PR p n = Ok (u, v) /\ a_query K PR p = q0 :: u ++ v /\ length u = n - 1) /\
  (1 <= n <= length (b_g1_query K PR p) -> exists q0 u v, get_b_g1_query K PR p n = Ok (u, v) /\ b_g1_query K PR p = q0 :: u ++ v /\ length u = n - 1) /\
  (1 <= n <= length (b_g2_query K PR p) -> exists q0 u v, get_b_g2_query K PR p n = Ok (u, v) /\ b_g2_query K PR p = q0 :: u ++ v /\ length u = n - 1) /\
  (n <= length (h_query K PR p) -> exists u v, get_h_query K PR p n = Ok (u, v) /\ h_query K PR p = u ++ v /\ length u = n) /\
  (~ 1 <= n <= length (a_query K PR p) -> get_a_query K PR p n = Panic) /\ (~ 1 <= n <= length (b_g1_query K PR p) -> get_b_g1_query K PR p n = Panic) /\
  (~ 1 <= n <= length (b_g2_query K PR p) -> get_b_g2_query K PR p n = Panic) /\ (length (h_query K PR p) < n -> get_h_query K PR p n = Panic).
Proof.
  intros K PR p n.
  assert (H : forall (A : Type) (q : list A), 1 <= n <= length q -> exists q0 u v, slices 1 q n = Ok (u, v) /\ q = q0 :: u ++ v /\ length u = n - 1).
  { intros A q L. destruct (slices_ok 1 q n L) as (E & J & L1 & _). destruct q as [|q0 q]; [cbn in L; lia|]. do 3 eexists. split; [exact E|]. split; [symmetry; exact J|exact L1]. }
  repeat split; intro L; try (apply H, L); try (apply slices_panic, L); [|apply slices_panic; lia].
  destruct (slices_ok 0 (h_query K PR p) n ltac:(lia)) as (E & J & L1 & _). do 2 eexists. split; [exact E|]. split; [symmetry; exact J|rewrite L1; lia].
Qed.
Print Assumptions C122_slices.
(** Accumulating over the slices at the number of inputs is what the prover does over the whole query. *)
Theorem C122_sums : forall (K : PFld) (G : Grp K) (ini vkp : G) (q : list G) (xs ws : list K), S (length xs) <= length q ->
  exists q0 u v, hd_error q = Some q0 /\ slices 1 q (S (length xs)) = Ok (u, v) /\ calculate_coeff K ini q vkp (xs ++ ws) = Ok (gadd (gadd (gadd ini q0) (gadd (msm u xs) (msm v ws))) vkp).
Proof. intros K G ini vkp q xs ws. exact (slices_sum ini q vkp xs ws). Qed.
Print Assumptions C122_sums.
Theorem C122_generated : forall (K : PFld) (PR : Pairing K) dnew (circuit : M K unit) (al be ga de t : K) (h1 : G1 PR) (h2 : G2 PR) p, generate_parameters K PR dnew circuit al be ga de t h1 h2 = Ok p ->
  exists s, circuit (cs_new Setup) = Ok (tt, s) /\ (forall n, get_a_query K PR p n = Panic <-> ~ 1 <= n <= length (inps s) + length (auxs s)) /\
    (1 <= length (inps s) -> exists u v, get_a_query K PR p (length (inps s)) = Ok (u, v) /\ length u = length (inps s) - 1 /\ length v = length (auxs s)).
Proof.
  intros K PR dnew circuit al be ga de t h1 h2 p E. destruct (gen_sizes K PR dnew circuit al be ga de t h1 h2 p E) as (s & Es & _ & L2 & _). exists s. split; [exact Es|]. unfold num_inputs, num_aux in L2. unfold get_a_query. split.
  - intro n. rewrite <- L2. split; [|apply slices_panic]. intros P R. rewrite (proj1 (slices_ok 1 _ n R)) in P. discriminate.
  - intro L. destruct (slices_ok 1 (a_query K PR p) (length (inps s)) ltac:(lia)) as (E' & _ & A & B). do 2 eexists. split; [exact E'|]. split; [exact A|rewrite B; lia].
Qed.
Print Assumptions C122_generated.
Theorem C122_conversions : forall (K : PFld) (PR : Pairing K), (forall v, vk_of_pvk K PR (pvk_of_vk K PR v) = v) /\ (forall q, pvk_of_vk K PR (vk_of_pvk K PR q) = q <-> exists v, q = prepare K PR v).
Proof. intros K PR. exact (conj (conv_id K PR) (conv_back K PR)). Qed.
Print Assumptions C122_conversions.
Theorem C122_default_keys_refuse : forall (K : PFld) (PR : Pairing K) e m pf xs,
  verify_proof K PR (pvk_default K PR e m) pf xs = Err MalformedVerifyingKey /\ verify_proof K PR (pvk_of_vk K PR (vk_default K PR)) pf xs = Err MalformedVerifyingKey.
Proof. exact default_rejects. Qed.
Print Assumptions C122_default_keys_refuse.

(** ** Concrete instances *)
From Verif Require Import Gold Zp ProofsLC ProofsCS Properties9.
(** [n] little-endian bytes for a field element: a short form of eight bytes and a long one of sixteen. *)
Definition fe (n : nat) : codec Fg := mkCodec (fun x => le_bytes n (toZ x)) (fun b => if Nat.ltb (length b) n then None else Some (of_Z (of_le_bytes (firstn n b)), skipn n b)).
Lemma fe_ll n : 8 <= n -> lossless (fe n) any.
Proof.
  intros Hn x r _. cbn [fe ser de]. rewrite app_length, le_bytes_length. replace (n + length r <? n) with false by (symmetry; apply Nat.ltb_ge; lia).
  rewrite firstn_app, skipn_app, le_bytes_length, Nat.sub_diag, firstn_O, app_nil_r, firstn_all2, skipn_all2 by (rewrite le_bytes_length; lia). cbn [app skipn].
  pose proof (toZ_range x) as R. assert (pmod Fg <= 256 ^ 8)%Z as B by (vm_compute; discriminate). assert (256 ^ 8 <= 256 ^ Z.of_nat n)%Z as B' by (apply Z.pow_le_mono_r; lia).
  rewrite of_le_bytes_le by lia. rewrite of_toZ. reflexivity.
Qed.
Lemma fe_loc n : local (fe n).
Proof.
  intros b x r H. cbn [fe de] in *. destruct (Nat.ltb_spec (length b) n) as [|L]; [discriminate|]. injection H as <- <-. exists (firstn n b). split; [symmetry; apply firstn_skipn|]. intro r'.
  assert (length (firstn n b) = n) as E by (rewrite firstn_length; lia). rewrite app_length, E. replace (n + length r' <? n) with false by (symmetry; apply Nat.ltb_ge; lia).
  rewrite firstn_app, skipn_app, E, Nat.sub_diag, firstn_O, app_nil_r, (skipn_all2 (firstn n b)), (firstn_all2 (firstn n b)) by lia. reflexivity.
Qed.
Lemma fe_needs n : needs (fe n) n.
Proof. intros b x r H. cbn [fe de] in H. destruct (Nat.ltb_spec (length b) n) as [|L]; [discriminate|]. assert (r = skipn n b) as -> by congruence. rewrite skipn_length. lia. Qed.
Lemma fe_size n : sized (fe n) n. Proof. intro. apply le_bytes_length. Qed.
Notation PE := (self_pairing Fg).
Definition key48 : res (params Fg PE) := generate_parameters Fg PE dnew4 (square_circuit 5) (z_ 3) (z_ 4) (z_ 5) (z_ 6) (z_ 11) (z_ 1) (z_ 2).
Definition pf48 : proof Fg PE := mkPrf Fg PE (z_ 258) (z_ 7) (z_ 9).
Example ex_C119 : let x := mkInfo 16 (z_ 1) (z_ 2) (z_ 3) (z_ 4) (z_ 5) in
  info_de (fe 8) (fe 8) (info_ser (fe 8) (fe 8) x ++ [7%Z]) = Some (x, [7%Z]) /\ length (info_ser (fe 8) (fe 8) x) = 48 /\ info_de (fe 8) (fe 8) (firstn 47 (info_ser (fe 8) (fe 8) x)) = None.
Proof.
  cbv zeta. split; [|split; [reflexivity|]].
  - apply (C119_info_round_trip Fg Fg (fe 8) (fe 8) (fe_ll 8 ltac:(lia)) (fe_ll 8 ltac:(lia)) (mkInfo 16 (z_ 1) (z_ 2) (z_ 3) (z_ 4) (z_ 5)) [7%Z]). cbn [ii_n]. lia.
  - apply C119_info_truncated; [apply fe_ll; lia|apply fe_ll; lia|apply fe_loc|apply fe_loc|cbn [ii_n]; lia|]. rewrite (C119_info_size Fg Fg (fe 8) (fe 8) 8 8 (fe_size 8) (fe_size 8)). cbn. lia.
Qed.
Example ex_C120 : firstn 3 (ser (c_proof Fg PE (fe 8) (fe 8)) pf48) = [2; 1; 0]%Z /\ length (ser (c_proof Fg PE (fe 8) (fe 8)) pf48) = 24 /\ de (c_proof Fg PE (fe 8) (fe 8)) (ser (c_proof Fg PE (fe 8) (fe 8)) pf48 ++ [1; 2; 3]%Z) = Some (pf48, [1; 2; 3]%Z) /\ match key48 with Ok p => length (ser (c_vkey Fg PE (fe 8) (fe 8)) (pvk Fg PE p)) = 56 | _ => False end.
Proof.
  split; [vm_compute; reflexivity|]. split; [vm_compute; reflexivity|]. split; [|vm_compute; reflexivity].
  exact (proj1 (C120_round_trip Fg PE (fe 8) (fe 8) (fe_ll 8 ltac:(lia)) (fe_ll 8 ltac:(lia))) pf48 [1; 2; 3]%Z I).
Qed.
Example ex_C121 : forall a c, program_entry (main_single (read_all (c_vkey Fg PE (fe 16) (fe 16))) (read_all (c_proof Fg PE (fe 16) (fe 16))) (read_all (fe 16)) (fun v => verify_proof Fg PE (prepare Fg PE v))
  (cells a (ser (c_proof Fg PE (fe 8) (fe 8)) pf48) c)) = Some (code_of EEncoding).
Proof. intros a c. apply (C121_compressed_proofs_refused Fg PE (fe 8) (fe 16) (fe 8) (fe 16) 8 8 16 16 (fe_size 8) (fe_size 8) (fe_needs 16) (fe_needs 16)). lia. Qed.
Example ex_C122 : match key48 with Ok p => match get_a_query Fg PE p 2 with Ok (u, v) => length u = 1 /\ length v = 2 | _ => False end /\ match get_a_query Fg PE p 0 with Panic => True | _ => False end /\ match get_a_query Fg PE p 5 with Panic => True | _ => False end /\ match get_h_query Fg PE p 0 with Ok (u, v) => length v = 3 | _ => False end | _ => False end.
Proof. vm_compute. repeat split. Qed.
