(** Proofs about the digests of ModelDigest.v. *)
From Verif Require Import Field Poly Module ModelTranscript ModelLC SpecLC ModelCS ModelLibra ModelSigma ModelSpartan ModelSpark ModelHyrax SpecSpartan ModelDigest SpecDigest.
From Coq Require Import String List Lia Arith Bool.
Import ListNotations.
Local Open Scope string_scope.
Local Open Scope list_scope.
Local Open Scope fld_scope.

Section S.
Variable K : Fld.
Variable G : Grp K.
Add Field Kf : (f_laws K).
Notation tr := (transcript K G).

Lemma msg_dec (a b : msg K G) : {a = b} + {a <> b}.
Proof.
  assert (dk : forall x y : K, {x = y} + {x <> y}) by (intros x y; destruct (feqb_spec K x y); auto).
  assert (dg : forall x y : G, {x = y} + {x <> y}) by (intros x y; destruct (geqb_spec K G x y); auto).
  assert (ds := string_dec). assert (dn := Nat.eq_dec). repeat decide equality.
Qed.
(** A function that separates [t] from all others. *)
Definition separates (t : tr) : string -> tr -> K := fun _ t' => if list_eq_dec msg_dec t t' then 1 else 0.
Lemma one_neq_zero : (1 : K) <> 0.
Proof. exact (F_1_neq_0 (f_laws K)). Qed.
Lemma for_all_hashes (name : string) (t t' : tr) : (forall h : string -> tr -> K, h name t = h name t') <-> t = t'.
Proof.
  split; [|intros ->; reflexivity]. intros H. specialize (H (separates t)). unfold separates in H.
  destruct (list_eq_dec msg_dec t t) as [_|N]; [|congruence]. destruct (list_eq_dec msg_dec t t') as [E|N]; [exact E|]. destruct (one_neq_zero H).
Qed.

(** *** Instances *)
Lemma matrix_concat v a i (m : matrix K) : matrix_msgs K G v a i m = flat_map (term_msgs K G v a i) (concat m).
Proof. unfold matrix_msgs. induction m as [|r m IH]; simpl; [reflexivity|]. rewrite flat_map_app, IH. reflexivity. Qed.
Lemma terms_inj v a i : a <> i -> forall l l', flat_map (term_msgs K G v a i) l = flat_map (term_msgs K G v a i) l' -> l = l'.
Proof.
  intros N. induction l as [|[x u] l IH]; intros [|[x' u'] l'] H; simpl in H; try discriminate; [reflexivity|].
  assert (E : x = x') by congruence. assert (T : flat_map (term_msgs K G v a i) l = flat_map (term_msgs K G v a i) l') by congruence.
  assert (U : u = u') by (destruct u, u'; congruence). subst. f_equal. apply IH, T.
Qed.
Definition lab (m : msg K G) : string :=
  match m with MU l _ | MG l _ | MGs l _ | MF l _ | MFs l _ | MFss l _ | MCh l => l end.
Definition about (s : string) (m : msg K G) : bool := prefix s (lab m).
Lemma filter_all {A} (f : A -> bool) l : forallb f l = true -> filter f l = l.
Proof. induction l as [|x l IH]; simpl; [reflexivity|]. destruct (f x); simpl; [intros H; rewrite IH; auto|discriminate]. Qed.
Lemma filter_none {A} (f : A -> bool) l : forallb (fun x => negb (f x)) l = true -> filter f l = [].
Proof. induction l as [|x l IH]; simpl; [reflexivity|]. destruct (f x); simpl; [discriminate|exact IH]. Qed.
Lemma all_terms (f : msg K G -> bool) v a i l : (forall x, f (MF v x) = true) -> (forall n, f (MU a n) = true) -> (forall n, f (MU i n) = true) ->
  forallb f (flat_map (term_msgs K G v a i) l) = true.
Proof. intros H1 H2 H3. induction l as [|[x [n|n]] l IH]; simpl; [reflexivity| |]; rewrite H1, ?H2, ?H3, IH; reflexivity. Qed.
Ltac labels := intros; reflexivity.
Lemma r1cs_exact (i i' : r1cs K) : (forall h, r1cs_to_hash K G h i = r1cs_to_hash K G h i') <->
  (r_inputs K i = r_inputs K i' /\ r_aux K i = r_aux K i' /\ r_cons K i = r_cons K i') /\
  concat (r_a K i) = concat (r_a K i') /\ concat (r_b K i) = concat (r_b K i') /\ concat (r_c K i) = concat (r_c K i').
Proof.
  unfold r1cs_to_hash. rewrite for_all_hashes. unfold r1cs_msgs. rewrite !matrix_concat. split.
  - intros H.
    assert (B : forall f, filter f (flat_map (term_msgs K G "a_matrix" "a_matrix_index_aux" "a_matrix_index_input") (concat (r_a K i)) ++
        flat_map (term_msgs K G "b_matrix" "b_matrix_index_aux" "b_matrix_index_input") (concat (r_b K i)) ++
        flat_map (term_msgs K G "c_matrix" "c_matrix_index_aux" "c_matrix_index_input") (concat (r_c K i))) =
      filter f (flat_map (term_msgs K G "a_matrix" "a_matrix_index_aux" "a_matrix_index_input") (concat (r_a K i')) ++
        flat_map (term_msgs K G "b_matrix" "b_matrix_index_aux" "b_matrix_index_input") (concat (r_b K i')) ++
        flat_map (term_msgs K G "c_matrix" "c_matrix_index_aux" "c_matrix_index_input") (concat (r_c K i')))) by (intros f; f_equal; simpl in H; congruence).
    split; [simpl in H; repeat split; congruence|]. split; [|split].
    + specialize (B (about "a")). rewrite !filter_app in B.
      rewrite !(filter_all (about "a") (flat_map (term_msgs K G "a_matrix" _ _) _)) in B by (apply all_terms; labels).
      rewrite !(filter_none (about "a") (flat_map (term_msgs K G "b_matrix" _ _) _)) in B by (apply all_terms; labels).
      rewrite !(filter_none (about "a") (flat_map (term_msgs K G "c_matrix" _ _) _)) in B by (apply all_terms; labels).
      rewrite !app_nil_r in B. revert B. apply terms_inj. discriminate.
    + specialize (B (about "b")). rewrite !filter_app in B.
      rewrite !(filter_none (about "b") (flat_map (term_msgs K G "a_matrix" _ _) _)) in B by (apply all_terms; labels).
      rewrite !(filter_all (about "b") (flat_map (term_msgs K G "b_matrix" _ _) _)) in B by (apply all_terms; labels).
      rewrite !(filter_none (about "b") (flat_map (term_msgs K G "c_matrix" _ _) _)) in B by (apply all_terms; labels).
      rewrite !app_nil_r in B. revert B. apply terms_inj. discriminate.
    + specialize (B (about "c")). rewrite !filter_app in B.
      rewrite !(filter_none (about "c") (flat_map (term_msgs K G "a_matrix" _ _) _)) in B by (apply all_terms; labels).
      rewrite !(filter_none (about "c") (flat_map (term_msgs K G "b_matrix" _ _) _)) in B by (apply all_terms; labels).
      rewrite !(filter_all (about "c") (flat_map (term_msgs K G "c_matrix" _ _) _)) in B by (apply all_terms; labels).
      revert B. apply terms_inj. discriminate.
  - intros ((-> & -> & ->) & -> & -> & ->). reflexivity.
Qed.

Lemma fsum_concat (l : list (list K)) : fsum (concat l) = fsum (map fsum l).
Proof. induction l as [|x l IH]; simpl; [reflexivity|]. rewrite fsum_app, IH. reflexivity. Qed.
Lemma concat_map_map {A B} (f : A -> B) l : concat (map (map f) l) = map f (concat l).
Proof. symmetry. apply concat_map. Qed.
Lemma first_row_concat (m : matrix K) : concat (first_row K m) = concat m.
Proof. unfold first_row. simpl. assert (E : forall n, concat (repeat (@nil (K * var)) n) = []) by (induction n; simpl; auto). rewrite E, app_nil_r. reflexivity. Qed.
Lemma first_row_eval a (m : matrix K) j : row_eval a (nth j (first_row K m) []) = match j with O => all_rows a m | S _ => 0 end.
Proof.
  unfold first_row, all_rows. destruct j as [|j]; simpl.
  - unfold row_eval. rewrite <- concat_map_map, fsum_concat, map_map. reflexivity.
  - rewrite nth_repeat. reflexivity.
Qed.
Lemma first_row_length (m : matrix K) n : (0 < n)%nat -> length m = n -> length (first_row K m) = n.
Proof. intros H <-. unfold first_row. simpl. rewrite repeat_length. lia. Qed.
Lemma first_row_range ni na (m : matrix K) : in_range ni na m -> in_range ni na (first_row K m).
Proof.
  unfold in_range, first_row. intros H. constructor; [apply Forall_concat, H|]. apply Forall_forall. intros x X. apply repeat_spec in X. subst. constructor.
Qed.
Theorem merged_digest (i : r1cs K) :
  (forall h, r1cs_to_hash K G h (merged i) = r1cs_to_hash K G h i) /\ (wf_inst i -> wf_inst (merged i)) /\
  (forall a, inst_sat a (merged i) <-> a ONE = 1 /\ all_rows a (r_a K i) * all_rows a (r_b K i) = all_rows a (r_c K i)).
Proof.
  split; [|split].
  - apply r1cs_exact. unfold merged. cbn [r_inputs r_aux r_cons r_a r_b r_c]. rewrite !first_row_concat. auto.
  - intros (H1 & (k & H2) & (LA & LB & LC) & (RA & RB & RC)). assert (0 < r_cons K i)%nat by (rewrite H2; clear; induction k; simpl; lia).
    unfold wf_inst, merged. simpl r_inputs. simpl r_aux. simpl r_cons. simpl r_a. simpl r_b. simpl r_c. split; [exact H1|]. split; [exists k; exact H2|].
    rewrite !(first_row_length _ (r_cons K i)) by assumption. repeat split; apply first_row_range; assumption.
  - intros a. unfold inst_sat, merged. simpl r_a. simpl r_b. simpl r_c. split.
    + intros (H1 & H). split; [exact H1|]. specialize (H 0%nat). rewrite !first_row_eval in H. exact H.
    + intros (H1 & H). split; [exact H1|]. intros j. rewrite !first_row_eval. destruct j; [exact H|ring].
Qed.

(** *** Parameters and encodings *)
Lemma map_inj {A B} (f : A -> B) : (forall x y, f x = f y -> x = y) -> forall l l', map f l = map f l' -> l = l'.
Proof. intros F. induction l as [|x l IH]; intros [|y l'] H; simpl in H; try discriminate; [reflexivity|]. f_equal; [apply F; congruence|apply IH; congruence]. Qed.
Lemma app_cut {A} (l l' r r' : list A) : length l = length l' -> l ++ r = l' ++ r' -> l = l' /\ r = r'.
Proof.
  revert l'. induction l as [|x l IH]; intros [|y l'] L H; simpl in *; try lia; [auto|].
  assert (l = l' /\ r = r') as [-> ->] by (apply IH; [lia|congruence]). split; congruence.
Qed.
Lemma mcp_cut (p p' : mcp K G) r r' : mcp_msgs K G p ++ r = mcp_msgs K G p' ++ r' -> p = p' /\ r = r'.
Proof.
  destruct p as [g h], p' as [g' h']. unfold mcp_msgs. simpl. intros H. assert (h = h') by congruence. assert (L : length g = length g') by congruence.
  assert (T : map (@MG K G "MultiCommitmentParameters_generators") g ++ r = map (MG "MultiCommitmentParameters_generators") g' ++ r') by congruence.
  apply app_cut in T; [|rewrite !map_length; exact L]. destruct T as [T ->]. apply map_inj in T; [|intros; congruence]. subst. auto.
Qed.
Lemma pcp_cut l (p p' : pcp K G) r r' : pcp_msgs K G l p ++ r = pcp_msgs K G l p' ++ r' -> p = p' /\ r = r'.
Proof.
  destruct p as [n a b], p' as [n' a' b']. unfold pcp_msgs. simpl. rewrite <- !app_assoc. intros H. assert (n = n') by congruence.
  match type of H with _ :: ?x = _ :: ?y => assert (T : x = y) by congruence end. apply mcp_cut in T. destruct T as [-> T]. apply mcp_cut in T. destruct T as [-> ->]. subst. auto.
Qed.
Lemma sat_cut l n n' (p p' : satp K G) r r' : sat_msgs K G l n p ++ r = sat_msgs K G l n' p' ++ r' -> n = n' /\ p = p' /\ r = r'.
Proof.
  destruct p as [a b c d], p' as [a' b' c' d']. unfold sat_msgs. cbn [sp_pc sp_1 sp_3 sp_4]. rewrite <- !app_comm_cons, <- !app_assoc. intros H. assert (n = n') by congruence.
  match type of H with _ :: ?x = _ :: ?y => assert (T : x = y) by congruence end. apply pcp_cut in T. destruct T as [-> T]. apply mcp_cut in T. destruct T as [-> T]. apply mcp_cut in T. destruct T as [-> T].
  apply mcp_cut in T. destruct T as [-> ->]. auto.
Qed.
Lemma nil_r {A} (x y : list A) : x = y -> x ++ [] = y ++ [].
Proof. intros ->. reflexivity. Qed.
Theorem hyrax_param_digest name (p p' : hparams K G) : (forall h, hyrax_param_to_hash K G h name p = hyrax_param_to_hash K G h name p') -> p = p'.
Proof.
  destruct p as [a b c d], p' as [a' b' c' d']. unfold hyrax_param_to_hash. intros H. apply for_all_hashes in H. cbn [hp_pc hp_1 hp_3 hp_4] in H. apply nil_r in H. rewrite <- !app_assoc in H.
  apply pcp_cut in H. destruct H as [-> H]. apply mcp_cut in H. destruct H as [-> H]. apply mcp_cut in H. destruct H as [-> H]. apply mcp_cut in H. destruct H as [-> _]. reflexivity.
Qed.
Theorem nizk_param_digest n n' (p p' : satp K G) : (forall h, nizk_param_to_hash K G h n p = nizk_param_to_hash K G h n' p') -> n = n' /\ p = p'.
Proof. unfold nizk_param_to_hash. intros H. apply for_all_hashes in H. apply nil_r in H. apply sat_cut in H. tauto. Qed.
Theorem snark_param_digest n n' (p p' : snarkp K G) : (forall h, snark_param_to_hash K G h n p = snark_param_to_hash K G h n' p') -> n = n' /\ p = p'.
Proof.
  destruct p as [[a b c] d], p' as [[a' b' c'] d']. unfold snark_param_to_hash. intros H. apply for_all_hashes in H. cbn [sn_sat sn_evals ev_ops ev_mem ev_derefs] in H.
  apply nil_r in H. rewrite <- !app_assoc in H. apply sat_cut in H. destruct H as (-> & -> & H). apply pcp_cut in H. destruct H as [-> H]. apply pcp_cut in H. destruct H as [-> H].
  apply pcp_cut in H. destruct H as [-> _]. auto.
Qed.
Lemma all_map (f : msg K G -> bool) l (gs : list G) : (forall x, f (MG l x) = true) -> forallb f (map (MG l) gs) = true.
Proof. intros H. induction gs as [|g gs IH]; simpl; [reflexivity|]. rewrite H, IH. reflexivity. Qed.
Theorem encode_digest (c c' : enc_commit K G) : (forall h, encode_to_hash K G h c = encode_to_hash K G h c') -> c = c'.
Proof.
  destruct c as [n m o e], c' as [n' m' o' e']. unfold encode_to_hash. intros H. apply for_all_hashes in H. simpl in H.
  assert (n = n') by congruence. assert (m = m') by congruence. match type of H with _ :: _ :: ?x = _ :: _ :: ?y => assert (T : x = y) by congruence end. clear H.
  assert (A := f_equal (filter (about "EncodeCommit_o")) T). assert (B := f_equal (filter (about "EncodeCommit_m")) T). rewrite !filter_app in A, B.
  rewrite !(filter_all (about "EncodeCommit_o") (map (MG "EncodeCommit_ops_commit") _)) in A by (apply all_map; labels).
  rewrite !(filter_none (about "EncodeCommit_o") (map (MG "EncodeCommit_mem_commit") _)) in A by (apply all_map; labels).
  rewrite !(filter_none (about "EncodeCommit_m") (map (MG "EncodeCommit_ops_commit") _)) in B by (apply all_map; labels).
  rewrite !(filter_all (about "EncodeCommit_m") (map (MG "EncodeCommit_mem_commit") _)) in B by (apply all_map; labels).
  rewrite !app_nil_r in A. apply map_inj in A; [|intros; congruence]. apply map_inj in B; [|intros; congruence]. subst. reflexivity.
Qed.

(** *** Circuits *)
(** What may follow the gates of a layer: nothing or the next layer. *)
Definition next_layer (t : tr) : Prop := match t with [] => True | MU l _ :: _ => l = "circuit_gate_count" | _ => False end.
Lemma layers_next ls : next_layer (flat_map (layer_msgs K G) ls).
Proof. destruct ls; simpl; auto. Qed.
Lemma gates_cut gs : forall gs' r r', next_layer r -> next_layer r' -> flat_map (gate_msgs K G) gs ++ r = flat_map (gate_msgs K G) gs' ++ r' -> gs = gs' /\ r = r'.
Proof.
  induction gs as [|[a b c d] gs IH]; intros [|[a' b' c' d'] gs'] r r' R R' H; simpl in H.
  - auto.
  - subst r. simpl in R. discriminate R.
  - subst r'. simpl in R'. discriminate R'.
  - assert (T : flat_map (gate_msgs K G) gs ++ r = flat_map (gate_msgs K G) gs' ++ r') by congruence. apply IH in T; [|assumption..]. destruct T as [-> ->]. split; congruence.
Qed.
Lemma layers_inj ls : forall ls', flat_map (layer_msgs K G) ls = flat_map (layer_msgs K G) ls' -> ls = ls'.
Proof.
  induction ls as [|[n b g] ls IH]; intros [|[n' b' g'] ls'] H; simpl in H; try discriminate; [reflexivity|].
  match type of H with _ :: _ :: ?x = _ :: _ :: ?y => assert (T : x = y) by congruence end.
  apply gates_cut in T; [|apply layers_next..]. destruct T as [-> T]. apply IH in T. subst. f_equal. congruence.
Qed.
Theorem circuit_digest name c c' : (forall h, circuit_to_hash K G h name c = circuit_to_hash K G h name c') -> c = c'.
Proof.
  destruct c as [d ls], c' as [d' ls']. unfold circuit_to_hash. intros H. apply for_all_hashes in H. simpl in H.
  assert (T : flat_map (layer_msgs K G) ls = flat_map (layer_msgs K G) ls') by congruence. apply layers_inj in T. subst. f_equal. congruence.
Qed.
End S.

(** *** Two circuits with one digest *)
Section C.
Variable K : Fld.
Variable G : Grp K.
Add Field Kf2 : (f_laws K).
(** 1 * 1 = 0 and -1 * 0 = 0: no assignment. *)
Definition never : M K unit := bind (enforce [(ONE, 1)] [(ONE, 1)] []) (fun _ => enforce [(ONE, - (1))] [] []).
(** (1 - 1) * 1 = 0 and 0 * 0 = 0: every assignment. *)
Definition always : M K unit := bind (enforce [(ONE, 1); (ONE, - (1))] [(ONE, 1)] []) (fun _ => enforce [] [] []).
Definition never_inst : r1cs K := mkR K 1 0 2 [[(1, ONE)]; [(- (1), ONE)]] [[(1, ONE)]; []] [[]; []].
Definition always_inst : r1cs K := mkR K 1 0 2 [[(1, ONE); (- (1), ONE)]; []] [[(1, ONE)]; []] [[]; []].
Theorem digest_collision : exists (c c' : M K unit) i i', generate_r1cs K c = Ok i /\ generate_r1cs K c' = Ok i' /\ wf_inst i /\ wf_inst i' /\
  (forall h, r1cs_to_hash K G h i = r1cs_to_hash K G h i') /\ (forall a, ~ inst_sat a i) /\ (forall a, a ONE = 1 -> inst_sat a i').
Proof.
  exists never, always, never_inst, always_inst. split; [reflexivity|]. split; [reflexivity|].
  assert (P : exists k, (2 = 2 ^ k)%nat) by (exists 1%nat; reflexivity).
  split; [|split; [|split; [|split]]].
  - unfold wf_inst, in_range; simpl. repeat split; auto; repeat constructor.
  - unfold wf_inst, in_range; simpl. repeat split; auto; repeat constructor.
  - apply r1cs_exact. simpl. auto.
  - intros a [H1 H]. specialize (H 0%nat). unfold row_eval in H. simpl in H. rewrite H1 in H. apply (one_neq_zero K). transitivity ((1 * 1 + 0) * (1 * 1 + 0) : K); [ring|exact H].
  - intros a H1. split; [exact H1|]. assert (Z : (0 : K) * 0 = 0) by ring. intros [|[|[|j]]]; unfold row_eval; simpl; try exact Z. rewrite H1. ring.
Qed.
End C.
