(** Theorems C71-C75: multilinear-extension helpers, and Libra's circuits and plain GKR protocol. *)
From Verif Require Import Zp SpecMle ProofsMle SpecLibra ProofsLibra3 ProofsLibra4 ProofsLibra5 ExMarlin.
From Verif Require Import ModelMle ModelLibra AttackLibra.
Local Open Scope string_scope.
Local Open Scope list_scope.
Local Open Scope fld_scope.

(** ** C71 *)
Theorem C71_extension_unique : forall (K : Fld) k (v : list K), extends k v (mle v) /\ forall f, extends k v f -> forall r, length r = k -> f r = mle v r.
Proof. intros K k v. split; [apply mle_extends|]. intros f H. apply (extends_unique K k v); [exact H|apply mle_extends]. Qed.
Print Assumptions C71_extension_unique.
Theorem C71_eval_value : forall (K : Fld) (v r : list K), eval_value K v r = if Nat.leb (length v) (2 ^ length r) then Ok (mle v r) else Panic.
Proof. exact eval_value_ok. Qed.
Print Assumptions C71_eval_value.
Theorem C71_eval_eq : forall (K : Fld) (r : list K) bs, length bs = length r -> length (eval_eq K r) = (2 ^ length r)%nat /\ nth (bits_val bs) (eval_eq K r) 0 = chi bs r.
Proof. intros K r bs H. split; [apply eval_eq_length|apply eval_eq_nth, H]. Qed.
Print Assumptions C71_eval_eq.
Theorem C71_eval_eq_x_y : forall (K : Fld) (rx ry : list K), length rx = length ry -> eval_eq_x_y K rx ry = Ok (fsum (map (fun bs => chi bs rx * chi bs ry) (cube (length rx)))).
Proof. exact eval_eq_x_y_ok. Qed.
Print Assumptions C71_eval_eq_x_y.
Theorem C71_combine_with_r : forall (K : Fld) x (v : list K) k, length v = (2 ^ S k)%nat ->
  exists w, combine_with_r K v x = Ok w /\ length w = (2 ^ k)%nat /\ forall r, length r = k -> mle w r = mle v (x :: r).
Proof. intros K x v k H. exists (comb K x v). split; [apply (combine_ok K x v k H)|]. split; [unfold comb; rewrite map_length, seq_length, H; apply half_pow|]. intros r R. apply comb_mle. rewrite R. exact H. Qed.
Print Assumptions C71_combine_with_r.
Theorem C71_bound_poly_var_bot : forall (K : Fld) x (v : list K) k, length v = (2 ^ S k)%nat ->
  exists w, bound_poly_var_bot K v x = Ok w /\ length w = (2 ^ k)%nat /\ forall r, length r = k -> mle w r = mle v (r ++ [x]).
Proof. exact bot_ok. Qed.
Print Assumptions C71_bound_poly_var_bot.
Definition v71 : list F97 := [z97 3; z97 1; z97 4; z97 15].
Definition r71 : list F97 := [z97 10; z97 20].
Example ex_C71 : length v71 = (2 ^ length r71)%nat /\ eval_value F97 v71 r71 = Ok (mle v71 r71) /\ mle v71 r71 <> 0 /\
  (exists w, combine_with_r F97 v71 (z97 10) = Ok w /\ eval_value F97 w [z97 20] = Ok (mle v71 r71)) /\ (exists w, bound_poly_var_bot F97 v71 (z97 20) = Ok w /\ eval_value F97 w [z97 10] = Ok (mle v71 r71)) /\ eval_value F97 v71 [z97 10] = Panic.
Proof.
  split; [reflexivity|]. split; [rewrite C71_eval_value; reflexivity|]. split; [intro E; apply (f_equal (fun y : F97 => zv _ y)) in E; vm_compute in E; discriminate|]. split; [|split; [|reflexivity]].
  - destruct (C71_combine_with_r F97 (z97 10) v71 1 eq_refl) as (w & A & B & C). exists w. split; [exact A|]. rewrite C71_eval_value, B. cbn [length Nat.pow Nat.leb Nat.mul Nat.add]. rewrite C; reflexivity.
  - destruct (C71_bound_poly_var_bot F97 (z97 20) v71 1 eq_refl) as (w & A & B & C). exists w. split; [exact A|]. rewrite C71_eval_value, B. cbn [length Nat.pow Nat.leb Nat.mul Nat.add]. rewrite C; reflexivity.
Qed.

(** ** C72 *)
Theorem C72_sparse_evaluate_value : forall (K : Fld) (v : list K) k, (length v <= 2 ^ k)%nat ->
  (forall r, length r = k -> sparse_evaluate_value K v r = mle v r) <-> (forall i j, (i < j)%nat -> nth i v 0 = 0 -> nth j v 0 = 0).
Proof. exact sparse_exact. Qed.
Print Assumptions C72_sparse_evaluate_value.
Theorem C72_what_it_computes : forall (K : Fld) (v r : list K), (length v <= 2 ^ length r)%nat -> sparse_evaluate_value K v r = mle (filter (fun x => negb (feqb x 0)) v) r.
Proof. intros K v r H. apply sparse_ok. pose proof (squeeze_length K v). lia. Qed.
Print Assumptions C72_what_it_computes.
Example ex_C72 : (length [z97 3; z97 5] <= 2 ^ 2)%nat /\ (forall i j, (i < j)%nat -> nth i [z97 3; z97 5] 0 = 0 -> nth j [z97 3; z97 5] 0 = 0) /\ (length [z97 3; z97 0; z97 4] <= 2 ^ 2)%nat /\
  exists r : list F97, length r = 2%nat /\ sparse_evaluate_value F97 [z97 3; z97 0; z97 4] r <> mle [z97 3; z97 0; z97 4] r.
Proof.
  repeat apply conj; try (cbn; lia).
  - intros [|[|i]] j H E; [exfalso; apply (f_equal (fun y : F97 => zv _ y)) in E; vm_compute in E; discriminate|exfalso; apply (f_equal (fun y : F97 => zv _ y)) in E; vm_compute in E; discriminate|]. apply nth_overflow. cbn [length]. lia.
  - exists [0; 1]. split; [reflexivity|]. intro E. apply (f_equal (fun y : F97 => zv _ y)) in E. vm_compute in E. discriminate.
Qed.

(** ** C73 *)
Theorem C73_circuit_new : forall ni na raw S, pow2_above (Nat.max ni na) S ->
  (legal (2 * S) raw -> exists c, circuit_new ni na raw = Ok c) /\ (~ legal (2 * S) raw -> circuit_new ni na raw = Panic).
Proof. exact circuit_new_legal. Qed.
Print Assumptions C73_circuit_new.
Theorem C73_evaluate : forall (K : Fld) ni na raw c S (inputs aux : list K), pow2_above (Nat.max ni na) S -> circuit_new ni na raw = Ok c ->
  ((length inputs <= S)%nat -> (length aux <= S)%nat -> exists vals, evaluate K c inputs aux = Ok vals /\ length vals = Datatypes.S (length raw) /\ forall d, (d <= length raw)%nat -> nth_error vals d = Some (sem (actual_layer S inputs aux) (firstn d raw))) /\
  ((S < length inputs)%nat \/ (S < length aux)%nat -> evaluate K c inputs aux = Panic).
Proof. exact evaluate_sem. Qed.
Print Assumptions C73_evaluate.
Theorem C73_layout_differs : forall (K : Fld) S (inputs aux : list K), (length inputs <= S)%nat -> (length aux <= S)%nat -> length inputs <> length aux -> (forall x, In x inputs -> x <> 0) -> inputs <> [] ->
  actual_layer S inputs aux <> intended_layer S inputs aux.
Proof. exact layer_differs. Qed.
Print Assumptions C73_layout_differs.
Theorem C73_layout_split : forall (K : Fld) k (inputs aux : list K), (length inputs <= 2 ^ k)%nat -> (length aux <= 2 ^ k)%nat ->
  (forall r0 r, length r = k -> mle (actual_layer (2 ^ k) inputs aux) (r0 :: r) = (1 - r0) * mle aux r + r0 * mle inputs r) <-> actual_layer (2 ^ k) inputs aux = intended_layer (2 ^ k) inputs aux.
Proof. exact split_exact. Qed.
Print Assumptions C73_layout_split.
Theorem C73_layout_same : forall (K : Fld) S (inputs aux : list K), length inputs = length aux -> actual_layer S inputs aux = intended_layer S inputs aux.
Proof. exact layer_same. Qed.
Print Assumptions C73_layout_same.
(** (a0 + i0) * (a0 * a1), if the layer were laid out as documented. *)
Definition raw73 : list raw_layer := [[(0, 0, 2); (1, 0, 1)]; [(1, 0, 1)]]%nat.
Definition in73 : list F97 := [z97 7].
Definition aux73 : list F97 := [z97 3; z97 4].
Lemma pow2_73 : pow2_above (Nat.max 1 2) 2.
Proof. exists 1%nat. split; [reflexivity|]. split; [cbn; lia|]. intros [|j] H; cbn [Nat.max Nat.pow] in *; lia. Qed.
Lemma legal_73 : legal (2 * 2) raw73.
Proof. cbn. repeat (apply conj || apply Forall_cons || apply Forall_nil); cbn; lia. Qed.
Definition c73 : circuit := built 1 2 raw73.
Lemma new_73 : circuit_new 1 2 raw73 = Ok c73. Proof. exact (proj1 (circuit_new_ok 1 2 raw73 2 pow2_73) legal_73). Qed.
Example ex_C73 : pow2_above (Nat.max 1 2) 2 /\ legal (2 * 2) raw73 /\ circuit_new 1 2 raw73 = Ok c73 /\ circuit_new 1 2 [[(0, 0, 4)]]%nat = Panic /\ (length in73 <= 2)%nat /\ (length aux73 <= 2)%nat /\
  length in73 <> length aux73 /\ (forall x, In x in73 -> x <> 0) /\ in73 <> [] /\ nth 2 (intended_layer 2 in73 aux73) 0 = z97 7 /\ nth 2 (actual_layer 2 in73 aux73) 0 = 0 /\
  sem (actual_layer 2 in73 aux73) raw73 <> sem (intended_layer 2 in73 aux73) raw73.
Proof.
  split; [exact pow2_73|]. split; [exact legal_73|]. split; [exact new_73|]. split; [reflexivity|]. split; [cbn; lia|]. split; [cbn; lia|]. split; [discriminate|]. split; [|split; [|split; [reflexivity|split; [reflexivity|]]]].
  - intros x [<-|[]] E. apply (f_equal (fun y : F97 => zv _ y)) in E. vm_compute in E. discriminate.
  - discriminate.
  - intro E. apply (f_equal (fun l => zv _ (nth 0 l (0 : F97)))) in E. vm_compute in E. discriminate.
Qed.

(** ** C74 *)
Theorem C74_gkr_complete : forall (K : Fld) (G : Type) (ch : oracle K G) ni na raw c S inputs aux hash, (1 + 1 : K) <> 0 -> pow2_above (Nat.max ni na) S -> circuit_new ni na raw = Ok c -> raw <> [] -> inner_pow2 raw ->
  (length inputs <= S)%nat -> (length aux <= S)%nat -> exists pf, gkr_prove K G ch c inputs aux hash = Ok (pf, sem (actual_layer S inputs aux) raw) /\
    gkr_verify K G ch c (sem (actual_layer S inputs aux) raw) (actual_layer S inputs aux) hash pf = Ok true.
Proof. exact libra_complete. Qed.
Print Assumptions C74_gkr_complete.
Theorem C74_prover_panics : forall (K : Fld) (G : Type) (ch : oracle K G) ni na raw c S inputs aux hash, (1 + 1 : K) <> 0 -> pow2_above (Nat.max ni na) S -> circuit_new ni na raw = Ok c -> ~ inner_pow2 raw -> gkr_prove K G ch c inputs aux hash = Panic.
Proof. exact libra_panics. Qed.
Print Assumptions C74_prover_panics.
Definition ch74 : oracle F97 unit := fun l t => z97 (Z.of_nat (7 * length t + String.length l)).
Lemma two97 : (1 + 1 : F97) <> 0.
Proof. intro E. apply (f_equal (fun y : F97 => zv _ y)) in E. vm_compute in E. discriminate. Qed.
Definition raw74 : list raw_layer := [[(0, 0, 2); (1, 0, 1); (1, 3, 3)]; [(1, 0, 1); (0, 2, 2)]]%nat.
Example ex_C74 : (1 + 1 : F97) <> 0 /\ pow2_above (Nat.max 1 2) 2 /\ circuit_new 1 2 raw73 = Ok c73 /\ raw73 <> [] /\ inner_pow2 raw73 /\ (length in73 <= 2)%nat /\ (length aux73 <= 2)%nat /\
  (exists pf, gkr_prove F97 unit ch74 c73 in73 aux73 (z97 11) = Ok (pf, sem (actual_layer 2 in73 aux73) raw73)) /\ (exists c, circuit_new 1 2 raw74 = Ok c) /\ ~ inner_pow2 raw74.
Proof.
  assert (inner_pow2 raw73) as I by (cbn; split; [exists 1%nat; reflexivity|exact Logic.I]).
  split; [exact two97|]. split; [exact pow2_73|]. split; [exact new_73|]. split; [discriminate|]. split; [exact I|]. split; [cbn; lia|]. split; [cbn; lia|]. split; [|split].
  - destruct (C74_gkr_complete F97 unit ch74 1 2 raw73 c73 2 in73 aux73 (z97 11) two97 pow2_73 new_73 ltac:(discriminate) I ltac:(cbn; lia) ltac:(cbn; lia)) as (pf & A & _). exists pf. exact A.
  - eexists. reflexivity.
  - intros [[k E] _]. cbn in E. destruct k as [|[|k]]; cbn [Nat.pow] in E; [discriminate E|discriminate E|]. assert (1 <= 2 ^ k)%nat by (clear; induction k; cbn [Nat.pow]; lia). lia.
Qed.

(** ** C75 *)
Theorem C75_gates_ignored : forall (K : Fld) (G : Type) (ch : oracle K G) ni na raw raw' c c' outs ins hash pf, circuit_new ni na raw = Ok c -> circuit_new ni na raw' = Ok c' -> map (@length _) raw = map (@length _) raw' ->
  gkr_verify K G ch c outs ins hash pf = gkr_verify K G ch c' outs ins hash pf.
Proof. exact ignores_gates. Qed.
Print Assumptions C75_gates_ignored.
Theorem C75_forgery : forall (K : Fld) (G : Type) (ch : oracle K G) ni na raw c k (inputs outputs : list K) hash, pow2_above (Nat.max ni na) (2 ^ k) -> circuit_new ni na raw = Ok c -> raw <> [] -> (length inputs <= 2 ^ S k)%nat -> (length outputs <= length (last raw []))%nat ->
  (forall r, length r = S k -> (forall x, In x r -> exists t, x = ch "challenge_nextround" t) -> mle inputs r <> 0) ->
  exists pf, forge K G ch c inputs outputs hash = Some pf /\ gkr_verify K G ch c outputs inputs hash pf = Ok true.
Proof. exact libra_forgeable. Qed.
Print Assumptions C75_forgery.
Theorem C75_forged_accepted : forall (K : Fld) (G : Type) (ch : oracle K G) c inputs outputs hash pf l0, (2 <= c_depth c)%nat -> nth_error (c_layers c) 0 = Some l0 -> (length inputs <= 2 ^ l_bits l0)%nat -> forge K G ch c inputs outputs hash = Some pf ->
  gkr_verify K G ch c outputs inputs hash pf = Ok true.
Proof. exact forge_ok. Qed.
Print Assumptions C75_forged_accepted.
Definition ch75 : oracle F97 unit := fun l t => z97 5.
Definition lay75 : list F97 := actual_layer 2 in73 aux73.
Definition raw75 : list raw_layer := [[(1, 1, 1); (0, 0, 3)]; [(0, 1, 1)]]%nat.
Example ex_C75 : pow2_above (Nat.max 1 2) (2 ^ 1) /\ circuit_new 1 2 raw73 = Ok c73 /\ raw73 <> [] /\ (length lay75 <= 2 ^ 2)%nat /\ (length [z97 42] <= length (last raw73 []))%nat /\
  (forall r, length r = 2%nat -> (forall x, In x r -> exists t, x = ch75 "challenge_nextround" t) -> mle lay75 r <> 0) /\ sem lay75 raw73 <> [z97 42] /\
  (exists pf, gkr_verify F97 unit ch75 c73 [z97 42] lay75 (z97 1) pf = Ok true) /\ (exists c', circuit_new 1 2 raw75 = Ok c') /\ map (@length _) raw73 = map (@length _) raw75.
Proof.
  assert (forall r, length r = 2%nat -> (forall x, In x r -> exists t, x = ch75 "challenge_nextround" t) -> mle lay75 r <> 0) as N.
  { intros [|x [|y [|? ?]]] L H E; try discriminate L. destruct (H x (or_introl eq_refl)) as (t & ->). destruct (H y (or_intror (or_introl eq_refl))) as (t' & ->). unfold ch75 in E. apply (f_equal (fun y : F97 => zv _ y)) in E. vm_compute in E. discriminate. }
  split; [exact pow2_73|]. split; [exact new_73|]. split; [discriminate|]. split; [cbn; lia|]. split; [cbn; lia|]. split; [exact N|]. split; [|split; [|split; [|reflexivity]]].
  - intro E. apply (f_equal (fun l => zv _ (nth 0 l (0 : F97)))) in E. vm_compute in E. discriminate.
  - destruct (C75_forgery F97 unit ch75 1 2 raw73 c73 1 lay75 [z97 42] (z97 1) pow2_73 new_73 ltac:(discriminate) ltac:(cbn; lia) ltac:(cbn; lia) N) as (pf & _ & V). exists pf. exact V.
  - eexists. reflexivity.
Qed.
