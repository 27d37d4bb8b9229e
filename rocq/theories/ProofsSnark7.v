(** The encoding of the matrices, and the theorems about the SNARK. *)
From Verif Require Import Field Poly Module ModTac ModelTranscript ModelMle SpecMle ProofsMle ModelLibra ProofsLibra SpecLibra ProofsLibra3 ModelLC SpecLC ModelCS SpecCS SpecMode ModelSigma ProofsSigma ProofsSigma3 ProofsSigma4 ModelSpartan SpecSpartan ProofsSpartan ProofsSpartan2 ProofsSpartan4 ProofsSpartan5 ProofsSpartan6 ModelSpark SpecSpark ModelSnark ProofsSpark ProofsSpark2 ProofsSnark ProofsSnark2 ProofsSnark3 ProofsSnark4 ProofsSnark5 ProofsSnark6.
From Coq Require Import String List Lia Sorted.
Local Open Scope string_scope.
Local Open Scope list_scope.
Local Open Scope fld_scope.
Section S.
Variable K : Fld.
Add Field Kf : (f_laws K).
Notation dot3 := (dot3 K).
(** ** Sums over listed entries *)
Fixpoint tsum (X Y : nat -> K) (vals : list K) (rows cols : list nat) : K :=
  match vals, rows, cols with v :: vals, r :: rows, c :: cols => X r * Y c * v + tsum X Y vals rows cols | _, _, _ => 0 end.
Lemma dot3_tsum X Y : forall vals rows cols, length rows = length vals -> length cols = length vals -> dot3 (map X rows, map Y cols, vals) = tsum X Y vals rows cols.
Proof.
  unfold ModelSnark.dot3. induction vals as [|v vals IH]; intros [|r rows] [|c cols] L1 L2; try discriminate; [reflexivity|]. cbn [map length seq fsum tsum]. cbn [nth]. f_equal. rewrite <- seq_shift, map_map. cbn [length] in L1, L2. rewrite <- (IH rows cols) by lia. reflexivity.
Qed.
Lemma tsum_pad X Y d : forall vals rows cols, length rows = length vals -> length cols = length vals -> tsum X Y (vals ++ repeat 0 d) (rows ++ repeat 0%nat d) (cols ++ repeat 0%nat d) = tsum X Y vals rows cols.
Proof.
  induction vals as [|v vals IH]; intros [|r rows] [|c cols] L1 L2; try discriminate.
  - cbn [app]. induction d as [|d IH]; [reflexivity|]. cbn [repeat tsum]. rewrite IH. cbn [tsum]. ring.
  - cbn [app tsum]. cbn [length] in *. rewrite IH by lia. reflexivity.
Qed.
Lemma tsum_ext X X' Y Y' R C : (forall r, (r < R)%nat -> X r = X' r) -> (forall c, (c < C)%nat -> Y c = Y' c) -> forall vals rows cols, Forall (fun r => r < R)%nat rows -> Forall (fun c => c < C)%nat cols -> tsum X Y vals rows cols = tsum X' Y' vals rows cols.
Proof.
  intros HX HY. induction vals as [|v vals IH]; intros [|r rows] [|c cols] Hr Hc; try reflexivity. cbn [tsum]. rewrite (HX r), (HY c) by (apply (Forall_inv Hr) || apply (Forall_inv Hc)). rewrite (IH rows cols (Forall_inv_tail Hr) (Forall_inv_tail Hc)). reflexivity.
Qed.
Lemma tsum_listed X Y R C : forall vals rows cols, length rows = length vals -> length cols = length vals -> Forall (fun r => r < R)%nat rows -> Forall (fun c => c < C)%nat cols ->
  tsum X Y vals rows cols = sumn R (fun r => sumn C (fun c => listed vals rows cols r c * Y c) * X r).
Proof.
  induction vals as [|v vals IH]; intros [|r rows] [|c cols] L1 L2 Hr Hc; try discriminate.
  - cbn [tsum listed]. symmetry. apply sumn_0. intros i _. rewrite (sumn_0 K) by (intros; ring). ring.
  - cbn [tsum listed]. cbn [length] in *. rewrite (IH rows cols) by (try lia; eapply Forall_inv_tail; eassumption). pose proof (Forall_inv Hr) as R1. pose proof (Forall_inv Hc) as C1. cbv beta in R1, C1.
    symmetry. rewrite (sumn_ext K R _ (fun r0 => (if Nat.eqb r r0 then v * Y c * X r0 else 0) + sumn C (fun c0 => listed vals rows cols r0 c0 * Y c0) * X r0)).
    + rewrite sumn_add. rewrite (sumn_one K R (fun r0 => if Nat.eqb r r0 then v * Y c * X r0 else 0) r R1); [rewrite Nat.eqb_refl; ring|]. intros i _ Ni. destruct (Nat.eqb_spec r i); [congruence|reflexivity].
    + intros r0 _. rewrite (sumn_ext K C _ (fun c0 => (if Nat.eqb r r0 && Nat.eqb c c0 then v * Y c0 else 0) + listed vals rows cols r0 c0 * Y c0)) by (intros c0 _; destruct (Nat.eqb r r0 && Nat.eqb c c0); ring).
      rewrite sumn_add. rewrite (sumn_one K C (fun c0 => if Nat.eqb r r0 && Nat.eqb c c0 then v * Y c0 else 0) c C1).
      * rewrite Nat.eqb_refl, Bool.andb_true_r. destruct (Nat.eqb r r0); ring.
      * intros i _ Ni. destruct (Nat.eqb_spec c i); [congruence|]. rewrite Bool.andb_false_r. reflexivity.
Qed.
(** Zeros in front of a point do not change the first entries. *)
Lemma eval_eq_zeros d (r : list K) a : (a < 2 ^ length r)%nat -> nth a (eval_eq K (repeat 0 d ++ r)) 0 = nth a (eval_eq K r) 0.
Proof.
  intro H. induction d as [|d IH]; [reflexivity|]. cbn [repeat app]. rewrite eval_eq_cons. unfold eq_step. rewrite app_nth1.
  - rewrite (nth_indep _ 0 ((1 - 0) * 0)) by (rewrite map_length, eval_eq_length, app_length, repeat_length; eapply Nat.lt_le_trans; [exact H|apply Nat.pow_le_mono_r; lia]). rewrite (map_nth (fun e => (1 - 0) * e)), IH. ring.
  - rewrite map_length, eval_eq_length, app_length, repeat_length. eapply Nat.lt_le_trans; [exact H|apply Nat.pow_le_mono_r; lia].
Qed.
Lemma equalize_nth (rx ry : list K) a : ((a < 2 ^ length rx)%nat -> nth a (eval_eq K (fst (equalize_length K rx ry))) 0 = nth a (eval_eq K rx) 0) /\ ((a < 2 ^ length ry)%nat -> nth a (eval_eq K (snd (equalize_length K rx ry))) 0 = nth a (eval_eq K ry) 0).
Proof. unfold equalize_length. destruct (Nat.ltb (length rx) (length ry)); [|destruct (Nat.ltb (length ry) (length rx))]; cbn [fst snd]; split; intro H; try reflexivity; apply eval_eq_zeros, H. Qed.
(** ** At most as many entries as positions *)
Lemma sorted_NoDup (l : list (nat * nat)) : StronglySorted after l -> NoDup l.
Proof.
  induction 1 as [|p l S IH H]; constructor; [|exact IH]. intro I. rewrite Forall_forall in H. specialize (H p I). unfold after in H. lia.
Qed.
Lemma positions R C (rows cols : list nat) : length rows = length cols -> Forall (fun r => r < R)%nat rows -> Forall (fun c => c < C)%nat cols -> StronglySorted after (combine rows cols) -> (length rows <= R * C)%nat.
Proof.
  intros L Hr Hc S. apply sorted_NoDup in S. rewrite <- (seq_length R 0), <- (seq_length C 0), <- prod_length. rewrite Forall_forall in Hr, Hc.
  assert (Q : length (combine rows cols) = length rows) by (rewrite combine_length; lia). rewrite <- Q. apply NoDup_incl_length; [exact S|]. intros [r c] I. apply in_prod; apply in_seq; [apply in_combine_l in I; specialize (Hr r I)|apply in_combine_r in I; specialize (Hc c I)]; lia.
Qed.
(** ** One matrix *)
Lemma matrix_listed i m rx ry v r c n : wf_inst i -> length m = r_cons K i -> in_range (r_inputs K i) (r_aux K i) m -> length rx = rounds_x K i -> length ry = rounds_y K i ->
  switch_matrix_to_list K m (half_len K i) = (v, r, c) -> (length r <= n)%nat ->
  length v = length r /\ length c = length r /\ (length r <= r_cons K i * (half_len K i * 2))%nat /\ Forall (fun x => x < r_cons K i)%nat (r ++ repeat 0%nat (n - length r)) /\ Forall (fun x => x < 2 * half_len K i)%nat (c ++ repeat 0%nat (n - length c)) /\
  dot3 (map (fun a => nth a (eval_eq K (fst (equalize_length K rx ry))) 0) (r ++ repeat 0%nat (n - length r)), map (fun a => nth a (eval_eq K (snd (equalize_length K rx ry))) 0) (c ++ repeat 0%nat (n - length c)), v ++ repeat 0 (n - length v)) = mat_mle K i m rx ry.
Proof.
  intros W Lm R Lx Ly E Ln. destruct (half_len_pow K i) as (En & Ha & Hi). destruct (evaluate_inst K i m rx ry W Lm R Lx Ly) as [_ ->].
  destruct (switch_ok K m _ _ _ v r c R Hi Ha E) as (L1 & L2 & _ & Hr & Hc & So & Hl). rewrite Lm in Hr. split; [congruence|]. split; [congruence|].
  pose proof W as (W0 & (kx & Ex) & _). assert (P1 : (0 < r_cons K i)%nat) by (rewrite Ex; pose proof (Nat.pow_nonzero 2 kx); lia).
  assert (P2 : (0 < half_len K i)%nat) by lia.
  split; [replace (half_len K i * 2)%nat with (2 * half_len K i)%nat by lia; apply (positions _ _ r c); [congruence|exact Hr|exact Hc|exact So]|].
  assert (Hr' : Forall (fun x => x < r_cons K i)%nat (r ++ repeat 0%nat (n - length r))) by (apply Forall_app; split; [exact Hr|]; apply Forall_forall; intros x Ix; apply repeat_spec in Ix; lia).
  assert (Hc' : Forall (fun x => x < 2 * half_len K i)%nat (c ++ repeat 0%nat (n - length c))) by (apply Forall_app; split; [exact Hc|]; apply Forall_forall; intros x Ix; apply repeat_spec in Ix; lia).
  split; [exact Hr'|]. split; [exact Hc'|]. rewrite dot3_tsum by (rewrite !app_length, !repeat_length; lia). replace (n - length r)%nat with (n - length v)%nat by lia. replace (n - length c)%nat with (n - length v)%nat by lia. rewrite tsum_pad by lia.
  assert (Px : (2 ^ length rx = r_cons K i)%nat) by (rewrite Lx; unfold rounds_x, log2c; rewrite Ex, Nat.log2_up_pow2 by lia; reflexivity).
  assert (Py : (2 ^ length ry = 2 * half_len K i)%nat) by (rewrite Ly; unfold rounds_y; rewrite Nat.add_1_r; cbn [Nat.pow]; lia).
  rewrite (tsum_ext _ (fun a => nth a (eval_eq K rx) 0) _ (fun a => nth a (eval_eq K ry) 0) (r_cons K i) (2 * half_len K i)); [|intros a Ia; apply equalize_nth; lia|intros a Ia; apply equalize_nth; lia|exact Hr|exact Hc].
  rewrite (tsum_listed _ _ (r_cons K i) (2 * half_len K i)) by (assumption || lia). rewrite (bil_entries K (half_len K i) (2 * half_len K i)) by (intro j; apply (range_cols K (r_inputs K i) (r_aux K i)); assumption). rewrite Lm.
  apply sumn_ext. intros a _. f_equal. apply sumn_ext. intros b _. rewrite Hl. reflexivity.
Qed.
(** ** The encoding *)
Variable G : Grp K.
Definition count_of (i : r1cs K) (m : matrix K) : nat := length (snd (fst (switch_matrix_to_list K m (half_len K i)))).
Lemma pow_max a b : Nat.max (2 ^ a) (2 ^ b) = (2 ^ Nat.max a b)%nat.
Proof. destruct (Nat.le_ge_cases a b) as [H|H]; [rewrite (Nat.max_r a b H)|rewrite (Nat.max_l a b H)]; pose proof (Nat.pow_le_mono_r 2 _ _ ltac:(lia) H); lia. Qed.
Theorem encode_ok (p : evalp K G) i : wf_inst i -> exists k s rows cols vals c, encode K G p i = Ok (em_of K (2 ^ S s) rows cols vals, c) /\
  ec_n K G c = (2 ^ k)%nat /\ ec_m K G c = (2 ^ S s)%nat /\ k = log2c (Nat.max (Nat.max (count_of i (r_a K i)) (count_of i (r_b K i))) (count_of i (r_c K i))) /\ S s = Nat.max (rounds_x K i) (rounds_y K i) /\
  (k <= log2c (r_cons K i * (half_len K i * 2)))%nat /\
  accesses_ok rows (2 ^ k) (2 ^ S s) /\ accesses_ok cols (2 ^ k) (2 ^ S s) /\ all_len K k vals /\ length rows = 3%nat /\ length cols = 3%nat /\ length vals = 3%nat /\
  pack K G (ev_ops K G p) (em_ops K (em_of K (2 ^ S s) rows cols vals)) = Ok (ec_ops K G c) /\ pack K G (ev_mem K G p) (em_mem K (em_of K (2 ^ S s) rows cols vals)) = Ok (ec_mem K G c) /\
  forall rx ry, length rx = rounds_x K i -> length ry = rounds_y K i ->
    [mat_mle K i (r_a K i) rx ry; mat_mle K i (r_b K i) rx ry; mat_mle K i (r_c K i) rx ry] =
    map dot3 (triples K (derefs K (eval_eq K (fst (equalize_length K rx ry))) rows) (derefs K (eval_eq K (snd (equalize_length K rx ry))) cols) vals).
Proof.
  intro W. pose proof W as (W0 & (kx & Ex) & (La & Lb & Lc) & (Ra & Rb & Rc)). destruct (half_len_pow K i) as (En & Ha & Hi).
  unfold encode, count_of. rewrite La, Lb, Lc, Nat.eqb_refl. cbn [negb].
  destruct (switch_matrix_to_list K (r_a K i) (half_len K i)) as [[av ar] ac] eqn:EA. destruct (switch_matrix_to_list K (r_b K i) (half_len K i)) as [[bv br] bc] eqn:EB. destruct (switch_matrix_to_list K (r_c K i) (half_len K i)) as [[cv cr] cc] eqn:EC. cbn [fst snd].
  set (cnt := Nat.max (Nat.max (length ar) (length br)) (length cr)). set (k := log2c cnt). assert (Ek : next_pow2 cnt = (2 ^ k)%nat) by reflexivity. rewrite Ek. pose proof (next_pow2_ge cnt) as Hk. rewrite Ek in Hk.
  assert (Rx : r_cons K i = (2 ^ rounds_x K i)%nat) by (unfold rounds_x, log2c; rewrite Ex, Nat.log2_up_pow2 by lia; reflexivity).
  assert (Ry : (half_len K i * 2 = 2 ^ rounds_y K i)%nat) by (unfold rounds_y; rewrite Nat.add_1_r; cbn [Nat.pow]; lia).
  set (s := (Nat.max (rounds_x K i) (rounds_y K i) - 1)%nat). assert (Es : S s = Nat.max (rounds_x K i) (rounds_y K i)) by (unfold s, rounds_y; lia).
  assert (Em : next_pow2 (Nat.max (half_len K i * 2) (r_cons K i)) = (2 ^ S s)%nat) by (rewrite Ry, Rx, pow_max, (Nat.max_comm (rounds_y K i)), <- Es; unfold next_pow2; rewrite Nat.log2_up_pow2 by lia; reflexivity). rewrite Em.
  set (zx := repeat (0 : K) (rounds_x K i)). set (zy := repeat (0 : K) (rounds_y K i)).
  assert (MA := fun rx ry A B => matrix_listed i (r_a K i) rx ry av ar ac (2 ^ k) W La Ra A B EA ltac:(clear -Hk; lia)). assert (MB := fun rx ry A B => matrix_listed i (r_b K i) rx ry bv br bc (2 ^ k) W Lb Rb A B EB ltac:(clear -Hk; lia)). assert (MC := fun rx ry A B => matrix_listed i (r_c K i) rx ry cv cr cc (2 ^ k) W Lc Rc A B EC ltac:(clear -Hk; lia)).
  destruct (MA zx zy (repeat_length _ _) (repeat_length _ _)) as (A1 & A2 & A3 & A4 & A5 & _). destruct (MB zx zy (repeat_length _ _) (repeat_length _ _)) as (B1 & B2 & B3 & B4 & B5 & _). destruct (MC zx zy (repeat_length _ _) (repeat_length _ _)) as (D1 & D2 & D3 & D4 & D5 & _).
  assert (PX : (r_cons K i <= 2 ^ S s)%nat) by (rewrite Rx; apply Nat.pow_le_mono_r; lia). assert (PY : (2 * half_len K i <= 2 ^ S s)%nat) by (replace (2 * half_len K i)%nat with (half_len K i * 2)%nat by lia; rewrite Ry; apply Nat.pow_le_mono_r; lia).
  set (rows := [ar ++ repeat 0%nat (2 ^ k - length ar); br ++ repeat 0%nat (2 ^ k - length br); cr ++ repeat 0%nat (2 ^ k - length cr)]). set (cols := [ac ++ repeat 0%nat (2 ^ k - length ac); bc ++ repeat 0%nat (2 ^ k - length bc); cc ++ repeat 0%nat (2 ^ k - length cc)]).
  set (vals := [av ++ repeat 0 (2 ^ k - length av); bv ++ repeat 0 (2 ^ k - length bv); cv ++ repeat 0 (2 ^ k - length cv)]).
  assert (LP : forall {A} (l : list A) x, (length l <= 2 ^ k)%nat -> length (l ++ repeat x (2 ^ k - length l)) = (2 ^ k)%nat) by (intros A l x Hl; rewrite app_length, repeat_length; lia).
  assert (Cle : (length ar <= 2 ^ k)%nat /\ (length br <= 2 ^ k)%nat /\ (length cr <= 2 ^ k)%nat) by (clear -Hk; unfold cnt in Hk; lia). destruct Cle as (CA & CB & CC).
  assert (HR : accesses_ok rows (2 ^ k) (2 ^ S s)).
  { repeat constructor; try (apply LP; assumption); (eapply Forall_impl; [|eassumption]); intros a Ia; cbv beta in *; lia. }
  assert (HC : accesses_ok cols (2 ^ k) (2 ^ S s)).
  { repeat constructor; try (apply LP; lia); (eapply Forall_impl; [|eassumption]); intros a Ia; cbv beta in *; lia. }
  assert (HV : all_len K k vals) by (repeat constructor; apply LP; lia).
  rewrite (memory_in_the_head_ok K rows _ _ HR), (memory_in_the_head_ok K cols _ _ HC). cbn [rbind]. fold (ts_of K (2 ^ S s) rows). fold (ts_of K (2 ^ S s) cols). fold (ops_blocks K (2 ^ S s) rows cols vals).
  destruct (pack_total K G (ev_ops K G p) _ _ (pad2_pow K (concat (ops_blocks K (2 ^ S s) rows cols vals)))) as (oc & Eo). rewrite Eo. cbn [rbind].
  destruct (pack_total K G (ev_mem K G p) _ _ (pad2_pow K (at_audit K (ts_of K (2 ^ S s) rows) ++ at_audit K (ts_of K (2 ^ S s) cols)))) as (mc & Emc). rewrite Emc. cbn [rbind].
  exists k, s, rows, cols, vals, (mkEC K G (2 ^ k) (2 ^ S s) oc mc). split; [reflexivity|]. split; [reflexivity|]. split; [reflexivity|]. split; [reflexivity|]. split; [exact Es|].
  split; [apply Nat.log2_up_le_mono; clear -A3 B3 D3; unfold cnt; lia|]. split; [exact HR|]. split; [exact HC|]. split; [exact HV|]. do 3 (split; [reflexivity|]). split; [exact Eo|]. split; [exact Emc|].
  intros rx ry Lx Ly. destruct (MA rx ry Lx Ly) as (_ & _ & _ & _ & _ & <-). destruct (MB rx ry Lx Ly) as (_ & _ & _ & _ & _ & <-). destruct (MC rx ry Lx Ly) as (_ & _ & _ & _ & _ & <-). reflexivity.
Qed.
End S.
