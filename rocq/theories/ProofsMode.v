(** Gadgets emit the same constraints with and without witnesses: booleans, field elements, lookups, range proofs, MiMC and sponges. *)
From Verif Require Import Field ModelLC ModelCS ModelBoolean ModelOperator ModelCbmt ModelMimc ModelSponge SpecMode.
Local Open Scope fld_scope.
Section P.
Variable K : Fld.
Implicit Types s t : cs K.
Lemma fits_ret A (R : A -> A -> Prop) a a' : R a a' -> fits R (@ret K A a) (ret a').
Proof. intros H s s' S M x t E. injection E as <- <-. exists a', s'. repeat split; try assumption; apply S. Qed.
Lemma fits_bind A B (RA : A -> A -> Prop) (RB : B -> B -> Prop) (m m' : M K A) k k' : fits RA m m' -> (forall a a', RA a a' -> fits RB (k a) (k' a')) -> fits RB (bind m k) (bind m' k').
Proof.
  intros H1 H2 s s' S M b t E. unfold bind in *. destruct (m s) as [[a s1]| |] eqn:E1; try discriminate. destruct (H1 s s' S M a s1 E1) as (a' & s1' & -> & Ra & S1 & M1). exact (H2 a a' Ra s1 s1' S1 M1 b t E).
Qed.
Lemma fits_weaken A (R R' : A -> A -> Prop) (m m' : M K A) : (forall a a', R a a' -> R' a a') -> fits R m m' -> fits R' m m'.
Proof. intros W H s s' S M a t E. destruct (H s s' S M a t E) as (a' & t' & X & Y & Z). exists a', t'. split; [exact X|]. split; [apply W, Y|exact Z]. Qed.
Lemma fits_fail A (R : A -> A -> Prop) e m : fits R (@fail K A e) m. Proof. intros s s' S M a t E. discriminate. Qed.
Lemma fits_panic A (R : A -> A -> Prop) m : fits R (@panic K A) m. Proof. intros s s' S M a t E. discriminate. Qed.
Lemma fits_alloc f f' : fits eq (@alloc K f) (alloc f').
Proof.
  intros s s' (S1 & S2 & S3) M v t E. unfold alloc in *. rewrite M. assert (v = Aux (length (auxs s)) /\ exists x, t = mkCS (md s) (inps s) (auxs s ++ [x]) (cons s)) as [-> (x & ->)].
  { destruct (md s); [injection E as <- <-; split; [reflexivity|eexists; reflexivity]|]. destruct f; try discriminate. injection E as <- <-. split; [reflexivity|eexists; reflexivity]. }
  eexists _, _. split; [reflexivity|]. rewrite S2. split; [reflexivity|]. split; [|reflexivity]. repeat split; cbn [inps auxs cons]; rewrite ?app_length; cbn [length]; congruence.
Qed.
Lemma fits_alloc_input f f' : fits eq (@alloc_input K f) (alloc_input f').
Proof.
  intros s s' (S1 & S2 & S3) M v t E. unfold alloc_input in *. rewrite M. assert (v = Input (length (inps s)) /\ exists x, t = mkCS (md s) (inps s ++ [x]) (auxs s) (cons s)) as [-> (x & ->)].
  { destruct (md s); [injection E as <- <-; split; [reflexivity|eexists; reflexivity]|]. destruct f; try discriminate. injection E as <- <-. split; [reflexivity|eexists; reflexivity]. }
  eexists _, _. split; [reflexivity|]. rewrite S1. split; [reflexivity|]. split; [|reflexivity]. repeat split; cbn [inps auxs cons]; rewrite ?app_length; cbn [length]; congruence.
Qed.
Lemma fits_enforce a b c : fits any (@enforce K a b c) (enforce a b c).
Proof.
  intros s s' (S1 & S2 & S3) M v t E. injection E as <- <-. eexists _, _. split; [reflexivity|]. split; [exact I|]. split; [|exact M]. repeat split; cbn [inps auxs cons]; congruence.
Qed.
Lemma fits_if_called A (o o' : option A) : fits any (@if_called K A o) (if_called o').
Proof. intros s s' S M a t E. injection E as <- <-. eexists _, _. split; [reflexivity|]. split; [exact I|]. split; assumption. Qed.
Lemma fits_mapM A B (RA : A -> A -> Prop) (RB : B -> B -> Prop) (f f' : A -> M K B) : (forall a a', RA a a' -> fits RB (f a) (f' a')) -> forall l l', Forall2 RA l l' -> fits (Forall2 RB) (mapM f l) (mapM f' l').
Proof.
  intros H l l' F. induction F as [|a a' l l' Ra F IH]; cbn [mapM]; [apply fits_ret; constructor|]. eapply fits_bind; [apply H, Ra|]. intros y y' Ry. eapply fits_bind; [exact IH|]. intros ys ys' Rs. apply fits_ret. constructor; assumption.
Qed.
(** A refined version for loops that also need what each step guarantees. *)
Lemma Forall2_any A (l l' : list A) : length l = length l' -> Forall2 any l l'.
Proof. revert l'. induction l as [|a l IH]; intros [|b l'] H; try discriminate; constructor; [exact I|]. apply IH. injection H as H. exact H. Qed.
Lemma Forall2_same A (l : list A) : Forall2 eq l l. Proof. induction l; constructor; auto. Qed.
Lemma Forall2_eq_eq A (l l' : list A) : Forall2 eq l l' -> l = l'. Proof. induction 1; congruence. Qed.
Ltac fits_go := repeat (first
  [ apply fits_panic | apply fits_fail
  | eapply fits_bind; [first [apply fits_alloc | apply fits_alloc_input | apply fits_enforce | apply fits_if_called]|intros ? ? ?; subst]
  | apply fits_ret | eapply fits_weaken; [|first [apply fits_enforce | apply fits_alloc | apply fits_alloc_input]]; [intros; exact I] ]).

(** ** Booleans *)
Lemma fits_bit_alloc o o' : fits same_bit (@bit_alloc K o) (bit_alloc o'). Proof. unfold bit_alloc. fits_go. reflexivity. Qed.
Lemma fits_bit_alloc_input o o' : fits same_bit (@bit_alloc_input K o) (bit_alloc_input o'). Proof. unfold bit_alloc_input. fits_go. reflexivity. Qed.
Lemma fits_bit_alloc_cond o o' b b' : same_bit b b' -> fits same_bit (@bit_alloc_cond K o b) (bit_alloc_cond o' b'). Proof. intro H. unfold bit_alloc_cond, same_bit in *. rewrite H. fits_go. reflexivity. Qed.
Section Two.
Variables a a' b b' : abit.
Hypothesis (Ha : same_bit a a') (Hb : same_bit b b').
Lemma fits_bit_xor : fits same_bit (@bit_xor K a b) (bit_xor a' b'). Proof. unfold bit_xor, same_bit in *. rewrite Ha, Hb. fits_go. reflexivity. Qed.
Lemma fits_bit_and : fits same_bit (@bit_and K a b) (bit_and a' b'). Proof. unfold bit_and, same_bit in *. rewrite Ha, Hb. fits_go. reflexivity. Qed.
Lemma fits_bit_and_not : fits same_bit (@bit_and_not K a b) (bit_and_not a' b'). Proof. unfold bit_and_not, same_bit in *. rewrite Ha, Hb. fits_go. reflexivity. Qed.
Lemma fits_bit_nor : fits same_bit (@bit_nor K a b) (bit_nor a' b'). Proof. unfold bit_nor, same_bit in *. rewrite Ha, Hb. fits_go. reflexivity. Qed.
End Two.
Lemma wire_lc b b' c : same_wire b b' -> @b_lc K b c = b_lc b' c.
Proof. destruct b, b'; cbn [same_wire]; try contradiction; intro H; cbn [b_lc]; rewrite H; reflexivity. Qed.
Lemma wire_not b b' : same_wire b b' -> same_wire (b_not b) (b_not b').
Proof. destruct b, b'; cbn [same_wire b_not]; try contradiction; congruence. Qed.
Lemma wire_const b b' : same_wire b b' -> b_is_const b = b_is_const b'.
Proof. destruct b, b'; cbn; try contradiction; reflexivity. Qed.
Lemma fits_enforce_equal a a' b b' : same_wire a a' -> same_wire b b' -> fits any (@b_enforce_equal K a b) (b_enforce_equal a' b').
Proof.
  intros Ha Hb. pose proof (wire_lc a a' 1 Ha) as La. pose proof (wire_lc b b' 1 Hb) as Lb. unfold b_enforce_equal. destruct a as [a|a|ca], a' as [a'|a'|ca']; try contradiction; destruct b as [b|b|cb], b' as [b'|b'|cb']; try contradiction; cbn [same_wire] in Ha, Hb; subst; rewrite ?La, ?Lb;
    try (destruct ca'); try (destruct cb'); try apply fits_enforce; try apply fits_fail; apply fits_ret; exact I.
Qed.
Lemma fits_xor a a' b b' : same_wire a a' -> same_wire b b' -> fits same_wire (@b_xor K a b) (b_xor a' b').
Proof.
  intros Ha Hb. unfold b_xor. destruct a as [a|a|ca], a' as [a'|a'|ca']; try contradiction; destruct b as [b|b|cb], b' as [b'|b'|cb']; try contradiction; cbn [same_wire] in Ha, Hb; try subst ca'; try subst cb';
    try (destruct ca); try (destruct cb); try (apply fits_ret; cbn; congruence); (eapply fits_bind; [apply fits_bit_xor; eassumption|]; intros r r' Hr; apply fits_ret; exact Hr).
Qed.
Lemma fits_and a a' b b' : same_wire a a' -> same_wire b b' -> fits same_wire (@b_and K a b) (b_and a' b').
Proof.
  intros Ha Hb. unfold b_and. destruct a as [a|a|ca], a' as [a'|a'|ca']; try contradiction; destruct b as [b|b|cb], b' as [b'|b'|cb']; try contradiction; cbn [same_wire] in Ha, Hb; try subst ca'; try subst cb';
    try (destruct ca); try (destruct cb); try (apply fits_ret; cbn; congruence);
    (eapply fits_bind; [first [apply fits_bit_and; eassumption|apply fits_bit_and_not; eassumption|apply fits_bit_nor; eassumption]|]; intros r r' Hr; apply fits_ret; exact Hr).
Qed.
Ltac wires := repeat match goal with |- same_wire (b_not _) (b_not _) => apply wire_not end; try assumption.
Lemma fits_and_not a a' b b' : same_wire a a' -> same_wire b b' -> fits same_wire (r <- @b_and K a b ;; ret (b_not r)) (r <- b_and a' b' ;; ret (b_not r)).
Proof. intros Ha Hb. eapply fits_bind; [apply fits_and; assumption|]. intros r r' Hr. apply fits_ret. wires. Qed.
Lemma fits_ch a a' b b' c c' : same_wire a a' -> same_wire b b' -> same_wire c c' -> fits same_wire (@b_ch K a b c) (b_ch a' b' c').
Proof.
  intros Ha Hb Hc. pose proof (wire_lc a a' 1 Ha) as La. pose proof (wire_lc b b' 1 Hb) as Lb. pose proof (wire_lc c c' 1 Hc) as Lc. unfold b_ch.
  destruct a as [a|a|ca], a' as [a'|a'|ca']; try contradiction; destruct b as [b|b|cb], b' as [b'|b'|cb']; try contradiction; destruct c as [c|c|cc], c' as [c'|c'|cc']; try contradiction;
    pose proof Ha as Ha'; pose proof Hb as Hb'; pose proof Hc as Hc'; cbn [same_wire] in Ha', Hb', Hc'; try subst ca'; try subst cb'; try subst cc'; try (destruct ca); try (destruct cb); try (destruct cc);
    try (apply fits_ret; first [reflexivity|assumption]); try (apply fits_and; wires); try (apply fits_and_not; wires);
    try rewrite La; try rewrite Lb; try rewrite Lc; fits_go; reflexivity.
Qed.
Lemma fits_maj a a' b b' c c' : same_wire a a' -> same_wire b b' -> same_wire c c' -> fits same_wire (@b_maj K a b c) (b_maj a' b' c').
Proof.
  intros Ha Hb Hc. pose proof (wire_lc a a' 1 Ha) as La. pose proof (wire_lc b b' 1 Hb) as Lb. pose proof (wire_lc c c' 1 Hc) as Lc. unfold b_maj.
  destruct a as [a|a|ca], a' as [a'|a'|ca']; try contradiction; destruct b as [b|b|cb], b' as [b'|b'|cb']; try contradiction; destruct c as [c|c|cc], c' as [c'|c'|cc']; try contradiction;
    pose proof Ha as Ha'; pose proof Hb as Hb'; pose proof Hc as Hc'; cbn [same_wire] in Ha', Hb', Hc'; try subst ca'; try subst cb'; try subst cc'; try (destruct ca); try (destruct cb); try (destruct cc);
    try (apply fits_ret; first [reflexivity|assumption]); try (apply fits_and; wires); try (apply fits_and_not; wires);
    try rewrite La; try rewrite Lb; try rewrite Lc; (eapply fits_bind; [apply fits_alloc|]; intros v v' ->; eapply fits_bind; [apply fits_and; eassumption|]; intros r r' Hr; rewrite (wire_lc r r' 1 Hr); fits_go; reflexivity).
Qed.
Lemma map_wires l l' : Forall2 same_bit l l' -> Forall2 same_wire (map BIs l) (map BIs l').
Proof. induction 1; constructor; assumption. Qed.
Lemma fits_u64 o o' : fits (Forall2 same_wire) (@u64_into_boolean_vec_le K o) (u64_into_boolean_vec_le o').
Proof.
  unfold u64_into_boolean_vec_le. eapply fits_bind.
  - apply (fits_mapM _ _ any same_bit); [intros; apply fits_bit_alloc|]. apply Forall2_any. destruct o, o'; rewrite ?map_length, ?seq_length, ?repeat_length; reflexivity.
  - intros l l' H. apply fits_ret, map_wires, H.
Qed.

(** ** Field elements and lookups *)
Definition same_fr (a b : afr K) : Prop := fvar a = fvar b.
Lemma fits_fr_alloc f f' : fits same_fr (fr_alloc f) (fr_alloc f'). Proof. unfold fr_alloc. fits_go. reflexivity. Qed.
Lemma fits_fr_alloc_input f f' : fits same_fr (fr_alloc_input f) (fr_alloc_input f'). Proof. unfold fr_alloc_input. fits_go. reflexivity. Qed.
Lemma fits_inputize a a' : same_fr a a' -> fits any (fr_inputize a) (fr_inputize a'). Proof. intro H. unfold fr_inputize, same_fr in *. rewrite H. fits_go. Qed.
Lemma fits_isnonzero a a' : same_fr a a' -> fits any (fr_isnonzero a) (fr_isnonzero a'). Proof. intro H. unfold fr_isnonzero, same_fr in *. rewrite H. fits_go. Qed.
Lemma fits_lookup1 b b' c : same_wire b b' -> fits same_fr (@lookup1_x K b c) (lookup1_x b' c).
Proof.
  intro H. pose proof (wire_lc b b' 1 H) as L. unfold lookup1_x. destruct c as [|c0 [|c1 [|? ?]]]; try apply fits_panic. destruct b as [b|b|cb], b' as [b'|b'|cb']; try contradiction; cbn [same_wire] in H; subst;
    [| |destruct cb'; apply fits_fr_alloc]; rewrite L; (eapply fits_bind; [apply fits_fr_alloc|]; intros tv tv' Ht; eapply fits_bind; [apply fits_fr_alloc|]; intros fv fv' Hf; eapply fits_bind; [apply fits_fr_alloc|]; intros r r' Hr;
      rewrite Ht, Hf, Hr; eapply fits_bind; [apply fits_enforce|]; intros; apply fits_ret; exact Hr).
Qed.
Lemma fits_con2 b0 b0' b1 b1' c0 c1 c2 c3 v : same_wire b0 b0' -> same_wire b1 b1' -> fits any (@lookup2_con K b0 b1 c0 c1 c2 c3 v) (lookup2_con b0' b1' c0 c1 c2 c3 v).
Proof. intros H0 H1. unfold lookup2_con. rewrite (wire_lc b0 b0' 1 H0), !(wire_lc b1 b1' _ H1). apply fits_enforce. Qed.
Lemma fits_lookup2_x b b' c : Forall2 same_wire b b' -> fits same_fr (@lookup2_x K b c) (lookup2_x b' c).
Proof.
  intro H. unfold lookup2_x. inversion H as [|b0 b0' l l' H0 H1]; subst; [apply fits_panic|]. inversion H1 as [|b1 b1' m m' H2 H3]; subst; [apply fits_panic|]. inversion H3; subst; [|apply fits_panic].
  destruct c as [|c0 [|c1 [|c2 [|c3 [|? ?]]]]]; try apply fits_panic. eapply fits_bind; [apply fits_fr_alloc|]. intros r r' Hr. rewrite Hr. eapply fits_bind; [apply fits_con2; assumption|]. intros. apply fits_ret. exact Hr.
Qed.
Definition same_fr2 (a b : afr K * afr K) : Prop := same_fr (fst a) (fst b) /\ same_fr (snd a) (snd b).
Lemma fits_lookup2_xy b b' c : Forall2 same_wire b b' -> fits same_fr2 (@lookup2_xy K b c) (lookup2_xy b' c).
Proof.
  intro H. unfold lookup2_xy. inversion H as [|b0 b0' l l' H0 H1]; subst; [apply fits_panic|]. inversion H1 as [|b1 b1' m m' H2 H3]; subst; [apply fits_panic|]. inversion H3; subst; [|apply fits_panic].
  destruct c as [|c0 [|c1 [|c2 [|c3 [|? ?]]]]]; try apply fits_panic. eapply fits_bind; [apply fits_fr_alloc|]. intros r r' Hr. eapply fits_bind; [apply fits_fr_alloc|]. intros q q' Hq. rewrite Hr, Hq.
  eapply fits_bind; [apply fits_con2; assumption|]. intros. eapply fits_bind; [apply fits_con2; assumption|]. intros. apply fits_ret. split; assumption.
Qed.
Lemma fits_lift_res A (r : res A) : fits eq (@lift_res K A r) (lift_res r).
Proof. destruct r; [apply fits_ret; reflexivity|apply fits_fail|apply fits_panic]. Qed.
Lemma fits_con3 b0 b0' b1 b1' b2 b2' p p' k v : same_wire b0 b0' -> same_wire b1 b1' -> same_wire b2 b2' -> same_wire p p' -> fits any (@lookup3_con K b0 b1 b2 p k v) (lookup3_con b0' b1' b2' p' k v).
Proof. intros H0 H1 H2 Hp. unfold lookup3_con. rewrite (wire_lc b0 b0' 1 H0), !(wire_lc b1 b1' _ H1), !(wire_lc b2 b2' _ H2), !(wire_lc p p' _ Hp). apply fits_enforce. Qed.
Lemma fits_lookup3_x b b' c : Forall2 same_wire b b' -> fits same_fr (@lookup3_x K b c) (lookup3_x b' c).
Proof.
  intro H. unfold lookup3_x. inversion H as [|b0 b0' l l' H0 H1]; subst; [apply fits_panic|]. inversion H1 as [|b1 b1' m m' H2 H3]; subst; [apply fits_panic|]. inversion H3 as [|b2 b2' n n' H4 H5]; subst; [apply fits_panic|]. inversion H5; subst; [|apply fits_panic].
  destruct (Nat.eqb (length c) 8); [|apply fits_panic]. eapply fits_bind; [apply fits_fr_alloc|]. intros r r' Hr. eapply fits_bind; [apply fits_lift_res|]. intros k k' <-. eapply fits_bind; [apply fits_and; eassumption|]. intros p p' Hp. rewrite Hr.
  eapply fits_bind; [apply fits_con3; assumption|]. intros. apply fits_ret. exact Hr.
Qed.
Lemma fits_lookup3_xy b b' c : Forall2 same_wire b b' -> fits same_fr2 (@lookup3_xy K b c) (lookup3_xy b' c).
Proof.
  intro H. unfold lookup3_xy. inversion H as [|b0 b0' l l' H0 H1]; subst; [apply fits_panic|]. inversion H1 as [|b1 b1' m m' H2 H3]; subst; [apply fits_panic|]. inversion H3 as [|b2 b2' n n' H4 H5]; subst; [apply fits_panic|]. inversion H5; subst; [|apply fits_panic].
  destruct (Nat.eqb (length c) 8); [|apply fits_panic]. eapply fits_bind; [apply fits_fr_alloc|]. intros r r' Hr. eapply fits_bind; [apply fits_fr_alloc|]. intros q q' Hq. eapply fits_bind; [apply fits_lift_res|]. intros k k' <-. eapply fits_bind; [apply fits_lift_res|]. intros k2 k2' <-.
  eapply fits_bind; [apply fits_and; eassumption|]. intros p p' Hp. rewrite Hr, Hq. eapply fits_bind; [apply fits_con3; assumption|]. intros. eapply fits_bind; [apply fits_con3; assumption|]. intros. apply fits_ret. split; assumption.
Qed.
End P.
Ltac fits_go := repeat (first
  [ apply fits_panic | apply fits_fail
  | eapply fits_bind; [first [apply fits_alloc | apply fits_alloc_input | apply fits_enforce | apply fits_if_called]|intros ? ? ?; subst]
  | apply fits_ret | eapply fits_weaken; [|first [apply fits_enforce | apply fits_alloc | apply fits_alloc_input]]; [intros; exact I] ]).
Section Q.
Variable K : PFld.
Lemma fits_field_bits (o o' : option K) : fits (Forall2 same_bit) (field_into_allocated_bits_le o) (field_into_allocated_bits_le o').
Proof. unfold field_into_allocated_bits_le. apply (fits_mapM _ _ _ any same_bit); [intros; apply fits_bit_alloc|]. apply Forall2_any. destruct o, o'; rewrite ?map_length, ?seq_length, ?repeat_length; reflexivity. Qed.
Lemma fits_allocs (l l' : list K) : length l = length l' -> fits eq (mapM (fun b => @alloc K (Ok b)) l) (mapM (fun b => alloc (Ok b)) l').
Proof. intro H. eapply fits_weaken; [intros a a'; apply Forall2_eq_eq|]. apply (fits_mapM _ _ _ any eq); [intros; apply fits_alloc|]. apply Forall2_any, H. Qed.
Lemma fits_rangeproof rb lhs rhs lhs' rhs' n : fits any (@rangeproof K rb lhs rhs n) (rangeproof rb lhs' rhs' n).
Proof.
  unfold rangeproof. do 4 (eapply fits_bind; [first [apply fits_alloc|apply fits_alloc_input]|intros ? ? ?; subst]). destruct (Nat.ltb rb (n + 1)); [apply fits_panic|].
  eapply fits_bind; [apply fits_allocs; rewrite !map_length; reflexivity|]. intros al al' <-. do 3 (eapply fits_bind; [apply fits_alloc|intros ? ? ?; subst]). eapply fits_bind; [apply fits_enforce|]. intros _ _ _.
  eapply fits_bind; [apply (fits_mapM _ _ _ eq any); [intros v v' ->; apply fits_enforce|apply Forall2_same]|]. intros. fits_go.
Qed.
Section Mimc.
Variables (nl : nat) (cts : list K).
Lemma fits_rounds cs : forall xl xr xl' xr' vl vr, fits any (@mimc_rounds K cs xl xr vl vr) (mimc_rounds cs xl' xr' vl vr).
Proof. induction cs as [|c cs IH]; intros; cbn [mimc_rounds]; [apply fits_ret; exact I|]. do 4 (eapply fits_bind; [first [apply fits_alloc|apply fits_enforce]|intros ? ? ?; subst]). apply IH. Qed.
Lemma fits_mimc_body t t' : fits any (mimc_body cts t) (mimc_body cts t').
Proof. unfold mimc_body. do 2 (eapply fits_bind; [apply fits_alloc|intros ? ? ?; subst]). eapply fits_bind; [apply fits_rounds|]. intros. apply fits_ret. exact I. Qed.
(** Key generation may run without the preimage, or with any preimage that is not empty. *)
Lemma mimc_hash_some b : b <> [] -> (0 < nl)%nat -> exists t, mimc_hash nl cts b = Ok t.
Proof.
  intros H N. unfold mimc_hash. assert (@blocks K nl b <> []) as B. { unfold blocks. intro E. apply app_eq_nil in E. destruct E as [E1 E2]. apply map_eq_nil in E1. assert (length b / (8 * nl) = 0)%nat as D by (destruct (length b / (8 * nl))%nat; [reflexivity|discriminate]).
    destruct (Nat.eqb_spec (length b mod (8 * nl)) 0) as [Z|Z]; [|discriminate]. pose proof (Nat.div_mod (length b) (8 * nl) ltac:(lia)) as Q. rewrite D, Z in Q. destruct b; [contradiction|cbn [length] in Q; lia]. }
  destruct (rev (@blocks K nl b)) eqn:E; [exfalso; apply B; rewrite <- (rev_involutive (@blocks K nl b)), E; reflexivity|]. destruct (hash_loop cts 0 0 (@blocks K nl b)). eexists. reflexivity.
Qed.
Definition usable (b : option (list Z)) : Prop := match b with Some l => l <> [] | None => True end.
Lemma fits_mimc b b' : (0 < nl)%nat -> usable b' -> fits any (@mimc K nl cts b) (mimc nl cts b').
Proof.
  intros N H. intros s s' S M a t E. unfold mimc in *. assert (exists t', match b' with Some by_ => rmap Some (@mimc_hash K nl cts by_) | None => Ok None end = Ok t') as (t' & ->).
  { destruct b' as [l|]; [|eexists; reflexivity]. destruct (mimc_hash_some l H N) as (x & ->). eexists. reflexivity. }
  destruct (match b with Some by_ => rmap Some (@mimc_hash K nl cts by_) | None => Ok None end) as [x| |]; try discriminate. exact (fits_mimc_body x t' s s' S M a t E).
Qed.
Lemma fits_cli_hash b b' : (0 < nl)%nat -> usable b' -> fits any (@cli_hash K nl cts b) (cli_hash nl cts b').
Proof. intros N H. unfold cli_hash. eapply fits_bind; [apply fits_mimc; assumption|]. intros. fits_go. exact I. Qed.
Lemma fits_mout_alloc f f' : fits (fun a b : mout K => mo_var a = mo_var b) (mout_alloc f) (mout_alloc f'). Proof. unfold mout_alloc. fits_go. reflexivity. Qed.
(** But the Merkle gadget refuses to be set up without values. *)
Lemma hash_enforce_missing ps (s : cs K) : (exists p, In p ps /\ mo_val p = None) -> hash_enforce nl cts ps s = Err AssignmentMissing.
Proof.
  intros (p & H & E). unfold hash_enforce. assert (params_bytes nl ps = Err AssignmentMissing) as ->; [|reflexivity]. induction ps as [|q ps IH]; [contradiction|]. cbn [params_bytes]. destruct H as [->|H]; [rewrite E; reflexivity|]. rewrite (IH H). destruct (mo_val q); reflexivity.
Qed.
Lemma membership_missing index lemmas root leaf (s : cs K) : md s = Setup -> lemmas <> [] -> mo_val leaf = None -> set_membership nl cts index lemmas root leaf s = Err AssignmentMissing.
Proof.
  intros M H E. destruct lemmas as [|sib r]; [contradiction|]. unfold set_membership, bind. cbn [member_loop]. unfold bind, member_step, bind. unfold alloc. rewrite M. cbn [md]. unfold enforce. cbn [md].
  destruct (is_left index); rewrite hash_enforce_missing; try reflexivity; exists leaf; (split; [cbn; auto|exact E]).
Qed.
End Mimc.

(** ** Rescue and Poseidon *)
Definition same_cell (a b : K * var) : Prop := snd a = snd b.
Definition same3 (a b : t3 (K * var)) : Prop := same_cell (x0 a) (x0 b) /\ same_cell (x1 a) (x1 b) /\ same_cell (x2 a) (x2 b).
Lemma fits_pow_loop b : forall sv sv' st rv rv' r, fits same_cell (@pow_loop K sv st b rv r) (pow_loop sv' st b rv' r).
Proof. induction b as [|i b IH]; intros; cbn [pow_loop]; [apply fits_ret; reflexivity|]. do 2 (eapply fits_bind; [first [apply fits_alloc|apply fits_enforce]|intros ? ? ?; subst]). destruct i; [|apply IH]. do 2 (eapply fits_bind; [first [apply fits_alloc|apply fits_enforce]|intros ? ? ?; subst]). apply IH. Qed.
Lemma fits_pow a a' b : same_cell a a' -> fits same_cell (@pow_with_constraint K a b) (pow_with_constraint a' b).
Proof. intro H. unfold pow_with_constraint. rewrite H. eapply fits_bind; [apply fits_alloc|intros ? ? ?; subst]. apply fits_pow_loop. Qed.
Lemma fits_add_const a a' c : same_cell a a' -> fits same_cell (@add_const K a c) (add_const a' c).
Proof. intro H. unfold add_const. rewrite H. fits_go. reflexivity. Qed.
Lemma fits_add_consts a a' c : same3 a a' -> fits same3 (@add_consts K a c) (add_consts a' c).
Proof. intros (H0 & H1 & H2). unfold add_consts. eapply fits_bind; [apply fits_add_const, H0|intros ? ? ?]. eapply fits_bind; [apply fits_add_const, H1|intros ? ? ?]. eapply fits_bind; [apply fits_add_const, H2|intros ? ? ?]. apply fits_ret. repeat split; assumption. Qed.
Lemma fits_mix_cell c a a' acc acc' : same_cell a a' -> same_cell acc acc' -> fits same_cell (@mix_cell K c a acc) (mix_cell c a' acc').
Proof. intros H H'. unfold mix_cell. rewrite H, H'. fits_go. reflexivity. Qed.
Lemma fits_mix_row m a a' acc acc' : same3 a a' -> same_cell acc acc' -> fits same_cell (@mix_row K m a acc) (mix_row m a' acc').
Proof. intros (H0 & H1 & H2) H. unfold mix_row. eapply fits_bind; [apply fits_mix_cell; eassumption|intros ? ? ?]. eapply fits_bind; [apply fits_mix_cell; eassumption|intros ? ? ?]. apply fits_mix_cell; assumption. Qed.
Lemma fits_mix m a a' : same3 a a' -> fits same3 (@mix K m a) (mix m a').
Proof.
  intro H. unfold mix. do 3 (eapply fits_bind; [apply fits_alloc|intros ? ? ?; subst]). do 3 (eapply fits_bind; [apply fits_mix_row; [exact H|reflexivity]|intros ? ? ?]). apply fits_ret. repeat split; assumption.
Qed.
Lemma fits_pows a a' e : same3 a a' -> fits same3 (@pows K a e) (pows a' e).
Proof. intros (H0 & H1 & H2). unfold pows. eapply fits_bind; [apply fits_pow, H0|intros ? ? ?]. eapply fits_bind; [apply fits_pow, H1|intros ? ? ?]. eapply fits_bind; [apply fits_pow, H2|intros ? ? ?]. apply fits_ret. repeat split; assumption. Qed.
Lemma fits_rescue_rounds al il mds cs : forall i a a', same3 a a' -> fits same3 (@rescue_rounds K al il mds i cs a) (rescue_rounds al il mds i cs a').
Proof. induction cs as [|c cs IH]; intros i a a' H; cbn [rescue_rounds]; [apply fits_ret, H|]. eapply fits_bind; [apply fits_pows, H|intros ? ? ?]. eapply fits_bind; [apply fits_mix; eassumption|intros ? ? ?]. eapply fits_bind; [apply fits_add_consts; eassumption|intros ? ? ?]. apply IH. assumption. Qed.
Lemma fits_sboxes al half i a a' : same3 a a' -> fits same3 (@poseidon_sboxes K al half i a) (poseidon_sboxes al half i a').
Proof. intro H. unfold poseidon_sboxes. destruct (_ || _)%bool; [apply fits_pows, H|]. eapply fits_bind; [apply fits_pow, H|intros ? ? ?]. apply fits_ret. destruct H as (E0 & E1 & _). repeat split; assumption. Qed.
Lemma fits_poseidon_rounds al half mds cs : forall i a a', same3 a a' -> fits same3 (@poseidon_rounds K al half mds i cs a) (poseidon_rounds al half mds i cs a').
Proof. induction cs as [|c cs IH]; intros i a a' H; cbn [poseidon_rounds]; [apply fits_ret, H|]. eapply fits_bind; [apply fits_add_consts, H|intros ? ? ?]. eapply fits_bind; [apply fits_sboxes; eassumption|intros ? ? ?]. eapply fits_bind; [apply fits_mix; eassumption|intros ? ? ?]. apply IH. assumption. Qed.
Lemma fits_expose a a' : same3 a a' -> fits any (@expose K a) (expose a').
Proof. intros (H0 & _). unfold expose. rewrite H0. eapply fits_bind; [apply fits_alloc_input|intros ? ? ?; subst]. apply fits_enforce. Qed.
Lemma sponge_some nl blk b : b <> [] -> (0 < nl)%nat -> exists t, @sponge_hash K nl blk b = Ok t.
Proof.
  intros H N. destruct (mimc_hash_some nl [] b H N) as (t & E). unfold mimc_hash in E. unfold sponge_hash. destruct (rev (@blocks K nl b)); [discriminate|]. destruct (sponge_loop blk 0 0 (@blocks K nl b)). eexists. reflexivity.
Qed.
Lemma fits_rescue nl al il mds c0 cs b b' : (0 < nl)%nat -> b' <> [] -> fits any (@rescue K nl al il mds c0 cs b) (rescue nl al il mds c0 cs b').
Proof.
  intros N H s s' S M a t E. unfold rescue in *. destruct (sponge_some nl (rescue_block al il mds c0 cs) b' H N) as ([[xl' xr'] im'] & ->). destruct (sponge_hash nl (rescue_block al il mds c0 cs) b) as [[[xl xr] im]| |]; try discriminate. revert s s' S M a t E.
  match goal with |- forall s s', same_shape s s' -> md s' = Setup -> forall a t, ?m s = _ -> exists a' t', ?m' s' = _ /\ _ => change (fits any m m') end. do 3 (eapply fits_bind; [apply fits_alloc|intros ? ? ?; subst]). eapply fits_bind; [apply fits_add_consts; repeat split|intros ? ? ?]. eapply fits_bind; [apply fits_rescue_rounds; eassumption|intros ? ? ?]. eapply fits_bind; [apply fits_expose; assumption|intros]. apply fits_ret. exact I.
Qed.
Lemma fits_poseidon nl al half mds ark b b' : (0 < nl)%nat -> b' <> [] -> fits any (@poseidon K nl al half mds ark b) (poseidon nl al half mds ark b').
Proof.
  intros N H s s' S M a t E. unfold poseidon in *. destruct (sponge_some nl (poseidon_block al half mds ark) b' H N) as ([[xl' xr'] im'] & ->). destruct (sponge_hash nl (poseidon_block al half mds ark) b) as [[[xl xr] im]| |]; try discriminate. revert s s' S M a t E.
  match goal with |- forall s s', same_shape s s' -> md s' = Setup -> forall a t, ?m s = _ -> exists a' t', ?m' s' = _ /\ _ => change (fits any m m') end. do 3 (eapply fits_bind; [apply fits_alloc|intros ? ? ?; subst]). eapply fits_bind; [apply fits_poseidon_rounds; repeat split|intros ? ? ?]. eapply fits_bind; [apply fits_expose; assumption|intros]. apply fits_ret. exact I.
Qed.
End Q.
