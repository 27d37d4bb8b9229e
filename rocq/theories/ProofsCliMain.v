(** Proofs about the command-line programs. *)
From Coq Require Import String Ascii ZArith List Lia Bool.
From Verif Require Import Field ModelLC SpecLC ProofsLC ModelCS SpecCS ModelMimc ModelCli SpecCli ProofsCli ModelCliMain SpecCliMain.
From Coq Require Import List.
Import ListNotations.
Local Open Scope Z_scope.

Lemma seqb_eq a b : seqb a b = true <-> a = b.
Proof. unfold seqb. destruct (list_eq_dec Z.eq_dec a b); split; intros; auto; discriminate. Qed.
Lemma seqb_refl a : seqb a a = true. Proof. apply seqb_eq. reflexivity. Qed.
Lemma seqb_ne a b : a <> b -> seqb a b = false. Proof. intro N. destruct (seqb a b) eqn:E; [apply seqb_eq in E; contradiction|reflexivity]. Qed.
Lemma str_app a b : str (a ++ b) = str a ++ str b.
Proof. unfold str. induction a as [|c a IH]; [reflexivity|]. cbn. rewrite IH. reflexivity. Qed.
Lemma path_setup s k x : path SETUP_DIR (str s) bls (str k) (str x) = setup_file s k x.
Proof. unfold path, setup_file, SETUP_DIR, bls. rewrite !str_app. reflexivity. Qed.
Lemma path_proof s k : path PROOFS_DIR (str s) bls (str k) (str ".proof.json") = proof_file s k.
Proof. unfold path, proof_file, PROOFS_DIR, bls. rewrite !str_app. reflexivity. Qed.
Lemma kind_name k : kind_of (str (name k)) = Some k. Proof. destruct k; reflexivity. Qed.
Lemma kind_inv s k : kind_of s = Some k -> s = str (name k).
Proof. unfold kind_of. destruct (seqb s (str "mini")) eqn:E; [apply seqb_eq in E; intro Q; injection Q as <-; exact E|]. destruct (seqb s (str "hash")) eqn:E2; [apply seqb_eq in E2; intro Q; injection Q as <-; exact E2|discriminate]. Qed.
Lemma kind_iff s k : kind_of s = Some k <-> s = str (name k).
Proof. split; [apply kind_inv|intros ->; apply kind_name]. Qed.

(** ** Decimal numbers *)
Lemma value_app a c : value (a ++ [c]) = 10 * value a + (c - 48).
Proof. unfold value. rewrite fold_left_app. reflexivity. Qed.
Definition val_from (a : Z) (s : list Z) : Z := fold_left (fun a c => 10 * a + (c - 48)) s a.
Lemma val_ge s : forall a, 0 <= a -> Forall is_digit s -> a <= val_from a s.
Proof.
  induction s as [|c s IH]; intros a A F; cbn [val_from fold_left]; [lia|]. inversion F as [|? ? D F']; subst. unfold is_digit in D.
  specialize (IH (10 * a + (c - 48))). unfold val_from in IH. specialize (IH ltac:(lia) F'). lia.
Qed.
Lemma parse_digits_iff s : forall a n, 0 <= a -> a < 2 ^ 64 -> parse_digits a s = Some n <-> Forall is_digit s /\ val_from a s = n /\ n < 2 ^ 64.
Proof.
  induction s as [|c s IH]; intros a n A B; cbn [parse_digits].
  - split; [intro E; injection E as <-; repeat split; [constructor|exact B]|intros (_ & E & _); cbn in E; rewrite E; reflexivity].
  - destruct ((48 <=? c) && (c <=? 57)) eqn:D.
    + apply andb_true_iff in D. destruct D as [D1 D2]. apply Z.leb_le in D1, D2. destruct (Z.ltb_spec (a * 10 + (c - 48)) (2 ^ 64)) as [L|L].
      * rewrite IH by lia. unfold val_from. cbn [fold_left]. replace (10 * a + (c - 48)) with (a * 10 + (c - 48)) by lia. split.
        -- intros (F & V & U). repeat split; auto. constructor; [unfold is_digit; lia|exact F].
        -- intros (F & V & U). inversion F; subst. repeat split; auto.
      * split; [discriminate|]. intros (F & V & U). exfalso. inversion F as [|? ? D F']; subst. pose proof (val_ge s (10 * a + (c - 48)) ltac:(lia) F') as G.
        unfold val_from in *. cbn [fold_left] in U. lia.
    + split; [discriminate|]. intros (F & _). exfalso. inversion F as [|? ? D' F']; subst. unfold is_digit in D'. apply andb_false_iff in D. rewrite !Z.leb_gt in D. lia.
Qed.
Theorem parse_u64_iff s n : parse_u64 s = Some n <-> numeral s n.
Proof.
  unfold numeral. change (value ?d) with (val_from 0 d). destruct s as [|c s]; cbn [parse_u64].
  - split; [discriminate|]. intros (d & [E|E] & N & _); [subst; contradiction|discriminate].
  - destruct (Z.eqb_spec c 43) as [->|N].
    + destruct s as [|e s].
      * split; [discriminate|]. intros (d & [E|E] & N & F & _); [subst; inversion F as [|? ? D]; unfold is_digit in D; lia|injection E as <-; contradiction].
      * rewrite parse_digits_iff by lia. split.
        -- intros (F & V & U). exists (e :: s). repeat split; auto. discriminate.
        -- intros (d & [E|E] & N & F & V & U); [subst; inversion F as [|? ? D]; unfold is_digit in D; lia|]. injection E as <-. repeat split; assumption.
    + rewrite parse_digits_iff by lia. split.
      * intros (F & V & U). exists (c :: s). repeat split; auto. discriminate.
      * intros (d & [E|E] & N' & F & V & U); [subst; repeat split; assumption|]. injection E as E _. contradiction.
Qed.
Lemma dec_ok f : forall n, 0 <= n < 10 ^ Z.of_nat f -> (0 < f)%nat -> dec f n <> [] /\ Forall is_digit (dec f n) /\ value (dec f n) = n.
Proof.
  induction f as [|f IH]; intros n B P; [lia|]. cbn [dec]. destruct (Z.ltb_spec n 10) as [L|L].
  - split; [discriminate|]. split; [constructor; [unfold is_digit; lia|constructor]|]. unfold value. cbn [fold_left]. lia.
  - destruct f as [|f]; [cbn in B; lia|].
    assert (C : 0 <= n / 10 < 10 ^ Z.of_nat (S f)).
    { split; [apply Z.div_pos; lia|]. apply Z.div_lt_upper_bound; [lia|]. rewrite Nat2Z.inj_succ, Z.pow_succ_r in B by lia. lia. }
    destruct (IH (n / 10) C ltac:(lia)) as (N & F & V). pose proof (Z.mod_pos_bound n 10 ltac:(lia)) as M. split; [destruct (dec (S f) (n / 10)); discriminate|]. split.
    + apply Forall_app. split; [exact F|]. constructor; [unfold is_digit; lia|constructor].
    + rewrite value_app, V. pose proof (Z.div_mod n 10 ltac:(lia)). lia.
Qed.
Theorem print_numeral n : 0 <= n < 2 ^ 64 -> parse_u64 (print_u64 n) = Some n.
Proof.
  intro B. apply parse_u64_iff. exists (print_u64 n). unfold print_u64. assert (2 ^ 64 < 10 ^ Z.of_nat 20) as Q by reflexivity.
  destruct (dec_ok 20 n ltac:(lia) ltac:(lia)) as (N & F & V). repeat split; auto. lia.
Qed.
Lemma numeral_range s n : numeral s n -> 0 <= n < 2 ^ 64.
Proof. intros (d & _ & _ & F & V & U). split; [|exact U]. subst n. apply (val_ge d 0 ltac:(lia) F). Qed.

(** ** The circuit mini *)
Section Mini.
Variable K : PFld.
Local Open Scope fld_scope.
Add Field Kf : (f_laws K).
Lemma mini_loop_ok (vx vy vz : var) n : forall s, mini_loop K n vx vy vz s =
  Ok (tt, mkCS (md s) (inps s) (auxs s) (ModelCS.cons s ++ repeat (mkC (lc_add_var lc_zero vx) (lc_add_term (lc_add_var lc_zero vy) (of_Z 2) ONE) (lc_add_var lc_zero vz)) n)).
Proof.
  induction n as [|n IH]; intro s; cbn [mini_loop].
  - cbn [repeat]. rewrite app_nil_r. destruct s; reflexivity.
  - unfold bind, enforce. rewrite IH. cbn [md inps auxs ModelCS.cons repeat]. rewrite <- app_assoc. reflexivity.
Qed.
Theorem mini_run x y z n : mini K (Some x) (Some y) (Some z) n (cs_new Prove) = Ok (tt, mkCS Prove [1; z] [x; y]
  (repeat (mkC (lc_add_var lc_zero (Aux 0)) (lc_add_term (lc_add_var lc_zero (Aux 1)) (of_Z 2) ONE) (lc_add_var lc_zero (Input 1))) n)).
Proof. unfold mini, bind. cbn [ok_or alloc alloc_input cs_new md inps auxs ModelCS.cons app length]. rewrite mini_loop_ok. reflexivity. Qed.
Theorem mini_sat (x y z : K) n s : mini K (Some x) (Some y) (Some z) n (cs_new Prove) = Ok (tt, s) -> (0 < n)%nat -> self_sat s <-> x * (y + of_Z 2) = z.
Proof.
  rewrite mini_run. intros E P. injection E as <-. unfold self_sat, sat. cbn [ModelCS.cons].
  set (w := wit _). assert (Wx : w (Aux 0) = x) by reflexivity. assert (Wy : w (Aux 1) = y) by reflexivity. assert (Wz : w (Input 1) = z) by reflexivity. assert (W1 : w ONE = 1) by reflexivity. clearbody w.
  split.
  - intros [_ F]. destruct n as [|n]; [lia|]. cbn [repeat] in F. inversion F as [|? ? H _]; subst. unfold holds in H. cbn [ca cb cc] in H.
    rewrite !eval_add_var, eval_add_term, eval_add_var, eval_zero, W1 in H.  change (@of_Z K 2) with ((1:K) + 1). etransitivity; [|etransitivity; [exact H|]]; ring.
  - intro E. split; [exact W1|]. apply Forall_forall. intros c I. apply repeat_spec in I. subst c. unfold holds. cbn [ca cb cc].
    rewrite !eval_add_var, eval_add_term, eval_add_var, eval_zero, W1, Wx, Wy, Wz. rewrite <- E. change (@of_Z K 2) with ((1:K) + 1). ring.
Qed.
Variables (nl : nat) (cts : list K).
Lemma power_mini args c p : power_on K nl cts Mini args = Ok (c, p) <-> exists a b d rest x y z, args = a :: b :: d :: rest /\ numeral a x /\ numeral b y /\ numeral d z /\
  c = mini K (Some (of_Z x)) (Some (of_Z y)) (Some (of_Z z)) 10 /\ p = PMini z.
Proof.
  cbn [power_on]. split.
  - destruct args as [|a [|b [|d rest]]]; try discriminate. destruct (parse_u64 a) as [x|] eqn:A; [|discriminate]. destruct (parse_u64 b) as [y|] eqn:B; [|discriminate]. destruct (parse_u64 d) as [z|] eqn:D; [|discriminate].
    intro E. injection E as <- <-. exists a, b, d, rest, x, y, z. rewrite <- !parse_u64_iff. repeat split; assumption.
  - intros (a & b & d & rest & x & y & z & -> & A & B & D & -> & ->). apply parse_u64_iff in A, B, D. rewrite A, B, D. reflexivity.
Qed.
Theorem mini_integers a b d rest x y z : numeral a x -> numeral b y -> numeral d z -> (x * (y + 2) < pmod K)%Z -> (z < pmod K)%Z ->
  exists cir s, power_on K nl cts Mini (a :: b :: d :: rest) = Ok (cir, PMini z) /\ cir (cs_new Prove) = Ok (tt, s) /\ inps s = [1; of_Z z] /\ (self_sat s <-> (x * (y + 2) = z)%Z).
Proof.
  intros A B D Lx Lz. pose proof (numeral_range _ _ A). pose proof (numeral_range _ _ B). pose proof (numeral_range _ _ D).
  do 2 eexists. split; [apply power_mini; exists a, b, d, rest, x, y, z; repeat split; auto|]. split; [apply mini_run|]. split; [reflexivity|].
  rewrite (mini_sat (of_Z x) (of_Z y) (of_Z z) 10 _ (mini_run _ _ _ _)) by lia. rewrite <- of_Z_add, <- of_Z_mul. split.
  - intro E. apply of_Z_inj_small in E; [exact E| |]; nia.
  - intros ->. reflexivity.
Qed.
End Mini.
