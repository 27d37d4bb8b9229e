(** Proofs about the hex codec and the on-chain scripts. *)
From Coq Require Import ZArith List Bool Lia.
From Verif Require Import Field ModelCli SpecCli ModelContract.
Import ListNotations.
Local Open Scope Z_scope.
Ltac cases D := repeat (destruct D as [D|D]; [subst; reflexivity|]); subst; reflexivity.
Lemma digit_val_spec c x : digit_val c = Some x <-> has_value c x.
Proof.
  unfold digit_val, has_value. split.
  - destruct ((48 <=? c) && (c <=? 57)) eqn:E1; [|destruct ((97 <=? c) && (c <=? 102)) eqn:E2; [|destruct ((65 <=? c) && (c <=? 70)) eqn:E3; [|discriminate]]]; intro E; injection E as <-.
    + split; [lia|]. left. assert (c = 48 \/ c = 49 \/ c = 50 \/ c = 51 \/ c = 52 \/ c = 53 \/ c = 54 \/ c = 55 \/ c = 56 \/ c = 57) as D by lia. clear E1. cases D.
    + split; [lia|]. left. assert (c = 97 \/ c = 98 \/ c = 99 \/ c = 100 \/ c = 101 \/ c = 102) as D by lia. clear E1 E2. cases D.
    + split; [lia|]. right. assert (c = 65 \/ c = 66 \/ c = 67 \/ c = 68 \/ c = 69 \/ c = 70) as D by lia. clear E1 E2 E3. cases D.
  - intros [H0 H]. assert (Hl : (Z.to_nat x < 16)%nat).
    { destruct H as [H|H].
      - change 16%nat with (length lower_digits). apply nth_error_Some. rewrite H. discriminate.
      - change 16%nat with (length upper_digits). apply nth_error_Some. rewrite H. discriminate. }
    assert (x = 0 \/ x = 1 \/ x = 2 \/ x = 3 \/ x = 4 \/ x = 5 \/ x = 6 \/ x = 7 \/ x = 8 \/ x = 9 \/ x = 10 \/ x = 11 \/ x = 12 \/ x = 13 \/ x = 14 \/ x = 15) as D by lia.
    clear Hl H0. repeat (destruct D as [D|D]; [subst; cbn in H; destruct H as [H|H]; injection H as <-; reflexivity|]). subst. cbn in H. destruct H as [H|H]; injection H as <-; reflexivity.
Qed.
Lemma digit_val_range c x : digit_val c = Some x -> 0 <= x < 16.
Proof.
  unfold digit_val. destruct (Z.leb_spec 48 c), (Z.leb_spec c 57), (Z.leb_spec 97 c), (Z.leb_spec c 102), (Z.leb_spec 65 c), (Z.leb_spec c 70); cbn [andb]; intro E; try discriminate; injection E as <-; lia.
Qed.
Lemma digit_ascii c x : digit_val c = Some x -> 48 <= c <= 102.
Proof.
  unfold digit_val. destruct (Z.leb_spec 48 c), (Z.leb_spec c 57), (Z.leb_spec 97 c), (Z.leb_spec c 102), (Z.leb_spec 65 c), (Z.leb_spec c 70); cbn [andb]; intro E; try discriminate; lia.
Qed.
Lemma bound_ascii c s : c <= 127 -> is_boundary (c :: s) = true.
Proof. intro H. cbn. destruct (Z.leb_spec 128 c); [lia|]. reflexivity. Qed.
Lemma denotes_boundary s v : denotes s v -> is_boundary s = true.
Proof.
  destruct 1 as [|a b x y s v Ha Hb H|b y s v Hb H]; [reflexivity| |reflexivity]. apply bound_ascii. apply digit_val_spec, digit_ascii in Ha. lia.
Qed.
Lemma denotes_even s v : denotes s v -> Nat.odd (length s) = false.
Proof. induction 1 as [|a b x y s v Ha Hb H IH|b y s v Hb H IH]; [reflexivity| |]; cbn [length]; exact IH. Qed.
Lemma loop_ok s v : denotes s v -> from_hex_loop s = Ok v.
Proof.
  induction 1 as [|a b x y s v Ha Hb H IH|b y s v Hb H IH]; [reflexivity| |].
  - assert (Hb' : is_boundary s = true) by (eapply denotes_boundary; exact H). apply digit_val_spec in Ha, Hb. pose proof (digit_ascii _ _ Ha) as Aa. cbn [from_hex_loop]. rewrite bound_ascii by lia. rewrite Hb'. cbn [andb].
    unfold u8_of_pair. destruct (Z.eqb_spec a 43); [lia|]. rewrite Ha, Hb, IH. reflexivity.
  - assert (Hb' : is_boundary s = true) by (eapply denotes_boundary; exact H). apply digit_val_spec in Hb. cbn [from_hex_loop]. rewrite bound_ascii by lia. rewrite Hb'. cbn [andb].
    unfold u8_of_pair. cbn [Z.eqb Pos.eqb]. rewrite Hb, IH. reflexivity.
Qed.
Lemma loop_inv n : forall s v, (length s <= n)%nat -> Nat.odd (length s) = false -> from_hex_loop s = Ok v -> denotes s v.
Proof.
  induction n as [|n IH]; intros s v L O E.
  - destruct s; [|cbn in L; lia]. cbn in E. injection E as <-. constructor.
  - destruct s as [|a [|b r]]; [cbn in E; injection E as <-; constructor|discriminate O|]. cbn [from_hex_loop] in E.
    destruct (is_boundary _ && is_boundary r); [|discriminate]. destruct (u8_of_pair a b) as [x|] eqn:U; [|discriminate].
    destruct (from_hex_loop r) as [v'| |] eqn:E'; try discriminate. cbn [rbind] in E. injection E as <-.
    assert (D : denotes r v') by (apply IH; [cbn in L; lia|exact O|exact E']).
    unfold u8_of_pair in U. destruct (Z.eqb_spec a 43) as [->|]; [apply den_plus; [apply digit_val_spec; exact U|exact D]|].
    destruct (digit_val a) as [p|] eqn:Ea; [|discriminate]. destruct (digit_val b) as [q|] eqn:Eb; [|discriminate]. injection U as <-.
    apply den_pair; [apply digit_val_spec; exact Ea|apply digit_val_spec; exact Eb|exact D].
Qed.
Theorem from_hex_exact s v : from_hex s = Ok v <-> denotes s v.
Proof.
  unfold from_hex. split.
  - destruct (Nat.odd (length s)) eqn:O; [discriminate|]. intro E. apply (loop_inv (length s)); auto.
  - intro D. rewrite (denotes_even s v D). apply loop_ok, D.
Qed.
Lemma hex_digit_val d : 0 <= d < 16 -> digit_val (hex_digit d) = Some d.
Proof.
  intro H. unfold hex_digit, digit_val. destruct (Z.ltb_spec d 10).
  - destruct (Z.leb_spec 48 (48 + d)), (Z.leb_spec (48 + d) 57); try lia. cbn [andb]. f_equal. lia.
  - destruct (Z.leb_spec 48 (87 + d)), (Z.leb_spec (87 + d) 57); try lia. destruct (Z.leb_spec 97 (87 + d)), (Z.leb_spec (87 + d) 102); try lia. cbn [andb]. f_equal. lia.
Qed.
Lemma to_hex_denotes v : Forall is_byte v -> denotes (to_hex v) v.
Proof.
  induction 1 as [|b v Hb H IH]; [constructor|]. cbn [to_hex]. replace (b :: v) with (16 * (b / 16) + b mod 16 :: v).
  - unfold is_byte in Hb. apply den_pair; [apply digit_val_spec, hex_digit_val|apply digit_val_spec, hex_digit_val|exact IH].
    + split; [apply Z.div_pos; lia|apply Z.div_lt_upper_bound; lia].
    + apply Z.mod_pos_bound. lia.
  - f_equal. symmetry. apply Z.div_mod. lia.
Qed.
Theorem hex_roundtrip v : Forall is_byte v -> from_hex (to_hex v) = Ok v.
Proof. intro H. apply from_hex_exact, to_hex_denotes, H. Qed.
Theorem hex_odd s : Nat.odd (length s) = true -> exists e, from_hex s = Err e.
Proof. intro H. unfold from_hex. rewrite H. eauto. Qed.
Lemma has_value_up c x : has_value c x -> has_value (upcase c) x.
Proof.
  intro H. apply digit_val_spec. apply digit_val_spec in H as E. pose proof (digit_ascii _ _ E) as A. unfold upcase. destruct (Z.leb_spec 97 c), (Z.leb_spec c 122); cbn [andb]; try lia; try exact E.
  unfold digit_val in *. destruct (Z.leb_spec 48 c), (Z.leb_spec c 57), (Z.leb_spec 97 c), (Z.leb_spec c 102), (Z.leb_spec 48 (c-32)), (Z.leb_spec (c-32) 57), (Z.leb_spec 97 (c-32)), (Z.leb_spec 65 (c-32)), (Z.leb_spec (c-32) 70); cbn [andb] in *; try lia.
  all: injection E as <-; f_equal; lia.
Qed.
Theorem hex_upcase s v : from_hex s = Ok v -> from_hex (map upcase s) = Ok v.
Proof.
  intro H. apply from_hex_exact in H. apply from_hex_exact. induction H as [|a b x y s v Ha Hb H IH|b y s v Hb H IH]; cbn [map].
  - constructor.
  - apply den_pair; [apply has_value_up, Ha|apply has_value_up, Hb|exact IH].
  - apply den_plus; [apply has_value_up, Hb|exact IH].
Qed.
Lemma denotes_plus b t v : denotes (48 :: b :: t) v -> denotes (43 :: b :: t) v.
Proof.
  intro H. inversion H as [|a b' x y s v' Ha Hb H'|]; subst. apply digit_val_spec in Ha. change (Some (48 - 48) = Some x) in Ha. injection Ha as <-.
  replace (16 * (48 - 48) + y) with y by lia. apply den_plus; assumption.
Qed.
Theorem hex_plus n : forall s b t v, length s = (2 * n)%nat -> from_hex (s ++ 48 :: b :: t) = Ok v -> from_hex (s ++ 43 :: b :: t) = Ok v.
Proof.
  intros s b t v L H. apply from_hex_exact in H. apply from_hex_exact. revert s v L H. induction n as [|n IH]; intros s v L H.
  - destruct s; [|cbn in L; lia]. apply denotes_plus, H.
  - destruct s as [|c [|d r]]; cbn [length] in L; try lia. cbn [app] in *. assert (Lr : length r = (2 * n)%nat) by lia.
    inversion H as [|a b' x y s v' Ha Hb H'|b' y s v' Hb H']; subst; constructor; auto.
Qed.
Theorem hex_ascii_no_panic s : Forall (fun c => 0 <= c <= 127) s -> from_hex s <> Panic.
Proof.
  intro F. unfold from_hex. destruct (Nat.odd (length s)); [discriminate|]. assert (B : forall r, Forall (fun c => 0 <= c <= 127) r -> is_boundary r = true) by (intros [|c r] Hr; [reflexivity|inversion Hr; subst; apply bound_ascii; lia]).
  enough (H : forall n s, (length s <= n)%nat -> Forall (fun c => 0 <= c <= 127) s -> from_hex_loop s <> Panic) by (apply (H (length s)); auto).
  clear F s. induction n as [|n IH]; intros s L F.
  - destruct s; [discriminate|cbn in L; lia].
  - destruct s as [|a [|b r]]; try discriminate. cbn [from_hex_loop]. inversion F as [|? ? Fa F1]; subst. inversion F1 as [|? ? Fb F2]; subst. rewrite (B _ F), (B _ F2). cbn [andb].
    destruct (u8_of_pair a b); [|discriminate]. specialize (IH r ltac:(cbn in L; lia) F2). destruct (from_hex_loop r); [discriminate|discriminate|congruence].
Qed.
(** ** Scripts *)
Lemma from_sys_not_done e : from_sys e <> Done.
Proof. destruct e; discriminate. Qed.
Lemma verdict_done v : verdict v = Done <-> v = Ok true.
Proof. destruct v as [[|]| |]; cbn; split; intro; congruence. Qed.
Lemma entry_zero o : program_entry o = Some 0 <-> o = Done.
Proof. destruct o as [|[]|]; cbn; split; intro; congruence. Qed.
Lemma with_cells_done load k : with_cells load k = Done <-> exists a b c, load 0%nat = inl a /\ load 1%nat = inl b /\ load 2%nat = inl c /\ k a b c = Done.
Proof.
  unfold with_cells. split.
  - destruct (load 0%nat) as [a|e]; [|intro H; destruct (from_sys_not_done e H)]. destruct (load 1%nat) as [b|e]; [|intro H; destruct (from_sys_not_done e H)].
    destruct (load 2%nat) as [c|e]; [|intro H; destruct (from_sys_not_done e H)]. intro H. exists a, b, c. auto.
  - intros (a & b & c & -> & -> & -> & H). exact H.
Qed.
Lemma decode_done {A} (d : bytes -> option A) b k : decode d b k = Done <-> exists x, d b = Some x /\ k x = Done.
Proof. unfold decode. destruct (d b) as [x|]; split; [eauto|intros (y & E & H); injection E as <-; exact H|discriminate|intros (y & E & _); discriminate]. Qed.
Theorem single_success {VK P X} dvk dpf dx (verify : VK -> P -> list X -> res bool) load :
  program_entry (main_single dvk dpf dx verify load) = Some 0 <->
  exists a b c vk pf x, load 0%nat = inl a /\ load 1%nat = inl b /\ load 2%nat = inl c /\ dvk a = Some vk /\ dpf b = Some pf /\ dx c = Some x /\ verify vk pf [x] = Ok true.
Proof.
  rewrite entry_zero. unfold main_single. rewrite with_cells_done. split.
  - intros (a & b & c & A & B & C & H). apply decode_done in H. destruct H as (vk & D1 & H). apply decode_done in H. destruct H as (pf & D2 & H). apply decode_done in H. destruct H as (x & D3 & H).
    apply verdict_done in H. exists a, b, c, vk, pf, x. auto 10.
  - intros (a & b & c & vk & pf & x & A & B & C & D1 & D2 & D3 & H). exists a, b, c. rewrite A, B, C. repeat split. unfold decode. rewrite D1, D2, D3, H. reflexivity.
Qed.
Theorem vector_success {VK P X} dvk dpf dx (verify : VK -> P -> X -> res bool) load :
  program_entry (main_vector dvk dpf dx verify load) = Some 0 <->
  exists a b c vk pf x, load 0%nat = inl a /\ load 1%nat = inl b /\ load 2%nat = inl c /\ dvk a = Some vk /\ dpf b = Some pf /\ dx c = Some x /\ verify vk pf x = Ok true.
Proof.
  rewrite entry_zero. unfold main_vector. rewrite with_cells_done. split.
  - intros (a & b & c & A & B & C & H). apply decode_done in H. destruct H as (vk & D1 & H). apply decode_done in H. destruct H as (pf & D2 & H). apply decode_done in H. destruct H as (x & D3 & H).
    apply verdict_done in H. exists a, b, c, vk, pf, x. auto 10.
  - intros (a & b & c & vk & pf & x & A & B & C & D1 & D2 & D3 & H). exists a, b, c. rewrite A, B, C. repeat split. unfold decode. rewrite D1, D2, D3, H. reflexivity.
Qed.
Theorem bulletproofs_success {GS R P X} dpf dx (verify : GS -> P -> R -> list X -> res bool) load :
  program_entry (main_bulletproofs dpf dx verify load) = Some 0 <->
  exists a b c gs r pf x, load 0%nat = inl a /\ load 1%nat = inl b /\ load 2%nat = inl c /\ dpf b = Some (gs, r, pf) /\ dx c = Some x /\ verify gs pf r [x] = Ok true.
Proof.
  rewrite entry_zero. unfold main_bulletproofs. rewrite with_cells_done. split.
  - intros (a & b & c & A & B & C & H). apply decode_done in H. destruct H as ([[gs r] pf] & D1 & H). apply decode_done in H. destruct H as (x & D3 & H).
    apply verdict_done in H. exists a, b, c, gs, r, pf, x. auto 10.
  - intros (a & b & c & gs & r & pf & x & A & B & C & D1 & D3 & H). exists a, b, c. rewrite A, B, C. repeat split. unfold decode. rewrite D1, D3, H. reflexivity.
Qed.
(** Every script ends with success, one of five positive codes, or abnormally. *)
Theorem entry_codes o : program_entry o = Some 0 \/ (exists n, program_entry o = Some n /\ 1 <= n <= 5) \/ program_entry o = None.
Proof. destruct o as [|e|]; [left; reflexivity|right; left; destruct e; eexists; (split; [reflexivity|cbn; lia])|right; right; reflexivity]. Qed.
Theorem bulletproofs_ignores_key {GS R P X} dpf dx (verify : GS -> P -> R -> list X -> res bool) (l1 l2 : loader) a1 a2 :
  l1 0%nat = inl a1 -> l2 0%nat = inl a2 -> (forall i, (0 < i)%nat -> l1 i = l2 i) ->
  main_bulletproofs dpf dx verify l1 = main_bulletproofs dpf dx verify l2.
Proof. intros E1 E2 H. unfold main_bulletproofs, with_cells. rewrite E1, E2, !H by lia. reflexivity. Qed.
(** The code returned for each kind of failure, in the order the script looks. *)
Theorem single_errors {VK P X} dvk dpf dx (verify : VK -> P -> list X -> res bool) load :
  let r := program_entry (main_single dvk dpf dx verify load) in
  (forall i e, (i < 3)%nat -> (forall j, (j < i)%nat -> exists b, load j = inl b) -> load i = inr e ->
     r = match e with IndexOutOfBound => Some 1 | ItemMissing => Some 2 | LengthNotEnough _ => Some 3 | Encoding => Some 4 | Unknown _ => None end) /\
  (forall a b c, load 0%nat = inl a -> load 1%nat = inl b -> load 2%nat = inl c ->
     (dvk a = None \/ dpf b = None \/ dx c = None -> r = Some 4) /\
     (forall vk pf x, dvk a = Some vk -> dpf b = Some pf -> dx c = Some x ->
        r = match verify vk pf [x] with Ok true => Some 0 | Panic => None | _ => Some 5 end)).
Proof.
  cbv zeta. unfold main_single, with_cells. split.
  - intros i e Hi Hj E. destruct i as [|[|[|i]]]; [| | |lia].
    + rewrite E. destruct e; reflexivity.
    + destruct (Hj 0%nat) as [b0 ->]; [lia|]. rewrite E. destruct e; reflexivity.
    + destruct (Hj 0%nat) as [b0 ->]; [lia|]. destruct (Hj 1%nat) as [b1 ->]; [lia|]. rewrite E. destruct e; reflexivity.
  - intros a b c -> -> ->. unfold decode. split.
    + intros [H|[H|H]]; destruct (dvk a); try discriminate H; try reflexivity; destruct (dpf b); try discriminate H; try reflexivity; rewrite H; reflexivity.
    + intros vk pf x -> -> ->. destruct (verify vk pf [x]) as [[|]| |]; reflexivity.
Qed.
