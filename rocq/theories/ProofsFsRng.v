(** The seeds of the Fiat-Shamir generators determine what was absorbed. *)
From Coq Require Import List NArith Lia String Ascii.
From Verif Require Import Field Poly Module ModelLC ModelPC ModelMarlin ModelFsRng SpecFsRng.
From Coq Require Import List.
Import ListNotations.
Local Open Scope list_scope.

Lemma app_same {A} (a b : list A) : forall c d, length a = length b -> a ++ c = b ++ d -> a = b /\ c = d.
Proof. revert b. induction a as [|x a IH]; intros [|y b] c d L E; try discriminate; [auto|]. cbn in E. injection E as -> E. destruct (IH b c d) as [-> ->]; auto. Qed.
Lemma app_same_r {A} (a b c d : list A) : length c = length d -> a ++ c = b ++ d -> a = b /\ c = d.
Proof. intros L E. apply app_same; [|exact E]. apply (f_equal (@length A)) in E. rewrite !app_length in E. lia. Qed.
Lemma le_len w : forall n, length (le w n) = w.
Proof. induction w as [|w IH]; intro n; cbn [le length]; [reflexivity|]. rewrite IH. reflexivity. Qed.
Lemma le_inj w : forall n m, (n < 256 ^ N.of_nat w)%N -> (m < 256 ^ N.of_nat w)%N -> le w n = le w m -> n = m.
Proof.
  induction w as [|w IH]; intros n m Hn Hm E; [cbn in Hn, Hm; lia|].
  cbn [le] in E. injection E as E1 E2. rewrite Nnat.Nat2N.inj_succ, N.pow_succ_r' in Hn, Hm.
  assert (n / 256 = m / 256)%N as D by (apply IH; [apply N.div_lt_upper_bound; lia|apply N.div_lt_upper_bound; lia|exact E2]).
  rewrite (N.div_mod n 256), (N.div_mod m 256), D, E1 by lia. reflexivity.
Qed.
Lemma le_fits b w n m : N.pow 2 b = N.pow 256 (N.of_nat w) -> fits b n -> fits b m -> le w (N.of_nat n) = le w (N.of_nat m) -> n = m.
Proof. unfold fits. intros -> Hn Hm E. apply le_inj in E; try assumption. lia. Qed.
(** ** The chain *)
Lemma seed_hashed H b r : exists x t, hashed H (b :: r) = x :: t /\ seed_after H (b :: r) = H x.
Proof.
  revert b. induction r as [|c r IH]; intro b; [exists b, []; split; reflexivity|].
  destruct (IH c) as (x & t & E & S). exists (b ++ H x), (x :: t). split.
  - change (hashed H (b :: c :: r)) with (match hashed H (c :: r) with [] => [b] | (x :: _) as h => (b ++ H x) :: h end). rewrite E. reflexivity.
  - change (seed_after H (b :: c :: r)) with (absorb H (seed_after H (c :: r)) b). rewrite S. reflexivity.
Qed.
Lemma hashed_incl H b c r x : In x (hashed H (c :: r)) -> In x (hashed H (b :: c :: r)).
Proof.
  intro I. change (hashed H (b :: c :: r)) with (match hashed H (c :: r) with [] => [b] | (x :: _) as h => (b ++ H x) :: h end).
  destruct (hashed H (c :: r)) as [|y t]; [destruct I|]. right. exact I.
Qed.
Lemma seed_inj H n (Hn : forall b, length (H b) = n) l : forall l', length l = length l' -> seed_after H l = seed_after H l' -> l = l' \/ collision H (hashed H l) (hashed H l').
Proof.
  induction l as [|b r IH]; intros [|b' r'] L E; try discriminate; [auto|]. cbn [length] in L.
  destruct r as [|b2 r]; destruct r' as [|b2' r']; cbn [length] in L; try discriminate L.
  - cbn [seed_after] in E. unfold from_seed in E. destruct (list_eq_dec N.eq_dec b b') as [->|N]; [auto|]. right. exists b, b'. repeat split; try (left; reflexivity); assumption.
  - change (absorb H (seed_after H (b2 :: r)) b = absorb H (seed_after H (b2' :: r')) b') in E. unfold absorb in E.
    destruct (seed_hashed H b2 r) as (x & t & Ex & Sx). destruct (seed_hashed H b2' r') as (x' & t' & Ex' & Sx').
    assert (U : hashed H (b :: b2 :: r) = (b ++ H x) :: x :: t) by (change (match hashed H (b2 :: r) with [] => [b] | (x :: _) as h => (b ++ H x) :: h end = (b ++ H x) :: x :: t); rewrite Ex; reflexivity).
    assert (U' : hashed H (b' :: b2' :: r') = (b' ++ H x') :: x' :: t') by (change (match hashed H (b2' :: r') with [] => [b'] | (x :: _) as h => (b' ++ H x) :: h end = (b' ++ H x') :: x' :: t'); rewrite Ex'; reflexivity).
    destruct (list_eq_dec N.eq_dec (b ++ seed_after H (b2 :: r)) (b' ++ seed_after H (b2' :: r'))) as [S|N].
    2:{ right. rewrite U, U'. rewrite Sx, Sx' in N, E. exists (b ++ H x), (b' ++ H x'). repeat split; try (left; reflexivity); assumption. }
    assert (forall c t, length (seed_after H (c :: t)) = n) as Ls by (intros c [|d u]; cbn [seed_after]; unfold from_seed, absorb; apply Hn).
    apply app_same_r in S; [|rewrite !Ls; reflexivity]. destruct S as [-> S]. destruct (IH (b2' :: r')) as [->|C]; [cbn [length] in *; lia|exact S|left; reflexivity|right].
    destruct C as (y & y' & I & I' & NE & Q). exists y, y'. repeat split; try assumption; apply hashed_incl; assumption.
Qed.
Theorem absorb_from_seed H s b : absorb H s b = from_seed H (b ++ s). Proof. reflexivity. Qed.
Lemma cons_split {A} (x y : A) l m : x :: l = y :: m -> x = y /\ l = m.
Proof. intro E. split; congruence. Qed.
(** ** Encodings *)
Lemma flat_same {A} (e : A -> list N) (R : readable e) a : forall b, flat_map e a = flat_map e b -> a = b.
Proof.
  destruct R as (n & Hn & Hl & Hi). induction a as [|x a IH]; intros [|y b] E; [reflexivity| | |]; cbn [flat_map] in E.
  - apply (f_equal (@length N)) in E. rewrite app_length, Hl in E. cbn in E. lia.
  - apply (f_equal (@length N)) in E. rewrite app_length, Hl in E. cbn in E. lia.
  - apply app_same in E; [|rewrite !Hl; reflexivity]. destruct E as [E1 E2]. apply Hi in E1. subst y. f_equal. apply IH, E2.
Qed.
Lemma flat_app {A} (e : A -> list N) (R : readable e) a : forall b c d, length a = length b -> flat_map e a ++ c = flat_map e b ++ d -> a = b /\ c = d.
Proof.
  destruct R as (n & Hn & Hl & Hi). induction a as [|x a IH]; intros [|y b] c d L E; try discriminate; [auto|]. cbn [flat_map] in E. rewrite <- !app_assoc in E.
  apply app_same in E; [|rewrite !Hl; reflexivity]. destruct E as [E1 E2]. apply Hi in E1. subst y. destruct (IH b c d) as [-> ->]; auto.
Qed.
Lemma read_app {A} (e : A -> list N) (R : readable e) x y c d : e x ++ c = e y ++ d -> x = y /\ c = d.
Proof. destruct R as (n & Hn & Hl & Hi). intro E. apply app_same in E; [|rewrite !Hl; reflexivity]. destruct E as [E ->]. split; [apply Hi, E|reflexivity]. Qed.
Section M.
Variable K : Fld.
Variable PR : Pairing K.
Variable ef : K -> list N.
Variable e1 : G1 PR -> list N.
Variable e2 : G2 PR -> list N.
Hypothesis Rf : readable ef.
Hypothesis R1 : readable e1.
Hypothesis R2 : readable e2.
Lemma comm_readable : readable (comm_bytes K PR e1).
Proof.
  destruct R1 as (n & Hn & Hl & Hi). exists (n + S n)%nat. split; [lia|]. split.
  - intros [c [s|]]; unfold comm_bytes; cbn [cm cm_shift]; rewrite app_length; cbn [length]; rewrite !Hl; reflexivity.
  - intros [c s] [c' s'] E. unfold comm_bytes in E. cbn [cm cm_shift] in E. apply read_app in E; [|exact R1]. destruct E as [-> E].
    destruct s as [s|], s' as [s'|]; try discriminate E; [|reflexivity]. injection E as E. apply Hi in E. subst. reflexivity.
Qed.
Lemma le_app b w n m c d : N.pow 2 b = N.pow 256 (N.of_nat w) -> fits b n -> fits b m -> le w (N.of_nat n) ++ c = le w (N.of_nat m) ++ d -> n = m /\ c = d.
Proof. intros P Hn Hm E. apply app_same in E; [|rewrite !le_len; reflexivity]. destruct E as [E ->]. split; [apply (le_fits b w); assumption|reflexivity]. Qed.
Lemma ivk_app i i' c d : key_fits i -> key_fits i' -> ivk_bytes K PR e1 e2 i ++ c = ivk_bytes K PR e1 e2 i' ++ d -> i = i' /\ c = d.
Proof.
  destruct i as [[nc nv nz] cs [g gam h bh sd]], i' as [[nc' nv' nz'] cs' [g' gam' h' bh' sd']].
  intros (F1 & F2 & F3 & F4 & F5) (F1' & F2' & F3' & F4' & F5') E. cbn [iv_info iv_comms iv_vk i_nc i_nv i_nnz vk_sd] in *.
  unfold ivk_bytes, info_bytes, vk_bytes in E. cbn [iv_info iv_comms iv_vk i_nc i_nv i_nnz vk_g vk_gamma vk_h vk_beta_h vk_sd] in E. rewrite <- !app_assoc in E.
  apply (le_app 64 8) in E; [|reflexivity|assumption|assumption]. destruct E as [-> E].
  apply (le_app 64 8) in E; [|reflexivity|assumption|assumption]. destruct E as [-> E].
  apply (le_app 64 8) in E; [|reflexivity|assumption|assumption]. destruct E as [-> E].
  apply (le_app 32 4) in E; [|reflexivity|assumption|assumption]. destruct E as [L E].
  apply flat_app in E; [|exact comm_readable|exact L]. destruct E as [-> E].
  apply read_app in E; [|exact R1]. destruct E as [-> E]. apply read_app in E; [|exact R1]. destruct E as [-> E].
  apply read_app in E; [|exact R2]. destruct E as [-> E]. apply read_app in E; [|exact R2]. destruct E as [-> E].
  apply (le_app 64 8) in E; [|reflexivity|assumption|assumption]. destruct E as [-> ->]. split; reflexivity.
Qed.
Theorem marlin_binds H i i' pub pub' p p' k : fixed_out H -> key_fits i -> key_fits i' ->
  marlin_seed K PR ef e1 e2 H (marlin_transcript K PR i pub p k) = marlin_seed K PR ef e1 e2 H (marlin_transcript K PR i' pub' p' k) ->
  marlin_transcript K PR i pub p k = marlin_transcript K PR i' pub' p' k \/
  collision H (hashed H (map (msg_bytes K PR ef e1 e2) (marlin_transcript K PR i pub p k))) (hashed H (map (msg_bytes K PR ef e1 e2) (marlin_transcript K PR i' pub' p' k))).
Proof.
  intros (n & Hn) F F' E. unfold marlin_seed in E. apply (seed_inj H n Hn) in E; [|rewrite !map_length; destruct k as [|[|[|[|k]]]]; reflexivity].
  destruct E as [E|E]; [left|right; exact E].
  assert (Cs : forall a b, flat_map (comm_bytes K PR e1) a = flat_map (comm_bytes K PR e1) b -> FComms K PR a = FComms K PR b) by (intros a b Q; f_equal; apply (flat_same _ comm_readable), Q).
  assert (Sd : ivk_bytes K PR e1 e2 i ++ flat_map ef pub = ivk_bytes K PR e1 e2 i' ++ flat_map ef pub' -> FSeed K PR i pub = FSeed K PR i' pub').
  { intro Q. apply ivk_app in Q; try assumption. destruct Q as [-> Q]. apply (flat_same ef Rf) in Q. subst. reflexivity. }
  destruct k as [|[|[|[|k]]]]; cbn [marlin_transcript map msg_bytes] in E |- *.
  - apply cons_split in E. destruct E as [Q _]. rewrite (Sd Q). reflexivity.
  - apply cons_split in E. destruct E as [Q1 E]. apply cons_split in E. destruct E as [Q _]. rewrite (Sd Q), (Cs _ _ Q1). reflexivity.
  - apply cons_split in E. destruct E as [Q2 E]. apply cons_split in E. destruct E as [Q1 E]. apply cons_split in E. destruct E as [Q _]. rewrite (Sd Q), (Cs _ _ Q1), (Cs _ _ Q2). reflexivity.
  - apply cons_split in E. destruct E as [Q3 E]. apply cons_split in E. destruct E as [Q2 E]. apply cons_split in E. destruct E as [Q1 E]. apply cons_split in E. destruct E as [Q _]. rewrite (Sd Q), (Cs _ _ Q1), (Cs _ _ Q2), (Cs _ _ Q3). reflexivity.
  - apply cons_split in E. destruct E as [Q4 E]. apply cons_split in E. destruct E as [Q3 E]. apply cons_split in E. destruct E as [Q2 E]. apply cons_split in E. destruct E as [Q1 E]. apply cons_split in E. destruct E as [Q _]. apply (flat_same ef Rf) in Q4. rewrite (Sd Q), (Cs _ _ Q1), (Cs _ _ Q2), (Cs _ _ Q3), Q4. reflexivity.
Qed.
End M.
Section P.
Variable K : Fld.
Variable C : Type.
Variable ef : K -> list N.
Variable ec : C -> list N.
Hypothesis Rf : readable ef.
Hypothesis Rc : readable ec.
Theorem plonk_binds H pub c1 c2 c3 ev pub' c1' c2' c3' ev' k : fixed_out H ->
  plonk_seed K C ef ec H pub c1 c2 c3 ev k = plonk_seed K C ef ec H pub' c1' c2' c3' ev' k ->
  (pub = pub' /\ (1 <= k -> c1 = c1') /\ (2 <= k -> c2 = c2') /\ (3 <= k -> c3 = c3') /\ (4 <= k -> ev = ev'))%nat \/
  collision H (hashed H (plonk_transcript K C ef ec pub c1 c2 c3 ev k)) (hashed H (plonk_transcript K C ef ec pub' c1' c2' c3' ev' k)).
Proof.
  intros (n & Hn) E. unfold plonk_seed in E. apply (seed_inj H n Hn) in E; [|destruct k as [|[|[|[|k]]]]; reflexivity].
  destruct E as [E|E]; [left|right; exact E].
  assert (Sd : protocol_name ++ flat_map ef pub = protocol_name ++ flat_map ef pub' -> pub = pub') by (intro Q; apply app_inv_head in Q; apply (flat_same ef Rf), Q).
  pose proof (flat_same ec Rc) as Cs. pose proof (flat_same ef Rf) as Es.
  destruct k as [|[|[|[|k]]]]; cbn [plonk_transcript] in E.
  - assert (Q : protocol_name ++ flat_map ef pub = protocol_name ++ flat_map ef pub') by congruence. repeat split; try lia. apply Sd, Q.
  - apply cons_split in E. destruct E as [Q1 E]. apply cons_split in E. destruct E as [Q _]. repeat split; try lia; auto.
  - apply cons_split in E. destruct E as [Q2 E]. apply cons_split in E. destruct E as [Q1 E]. apply cons_split in E. destruct E as [Q _]. repeat split; try lia; auto.
  - apply cons_split in E. destruct E as [Q3 E]. apply cons_split in E. destruct E as [Q2 E]. apply cons_split in E. destruct E as [Q1 E]. apply cons_split in E. destruct E as [Q _]. repeat split; try lia; auto.
  - apply cons_split in E. destruct E as [Q4 E]. apply cons_split in E. destruct E as [Q3 E]. apply cons_split in E. destruct E as [Q2 E]. apply cons_split in E. destruct E as [Q1 E]. apply cons_split in E. destruct E as [Q _]. repeat split; try lia; auto.
Qed.
End P.
(** ** The verifier reads its generator in these states only *)
Section L.
Variable K : Fld.
Variable PR : Pairing K.
Variable dnew : nat -> option (dom K).
Theorem verify_draws (o o' : fs K PR) i pf pub : (3 <= length (pf_comms K PR pf))%nat -> let t := marlin_transcript K PR i pub pf in
  (forall d, fs_msg K PR o d (t 1%nat) = fs_msg K PR o' d (t 1%nat)) -> (forall d, fs_beta K PR o d (t 2%nat) = fs_beta K PR o' d (t 2%nat)) ->
  fs_gamma K PR o (t 3%nat) = fs_gamma K PR o' (t 3%nat) -> fs_xi K PR o (t 4%nat) = fs_xi K PR o' (t 4%nat) ->
  verify_proof K PR dnew o i pf pub = verify_proof K PR dnew o' i pf pub.
Proof.
  intros L t H1 H2 H3 H4. subst t. unfold verify_proof. unfold marlin_transcript in *. destruct (pf_comms K PR pf) as [|c1 [|c2 [|c3 r]]]; cbn [length] in L; try lia. cbn [nth] in *.
  destruct (verifier_doms K dnew (iv_info K PR i)) as [[dh dk]| |]; cbn [rbind]; [|reflexivity|reflexivity]. rewrite H1, H2, H3, H4. reflexivity.
Qed.
End L.
