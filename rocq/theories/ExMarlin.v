(** Concrete field, domains, circuits and oracle for the Marlin examples: integers modulo 97, domains up to size 32. *)
From Verif Require Import Zp SpecLC SpecCS SpecMarlin AttackMarlin.
From Verif Require Import ModelMarlin ModelCS.
Local Open Scope fld_scope.
Definition F97 : PFld := ZpP 97 (trial_prime 97 eq_refl).
Definition z97 (n : Z) : F97 := of_Z n.
Definition P97 : Pairing F97 := self_pairing F97.
Definition dom97 (e : nat) : dom F97 := mkDom (2 ^ e)%nat (z97 28 ^ (2 ^ (5 - e))%nat) (z97 5).
Definition dnew97 (n : nat) : option (dom F97) :=
  if Nat.leb n 1 then Some (dom97 0) else if Nat.leb n 2 then Some (dom97 1) else if Nat.leb n 4 then Some (dom97 2)
  else if Nat.leb n 8 then Some (dom97 3) else if Nat.leb n 16 then Some (dom97 4) else if Nat.leb n 32 then Some (dom97 5) else None.
(** A transcript whose challenges depend on how much was absorbed. *)
Definition ro97 : fs F97 P97 :=
  mkFS F97 P97 (fun _ tr => mkVM F97 (if Nat.even (length tr) then z97 5 else z97 10) (z97 3) (z97 7) (z97 11)) (fun _ tr => if Nat.even (length tr) then z97 10 else z97 5)
    (fun tr => z97 (20 + Z.of_nat (length tr))) (fun tr => z97 (40 + Z.of_nat (length tr))).
Definition exv (v : var) : lc F97 := [(v, z97 1)].
(** a * b = x and 2a * (a + 1) = 3b, with one public input x. *)
Definition circ97 (a b x : Z) : M F97 unit :=
  vx <- alloc_input (Ok (z97 x)) ;; va <- alloc (Ok (z97 a)) ;; vb <- alloc (Ok (z97 b)) ;;
  enforce (exv va) (exv vb) (exv vx) ;;; enforce [(va, z97 2)] [(va, z97 1); (Input 0, z97 1)] [(vb, z97 3)].
(** The same with a third constraint 1 * 1 = 2, which nothing satisfies. *)
Definition circ97_unsat : M F97 unit := circ97 0 0 0 ;;; enforce (exv (Input 0)) (exv (Input 0)) [(Input 0, z97 2)].
(** The same with b itself as a second public input: three inputs with the constant. *)
Definition circ97_three (a b x : Z) : M F97 unit :=
  vx <- alloc_input (Ok (z97 x)) ;; vy <- alloc_input (Ok (z97 b)) ;; va <- alloc (Ok (z97 a)) ;; vb <- alloc (Ok (z97 b)) ;;
  enforce (exv va) (exv vb) (exv vx) ;;; enforce [(va, z97 2)] [(va, z97 1); (Input 0, z97 1)] [(vb, z97 3)] ;;; enforce (exv vb) (exv (Input 0)) (exv vy).
(** Three inputs and one auxiliary variable. *)
Definition circ97_tight (a x y : Z) : M F97 unit :=
  vx <- alloc_input (Ok (z97 x)) ;; vy <- alloc_input (Ok (z97 y)) ;; va <- alloc (Ok (z97 a)) ;;
  enforce (exv va) (exv vy) (exv vx) ;;; enforce [(va, z97 2)] [(va, z97 1); (Input 0, z97 1)] [(vy, z97 3)].
Definition coins97 : coins F97 := mkCoins F97 (z97 3) (z97 4) (z97 5) (map (fun i => z97 (Z.of_nat i * 7 + 2)) (seq 0 24)) (repeat ([z97 8; z97 9; z97 10], [z97 11; z97 12; z97 13]) 9).
Definition srs97 := kzg_setup F97 P97 32 (z97 13) (z97 2) (z97 3) (z97 4).
Definition verdict (c1 c2 : M F97 unit) (pub : list F97) : res bool :=
  rbind (marlin_index F97 P97 dnew97 false srs97 c1) (fun '(ipk, ivk) => rbind (create_proof F97 P97 dnew97 ro97 ipk c2 coins97) (fun pf => verify_proof F97 P97 dnew97 ro97 ivk pf pub)).
Definition forged (c1 : M F97 unit) (pub : list F97) : res bool :=
  rbind (marlin_index F97 P97 dnew97 false srs97 c1) (fun '(ipk, ivk) => rbind (forge F97 P97 dnew97 ro97 (ip_ck F97 P97 ipk) (ip_ix F97 P97 ipk) ivk pub) (fun pf => verify_proof F97 P97 dnew97 ro97 ivk pf pub)).

Lemma valid97 e : (e <= 5)%nat -> valid_dom (dom97 e).
Proof.
  intro H. assert (forall x : F97, feqb x 0 = false -> x <> 0) as N0 by (intros x E ->; rewrite feqb_refl in E; discriminate). assert (forall x : F97, feqb x 1 = false -> x <> 1) as N1 by (intros x E ->; rewrite feqb_refl in E; discriminate).
  do 6 (destruct e as [|e]; [split; [vm_compute; lia|]; split; [apply feqb_eq; vm_compute; reflexivity|]; split; [|split; [apply N0; vm_compute; reflexivity|]; split; [apply N0; vm_compute; reflexivity|apply N1; vm_compute; reflexivity]];
    apply (NoDup_map_inv (fun x : F97 => zv _ x)); vm_compute; repeat constructor; cbn; intuition discriminate|]). lia.
Qed.
Lemma dnew97_some n d : dnew97 n = Some d -> exists e, (e <= 5 /\ d = dom97 e /\ n <= 2 ^ e /\ (e = 0 \/ 2 ^ (e - 1) < n))%nat.
Proof.
  unfold dnew97. intro H.
  repeat match type of H with (if Nat.leb ?a ?b then Some (dom97 ?e) else _) = _ => destruct (Nat.leb_spec a b); [injection H as <-; exists e; cbn; repeat split; lia|] end. discriminate.
Qed.
Lemma radix2_97 : radix2 dnew97.
Proof.
  split.
  - intros n d H. destruct (dnew97_some n d H) as (e & He & -> & Hn & _). split; [apply valid97, He|]. split; [exact Hn|]. exists e. reflexivity.
  - intros n m dn dm Hn Hm L. destruct (dnew97_some n dn Hn) as (e & He & -> & Le & Ee). destruct (dnew97_some m dm Hm) as (f & Hf & -> & Lf & Ef).
    assert (e <= f)%nat as Lef. { destruct (Nat.le_gt_cases e f) as [|C]; [assumption|]. exfalso. assert (2 ^ f <= 2 ^ (e - 1))%nat by (apply Nat.pow_le_mono_r; lia). lia. }
    exists (2 ^ (f - e))%nat. split.
    + cbn [dsize dom97]. rewrite <- Nat.pow_add_r. f_equal. lia.
    + apply feqb_eq. do 6 (destruct e as [|e]; [do 6 (destruct f as [|f]; [first [lia|vm_compute; reflexivity]|]); lia|]). lia.
Qed.
Lemma ro97_ok n d tr : dnew97 n = Some d -> v_alpha F97 (fs_msg F97 P97 ro97 d tr) ^ dsize d <> 1 /\ fs_beta F97 P97 ro97 d tr ^ dsize d <> 1.
Proof.
  intro H. destruct (dnew97_some n d H) as (e & He & -> & _ & _). cbn [fs_msg fs_beta ro97 v_alpha dsize dom97].
  assert (forall x : F97, feqb x 1 = false -> x <> 1) as N1 by (intros x E ->; rewrite feqb_refl in E; discriminate).
  destruct (Nat.even (length tr)); split; apply N1; do 6 (destruct e as [|e]; [vm_compute; reflexivity|]); lia.
Qed.
(** Decision procedures for the side conditions of the examples. *)
Definition allocb (s : cs F97) (t : var * F97) : bool := match fst t with Input n => Nat.ltb n (length (inps s)) | Aux n => Nat.ltb n (length (auxs s)) end.
Definition wfb (s : cs F97) : bool := match inps s with x :: _ => feqb x 1 | [] => false end && forallb (fun c => forallb (allocb s) (ca c) && (forallb (allocb s) (cb c) && forallb (allocb s) (cc c))) (cons s).
Lemma allocb_ok s l : forallb (allocb s) l = true -> Forall (fun t => allocated s (fst t)) l.
Proof. intro H. apply Forall_forall. intros t Ht. pose proof (proj1 (forallb_forall _ _) H t Ht) as E. unfold allocb in E. unfold allocated. destruct (fst t); apply Nat.ltb_lt, E. Qed.
Lemma wfb_ok s : wfb s = true -> wf s.
Proof.
  unfold wfb. intro H. apply andb_prop in H. destruct H as (H1 & H2). split.
  - destruct (inps s) as [|x r]; [discriminate|]. apply feqb_eq in H1. subst. eauto.
  - apply Forall_forall. intros c Hc. pose proof (proj1 (forallb_forall _ _) H2 c Hc) as E. cbv beta in E. apply andb_prop in E. destruct E as (E1 & E). apply andb_prop in E. destruct E as (E2 & E3). repeat split; apply allocb_ok; assumption.
Qed.
Definition satb (s : cs F97) : bool := feqb (wit s (Input 0)) 1 && forallb (fun c => feqb (eval (wit s) (ca c) * eval (wit s) (cb c)) (eval (wit s) (cc c))) (cons s).
Lemma satb_ok s : satb s = true -> self_sat s.
Proof. intro H. apply andb_prop in H. destruct H as (H1 & H). split; [apply feqb_eq, H1|]. apply Forall_forall. intros c Hc. pose proof (proj1 (forallb_forall _ _) H c Hc) as E. apply feqb_eq in E. exact E. Qed.
Lemma verdict_inv c1 c2 pub b : verdict c1 c2 pub = Ok b -> exists ipk ivk pf, marlin_index F97 P97 dnew97 false srs97 c1 = Ok (ipk, ivk) /\ create_proof F97 P97 dnew97 ro97 ipk c2 coins97 = Ok pf /\ verify_proof F97 P97 dnew97 ro97 ivk pf pub = Ok b.
Proof.
  unfold verdict. destruct (marlin_index F97 P97 dnew97 false srs97 c1) as [(ipk, ivk)| |]; [|discriminate|discriminate]. cbn [rbind].
  destruct (create_proof F97 P97 dnew97 ro97 ipk c2 coins97) as [pf| |] eqn:E; [|discriminate|discriminate]. cbn [rbind]. intro V. exists ipk, ivk, pf. auto.
Qed.
Lemma forged_inv c1 pub b : forged c1 pub = Ok b -> exists ipk ivk pf, marlin_index F97 P97 dnew97 false srs97 c1 = Ok (ipk, ivk) /\ verify_proof F97 P97 dnew97 ro97 ivk pf pub = Ok b.
Proof.
  unfold forged. destruct (marlin_index F97 P97 dnew97 false srs97 c1) as [(ipk, ivk)| |]; [|discriminate|discriminate]. cbn [rbind].
  destruct (forge F97 P97 dnew97 ro97 (ip_ck F97 P97 ipk) (ip_ix F97 P97 ipk) ivk pub) as [pf| |] eqn:E; [|discriminate|discriminate]. cbn [rbind]. intro V. exists ipk, ivk, pf. auto.
Qed.
(** The sizes recorded in the index. *)
Definition sizes (c : M F97 unit) : option (nat * nat) := match marlin_index F97 P97 dnew97 false srs97 c with Ok (_, ivk) => Some (i_nc (iv_info F97 P97 ivk), i_nnz (iv_info F97 P97 ivk)) | _ => None end.
Lemma sizes_inv c a b : sizes c = Some (a, b) -> exists ipk ivk, marlin_index F97 P97 dnew97 false srs97 c = Ok (ipk, ivk) /\ i_nc (iv_info F97 P97 ivk) = a /\ i_nnz (iv_info F97 P97 ivk) = b.
Proof. unfold sizes. destruct (marlin_index F97 P97 dnew97 false srs97 c) as [(ipk, ivk)| |]; [|discriminate|discriminate]. intro E. injection E as <- <-. eauto. Qed.
Definition st97 (c : M F97 unit) (m : mode) : cs F97 := match c (cs_new m) with Ok (_, s) => s | _ => cs_new m end.
