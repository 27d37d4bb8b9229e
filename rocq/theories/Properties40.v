(** Theorem C105: what Marlin's proofs reveal about the witness. *)
From Verif Require Import Zp SpecLC SpecCS SpecMarlin SpecMarlinZk ExMarlin ProofsMarlinZk2 ProofsMarlinZk3 ProofsMarlinZk4.
From Verif Require Import ModelMarlin ModelCS.
From Coq Require Import List.
Local Open Scope fld_scope.

(** ** C105 *)
(** For every proof [pf] there is a rearrangement of the random numbers, a bijection, that turns runs of the prover on one satisfying
    assignment producing [pf] into runs on the other that show the same, and back. *)
Theorem C105_marlin_witness_indistinguishable : forall (K : Fld) (PR : Pairing K) (tau a : K) (g gam : G1 PR) (h2 : G2 PR), g = gsm a gam -> forall dnew (ro : fs K PR), radix2 dnew ->
  (forall m d tr, dnew m = Some d -> v_alpha K (fs_msg K PR ro d tr) ^ dsize d <> 1) -> (forall m d tr, dnew m = Some d -> fs_beta K PR ro d tr ^ dsize d <> 1) ->
  forall (n : nat) checks circ circ1 circ2 u0 u1 u2 (s0 s1 s2 : cs K) dx ipk ivk dh dk,
  circ (cs_new Setup) = Ok (u0, s0) -> circ1 (cs_new Prove) = Ok (u1, s1) -> circ2 (cs_new Prove) = Ok (u2, s2) ->
  same_shape s0 s1 -> same_shape s0 s2 -> wf s0 -> wf s1 -> wf s2 -> self_sat s1 -> self_sat s2 -> (Z.of_nat (terms (ModelCS.cons s0)) < 2 ^ 64)%Z ->
  inps s1 = inps s2 -> dnew (length (inps s1)) = Some dx -> dsize dx = length (inps s1) ->
  marlin_index K PR dnew checks (kzg_setup K PR n tau g gam h2) circ = Ok (ipk, ivk) ->
  verifier_doms K dnew (iv_info K PR ivk) = Ok (dh, dk) -> (3 <= dsize dh)%nat -> tau <> 0 ->
  forall pf, beta_of dnew ro ivk (tl (inps s1)) pf <> tau -> exists f f' : coins K -> coins K,
    (forall c, shaped (dsize dh) c -> shaped (dsize dh) (f c) /\ f' (f c) = c) /\ (forall c, shaped (dsize dh) c -> shaped (dsize dh) (f' c) /\ f (f' c) = c) /\
    (forall c pf', shaped (dsize dh) c -> blinded c -> blinded (f c) -> create_proof K PR dnew ro ipk circ1 c = Ok pf -> create_proof K PR dnew ro ipk circ2 (f c) = Ok pf' -> same_view pf pf') /\
    (forall c pf', shaped (dsize dh) c -> blinded c -> blinded (f' c) -> create_proof K PR dnew ro ipk circ2 c = Ok pf -> create_proof K PR dnew ro ipk circ1 (f' c) = Ok pf' -> same_view pf pf').
Proof. exact marlin_hides. Qed.
Print Assumptions C105_marlin_witness_indistinguishable.

Ltac wf97 := apply wfb_ok; vm_compute; reflexivity.
Ltac sat97 := apply satb_ok; vm_compute; reflexivity.
(** a = 3, b = 8 and a = 32, b = 25 both satisfy the circuit for x = 24; random numbers of the right shape. *)
Definition co105 : coins F97 := mkCoins F97 (z97 3) (z97 4) (z97 5) (map (fun i => z97 (Z.of_nat i * 7 + 2)) (seq 0 12)) (repeat ([z97 8; z97 9], [z97 11; z97 12]) 9).
Definition eqs (l m : list F97) : bool := Nat.eqb (length l) (length m) && forallb (fun '(x, y) => feqb x y) (combine l m).
Definition flat105 (p : proof F97 P97) : list F97 :=
  concat (map (fun l => concat (map (fun c : commitment F97 P97 => cm F97 P97 c :: match cm_shift F97 P97 c with Some s => [s] | None => [] end) l)) (pf_comms F97 P97 p))
  ++ pf_evals F97 P97 p ++ concat (map (fun o : kproof F97 P97 => [fst (shown o); snd (shown o)]) (pf_open F97 P97 p)).
Definition shapedb (h : nat) (c : coins F97) : bool := Nat.eqb (length (c_mask F97 c)) (3 * h) && Nat.eqb (length (c_draw F97 c)) 9 && forallb (fun d => Nat.eqb (length (fst d)) 2 && Nat.eqb (length (snd d)) 2) (c_draw F97 c).
Definition blindedb (c : coins F97) : bool := negb (feqb (c_w F97 c) 0) && negb (feqb (c_za F97 c) 0) && negb (feqb (c_zb F97 c) 0).
(** Prove with the first assignment, rearrange, prove with the second: the sizes, whether the rearranged random numbers are usable and
    different, whether the proofs show the same, and whether the same random numbers without rearranging would have given it away. *)
Definition run105 : res (nat * bool * bool * bool * bool * bool * bool) :=
  rbind (marlin_index F97 P97 dnew97 false srs97 (circ97 3 8 24)) (fun '(ipk, ivk) =>
  rbind (verifier_doms F97 dnew97 (iv_info F97 P97 ivk)) (fun '(dh, dk) =>
  rbind (create_proof F97 P97 dnew97 ro97 ipk (circ97 3 8 24) co105) (fun pf =>
  rbind (prover_init F97 dnew97 (ip_ix F97 P97 ipk) (circ97 3 8 24)) (fun p1 => rbind (prover_init F97 dnew97 (ip_ix F97 P97 ipk) (circ97 32 25 24)) (fun p2 =>
  let c := carry F97 P97 (z97 13) (z97 2 * finv (z97 3)) ro97 (dom97 1) dh ipk (ps_x F97 p1) (ck_sd F97 P97 (ip_ck F97 P97 ipk)) pf p1 p2 co105 in
  rbind (create_proof F97 P97 dnew97 ro97 ipk (circ97 32 25 24) c) (fun pf' => rbind (create_proof F97 P97 dnew97 ro97 ipk (circ97 32 25 24) co105) (fun pf2 =>
  Ok (dsize dh, shapedb (dsize dh) c, blindedb c, negb (eqs (c_mask F97 c) (c_mask F97 co105)), eqs (flat105 pf) (flat105 pf'), negb (eqs (flat105 pf) (flat105 pf2)),
      negb (feqb (beta_of dnew97 ro97 ivk (tl (ps_x F97 p1)) pf) (z97 13)))))))))).
Example ex_C105 : let s := st97 (circ97 3 8 24) in let s' := st97 (circ97 32 25 24) in
  radix2 dnew97 /\ (forall m d tr, dnew97 m = Some d -> v_alpha F97 (fs_msg F97 P97 ro97 d tr) ^ dsize d <> 1 /\ fs_beta F97 P97 ro97 d tr ^ dsize d <> 1) /\
  same_shape (s Setup) (s Prove) /\ same_shape (s Setup) (s' Prove) /\ wf (s Setup) /\ wf (s Prove) /\ wf (s' Prove) /\ self_sat (s Prove) /\ self_sat (s' Prove) /\
  (Z.of_nat (terms (ModelCS.cons (s Setup))) < 2 ^ 64)%Z /\ inps (s Prove) = inps (s' Prove) /\ eqs (auxs (s Prove)) (auxs (s' Prove)) = false /\
  dnew97 (length (inps (s Prove))) = Some (dom97 1) /\ dsize (dom97 1) = length (inps (s Prove)) /\
  feqb (z97 2) (z97 2 * finv (z97 3) * z97 3) = true /\ shapedb 4 co105 = true /\ blindedb co105 = true /\
  run105 = Ok (4%nat, true, true, true, true, true, true).
Proof.
  split; [exact radix2_97|]. split; [exact ro97_ok|]. split; [repeat split|]. split; [repeat split|]. split; [wf97|]. split; [wf97|]. split; [wf97|]. split; [sat97|]. split; [sat97|]. split; [vm_compute; reflexivity|].
  split; [reflexivity|]. split; [vm_compute; reflexivity|]. split; [reflexivity|]. split; [reflexivity|]. split; [vm_compute; reflexivity|]. split; [vm_compute; reflexivity|]. split; [vm_compute; reflexivity|]. vm_compute; reflexivity.
Qed.
