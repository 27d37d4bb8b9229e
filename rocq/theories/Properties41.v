(** Theorem C106: what the Fiat-Shamir generators of marlin and plonk hash. *)
From Coq Require Import List NArith ZArith Lia.
From Verif Require Import Zp ExMarlin Field Poly Module ModelLC ModelPC ModelMarlin ModelFsRng SpecFsRng ProofsFsRng.
From Coq Require Import List.
Import ListNotations.

(** ** C106 *)
(** Two seeds of marlin's generator at the same stage are equal only if everything absorbed up to there was the same (key, public
    inputs, commitments, evaluations), unless two of the strings hashed on the way are a collision. *)
Theorem C106_marlin_seed_binds : forall (K : Fld) (PR : Pairing K) (ef : K -> list N) (e1 : G1 PR -> list N) (e2 : G2 PR -> list N),
  readable ef -> readable e1 -> readable e2 -> forall H i i' pub pub' p p' k, fixed_out H -> key_fits i -> key_fits i' ->
  marlin_seed K PR ef e1 e2 H (marlin_transcript K PR i pub p k) = marlin_seed K PR ef e1 e2 H (marlin_transcript K PR i' pub' p' k) ->
  marlin_transcript K PR i pub p k = marlin_transcript K PR i' pub' p' k \/
  collision H (hashed H (map (msg_bytes K PR ef e1 e2) (marlin_transcript K PR i pub p k))) (hashed H (map (msg_bytes K PR ef e1 e2) (marlin_transcript K PR i' pub' p' k))).
Proof. exact marlin_binds. Qed.
Print Assumptions C106_marlin_seed_binds.
(** The verifier reads its generator in the states after one, two, three and four calls of `absorb`, and nowhere else. *)
Theorem C106_marlin_draws : forall (K : Fld) (PR : Pairing K) (dnew : nat -> option (dom K)) (o o' : fs K PR) i pf pub,
  (3 <= length (pf_comms K PR pf))%nat -> let t := marlin_transcript K PR i pub pf in
  (forall d, fs_msg K PR o d (t 1%nat) = fs_msg K PR o' d (t 1%nat)) -> (forall d, fs_beta K PR o d (t 2%nat) = fs_beta K PR o' d (t 2%nat)) ->
  fs_gamma K PR o (t 3%nat) = fs_gamma K PR o' (t 3%nat) -> fs_xi K PR o (t 4%nat) = fs_xi K PR o' (t 4%nat) ->
  verify_proof K PR dnew o i pf pub = verify_proof K PR dnew o' i pf pub.
Proof. exact verify_draws. Qed.
Print Assumptions C106_marlin_draws.
(** Plonk's seed determines the public inputs and the messages, and says nothing about the key. *)
Theorem C106_plonk_seed_binds : forall (K : Fld) (C : Type) (ef : K -> list N) (ec : C -> list N), readable ef -> readable ec ->
  forall H pub c1 c2 c3 ev pub' c1' c2' c3' ev' k, fixed_out H ->
  plonk_seed K C ef ec H pub c1 c2 c3 ev k = plonk_seed K C ef ec H pub' c1' c2' c3' ev' k ->
  (pub = pub' /\ (1 <= k -> c1 = c1') /\ (2 <= k -> c2 = c2') /\ (3 <= k -> c3 = c3') /\ (4 <= k -> ev = ev'))%nat \/
  collision H (hashed H (plonk_transcript K C ef ec pub c1 c2 c3 ev k)) (hashed H (plonk_transcript K C ef ec pub' c1' c2' c3' ev' k)).
Proof. exact plonk_binds. Qed.
Print Assumptions C106_plonk_seed_binds.
(** Elements in one byte; a hash of two numbers below 65536. *)
Definition e97 (x : F97) : list N := [Z.to_N (zv 97 x)].
Definition h97 (b : list N) : list N :=
  let '(s, t) := fold_left (fun '(s, t) c => let s := N.modulo (s * 257 + c + 1) 65536 in (s, N.modulo (t + s) 65536)) b (7%N, 1%N) in [s; t].
Lemma e97_readable : readable e97.
Proof.
  exists 1%nat. split; [lia|]. split; [reflexivity|]. intros x y E. apply zp_eq. unfold e97 in E. injection E as E.
  assert (B : forall u : zp 97, (0 <= zv 97 u)%Z). { intros [u U]. cbn [zv]. apply Z.eqb_eq in U. rewrite <- U. apply Z.mod_pos_bound. lia. }
  pose proof (B x). pose proof (B y). lia.
Qed.
Lemma h97_fixed : fixed_out h97.
Proof. exists 2%nat. intro b. unfold h97. destruct (fold_left _ b _). reflexivity. Qed.
Definition cm97 (x : Z) (s : option Z) : commitment F97 P97 := mkCm F97 P97 (z97 x) (option_map z97 s).
Definition key106 (n : nat) : ivkey F97 P97 := mkIVK F97 P97 (mkInfo 4 4 n) [cm97 1 None; cm97 5 (Some 9%Z)] (mkVK F97 P97 (z97 2) (z97 3) (z97 4) (z97 5) 20).
Definition pf106 (x y : Z) (o : option Z) : proof F97 P97 := mkPf F97 P97 [[cm97 8 None; cm97 x o]; [cm97 3 None]; [cm97 y None]] [z97 x; z97 y] [].
Definition seed106 n x pub y o k : list N := marlin_seed F97 P97 e97 e97 e97 h97 (marlin_transcript F97 P97 (key106 n) (map z97 pub) (pf106 x y o) k).
Definition leqb (l m : list N) : bool := if list_eq_dec N.eq_dec l m then true else false.
(** Another size in the key, another public input, another commitment, a shifted commitment to zero instead of none: other seeds.
    What comes after the third call of `absorb` does not change the seed of that stage. *)
Example ex_C106 : readable e97 /\ fixed_out h97 /\ key_fits (key106 7) /\
  map (leqb (seed106 7 1 [2%Z] 3 None 4)) [seed106 8 1 [2%Z] 3 None 4; seed106 7 1 [3%Z] 3 None 4; seed106 7 2 [2%Z] 3 None 4; seed106 7 1 [2%Z] 4 None 4; seed106 7 1 [2%Z] 3 (Some 0%Z) 4] = [false; false; false; false; false] /\
  leqb (seed106 7 1 [2%Z] 3 None 2) (seed106 7 1 [2%Z] 4 None 2) = true /\
  leqb (plonk_seed F97 F97 e97 e97 h97 [z97 1] [z97 2] [z97 3] [] [] 2) (plonk_seed F97 F97 e97 e97 h97 [z97 1] [z97 3] [z97 2] [] [] 2) = false.
Proof.
  split; [exact e97_readable|]. split; [exact h97_fixed|]. split; [unfold key_fits, fits; repeat split; vm_compute; reflexivity|].
  split; [vm_compute; reflexivity|]. split; vm_compute; reflexivity.
Qed.
(** Two generators that agree in the four states and differ elsewhere. *)
Definition ro106 : fs F97 P97 := mkFS F97 P97 (fs_msg F97 P97 ro97) (fs_beta F97 P97 ro97) (fun tr => if Nat.eqb (length tr) 4 then fs_gamma F97 P97 ro97 tr else (fs_gamma F97 P97 ro97 tr + f1)%fld) (fs_xi F97 P97 ro97).
Example ex_C106_draws : let t := marlin_transcript F97 P97 (key106 7) [z97 2] (pf106 1 3 None) in (3 <= length (pf_comms F97 P97 (pf106 1 3 None)))%nat /\
  fs_gamma F97 P97 ro97 (t 3%nat) = fs_gamma F97 P97 ro106 (t 3%nat) /\ feqb (fs_gamma F97 P97 ro97 (t 2%nat)) (fs_gamma F97 P97 ro106 (t 2%nat)) = false.
Proof. split; [cbn; lia|]. split; vm_compute; reflexivity. Qed.
