(** Model of the two Fiat-Shamir generators (marlin/src/fs_rng.rs, plonk/src/rng.rs) on the byte level: what is written into
    the hash function. No proofs. Bytes are numbers below 256. [ModelMarlin.v] and [ModelPlonk.v] let every challenge be an
    arbitrary function of the absorbed messages; here that function is: hash the bytes of the messages, then draw. *)
From Coq Require Import List NArith String Ascii.
From Verif Require Import Field Poly Module ModelLC ModelPC ModelMarlin.
From Coq Require Import List.
Import ListNotations.
Local Open Scope list_scope.

(** ark_ff `ToBytes` for u32 and u64: [w] bytes, lowest first (`as u32`/`as u64` keep the low bits). *)
Fixpoint le (w : nat) (n : N) : list N := match w with O => [] | S w => N.modulo n 256 :: le w (N.div n 256) end.
(** The hash: marlin's is a merlin transcript with one message "Seed" and one challenge of 32 bytes (fs_rng.rs:47-49, 61-63);
    plonk's is the digest D (rng.rs:49, 67). *)
Definition hash := list N -> list N.
(** fs_rng.rs:42-53, rng.rs:46-58 `from_seed`. The state is the seed; the ChaCha generator is a function of it. *)
Definition from_seed (H : hash) (b : list N) : list N := H b.
(** fs_rng.rs:58-69, rng.rs:63-71 `absorb`: the new bytes, then the old seed. *)
Definition absorb (H : hash) (seed b : list N) : list N := H (b ++ seed).
(** The seed after the messages [l], newest first. *)
Fixpoint seed_after (H : hash) (l : list (list N)) : list N :=
  match l with [] => [] | b :: r => match r with [] => from_seed H b | _ :: _ => absorb H (seed_after H r) b end end.

Section M.
Variable K : Fld.
Variable PR : Pairing K.
(** `ToBytes` of a scalar and of points of the two source groups. *)
Variable ef : K -> list N.
Variable e1 : G1 PR -> list N.
Variable e2 : G2 PR -> list N.
(** pc/data_structures.rs:143-154 `Commitment`: an absent shifted commitment is written as zero, after a flag. *)
Definition comm_bytes (c : commitment K PR) : list N :=
  e1 (cm K PR c) ++ match cm_shift K PR c with None => 0%N :: e1 g0 | Some s => 1%N :: e1 s end.
(** ahp/indexer.rs:19-27 `IndexInfo`. *)
Definition info_bytes (i : info) : list N := le 8 (N.of_nat (i_nv i)) ++ le 8 (N.of_nat (i_nc i)) ++ le 8 (N.of_nat (i_nnz i)).
(** pc/data_structures.rs:111-119 `VerifierKey`. *)
Definition vk_bytes (v : vkey K PR) : list N :=
  e1 (vk_g K PR v) ++ e1 (vk_gamma K PR v) ++ e2 (vk_h K PR v) ++ e2 (vk_beta_h K PR v) ++ le 8 (N.of_nat (vk_sd K PR v)).
(** data_structures.rs:23-33 `IndexVerifierKey`. *)
Definition ivk_bytes (i : ivkey K PR) : list N :=
  info_bytes (iv_info K PR i) ++ le 4 (N.of_nat (length (iv_comms K PR i))) ++ flat_map comm_bytes (iv_comms K PR i) ++ vk_bytes (iv_vk K PR i).
(** lib.rs:106, 112, 120, 127, 157 (prover) and 189, 192, 196, 200, 204 (verifier): vectors are written without their length. *)
Definition msg_bytes (m : fmsg K PR) : list N :=
  match m with FSeed _ _ i pub => ivk_bytes i ++ flat_map ef pub | FComms _ _ c => flat_map comm_bytes c | FEvals _ _ e => flat_map ef e end.
Definition marlin_seed (H : hash) (tr : list (fmsg K PR)) : list N := seed_after H (map msg_bytes tr).
(** The transcript of lib.rs:184-205 after [k] of the four calls of `absorb`, newest first. *)
Definition marlin_transcript (i : ivkey K PR) (pub : list K) (p : proof K PR) (k : nat) : list (fmsg K PR) :=
  let c j := FComms K PR (nth j (pf_comms K PR p) []) in
  match k with
  | 0 => [FSeed K PR i pub]
  | 1 => [c 0; FSeed K PR i pub]
  | 2 => [c 1; c 0; FSeed K PR i pub]
  | 3 => [c 2; c 1; c 0; FSeed K PR i pub]
  | _ => [FEvals K PR (pf_evals K PR p); c 2; c 1; c 0; FSeed K PR i pub]
  end%nat.
(** ahp/verifier.rs:43-118: what the verifier draws, as functions of the seed of the moment. *)
Definition fs_of_bytes (H : hash) (d1 : dom K -> list N -> vmsg K) (d2 : dom K -> list N -> K) (d3 d4 : list N -> K) : fs K PR :=
  mkFS K PR (fun d tr => d1 d (marlin_seed H tr)) (fun d tr => d2 d (marlin_seed H tr)) (fun tr => d3 (marlin_seed H tr)) (fun tr => d4 (marlin_seed H tr)).
End M.

Section P.
Variable K : Fld.
Variable C : Type.
Variable ef : K -> list N.
(** `ToBytes` of the scheme's commitments; a `LabeledCommitment` (prover side) writes its commitment only. *)
Variable ec : C -> list N.
(** plonk/src/lib.rs:52 `PROTOCOL_NAME`. *)
Definition protocol_name : list N := map N_of_ascii (list_ascii_of_string "PLONK").
(** plonk/src/lib.rs:100-101, 109, 116, 122, 184 (prover) and 212-213, 216, 220, 224, 228 (verifier): the byte strings absorbed,
    newest first, up to the [k]-th call of `absorb`. *)
Definition plonk_transcript (pub : list K) (c1 c2 c3 : list C) (ev : list K) (k : nat) : list (list N) :=
  let s := protocol_name ++ flat_map ef pub in let b := flat_map ec in
  match k with
  | 0 => [s]
  | 1 => [b c1; s]
  | 2 => [b c2; b c1; s]
  | 3 => [b c3; b c2; b c1; s]
  | _ => [flat_map ef ev; b c3; b c2; b c1; s]
  end%nat.
Definition plonk_seed (H : hash) (pub : list K) (c1 c2 c3 : list C) (ev : list K) (k : nat) : list N := seed_after H (plonk_transcript pub c1 c2 c3 ev k).
End P.
