(** Specification vocabulary for what Marlin's proofs reveal. *)
From Coq Require Import List.
From Verif Require Import Field Poly Module ModelLC ModelPC ModelMarlin.
From Coq Require Import List.
Import ListNotations.
Local Open Scope fld_scope.
Section S.
Variable K : Fld.
Variable PR : Pairing K.
(** The random numbers one run draws, for an evaluation domain of size [h]: three blinding coefficients, the 3h coefficients of the
    mask, and two coefficients for each of the commitments (those of commitments that do not hide are not looked at). *)
Definition shaped (h : nat) (c : coins K) : Prop :=
  length (c_mask K c) = (3 * h)%nat /\ length (c_draw K c) = 9%nat /\ Forall (fun d => length (fst d) = 2%nat /\ length (snd d) = 2%nat) (c_draw K c).
(** No blinding coefficient happens to be zero. *)
Definition blinded (c : coins K) : Prop := c_w K c <> 0 /\ c_za K c <> 0 /\ c_zb K c <> 0.
(** What an opening shows: its group element and the value of the blinding polynomial (zero when it is left out). *)
Definition shown (o : kproof K PR) : G1 PR * K := (k_w K PR o, match k_rand_v K PR o with Some r => r | None => 0 end).
(** Proofs that show the same. *)
Definition same_view (p q : proof K PR) : Prop :=
  pf_comms K PR p = pf_comms K PR q /\ pf_evals K PR p = pf_evals K PR q /\ map shown (pf_open K PR p) = map shown (pf_open K PR q).
(** The evaluation point beta that belongs to a proof: the transcript holds the key and the public input, then the first two
    lists of commitments. *)
Definition beta_of (dnew : nat -> option (dom K)) (ro : fs K PR) (ivk : ivkey K PR) (pub : list K) (p : proof K PR) : K :=
  match verifier_doms K dnew (iv_info K PR ivk) with
  | Ok (dh, _) => fs_beta K PR ro dh (FComms K PR (nth 1 (pf_comms K PR p) []) :: FComms K PR (nth 0 (pf_comms K PR p) []) :: [FSeed K PR ivk pub])
  | _ => 0
  end.
End S.
Arguments beta_of {K PR}. Arguments shaped {K}. Arguments blinded {K}. Arguments shown {K PR}. Arguments same_view {K PR}.
