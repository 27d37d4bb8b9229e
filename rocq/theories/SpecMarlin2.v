(** The interactive oracle protocol behind Marlin: a prover that answers with polynomials. *)
From Verif Require Import ModelMarlin SpecMarlin.
From Verif Require Import ModelCS.
Local Open Scope fld_scope.
Local Open Scope string_scope.
Section S.
Variable K : Fld.
(** Truthful evaluations of the index polynomials and of the prover's polynomials at the two query points. *)
Definition star_answers (n : string) (s : star K) (ga : K) : list (string * K * K) :=
  [(n ++ "_row", ga, peval (st_row K s) ga); (n ++ "_col", ga, peval (st_col K s) ga); (n ++ "_val", ga, peval (st_val K s) ga); (n ++ "_row_col", ga, peval (st_rc K s) ga)]%string.
Definition answers (ix : index K) (o1 : oracles1 K) (o2 : oracles2 K) (o3 : oracles3 K) (be ga : K) : list (string * K * K) :=
  (star_answers "a" (st_a K ix) ga ++ star_answers "b" (st_b K ix) ga ++ star_answers "c" (st_c K ix) ga ++
  [("w", be, peval (o_w K o1) be); ("z_a", be, peval (o_za K o1) be); ("z_b", be, peval (o_zb K o1) be); ("mask", be, peval (o_mask K o1) be);
   ("t", be, peval (o_t K o2) be); ("g_1", be, peval (o_g1 K o2) be); ("h_1", be, peval (o_h1 K o2) be);
   ("g_2", ga, peval (o_g2 K o3) ga); ("h_2", ga, peval (o_h2 K o3) ga)])%list.
(** A prover that commits to each round before it sees the challenge of that round, and whose truthful answers pass the equality check for all challenges in the given sets. The two g polynomials obey their degree bounds. *)
Definition ahp_wins (dnew : nat -> option (dom K)) (ix : index K) (dh dk : dom K) (pub : list K) (D D2 : nat) (als es bs gs : list K) : Prop :=
  exists o1, (length (o_w K o1) <= D /\ length (o_za K o1) <= D /\ length (o_zb K o1) <= D /\ length (o_mask K o1) <= D)%nat /\
  forall al ea eb ec, In al als -> In ea es -> In eb es -> In ec es ->
  exists o2, (length (o_t K o2) <= D /\ length (o_h1 K o2) <= D /\ length (o_g1 K o2) <= dsize dh - 1)%nat /\
  forall be, In be bs ->
  exists o3, (length (o_h2 K o3) <= D2 /\ length (o_g2 K o3) <= dsize dk - 1)%nat /\
  forall ga, In ga gs -> equality_check K dnew pub (answers ix o1 o2 o3 be ga) (mkVS K dh dk (mkVM K al ea eb ec) be ga) = Ok true.
End S.
