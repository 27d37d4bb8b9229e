(** What hyrax's argument for one layer is meant to show: stated with round polynomials, challenges and gates only. *)
From Verif Require Import Field Poly Module SpecMle ModelLibra ModelHyrax.
From Coq Require Import List.
Import ListNotations.
Local Open Scope fld_scope.
Section S.
Variable K : Fld.
(** The gaps of a sum-check run: how far each round polynomial is from its claim, and the last claim from [fin]. *)
Fixpoint gaps (claim : K) (ps : list (list K)) (rs : list K) (fin : K) : list K :=
  match ps, rs with
  | p :: ps, r :: rs => (peval p 0 + peval p 1 - claim) :: gaps (peval p r) ps rs fin
  | _, _ => [fin - claim]
  end.
(** The value at [r] of the multilinear polynomial that is 1 at the binary digits of [i] and 0 at the other corners. *)
Definition pick (r : list K) (i : nat) : K := nth i (map (fun bs => chi bs r) (cube (length r))) 0.
(** The weight of the gates with operator [op] at the points of a layer. *)
Definition wiring (op : nat) (qa rs ql qr r0 r1 : list K) (u0 u1 : K) (gates : list gate) : K :=
  fsum (map (fun bs => chi bs qa * chi bs rs) (cube (length qa))) *
  fsum (map (fun g => if Nat.eqb (gt_op g) op then pick r0 (gt_l g) * pick r1 (gt_r g) * (pick ql (gt_g g) * u0 + pick qr (gt_g g) * u1) else 0) gates).
(** Two proofs of a layer with the same messages up to the last challenge. *)
Variable G : Grp K.
Definition same_first (pf pf' : zkproof K G) : Prop :=
  zk_prod K G pf = zk_prod K G pf' /\ zk_a0 K G pf = zk_a0 K G pf' /\ zk_c K G pf = zk_c K G pf' /\ zk_x K G pf = zk_x K G pf' /\ zk_y K G pf = zk_y K G pf' /\ zk_z K G pf = zk_z K G pf' /\
  zk_polys K G pf = zk_polys K G pf' /\ zk_evals K G pf = zk_evals K G pf' /\ zk_deltas K G pf = zk_deltas K G pf'.
End S.
Arguments gaps {K}. Arguments pick {K}. Arguments wiring {K}. Arguments same_first {K G}.
