(** The polynomial hyrax's layer argument sums up, and the value it should have. *)
From Verif Require Import Field Poly SpecMle ModelLibra SpecHyrax2.
From Coq Require Import List.
Import ListNotations.
Local Open Scope fld_scope.
Section S.
Variable K : Fld.
(** Values [vs], one vector per instance, extended to a point [a] for the instance and [b] for the node. *)
Definition batch_mle (vs : list (list K)) (a b : list K) : K := mle (map (fun v => mle v b) vs) a.
Definition gate_out (v : list K) (g : gate) : K := match gt_op g with O => nth (gt_l g) v 0 + nth (gt_r g) v 0 | _ => nth (gt_l g) v 0 * nth (gt_r g) v 0 end.
(** The values of the layer above. *)
Definition layer_out (gates : list gate) (vs : list (list K)) : list (list K) := map (fun v => map (gate_out v) gates) vs.
Definition layer_poly (ln lg : nat) (vs : list (list K)) (qa ql qr : list K) (u0 u1 : K) (gates : list gate) (v : list K) : K :=
  let v1 := firstn ln v in let v2 := firstn lg (skipn ln v) in let v3 := skipn (ln + lg) v in
  let x := batch_mle vs v1 v2 in let y := batch_mle vs v1 v3 in
  wiring 0 qa v1 ql qr v2 v3 u0 u1 gates * (x + y) + wiring 1 qa v1 ql qr v2 v3 u0 u1 gates * (x * y).
(** Gates numbered in order, with known operators and operands below 2^lg. *)
Definition layer_legal (lg : nat) (gates : list gate) : Prop :=
  map gt_g gates = seq 0 (length gates) /\ Forall (fun g => (gt_op g = 0 \/ gt_op g = 1) /\ gt_l g < 2 ^ lg /\ gt_r g < 2 ^ lg)%nat gates.
End S.
Arguments batch_mle {K}. Arguments gate_out {K}. Arguments layer_out {K}. Arguments layer_poly {K}.
