(** Zero knowledge of Groth16: the simulator of Groth's paper, which knows the trapdoor and no witness. *)
From Coq Require Import List.
From Verif Require Import Field Module ModelGroth16.
Import ListNotations.
Local Open Scope fld_scope.
Section S.
Variable K : Fld.
Variable PR : Pairing K.
(** Every element is a multiple of [g]. *)
Definition generates {G : Grp K} (g : G) : Prop := forall P : G, exists k, P = gsm k g.
(** Elements x g1 and y g2 for chosen x, y, and the third element from the trapdoor and the verification key alone. *)
Definition simulate (vk : vkey K PR) (al be ga de : K) (g1 : G1 PR) (g2 : G2 PR) (xs : list K) (x y : K) : proof K PR :=
  mkPrf K PR (gsm x g1) (gsm y g2) (gsm (finv de) (gadd (gsm (x * y - al * be) g1) (gopp (gsm ga (msm (gamma_abc_g1 K PR vk) (1 :: xs)))))).
End S.
Arguments generates {K G}. Arguments simulate {K PR}.
