(** What the sigma protocols are meant to show, stated with group equations only. *)
From Verif Require Import Field Poly Module ModelTranscript.
Local Open Scope fld_scope.
Section S.
Variable K : Fld.
Variable G : Grp K.
(** [C] commits to the value [x], respectively to the vector [xs]. *)
Definition opens (g h C : G) (x r : K) : Prop := C = gadd (gsm x g) (gsm r h).
Definition opens_vec (gs : list G) (h C : G) (xs : list K) (r : K) : Prop := C = gadd (msm gs xs) (gsm r h).
(** Two random oracles that first differ on the challenge [l] after transcript [t]. *)
Definition forks (ch ch' : oracle K G) (l : string) (t : transcript K G) : Prop :=
  ch l t <> ch' l t /\ forall l' t', (length t' < length t)%nat -> ch l' t' = ch' l' t'.
End S.
Arguments opens {K G}. Arguments opens_vec {K G}. Arguments forks {K G}.
