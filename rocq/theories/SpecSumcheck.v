(** Soundness of a sum-check run: stated for any function of low degree in each variable. *)
From Verif Require Import Field Poly SpecMle.
From Coq Require Import List.
Import ListNotations.
Local Open Scope fld_scope.
Section S.
Variable K : Fld.
(** A function given by a polynomial with at most [d] + 1 coefficients. *)
Definition poly_fun (d : nat) (f : K -> K) : Prop := exists q : list K, (length q <= d + 1)%nat /\ forall x, f x = peval q x.
Definition low_degree (d n : nat) (F : list K -> K) : Prop :=
  forall pre post, (length pre + S (length post) = n)%nat -> poly_fun d (fun x => F (pre ++ x :: post)).
(** The sum over the values 0 and 1 of the last [n] variables. *)
Definition csum (n : nat) (F : list K -> K) (pre : list K) : K := fsum (map (fun bs => F (pre ++ map bit bs)) (cube n)).
(** In some round the polynomial sent is not the true one and the challenge is a zero of the difference. *)
Definition bad_challenge (d n : nat) (F : list K -> K) (ps : list (list K)) (rs : list K) : Prop :=
  exists j q, (j < n)%nat /\ (length q <= d + 1)%nat /\ (forall x, peval q x = peval (nth j ps []) x - csum (n - j - 1) F (firstn j rs ++ [x])) /\
    (exists x, peval q x <> 0) /\ peval q (nth j rs 0) = 0.
End S.
Arguments poly_fun {K}. Arguments low_degree {K}. Arguments csum {K}. Arguments bad_challenge {K}.
