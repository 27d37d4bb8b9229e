(** What gadget booleans denote. *)
From Verif Require Import Field ModelLC SpecLC ModelCS SpecCS ModelBoolean.
Local Open Scope fld_scope.
Section S.
Context {K : Fld}.
(** Field value of a gadget boolean under an assignment. *)
Definition bden (x : var -> K) (b : boolean) : K :=
  match b with
  | BIs v => x (bvar v)
  | BNot v => 1 - x (bvar v)
  | BConst c => if c then 1 else 0
  end.
(** Under [x] the gadget boolean [b] denotes the truth value [t]. *)
Definition means (x : var -> K) (b : boolean) (t : bool) : Prop := bden x b = if t then 1 else 0.
(** Variables of [b] are allocated in [s]. *)
Definition b_alloc_in (s : cs K) (b : boolean) : Prop :=
  match b with BIs v | BNot v => allocated s (bvar v) | BConst _ => True end.
(** The cached value of [b] agrees with the prover's assignment. *)
Definition b_honest (s : cs K) (b : boolean) : Prop :=
  exists t, b_value b = Some t /\ means (wit s) b t.
End S.
