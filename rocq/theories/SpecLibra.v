(** What a layered circuit computes, and where its inputs should be. *)
From Verif Require Import Field SpecMle.
From Coq Require Import List.
Local Open Scope fld_scope.
(** A gate is (operator, left, right); a circuit is its list of layers, lowest first. *)
Notation raw_layer := (list (nat * nat * nat)%type).
(** Operators are 0 or 1 and operands name gates of the layer below, which has [n] gates. *)
Fixpoint legal (n : nat) (raw : list raw_layer) : Prop :=
  match raw with [] => True | l :: raw => Forall (fun g => (fst (fst g) = 0 \/ fst (fst g) = 1) /\ snd (fst g) < n /\ snd g < n)%nat l /\ legal (length l) raw end.
(** The least power of two not below n. *)
Definition pow2_above (n S : nat) : Prop := exists k, S = (2 ^ k)%nat /\ (n <= S)%nat /\ forall j, (n <= 2 ^ j)%nat -> (S <= 2 ^ j)%nat.
(** Every layer but the last has a power of two of gates. *)
Fixpoint inner_pow2 (raw : list raw_layer) : Prop :=
  match raw with [] => True | l :: raw => match raw with [] => True | _ => (exists k, length l = (2 ^ k)%nat) /\ inner_pow2 raw end end.
Section S.
Variable K : Fld.
Definition sem_gate (prev : list K) (g : nat * nat * nat) : K :=
  let x := nth (snd (fst g)) prev 0 in let y := nth (snd g) prev 0 in match fst (fst g) with O => x + y | _ => x * y end.
Fixpoint sem (prev : list K) (raw : list raw_layer) : list K :=
  match raw with [] => prev | l :: raw => sem (map (sem_gate prev) l) raw end.
(** The documented input layer: witnesses in the first half, public inputs in the second, each half padded by zeros. *)
Definition intended_layer (S : nat) (inputs aux : list K) : list K :=
  aux ++ repeat 0 (S - length aux) ++ inputs ++ repeat 0 (S - length inputs).
(** The input layer the code builds. *)
Definition actual_layer (S : nat) (inputs aux : list K) : list K :=
  aux ++ repeat 0 (S - length inputs) ++ inputs ++ repeat 0 (S - length aux).
End S.
Arguments sem {K}. Arguments sem_gate {K}. Arguments intended_layer {K}. Arguments actual_layer {K}.
