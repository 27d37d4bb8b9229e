(** Model of the constraint system interface (r1cs/src/constraint_system.rs) as a state monad.
    No proofs. *)
From Verif Require Import Field ModelLC.
Local Open Scope fld_scope.

(** Key generation never calls the witness closures (groth16/src/generator.rs:68-110
    `KeypairAssembly::alloc` ignores `_f`); proving calls them (groth16/src/prover.rs:45-93). *)
Inductive mode := Setup | Prove.

Section CS.
Variable K : Fld.

(** One `enforce(a, b, c)` call: a * b = c. *)
Record constraint := mkC { ca : lc K; cb : lc K; cc : lc K }.

(** groth16/src/prover.rs:16-31 `ProvingAssignment` / groth16/src/generator.rs:38-66
    `KeypairAssembly`: values of inputs and auxiliaries in allocation order and the
    constraints in emission order. In [Setup] mode the value lists hold placeholders so that
    their lengths count the variables. Namespaces and annotations are dropped. *)
Record cs := mkCS { md : mode; inps : list K; auxs : list K; cons : list constraint }.

(** groth16/src/prover.rs:131-148, generator.rs:146-160: a fresh system holds the input "one". *)
Definition cs_new (m : mode) : cs := mkCS m [1] [] [].

(** Synthesis code: `fn(cs: &mut CS, ..) -> Result<A, SynthesisError>`. *)
Definition M (A : Type) : Type := cs -> res (A * cs).
Definition ret {A} (a : A) : M A := fun s => Ok (a, s).
Definition bind {A B} (m : M A) (k : A -> M B) : M B :=
  fun s => match m s with Ok (a, s') => k a s' | Err e => Err e | Panic => Panic end.
Definition fail {A} (e : err) : M A := fun _ => Err e.
Definition panic {A} : M A := fun _ => Panic.

(** `cs.alloc(|| .., f)`: prover.rs:47-63, generator.rs:72-86. *)
Definition alloc (f : res K) : M var := fun s =>
  match md s with
  | Setup => Ok (Aux (length (auxs s)), mkCS (md s) (inps s) (auxs s ++ [0]) (cons s))
  | Prove =>
      match f with
      | Ok x => Ok (Aux (length (auxs s)), mkCS (md s) (inps s) (auxs s ++ [x]) (cons s))
      | Err e => Err e
      | Panic => Panic
      end
  end.
(** `cs.alloc_input(|| .., f)`: prover.rs:65-79, generator.rs:88-102. *)
Definition alloc_input (f : res K) : M var := fun s =>
  match md s with
  | Setup => Ok (Input (length (inps s)), mkCS (md s) (inps s ++ [0]) (auxs s) (cons s))
  | Prove =>
      match f with
      | Ok x => Ok (Input (length (inps s)), mkCS (md s) (inps s ++ [x]) (auxs s) (cons s))
      | Err e => Err e
      | Panic => Panic
      end
  end.
(** `cs.enforce(|| .., a, b, c)`: prover.rs:81-93, generator.rs:104-125. The closures
    receive the empty combination; the model passes the built combinations. *)
Definition enforce (a b c : lc K) : M unit := fun s =>
  Ok (tt, mkCS (md s) (inps s) (auxs s) (cons s ++ [mkC a b c])).

(** A Rust `for`/iterator loop collecting results, stopping at the first error. *)
Fixpoint mapM {A B} (f : A -> M B) (l : list A) : M (list B) :=
  match l with
  | [] => ret []
  | x :: r => bind (f x) (fun y => bind (mapM f r) (fun ys => ret (y :: ys)))
  end.
Fixpoint foldM {A B} (f : A -> B -> M A) (l : list B) (a : A) : M A :=
  match l with
  | [] => ret a
  | x :: r => bind (f a x) (fun a' => foldM f r a')
  end.
End CS.
Arguments mkC {K}. Arguments ca {K}. Arguments cb {K}. Arguments cc {K}.
Arguments mkCS {K}. Arguments md {K}. Arguments inps {K}. Arguments auxs {K}. Arguments cons {K}.
Arguments cs_new {K}. Arguments ret {K A}. Arguments bind {K A B}. Arguments fail {K A}. Arguments panic {K A}.
Arguments alloc {K}. Arguments alloc_input {K}. Arguments enforce {K}.
Arguments mapM {K A B}. Arguments foldM {K A B}.

Notation "x <- m ;; k" := (bind m (fun x => k)) (at level 61, m at next level, right associativity).
Notation "m ;;; k" := (bind m (fun _ => k)) (at level 61, right associativity).

(** `value.ok_or(SynthesisError::AssignmentMissing)` *)
Definition ok_or {A} (o : option A) (e : err) : res A := match o with Some a => Ok a | None => Err e end.
