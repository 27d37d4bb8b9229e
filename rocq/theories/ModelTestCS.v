(** Model of gadgets/src/test_constraint_system.rs, the constraint system for testing circuits. No proofs. *)
From Coq Require Import String Ascii List NArith.
Import ListNotations.
From Verif Require Import Field ModelLC ModelCS.
Local Open Scope list_scope.
Local Open Scope fld_scope.

(** test_constraint_system.rs:12-17 `NamedObject`. *)
Inductive named := NCons (i : nat) | NVar (v : var) | NNs.

(** test_constraint_system.rs:324-342 `compute_path`: the names of [ns] and [this] with '/' between them;
    a '/' in [this] panics. The loop carries `name` and `needs_separation`. *)
Fixpoint has_slash (s : string) : bool :=
  match s with EmptyString => false | String a r => Ascii.eqb a "/"%char || has_slash r end.
Fixpoint join (l : list string) (name : string) (needs : bool) : string :=
  match l with
  | [] => name
  | n :: r => join r (append (if needs then append name "/" else name) n) true
  end.
Definition compute_path (ns : list string) (this : string) : res string :=
  if has_slash this then Panic else Ok (join (ns ++ [this]) EmptyString false).

Section T.
Variable K : Fld.

(** test_constraint_system.rs:19-31 `TestConstraintSystem`. The hash map is the list of its bindings. *)
Record tcs := mkT { t_named : list (string * named); t_ns : list string;
  t_cons : list (constraint K * string); t_inps : list (K * string); t_auxs : list (K * string) }.

(** std::collections::HashMap::get. *)
Fixpoint look (m : list (string * named)) (p : string) : option named :=
  match m with [] => None | (q, o) :: r => if String.eqb q p then Some o else look r p end.

(** test_constraint_system.rs:135-149 `new`. *)
Definition t_new : tcs := mkT [("ONE"%string, NVar ONE)] [] [] [(1, "ONE"%string)] [].

(** A method taking `&mut self`: the result and the new state. A method that returns `Err` leaves the state as it was. *)
Definition TM (A : Type) : Type := tcs -> res (A * tcs).

(** test_constraint_system.rs:315-321 `set_named_obj`: panics on a path in use. *)
Definition set_named (m : list (string * named)) (p : string) (o : named) : res (list (string * named)) :=
  match look m p with Some _ => Panic | None => Ok ((p, o) :: m) end.

(** test_constraint_system.rs:347-360 `alloc`: the path, then the closure, then the map. *)
Definition t_alloc (name : string) (f : res K) : TM var := fun s =>
  rbind (compute_path (t_ns s) name) (fun path =>
  rbind f (fun x =>
  let v := Aux (length (t_auxs s)) in
  rbind (set_named (t_named s) path (NVar v)) (fun m =>
  Ok (v, mkT m (t_ns s) (t_cons s) (t_inps s) (t_auxs s ++ [(x, path)]))))).
(** test_constraint_system.rs:362-375 `alloc_input`. *)
Definition t_alloc_input (name : string) (f : res K) : TM var := fun s =>
  rbind (compute_path (t_ns s) name) (fun path =>
  rbind f (fun x =>
  let v := Input (length (t_inps s)) in
  rbind (set_named (t_named s) path (NVar v)) (fun m =>
  Ok (v, mkT m (t_ns s) (t_cons s) (t_inps s ++ [(x, path)]) (t_auxs s))))).
(** test_constraint_system.rs:377-394 `enforce`; the closures are passed as the combinations they build. *)
Definition t_enforce (name : string) (a b c : lc K) : TM unit := fun s =>
  rbind (compute_path (t_ns s) name) (fun path =>
  rbind (set_named (t_named s) path (NCons (length (t_cons s)))) (fun m =>
  Ok (tt, mkT m (t_ns s) (t_cons s ++ [(mkC a b c, path)]) (t_inps s) (t_auxs s)))).
(** test_constraint_system.rs:396-405 `push_namespace`. *)
Definition t_push (name : string) : TM unit := fun s =>
  rbind (compute_path (t_ns s) name) (fun path =>
  rbind (set_named (t_named s) path NNs) (fun m =>
  Ok (tt, mkT m (t_ns s ++ [name]) (t_cons s) (t_inps s) (t_auxs s)))).
(** test_constraint_system.rs:407-409 `pop_namespace`. *)
Definition t_pop : TM unit := fun s =>
  match t_ns s with
  | [] => Panic
  | _ :: _ => Ok (tt, mkT (t_named s) (removelast (t_ns s)) (t_cons s) (t_inps s) (t_auxs s))
  end.
(** test_constraint_system.rs:415-418, the trait's `num_constraints` (`todo!()`). *)
Definition t_trait_num_constraints (s : tcs) : res nat := Panic.
(** test_constraint_system.rs:259-261, the inherent `num_constraints`, which direct calls resolve to. *)
Definition t_num_constraints (s : tcs) : nat := length (t_cons s).
(** test_constraint_system.rs:289-291 `num_inputs`. *)
Definition t_num_inputs (s : tcs) : nat := length (t_inps s).

(** Vec indexing: panics out of bounds. *)
Definition index {A} (l : list A) (i : nat) : res A := match nth_error l i with Some a => Ok a | None => Panic end.
(** test_constraint_system.rs:112-130 `eval_lc`. *)
Definition var_value (s : tcs) (v : var) : res K :=
  match v with Input i => rbind (index (t_inps s) i) (fun e => Ok (fst e)) | Aux i => rbind (index (t_auxs s) i) (fun e => Ok (fst e)) end.
Fixpoint eval_lc (s : tcs) (l : lc K) (acc : K) : res K :=
  match l with [] => Ok acc | (v, c) :: r => rbind (var_value s v) (fun x => eval_lc s r (acc + x * c)) end.
(** test_constraint_system.rs:239-253 `which_is_unsatisfied`. *)
Fixpoint which_loop (s : tcs) (l : list (constraint K * string)) : res (option string) :=
  match l with
  | [] => Ok None
  | (c, path) :: r =>
      rbind (eval_lc s (ca c) 0) (fun a => rbind (eval_lc s (cb c) 0) (fun b => rbind (eval_lc s (cc c) 0) (fun d =>
      if feqb (a * b) d then which_loop s r else Ok (Some path))))
  end.
Definition which_is_unsatisfied (s : tcs) : res (option string) := which_loop s (t_cons s).
(** test_constraint_system.rs:255-257 `is_satisfied`. *)
Definition is_satisfied (s : tcs) : res bool := rbind (which_is_unsatisfied s) (fun o => Ok match o with None => true | Some _ => false end).

(** test_constraint_system.rs:301-313 `get`. *)
Definition t_get (path : string) (s : tcs) : res K :=
  match look (t_named s) path with Some (NVar v) => var_value s v | _ => Panic end.
(** test_constraint_system.rs:263-275 `set`. *)
Definition put (l : list (K * string)) (i : nat) (x : K) : res (list (K * string)) :=
  match nth_error l i with Some _ => Ok (upd_at i (fun e => (x, snd e)) l) | None => Panic end.
Definition t_set (path : string) (x : K) : TM unit := fun s =>
  match look (t_named s) path with
  | Some (NVar (Input i)) => rbind (put (t_inps s) i x) (fun l => Ok (tt, mkT (t_named s) (t_ns s) (t_cons s) l (t_auxs s)))
  | Some (NVar (Aux i)) => rbind (put (t_auxs s) i x) (fun l => Ok (tt, mkT (t_named s) (t_ns s) (t_cons s) (t_inps s) l))
  | _ => Panic
  end.
(** test_constraint_system.rs:277-287 `verify`. *)
Fixpoint all_eq (a b : list K) : bool :=
  match a, b with x :: a', y :: b' => if feqb x y then all_eq a' b' else false | _, _ => true end.
Definition t_verify (expected : list K) (s : tcs) : res bool :=
  if negb (Nat.eqb (length expected + 1) (length (t_inps s))) then Panic else
  Ok (all_eq (map fst (skipn 1 (t_inps s))) expected).
(** test_constraint_system.rs:293-299 `get_input`. *)
Definition t_get_input (i : nat) (path : string) (s : tcs) : res K :=
  rbind (index (t_inps s) i) (fun e => if String.eqb path (snd e) then Ok (fst e) else Panic).

(** test_constraint_system.rs:62-84 `proc_lc`: a map from variable to sum of coefficients, in the order of
    `OrderedVariable` (lines 51-60, the order [var_cmp]), without the zero sums. *)
Fixpoint entry_add (m : list (var * K)) (v : var) (c : K) : list (var * K) :=
  match m with
  | [] => [(v, 0 + c)]
  | (w, d) :: r => match var_cmp v w with Lt => (v, 0 + c) :: m | Eq => (w, d + c) :: r | Gt => (w, d) :: entry_add r v c end
  end.
Definition proc_lc (l : lc K) : list (var * K) :=
  filter (fun t => negb (feqb (snd t) 0)) (fold_left (fun m t => entry_add m (fst t) (snd t)) l []).

(** byteorder::BigEndian::write_u64 of `n as u64`. *)
Definition be64 (n : nat) : list N := map (fun e => N.modulo (N.div (N.of_nat n) (N.pow 256 e)) 256) [7; 6; 5; 4; 3; 2; 1; 0]%N.

Section Hash.
(** `coeff.into_repr().write`: the bytes of a field element; and the hash function. *)
Variable enc : K -> list N.
Variable H : list N -> string.
(** test_constraint_system.rs:86-110 `hash_lc`: the number of terms, then 41 bytes per term; the bytes of a coefficient
    overwrite the start of the last 32, which are zero otherwise; more than 32 do not fit and panic. *)
Definition term_bytes (t : var * K) : res (list N) :=
  let e := enc (snd t) in
  if Nat.ltb 32 (length e) then Panic else
  Ok ((match fst t with Input i => 73%N :: be64 i | Aux i => 65%N :: be64 i end) ++ e ++ repeat 0%N (32 - length e)).
Fixpoint terms_bytes (l : list (var * K)) : res (list N) :=
  match l with [] => Ok [] | t :: r => rbind (term_bytes t) (fun b => rbind (terms_bytes r) (fun bs => Ok (b ++ bs))) end.
Definition lc_bytes (l : lc K) : res (list N) :=
  let m := proc_lc l in rbind (terms_bytes m) (fun b => Ok (be64 (length m) ++ b)).
(** test_constraint_system.rs:214-237 `hash`: all bytes fed to the hash function. *)
Fixpoint cons_bytes (l : list (constraint K * string)) : res (list N) :=
  match l with
  | [] => Ok []
  | (c, _) :: r => rbind (lc_bytes (ca c)) (fun a => rbind (lc_bytes (cb c)) (fun b => rbind (lc_bytes (cc c)) (fun d =>
      rbind (cons_bytes r) (fun bs => Ok (a ++ b ++ d ++ bs)))))
  end.
Definition t_hash (s : tcs) : res string :=
  rbind (cons_bytes (t_cons s)) (fun bs =>
  Ok (H (be64 (length (t_inps s)) ++ be64 (length (t_auxs s)) ++ be64 (length (t_cons s)) ++ bs))).
End Hash.

(** A circuit as a program over the trait `ConstraintSystem` (r1cs/src/constraint_system.rs:10-77): what it does next may
    depend on the variables handed out. A failing closure or `Err` ends it. *)
Inductive prog (A : Type) :=
| PRet (a : A) | PErr (e : err)
| PAlloc (name : string) (f : res K) (k : var -> prog A)
| PInput (name : string) (f : res K) (k : var -> prog A)
| PEnforce (name : string) (a b c : lc K) (k : prog A)
| PPush (name : string) (k : prog A)
| PPop (k : prog A).
(** Running it on the test system. *)
Fixpoint run_t {A} (p : prog A) : TM A := fun s =>
  match p with
  | PRet _ a => Ok (a, s) | PErr _ e => Err e
  | PAlloc _ n f k => rbind (t_alloc n f s) (fun '(v, s') => run_t (k v) s')
  | PInput _ n f k => rbind (t_alloc_input n f s) (fun '(v, s') => run_t (k v) s')
  | PEnforce _ n a b c k => rbind (t_enforce n a b c s) (fun '(_, s') => run_t k s')
  | PPush _ n k => rbind (t_push n s) (fun '(_, s') => run_t k s')
  | PPop _ k => rbind (t_pop s) (fun '(_, s') => run_t k s')
  end.
(** Running it on the provers' systems of [ModelCS] (their namespace methods do nothing,
    e.g. groth16/src/prover.rs:76-86). *)
Fixpoint run_m {A} (p : prog A) : M K A :=
  match p with
  | PRet _ a => ret a | PErr _ e => fail e
  | PAlloc _ _ f k => bind (alloc f) (fun v => run_m (k v))
  | PInput _ _ f k => bind (alloc_input f) (fun v => run_m (k v))
  | PEnforce _ _ a b c k => bind (enforce a b c) (fun _ => run_m k)
  | PPush _ _ k => run_m k
  | PPop _ k => run_m k
  end.
End T.
