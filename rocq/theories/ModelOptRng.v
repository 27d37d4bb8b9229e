(** Model of marlin/src/pc/optional_rng.rs and of commitments with an optional generator: kzg10.rs:100-123 and pc/mod.rs:34-71
    with their `rng` arguments, which ModelPC.v takes to be present. No proofs. *)
From Verif Require Import Field Poly Module ModelPC.
Local Open Scope fld_scope.

(** optional_rng.rs:10 `OptionalRng`: [S] is the state of the generator inside. *)
Definition optional_rng (S : Type) : Type := option S.
(** optional_rng.rs:46-50 `From`. *)
Definition rng_from {S} (s : S) : optional_rng S := Some s.
(** optional_rng.rs:14-19, 22-27, 30-35 `next_u32`, `next_u64`, `fill_bytes`: [f] is the method of the generator inside. *)
Definition rng_draw {S A} (f : S -> A * S) (r : optional_rng S) : res (A * optional_rng S) :=
  match r with Some s => let '(a, s') := f s in Ok (a, Some s') | None => Panic end.
(** optional_rng.rs:38-43 `try_fill_bytes`: the error code is `CUSTOM_START`; [inl] is the inner method's own error. *)
Inductive try_error (X : Type) := Inner (e : X) | CustomStart.
Arguments Inner {X}. Arguments CustomStart {X}.
Definition rng_try {S A X} (f : S -> (X + A) * S) (r : optional_rng S) : (try_error X + A) * optional_rng S :=
  match r with
  | Some s => let '(o, s') := f s in (match o with inl e => inl (Inner e) | inr a => inr a end, Some s')
  | None => (inl CustomStart, None)
  end.

Section C.
Variable K : Fld.
Variable PR : Pairing K.
(** pc/data_structures.rs:176-180 `Randomness::rand` with kzg10.rs:115: hb + 1 >= 1 coefficients are drawn, so an empty
    `OptionalRng` panics. The coefficients the generator would give are the list inside. *)
Definition rand_poly (hb : nat) (r : optional_rng (list K)) : res (list K) :=
  rbind (rng_draw (fun l => (firstn (S hb) l, skipn (S hb) l)) r) (fun '(l, _) => Ok (ptrim K l)).
(** kzg10.rs:100-123 `commit` with its argument `rng`: absent, or an `OptionalRng`. *)
Definition kzg_commit_rng (pw : powers K PR) (p : list K) (hiding : option nat) (rng : option (optional_rng (list K))) : res (G1 PR * list K) :=
  rbind (degree K p) (fun d => rbind (check_degree d (pow_degree K PR pw)) (fun _ =>
  rbind (msm_from K PR (pg K PR pw) p) (fun comm =>
  match hiding with
  | None => Ok (comm, [])
  | Some hb =>
      match rng with
      | None => Err MissingRng
      | Some r => rbind (check_hiding hb (length (pg K PR pw))) (fun _ =>
          rbind (rand_poly hb r) (fun l => Ok (gadd comm (msm (pgam K PR pw) l), l)))
      end
  end))).
(** pc/mod.rs:39-71 `commit`: the wrapper is always passed on as `Some` (lines 48, 55); one step of the loop, then the loop. With a
    generator, each polynomial comes with what it draws for each of its two commitments; [on] says whether there is one. *)
Definition wrap (on : bool) (d : list K) : option (optional_rng (list K)) := Some (if on then rng_from d else None).
Definition commit_one_rng (on : bool) (ck : ckey K PR) (p : lpoly K) (d1 d2 : list K) : res (lcomm K PR * randomness K) :=
  rbind (kzg_commit_rng (ck_pw K PR ck) (lp_poly K p) (lp_hb K p) (wrap on d1)) (fun '(c, r) =>
  match lp_db K p with
  | None => Ok (mkLC K PR (lp_label K p) (mkCm K PR c None) None, mkRn K r None)
  | Some b =>
      match shifted_powers K PR ck b with
      | None => Err DegreeOutOfBound
      | Some spw => rbind (kzg_commit_rng spw (lp_poly K p) (lp_hb K p) (wrap on d2)) (fun '(sc, sr) =>
          Ok (mkLC K PR (lp_label K p) (mkCm K PR c (Some sc)) (Some b), mkRn K r (Some sr)))
      end
  end).
Fixpoint pc_commit_rng (on : bool) (ck : ckey K PR) (polys : list (lpoly K * (list K * list K))) : res (list (lcomm K PR) * list (randomness K)) :=
  match polys with
  | [] => Ok ([], [])
  | (p, (d1, d2)) :: rest => rbind (commit_one_rng on ck p d1 d2) (fun '(c, r) =>
      rbind (pc_commit_rng on ck rest) (fun '(cs, rs) => Ok (c :: cs, r :: rs)))
  end.
End C.
