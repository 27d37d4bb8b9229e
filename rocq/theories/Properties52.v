(** C127: commitments without a random generator. *)
From Verif Require Import Zp ModelOptRng ProofsOptRng ExMarlin.
From Verif Require Import ModelPC ModelMarlin.
Local Open Scope fld_scope.

Theorem C127_optional_rng : forall (S A : Type) (f : S -> A * S), rng_draw f None = Panic /\ forall s, rng_draw f (rng_from s) = Ok (fst (f s), Some (snd (f s))).
Proof. exact (fun S A f => conj (draw_none f) (draw_some f)). Qed.
Print Assumptions C127_optional_rng.
Theorem C127_try_fill : forall (S A X : Type) (f : S -> (X + A) * S) r, (fst (rng_try f r) = inl CustomStart <-> r = None) /\
  forall s, r = Some s -> rng_try f r = (match fst (f s) with inl e => inl (Inner e) | inr a => inr a end, Some (snd (f s))).
Proof. exact @try_never_panics. Qed.
Print Assumptions C127_try_fill.
(** With a generator this is the commitment of the other claims. *)
Theorem C127_with_generator : forall (K : Fld) (PR : Pairing K) ck polys, pc_commit_rng K PR true ck polys = pc_commit K PR ck polys.
Proof. exact commit_on. Qed.
Print Assumptions C127_with_generator.
(** Without one and without hiding bounds, as `index` calls it, it is the same whatever would be drawn. *)
Theorem C127_without_hiding : forall (K : Fld) (PR : Pairing K) ck polys, Forall (fun x => lp_hb K (fst x) = None) polys ->
  forall draws, pc_commit_rng K PR false ck polys = pc_commit K PR ck (map (fun x => (fst x, draws (fst x))) polys).
Proof. exact commit_off_plain. Qed.
Print Assumptions C127_without_hiding.
Theorem C127_success_means_no_hiding : forall (K : Fld) (PR : Pairing K) ck polys o, pc_commit_rng K PR false ck polys = Ok o -> Forall (fun x => lp_hb K (fst x) = None) polys.
Proof. exact commit_off_ok. Qed.
Print Assumptions C127_success_means_no_hiding.
(** Finding: the declared error MissingRng is never returned; the first hiding polynomial that could be committed to panics. *)
Theorem C127_never_missing_rng : forall (K : Fld) (PR : Pairing K) on ck polys, pc_commit_rng K PR on ck polys <> Err MissingRng.
Proof. exact commit_never_missing. Qed.
Print Assumptions C127_never_missing_rng.
Theorem C127_hiding_panics : forall (K : Fld) (PR : Pairing K) ck pre p d post o d' o', Forall (fun x => lp_hb K (fst x) = None) pre -> pc_commit_rng K PR false ck pre = Ok o ->
  lp_hb K p <> None -> kzg_commit K PR (ck_pw K PR ck) (lp_poly K p) (lp_hb K p) d' = Ok o' -> pc_commit_rng K PR false ck (pre ++ (p, d) :: post) = Panic.
Proof. exact commit_off_panics. Qed.
Print Assumptions C127_hiding_panics.
Theorem C127_kzg_missing_rng : forall (K : Fld) (PR : Pairing K) pw p hb d' o, kzg_commit K PR pw p (Some hb) d' = Ok o -> kzg_commit_rng K PR pw p (Some hb) None = Err MissingRng.
Proof. exact kzg_missing. Qed.
Print Assumptions C127_kzg_missing_rng.

Definition ck97 : ckey F97 P97 := mkCK F97 P97 (mkPow F97 P97 (map z97 [2; 26; 47]%Z) (map z97 [3; 39; 22]%Z)) 2.
Definition plain97 : lpoly F97 := mkLP F97 "f" [z97 5; z97 6] None None.
Definition hiding97 : lpoly F97 := mkLP F97 "g" [z97 7; z97 8; z97 9] None (Some 1%nat).
Definition dr97 : list F97 := map z97 [10; 11; 12]%Z.
(** A plain and a hiding polynomial: both can be committed to with a generator, the first also without, the two together panic. *)
Example ex_C127 : match pc_commit F97 P97 ck97 [(plain97, (dr97, [])); (hiding97, (dr97, []))] with Ok _ => True | _ => False end /\
  match pc_commit_rng F97 P97 false ck97 [(plain97, (dr97, []))] with Ok _ => True | _ => False end /\
  match kzg_commit F97 P97 (ck_pw F97 P97 ck97) (lp_poly F97 hiding97) (lp_hb F97 hiding97) dr97 with Ok _ => True | _ => False end /\
  match pc_commit_rng F97 P97 false ck97 [(plain97, (dr97, [])); (hiding97, (dr97, []))] with Panic => True | _ => False end.
Proof. repeat split; vm_compute; exact I. Qed.
Example ex_C127_rng : rng_draw (fun n : nat => (n, S n)) (rng_from 3%nat) = Ok (3%nat, Some 4%nat) /\ fst (rng_try (fun n : nat => (inl n : nat + unit, S n)) (Some 3%nat)) = inl (Inner 3%nat).
Proof. split; reflexivity. Qed.
