(** Vocabulary for spartan's R1CS instances. *)
From Verif Require Import Field Poly Module ModelLC SpecLC ModelCS SpecMle ModelSigma ModelSpartan.
From Coq Require Import List.
Local Open Scope fld_scope.
Section S.
Variable K : Fld.
(** The value of a row of terms under an assignment. *)
Definition row_eval (a : var -> K) (l : list (K * var)) : K := fsum (map (fun t => fst t * a (snd t)) l).
(** The assignment given by the values of inputs and auxiliary variables. *)
Definition assign (inputs aux : list K) (v : var) : K := match v with Input i => nth i inputs 0 | Aux i => nth i aux 0 end.
(** The constant is one and every row of the three matrices satisfies (A a)(B a) = C a. *)
Definition inst_sat (a : var -> K) (i : r1cs K) : Prop :=
  a ONE = 1 /\ forall j, row_eval a (nth j (r_a K i) []) * row_eval a (nth j (r_b K i) []) = row_eval a (nth j (r_c K i) []).
(** Terms mention only the first [ni] inputs and [na] auxiliary variables. *)
Definition in_range (ni na : nat) (m : list (list (K * var))) : Prop :=
  Forall (Forall (fun t => match snd t with Input i => i < ni | Aux i => i < na end)%nat) m.
(** What `generate_r1cs` returns for circuits that use only variables they allocated. *)
Definition wf_inst (i : r1cs K) : Prop :=
  (0 < r_inputs K i)%nat /\ (exists k, r_cons K i = 2 ^ k)%nat /\
  (length (r_a K i) = r_cons K i /\ length (r_b K i) = r_cons K i /\ length (r_c K i) = r_cons K i) /\
  (in_range (r_inputs K i) (r_aux K i) (r_a K i) /\ in_range (r_inputs K i) (r_aux K i) (r_b K i) /\ in_range (r_inputs K i) (r_aux K i) (r_c K i)).
(** Auxiliary variables come first in z, inputs from position [off] on. *)
Definition column (off : nat) (v : var) : nat := match v with Aux i => i | Input i => (off + i)%nat end.
(** The entry of the matrix as a table: duplicate terms add up. *)
Definition entry (off : nat) (m : list (list (K * var))) (row col : nat) : K :=
  fsum (map fst (filter (fun t => Nat.eqb (column off (snd t)) col) (nth row m []))).
(** The table row by row, [cols] entries each. *)
Definition table (off : nat) (m : list (list (K * var))) (rows cols : nat) : list K :=
  map (fun i => entry off m (i / cols) (i mod cols)) (seq 0 (rows * cols)).
(** The sum of the listed values at a position. *)
Fixpoint listed (vals : list K) (rows cols : list nat) (row col : nat) : K :=
  match vals, rows, cols with
  | v :: vals, r :: rows, c :: cols => (if Nat.eqb r row && Nat.eqb c col then v else 0) + listed vals rows cols row col
  | _, _, _ => 0
  end.
(** Positions in row-major order, each strictly after its predecessor. *)
Definition after (p q : nat * nat) : Prop := (fst p < fst q \/ fst p = fst q /\ snd p < snd q)%nat.
(** What `R1CSSatisfiedParameters::new` guarantees: the commitment key for scalars is shared, the blinding generators agree, and there are enough generators for the rows of the witness. *)
Definition setup_for (G : Grp K) (p : satp K G) (i : r1cs K) : Prop :=
  let k := log2c (half_len K i) in
  sp_1 K G p = pc_gen_1 K G (sp_pc K G p) /\ mc_gens K G (pc_gen_1 K G (sp_pc K G p)) <> [] /\
  mc_h K G (pc_gen_n K G (sp_pc K G p)) = mc_h K G (pc_gen_1 K G (sp_pc K G p)) /\ (2 ^ (k - k / 2) <= length (mc_gens K G (pc_gen_n K G (sp_pc K G p))))%nat.
(** The prover draws as many random values as it has rounds: four or three per round polynomial. *)
Definition enough_rand (i : r1cs K) (sr : srand K) : Prop :=
  ((rounds_x K i <= length (sr_one K sr))%nat /\ Forall (fun rr => length (rr_d K rr) = 4%nat) (sr_one K sr)) /\
  ((rounds_y K i <= length (sr_two K sr))%nat /\ Forall (fun rr => length (rr_d K rr) = 3%nat) (sr_two K sr)).
(** The public part of z: the inputs with their leading one, padded with zeros. *)
Definition public (i : r1cs K) (inputs : list K) : list K := inputs ++ repeat 0 (half_len K i - length inputs).
(** The multilinear extension of a matrix of the instance. *)
Definition mat_mle (i : r1cs K) (m : matrix K) (rx ry : list K) : K := mle (table (half_len K i) m (r_cons K i) (2 * half_len K i)) (rx ++ ry).
End S.
Arguments setup_for {K}. Arguments enough_rand {K}. Arguments public {K}.
Arguments row_eval {K}. Arguments assign {K}. Arguments inst_sat {K}. Arguments in_range {K}. Arguments wf_inst {K}. Arguments entry {K}. Arguments table {K}. Arguments listed {K}.
