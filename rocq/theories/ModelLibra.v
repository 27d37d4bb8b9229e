(** Model of libra: layered circuits and the plain (not zero-knowledge) linear GKR protocol. No proofs.
    `Transcript` is the list of absorbed messages (ModelTranscript.v); a `DensePolynomial` is its coefficient list. *)
From Verif Require Export ModelTranscript ModelPC ModelMle.
From Coq Require Export List.
Local Open Scope string_scope.
Local Open Scope list_scope.
Local Open Scope fld_scope.

(** libra/src/circuit.rs:15-20 `Gate`: the u8 operator and the usize indices are naturals. *)
Record gate := mkGate { gt_g : nat; gt_op : nat; gt_l : nat; gt_r : nat }.
(** libra/src/circuit.rs:33-37 `Layer`. *)
Record layer := mkLayer { l_count : nat; l_bits : nat; l_gates : list gate }.
(** libra/src/circuit.rs:111-114 `Circuit`. *)
Record circuit := mkCirc { c_depth : nat; c_layers : list layer }.
(** libra/src/circuit.rs:40-53 `Layer::input_new`. ark_std's `log2` rounds up. *)
Definition input_new (num_input num_aux : nat) : layer :=
  let gates_num := (next_pow2 (Nat.max num_aux num_input) * 2)%nat in
  let gates := map (fun g => mkGate g 3 0 0) (seq 0 gates_num) in
  mkLayer (length gates) (Nat.log2_up gates_num) gates.
(** libra/src/circuit.rs:59-69, the loop of `mid_layer_new` from gate number g on; both error variants are [OtherError]. *)
Fixpoint mid_gates (next g : nat) (raw : list (nat * nat * nat)) : res (list gate) :=
  match raw with
  | [] => Ok []
  | (op, lf, rt) :: raw =>
      if negb (Nat.eqb op 0) && negb (Nat.eqb op 1) then Err OtherError
      else if Nat.leb next lf || Nat.leb next rt then Err OtherError
      else rmap (cons (mkGate g op lf rt)) (mid_gates next (S g) raw)
  end.
(** libra/src/circuit.rs:55-80 `Layer::mid_layer_new`. *)
Definition mid_layer_new (raw : list (nat * nat * nat)) (next : nat) : res layer :=
  rmap (fun gates => mkLayer (length gates) (Nat.log2_up (next_pow2 (length gates))) gates) (mid_gates next 0 raw).
(** libra/src/circuit.rs:130-135, the loop of `Circuit::new`; `unwrap` panics on an error. *)
Fixpoint mid_layers (next : nat) (raw : list (list (nat * nat * nat))) : res (list layer) :=
  match raw with
  | [] => Ok []
  | r :: raw => match mid_layer_new r next with Ok l => rmap (cons l) (mid_layers (l_count l) raw) | _ => Panic end
  end.
(** libra/src/circuit.rs:117-138 `Circuit::new`. *)
Definition circuit_new (num_inputs num_aux : nat) (raw : list (list (nat * nat * nat))) : res circuit :=
  let l0 := input_new num_inputs num_aux in
  rmap (fun ls => mkCirc (S (length ls)) (l0 :: ls)) (mid_layers (l_count l0) raw).

Section Libra.
Variable K : Fld.
Variable G : Type.
Variable ch : oracle K G.
Notation tr := (transcript K G).
(** Vector indexing in Rust: out of range panics. *)
Definition kget (l : list K) (i : nat) : res K := match nth_error l i with Some x => Ok x | None => Panic end.
Definition lget (c : circuit) (i : nat) : res layer := match nth_error (c_layers c) i with Some x => Ok x | None => Panic end.
Definition vget (l : list (list K)) (i : nat) : res (list K) := match nth_error l i with Some x => Ok x | None => Panic end.
(** `v[i] += x`. *)
Definition add_at (v : list K) (i : nat) (x : K) : res (list K) :=
  match nth_error v i with Some y => Ok (firstn i v ++ (y + x) :: skipn (S i) v) | None => Panic end.
(** `transcript.challenge_bytes(label)` then `random_bytes_to_fr` (libra/src/evaluate.rs:121-128). *)
Definition draw (l : string) (t : tr) : K * tr := (ch l t, MCh l :: t).
(** As many challenges in a row (libra/src/evaluate.rs:23-29). *)
Fixpoint draws (l : string) (n : nat) (t : tr) : list K * tr :=
  match n with O => ([], t) | S n => let '(x, t) := draw l t in let '(xs, t) := draws l n t in (x :: xs, t) end.

(** libra/src/circuit.rs:149-156: the values of layer 0. A layer of zero bits cannot come from `Circuit::new`; `0 - 1` panics. *)
Definition input_values (bits : nat) (inputs aux : list K) : res (list K) :=
  match bits with
  | O => Panic
  | S b => let input_size := (2 ^ b)%nat in
      if negb (Nat.leb (length inputs) input_size) then Panic else if negb (Nat.leb (length aux) input_size) then Panic
      else Ok (aux ++ repeat 0 (input_size - length inputs) ++ inputs ++ repeat 0 (input_size - length aux))
  end.
(** libra/src/circuit.rs:159-178: the values of one gate and of a layer, from the values of the layer below. *)
Definition gate_value (prev : list K) (g : gate) : res K :=
  if Nat.leb (length prev) (gt_l g) || Nat.leb (length prev) (gt_r g) then Err OtherError
  else if Nat.eqb (gt_op g) 0 then Ok (nth (gt_l g) prev 0 + nth (gt_r g) prev 0)
  else if Nat.eqb (gt_op g) 1 then Ok (nth (gt_l g) prev 0 * nth (gt_r g) prev 0) else Err OtherError.
Fixpoint gate_values (prev : list K) (gs : list gate) : res (list K) :=
  match gs with [] => Ok [] | g :: gs => rbind (gate_value prev g) (fun v => rmap (cons v) (gate_values prev gs)) end.
Fixpoint layer_values (prev : list K) (ls : list layer) : res (list (list K)) :=
  match ls with [] => Ok [] | l :: ls => rbind (gate_values prev (l_gates l)) (fun v => rmap (cons v) (layer_values v ls)) end.
(** libra/src/circuit.rs:140-185 `Circuit::evaluate`, with the final `assert_eq!(evals.len(), self.depth)`. *)
Definition evaluate (c : circuit) (inputs aux : list K) : res (list (list K)) :=
  rbind (match c_layers c with [] => Ok [] | l0 :: ls => rbind (input_values (l_bits l0) inputs aux) (fun v => rmap (cons v) (layer_values v ls)) end)
    (fun evals => if Nat.eqb (length evals) (c_depth c) then Ok evals else Panic).

(** libra/src/evaluate.rs:11-33 `eval_output`: the padding length underflows, hence panics, when there are too many outputs. *)
Definition eval_output (output : list K) (bits : nat) (t : tr) : res (K * list K * tr) :=
  if negb (Nat.leb (length output) (2 ^ bits)) then Panic else
  let outputs := (output ++ repeat 0 (2 ^ bits - length output))%list in
  let '(rs, t) := draws "challenge_nextround" bits t in
  rmap (fun v => (v, rs, t)) (eval_value K outputs rs).

(** libra/src/evaluate.rs:88-97, one gate of `eval_hg`. *)
Definition hg_gate (eg v : list K) (acc : list K * list K * list K) (g : gate) : res (list K * list K * list K) :=
  let '(m, a1, a2) := acc in
  if Nat.eqb (gt_op g) 1 then rbind (kget eg (gt_g g)) (fun e => rbind (kget v (gt_r g)) (fun y => rmap (fun m => (m, a1, a2)) (add_at m (gt_l g) (e * y))))
  else if Nat.eqb (gt_op g) 0 then rbind (kget eg (gt_g g)) (fun e => rbind (add_at a1 (gt_l g) e) (fun a1 => rbind (kget v (gt_r g)) (fun y => rmap (fun a2 => (m, a1, a2)) (add_at a2 (gt_l g) (e * y)))))
  else Ok acc.
Fixpoint foldr {A B} (f : A -> B -> res A) (a : A) (l : list B) : res A :=
  match l with [] => Ok a | x :: l => rbind (f a x) (fun a => foldr f a l) end.
(** libra/src/evaluate.rs:79-99 `eval_hg`. *)
Definition eval_hg (eg v : list K) (gates : list gate) (bits : nat) : res (list K * list K * list K) :=
  let z := repeat (0 : K) (2 ^ bits) in foldr (hg_gate eg v) (z, z, z) gates.
(** libra/src/evaluate.rs:101-119 `eval_fgu`. *)
Definition fgu_gate (eg ru : list K) (acc : list K * list K) (g : gate) : res (list K * list K) :=
  let '(m, a) := acc in
  if Nat.eqb (gt_op g) 1 then rbind (kget eg (gt_g g)) (fun e => rbind (kget ru (gt_l g)) (fun x => rmap (fun m => (m, a)) (add_at m (gt_r g) (e * x))))
  else if Nat.eqb (gt_op g) 0 then rbind (kget eg (gt_g g)) (fun e => rbind (kget ru (gt_l g)) (fun x => rmap (fun a => (m, a)) (add_at a (gt_r g) (e * x))))
  else Ok acc.
Definition eval_fgu (eg ru : list K) (gates : list gate) (bits : nat) : res (list K * list K) :=
  let z := repeat (0 : K) (2 ^ bits) in foldr (fgu_gate eg ru) (z, z) gates.
(** libra/src/libra_linear_gkr.rs:213-215 (and 238-240): alpha eq(gu, .) + beta eq(gv, .); `gu` and `gv` always have equal length,
    the shorter table would panic. *)
Definition evals_g (gu gv : list K) (alpha beta : K) : res (list K) :=
  let a := eval_eq K gu in let b := eval_eq K gv in
  if Nat.leb (length a) (length b) then Ok (map (fun i => alpha * nth i a 0 + beta * nth i b 0) (seq 0 (length a))) else Panic.
(** libra/src/libra_linear_gkr.rs:201-220 `initialize_phase_one`. *)
Definition initialize_phase_one (gu gv : list K) (gates : list gate) (v : list K) (bits : nat) (alpha beta : K) : res (list K * list K * list K) :=
  rbind (evals_g gu gv alpha beta) (fun eg => eval_hg eg v gates bits).
(** libra/src/libra_linear_gkr.rs:222-244 `initialize_phase_two`. *)
Definition initialize_phase_two (gu gv ru : list K) (gates : list gate) (v : list K) (bits : nat) (alpha beta : K) : res (list K * list K * K) :=
  let er := eval_eq K ru in
  if negb (Nat.eqb (length v) (length er)) then Panic else
  rbind (evals_g gu gv alpha beta) (fun eg => rmap (fun '(m, a) => (m, a, dot v er)) (eval_fgu eg er gates bits)).

(** libra/src/sumcheck.rs:15-18 `SumCheckProof`. *)
Record sc_proof := mkSC { s_polys : list (list K); s_vals : list K }.
(** libra/src/libra_linear_gkr.rs:12-15 `LayerProof`. *)
Record layer_proof := mkLP { lp_one : sc_proof; lp_two : sc_proof }.
(** The tables' entries at index j. *)
Definition at_j (ts : list (list K)) (j : nat) : list K := map (fun v => nth j v 0) ts.
(** `combine_with_r` applied to each table; all panic under the same condition once their lengths agree. *)
Fixpoint combine_all (ts : list (list K)) (r : K) : res (list (list K)) :=
  match ts with [] => Ok [] | v :: ts => rbind (combine_with_r K v r) (fun v => rmap (cons v) (combine_all ts r)) end.
(** libra/src/sumcheck.rs:65-72 (144-149): the quadratic through three values; `fr_two.inverse().unwrap()` panics if 2 = 0. *)
Definition quad_poly (eval_0 eval_1 eval_2 : K) : res (list K) :=
  let two := (1 + 1 : K) in if feqb two 0 then Panic else
  let a := (eval_0 - (eval_1 + eval_1) + eval_2) * finv two in let c := eval_0 in let b := eval_1 - a - c in
  Ok (ptrim K [c; b; a]).
(** The rounds of libra/src/sumcheck.rs:42-87 and 118-162, for the summand [T] of the tables' entries: n rounds remain and every
    table has 2^n entries (asserted on entry). The two loops differ only in the tables and in the summand. *)
Fixpoint sc_rounds (T : list K -> K) (n : nat) (ts : list (list K)) (claim : K) (t : tr) : res (list (list K) * list K * list (list K) * tr) :=
  match n with
  | O => Ok ([], [], ts, t)
  | S n =>
      let size := (2 ^ n)%nat in
      let eval_0 := fsum (map (fun j => T (at_j ts j)) (seq 0 size)) in
      let eval_1 := claim - eval_0 in
      rbind (combine_all ts (1 + 1)) (fun tmp =>
      let eval_2 := fsum (map (fun j => T (at_j tmp j)) (seq 0 size)) in
      rbind (quad_poly eval_0 eval_1 eval_2) (fun poly =>
      let t := MFs "poly" poly :: t in
      let '(r, t) := draw "challenge_nextround" t in
      rbind (combine_all ts r) (fun ts =>
      rbind (sc_rounds T n ts (peval poly r) t) (fun '(polys, rs, ts, t) => Ok (poly :: polys, r :: rs, ts, t)))))
  end.
Definition term_one (x : list K) : K := nth 0 x 0 * nth 1 x 0 + nth 0 x 0 * nth 2 x 0 + nth 3 x 0.
Definition term_two (fu : K) (x : list K) : K := nth 1 x 0 * nth 0 x 0 * fu + nth 2 x 0 * fu + nth 2 x 0 * nth 0 x 0.
(** libra/src/sumcheck.rs:21-97 `phase_one_prover`: tables f, mul, add1, add2. *)
Definition phase_one_prover (f : list K) (g : list K * list K * list K) (bits : nat) (claim : K) (t : tr) : res (sc_proof * list K * tr) :=
  let '(m, a1, a2) := g in let size := length f in
  if negb (Nat.eqb size (length m) && Nat.eqb size (length a1) && Nat.eqb size (length a2) && Nat.eqb size (2 ^ bits)) then Panic else
  rbind (sc_rounds term_one bits [f; m; a1; a2] claim t) (fun '(polys, rs, ts, t) =>
  let vals := at_j ts 0 in Ok (mkSC polys vals, rs, MFs "claim_final" vals :: t)).
(** libra/src/sumcheck.rs:99-173 `phase_two_prover`: tables f, mul, add and the constant fu. *)
Definition phase_two_prover (f : list K) (g : list K * list K * K) (bits : nat) (claim : K) (t : tr) : res (sc_proof * list K * tr) :=
  let '(m, a, fu) := g in let size := length f in
  if negb (Nat.eqb size (length m) && Nat.eqb size (length a) && Nat.eqb size (2 ^ bits)) then Panic else
  rbind (sc_rounds (term_two fu) bits [f; m; a] claim t) (fun '(polys, rs, ts, t) =>
  let vals := at_j ts 0 in Ok (mkSC polys vals, rs, MFs "claim_final" vals :: t)).

(** libra/src/libra_linear_gkr.rs:51-110, the prover's loop, d counting down to 1. *)
Fixpoint prove_layers (c : circuit) (evals : list (list K)) (d : nat) (alpha beta : K) (gu gv : list K) (result_u result_v : K) (t : tr) : res (list layer_proof) :=
  match d with
  | O => Ok []
  | S d' =>
      let claim := alpha * result_u + beta * result_v in
      rbind (lget c d') (fun lo => rbind (lget c d) (fun hi => rbind (vget evals d') (fun v =>
      let bits := l_bits lo in
      rbind (initialize_phase_one gu gv (l_gates hi) v bits alpha beta) (fun g1 =>
      rbind (phase_one_prover v g1 bits claim t) (fun '(p1, ru, t) =>
      let claim := term_one (s_vals p1) in
      rbind (initialize_phase_two gu gv ru (l_gates hi) v bits alpha beta) (fun g2 =>
      rbind (phase_two_prover v g2 bits claim t) (fun '(p2, rv, t) =>
      rmap (cons (mkLP p1 p2))
        (match d' with
         | O => Ok []
         | S _ => let '(al, t) := draw "challenge_alpha" t in let '(be, t) := draw "challenge_beta" t in
             prove_layers c evals d' al be ru rv (snd g2) (nth 0 (s_vals p2) 0) t
         end))))))))
  end.
(** libra/src/libra_linear_gkr.rs:28-36: the messages absorbed first. *)
Definition gkr_init (hash : K) (inputs outputs : list K) : tr := [MFs "output" outputs; MFs "input" inputs; MF "circuit_to_hash" hash].
(** libra/src/libra_linear_gkr.rs:22-114 `LinearGKRProof::prover`; `evaluate(..).unwrap()` panics on an error, and no layer at all
    underflows an index. *)
Definition gkr_prove (c : circuit) (inputs witnesses : list K) (hash : K) : res (list layer_proof * list K) :=
  match evaluate c inputs witnesses with
  | Ok evals =>
      match c_depth c with
      | O => Panic
      | S d =>
          rbind (vget evals d) (fun out => rbind (vget evals 0) (fun inp => rbind (lget c d) (fun top =>
          rbind (eval_output out (l_bits top) (gkr_init hash inp out)) (fun '(ru, gu, t) =>
          rmap (fun pf => (pf, out)) (prove_layers c evals d 1 0 gu (repeat 0 (length gu)) ru 0 t)))))
      end
  | _ => Panic
  end.

(** libra/src/libra_linear_gkr.rs:143-155 and 162-174: the rounds the verifier checks; a failing `assert_eq!` and a missing
    polynomial panic, further polynomials are ignored. *)
Fixpoint sc_check (n : nat) (polys : list (list K)) (claim : K) (t : tr) : res (list K * K * tr) :=
  match n, polys with
  | O, _ => Ok ([], claim, t)
  | S _, [] => Panic
  | S n, p :: polys =>
      if negb (feqb (peval p 0 + peval p 1) claim) then Panic else
      let '(r, t) := draw "challenge_nextround" (MFs "poly" p :: t) in
      rbind (sc_check n polys (peval p r) t) (fun '(rs, cl, t) => Ok (r :: rs, cl, t))
  end.
(** libra/src/libra_linear_gkr.rs:136-194, the verifier's loop over the layer proofs; [d] is `circuit.depth - 1 - d` of the code, the
    index of the upper layer, which equals the number of proofs left (line 135). Returns the two points and the two claimed values of the
    last round; before any round they are empty and zero. *)
Fixpoint verify_layers (c : circuit) (pfs : list layer_proof) (d : nat) (alpha beta result_u result_v : K) (t : tr) : res (list K * list K * K * K) :=
  match pfs, d with
  | [], _ => Ok ([], [], 0, 0)
  | _ :: _, O => Panic
  | pf :: pfs, S d' =>
      let claim := alpha * result_u + beta * result_v in
      rbind (lget c d') (fun lo => let bits := l_bits lo in
      rbind (sc_check bits (s_polys (lp_one pf)) claim t) (fun '(ru, claim, t) =>
      let eu := s_vals (lp_one pf) in let t := MFs "claim_final" eu :: t in
      if negb (Nat.leb 4 (length eu)) then Panic else
      if negb (feqb claim (nth 0 eu 0 * nth 1 eu 0 + nth 0 eu 0 * nth 2 eu 0 + nth 3 eu 0)) then Panic else
      rbind (sc_check bits (s_polys (lp_two pf)) claim t) (fun '(rv, claim, t) =>
      let ev := s_vals (lp_two pf) in let t := MFs "claim_final" ev :: t in
      if negb (Nat.leb 3 (length ev)) then Panic else
      if negb (feqb claim (nth 1 ev 0 * nth 0 ev 0 * nth 0 eu 0 + nth 2 ev 0 * nth 0 eu 0 + nth 2 ev 0 * nth 0 ev 0)) then Panic else
      match d' with
      | O => Ok (ru, rv, nth 0 eu 0, nth 0 ev 0)
      | S _ => let '(al, t) := draw "challenge_alpha" t in let '(be, t) := draw "challenge_beta" t in
          verify_layers c pfs d' al be (nth 0 eu 0) (nth 0 ev 0) t
      end)))
  end.
(** libra/src/libra_linear_gkr.rs:116-198 `LinearGKRProof::verify`. *)
Definition gkr_verify (c : circuit) (outputs inputs : list K) (hash : K) (pfs : list layer_proof) : res bool :=
  match c_depth c with
  | O => Panic
  | S d =>
      rbind (lget c d) (fun top => rbind (eval_output outputs (l_bits top) (gkr_init hash inputs outputs)) (fun '(result_u, _, t) =>
      if negb (Nat.eqb d (length pfs)) then Panic else
      rbind (verify_layers c pfs d 1 0 result_u 0 t) (fun '(ru, rv, x, y) =>
      rbind (eval_value K inputs ru) (fun u => rbind (eval_value K inputs rv) (fun v => Ok (feqb x u && feqb y v))))))
  end.
End Libra.
