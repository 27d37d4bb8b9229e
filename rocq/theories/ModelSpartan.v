(** Model of spartan's R1CS instances and of its NIZK: r1cs.rs, polynomial.rs, prover.rs and verify.rs. No proofs.
    `Transcript` is the list of absorbed messages (ModelTranscript.v), its initial label is left out; every value drawn from the random
    generator is an argument; `to_bytes!` does not fail; usize subtractions that would underflow panic. *)
From Verif Require Export Field Poly Module ModelTranscript ModelBulletproofs ModelPC ModelMle ModelLibra ModelLC ModelCS ModelSigma.
Local Open Scope string_scope.
Local Open Scope list_scope.
Local Open Scope fld_scope.
Section S.
Variable K : Fld.

(** The type of `a_matrix` etc.: rows of (coefficient, variable) (spartan/src/r1cs.rs:19-21). *)
Definition matrix := list (list (K * var)).
(** spartan/src/r1cs.rs:15-22 `R1CSInstance`. *)
Record r1cs := mkR { r_inputs : nat; r_aux : nat; r_cons : nat; r_a : matrix; r_b : matrix; r_c : matrix }.
(** spartan/src/r1cs.rs:158-169 `push_constraints`: the terms of the combination in their order. *)
Definition push_constraints (l : lc K) : list (K * var) := map (fun '(v, c) => (c, v)) l.
(** spartan/src/r1cs.rs:171-203 `generate_r1cs`: synthesis without values, then empty constraints up to a power of two. The instance is
    read off the constraint system of ModelCS.v: `alloc` and `alloc_input` only count (r1cs.rs:75-104), `enforce` appends a row to each matrix
    (r1cs.rs:106-135). *)
Definition generate_r1cs (circuit : M K unit) : res r1cs :=
  rbind (circuit (cs_new Setup)) (fun '(_, s) =>
  let n := length (ModelCS.cons s) in
  let n' := (2 ^ log2c n)%nat in
  let mat (f : constraint K -> lc K) := map (fun c => push_constraints (f c)) (ModelCS.cons s) ++ repeat [] (n' - n) in
  Ok (mkR (length (inps s)) (length (auxs s)) n' (mat ca) (mat cb) (mat cc))).

(** The column of a variable when inputs start at [off] (spartan/src/polynomial.rs:73-76, 94-95, 113-114; r1cs.rs:217-230). *)
Definition col_of (off : nat) (v : var) : nat := match v with Aux i => i | Input i => (i + off)%nat end.
(** spartan/src/polynomial.rs:60-82 `evaluate_mle`. *)
Definition evaluate_mle (m : matrix) (rx ry : list K) : res K :=
  let ex := eval_eq K rx in let ey := eval_eq K ry in
  foldr (fun sum '(row, mv) => foldr (fun sum '(val, col) =>
      rbind (kget K ey (col_of (length ey / 2) col)) (fun y => rmap (fun x => sum + y * x * val) (kget K ex row))) sum mv) 0 (combine (seq 0 (length m)) m).
(** spartan/src/polynomial.rs:84-100 `evaluate_matrix_vec`: row sums; a row's entry is only ever written by that row. *)
Definition evaluate_matrix_vec (m : matrix) (z : list K) : res (list K) :=
  foldr (fun ms mv => rmap (fun s => ms ++ [s]) (foldr (fun s '(val, col) => rmap (fun y => s + val * y) (kget K z (col_of (length z / 2) col))) 0 mv)) [] m.
(** spartan/src/polynomial.rs:102-119 `evaluate_matrix_vec_col`. *)
Definition evaluate_matrix_vec_col (m : matrix) (coeffs : list K) (num_rows : nat) : res (list K) :=
  foldr (fun ms '(row, mv) => foldr (fun ms '(val, col) => rbind (kget K coeffs row) (fun c => add_at K ms (col_of (num_rows / 2) col) (val * c))) ms mv)
    (repeat 0 num_rows) (combine (seq 0 (length m)) m).
(** spartan/src/r1cs.rs:214-231: `BTreeMap` of one row as a list sorted by key; an existing key accumulates. *)
Fixpoint bt_add (col : nat) (val : K) (ms : list (nat * K)) : list (nat * K) :=
  match ms with
  | [] => [(col, val)]
  | (c, v) :: ms' => match Nat.compare col c with Lt => (col, val) :: ms | Eq => (c, v + val) :: ms' | Gt => (c, v) :: bt_add col val ms' end
  end.
(** spartan/src/r1cs.rs:205-241 `switch_matrix_to_list`: returns vals, rows, cols. *)
Definition switch_matrix_to_list (m : matrix) (witness_len : nat) : list K * list nat * list nat :=
  let entries := concat (map (fun '(row, mv) =>
      let ms := fold_left (fun ms '(val, col) => bt_add (col_of witness_len col) val ms) mv [] in
      map (fun '(col, val) => (val, row, col)) (filter (fun '(_, val) => negb (feqb val 0)) ms)) (combine (seq 0 (length m)) m)) in
  (map (fun '(v, _, _) => v) entries, map (fun '(_, r, _) => r) entries, map (fun '(_, _, c) => c) entries).

Variable G : Grp K.
Variable ch : oracle K G.
Notation tr := (transcript K G).
Notation draw := (draw K G ch).
Notation draws := (draws K G ch).
Notation mcp := (mcp K G).
Notation pcp := (pcp K G).
Notation mc_gens := (mc_gens K G).
Notation mc_h := (mc_h K G).
Notation com p x b := (poly_commit_vec K G (mc_gens p) x (mc_h p) b).

(** spartan/src/data_structure.rs:35-46 `R1CSSatisfiedParameters` with its `SumCheckCommitmentParameters`; the field `n` is not read. *)
Record satp := mkSatP { sp_pc : pcp; sp_1 : mcp; sp_3 : mcp; sp_4 : mcp }.
(** spartan/src/data_structure.rs:216-220 `SumCheckProof`. *)
Record scproof := mkScP { scp_polys : list G; scp_evals : list G; scp_proofs : list (seproof K G) }.
(** spartan/src/data_structure.rs:190-201, 265-276 `R1CSSatProof`; the field w_ry is sent in the clear and never read by the verifier. *)
Record satproof := mkSat { sa_witness : list G; sa_one : scproof; sa_two : scproof; sa_wry : K; sa_prod : dproof K G;
  sa_va : G; sa_vb : G; sa_vc : G; sa_vprod : G; sa_know : kproof K G; sa_pprod : pproof K G; sa_eq1 : eproof K G; sa_eq2 : eproof K G; sa_ry : G }.
(** spartan/src/data_structure.rs:177-180 `NIZKProof`. *)
Record nizk := mkNizk { nz_sat : satproof; nz_rx : list K; nz_ry : list K }.

(** The random values of one sum-check round (spartan/src/prover.rs:447-450, 610-613, 789-800). *)
Record rrand := mkRR { rr_poly : K; rr_eval : K; rr_d : list K; rr_delta : K; rr_beta : K }.
(** spartan/src/prover.rs:499-516: the cubic through the values at 0, 1, 2, 3. *)
Definition cubic_poly (e0 e1 e2 e3 : K) : res (list K) :=
  let two := (1 + 1 : K) in let six := two * (two + 1) in
  if feqb six 0 then Panic else if feqb two 0 then Panic else
  let a := (- e0 + (e1 + e1) + e1 - (e2 + e2) - e2 + e3) * finv six in
  let b := ((e0 + e0) - (e1 + e1 + (e1 + e1)) - e1 + (e2 + e2 + (e2 + e2)) - e3) * finv two in
  let c := e1 - e0 - a - b in
  Ok (ptrim K [e0; c; b; a]).
Definition at_sum (T : list K -> K) (ts : list (list K)) (size : nat) : K := fsum (map (fun j => T (at_j K ts j)) (seq 0 size)).
(** spartan/src/prover.rs:473-516: the polynomial of a round of phase one. *)
Definition round_cubic (T : list K -> K) (size : nat) (ts : list (list K)) (claim : K) : res (list K) :=
  let e0 := at_sum T ts size in
  let e1 := claim - e0 in
  rbind (combine_all K ts (1 + 1)) (fun ts2 =>
  rbind (combine_all K ts (1 + 1 + 1)) (fun ts3 => cubic_poly e0 e1 (at_sum T ts2 size) (at_sum T ts3 size))).
(** spartan/src/prover.rs:634-655: the polynomial of a round of phase two. *)
Definition round_quad (T : list K -> K) (size : nat) (ts : list (list K)) (claim : K) : res (list K) :=
  let e0 := at_sum T ts size in
  let e1 := claim - e0 in
  rbind (combine_all K ts (1 + 1)) (fun ts2 => quad_poly K e0 e1 (at_sum T ts2 size)).
(** The rounds of spartan/src/prover.rs:473-578 and 634-712. The loops differ in the tables and the round polynomial only: both absorb "comm_poly",
    draw the challenge, absorb the previous commitment and the new one, and run the evaluation proof. n rounds remain, every table has 2^n entries;
    [bclaim] is the blind of the current claim's commitment [ccom]. The blinds of all rounds are drawn before the loop in Rust. *)
Fixpoint zk_rounds (rp : nat -> list (list K) -> K -> res (list K)) (g1 gn : mcp) (size n : nat) (ts : list (list K)) (claim bclaim : K) (ccom : G) (rnds : list rrand) (t : tr)
  : res (scproof * list K * list (list K) * K * tr) :=
  match n, rnds with
  | O, _ => Ok (mkScP [] [] [], [], ts, bclaim, t)
  | S _, [] => Panic
  | S n, rr :: rnds =>
      rbind (rp (2 ^ n)%nat ts claim) (fun poly =>
      let commit_poly := com gn poly (rr_poly rr) in
      let t := MG "comm_poly" commit_poly :: t in
      let '(r, t) := draw "challenge_nextround" t in
      rbind (combine_all K ts r) (fun ts =>
      let t := MG "comm_claim_per_round" ccom :: t in
      let eval := peval poly r in
      let commit_eval := com g1 [eval] (rr_eval rr) in
      let t := MG "comm_eval" commit_eval :: t in
      rbind (sum_check_eval_prover K G ch g1 gn poly commit_poly (rr_poly rr) claim bclaim eval (rr_eval rr) size r (rr_d rr) (rr_delta rr) (rr_beta rr) t) (fun '(pf, t) =>
      rbind (zk_rounds rp g1 gn size n ts eval (rr_eval rr) commit_eval rnds t) (fun '(sc, rs, ts, b, t) =>
      Ok (mkScP (commit_poly :: scp_polys sc) (commit_eval :: scp_evals sc) (pf :: scp_proofs sc), r :: rs, ts, b, t)))))
  end.
(** The summands eq(x) (a(x) b(x) - c(x)) (spartan/src/prover.rs:475-477) and abc(x) z(x) (636). *)
Definition term_r1cs (x : list K) : K := nth 3 x 0 * (nth 0 x 0 * nth 1 x 0 - nth 2 x 0).
Definition term_abc (x : list K) : K := nth 1 x 0 * nth 0 x 0.
(** spartan/src/prover.rs:422-592 `sum_check_proof_phase_one`. *)
Definition sum_check_one (p : satp) (n : nat) (claim : K) (a b c e : list K) (rnds : list rrand) (t : tr) : res (scproof * list K * (K * K * K * K) * K * tr) :=
  if negb (Nat.eqb (length a) (length b) && Nat.eqb (length b) (length c) && Nat.eqb (length c) (length e)) then Panic else
  rbind (zk_rounds (round_cubic term_r1cs) (sp_1 p) (sp_4 p) 4 n [a; b; c; e] claim 0 (com (sp_1 p) [claim] 0) rnds t) (fun '(sc, rx, ts, bl, t) =>
  match ts with [[va]; [vb]; [vc]; [ve]] => Ok (sc, rx, (va, vb, vc, ve), bl, t) | _ => Panic end).
(** spartan/src/prover.rs:594-723 `sum_check_proof_phase_two`; with zero rounds the returned blind would be zero, but there is always a round. *)
Definition sum_check_two (p : satp) (n : nat) (claim bclaim : K) (abc z : list K) (rnds : list rrand) (t : tr) : res (scproof * list K * (K * K) * K * tr) :=
  if negb (Nat.eqb (length abc) (length z)) then Panic else if negb (Nat.eqb (length z) (2 ^ n)) then Panic else
  rbind (zk_rounds (round_quad term_abc) (sp_1 p) (sp_3 p) 3 n [abc; z] claim bclaim (com (sp_1 p) [claim] bclaim) rnds t) (fun '(sc, ry, ts, bl, t) =>
  match ts with [vs :: _; vz :: _] => Ok (sc, ry, (vs, vz), bl, t) | _ => Panic end).

(** The random values of `r1cs_satisfied_prover` outside the sum-check rounds, in the order of their use. *)
Record srand := mkSR { sr_w : nat -> K; sr_one : list rrand; sr_a : K; sr_b : K; sr_c : K; sr_prod : K; sr_k1 : K; sr_k2 : K;
  sr_p1 : K; sr_p2 : K; sr_p3 : K; sr_p4 : K; sr_p5 : K; sr_eq1 : K; sr_two : list rrand; sr_ry : K; sr_d : K; sr_delta : K; sr_beta : K; sr_bv : list (K * K); sr_eq2 : K }.
(** spartan/src/prover.rs:228, 250-253, verify.rs:113-114: the half length t of z and the round numbers. *)
Definition half_len (i : r1cs) : nat := next_pow2 (Nat.max (r_aux i) (r_inputs i)).
Definition rounds_x (i : r1cs) : nat := log2c (r_cons i).
Definition rounds_y (i : r1cs) : nat := (log2c (half_len i) + 1)%nat.
(** `Vec::extend(vec![0; n - len])` (spartan/src/prover.rs:229-234). *)
Definition pad_to (n : nat) (l : list K) : res (list K) := if Nat.ltb n (length l) then Panic else Ok (l ++ repeat 0 (n - length l)).

(** spartan/src/prover.rs:200-420 `r1cs_satisfied_prover`, after synthesis: [ncons] constraints were counted, [inputs] (with the leading one) and [aux] assigned. *)
Definition sat_prove (p : satp) (i : r1cs) (ncons : nat) (inputs aux : list K) (sr : srand) (t : tr) : res (satproof * list K * list K * tr) :=
  if negb (Nat.eqb (r_cons i) (2 ^ log2c ncons)) then Panic else
  let n := half_len i in
  rbind (pad_to n aux) (fun aux =>
  rbind (pad_to n inputs) (fun inputs =>
  let z := aux ++ inputs in
  let t := MFs "r1cs_input" inputs :: t in
  rbind (packing_poly_commit K G (mc_gens (pc_gen_n K G (sp_pc p))) aux (mc_h (pc_gen_n K G (sp_pc p))) (sr_w sr) true) (fun '(commit_witness, blinds) =>
  let t := MGs "poly_commitment" commit_witness :: t in
  let '(tau, t) := draws "challenge_tau" (rounds_x i) t in
  rbind (evaluate_matrix_vec (r_a i) z) (fun ma =>
  rbind (evaluate_matrix_vec (r_b i) z) (fun mb =>
  rbind (evaluate_matrix_vec (r_c i) z) (fun mc =>
  rbind (sum_check_one p (rounds_x i) 0 ma mb mc (eval_eq K tau) (sr_one sr) t) (fun '(one, rx, (va, vb, vc, ve), bl1, t) =>
  let prod := va * vb in
  let '(kpf, vc_commit, t) := knowledge_proof K G ch (sp_1 p) vc (sr_c sr) (sr_k1 sr) (sr_k2 sr) t in
  let '(ppf, va_commit, vb_commit, prod_commit, t) := product_proof K G ch (sp_1 p) va (sr_a sr) vb (sr_b sr) prod (sr_prod sr) (sr_p1 sr) (sr_p2 sr) (sr_p3 sr) (sr_p4 sr) (sr_p5 sr) t in
  let t := MG "comm_prod_Az_Bz_claims" prod_commit :: MG "comm_Cz_claim" vc_commit :: MG "comm_Bz_claim" vb_commit :: MG "comm_Az_claim" va_commit :: t in
  let claim1 := ve * (prod - vc) in
  let '(eq1, t) := eq_proof K G ch (sp_1 p) claim1 (ve * (sr_prod sr - sr_c sr)) claim1 bl1 (sr_eq1 sr) t in
  let '(ra, t) := draw "challenege_Az" t in
  let '(rb, t) := draw "challenege_Bz" t in
  let '(rc, t) := draw "challenege_Cz" t in
  let claim2 := va * ra + vb * rb + vc * rc in
  let bclaim2 := sr_a sr * ra + sr_b sr * rb + sr_c sr * rc in
  let ex := eval_eq K rx in
  rbind (evaluate_matrix_vec_col (r_a i) ex (length z)) (fun ea =>
  rbind (evaluate_matrix_vec_col (r_b i) ex (length z)) (fun eb =>
  rbind (evaluate_matrix_vec_col (r_c i) ex (length z)) (fun ec =>
  let evals := map (fun j => ra * nth j ea 0 + rb * nth j eb 0 + rc * nth j ec 0) (seq 0 (length ea)) in
  rbind (sum_check_two p (rounds_y i) claim2 bclaim2 evals z (sr_two sr) t) (fun '(two, ry, (vs, vz), bl2, t) =>
  match ry with
  | [] => Panic
  | ry0 :: ry' =>
      rbind (eval_value K aux ry') (fun eval_w =>
      rbind (inner_product_proof K G ch (sp_pc p) aux blinds ry' (sr_ry sr) eval_w (sr_d sr) (sr_delta sr) (sr_beta sr) (sr_bv sr) t) (fun '(wpf, commit_ry, t) =>
      let '(eq2, t) := eq_proof K G ch (pc_gen_1 K G (sp_pc p)) (vs * vz) ((1 - ry0) * sr_ry sr * vs) (vs * vz) bl2 (sr_eq2 sr) t in
      Ok (mkSat commit_witness one two eval_w wpf va_commit vb_commit vc_commit prod_commit kpf ppf eq1 eq2 commit_ry, rx, ry, t)))
  end))))))))))).
(** spartan/src/prover.rs:104-134 `create_nizk_proof`: synthesis with values, then the proof; an error of the inner prover is unwrapped. *)
Definition create_nizk_proof (p : satp) (i : r1cs) (circuit : M K unit) (r1cs_hash params_hash : K) (sr : srand) : res nizk :=
  match circuit (cs_new Prove) with
  | Ok (_, s) => rmap (fun '(sp, rx, ry, _) => mkNizk sp rx ry) (sat_prove p i (length (ModelCS.cons s)) (inps s) (auxs s) sr [MF "params_hash" params_hash; MF "r1cs_hash" r1cs_hash])
  | _ => Panic
  end.

(** spartan/src/verify.rs:291-337 `sum_check_verify`: the three vectors are indexed by the round number; a failed round is an error. *)
Fixpoint sc_verify (g1 gn : mcp) (polys evals : list G) (proofs : list (seproof K G)) (ccom : G) (size n : nat) (t : tr) : res (list K * G * tr) :=
  match n with
  | O => Ok ([], ccom, t)
  | S n => match polys, evals, proofs with
      | commit_poly :: polys, commit_eval :: evals, pf :: proofs =>
          let t := MG "comm_poly" commit_poly :: t in
          let '(r, t) := draw "challenge_nextround" t in
          let t := MG "comm_eval" commit_eval :: MG "comm_claim_per_round" ccom :: t in
          rbind (sum_check_eval_verify K G ch g1 gn commit_poly commit_eval ccom pf r size t) (fun '(ok, t) =>
          if negb ok then Err MalformedVerifyingKey else
          rmap (fun '(rs, c, t) => (r :: rs, c, t)) (sc_verify g1 gn polys evals proofs commit_eval size n t))
      | _, _, _ => Panic
      end
  end.
(** spartan/src/verify.rs:103-288 `r1cs_satisfied_verify`. *)
Definition sat_verify (p : satp) (i : r1cs) (inputs : list K) (pf : satproof) (evals : K * K * K) (t : tr) : res (bool * list K * list K * tr) :=
  let '(ea, eb, ec) := evals in
  let n := half_len i in
  if Nat.ltb n (length inputs + 1) then Panic else
  let t := MFs "r1cs_input" (1 :: inputs ++ repeat 0 (n - length inputs - 1)) :: t in
  let t := MGs "poly_commitment" (sa_witness pf) :: t in
  let '(tau, t) := draws "challenge_tau" (rounds_x i) t in
  rbind (sc_verify (sp_1 p) (sp_4 p) (scp_polys (sa_one pf)) (scp_evals (sa_one pf)) (scp_proofs (sa_one pf)) (com (sp_1 p) [0] 0) 4 (rounds_x i) t) (fun '(rx, cx, t) =>
  let '(ok, t) := knowledge_verify K G ch (sp_1 p) (sa_know pf) (sa_vc pf) t in
  if negb ok then Ok (false, [], [], t) else
  rbind (product_verify K G ch (sp_1 p) (sa_pprod pf) (sa_va pf) (sa_vb pf) (sa_vprod pf) t) (fun '(ok, t) =>
  if negb ok then Ok (false, [], [], t) else
  let t := MG "comm_prod_Az_Bz_claims" (sa_vprod pf) :: MG "comm_Cz_claim" (sa_vc pf) :: MG "comm_Bz_claim" (sa_vb pf) :: MG "comm_Az_claim" (sa_va pf) :: t in
  rbind (eval_eq_x_y K rx tau) (fun e =>
  let '(ok, t) := eq_verify K G ch (sp_1 p) (gsm e (gadd (sa_vprod pf) (gopp (sa_vc pf)))) cx (sa_eq1 pf) t in
  if negb ok then Ok (false, [], [], t) else
  let '(ra, t) := draw "challenege_Az" t in
  let '(rb, t) := draw "challenege_Bz" t in
  let '(rc, t) := draw "challenege_Cz" t in
  let claim2 := gadd (gadd (gsm ra (sa_va pf)) (gsm rb (sa_vb pf))) (gsm rc (sa_vc pf)) in
  rbind (sc_verify (sp_1 p) (sp_3 p) (scp_polys (sa_two pf)) (scp_evals (sa_two pf)) (scp_proofs (sa_two pf)) claim2 3 (rounds_y i) t) (fun '(ry, cy, t) =>
  match ry with
  | [] => Panic
  | ry0 :: ry' =>
      rbind (inner_product_verify K G ch (sp_pc p) ry' (sa_witness pf) (sa_ry pf) (sa_prod pf) t) (fun '(ok, t) =>
      if negb ok then Ok (false, [], [], t) else
      if Nat.ltb (2 ^ length ry') (length inputs + 1) then Panic else
      let ei := sparse_evaluate_value K (1 :: inputs ++ repeat 0 (2 ^ length ry' - length inputs - 1)) ry' in
      let cz := gadd (gsm (1 - ry0) (sa_ry pf)) (gsm ry0 (com (pc_gen_1 K G (sp_pc p)) [ei] 0)) in
      let '(ok, t) := eq_verify K G ch (pc_gen_1 K G (sp_pc p)) (gsm (ea * ra + eb * rb + ec * rc) cz) cy (sa_eq2 pf) t in
      if negb ok then Ok (false, [], [], t) else Ok (true, rx, ry, t))
  end)))).
(** spartan/src/verify.rs:25-52 `verify_nizk_proof`: the matrices are evaluated at the point that comes with the proof. *)
Definition verify_nizk_proof (p : satp) (i : r1cs) (inputs : list K) (pf : nizk) (r1cs_hash params_hash : K) : res bool :=
  let t := [MF "params_hash" params_hash; MF "r1cs_hash" r1cs_hash] in
  rbind (evaluate_mle (r_a i) (nz_rx pf) (nz_ry pf)) (fun ea =>
  rbind (evaluate_mle (r_b i) (nz_rx pf) (nz_ry pf)) (fun eb =>
  rbind (evaluate_mle (r_c i) (nz_rx pf) (nz_ry pf)) (fun ec =>
  rmap (fun '(ok, _, _, _) => ok) (sat_verify p i inputs (nz_sat pf) (ea, eb, ec) t)))).
End S.
