(** Model of spartan's sparse matrix encoding and of its memory checking: spark.rs, and the parameters of setup.rs. No proofs.
    Random group elements are arguments; usize and u64 do not overflow; `from_repr` of a u64 does not fail. *)
From Verif Require Export Field Poly Module ModelTranscript ModelBulletproofs ModelPC ModelMle ModelLibra ModelLC ModelCS ModelSigma ModelSpartan.
Local Open Scope string_scope.
Local Open Scope list_scope.
Local Open Scope fld_scope.

(** `collect` over a mapping that may panic. *)
Fixpoint mapr {A B} (f : A -> res B) (l : list A) : res (list B) :=
  match l with [] => Ok [] | x :: l => rbind (f x) (fun y => rmap (List.cons y) (mapr f l)) end.
(** `v[i] = x` after a successful `v[i]`. *)
Fixpoint put {A} (l : list A) (i : nat) (x : A) : list A :=
  match l, i with [], _ => [] | _ :: l, O => x :: l | y :: l, S i => y :: put l i x end.
(** spartan/src/spark.rs:143-150: the accesses of one list; returns the time stamps read and the last time stamps. *)
Fixpoint mem_ops (addrs ts : list nat) : res (list nat * list nat) :=
  match addrs with
  | [] => Ok ([], ts)
  | a :: addrs => match nth_error ts a with
      | None => Panic
      | Some r => rmap (fun '(rs, ts) => (r :: rs, ts)) (mem_ops addrs (put ts a (S r)))
      end
  end.
(** spartan/src/spark.rs:141-163: all lists one after the other. *)
Fixpoint mem_lists (n : nat) (lists : list (list nat)) (ts : list nat) : res (list (list nat) * list nat) :=
  match lists with
  | [] => Ok ([], ts)
  | addrs :: lists => if negb (Nat.eqb (length addrs) n) then Panic else
      rbind (mem_ops addrs ts) (fun '(rs, ts) => rmap (fun '(rss, ts) => (rs :: rss, ts)) (mem_lists n lists ts))
  end.
(** `resize(len.next_power_of_two(), zero)` (spartan/src/spark.rs:66, 79). *)
Definition pad2 {K : Fld} (l : list K) : list K := l ++ repeat 0 (next_pow2 (length l) - length l).

Section S.
Variable K : Fld.
(** spartan/src/data_structure.rs:118-124 `AddrTimestamps`. *)
Record addr_ts := mkTs { at_index : list (list nat); at_addrs : list (list K); at_read : list (list K); at_audit : list K }.
(** spartan/src/spark.rs:132-176 `memory_in_the_head`. *)
Definition memory_in_the_head (lists : list (list nat)) (n m : nat) : res addr_ts :=
  rmap (fun '(rss, ts) => mkTs lists (map (map (of_nat)) lists) (map (map (of_nat)) rss) (map (of_nat) ts)) (mem_lists n lists (repeat 0%nat m)).

(** spartan/src/spark.rs:298-312 `circuit_hash`. *)
Definition circuit_hash (a v t : list K) (gamma : K) : res (list K) :=
  if negb (Nat.eqb (length a) (length v)) then Panic else if negb (Nat.eqb (length a) (length t)) then Panic else
  Ok (map (fun i => nth i a 0 * gamma * gamma + nth i v 0 * gamma + nth i t 0) (seq 0 (length a))).
(** spartan/src/data_structure.rs:294-298 `ProductCircuit`: left_vec and right_vec as one list of pairs. *)
Definition pcircuit := list (list K * list K).
(** spartan/src/spark.rs:322-339: n layers from [l] on; an odd list gets a one. *)
Fixpoint product_layers (n : nat) (l : list K) : pcircuit :=
  match n with
  | O => []
  | S n => let l := if Nat.odd (length l) then l ++ [1] else l in
      let tlen := (length l / 2)%nat in
      let lf := firstn tlen l in let rt := skipn tlen l in
      (lf, rt) :: product_layers n (map (fun j => nth j lf 0 * nth j rt 0) (seq 0 tlen))
  end.
(** spartan/src/spark.rs:314-347 `construct_product_circuit`. *)
Definition construct_product_circuit (l : list K) : pcircuit := product_layers (log2c (length l)) l.
(** spartan/src/spark.rs:349-359 `evaluate_product_circuit`: `clen - 1` underflows when there are no layers. *)
Definition evaluate_product_circuit (c : pcircuit) : res K :=
  match rev c with ([x], [y]) :: _ => Ok (x * y) | _ => Panic end.
(** spartan/src/spark.rs:361-372 `evaluate_dot_product_circuit`. *)
Definition evaluate_dot_product_circuit (row col val : list K) : res K :=
  if negb (Nat.eqb (length row) (length col)) then Panic else if negb (Nat.eqb (length col) (length val)) then Panic else
  Ok (fsum (map (fun i => nth i row 0 * nth i col 0 * nth i val 0) (seq 0 (length row)))).
(** spartan/src/data_structure.rs:286-292 `ProdForMemoryChecking`; the hashes of `MemoryLayer` are not read again and left out. *)
Record mprod := mkMProd { mp_init : pcircuit; mp_read : list pcircuit; mp_write : list pcircuit; mp_audit : pcircuit }.
(** The product circuit over the hashes minus gamma2 (spartan/src/spark.rs:250-253, 256-259, 264-267, 270-273). *)
Definition hash_circuit (gamma2 : K) (hash : list K) : pcircuit := construct_product_circuit (map (fun x => x - gamma2) hash).
(** The final check of spartan/src/spark.rs:275-285 (the same at prover.rs:1177-1189 and 1195-1207). *)
Definition check_prod (p : mprod) : res (K * list K * list K * K) :=
  rbind (evaluate_product_circuit (mp_init p)) (fun init =>
  rbind (mapr evaluate_product_circuit (mp_read p)) (fun read =>
  rbind (mapr evaluate_product_circuit (mp_write p)) (fun write =>
  rbind (evaluate_product_circuit (mp_audit p)) (fun audit =>
  if feqb (init * fprod write) (fprod read * audit) then Ok (init, read, write, audit) else Panic)))).
(** spartan/src/spark.rs:209-296 `memory_checking`: `zip` stops at the shortest list, which the first assertions exclude. *)
Definition memory_checking (lists : list (list K)) (mem : list K) (read_ts : list (list K)) (audit_ts : list K) (es : list (list K)) (gamma1 gamma2 : K) : res mprod :=
  if negb (Nat.eqb (length lists) (length read_ts)) then Panic else
  if negb (Nat.eqb (length mem) (length audit_ts)) then Panic else
  if negb (Nat.eqb (length lists) (length es)) then Panic else
  let init_a := map (of_nat) (seq 0 (length mem)) in
  rbind (circuit_hash init_a mem (repeat 0 (length mem)) gamma1) (fun init_hash =>
  rbind (mapr (fun '(l, r, e) => circuit_hash l e r gamma1) (combine (combine lists read_ts) es)) (fun read_hash =>
  rbind (mapr (fun '(l, r, e) => circuit_hash l e (map (fun x => x + 1) r) gamma1) (combine (combine lists read_ts) es)) (fun write_hash =>
  rbind (circuit_hash init_a mem audit_ts gamma1) (fun audit_hash =>
  let p := mkMProd (hash_circuit gamma2 init_hash) (map (hash_circuit gamma2) read_hash) (map (hash_circuit gamma2) write_hash) (hash_circuit gamma2 audit_hash) in
  rmap (fun _ => p) (check_prod p))))).

(** spartan/src/spark.rs:107-130 `equalize_length`. *)
Definition equalize_length (rx ry : list K) : list K * list K :=
  if Nat.ltb (length rx) (length ry) then (repeat 0 (length ry - length rx) ++ rx, ry)
  else if Nat.ltb (length ry) (length rx) then (rx, repeat 0 (length rx - length ry) ++ ry) else (rx, ry).

Variable G : Grp K.
Notation mcp := (mcp K G).
Notation pcp := (pcp K G).
(** spartan/src/setup.rs:79-103 `PolyCommitmentParameters::new`: the generators, then h, then g are drawn. *)
Definition pc_new (num : nat) (rnd : nat -> G) : pcp :=
  let n := (2 ^ (num - num / 2))%nat in
  mkPcp K G n (mkMcp K G (map rnd (seq 0 n)) (rnd n)) (mkMcp K G [rnd (S n)] (rnd n)).
(** spartan/src/data_structure.rs:48-53 `R1CSEvalsParameters`. *)
Record evalp := mkEvP { ev_ops : pcp; ev_mem : pcp; ev_derefs : pcp }.
(** spartan/src/setup.rs:136-159 `R1CSEvalsParameters::new`. *)
Definition evals_params_new (n m : nat) (r1 r2 r3 : nat -> G) : evalp :=
  mkEvP (pc_new (log2c n + 4) r1) (pc_new (log2c (m * 2) + 1) r2) (pc_new (log2c n + 3) r3).
(** spartan/src/data_structure.rs:80-84 `SnarkParameters`. *)
Record snarkp := mkSnP { sn_evals : evalp; sn_sat : satp K G }.
(** spartan/src/setup.rs:57-77, 105-134 `R1CSSatisfiedParameters::new`. *)
Definition sat_params_new (num_aux num_inputs : nat) (r1 r3 r4 : nat -> G) : satp K G :=
  let pc := pc_new (log2c (next_pow2 (Nat.max num_aux num_inputs))) r1 in
  mkSatP K G pc (pc_gen_1 K G pc) (mkMcp K G (map r3 (seq 0 3)) (r3 3%nat)) (mkMcp K G (map r4 (seq 0 4)) (r4 4%nat)).
(** spartan/src/setup.rs:33-55 `generate_setup_snark_parameters`. *)
Definition snark_params_new (i : r1cs K) (r1 r2 r3 r4 r5 r6 : nat -> G) : snarkp :=
  let t := half_len K i in
  mkSnP (evals_params_new (r_cons K i * (t * 2)) (next_pow2 (Nat.max (t * 2) (r_cons K i))) r4 r5 r6) (sat_params_new (r_aux K i) (r_inputs K i) r1 r2 r3).

(** spartan/src/data_structure.rs:126-132 `EncodeCommit`, 158-165 `EncodeMemory`. *)
Record enc_commit := mkEC { ec_n : nat; ec_m : nat; ec_ops : list G; ec_mem : list G }.
Record enc_memory := mkEM { em_row : addr_ts; em_col : addr_ts; em_val : list (list K); em_ops : list K; em_mem : list K }.
(** `packing_poly_commit` without blinds, unwrapped (spartan/src/spark.rs:68-75, 80-87, prover.rs:1110-1117). *)
Definition pack (p : pcp) (values : list K) : res (list G) :=
  rmap fst (packing_poly_commit K G (mc_gens K G (pc_gen_n K G p)) values (mc_h K G (pc_gen_n K G p)) (fun _ => 0) false).
(** spartan/src/spark.rs:18-105 `encode`. *)
Definition encode (p : evalp) (i : r1cs K) : res (enc_memory * enc_commit) :=
  if negb (Nat.eqb (length (r_a K i)) (length (r_b K i))) then Panic else if negb (Nat.eqb (length (r_b K i)) (length (r_c K i))) then Panic else
  let t := half_len K i in
  let m := next_pow2 (Nat.max (t * 2) (r_cons K i)) in
  let '(av, ar, ac) := switch_matrix_to_list K (r_a K i) t in
  let '(bv, br, bc) := switch_matrix_to_list K (r_b K i) t in
  let '(cv, cr, cc) := switch_matrix_to_list K (r_c K i) t in
  let n := next_pow2 (Nat.max (Nat.max (length ar) (length br)) (length cr)) in
  let rs l := l ++ repeat 0%nat (n - length l) in
  let rf (l : list K) := l ++ repeat 0 (n - length l) in
  let vals := [rf av; rf bv; rf cv] in
  rbind (memory_in_the_head [rs ar; rs br; rs cr] n m) (fun row =>
  rbind (memory_in_the_head [rs ac; rs bc; rs cc] n m) (fun col =>
  let ops := pad2 (concat (at_addrs row ++ at_read row ++ at_addrs col ++ at_read col ++ vals)) in
  rbind (pack (ev_ops p) ops) (fun ops_commit =>
  let mem := pad2 (at_audit row ++ at_audit col) in
  rbind (pack (ev_mem p) mem) (fun mem_commit =>
  Ok (mkEM row col vals ops mem, mkEC n m ops_commit mem_commit))))).
End S.
