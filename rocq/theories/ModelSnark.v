(** Model of spartan's SNARK: the proof that the matrices have the claimed values, prover.rs and verify.rs. No proofs.
    Conventions as in ModelSpartan.v. *)
From Verif Require Export Field Poly Module ModelTranscript ModelBulletproofs ModelPC ModelMle ModelLibra ModelLC ModelCS ModelSigma ModelSpartan ModelSpark.
Local Open Scope string_scope.
Local Open Scope list_scope.
Local Open Scope fld_scope.
Section S.
Variable K : Fld.
Variable G : Grp K.
Variable ch : oracle K G.
Notation tr := (transcript K G).
Notation draw := (draw K G ch).
Notation draws := (draws K G ch).
Notation kget := (kget K).
Notation pcircuit := (pcircuit K).
Notation com1 p x := (poly_commit_vec K G (mc_gens K G (pc_gen_1 K G p)) [x] (mc_h K G (pc_gen_1 K G p)) 0).

(** `unwrap`. *)
Definition unwrap {A} (r : res A) : res A := match r with Err _ => Panic | r => r end.
(** A triple of vectors and the sum of the products of their entries (spartan/src/prover.rs:1229-1234, 1478). *)
Definition triple : Type := list K * list K * list K.
Definition dot3 (x : triple) : K := let '(a, b, c) := x in fsum (map (fun i => nth i a 0 * nth i b 0 * nth i c 0) (seq 0 (length a))).

(** spartan/src/data_structure.rs:315-320 `LayerProductCircuitProof`, 322-326 `ProductCircuitEvalProof`. *)
Record lpc := mkLPC { lc_polys : list (list K); lc_left : list K; lc_right : list K }.
Record pcproof := mkPCP { pe_layers : list lpc; pe_dotp : triple }.
(** spartan/src/data_structure.rs:306-313 `ProductLayerProof`. *)
Record plproof := mkPLP { pl_mem : pcproof; pl_ops : pcproof; pl_dleft : list K; pl_dright : list K; pl_row : K * list K * list K * K; pl_col : K * list K * list K * K }.
(** spartan/src/data_structure.rs:328-337 `HashLayerProof`. *)
Record hlproof := mkHLP { hl_derefs : dproof K G; hl_ops : dproof K G; hl_mem : dproof K G; hl_evr : list K; hl_evc : list K;
  hl_row : list K * list K * K; hl_col : list K * list K * K; hl_val : list K }.
(** spartan/src/data_structure.rs:203-208 `R1CSEvalsProof`. *)
Record evproof := mkEv { ep_prod : plproof; ep_hash : hlproof; ep_commit : list G }.
(** spartan/src/data_structure.rs:182-187 `SNARKProof`. *)
Record snark := mkSnark { sk_sat : satproof K G; sk_evals : K * K * K; sk_ev : evproof }.
(** The random values of one `inner_product_proof`. *)
Record iprand := mkIPR { ip_d : K; ip_delta : K; ip_beta : K; ip_bv : list (K * K) }.

(** ** Prover *)
(** spartan/src/prover.rs:1471-1496 and 1505-1530: the three sums of one pair or triple of tables; the table may also be shared. *)
Definition cubic_evals (x : triple) : res (K * K * K) :=
  let '(a, b, c) := x in
  if negb (Nat.eqb (length a) (length b)) then Panic else if negb (Nat.eqb (length a) (length c)) then Panic else
  let s := (length a / 2)%nat in
  let at2 (v : list K) i := nth (s + i) v 0 + nth (s + i) v 0 - nth i v 0 in
  let at3 (v : list K) i := nth (s + i) v 0 + nth (s + i) v 0 + nth (s + i) v 0 - (nth i v 0 + nth i v 0) in
  Ok (fsum (map (fun i => nth i a 0 * nth i b 0 * nth i c 0) (seq 0 s)),
      fsum (map (fun i => at2 a i * at2 b i * at2 c i) (seq 0 s)),
      fsum (map (fun i => at3 a i * at3 b i * at3 c i) (seq 0 s))).
(** spartan/src/prover.rs:1466-1559: the polynomial of a round. *)
Definition batch_poly (claim : K) (pa pb : list (list K)) (c : list K) (sa sb sc : list (list K)) (coeffs : list K) : res (list K) :=
  if negb (Nat.eqb (length pa) (length pb)) then Panic else
  rbind (mapr cubic_evals (map (fun '(a, b) => (a, b, c)) (combine pa pb))) (fun e1 =>
  rbind (mapr cubic_evals (combine (combine sa sb) sc)) (fun e2 =>
  let evals := e1 ++ e2 in
  if negb (Nat.eqb (length coeffs) (length evals)) then Panic else
  let sum (f : K * K * K -> K) := fsum (map (fun '(e, x) => f e * x) (combine evals coeffs)) in
  let s0 := sum (fun e => fst (fst e)) in
  cubic_poly K s0 (claim - s0) (sum (fun e => snd (fst e))) (sum snd))).
(** spartan/src/prover.rs:1442-1607 `sum_check_cubic_prover`, n rounds left; the last values are read at index 0. *)
Fixpoint sc_cubic (n : nat) (claim : K) (pa pb : list (list K)) (c : list K) (sa sb sc : list (list K)) (coeffs : list K) (t : tr)
  : res (list (list K) * list K * (list K * list K) * triple * tr) :=
  match n with
  | O => rbind (mapr (fun v => kget v 0) pa) (fun fa => rbind (mapr (fun v => kget v 0) pb) (fun fb => rbind (kget c 0) (fun _ =>
         rbind (mapr (fun v => kget v 0) sa) (fun ga => rbind (mapr (fun v => kget v 0) sb) (fun gb => rbind (mapr (fun v => kget v 0) sc) (fun gc =>
         Ok ([], [], (fa, fb), (ga, gb, gc), t)))))))
  | S n =>
      rbind (batch_poly claim pa pb c sa sb sc coeffs) (fun poly =>
      let t := MFs "comm_poly" poly :: t in
      let '(r, t) := draw "challenge_nextround" t in
      rbind (combine_with_r K c r) (fun c => rbind (combine_all K pa r) (fun pa => rbind (combine_all K pb r) (fun pb =>
      rbind (combine_all K sa r) (fun sa => rbind (combine_all K sb r) (fun sb => rbind (combine_all K sc r) (fun sc =>
      rmap (fun '(polys, rs, f, g, t) => (poly :: polys, r :: rs, f, g, t)) (sc_cubic n (peval poly r) pa pb c sa sb sc coeffs t))))))))
  end.
(** The messages of spartan/src/prover.rs:1392-1398 (verify.rs:763-766) and 1403-1410 (verify.rs:779-782). *)
Definition absorb_prod (l r : list K) (t : tr) : tr := fold_left (fun t '(x, y) => MF "claim_prod_right" y :: MF "claim_prod_left" x :: t) (combine l r) t.
Definition absorb_dotp (x : triple) (t : tr) : tr :=
  let '(a, b, c) := x in fold_left (fun t '(x, y, z) => MF "claim_dotp_val" z :: MF "claim_dotp_col" y :: MF "claim_dotp_row" x :: t) (combine (combine a b) c) t.
(** One layer's outputs from the two halves (spartan/src/prover.rs:1417-1419, verify.rs:797-799). *)
Definition join (r : K) (l rt : list K) : list K := map (fun '(x, y) => x + r * (y - x)) (combine l rt).
(** The layers of spartan/src/prover.rs:1331-1432, n of them left: layer n - 1 comes first. Without triples the branch for them does nothing. *)
Fixpoint pc_prove (n : nat) (circs : list pcircuit) (dotp : list triple) (claims rands : list K) (t : tr) : res (list lpc * triple * list K * tr) :=
  match n with
  | O => Ok ([], ([], [], []), rands, t)
  | S i =>
      rbind (mapr (fun c : pcircuit => match nth_error c i with Some x => if Nat.eqb (length (fst x)) (length (snd x)) then Ok x else Panic | None => Panic end) circs) (fun ls =>
      let e := eval_eq K rands in
      if negb (Nat.eqb (length e) (length (fst (hd ([], []) ls)))) then Panic else
      let last := Nat.eqb i 0 in
      let ds := if last then dotp else [] in
      rbind (mapr (fun '(a, b, c) => rbind (evaluate_dot_product_circuit K a b c) (fun s => if Nat.eqb (length e) (length a) then Ok s else Panic)) ds) (fun sums =>
      let claims := claims ++ sums in
      let '(coeffs, t) := draws "rand_coeffs_next_layer" (length claims) t in
      rbind (sc_cubic (log2c (length e)) (dot claims coeffs) (map fst ls) (map snd ls) e (map (fun x => fst (fst x)) ds) (map (fun x => snd (fst x)) ds) (map snd ds) coeffs t)
        (fun '(polys, rp, (cl, cr), dp, t) =>
      let t := absorb_prod cl cr t in
      let t := if last then absorb_dotp dp t else t in
      let '(rl, t) := draw "challenge_r_layer" t in
      rmap (fun '(lps, dp', rands, t) => (mkLPC polys cl cr :: lps, (if last then dp else dp'), rands, t)) (pc_prove i circs dotp (join rl cl cr) (rl :: rp) t))))
  end.
(** spartan/src/prover.rs:1313-1440 `product_circuit_eval_prover`. *)
Definition product_circuit_eval_prover (circs : list pcircuit) (dotp : list triple) (t : tr) : res (pcproof * list K * tr) :=
  match circs with
  | [] => Panic
  | c0 :: _ => rbind (mapr (evaluate_product_circuit K) circs) (fun claims =>
      rmap (fun '(lps, dp, rands, t) => (mkPCP lps dp, rands, t)) (pc_prove (length c0) circs dotp claims [] t))
  end.
(** spartan/src/prover.rs:1191-1194, 1209-1212 (verify.rs:660-663, 671-674). *)
Definition absorb_claims (l1 l2 l3 l4 : string) (x : K * list K * list K * K) (t : tr) : tr :=
  let '(init, read, write, audit) := x in MF l4 audit :: MFs l3 write :: MFs l2 read :: MF l1 init :: t.
Definition absorb_row := absorb_claims "claim_row_eval_init" "claim_row_eval_read" "claim_row_eval_write" "claim_row_eval_audit".
Definition absorb_col := absorb_claims "claim_col_eval_init" "claim_col_eval_read" "claim_col_eval_write" "claim_col_eval_audit".
Definition absorb_halves (l r : list K) (t : tr) : tr := fold_left (fun t '(x, y) => MF "claim_eval_dotp_right" y :: MF "claim_eval_dotp_left" x :: t) (combine l r) t.
(** spartan/src/prover.rs:1224-1256: one matrix. *)
Definition split_dotp (x : triple) (eval : K) : res (triple * triple) :=
  let '(row, col, val) := x in
  if negb (Nat.eqb (length col) (length row)) then Panic else if negb (Nat.eqb (length val) (length row)) then Panic else
  let idx := (length row / 2)%nat in
  let l := (firstn idx row, firstn idx col, firstn idx val) in
  let r := (skipn idx row, skipn idx col, skipn idx val) in
  if feqb (dot3 l + dot3 r) eval then Ok (l, r) else Panic.
(** spartan/src/prover.rs:1164-1311 `product_layer_prover`. *)
Definition product_layer_prover (vals : list (list K)) (er ec : list (list K)) (row col : mprod K) (evals : list K) (t : tr) : res (plproof * list K * list K * tr) :=
  let t := MU "protocol-name:Sparse polynomial product layer proof" 0 :: t in
  rbind (check_prod K row) (fun crow =>
  let t := absorb_row crow t in
  rbind (check_prod K col) (fun ccol =>
  let t := absorb_col ccol t in
  if negb (Nat.eqb (length er) (length evals) && Nat.eqb (length er) (length ec) && Nat.eqb (length er) (length vals)) then Panic else
  rbind (mapr (fun '(x, e) => split_dotp x e) (combine (combine (combine er ec) vals) evals)) (fun halves =>
  let dl := map (fun h => dot3 (fst h)) halves in
  let dr := map (fun h => dot3 (snd h)) halves in
  let t := absorb_halves dl dr t in
  rbind (product_circuit_eval_prover (mp_read K row ++ mp_write K row ++ mp_read K col ++ mp_write K col) (concat (map (fun h => [fst h; snd h]) halves)) t) (fun '(ops, ops_rands, t) =>
  rbind (product_circuit_eval_prover [mp_init K row; mp_audit K row; mp_init K col; mp_audit K col] [] t) (fun '(mem, mem_rands, t) =>
  Ok (mkPLP mem ops dl dr crow ccol, ops_rands, mem_rands, t)))))).

(** The reduction of many evaluations to one (spartan/src/prover.rs:1651-1663, verify.rs:875-889): challenges, then variables bound from the last on. *)
Definition to_one (evals cs : list K) : res K :=
  rbind (foldr (bound_poly_var_bot K) evals (rev cs)) (fun e => match e with [x] => Ok x | _ => Panic end).
(** The sequence of spartan/src/prover.rs:1644-1681, 1702-1731, 1734-1761 after the evaluations are absorbed: combine them to one and prove it. *)
Definition open_prove (lbl jlbl : string) (p : pcp K G) (evals poly rands : list K) (ip : iprand) (t : tr) : res (dproof K G * tr) :=
  let '(cs, t) := draws lbl (log2c (length evals)) t in
  rbind (to_one evals cs) (fun claim =>
  let t := MF jlbl claim :: t in
  rmap (fun '(pf, _, t) => (pf, t)) (inner_product_proof K G ch p poly [] (cs ++ rands) 0 claim (ip_d ip) (ip_delta ip) (ip_beta ip) (ip_bv ip) t)).
(** spartan/src/prover.rs:1780-1809 `pre_prover_for_timestamp`. *)
Definition pre_timestamp (ops_rands mem_rands : list K) (ts : addr_ts K) : res (list K * list K * K) :=
  rbind (mapr (fun v => eval_value K v ops_rands) (at_addrs K ts)) (fun addrs =>
  rbind (mapr (fun v => eval_value K v ops_rands) (at_read K ts)) (fun reads =>
  rmap (fun audit => (addrs, reads, audit)) (eval_value K (at_audit K ts) mem_rands))).
(** spartan/src/prover.rs:1609-1778 `hash_layer_prover`. *)
Definition hash_layer_prover (p : evalp K G) (em : enc_memory K) (ops_rands mem_rands : list K) (er ec : list (list K)) (ecomb : list K) (i1 i2 i3 : iprand) (t : tr) : res (hlproof * tr) :=
  let t := MU "protocol-name:Sparse polynomial hash layer proof" 0 :: t in
  rbind (mapr (fun v => eval_value K v ops_rands) er) (fun evr =>
  rbind (mapr (fun v => eval_value K v ops_rands) ec) (fun evc =>
  let evals := pad2 (evr ++ evc) in
  if negb (Nat.eqb (log2c (length ecomb)) (length ops_rands + log2c (length evals))) then Panic else
  let t := MFs "evals_ops_val" evals :: MU "protocol-name:Derefs evaluation proof" 0 :: t in
  rbind (open_prove "challenge_combine_n_to_one" "joint_claim_eval" (ev_derefs K G p) evals ecomb ops_rands i1 t) (fun '(pd, t) =>
  rbind (pre_timestamp ops_rands mem_rands (em_row K em)) (fun '(ra, rr, raud) =>
  rbind (pre_timestamp ops_rands mem_rands (em_col K em)) (fun '(ca, cr, caud) =>
  rbind (mapr (fun v => eval_value K v ops_rands) (em_val K em)) (fun vals =>
  let evals_ops := pad2 (ra ++ rr ++ ca ++ cr ++ vals) in
  let t := MFs "claim_evals_ops" evals_ops :: t in
  rbind (open_prove "challenge_combine_n_to_one" "joint_claim_eval_ops" (ev_ops K G p) evals_ops (em_ops K em) ops_rands i2 t) (fun '(po, t) =>
  let evals_mem := [raud; caud] in
  let t := MFs "claim_evals_mem" evals_mem :: t in
  rbind (open_prove "challenge_combine_two_to_one" "joint_claim_eval_mem" (ev_mem K G p) evals_mem (em_mem K em) mem_rands i3 t) (fun '(pm, t) =>
  Ok (mkHLP pd po pm evr evc (ra, rr, raud) (ca, cr, caud) vals, t))))))))).
(** spartan/src/prover.rs:1062-1162 `sparse_poly_eval_proof` with `circuit_eval_opt` (spark.rs:178-207). *)
Definition sparse_poly_eval_proof (p : evalp K G) (rx ry : list K) (evals : K * K * K) (em : enc_memory K) (i1 i2 i3 : iprand) (t : tr) : res (evproof * tr) :=
  let t := MU "protocol-name:sparse polynomial evaluation proof" 0 :: t in
  let '(ea, eb, ec) := evals in
  let '(rows, cols) := equalize_length K rx ry in
  let mrow := eval_eq K rows in let mcol := eval_eq K cols in
  rbind (mapr (mapr (kget mrow)) (at_index K (em_row K em))) (fun erow =>
  rbind (mapr (mapr (kget mcol)) (at_index K (em_col K em))) (fun ecol =>
  let ecomb := pad2 (concat (erow ++ ecol)) in
  rbind (pack K G (ev_derefs K G p) ecomb) (fun dc =>
  let t := MGs "comm_poly_row_col_ops_val" dc :: t in
  let '(gamma1, t) := draw "challenge_gamma_hash" t in
  let '(gamma2, t) := draw "challenge_gamma_hash" t in
  rbind (memory_checking K (at_addrs K (em_row K em)) mrow (at_read K (em_row K em)) (at_audit K (em_row K em)) erow gamma1 gamma2) (fun prow =>
  rbind (memory_checking K (at_addrs K (em_col K em)) mcol (at_read K (em_col K em)) (at_audit K (em_col K em)) ecol gamma1 gamma2) (fun pcol =>
  rbind (product_layer_prover (em_val K em) erow ecol prow pcol [ea; eb; ec] t) (fun '(pl, ops_rands, mem_rands, t) =>
  rmap (fun '(hl, t) => (mkEv pl hl dc, t)) (hash_layer_prover p em ops_rands mem_rands erow ecol ecomb i1 i2 i3 t))))))).
(** The messages between the two parts (spartan/src/prover.rs:173-181, verify.rs:83-91). *)
Definition absorb_evals (evals : K * K * K) (c : enc_commit K G) (t : tr) : tr :=
  let '(ea, eb, ec) := evals in
  MGs "encode_ops_commit" (ec_ops K G c) :: MGs "encode_mem_commit" (ec_mem K G c) :: MU "m" (ec_m K G c) :: MU "n" (ec_n K G c) :: MF "Cr_claim" ec :: MF "Br_claim" eb :: MF "Ar_claim" ea :: t.
(** spartan/src/prover.rs:137-198 `create_snark_proof`: errors of the parts are unwrapped. *)
Definition create_snark_proof (p : snarkp K G) (i : r1cs K) (circuit : M K unit) (em : enc_memory K) (c : enc_commit K G) (r1cs_hash params_hash encode_hash : K) (sr : srand K) (i1 i2 i3 : iprand) : res snark :=
  let t := [MF "encode_hash" encode_hash; MF "params_hash" params_hash; MF "r1cs_hash" r1cs_hash] in
  unwrap (
  rbind (circuit (cs_new Prove)) (fun '(_, s) =>
  rbind (sat_prove K G ch (sn_sat K G p) i (length (ModelCS.cons s)) (inps s) (auxs s) sr t) (fun '(sat, rx, ry, t) =>
  rbind (evaluate_mle K (r_a K i) rx ry) (fun ea =>
  rbind (evaluate_mle K (r_b K i) rx ry) (fun eb =>
  rbind (evaluate_mle K (r_c K i) rx ry) (fun ec =>
  let t := absorb_evals (ea, eb, ec) c t in
  rmap (fun '(ev, _) => mkSnark sat (ea, eb, ec) ev) (sparse_poly_eval_proof (sn_evals K G p) rx ry (ea, eb, ec) em i1 i2 i3 t))))))).

(** ** Verifier *)
(** spartan/src/verify.rs:823-838: the rounds. *)
Fixpoint cubic_check (polys : list (list K)) (claim : K) (t : tr) : res (list K * K * tr) :=
  match polys with
  | [] => Ok ([], claim, t)
  | p :: polys =>
      let t := MFs "comm_poly" p :: t in
      if negb (feqb (peval p 0 + peval p 1) claim) then Panic else
      let '(r, t) := draw "challenge_nextround" t in
      rmap (fun '(rs, c, t) => (r :: rs, c, t)) (cubic_check polys (peval p r) t)
  end.
(** spartan/src/verify.rs:817-841 `sum_check_cubic_verify`. *)
Definition sum_check_cubic_verify (polys : list (list K)) (n : nat) (claim : K) (t : tr) : res (list K * K * tr) :=
  if negb (Nat.eqb (length polys) n) then Panic else cubic_check polys claim t.
(** spartan/src/verify.rs:778-787: the triples of the last layer, as many as claim_dotp_row has; shorter vectors panic. *)
Definition dotp_expected (coeffs : list K) (x : triple) : res K :=
  let '(row, col, val) := x in
  foldr (fun s '(i, a) => rbind (kget col i) (fun b => rbind (kget val i) (fun c => rmap (fun k => s + k * a * b * c) (kget coeffs i)))) 0 (combine (seq 0 (length row)) row).
(** spartan/src/verify.rs:800-811: the two halves joined. *)
Definition dotp_join (r : K) (x : triple) : list K :=
  let '(row, col, val) := x in
  let j (v : list K) i := nth (2 * i) v 0 + r * (nth (2 * i + 1) v 0 - nth (2 * i) v 0) in
  concat (map (fun i => [j row i; j col i; j val i]) (seq 0 (length row / 2))).
(** The layers of spartan/src/verify.rs:732-812: [k] product circuits, [nr] rounds in the next layer. `eq` is `eval_eq_x_y` written out. *)
Fixpoint pc_verify (layers : list lpc) (dotp : triple) (cdotp : list K) (k nr : nat) (claims rands : list K) (t : tr) : res (list K * list K * list K * tr) :=
  match layers with
  | [] => Ok (claims, [], rands, t)
  | lp :: rest =>
      let last := match rest with [] => true | _ => false end in
      let claims := if last then claims ++ cdotp else claims in
      let '(coeffs, t) := draws "rand_coeffs_next_layer" (length claims) t in
      rbind (sum_check_cubic_verify (lc_polys lp) nr (dot claims coeffs) t) (fun '(r, final, t) =>
      let l := lc_left lp in let rt := lc_right lp in
      if negb (Nat.eqb (length l) (length rt)) then Panic else if negb (Nat.eqb (length l) k) then Panic else
      let t := absorb_prod l rt t in
      rbind (eval_eq_x_y K r rands) (fun e =>
      let expected := fsum (map (fun '(c, (x, y)) => c * (x * y * e)) (combine coeffs (combine l rt))) in
      rbind (if last then dotp_expected (skipn (length l) coeffs) dotp else Ok 0) (fun extra =>
      let t := if last then absorb_dotp dotp t else t in
      if negb (feqb (expected + extra) final) then Panic else
      let '(rl, t) := draw "challenge_r_layer" t in
      rmap (fun '(cs, cd, rands, t) => (cs, (if last then dotp_join rl dotp else cd), rands, t)) (pc_verify rest dotp cdotp k (S nr) (join rl l rt) (rl :: r) t))))
  end.
(** spartan/src/verify.rs:717-815 `product_circuit_eval_verify`. *)
Definition product_circuit_eval_verify (pf : pcproof) (cprod cdotp : list K) (n : nat) (t : tr) : res (list K * list K * list K * tr) :=
  if negb (Nat.eqb (length (pe_layers pf)) (log2c n)) then Panic else pc_verify (pe_layers pf) (pe_dotp pf) cdotp (length cprod) 0 cprod [] t.
(** spartan/src/verify.rs:643-658, 665-669: three claims each, and init * write = read * audit. *)
Definition claims_ok (x : K * list K * list K * K) : bool :=
  let '(init, read, write, audit) := x in Nat.eqb (length read) 3 && Nat.eqb (length write) 3 && feqb (init * fprod write) (fprod read * audit).
(** spartan/src/verify.rs:619-715 `product_layer_verify`; the second list of triples' claims is not used. *)
Definition product_layer_verify (pf : plproof) (n m : nat) (evals : list K) (t : tr) : res (list K * list K * list K * list K * list K * tr) :=
  let t := MU "protocol-name:Sparse polynomial product layer proof" 0 :: t in
  let '(ri, rr, rw, ra) := pl_row pf in
  let '(ci, cr, cw, ca) := pl_col pf in
  if negb (Nat.eqb (length (pl_dleft pf)) 3 && Nat.eqb (length (pl_dright pf)) 3 && Nat.eqb (length evals) 3) then Panic else
  if negb (claims_ok (pl_row pf)) then Panic else if negb (claims_ok (pl_col pf)) then Panic else
  let t := absorb_col (pl_col pf) (absorb_row (pl_row pf) t) in
  if negb (forallb (fun '(l, r, e) => feqb (l + r) e) (combine (combine (pl_dleft pf) (pl_dright pf)) evals)) then Panic else
  let t := absorb_halves (pl_dleft pf) (pl_dright pf) t in
  rbind (product_circuit_eval_verify (pl_ops pf) (rr ++ rw ++ cr ++ cw) (concat (map (fun '(l, r) => [l; r]) (combine (pl_dleft pf) (pl_dright pf)))) n t) (fun '(claims_ops, claims_dotp, ops_rands, t) =>
  rbind (product_circuit_eval_verify (pl_mem pf) [ri; ra; ci; ca] [] m t) (fun '(claims_mem, _, mem_rands, t) =>
  Ok (claims_ops, claims_dotp, ops_rands, claims_mem, mem_rands, t))).

(** spartan/src/verify.rs:1030-1083 `behind_verify_for_timestamp`: the loops run over the address evaluations that come with the proof. *)
Definition ts_verify (mem_rands r : list K) (claims : K * list K * list K * K) (ops_val addr read : list K) (audit gamma1 gamma2 : K) : res unit :=
  let '(ci, cread, cwrite, caud) := claims in
  let a0 := fsum (map (fun i => nth i mem_rands 0 * fpow (1 + 1) (length mem_rands - i - 1)) (seq 0 (length mem_rands))) in
  let check (b : bool) : res unit := if b then Ok tt else Panic in
  rbind (eval_eq_x_y K r mem_rands) (fun v0 =>
  rbind (check (feqb ci (a0 * gamma1 * gamma1 + v0 * gamma1 - gamma2))) (fun _ =>
  let each (claims : list K) (d : K) := foldr (fun _ '(i, a) =>
      rbind (kget ops_val i) (fun v => rbind (kget read i) (fun s => rbind (kget claims i) (fun c => check (feqb c (a * gamma1 * gamma1 + v * gamma1 + (s + d) - gamma2))))))
      tt (combine (seq 0 (length addr)) addr) in
  rbind (each cread 0) (fun _ =>
  rbind (each cwrite 1) (fun _ =>
  check (feqb caud (a0 * gamma1 * gamma1 + v0 * gamma1 + audit - gamma2)))))).
(** The sequence of spartan/src/verify.rs:874-911, 934-966, 969-1000 after the evaluations are absorbed. *)
Definition open_verify (lbl jlbl : string) (p : pcp K G) (evals rands : list K) (commit : list G) (pf : dproof K G) (t : tr) : res tr :=
  let '(cs, t) := draws lbl (log2c (length evals)) t in
  rbind (to_one evals cs) (fun claim =>
  let t := MF jlbl claim :: t in
  rbind (inner_product_verify K G ch p (cs ++ rands) commit (com1 p claim) pf t) (fun '(ok, t) => if ok then Ok t else Panic)).
(** spartan/src/verify.rs:843-1028 `hash_layer_verify`. *)
Definition hash_layer_verify (p : evalp K G) (pf : hlproof) (rx ry ops_rands mem_rands : list K) (gamma1 gamma2 : K) (crow ccol : K * list K * list K * K) (cdotp : list K) (c : enc_commit K G) (dc : list G) (t : tr) : res unit :=
  let t := MU "protocol-name:Sparse polynomial hash layer proof" 0 :: t in
  if negb (Nat.eqb (length cdotp) 9) then Panic else
  if negb (Nat.eqb (length (hl_evr pf)) (length (hl_evc pf)) && Nat.eqb (length (hl_evr pf)) 3) then Panic else
  let evals := pad2 (hl_evr pf ++ hl_evc pf) in
  let t := MFs "evals_ops_val" evals :: MU "protocol-name:Derefs evaluation proof" 0 :: t in
  rbind (open_verify "challenge_combine_n_to_one" "joint_claim_eval" (ev_derefs K G p) evals ops_rands dc (hl_derefs pf) t) (fun t =>
  if negb (Nat.eqb (length (hl_val pf)) 3) then Panic else
  if negb (forallb (fun i => feqb (nth (i * 3) cdotp 0) (nth i (hl_evr pf) 0) && feqb (nth (i * 3 + 1) cdotp 0) (nth i (hl_evc pf) 0) && feqb (nth (i * 3 + 2) cdotp 0) (nth i (hl_val pf) 0)) (seq 0 3)) then Panic else
  let '(ra, rr, raud) := hl_row pf in
  let '(ca, cr, caud) := hl_col pf in
  let evals_ops := pad2 (ra ++ rr ++ ca ++ cr ++ hl_val pf) in
  let t := MFs "claim_evals_ops" evals_ops :: t in
  rbind (open_verify "challenge_combine_n_to_one" "joint_claim_eval_ops" (ev_ops K G p) evals_ops ops_rands (ec_ops K G c) (hl_ops pf) t) (fun t =>
  let evals_mem := [raud; caud] in
  let t := MFs "claim_evals_mem" evals_mem :: t in
  rbind (open_verify "challenge_combine_two_to_one" "joint_claim_eval_mem" (ev_mem K G p) evals_mem mem_rands (ec_mem K G c) (hl_mem pf) t) (fun t =>
  rbind (ts_verify mem_rands rx crow (hl_evr pf) ra rr raud gamma1 gamma2) (fun _ =>
  ts_verify mem_rands ry ccol (hl_evc pf) ca cr caud gamma1 gamma2)))).
(** spartan/src/verify.rs:538-617 `sparse_poly_eval_verify`: failed checks panic. *)
Definition sparse_poly_eval_verify (p : evalp K G) (pf : evproof) (c : enc_commit K G) (rx ry : list K) (evals : K * K * K) (t : tr) : res bool :=
  let t := MU "protocol-name:sparse polynomial evaluation proof" 0 :: t in
  let '(ea, eb, ec) := evals in
  let '(rx, ry) := equalize_length K rx ry in
  if negb (Nat.eqb (2 ^ length rx) (ec_m K G c)) then Panic else
  let t := MGs "comm_poly_row_col_ops_val" (ep_commit pf) :: t in
  let '(gamma1, t) := draw "challenge_gamma_hash" t in
  let '(gamma2, t) := draw "challenge_gamma_hash" t in
  rbind (product_layer_verify (ep_prod pf) (ec_n K G c) (ec_m K G c) [ea; eb; ec] t) (fun '(claims_ops, cdotp, ops_rands, claims_mem, mem_rands, t) =>
  if negb (Nat.eqb (length claims_ops) 12 && Nat.eqb (length cdotp) 9) then Panic else
  match claims_mem with
  | [m0; m1; m2; m3] =>
      rmap (fun _ => true) (unwrap (hash_layer_verify p (ep_hash pf) rx ry ops_rands mem_rands gamma1 gamma2
        (m0, firstn 3 claims_ops, firstn 3 (skipn 3 claims_ops), m1) (m2, firstn 3 (skipn 6 claims_ops), firstn 3 (skipn 9 claims_ops), m3) cdotp c (ep_commit pf) t))
  | _ => Panic
  end).
(** spartan/src/verify.rs:54-101 `verify_snark_proof`: the result of the second part is reduced to `is_ok`. *)
Definition verify_snark_proof (p : snarkp K G) (i : r1cs K) (inputs : list K) (pf : snark) (c : enc_commit K G) (r1cs_hash params_hash encode_hash : K) : res bool :=
  let t := [MF "encode_hash" encode_hash; MF "params_hash" params_hash; MF "r1cs_hash" r1cs_hash] in
  rbind (sat_verify K G ch (sn_sat K G p) i inputs (sk_sat pf) (sk_evals pf) t) (fun '(ok, rx, ry, t) =>
  if negb ok then Ok false else
  match sparse_poly_eval_verify (sn_evals K G p) (sk_ev pf) c rx ry (sk_evals pf) (absorb_evals (sk_evals pf) c t) with
  | Ok _ => Ok true
  | Err _ => Ok false
  | Panic => Panic
  end).
End S.
