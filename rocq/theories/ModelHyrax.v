(** Model of hyrax: the zero-knowledge sum-check of one layer (zk_sumcheck_proof.rs) and the protocol (hyrax_proof.rs). No proofs.
    Circuits are those of ModelLibra.v: hyrax/src/circuit.rs:15-171 is libra's circuit.rs apart from names. Sigma protocols are those of
    ModelSigma.v. Every random value is an argument. `random_bytes_to_fr` of a 32-byte or a 31-byte challenge is one draw. *)
From Verif Require Export ModelSnark.
From Coq Require Import String List.
Local Open Scope string_scope.
Local Open Scope list_scope.
Local Open Scope fld_scope.
Section S.
Variable K : Fld.
Variable G : Grp K.
Variable ch : oracle K G.
Notation tr := (transcript K G).
Notation draw := (draw K G ch).
Notation draws := (draws K G ch).
Notation mcp := (mcp K G).
Notation pcp := (pcp K G).
Notation mc_gens := (mc_gens K G).
Notation mc_h := (mc_h K G).
Notation com p x b := (poly_commit_vec K G (mc_gens p) x (mc_h p) b).
Notation kget := (kget K).
(** Indexing a vector of group elements. *)
Definition gget (l : list G) (i : nat) : res G := match nth_error l i with Some x => Ok x | None => Panic end.

(** hyrax/src/params.rs:11-14, 45-49 `Parameters` with its `SumCheckCommitmentSetupParameters`. *)
Record hparams := mkHP { hp_pc : pcp; hp_1 : mcp; hp_3 : mcp; hp_4 : mcp }.
(** hyrax/src/params.rs:98-105 `MultiCommitmentSetupParameters::new`: [rnd] gives the generators, then h. *)
Definition mc_new (n : nat) (rnd : nat -> G) : mcp := mkMcp K G (map rnd (seq 0 n)) (rnd n).
(** hyrax/src/params.rs:17-25, 52-66, 77-89 `Parameters::new`. *)
Definition hparams_new (num : nat) (r1 : nat -> G) (g : G) (r3 r4 : nat -> G) : hparams :=
  let n := (2 ^ (num - num / 2))%nat in
  let gen_n := mc_new n r1 in
  let gen_1 := mkMcp K G [g] (mc_h gen_n) in
  mkHP (mkPcp K G n gen_n gen_1) gen_1 (mc_new 3 r3) (mc_new 4 r4).

(** ** evaluate.rs *)
(** hyrax/src/evaluate.rs:11-50 `eval_outputs`: the width is taken from the first output; a longer one underflows. *)
Definition eval_outputs (outputs : list (list K)) (t : tr) : res (K * list K * list K * tr) :=
  match outputs with
  | [] => Panic
  | o0 :: _ =>
      let n := next_pow2 (length outputs) in
      let g := next_pow2 (length o0) in
      let '(q_vec, t) := draws "challenge_nextround" (log2c g) t in
      let eq_q := eval_eq K q_vec in
      if existsb (fun o => Nat.ltb g (length o)) outputs then Panic else
      let eq_qs := map (fun o => dot o eq_q) outputs in
      let '(q_aside, t) := draws "challenge_nextround" (log2c n) t in
      Ok (dot eq_qs (eval_eq K q_aside), q_aside, q_vec, t)
  end.
(** hyrax/src/evaluate.rs:240-247: the binary digits, least significant first; [fuel] bounds the number of halvings. *)
Fixpoint digits (fuel n : nat) : list K :=
  match fuel, n with
  | S f, S _ => (if Nat.even n then 0 else 1) :: digits f (n / 2)
  | _, _ => []
  end.
(** hyrax/src/evaluate.rs:237-251 `convert_to_bit`: too large a number underflows. *)
Definition convert_to_bit (n log_g : nat) : res (list K) :=
  let v := digits n n in
  if Nat.ltb log_g (length v) then Panic else Ok (rev (v ++ repeat 0 (log_g - length v))).
(** -1, -r, -r^2, ... ([w] of them): the coefficients of -p(r). *)
Definition neg_pows (r : K) (w : nat) : list K := map (fun a => - fpow r a) (seq 0 w).
(** 2, 1, 1, ... ([w] of them): the coefficients of p(0) + p(1). *)
Definition ends (w : nat) : list K := (1 + 1) :: repeat 1 (w - 1).
(** hyrax/src/evaluate.rs:221-230: one gate, and the sums over the addition and the multiplication gates. *)
Definition gate_step (e0 : K) (eql eqr er0 er1 : list K) (u0 u1 : K) (am : K * K) (g : gate) : res (K * K) :=
  rbind (kget eql (gt_g g)) (fun x => rbind (kget eqr (gt_g g)) (fun y =>
  let eval := e0 * (x * u0 + y * u1) in
  if Nat.eqb (gt_op g) 0 then rbind (kget er0 (gt_l g)) (fun l => rbind (kget er1 (gt_r g)) (fun r => Ok (fst am + l * r * eval, snd am)))
  else if Nat.eqb (gt_op g) 1 then rbind (kget er0 (gt_l g)) (fun l => rbind (kget er1 (gt_r g)) (fun r => Ok (fst am, snd am + l * r * eval)))
  else Ok am)).
Definition gate_evals (e0 : K) (eql eqr er0 er1 : list K) (u0 u1 : K) (gates : list gate) : res (K * K) :=
  foldr (gate_step e0 eql eqr er0 er1 u0 u1) (0, 0) gates.
(** The rows of hyrax/src/evaluate.rs:166-210 after the first, for the remaining rounds of widths [ws] with challenges [rs]: row i has the
    coefficients of -p_i(r_i) in the columns of p_i and those of p_{i+1}(0) + p_{i+1}(1) in the next ones; behind the last polynomial
    stand the columns of x, y and xy, where the loop writes 2, 1, 1 and 231-233 then write [fin]. [off] columns lie before p_i.
    The writes of the Rust loops go to distinct positions apart from that. *)
Fixpoint mat_rows (off : nat) (ws : list nat) (rs : list K) (fin : list K) : list (list K) :=
  match ws, rs with
  | w :: ws, r :: rs =>
      (repeat 0 off ++ neg_pows r w ++ match ws with [] => fin | w' :: _ => ends w' end) :: mat_rows (off + w) ws rs fin
  | _, _ => []
  end.
(** Zeros up to the given width. *)
Definition widen (w : nat) (l : list K) : list K := l ++ repeat 0 (w - length l).
(** hyrax/src/evaluate.rs:151-235 `construct_matrix`. With log_n = 0 the bound `log_n - 1` underflows (and in release mode the loop then
    reads rs[0] of an empty vector), so the function panics. [rs], [r0] and [r1] have log_n, log_g and log_g entries in both calls. *)
Definition construct_matrix (rs r0 r1 qa ql qr : list K) (gates : list gate) (u0 u1 : K) (log_n log_g : nat) : res (list (list K)) :=
  if Nat.eqb log_n 0 then Panic else
  rbind (eval_eq_x_y K qa rs) (fun e0 =>
  rbind (gate_evals e0 (eval_eq K ql) (eval_eq K qr) (eval_eq K r0) (eval_eq K r1) u0 u1 gates) (fun '(add, mul) =>
  let width := (4 * log_n + 6 * log_g + 3)%nat in
  let ws := repeat 4%nat log_n ++ repeat 3%nat (2 * log_g) in
  Ok (map (widen width) (ends 4 :: mat_rows 0 ws (rs ++ r0 ++ r1) [add; add; mul])))).

(** ** zk_sumcheck_proof.rs *)
(** hyrax/src/zk_sumcheck_proof.rs:18-32 `ZkSumcheckProof`. *)
Record zkproof := mkZk { zk_prod : pproof K G; zk_a0 : G; zk_c : G; zk_x : G; zk_y : G; zk_z : G;
  zk_polys : list G; zk_evals : list G; zk_deltas : list G; zk_zs : list K; zk_zdeltas : list K; zk_zc : K }.
(** The random values of one layer (hyrax/src/zk_sumcheck_proof.rs:72-77, 517-568, 590, commitment.rs:134-138). *)
Record zrand := mkZr { zr_poly : nat -> K; zr_eval : nat -> K; zr_x : K; zr_y : K; zr_z : K; zr_b1 : K; zr_b2 : K; zr_b3 : K; zr_b4 : K; zr_b5 : K;
  zr_d : nat -> K; zr_delta : nat -> K; zr_c : K }.
(** The rounds of hyrax/src/zk_sumcheck_proof.rs:101-216, 245-337 and 352-441. The loops differ in the tables, in the round polynomial
    and in the place of the blinds: round j commits to its polynomial under [ra] and to its value under [re]. The untrimmed
    coefficients, kept in `polys`, are the trimmed ones followed by zeros. n rounds remain and every table has 2^n entries. *)
Fixpoint hx_rounds (rp : nat -> list (list K) -> K -> res (list K)) (g1 gn : mcp) (size n : nat) (ra : nat -> K) (re : nat -> res K) (j : nat)
    (ts : list (list K)) (claim : K) (ccom : G) (t : tr) : res (list (list K) * list G * list G * list K * list (list K) * K * G * tr) :=
  match n with
  | O => Ok ([], [], [], [], ts, claim, ccom, t)
  | S n =>
      rbind (rp (2 ^ n)%nat ts claim) (fun poly =>
      let comm_poly := com gn poly (ra j) in
      let t := MG "comm_poly" comm_poly :: t in
      let '(r, t) := draw "challenge_nextround" t in
      rbind (combine_all K ts r) (fun ts =>
      let eval := peval poly r in
      rbind (re j) (fun be =>
      let comm_eval := com g1 [eval] be in
      let t := MG "comm_eval" comm_eval :: MG "comm_claim_per_round" ccom :: t in
      rbind (hx_rounds rp g1 gn size n ra re (S j) ts eval comm_eval t) (fun '(polys, cps, ces, rs, ts, claim, ccom, t) =>
      Ok (widen size poly :: polys, comm_poly :: cps, comm_eval :: ces, r :: rs, ts, claim, ccom, t)))))
  end.
(** The summand of the first sum-check (hyrax/src/zk_sumcheck_proof.rs:106-152): one table per gate, then one per node of the layer below.
    The double sum over gates and positions is taken in the other order. *)
Definition term_1 (gates : list gate) (x : list K) : K :=
  let m := length gates in
  fsum (map (fun '(i, g) => nth i x 0 * (if Nat.eqb (gt_op g) 0 then nth (m + gt_l g) x 0 + nth (m + gt_r g) x 0 else nth (m + gt_l g) x 0 * nth (m + gt_r g) x 0))
    (combine (seq 0 m) gates)).
(** The second and third (248-289, 356-392): one table per gate, then the values; [c] is the other operand of each gate, [p] its factor.
    An operator that is neither 0 nor 1 contributes nothing. *)
Definition term_2 (gates : list gate) (p c : list K) (x : list K) : K :=
  let m := length gates in
  fsum (map (fun '(i, g) => if Nat.eqb (gt_op g) 0 then nth i x 0 * nth i p 0 * (nth m x 0 + nth i c 0)
    else if Nat.eqb (gt_op g) 1 then nth i x 0 * nth i p 0 * (nth m x 0 * nth i c 0) else 0) (combine (seq 0 m) gates)).
(** hyrax/src/zk_sumcheck_proof.rs:493-620 `sumcheck_prover` ([log_g] is log_ng of the caller). The j-th delta commits to the j-th chunk of d_vec. *)
Definition sumcheck_prover (p : hparams) (x y : K) (log_g log_n : nat) (m : list (list K)) (pie : list K) (rc0 : K) (z : zrand) (t : tr)
  : pproof K G * G * G * G * list G * G * list K * list K * K * tr :=
  let '(pp, cx, cy, cz, t) := product_proof K G ch (hp_1 p) x (zr_x z) y (zr_y z) (x * y) (zr_z z) (zr_b1 z) (zr_b2 z) (zr_b3 z) (zr_b4 z) (zr_b5 z) t in
  let rounds := (log_n + 2 * log_g)%nat in
  let base := (4 * log_n + 6 * log_g)%nat in
  let d := map (zr_d z) (seq 0 base) in
  let deltas := map (fun j => if Nat.ltb j log_n then com (hp_4 p) (firstn 4 (skipn (j * 4) d)) (zr_delta z j)
    else com (hp_3 p) (firstn 3 (skipn (log_n + j * 3) d)) (zr_delta z j)) (seq 0 rounds) in
  let t := rev (map (MG "comm_delta") deltas) ++ t in
  let '(rou, t) := draws "challenge_nextround" (rounds + 1) t in
  let jv := map (fun k => fsum (map (fun j => nth j rou 0 * nth k (nth j m []) 0) (seq 0 (rounds + 1)))) (seq 0 (base + 3)) in
  let cc := com (hp_1 p) [fsum (map (fun k => nth k jv 0 * nth k d 0) (seq 0 base))] (zr_c z) in
  let t := MG "comm_c" cc :: t in
  let '(c, t) := draw "challenge_nextround" t in
  let zs := map (fun k => c * nth k pie 0 + nth k d 0) (seq 0 base) in
  let zds := map (fun k => c * zr_poly z k + zr_delta z k) (seq 0 rounds) in
  let zc := c * (nth 0 rou 0 * rc0 - nth base jv 0 * zr_x z - nth (base + 1) jv 0 * zr_y z - nth (base + 2) jv 0 * zr_z z) + zr_c z in
  (pp, cx, cy, cz, deltas, cc, zs, zds, zc, t).
(** hyrax/src/zk_sumcheck_proof.rs:35-491 `ZkSumcheckProof::prover`; [evals] has one vector over the instances per node of the layer below.
    A gate that points outside of them panics, wherever that is noticed first. The blinds of the values of the third sum-check are
    read at log_n + log_g + j, log_g belonging to the layer above (line 431). *)
Definition zk_prover (p : hparams) (claim : K) (comm_a0 : G) (rc0 u0 u1 : K) (qa ql qr : list K) (gates : list gate) (evals : list (list K)) (n ng : nat) (z : zrand) (t : tr)
  : res (zkproof * list K * list K * list K * K * K * tr) :=
  let log_g := length ql in let log_ng := log2c ng in let log_n := log2c n in
  if negb (Nat.eqb (length qa) log_n) then Panic else if negb (Nat.eqb (length ql) (length qr)) then Panic else
  let eq_vec := eval_eq K qa in
  let xg := map (fun '(a, b) => a * u0 + b * u1) (combine (eval_eq K ql) (eval_eq K qr)) in
  let temp := map (fun x => map (fun e => e * x) eq_vec) xg in
  let m := length gates in
  if negb (Nat.eqb (length temp) m) then Panic else
  if existsb (fun g => Nat.leb ng (gt_l g) || Nat.leb ng (gt_r g)) gates then Panic else
  let revs := map (zr_eval z) (seq 0 (log_n + 2 * log_ng)) in
  rbind (hx_rounds (round_cubic K (term_1 gates)) (hp_1 p) (hp_4 p) 4 log_n (zr_poly z) (fun j => kget revs j) 0 (temp ++ evals) claim comm_a0 t)
    (fun '(polys1, cps1, ces1, rs, ts, claim, ccom, t) =>
  let heads := map (fun v => nth 0 v 0) ts in
  let pxg := firstn m heads in let v := skipn m heads in
  rbind (mapr (fun g => rmap (eval_eq K) (convert_to_bit (gt_l g) log_ng)) gates) (fun lefts =>
  rbind (mapr (fun g => rmap (eval_eq K) (convert_to_bit (gt_r g) log_ng)) gates) (fun rights =>
  rbind (hx_rounds (round_quad K (term_2 gates pxg (map (fun g => nth (gt_r g) v 0) gates))) (hp_1 p) (hp_3 p) 3 log_ng (fun j => zr_poly z (log_n + j)) (fun j => kget revs (log_n + j)) 0 (lefts ++ [v]) claim ccom t)
    (fun '(polys2, cps2, ces2, r0, ts, claim, ccom, t) =>
  let heads := map (fun v => nth 0 v 0) ts in
  let pxg := map (fun '(a, b) => a * b) (combine heads pxg) in
  let x := nth m heads 0 in
  rbind (hx_rounds (round_quad K (term_2 gates pxg (map (fun _ => x) gates))) (hp_1 p) (hp_3 p) 3 log_ng (fun j => zr_poly z (log_n + log_ng + j)) (fun j => kget revs (log_n + log_g + j)) 0 (rights ++ [v]) claim ccom t)
    (fun '(polys3, cps3, ces3, r1, ts, claim, ccom, t) =>
  let y := nth m (map (fun v => nth 0 v 0) ts) 0 in
  rbind (construct_matrix rs r0 r1 qa ql qr gates u0 u1 log_n log_ng) (fun mm =>
  let pie := concat (polys1 ++ polys2 ++ polys3) ++ [x; y; x * y] in
  let '(pp, cx, cy, cz, deltas, cc, zs, zds, zc, t) := sumcheck_prover p x y log_ng log_n mm pie rc0 z t in
  Ok (mkZk pp comm_a0 cc cx cy cz (cps1 ++ cps2 ++ cps3) (ces1 ++ ces2 ++ ces3) deltas zs zds zc, rs, r0, r1, x, y, t))))))).

(** hyrax/src/zk_sumcheck_proof.rs:640-659: the challenges of all rounds. *)
Fixpoint zk_challenges (n : nat) (cps ces : list G) (ccom : G) (t : tr) : res (list K * tr) :=
  match n, cps, ces with
  | O, _, _ => Ok ([], t)
  | S n, cp :: cps, ce :: ces =>
      let t := MG "comm_poly" cp :: t in
      let '(r, t) := draw "challenge_nextround" t in
      let t := MG "comm_eval" ce :: MG "comm_claim_per_round" ccom :: t in
      rmap (fun '(rs, t) => (r :: rs, t)) (zk_challenges n cps ces ce t)
  | S _, _, _ => Panic
  end.
(** `z_vec[off], z_vec[off + 1], ...`, [w] entries. *)
Definition slice (z : list K) (off w : nat) : res (list K) := if Nat.ltb (length z) (off + w) then Panic else Ok (firstn w (skipn off z)).
(** hyrax/src/zk_sumcheck_proof.rs:702-736: the openings of the masked round polynomials, for the given round numbers. *)
Fixpoint delta_checks (p : hparams) (pf : zkproof) (log_n : nat) (c : K) (js : list nat) : res bool :=
  match js with
  | [] => Ok true
  | j :: js =>
      rbind (gget (zk_polys pf) j) (fun cp => rbind (gget (zk_deltas pf) j) (fun d =>
      let right := gadd (gsm c cp) d in
      rbind (if Nat.ltb j log_n
             then rbind (slice (zk_zs pf) (j * 4) 4) (fun zv => rmap (fun zd => com (hp_4 p) zv zd) (kget (zk_zdeltas pf) j))
             else rbind (slice (zk_zs pf) (log_n + j * 3) 3) (fun zv => rmap (fun zd => com (hp_3 p) zv zd) (kget (zk_zdeltas pf) j))) (fun left =>
      if geqb left right then delta_checks p pf log_n c js else Ok false)))
  end.
(** hyrax/src/zk_sumcheck_proof.rs:669-759 `sumcheck_verify`: the equation uses the commitment [zk_a0] that comes with the proof. *)
Definition sumcheck_verify (p : hparams) (pf : zkproof) (m : list (list K)) (log_g log_n : nat) (t : tr) : res (bool * tr) :=
  rbind (product_verify K G ch (hp_1 p) (zk_prod pf) (zk_x pf) (zk_y pf) (zk_z pf) t) (fun '(ok, t) =>
  if negb ok then Panic else
  let t := rev (map (MG "comm_delta") (zk_deltas pf)) ++ t in
  let rounds := (log_n + 2 * log_g)%nat in
  let base := (4 * log_n + 6 * log_g)%nat in
  let '(rou, t) := draws "challenge_nextround" (rounds + 1) t in
  let t := MG "comm_c" (zk_c pf) :: t in
  let '(c, t) := draw "challenge_nextround" t in
  rbind (delta_checks p pf log_n c (seq 0 rounds)) (fun ok =>
  if negb ok then Ok (false, t) else
  let jv := map (fun k => fsum (map (fun j => nth j rou 0 * nth k (nth j m []) 0) (seq 0 (rounds + 1)))) (seq 0 (base + 3)) in
  let left := gadd (gadd (gadd (gsm (nth 0 rou 0) (zk_a0 pf)) (gsm (- nth base jv 0) (zk_x pf))) (gsm (- nth (base + 1) jv 0) (zk_y pf))) (gsm (- nth (base + 2) jv 0) (zk_z pf)) in
  let left := gadd (gsm c left) (zk_c pf) in
  if Nat.ltb (length (zk_zs pf)) base then Panic else
  let right := com (hp_1 p) [fsum (map (fun k => nth k jv 0 * nth k (zk_zs pf) 0) (seq 0 base))] (zk_zc pf) in
  Ok (geqb left right, t))).
(** hyrax/src/zk_sumcheck_proof.rs:622-667 `ZkSumcheckProof::verify`: [comm_claim] is absorbed and not used otherwise. *)
Definition zk_verify (p : hparams) (pf : zkproof) (comm_claim : G) (u0 u1 : K) (qa ql qr : list K) (gates : list gate) (n ng : nat) (t : tr)
  : res (G * G * list K * list K * list K * tr) :=
  let log_ng := log2c ng in let log_n := log2c n in
  rbind (zk_challenges (log_n + 2 * log_ng) (zk_polys pf) (zk_evals pf) comm_claim t) (fun '(all, t) =>
  let rs := firstn log_n all in
  let r0 := firstn log_ng (skipn log_n all) in
  let r1 := skipn (log_n + log_ng) all in
  rbind (construct_matrix rs r0 r1 qa ql qr gates u0 u1 log_n log_ng) (fun m =>
  rbind (sumcheck_verify p pf m log_ng log_n t) (fun '(ok, t) =>
  if negb ok then Panic else Ok (zk_x pf, zk_y pf, rs, r0, r1, t)))).

(** ** hyrax_proof.rs *)
(** hyrax/src/hyrax_proof.rs:16-26 `HyraxProof`. *)
Record hproof := mkHx { hx_witness : list G; hx_proofs : list zkproof; hx_prod0 : dproof K G; hx_y0 : G; hx_eq0 : eproof K G; hx_prod1 : dproof K G; hx_y1 : G; hx_eq1 : eproof K G }.
(** The random values of the last part for one of the two points (hyrax/src/hyrax_proof.rs:151, commitment.rs:28, 350-355). *)
Record erand := mkEr { er_blind : K; er_d : K; er_beta : K; er_delta : K; er_bv : nat -> K * K; er_eq : K }.
(** hyrax/src/commitment.rs:426-461 `reduce_prover` and 334-390 `LogDotProductProof::prover` with its bound on the size. *)
Definition reduce_prover (p : pcp) (poly blind_poly ry : list K) (eval : K) (e : erand) (t : tr) : res (dproof K G * G * tr) :=
  let size := log2c (length poly) in
  if negb (Nat.eqb (length ry) size) then Panic else
  let l_size := (2 ^ (size / 2))%nat in
  let r_size := (2 ^ (size - size / 2))%nat in
  let blinds := match blind_poly with [] => repeat 0 l_size | _ => blind_poly end in
  if negb (Nat.eqb l_size (length blinds)) then Panic else
  let l_eq := eval_eq K (firstn (size / 2) ry) in
  let r_eq := eval_eq K (skipn (size / 2) ry) in
  if Nat.ltb (length poly) (l_size * r_size) then Panic else
  if Nat.ltb (pc_n K G p) (length r_eq) then Panic else
  rmap (fun '(pf, _, cy, t) => (pf, cy, t))
    (log_dot_prove K G ch "c" p (row_comb K l_eq poly r_size) r_eq (dot l_eq blinds) (er_blind e) eval (er_d e) (er_delta e) (er_beta e) (map (er_bv e) (seq 0 (log2c (length r_eq)))) t).
(** hyrax/src/commitment.rs:463-481 `reduce_verifier`. *)
Definition reduce_verifier (p : pcp) (ry : list K) (comms : list G) (comm_ry : G) (pf : dproof K G) (t : tr) : res (bool * tr) :=
  let size := length ry in
  let l_eq := eval_eq K (firstn (size / 2) ry) in
  let r_eq := eval_eq K (skipn (size / 2) ry) in
  log_dot_verify K G ch "c" p (poly_commit_vec K G comms l_eq (mc_h (pc_gen_1 K G p)) 0) comm_ry r_eq pf t.
(** Each vector padded with zeros to a power of two, one after the other (hyrax/src/hyrax_proof.rs:57-62, 286-291). *)
Definition padded (vs : list (list K)) : list K := concat (map (fun v => v ++ repeat 0 (next_pow2 (length v) - length v)) vs).
(** hyrax/src/hyrax_proof.rs:93-107: for each node of the layer below the values in all instances; nodes up to a power of two are zero. *)
Definition layer_evals (evals : list (list (list K))) (lo count n ng : nat) : res (list (list K)) :=
  rmap (fun vs => vs ++ repeat (repeat 0 n) (ng - count))
    (mapr (fun i => mapr (fun ev => rbind (vget K ev lo) (fun v => kget v i)) evals) (seq 0 count)).
(** hyrax/src/hyrax_proof.rs:92-147, the prover's loop, d counting down to 1 (the layer number of the gates): claims and points
    for the layer, then the next. The state returned is (q_aside, ql, qr, x, y, rx, ry). *)
Fixpoint hx_layers (p : hparams) (c : circuit) (evals : list (list (list K))) (n d : nat) (zs : nat -> zrand) (claim : K) (comm_claim : G) (rc0 u0 u1 : K) (qa ql qr : list K) (x y rx ry : K) (t : tr)
  : res (list zkproof * (list K * list K * list K * K * K * K * K) * tr) :=
  match d with
  | O => Ok ([], (qa, ql, qr, x, y, rx, ry), t)
  | S d' =>
      let z := zs d' in
      rbind (lget c d') (fun lo => rbind (lget c d) (fun hi =>
      let ng := next_pow2 (l_count lo) in
      rbind (layer_evals evals d' (l_count lo) n ng) (fun le =>
      rbind (zk_prover p claim comm_claim rc0 u0 u1 qa ql qr (l_gates hi) le n ng z t) (fun '(pf, qa, ql, qr, x, y, t) =>
      match d' with
      | O => rmap (fun '(pfs, s, t) => (pf :: pfs, s, t)) (hx_layers p c evals n d' zs claim comm_claim rc0 u0 u1 qa ql qr x y (zr_x z) (zr_y z) t)
      | S _ =>
          let '(u0, t) := draw "u0" t in let '(u1, t) := draw "u1" t in
          let comm_claim := gadd (gsm u0 (zk_x pf)) (gsm u1 (zk_y pf)) in
          let t := MG "comm_a_i" comm_claim :: t in
          rmap (fun '(pfs, s, t) => (pf :: pfs, s, t)) (hx_layers p c evals n d' zs (x * u0 + y * u1) comm_claim (zr_x z * u0 + zr_y z * u1) u0 u1 qa ql qr x y (zr_x z) (zr_y z) t)
      end))))
  end.
(** hyrax/src/hyrax_proof.rs:38-51, 223-234: the messages absorbed first (newest first). *)
Definition hx_init (ch_hash p_hash : K) (inputs outputs : list (list K)) : tr :=
  rev (concat (map (fun '(i, o) => [MFs "input_i" i; MFs "output_i" o]) (combine inputs outputs))) ++ [MF "param_to_hash" p_hash; MF "circuit_to_hash" ch_hash].
(** hyrax/src/hyrax_proof.rs:149-170 (and 173-194): the opening of the witness at the point (q_aside, q[1..]) and the equality proof. *)
Definition hx_open (p : hparams) (wv wb qa q : list K) (v bv : K) (e : erand) (t : tr) : res (dproof K G * G * eproof K G * tr) :=
  match q with
  | [] => Panic
  | q0 :: qt =>
      let pt := qa ++ qt in
      rbind (eval_value K wv pt) (fun ew =>
      rmap (fun '(pf, cy, t) => let '(eq, t) := eq_proof K G ch (pc_gen_1 K G (hp_pc p)) v bv v ((1 - q0) * er_blind e) (er_eq e) t in (pf, cy, eq, t))
        (reduce_prover (hp_pc p) wv wb pt ew e t))
  end.
(** hyrax/src/hyrax_proof.rs:29-212 `HyraxProof::prover`: [wr] gives the blinds of the witness commitment, [zs] one record per layer.
    A circuit of depth 0 makes `depth - 1` underflow. *)
Definition hx_prover (p : hparams) (witnesses inputs : list (list K)) (c : circuit) (ch_hash p_hash : K) (n : nat) (wr : nat -> K) (zs : nat -> zrand) (e0 e1 : erand)
  : res (hproof * list (list K)) :=
  if Nat.eqb (c_depth c) 0 then Panic else
  if Nat.ltb (length inputs) n || Nat.ltb (length witnesses) n then Panic else
  let inputs := firstn n inputs in let witnesses := firstn n witnesses in
  rbind (mapr (fun '(i, w) => unwrap (evaluate K c i w)) (combine inputs witnesses)) (fun evals =>
  let outputs := map (fun ev => last ev []) evals in
  let t := hx_init ch_hash p_hash inputs outputs in
  if negb (Nat.eqb (next_pow2 n) n) then Panic else
  let wv := padded witnesses in
  rbind (packing_poly_commit K G (mc_gens (pc_gen_n K G (hp_pc p))) wv (mc_h (pc_gen_n K G (hp_pc p))) wr true) (fun '(cw, wb) =>
  let t := MGs "comm_witness" cw :: t in
  rbind (eval_outputs outputs t) (fun '(result_u, qa, q, t) =>
  let comm_a := com (hp_1 p) [result_u] 0 in
  let t := MG "comm_claim_a0" comm_a :: t in
  rbind (hx_layers p c evals n (c_depth c - 1) zs result_u comm_a 0 1 0 qa q q 0 0 0 0 t) (fun '(pfs, (qa, ql, qr, x, y, rx, ry), t) =>
  rbind (hx_open p wv wb qa ql x rx e0 t) (fun '(pf0, y0, eq0, t) =>
  rmap (fun '(pf1, y1, eq1, t) => (mkHx cw pfs pf0 y0 eq0 pf1 y1 eq1, outputs)) (hx_open p wv wb qa qr y ry e1 t)))))).
(** hyrax/src/hyrax_proof.rs:252-283, the verifier's loop. *)
Fixpoint hx_check (p : hparams) (c : circuit) (n d : nat) (pfs : list zkproof) (comm_a : G) (u0 u1 : K) (qa ql qr : list K) (cx cy : G) (t : tr)
  : res (list K * list K * list K * G * G * tr) :=
  match d, pfs with
  | O, _ => Ok (qa, ql, qr, cx, cy, t)
  | S _, [] => Panic
  | S d', pf :: pfs =>
      rbind (lget c d') (fun lo => rbind (lget c d) (fun hi =>
      rbind (zk_verify p pf comm_a u0 u1 qa ql qr (l_gates hi) n (next_pow2 (l_count lo)) t) (fun '(cx, cy, qa, ql, qr, t) =>
      match d' with
      | O => hx_check p c n d' pfs comm_a u0 u1 qa ql qr cx cy t
      | S _ =>
          let '(u0, t) := draw "u0" t in let '(u1, t) := draw "u1" t in
          let comm_a := gadd (gsm u0 cx) (gsm u1 cy) in
          hx_check p c n d' pfs comm_a u0 u1 qa ql qr cx cy (MG "comm_a_i" comm_a :: t)
      end)))
  end.
(** hyrax/src/hyrax_proof.rs:293-323 (and 325-351): the check of one of the two evaluations of the input layer. *)
Definition hx_opened (p : hparams) (inputs : list (list K)) (cw : list G) (qa q : list K) (commit : G) (pf : dproof K G) (cy : G) (eq : eproof K G) (t : tr) : res tr :=
  match q with
  | [] => Panic
  | q0 :: qt =>
      let pt := qa ++ qt in
      rbind (reduce_verifier (hp_pc p) pt cw cy pf t) (fun '(ok, t) =>
      if negb ok then Panic else
      rbind (eval_value K (padded inputs) pt) (fun ei =>
      let g1 := pc_gen_1 K G (hp_pc p) in
      let z := gadd (gsm (1 - q0) cy) (gsm q0 (com g1 [ei] 0)) in
      let '(ok, t) := eq_verify K G ch g1 commit z eq t in
      if negb ok then Panic else Ok t))
  end.
(** hyrax/src/hyrax_proof.rs:214-354 `HyraxProof::verify`: every failed check panics, and so does depth 0. *)
Definition hx_verify (p : hparams) (pf : hproof) (outputs inputs : list (list K)) (c : circuit) (ch_hash p_hash : K) : res bool :=
  let n := length outputs in
  if negb (Nat.eqb (next_pow2 n) n) then Panic else
  if Nat.eqb (c_depth c) 0 then Panic else
  if Nat.ltb (length inputs) n then Panic else
  let inputs := firstn n inputs in
  let t := MGs "comm_witness" (hx_witness pf) :: hx_init ch_hash p_hash inputs outputs in
  rbind (eval_outputs outputs t) (fun '(result_u, qa, q, t) =>
  let comm_a := com (hp_1 p) [result_u] 0 in
  let t := MG "comm_claim_a0" comm_a :: t in
  rbind (hx_check p c n (c_depth c - 1) (hx_proofs pf) comm_a 1 0 qa q q comm_a comm_a t) (fun '(qa, ql, qr, cx, cy, t) =>
  rbind (hx_opened p inputs (hx_witness pf) qa ql cx (hx_prod0 pf) (hx_y0 pf) (hx_eq0 pf) t) (fun t =>
  rmap (fun _ => true) (hx_opened p inputs (hx_witness pf) qa qr cy (hx_prod1 pf) (hx_y1 pf) (hx_eq1 pf) t)))).
End S.
