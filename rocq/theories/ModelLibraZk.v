(** Model of libra/src/libra_zk_linear_gkr.rs (the zero-knowledge GKR protocol) and of `ZKSumCheckProof` in libra/src/sumcheck.rs. No proofs.
    libra/src/params.rs and commitment.rs are those of hyrax (apart from names and comments), so the parameters are [hparams] and the sigma
    protocols and the opening of the witness those of ModelSigma.v and ModelHyrax.v. The rounds of the two sum-check phases absorb and draw
    exactly what Spartan's rounds do, so [zk_rounds] and [sc_verify] of ModelSpartan.v are used. Every random value is an argument. *)
From Verif Require Export ModelHyrax.
From Coq Require Import String List.
Local Open Scope string_scope.
Local Open Scope list_scope.
Local Open Scope fld_scope.
Section S.
Variable K : Fld.
Variable G : Grp K.
Variable ch : oracle K G.
Notation tr := (transcript K G).
Notation draw := (draw K G ch).
Notation mcp := (mcp K G).
Notation hparams := (hparams K G).
Notation com p x b := (poly_commit_vec K G (mc_gens K G p) x (mc_h K G p) b).
Notation kget := (kget K).
Notation rrand := (rrand K).
Notation scproof := (scproof K G).

(** libra/src/circuit.rs:98-106, one gate of `eval_operators`: the weight is read for every gate, the other two tables for operators 0 and 1. *)
Definition op_gate (eu ev er es : list K) (alpha beta : K) (acc : K * K) (g : gate) : res (K * K) :=
  let '(add, mul) := acc in
  rbind (kget eu (gt_g g)) (fun a => rbind (kget ev (gt_g g)) (fun b =>
  let eval := alpha * a + beta * b in
  if Nat.eqb (gt_op g) 0 then rbind (kget er (gt_l g)) (fun x => rmap (fun y => (add + x * y * eval, mul)) (kget es (gt_r g)))
  else if Nat.eqb (gt_op g) 1 then rbind (kget er (gt_l g)) (fun x => rmap (fun y => (add, mul + x * y * eval)) (kget es (gt_r g)))
  else Ok acc)).
(** libra/src/circuit.rs:82-108 `eval_operators`. *)
Definition eval_operators (gates : list gate) (gu gv ru rv : list K) (alpha beta : K) : res (K * K) :=
  foldr (op_gate (eval_eq K gu) (eval_eq K gv) (eval_eq K ru) (eval_eq K rv) alpha beta) (0, 0) gates.

(** The rounds of libra/src/sumcheck.rs:196-305 and 318-425 with summand [T]. `blind_evals[bit_size - 1]` underflows without a round. *)
Definition z_phase (p : hparams) (T : list K -> K) (bits : nat) (ts : list (list K)) (claim bclaim : K) (rnds : nat -> rrand) (t : tr)
  : res (scproof * list K * list K * K * tr) :=
  match bits with
  | O => Panic
  | S _ => rmap (fun '(sc, rs, ts, b, t) => (sc, rs, at_j K ts 0, b, t))
      (zk_rounds K G ch (round_quad K T) (hp_1 K G p) (hp_3 K G p) 3 bits ts claim bclaim (com (hp_1 K G p) [claim] bclaim) (map rnds (seq 0 bits)) t)
  end.
(** libra/src/sumcheck.rs:186-306 `ZKSumCheckProof::phase_one_prover`. *)
Definition z_phase_one (p : hparams) (f : list K) (g : list K * list K * list K) (bits : nat) (claim bclaim : K) (rnds : nat -> rrand) (t : tr)
  : res (scproof * list K * list K * K * tr) :=
  let '(m, a1, a2) := g in let size := length f in
  if negb (Nat.eqb size (length m) && Nat.eqb size (length a1) && Nat.eqb size (length a2) && Nat.eqb size (2 ^ bits)) then Panic else
  z_phase p (term_one K) bits [f; m; a1; a2] claim bclaim rnds t.
(** libra/src/sumcheck.rs:308-426 `ZKSumCheckProof::phase_two_prover`. *)
Definition z_phase_two (p : hparams) (f : list K) (g : list K * list K * K) (bits : nat) (claim bclaim : K) (rnds : nat -> rrand) (t : tr)
  : res (scproof * list K * list K * K * tr) :=
  let '(m, a, fu) := g in let size := length f in
  if negb (Nat.eqb size (length m) && Nat.eqb size (length a) && Nat.eqb size (2 ^ bits)) then Panic else
  z_phase p (term_two K fu) bits [f; m; a] claim bclaim rnds t.

(** libra/src/libra_zk_linear_gkr.rs:17-26 `ZKLayerProof`. *)
Record zlayer := mkZL { zl_one : scproof; zl_two : scproof; zl_x : G; zl_y : G; zl_z : G; zl_prod : pproof K G; zl_eq : eproof K G }.
(** libra/src/libra_zk_linear_gkr.rs:28-38 `ZKLinearGKRProof`. *)
Record zgkr := mkZG { zg_witness : list G; zg_proofs : list zlayer; zg_prod0 : dproof K G; zg_y0 : G; zg_eq0 : eproof K G; zg_prod1 : dproof K G; zg_y1 : G; zg_eq1 : eproof K G }.
(** The random values of one layer: the rounds of the two phases, the blinds of comm_x, comm_y and comm_z, those of the product and equality proofs. *)
Record lrand := mkLR { lr_one : nat -> rrand; lr_x : K; lr_two : nat -> rrand; lr_y : K; lr_z : K; lr_p1 : K; lr_p2 : K; lr_p3 : K; lr_p4 : K; lr_p5 : K; lr_eq : K }.

(** libra/src/libra_zk_linear_gkr.rs:89-206, one round of the prover's loop: [d'] and [d'] + 1 are the lower and the upper layer. Returns the
    proof, the two points, the two values and the transcript. *)
Definition z_layer (p : hparams) (c : circuit) (evals : list (list K)) (d' : nat) (lr : lrand) (alpha beta : K) (gu gv : list K) (result_u result_v bclaim : K) (t : tr)
  : res (zlayer * list K * list K * K * K * K * tr) :=
  let claim := alpha * result_u + beta * result_v in
  rbind (lget c d') (fun lo => rbind (lget c (S d')) (fun hi => rbind (vget K evals d') (fun v =>
  let bits := l_bits lo in
  rbind (initialize_phase_one K gu gv (l_gates hi) v bits alpha beta) (fun g1 =>
  rbind (z_phase_one p v g1 bits claim bclaim (lr_one lr) t) (fun '(p1, ru, e1, blind_u, t) =>
  let claim := term_one K e1 in
  let x := nth 0 e1 0 in
  let comm_x := com (hp_1 K G p) [x] (lr_x lr) in
  let t := MG "comm_x" comm_x :: t in
  rbind (initialize_phase_two K gu gv ru (l_gates hi) v bits alpha beta) (fun g2 =>
  rbind (z_phase_two p v g2 bits claim blind_u (lr_two lr) t) (fun '(p2, rv, e2, blind_v, t) =>
  let y := nth 0 e2 0 in
  let comm_y := com (hp_1 K G p) [y] (lr_y lr) in
  let t := MG "comm_y" comm_y :: t in
  let z := x * y in
  let '(prod, _, _, comm_z, t) := product_proof K G ch (hp_1 K G p) x (lr_x lr) y (lr_y lr) z (lr_z lr) (lr_p1 lr) (lr_p2 lr) (lr_p3 lr) (lr_p4 lr) (lr_p5 lr) t in
  let m := nth 1 e2 0 in let a := nth 2 e2 0 in
  let eval := z * m + (x + y) * a in
  let eval_blind := lr_z lr * m + (lr_x lr + lr_y lr) * a in
  let '(eq, t) := eq_proof K G ch (hp_1 K G p) eval eval_blind eval blind_v (lr_eq lr) t in
  Ok (mkZL p1 p2 comm_x comm_y comm_z prod eq, ru, rv, x, y, snd g2, t)))))))).
(** libra/src/libra_zk_linear_gkr.rs:88-207, the prover's loop, d counting down to 1. The result holds the last points, values and blinds;
    without a round they are gu, gv and zeros (lines 72-85). `result_u` becomes `fu` (line 180). *)
Fixpoint z_layers (p : hparams) (c : circuit) (evals : list (list K)) (d : nat) (lrs : nat -> lrand) (alpha beta : K) (gu gv : list K) (result_u result_v bclaim : K) (t : tr)
  : res (list zlayer * (list K * list K * K * K * K * K) * tr) :=
  match d with
  | O => Ok ([], (gu, gv, 0, 0, 0, 0), t)
  | S d' =>
      let lr := lrs d' in
      rbind (z_layer p c evals d' lr alpha beta gu gv result_u result_v bclaim t) (fun '(pf, ru, rv, x, y, fu, t) =>
      match d' with
      | O => Ok ([pf], (ru, rv, x, y, lr_x lr, lr_y lr), t)
      | S _ => let '(al, t) := draw "challenge_alpha" t in let '(be, t) := draw "challenge_beta" t in
          rmap (fun '(pfs, s, t) => (pf :: pfs, s, t)) (z_layers p c evals d' lrs al be ru rv fu y (al * lr_x lr + be * lr_y lr) t)
      end)
  end.
(** libra/src/libra_zk_linear_gkr.rs:209-231 (and 233-255): the opening of the witness at q[1..] and the equality proof. *)
Definition z_open (p : hparams) (wv wb q : list K) (v bv : K) (e : erand K) (t : tr) : res (dproof K G * G * eproof K G * tr) :=
  match q with
  | [] => Panic
  | q0 :: pt =>
      rbind (eval_value K wv pt) (fun ew =>
      rmap (fun '(pf, cy, t) => let '(eq, t) := eq_proof K G ch (pc_gen_1 K G (hp_pc K G p)) v bv v ((1 - q0) * er_blind K e) (er_eq K e) t in (pf, cy, eq, t))
        (reduce_prover K G ch (hp_pc K G p) wv wb pt ew e t))
  end.
(** libra/src/libra_zk_linear_gkr.rs:50-68, 280-286: the messages absorbed first (newest first). *)
Definition z_init (hash p_hash : K) (inputs outputs : list K) (cw : list G) : tr :=
  [MGs "comm_witness" cw; MFs "output" outputs; MFs "input" inputs; MF "params_to_hash" p_hash; MF "circuit_to_hash" hash].
(** libra/src/libra_zk_linear_gkr.rs:41-268 `ZKLinearGKRProof::prover`: [wr] gives the blinds of the witness commitment, [lrs] one record per
    layer; a circuit of depth 0 makes `circuit_evals.len() - 1` underflow. *)
Definition z_prove (p : hparams) (c : circuit) (inputs witnesses : list K) (hash p_hash : K) (wr : nat -> K) (lrs : nat -> lrand) (e0 e1 : erand K)
  : res (zgkr * list K) :=
  rbind (unwrap (evaluate K c inputs witnesses)) (fun evals =>
  match c_depth c with
  | O => Panic
  | S d =>
      rbind (vget K evals d) (fun out => rbind (lget c d) (fun top =>
      rbind (packing_poly_commit K G (mc_gens K G (pc_gen_n K G (hp_pc K G p))) witnesses (mc_h K G (pc_gen_n K G (hp_pc K G p))) wr true) (fun '(cw, wb) =>
      rbind (eval_output K G ch out (l_bits top) (z_init hash p_hash inputs out cw)) (fun '(ru, gu, t) =>
      rbind (z_layers p c evals d lrs 1 0 gu (repeat 0 (length gu)) ru 0 0 t) (fun '(pfs, (gu, gv, x, y, rx, ry), t) =>
      rbind (z_open p witnesses wb gu x rx e0 t) (fun '(pf0, y0, eq0, t) =>
      rmap (fun '(pf1, y1, eq1, t) => (mkZG cw pfs pf0 y0 eq0 pf1 y1 eq1, out)) (z_open p witnesses wb gv y ry e1 t)))))))
  end).

(** libra/src/libra_zk_linear_gkr.rs:313-386, the checks of one layer; `assert!` turns a failed check into a panic. Returns the two points. *)
Definition z_check_layer (p : hparams) (c : circuit) (d' : nat) (pf : zlayer) (comm_claim : G) (alpha beta : K) (gu gv : list K) (t : tr) : res (list K * list K * tr) :=
  rbind (lget c d') (fun lo => rbind (lget c (S d')) (fun hi =>
  let bits := l_bits lo in let g1 := hp_1 K G p in
  rbind (unwrap (sc_verify K G ch g1 (hp_3 K G p) (scp_polys K G (zl_one pf)) (scp_evals K G (zl_one pf)) (scp_proofs K G (zl_one pf)) comm_claim 3 bits t)) (fun '(ru, comm_claim, t) =>
  let t := MG "comm_x" (zl_x pf) :: t in
  rbind (unwrap (sc_verify K G ch g1 (hp_3 K G p) (scp_polys K G (zl_two pf)) (scp_evals K G (zl_two pf)) (scp_proofs K G (zl_two pf)) comm_claim 3 bits t)) (fun '(rv, comm_claim, t) =>
  let t := MG "comm_y" (zl_y pf) :: t in
  rbind (product_verify K G ch g1 (zl_prod pf) (zl_x pf) (zl_y pf) (zl_z pf) t) (fun '(ok, t) =>
  if negb ok then Panic else
  rbind (eval_operators (l_gates hi) gu gv ru rv alpha beta) (fun '(add, mul) =>
  let comm_final := gadd (gsm add (gadd (zl_x pf) (zl_y pf))) (gsm mul (zl_z pf)) in
  let '(ok, t) := eq_verify K G ch g1 comm_final comm_claim (zl_eq pf) t in
  if negb ok then Panic else Ok (ru, rv, t))))))).
(** libra/src/libra_zk_linear_gkr.rs:312-403, the verifier's loop: d counts down the layers still to be checked, as many as there are proofs
    left (line 311). Without a layer the points stay empty (lines 307-308). *)
Fixpoint z_check (p : hparams) (c : circuit) (pfs : list zlayer) (d : nat) (comm_claim : G) (alpha beta : K) (gu gv : list K) (t : tr)
  : res (list K * list K * G * G * tr) :=
  match d, pfs with
  | O, _ => Ok ([], [], comm_claim, comm_claim, t)
  | S _, [] => Panic
  | S d', pf :: pfs =>
      rbind (z_check_layer p c d' pf comm_claim alpha beta gu gv t) (fun '(ru, rv, t) =>
      match d' with
      | O => Ok (ru, rv, zl_x pf, zl_y pf, t)
      | S _ => let '(al, t) := draw "challenge_alpha" t in let '(be, t) := draw "challenge_beta" t in
          z_check p c pfs d' (gadd (gsm al (zl_x pf)) (gsm be (zl_y pf))) al be ru rv t
      end)
  end.
(** libra/src/libra_zk_linear_gkr.rs:412-438 (and 439-465): the check of one of the two evaluations of the input layer; [inputs] is padded. *)
Definition z_opened (p : hparams) (inputs : list K) (cw : list G) (q : list K) (commit : G) (pf : dproof K G) (cy : G) (eq : eproof K G) (t : tr) : res tr :=
  match q with
  | [] => Panic
  | q0 :: pt =>
      rbind (reduce_verifier K G ch (hp_pc K G p) pt cw cy pf t) (fun '(ok, t) =>
      if negb ok then Panic else
      rbind (eval_value K inputs pt) (fun ei =>
      let g1 := pc_gen_1 K G (hp_pc K G p) in
      let z := gadd (gsm (1 - q0) cy) (gsm q0 (com g1 [ei] 0)) in
      let '(ok, t) := eq_verify K G ch g1 commit z eq t in
      if negb ok then Panic else Ok t))
  end.
(** libra/src/libra_zk_linear_gkr.rs:405-410: the inputs padded to half of the input layer; too many of them, or a layer of zero bits, underflow. *)
Definition z_inputs (bits : nat) (inputs : list K) : res (list K) :=
  match bits with O => Panic | S b => if Nat.ltb (2 ^ b) (length inputs) then Panic else Ok (inputs ++ repeat 0 (2 ^ b - length inputs)) end.
(** libra/src/libra_zk_linear_gkr.rs:271-469 `ZKLinearGKRProof::verify`: the result is `true` or a panic. *)
Definition z_verify (p : hparams) (c : circuit) (outputs inputs : list K) (hash p_hash : K) (pf : zgkr) : res bool :=
  match c_depth c with
  | O => Panic
  | S d =>
      rbind (lget c d) (fun top =>
      rbind (eval_output K G ch outputs (l_bits top) (z_init hash p_hash inputs outputs (zg_witness pf))) (fun '(ru, gu, t) =>
      let comm_claim := com (pc_gen_1 K G (hp_pc K G p)) [1 * ru + 0 * 0] 0 in
      if negb (Nat.eqb d (length (zg_proofs pf))) then Panic else
      rbind (z_check p c (zg_proofs pf) d comm_claim 1 0 gu gu t) (fun '(ru, rv, cx, cy, t) =>
      rbind (lget c 0) (fun l0 =>
      rbind (z_inputs (l_bits l0) inputs) (fun inp =>
      rbind (z_opened p inp (zg_witness pf) ru cx (zg_prod0 pf) (zg_y0 pf) (zg_eq0 pf) t) (fun t =>
      rmap (fun _ => true) (z_opened p inp (zg_witness pf) rv cy (zg_prod1 pf) (zg_y1 pf) (zg_eq1 pf) t)))))))
  end.
End S.
