(** Model of the sigma protocols of spartan (prover.rs, verify.rs, inner_product.rs, commitments.rs) and of their copies in
    libra/src/commitment.rs and hyrax/src/commitment.rs. No proofs.
    Affine/projective conversions are identities; every value drawn from the random generator is an argument; `to_bytes!` does not
    fail; multi-scalar multiplication pairs scalars with points up to the shorter list (ark_ec VariableBaseMSM). *)
From Verif Require Export Field Poly Module ModelTranscript ModelBulletproofs ModelPC ModelMle ModelLibra.
Local Open Scope string_scope.
Local Open Scope list_scope.
Local Open Scope fld_scope.
Section S.
Variable K : Fld.
Variable G : Grp K.
Variable ch : oracle K G.
Notation tr := (transcript K G).
Notation draw := (draw K G ch).
Notation draws := (draws K G ch).

(** spartan/src/data_structure.rs:18-22, libra/src/params.rs:92-96 `MultiCommitment(Setup)Parameters`; the field `n` is not read by the protocols. *)
Record mcp := mkMcp { mc_gens : list G; mc_h : G }.
(** spartan/src/data_structure.rs:11-15, libra/src/params.rs:45-49 `PolyCommitment(Setup)Parameters`. *)
Record pcp := mkPcp { pc_n : nat; pc_gen_n : mcp; pc_gen_1 : mcp }.

(** spartan/src/commitments.rs:42-56, libra/src/evaluate.rs:130-142 `poly_commit_vec`. *)
Definition poly_commit_vec (gens : list G) (values : list K) (h : G) (blind : K) : G := gadd (msm gens values) (gsm blind h).

(** spartan/src/data_structure.rs:229-233, libra/src/commitment.rs:62-66 `KnowledgeProof`. *)
Record kproof := mkKP { kp_t : G; kp_z1 : K; kp_z2 : K }.
(** spartan/src/prover.rs:829-863 `knowledge_proof`, libra/src/commitment.rs:69-93 `KnowledgeProof::prover`. *)
Definition knowledge_proof (p : mcp) (claim blind t1 t2 : K) (t : tr) : kproof * G * tr :=
  let claim_commit := poly_commit_vec (mc_gens p) [claim] (mc_h p) blind in
  let t := MG "C" claim_commit :: t in
  let t_commit := poly_commit_vec (mc_gens p) [t1] (mc_h p) t2 in
  let t := MG "alpha" t_commit :: t in
  let '(c, t) := draw "c" t in
  (mkKP t_commit (claim * c + t1) (blind * c + t2), claim_commit, t).
(** spartan/src/verify.rs:408-426 `knowledge_verify`, libra/src/commitment.rs:95-109. *)
Definition knowledge_verify (p : mcp) (pf : kproof) (commit : G) (t : tr) : bool * tr :=
  let t := MG "alpha" (kp_t pf) :: MG "C" commit :: t in
  let '(c, t) := draw "c" t in
  let lhs := poly_commit_vec (mc_gens p) [kp_z1 pf] (mc_h p) (kp_z2 pf) in
  (geqb lhs (gadd (gsm c commit) (kp_t pf)), t).

(** spartan/src/data_structure.rs:236-241, libra/src/commitment.rs:113-118 `ProductProof`. *)
Record pproof := mkPP { pp_alpha : G; pp_beta : G; pp_delta : G; pp_z : list K }.
(** spartan/src/prover.rs:865-930 `product_proof`, libra/src/commitment.rs:121-169: five random values. *)
Definition product_proof (p : mcp) (claim_a blind_a claim_b blind_b prod blind_prod b1 b2 b3 b4 b5 : K) (t : tr) : pproof * G * G * G * tr :=
  let a_commit := poly_commit_vec (mc_gens p) [claim_a] (mc_h p) blind_a in
  let b_commit := poly_commit_vec (mc_gens p) [claim_b] (mc_h p) blind_b in
  let prod_commit := poly_commit_vec (mc_gens p) [prod] (mc_h p) blind_prod in
  let t := MG "Z" prod_commit :: MG "Y" b_commit :: MG "X" a_commit :: t in
  let alpha := poly_commit_vec (mc_gens p) [b1] (mc_h p) b2 in
  let beta := poly_commit_vec (mc_gens p) [b3] (mc_h p) b4 in
  let delta := poly_commit_vec [a_commit] [b3] (mc_h p) b5 in
  let t := MG "delta" delta :: MG "beta" beta :: MG "alpha" alpha :: t in
  let '(c, t) := draw "c" t in
  let z := [b1 + c * claim_a; b2 + c * blind_a; b3 + c * claim_b; b4 + c * blind_b; b5 + c * (blind_prod - blind_a * claim_b)] in
  (mkPP alpha beta delta z, a_commit, b_commit, prod_commit, t).
(** spartan/src/verify.rs:428-466 `product_verify`, libra/src/commitment.rs:171-209: reading z[0] to z[4] panics on a shorter vector. *)
Definition product_verify (p : mcp) (pf : pproof) (va vb prod : G) (t : tr) : res (bool * tr) :=
  match pp_z pf with
  | z1 :: z2 :: z3 :: z4 :: z5 :: _ =>
      let t := MG "delta" (pp_delta pf) :: MG "beta" (pp_beta pf) :: MG "alpha" (pp_alpha pf) :: MG "Z" prod :: MG "Y" vb :: MG "X" va :: t in
      let '(c, t) := draw "c" t in
      let rs1 := geqb (gadd (pp_alpha pf) (gsm c va)) (poly_commit_vec (mc_gens p) [z1] (mc_h p) z2) in
      let rs2 := geqb (gadd (pp_beta pf) (gsm c vb)) (poly_commit_vec (mc_gens p) [z3] (mc_h p) z4) in
      let rs3 := geqb (gadd (pp_delta pf) (gsm c prod)) (poly_commit_vec [va] [z3] (mc_h p) z5) in
      Ok (rs1 && rs2 && rs3, t)
  | _ => Panic
  end.

(** spartan/src/data_structure.rs:244-247, libra/src/commitment.rs:13-16 `EqProof`. *)
Record eproof := mkEP { ep_alpha : G; ep_z : K }.
(** spartan/src/prover.rs:932-964 `eq_proof`, libra/src/commitment.rs:19-40. *)
Definition eq_proof (p : mcp) (claim1 blind1 claim2 blind2 r : K) (t : tr) : eproof * tr :=
  let c1 := poly_commit_vec (mc_gens p) [claim1] (mc_h p) blind1 in
  let c2 := poly_commit_vec (mc_gens p) [claim2] (mc_h p) blind2 in
  let alpha := gsm r (mc_h p) in
  let t := MG "alpha" alpha :: MG "C2" c2 :: MG "C1" c1 :: t in
  let '(c, t) := draw "c" t in
  (mkEP alpha (c * (blind1 - blind2) + r), t).
(** spartan/src/verify.rs:468-489 `eq_verify`, libra/src/commitment.rs:42-59. *)
Definition eq_verify (p : mcp) (commit1 commit2 : G) (pf : eproof) (t : tr) : bool * tr :=
  let t := MG "alpha" (ep_alpha pf) :: MG "C2" commit2 :: MG "C1" commit1 :: t in
  let '(c, t) := draw "c" t in
  let commits := gadd commit1 (gopp commit2) in
  (geqb (gsm (ep_z pf) (mc_h p)) (gadd (gsm c commits) (ep_alpha pf)), t).

(** spartan/src/data_structure.rs:168-174 `SumCheckEvalProof`. *)
Record seproof := mkSE { se_d : G; se_dot : G; se_z : list K; se_zdelta : K; se_zbeta : K }.
(** The coefficients of spartan/src/prover.rs:769-775 and verify.rs:369-375: w0 + w1 r^i, and w0 once more at position 0
    (`coeffs[0]` would panic for size 0; the callers pass 3 or 4). *)
Definition sc_coeffs (w0 w1 r : K) (size : nat) : list K :=
  map (fun i => w0 + w1 * fpow r i + (if Nat.eqb i 0 then w0 else 0)) (seq 0 size).
(** spartan/src/prover.rs:725-827 `sum_check_eval_prover`. [poly] is written into `size` zeros, so a longer one panics;
    [d_vec] stands for the `size` random values. *)
Definition sum_check_eval_prover (g1 gn : mcp) (poly : list K) (poly_commit : G) (blind_poly claim blind_claim eval blind_eval : K) (size : nat) (r : K)
    (d_vec : list K) (r_delta r_beta : K) (t : tr) : res (seproof * tr) :=
  let '(w0, t) := draw "combine_two_claims_to_one" t in
  let '(w1, t) := draw "combine_two_claims_to_one" t in
  if Nat.ltb size (length poly) then Panic else
  let polynomial := poly ++ repeat 0 (size - length poly) in
  let claim_value := w0 * claim + w1 * eval in
  let blind := w0 * blind_claim + w1 * blind_eval in
  let coeffs := sc_coeffs w0 w1 r size in
  let t := MG "Cx" poly_commit :: t in
  let commit_claim_value := poly_commit_vec (mc_gens g1) [claim_value] (mc_h g1) blind in
  let t := MG "Cy" commit_claim_value :: t in
  let d_commit := poly_commit_vec (mc_gens gn) d_vec (mc_h gn) r_delta in
  let t := MG "delta" d_commit :: t in
  let dot_cd_commit := poly_commit_vec (mc_gens g1) [dot coeffs d_vec] (mc_h g1) r_beta in
  let t := MG "beta" dot_cd_commit :: t in
  let '(c, t) := draw "c" t in
  Ok (mkSE d_commit dot_cd_commit (map (fun '(x, d) => c * x + d) (combine polynomial d_vec)) (c * blind_poly + r_delta) (c * blind + r_beta), t).
(** spartan/src/verify.rs:339-406 `sum_check_eval_verify`: z[i] for i < size panics when z is too short. *)
Definition sum_check_eval_verify (g1 gn : mcp) (commit_poly commit_eval commit_claim : G) (pf : seproof) (r : K) (size : nat) (t : tr) : res (bool * tr) :=
  let '(w0, t) := draw "combine_two_claims_to_one" t in
  let '(w1, t) := draw "combine_two_claims_to_one" t in
  let commit_claim_value := gadd (gsm w0 commit_claim) (gsm w1 commit_eval) in
  let t := MG "beta" (se_dot pf) :: MG "delta" (se_d pf) :: MG "Cy" commit_claim_value :: MG "Cx" commit_poly :: t in
  let '(c, t) := draw "c" t in
  let coeffs := sc_coeffs w0 w1 r size in
  let rs1 := geqb (gadd (gsm c commit_poly) (se_d pf)) (poly_commit_vec (mc_gens gn) (se_z pf) (mc_h gn) (se_zdelta pf)) in
  if Nat.ltb (length (se_z pf)) size then Panic else
  let sum := dot coeffs (se_z pf) in
  let rs2 := geqb (gadd (gsm c commit_claim_value) (se_dot pf)) (poly_commit_vec (mc_gens g1) [sum] (mc_h g1) (se_zbeta pf)) in
  Ok (rs1 && rs2, t).

(** spartan/src/inner_product.rs:34-84, libra/src/commitment.rs:513-554: the folding loop; [fuel] bounds the number of halvings.
    `split_at` and indexing panic when there are fewer than 2 * (n / 2) generators; generators behind them are dropped after the first round. *)
Fixpoint bullet_loop (fuel : nat) (g : list G) (q h : G) (a b : list K) (blind : K) (blinds : list (K * K)) (t : tr) : res (list G * list G * list K * list K * list G * K * tr) :=
  match fuel with
  | O => Panic
  | S f =>
      if Nat.leb (length a) 1 then Ok ([], [], a, b, g, blind, t)
      else
        let n := Nat.div2 (length a) in
        let al := firstn n a in let ar := skipn n a in
        let bl := firstn n b in let br := skipn n b in
        rbind (inner_product K al br) (fun cl =>
        rbind (inner_product K ar bl) (fun cr =>
        if Nat.ltb (length g) (2 * n) then Panic else
        let gl := firstn n g in let gr := skipn n g in
        match blinds with
        | [] => Panic
        | (blind_l, blind_r) :: blinds =>
            let l := gadd (msm gr al) (msm [q; h] [cl; blind_l]) in
            let r := gadd (msm gl ar) (msm [q; h] [cr; blind_r]) in
            let t := MG "R" r :: MG "L" l :: t in
            let '(x, t) := draw "x" t in
            if feqb x 0 then Panic else
            let xi := finv x in
            rbind (bullet_loop f (glin2 K G xi x gl gr) q h (lin2 K x xi al ar) (lin2 K xi x bl br) (blind + x * x * blind_l + xi * xi * blind_r) blinds t)
              (fun '(ls, rs, a, b, g, blind, t) => Ok (l :: ls, r :: rs, a, b, g, blind, t))
        end))
  end.
(** spartan/src/inner_product.rs:12-102 `bullet_inner_product_proof`, libra/src/commitment.rs:489-570 `BulletReduceProof::prover`
    (which also returns a gamma_hat that its caller drops). *)
Definition bullet_proof (g : list G) (q h : G) (a b : list K) (gamma_blind : K) (blinds : list (K * K)) (t : tr) : res (list G * list G * K * K * G * K * tr) :=
  let n := length a in
  if negb (is_pow2 n) then Panic else if negb (Nat.eqb n (length b)) then Panic else
  rbind (bullet_loop n g q h a b gamma_blind blinds t) (fun '(ls, rs, a, b, g, blind, t) =>
  match a, b, g with [x], [y], z :: _ => Ok (ls, rs, x, y, z, blind, t) | _, _, _ => Panic end).
(** spartan/src/inner_product.rs:118-130, libra/src/commitment.rs:585-596: the challenges; a zero challenge panics in `inverse().unwrap()`. *)
Fixpoint bullet_challenges (ls rs : list G) (t : tr) : res (list K * tr) :=
  match ls, rs with
  | l :: ls, r :: rs =>
      let t := MG "R" r :: MG "L" l :: t in
      let '(x, t) := draw "x" t in
      if feqb x 0 then Panic else rbind (bullet_challenges ls rs t) (fun '(xs, t) => Ok (x :: xs, t))
  | _, _ => Ok ([], t)
  end.
(** spartan/src/inner_product.rs:104-155 `bullet_inner_product_verify`, libra/src/commitment.rs:572-617: the length 1 << lg_n is taken
    from the proof; shorter vectors panic, longer ones are cut. The shift does not wrap here (in Rust it does from 64 rounds on). *)
Definition bullet_verify (g : list G) (ls rs : list G) (gamma : G) (b : list K) (t : tr) : res (K * G * G * tr) :=
  let lg_n := length ls in
  let n := (2 ^ lg_n)%nat in
  if negb (Nat.eqb lg_n (length rs)) then Panic else
  rbind (bullet_challenges ls rs t) (fun '(xs, t) =>
  let x_sq := map (fun x => x * x) xs in
  let x_inv_sq := map (fun x => finv x * finv x) xs in
  let allinv := fold_left (fun acc x => acc * finv x) xs 1 in
  let s := s_vec K lg_n allinv x_sq in
  if Nat.ltb (length b) n || Nat.ltb (length g) n then Panic else
  Ok (dot b s, msm g s, gadd (gadd (msm ls x_sq) (msm rs x_inv_sq)) gamma, t)).

(** spartan/src/data_structure.rs:250-262 `DotProductProof`, libra/src/commitment.rs:325-331, 483-486 `LogDotProductProof`. *)
Record dproof := mkDP { dp_l : list G; dp_r : list G; dp_delta : G; dp_beta : G; dp_z1 : K; dp_z2 : K }.
(** ark_std::log2: the logarithm rounded up, 0 for 0. *)
Definition log2c (n : nat) : nat := Nat.log2_up n.
(** spartan/src/prover.rs:1013-1059, libra/src/commitment.rs:334-390 `LogDotProductProof::prover`: the proof that <lz, r_eq> = eval.
    Libra also asserts params.n >= the length, and hands gen_1.h instead of gen_n.h to the folding; setup makes the two equal.
    [lbl] is the label of the last challenge: "challenge_tau" in spartan, "c" in libra and hyrax. *)
Definition log_dot_prove (lbl : string) (p : pcp) (lz r_eq : list K) (lz_blind ry_blind eval d r_delta r_beta : K) (blinds : list (K * K)) (t : tr) : res (dproof * G * G * tr) :=
  let commit_lz := poly_commit_vec (mc_gens (pc_gen_n p)) lz (mc_h (pc_gen_n p)) lz_blind in
  let t := MG "Cx" commit_lz :: t in
  let commit_ry := poly_commit_vec (mc_gens (pc_gen_1 p)) [eval] (mc_h (pc_gen_1 p)) ry_blind in
  let t := MG "Cy" commit_ry :: t in
  match mc_gens (pc_gen_1 p) with
  | [] => Panic
  | q :: _ =>
      rbind (bullet_proof (mc_gens (pc_gen_n p)) q (mc_h (pc_gen_n p)) lz r_eq (lz_blind + ry_blind) blinds t) (fun '(ls, rs, a, b, g, blind_fin, t) =>
      let delta := poly_commit_vec [g] [d] (mc_h (pc_gen_1 p)) r_delta in
      let t := MG "delta" delta :: t in
      let beta := poly_commit_vec (mc_gens (pc_gen_1 p)) [d] (mc_h (pc_gen_1 p)) r_beta in
      let t := MG "beta" beta :: t in
      let '(c, t) := draw lbl t in
      Ok (mkDP ls rs delta beta (d + c * (a * b)) (b * (c * blind_fin + r_beta) + r_delta), commit_lz, commit_ry, t))
  end.
(** spartan/src/verify.rs:511-535, libra/src/commitment.rs:392-422 `LogDotProductProof::verify`. *)
Definition log_dot_verify (lbl : string) (p : pcp) (commit_lz commit_ry : G) (r_eq : list K) (pf : dproof) (t : tr) : res (bool * tr) :=
  let t := MG "Cy" commit_ry :: MG "Cx" commit_lz :: t in
  let gamma := gadd commit_lz commit_ry in
  rbind (bullet_verify (mc_gens (pc_gen_n p)) (dp_l pf) (dp_r pf) gamma r_eq t) (fun '(b_s, g_hat, gamma_hat, t) =>
  let t := MG "beta" (dp_beta pf) :: MG "delta" (dp_delta pf) :: t in
  let '(c, t) := draw lbl t in
  match mc_gens (pc_gen_1 p) with
  | [] => Panic
  | q :: _ =>
      let lhs := gadd (gsm b_s (gadd (gsm c gamma_hat) (dp_beta pf))) (dp_delta pf) in
      let rhs := gadd (gsm (dp_z1 pf) (gadd g_hat (gsm b_s q))) (gsm (dp_z2 pf) (mc_h (pc_gen_1 p))) in
      Ok (geqb lhs rhs, t)
  end).

(** The rows of [poly], r_size entries each, and their combination with l_eq (spartan/src/prover.rs:993-999,
    libra/src/commitment.rs:446-452): reading poly[i * r_size + j] panics when [poly] is too short. *)
Definition row_comb (l_eq poly : list K) (r_size : nat) : list K :=
  map (fun j => fsum (map (fun i => nth i l_eq 0 * nth (i * r_size + j) poly 0) (seq 0 (length l_eq)))) (seq 0 r_size).
(** spartan/src/prover.rs:966-1060 `inner_product_proof`: empty [blind_poly] means zero blinds. Libra's `reduce_prover` (commitment.rs:424-459)
    is the same without the protocol name. The constant protocol-name message is one [MU] label. *)
Definition inner_product_proof (p : pcp) (poly blind_poly ry : list K) (ry_blind eval d r_delta r_beta : K) (blind_vec : list (K * K)) (t : tr) : res (dproof * G * tr) :=
  let t := MU "protocol-name:polynomial evaluation proof" 0 :: t in
  let n := length poly in
  let size := log2c n in
  if negb (Nat.eqb (length ry) size) then Panic else
  let l_size := (2 ^ (size / 2))%nat in
  let r_size := (2 ^ (size - size / 2))%nat in
  let blinds := match blind_poly with [] => repeat 0 l_size | _ => blind_poly end in
  if negb (Nat.eqb l_size (length blinds)) then Panic else
  let l_eq := eval_eq K (firstn (size / 2) ry) in
  let r_eq := eval_eq K (skipn (size / 2) ry) in
  if Nat.ltb n (l_size * r_size) then Panic else
  rbind (log_dot_prove "challenge_tau" p (row_comb l_eq poly r_size) r_eq (dot l_eq blinds) ry_blind eval d r_delta r_beta blind_vec t)
    (fun '(pf, _, commit_ry, t) => Ok (pf, commit_ry, t)).
(** spartan/src/verify.rs:491-536 `inner_product_verify` (libra/src/commitment.rs:461-479 `reduce_verifier`): the number of row commitments is not checked. *)
Definition inner_product_verify (p : pcp) (ry : list K) (commits : list G) (commit_ry : G) (pf : dproof) (t : tr) : res (bool * tr) :=
  let t := MU "protocol-name:polynomial evaluation proof" 0 :: t in
  let size := length ry in
  let l_eq := eval_eq K (firstn (size / 2) ry) in
  let r_eq := eval_eq K (skipn (size / 2) ry) in
  let commit_lz := poly_commit_vec commits l_eq (mc_h (pc_gen_1 p)) 0 in
  log_dot_verify "challenge_tau" p commit_lz commit_ry r_eq pf t.
(** spartan/src/commitments.rs:10-40, libra/src/evaluate.rs:144-176 `packing_poly_commit`: [rnd i] is the i-th random blind. *)
Definition packing_poly_commit (gens : list G) (values : list K) (h : G) (rnd : nat -> K) (is_blind : bool) : res (list G * list K) :=
  let n := length values in
  let size := log2c n in
  let l_size := (2 ^ (size / 2))%nat in
  let r_size := (2 ^ (size - size / 2))%nat in
  if negb (Nat.eqb n (l_size * r_size)) then Panic else
  let blinds := map (fun i => if is_blind then rnd i else 0) (seq 0 l_size) in
  Ok (map (fun i => poly_commit_vec gens (firstn r_size (skipn (i * r_size) values)) h (nth i blinds 0)) (seq 0 l_size), blinds).

(** libra/src/commitment.rs:212-218 `DotProductProof` (the linear-size one; the same in hyrax). *)
Record lproof := mkLPf { ld_z : list K; ld_delta : G; ld_beta : G; ld_zdelta : K; ld_zbeta : K }.
(** libra/src/commitment.rs:221-280 `DotProductProof::prover`: the products a_i d_i are multiplied together, and the transcript
    receives the two claim commitments again under the labels "delta" and "beta". *)
Definition dot_product_prover (p : pcp) (x_vec : list K) (blind_x : K) (a_vec : list K) (y blind_y : K) (d_vec : list K) (r_beta r_delta : K) (t : tr) : res (lproof * G * G * tr) :=
  if negb (Nat.eqb (length a_vec) (length x_vec)) then Panic else
  if Nat.ltb (pc_n p) (length a_vec) then Panic else
  let comm_x := poly_commit_vec (mc_gens (pc_gen_n p)) x_vec (mc_h (pc_gen_n p)) blind_x in
  let comm_y := poly_commit_vec (mc_gens (pc_gen_1 p)) [y] (mc_h (pc_gen_1 p)) blind_y in
  let delta := poly_commit_vec (mc_gens (pc_gen_n p)) d_vec (mc_h (pc_gen_n p)) r_delta in
  let beta := poly_commit_vec (mc_gens (pc_gen_1 p)) [fprod (map (fun '(a, d) => a * d) (combine a_vec d_vec))] (mc_h (pc_gen_1 p)) r_beta in
  let t := MG "beta" comm_y :: MG "delta" comm_x :: MG "Cy" comm_y :: MG "Cx" comm_x :: t in
  let '(c, t) := draw "c" t in
  Ok (mkLPf (map (fun '(x, d) => c * x + d) (combine x_vec d_vec)) delta beta (c * blind_x + r_delta) (c * blind_y + r_beta), comm_x, comm_y, t).
(** libra/src/commitment.rs:282-321 `DotProductProof::verify`: z_vec[i] for i < a_vec.len() panics when z_vec is too short. *)
Definition dot_product_verify (p : pcp) (pf : lproof) (comm_x comm_y : G) (a_vec : list K) (t : tr) : res (bool * tr) :=
  let t := MG "beta" (ld_beta pf) :: MG "delta" (ld_delta pf) :: MG "Cy" comm_y :: MG "Cx" comm_x :: t in
  let '(c, t) := draw "c" t in
  let rs1 := geqb (gadd (gsm c comm_x) (ld_delta pf)) (poly_commit_vec (mc_gens (pc_gen_n p)) (ld_z pf) (mc_h (pc_gen_n p)) (ld_zdelta pf)) in
  if Nat.ltb (length (ld_z pf)) (length a_vec) then Panic else
  let prod := fprod (map (fun '(a, z) => z * a) (combine a_vec (ld_z pf))) in
  let rs2 := geqb (gadd (gsm c comm_y) (ld_beta pf)) (poly_commit_vec (mc_gens (pc_gen_1 p)) [prod] (mc_h (pc_gen_n p)) (ld_zbeta pf)) in
  Ok (rs1 && rs2, t).
End S.
