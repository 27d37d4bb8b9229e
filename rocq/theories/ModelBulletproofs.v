(** Model of bulletproofs/src: inner-product argument and arithmetic-circuit protocol. No proofs.
    Affine/projective conversions are identities; randomness is passed in; multi-scalar multiplication
    pairs scalars with points up to the shorter list (ark_ec VariableBaseMSM). *)
From Verif Require Import Field Module ModelTranscript ModelLC ModelCS.
Local Open Scope fld_scope.

Section BP.
Variable K : Fld.
Variable G : Grp K.
Variable ch : oracle K G.
Notation tr := (transcript K G).

(** lib.rs:303-308 `quick_multiexp`. *)
Definition quick_multiexp (ks : list K) (gs : list G) : G := msm gs ks.
(** lib.rs:114-125 `inner_product`. *)
Definition inner_product (a b : list K) : res K := if Nat.eqb (length a) (length b) then Ok (dot a b) else Panic.
(** lib.rs:98-107 `hadamard_product`. *)
Definition hadamard_product (a b : list K) : res (list K) :=
  if Nat.eqb (length a) (length b) then Ok (map (fun '(x, y) => x * y) (combine a b)) else Panic.

(** usize::is_power_of_two. *)
Definition is_pow2 (n : nat) : bool := negb (Nat.eqb n 0) && Nat.eqb (2 ^ Nat.log2 n) n.
(** usize::next_power_of_two. *)
Definition next_pow2 (n : nat) : nat := (2 ^ Nat.log2_up n)%nat.

(** inner_product_proof.rs:13-19 *)
Record ipp := mkIpp { L_vec : list G; R_vec : list G; ip_a : K; ip_b : K }.

(** inner_product_proof.rs:34-40, 123-129: the header absorbed by both sides. *)
Definition ipp_header (t : tr) (n : nat) (u P : G) (g h : list G) : tr :=
  MGs "h_vec" h :: MGs "g_vec" g :: MG "P" P :: MG "u" u :: MU "n" n :: t.
Definition lin2 (x y : K) (a b : list K) : list K := map (fun '(p, q) => p * x + q * y) (combine a b).
Definition glin2 (x y : K) (a b : list G) : list G := map (fun '(p, q) => gadd (gsm x p) (gsm y q)) (combine a b).
(** inner_product_proof.rs:46-99: the folding loop, `while n > 1`; [fuel] bounds the number of
    halvings (the initial length is always enough). Returns L_vec, R_vec, and the last vectors. `split_at` and indexing
    the right halves panic when a generator vector is shorter than 2 * (n / 2). *)
Fixpoint ipp_loop (fuel : nat) (t : tr) (g h : list G) (u : G) (a b : list K) : res (list G * list G * list K * list K) :=
  match fuel with
  | O => Panic
  | S f =>
      if Nat.leb (length a) 1 then Ok ([], [], a, b)
      else
        let n := Nat.div2 (length a) in
        let aL := firstn n a in let aR := skipn n a in
        let bL := firstn n b in let bR := skipn n b in
        rbind (inner_product aL bR) (fun cL =>
        rbind (inner_product aR bL) (fun cR =>
        if Nat.ltb (length g) (2 * n) || Nat.ltb (length h) (2 * n) then Panic else
        let gL := firstn n g in let gR := skipn n g in
        let hL := firstn n h in let hR := skipn n h in
        let L := gadd (gadd (quick_multiexp aL gR) (quick_multiexp bR hL)) (gsm cL u) in
        let R := gadd (gadd (quick_multiexp aR gL) (quick_multiexp bL hR)) (gsm cR u) in
        let t := MG "R" R :: MG "L" L :: t in
        let x := ch "x"%string t in
        let t := MCh "x" :: t in
        if feqb x 0 then Panic else
        let xi := finv x in
        rbind (ipp_loop f t (glin2 xi x gL gR) (glin2 x xi hL hR) u (lin2 x xi aL aR) (lin2 xi x bL bR)) (fun '(Ls, Rs, a', b') =>
        Ok (L :: Ls, R :: Rs, a', b'))))
  end.
(** inner_product_proof.rs:22-111 `prove`. *)
Definition ipp_prove (t : tr) (g h : list G) (u P : G) (a b : list K) : res ipp :=
  let n := length a in
  if negb (is_pow2 n) then Panic else if negb (Nat.eqb n (length b)) then Panic else
  rbind (ipp_loop n (ipp_header t n u P g h) g h u a b) (fun '(Ls, Rs, a', b') =>
  match a', b' with [x], [y] => Ok (mkIpp Ls Rs x y) | _, _ => Panic end).

(** inner_product_proof.rs:131-147: the challenges of the verifier (index order = creation order); a zero challenge panics. *)
Fixpoint ipp_challenges (t : tr) (Ls Rs : list G) : res (list K) :=
  match Ls, Rs with
  | L :: Ls', R :: Rs' =>
      let t := MG "R" R :: MG "L" L :: t in
      let x := ch "x"%string t in
      if feqb x 0 then Panic else rbind (ipp_challenges (MCh "x" :: t) Ls' Rs') (fun xs => Ok (x :: xs))
  | _, _ => Ok []
  end.
(** inner_product_proof.rs:152-159: for i in 1..n push s[i - 2^lg i] * x_sq[lg_n - 1 - lg i]; both reads are always in range. *)
Definition s_step (lg_n : nat) (x_sq : list K) (s : list K) (i : nat) : list K :=
  let lg_i := Nat.log2 i in
  s ++ [nth (i - 2 ^ lg_i) s 0 * nth (lg_n - 1 - lg_i) x_sq 0].
Definition s_vec (lg_n : nat) (allinv : K) (x_sq : list K) : list K :=
  fold_left (s_step lg_n x_sq) (seq 1 (2 ^ lg_n - 1)) [allinv].
(** inner_product_proof.rs:113-174 `verify`. The length 1 << lg_n is not compared with the generator vectors. *)
Definition ipp_verify (t : tr) (g h : list G) (u P : G) (pf : ipp) : res bool :=
  let lg_n := length (L_vec pf) in
  let n := (2 ^ lg_n)%nat in
  if negb (Nat.eqb lg_n (length (R_vec pf))) then Panic else
  rbind (ipp_challenges (ipp_header t n u P g h) (L_vec pf) (R_vec pf)) (fun xs =>
  let x_sq := map (fun x => x * x) xs in
  let x_inv_sq := map (fun x => finv x * finv x) xs in
  let allinv := fold_left (fun acc x => acc * finv x) xs 1 in
  let s := s_vec lg_n allinv x_sq in
  let inv_s := rev s in
  let a_s := map (fun y => ip_a pf * y) s in
  let b_s := map (fun y => ip_b pf * y) inv_s in
  let lhs := gadd (gadd (quick_multiexp a_s g) (quick_multiexp b_s h)) (gsm (ip_a pf * ip_b pf) u) in
  let rhs := gadd (gadd (quick_multiexp x_sq (L_vec pf)) (quick_multiexp x_inv_sq (R_vec pf))) P in
  Ok (geqb lhs rhs)).

(** arithmetic_circuit.rs:104-115 *)
Record gens := mkGens { g_vec_N : list G; h_vec_N : list G; gg : G; gh : G; gu : G; gn : nat; gN : nat; gk : nat; gn_w : nat }.
(** arithmetic_circuit.rs:117-125; the maps are keyed by (row, column), newest binding first; u32 casts of indices are identities. *)
Definition cmap := list (nat * nat * K).
Fixpoint map_get (m : cmap) (i j : nat) : K :=
  match m with [] => 0 | (a, b, x) :: r => if Nat.eqb a i && Nat.eqb b j then x else map_get r i j end.
Record r1cs := mkR1cs { CL : list (list K); CR : list (list K); CO : list (list K); CL_T : cmap; CR_T : cmap; CO_T : cmap }.
Definition mat_at (m : list (list K)) (i j : nat) : K := nth j (nth i m []) 0.
(** arithmetic_circuit.rs:128-150 `matrix_to_map`: the nonzero entries (insertion order is irrelevant, keys are distinct). *)
Definition map_of (m : list (list K)) : cmap :=
  concat (map (fun i => concat (map (fun j => if feqb (mat_at m i j) 0 then [] else [(i, j, mat_at m i j)]) (seq 0 (length (nth 0 m []))))) (seq 0 (length m))).
Definition matrix_to_map (c : r1cs) : r1cs := mkR1cs (CL c) (CR c) (CO c) (map_of (CL c)) (map_of (CR c)) (map_of (CO c)).

(** arithmetic_circuit.rs:227-250: `C[i][index] = coeff` for the terms of one row in order: a later
    term for the same variable replaces an earlier one. *)
Fixpoint row_fill (ni : nat) (l : lc K) (row : list K) : res (list K) :=
  match l with
  | [] => Ok row
  | (v, c) :: r => let j := match v with Input i => i | Aux i => (ni + i)%nat end in
      if Nat.ltb j (length row) then row_fill ni r (upd_at j (fun _ => c) row) else Panic
  end.
Fixpoint rows_fill (ni na : nat) (ls : list (lc K)) : res (list (list K)) :=
  match ls with
  | [] => Ok []
  | l :: r => rbind (row_fill ni l (repeat 0 na)) (fun row => rbind (rows_fill ni na r) (fun rows => Ok (row :: rows)))
  end.
(** lib.rs:82-96 `vector_matrix_product_t`: out[row] = sum over columns; all rows must have the length of v. *)
Definition vector_matrix_product_t (v : list K) (m : list (list K)) : res (list K) :=
  if forallb (fun row => Nat.eqb (length row) (length v)) m then Ok (map (fun row => dot row v) m) else Panic.
(** lib.rs:37-52 `vector_matrix_product`: out[col] = sum over rows of v[row] * m[row][col]. *)
Definition vector_matrix_product (v : list K) (m : list (list K)) : res (list K) :=
  match m with
  | [] => Panic
  | r0 :: _ => if Nat.eqb (length v) (length m) && forallb (fun row => Nat.eqb (length row) (length r0)) m
      then Ok (map (fun col => fsum (map (fun i => nth i v 0 * mat_at m i col) (seq 0 (length v)))) (seq 0 (length r0)))
      else Panic
  end.
(** lib.rs:55-66 `vector_map_product`. *)
Definition vector_map_product (v : list K) (ms : cmap) (n : nat) : list K :=
  map (fun col => fsum (map (fun row => nth row v 0 * map_get ms row col) (seq 0 (length v)))) (seq 0 n).
(** lib.rs:69-80 `vector_product`: product with a diagonal matrix; `ms[row]` is read only on the diagonal. *)
Definition vector_product (v ms : list K) (m n : nat) : res (list K) :=
  if negb (Nat.eqb (length v) n) then Panic else
  if Nat.ltb (length ms) (Nat.min m (length v)) then Panic else
  Ok (map (fun col => fsum (map (fun row => nth row v 0 * (if Nat.eqb row col then nth row ms 0 else 0)) (seq 0 (length v)))) (seq 0 m)).

(** arithmetic_circuit.rs:152-159 *)
Record assignment := mkAsg { aL : list K; aR : list K; aO : list K; as_s : list K; as_w : list K }.
(** arithmetic_circuit.rs:161-182 *)
Record bproof := mkBP { A_I : G; A_O : G; A_W : G; S_ : G; T_2 : G; T_3 : G; T_5 : G; T_6 : G; T_7 : G; T_8 : G; T_9 : G; T_10 : G;
  mu : K; tau_x : K; l_x : list K; r_x : list K; t_x : K; IPP : ipp; IPP_P : G }.
(** The values drawn from the random generator, arithmetic_circuit.rs:354-361, 491-498. *)
Record brand := mkRand { r_sL : list K; r_sR : list K; r_aI : K; r_aO : K; r_s : K; r_gamma : K;
  r_2 : K; r_3 : K; r_5 : K; r_6 : K; r_7 : K; r_8 : K; r_9 : K; r_10 : K }.

(** arithmetic_circuit.rs:335-352, 637-654: statement header; the dense matrices are absorbed. *)
Definition bp_header (gs : gens) (n N : nat) (c : r1cs) (s : list K) : tr :=
  [MFs "s" s; MFss "cO" (CO c); MFss "cR" (CR c); MFss "cL" (CL c); MGs "h_vec_N" (h_vec_N gs); MGs "g_vec_N" (g_vec_N gs);
   MG "u" (gu gs); MG "h" (gh gs); MG "g" (gg gs); MU "n_w" (gn_w gs); MU "k" (gk gs); MU "N" N; MU "n" n].
(** arithmetic_circuit.rs:410-419 / 671-679: c, c*y, c*y^2, ... *)
Fixpoint powers (c y : K) (n : nat) : list K := match n with O => [] | S m => c :: powers (c * y) y m end.
(** `inverse().unwrap()` of every element. *)
Definition inv_all (l : list K) : res (list K) := if existsb (fun x => feqb x 0) l then Panic else Ok (map finv l).
Definition pad (n : nat) (l : list K) : list K := firstn n l ++ repeat 0 (n - length l).
(** arithmetic_circuit.rs:434-445: WL/WR/WO = c on the diagonal; `WL[i][i]` needs n <= N. *)
Definition diag_mat (n N : nat) (c : K) : list (list K) :=
  map (fun i => map (fun j => if Nat.eqb i j then c else 0) (seq 0 N)) (seq 0 n).
(** Coefficient of C1/WV, arithmetic_circuit.rs:453-462. *)
Definition comb3 (zn zn2 : K) (a b c : K) : K := a + zn * b + zn2 * c.
(** lib.rs:204-210 `VecPoly5::eval`, as a function of the six coefficient vectors. *)
Definition vp5_eval (N : nat) (p : nat -> list K) (x : K) : list K :=
  map (fun i => nth i (p 0%nat) 0 + x * (nth i (p 1%nat) 0 + x * (nth i (p 2%nat) 0 + x * (nth i (p 3%nat) 0 + x * (nth i (p 4%nat) 0 + x * nth i (p 5%nat) 0))))) (seq 0 N).
Definition zipadd (a b : list K) : list K := map (fun '(x, y) => x + y) (combine a b).
Definition zipmul (a b : list K) : list K := map (fun '(x, y) => x * y) (combine a b).

(** The nonzero coefficient vectors of l(X) (degrees 2..5) and r(X) (degrees 0, 1, 2, 5). *)
Record polys := mkPolys { lp2 : list K; lp3 : list K; lp4 : list K; lp5 : list K; rp0 : list K; rp1 : list K; rp2 : list K; rp5 : list K }.
(** arithmetic_circuit.rs:397-487: padding, powers of the challenges, weights, l(X) and r(X). *)
Definition bp_vectors (n N k n_w : nat) (c : r1cs) (inp : assignment) (rd : brand) (y z : K) : res polys :=
  let aL := pad N (aL inp) in let aR := pad N (aR inp) in let aO := pad N (aO inp) in let w := pad N (as_w inp) in
  let sL := pad N (r_sL rd) in let sR := pad N (r_sR rd) in
  let y_n := powers 1 y N in
  rbind (inv_all y_n) (fun y_n_inv =>
  let z_Q := powers z z n in
  match n with O => Panic | S n1 =>
  let zn := nth n1 z_Q 0 in let zn_sq := zn * zn in
  (* reading r1cs_circuit.CL[i][j], ... outside the matrices panics *)
  if negb (forallb (fun m => Nat.leb n (length m) && forallb (fun row => Nat.leb (k + n_w) (length row)) (firstn n m)) [CL c; CR c; CO c]) then Panic else
  let WV := map (fun i => map (fun j => if Nat.ltb j n_w then comb3 zn zn_sq (mat_at (CL c) i (k + j)) (mat_at (CR c) i (k + j)) (mat_at (CO c) i (k + j)) else 0) (seq 0 N)) (seq 0 n) in
  rbind (vector_matrix_product z_Q (diag_mat n N 1)) (fun zQ_WL => rbind (vector_matrix_product z_Q (diag_mat n N zn)) (fun zQ_WR =>
  rbind (vector_matrix_product z_Q (diag_mat n N zn_sq)) (fun zQ_WO => rbind (vector_matrix_product z_Q WV) (fun zQ_WV =>
  rbind (hadamard_product y_n_inv zQ_WR) (fun ynInvZQWR =>
  rbind (hadamard_product y_n aR) (fun yn_aR => rbind (hadamard_product y_n sR) (fun yn_sR =>
  Ok (mkPolys (zipadd aL ynInvZQWR) aO w sL (map fopp zQ_WV) (zipadd (map fopp y_n) zQ_WO) (zipadd yn_aR zQ_WL) yn_sR))))))))
  end).
(** arithmetic_circuit.rs:531-589: evaluation at x, blindings, inner-product argument. [t] is the transcript after
    the challenge x, [pf] builds the proof from (mu, tau_x, l_x, r_x, t_x, IPP, IPP_P). *)
Definition bp_finish {A} (gs : gens) (rd : brand) (N : nat) (ps : polys) (t : tr) (x : K)
  (pf : K -> K -> list K -> list K -> K -> ipp -> G -> A) : res A :=
  let zero := repeat 0 N in
  let l_x := vp5_eval N (fun i => nth i [zero; zero; lp2 ps; lp3 ps; lp4 ps; lp5 ps] []) x in
  let r_x := vp5_eval N (fun i => nth i [rp0 ps; rp1 ps; rp2 ps; zero; zero; rp5 ps] []) x in
  rbind (inner_product l_x r_x) (fun t_x =>
  let xx := x * x in let xxxx := xx * xx in
  let tau_x := r_2 rd * xx + r_3 rd * (xx * x) + r_5 rd * (xxxx * x) + r_6 rd * (xxxx * xx) + r_7 rd * (xxxx * (xx * x))
    + r_8 rd * (xxxx * xxxx) + r_9 rd * (xxxx * (xxxx * x)) + r_10 rd * (xxxx * (xxxx * xx)) in
  let mu := r_aI rd * xx + r_aO rd * (xx * x) + r_gamma rd * xxxx + r_s rd * (xxxx * x) in
  let t := MFs "r_x" r_x :: MFs "l_x" l_x :: MF "mu" mu :: MF "tau_x" tau_x :: MF "t_x" t_x :: t in
  let x_1 := ch "x_1"%string t in let t := MCh "x_1" :: t in
  let ux := gsm x_1 (gu gs) in
  let IPP_P := gadd (gadd (quick_multiexp l_x (g_vec_N gs)) (quick_multiexp r_x (h_vec_N gs))) (gsm t_x ux) in
  rbind (ipp_prove t (g_vec_N gs) (h_vec_N gs) ux IPP_P l_x r_x) (fun ip => Ok (pf mu tau_x l_x r_x t_x ip IPP_P))).
(** arithmetic_circuit.rs:489-530 (lib.rs:212-237 `special_inner_product`): commitments to the coefficients of t(X), challenge x. *)
Definition bp_respond (gs : gens) (rd : brand) (N : nat) (ps : polys) (t : tr) (A_I A_O A_W S : G) : res bproof :=
  let com a b := quick_multiexp [a; b] [gg gs; gh gs] in
  let T2 := com (dot (lp2 ps) (rp0 ps)) (r_2 rd) in
  let T3 := com (dot (lp2 ps) (rp1 ps) + dot (lp3 ps) (rp0 ps)) (r_3 rd) in
  let T5 := com (dot (lp3 ps) (rp2 ps) + dot (lp4 ps) (rp1 ps) + dot (lp5 ps) (rp0 ps)) (r_5 rd) in
  let T6 := com (dot (lp4 ps) (rp2 ps) + dot (lp5 ps) (rp1 ps)) (r_6 rd) in
  let T7 := com (dot (lp2 ps) (rp5 ps) + dot (lp5 ps) (rp2 ps)) (r_7 rd) in
  let T8 := com (dot (lp3 ps) (rp5 ps)) (r_8 rd) in
  let T9 := com (dot (lp4 ps) (rp5 ps)) (r_9 rd) in
  let T10 := com (dot (lp5 ps) (rp5 ps)) (r_10 rd) in
  let t := MG "T_10" T10 :: MG "T_9" T9 :: MG "T_8" T8 :: MG "T_7" T7 :: MG "T_6" T6 :: MG "T_5" T5 :: MG "T_3" T3 :: MG "T_2" T2 :: t in
  bp_finish gs rd N ps (MCh "x" :: t) (ch "x"%string t) (mkBP A_I A_O A_W S T2 T3 T5 T6 T7 T8 T9 T10).
(** arithmetic_circuit.rs:305-612 `prove`, in the stages above. *)
Definition bp_prove (gs : gens) (c : r1cs) (inp : assignment) (rd : brand) : res bproof :=
  let n := length (aL inp) in
  if negb (Nat.eqb n (length (aR inp))) || negb (Nat.eqb n (length (aO inp))) then Panic else
  let k := length (as_s inp) in let n_w := length (as_w inp) in
  let n_max := Nat.max n n_w in let N := next_pow2 n_max in
  if Nat.ltb (length (g_vec_N gs)) n_max || Nat.ltb (length (h_vec_N gs)) n_max then Panic else
  let h := gh gs in
  let g_vec := firstn n (g_vec_N gs) in let h_vec := firstn n (h_vec_N gs) in let g_vec_w := firstn n_w (g_vec_N gs) in
  let A_I := gadd (gadd (quick_multiexp [r_aI rd] [h]) (quick_multiexp (aL inp) g_vec)) (quick_multiexp (aR inp) h_vec) in
  let A_O := gadd (quick_multiexp [r_aO rd] [h]) (quick_multiexp (aO inp) g_vec) in
  let A_W := gadd (quick_multiexp [r_gamma rd] [h]) (quick_multiexp (as_w inp) g_vec_w) in
  let S := gadd (gadd (quick_multiexp [r_s rd] [h]) (quick_multiexp (r_sL rd) (firstn n_max (g_vec_N gs)))) (quick_multiexp (r_sR rd) (firstn n_max (h_vec_N gs))) in
  let t := MG "S" S :: MG "A_W" A_W :: MG "A_O" A_O :: MG "A_I" A_I :: bp_header gs n N c (as_s inp) in
  let y := ch "y"%string t in
  let z := ch "z"%string (MCh "y" :: t) in
  rbind (bp_vectors n N k n_w c inp rd y z) (fun ps => bp_respond gs rd N ps (MCh "z" :: MCh "y" :: t) A_I A_O A_W S).

(** arithmetic_circuit.rs:614-848 `verify_proof`. *)
Definition bp_verify (gs : gens) (pf : bproof) (c : r1cs) (pubs : list K) : res bool :=
  let s := 1 :: pubs in
  let n := gn gs in let N := gN gs in let k := gk gs in let n_w := gn_w gs in
  let g_vec := g_vec_N gs in let h_vec := h_vec_N gs in let g := gg gs in let h := gh gs in
  let t := MG "S" (S_ pf) :: MG "A_W" (A_W pf) :: MG "A_O" (A_O pf) :: MG "A_I" (A_I pf) :: bp_header gs n N c s in
  let y := ch "y"%string t in let t := MCh "y" :: t in
  let z := ch "z"%string t in let t := MCh "z" :: t in
  let y_n := powers 1 y N in
  rbind (inv_all y_n) (fun y_n_inv =>
  let z_Q := powers z z n in
  let z_Q_neg := map (fun v => - (1) * v) z_Q in
  match n with O => Panic | S n1 =>
  let zn := nth n1 z_Q 0 in let zn_sq := zn * zn in
  let WL := repeat 1 n in let WR := repeat zn n in let WO := repeat zn_sq n in
  let entry i j := comb3 zn zn_sq (map_get (CL_T c) i j) (map_get (CR_T c) i j) (map_get (CO_T c) i j) in
  let C1 := map (fun i => map (fun j => entry i j) (seq 0 k)) (seq 0 n) in
  let WV := concat (map (fun i => concat (map (fun j => if feqb (entry i (k + j)%nat) 0 then [] else [(i, j, entry i (k + j)%nat)]) (seq 0 n_w))) (seq 0 n)) in
  rbind (vector_matrix_product_t s C1) (fun cc =>
  rbind (vector_product z_Q WL N n) (fun zQ_WL => rbind (vector_product z_Q WR N n) (fun zQ_WR => rbind (vector_product z_Q WO N n) (fun zQ_WO =>
  let zQ_neg_WV := vector_map_product z_Q_neg WV N in
  rbind (hadamard_product y_n_inv zQ_WR) (fun ynInvZQWR =>
  rbind (inner_product ynInvZQWR zQ_WL) (fun delta_yz =>
  let t := MG "T_10" (T_10 pf) :: MG "T_9" (T_9 pf) :: MG "T_8" (T_8 pf) :: MG "T_7" (T_7 pf) :: MG "T_6" (T_6 pf) :: MG "T_5" (T_5 pf) :: MG "T_3" (T_3 pf) :: MG "T_2" (T_2 pf) :: t in
  let x := ch "x"%string t in let t := MCh "x" :: t in
  if Nat.ltb (length h_vec) N then Panic else
  let h_vec_inv := map (fun '(y', p) => gsm y' p) (combine y_n_inv h_vec) in
  let wL := quick_multiexp zQ_WL h_vec_inv in
  let wR := quick_multiexp ynInvZQWR g_vec in
  let wO := quick_multiexp zQ_WO h_vec_inv in
  let wV := quick_multiexp zQ_neg_WV h_vec_inv in
  let t := MFs "r_x" (r_x pf) :: MFs "l_x" (l_x pf) :: MF "mu" (mu pf) :: MF "tau_x" (tau_x pf) :: MF "t_x" (t_x pf) :: t in
  let x_1 := ch "x_1"%string t in let t := MCh "x_1" :: t in
  let ux := gsm x_1 (gu gs) in
  rbind (ipp_verify t g_vec h_vec ux (IPP_P pf) (IPP pf)) (fun ok =>
  if negb ok then Ok false else
  let checkT_lhs := quick_multiexp [t_x pf; tau_x pf] [g; h] in
  rbind (inner_product z_Q cc) (fun zQ_c =>
  let xx := x * x in let xxxx := xx * xx in
  let checkT_rhs := fold_left (@gadd K G) [gsm xx (T_2 pf); gsm (xx * x) (T_3 pf); gsm (xxxx * x) (T_5 pf); gsm (xxxx * xx) (T_6 pf);
      gsm (xxxx * (xx * x)) (T_7 pf); gsm (xxxx * xxxx) (T_8 pf); gsm (xxxx * (xxxx * x)) (T_9 pf); gsm (xxxx * (xxxx * xx)) (T_10 pf)]
    (quick_multiexp [xxxx * (delta_yz + zQ_c)] [g]) in
  if negb (geqb checkT_lhs checkT_rhs) then Panic else
  let y_n_neg := map (fun v => - (1) * v) y_n in
  let P := fold_left (@gadd K G) [gsm (xx * x) (A_O pf); gsm xxxx (A_W pf); gsm x (quick_multiexp y_n_neg h_vec_inv); gsm xx wL; gsm xx wR; gsm x wO; wV;
      gsm (xxxx * x) (S_ pf)] (gsm xx (A_I pf)) in
  let checkP := gadd (gadd (gsm (mu pf) h) (quick_multiexp (l_x pf) g_vec)) (quick_multiexp (r_x pf) h_vec_inv) in
  Ok (geqb P checkP)))))))))
  end).

(** arithmetic_circuit.rs:187-302 `create_random_proof`: synthesis in Prove mode, dense matrices, generators [mk N] drawn for the
    padded size; randomness passed in. *)
Definition circuit_matrices (s : cs K) : res r1cs :=
  let ni := length (inps s) in let na := (ni + length (auxs s))%nat in
  rbind (rows_fill ni na (map ca (cons s))) (fun cl => rbind (rows_fill ni na (map cb (cons s))) (fun cr =>
  rbind (rows_fill ni na (map cc (cons s))) (fun co => Ok (mkR1cs cl cr co [] [] [])))).
Definition create_random_proof (circuit : M K unit) (mk : nat -> list G * list G * G * G * G) (rd : brand) : res (gens * r1cs * bproof) :=
  rbind (circuit (cs_new Prove)) (fun '(_, s) =>
  let f := inps s ++ auxs s in
  rbind (circuit_matrices s) (fun c =>
  rbind (vector_matrix_product_t f (CL c)) (fun al => rbind (vector_matrix_product_t f (CR c)) (fun ar =>
  rbind (vector_matrix_product_t f (CO c)) (fun ao =>
  let n_max := Nat.max (length al) (length (auxs s)) in
  let N := next_pow2 n_max in
  let '(gv, hv, g, h, u) := mk N in
  let gs := mkGens gv hv g h u (length (cons s)) N (length (inps s)) (length (auxs s)) in
  rbind (bp_prove gs c (mkAsg al ar ao (inps s) (auxs s)) rd) (fun pf => Ok (gs, matrix_to_map c, pf))))))).
End BP.
