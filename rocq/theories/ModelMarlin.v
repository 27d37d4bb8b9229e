(** Model of marlin/src: constraint-system processing, indexer, the three prover rounds, the verifier's
    equations, and the top-level functions. No proofs.
    `DensePolynomial` is its coefficient vector; constructors drop trailing zeros ([ptrim]). FFTs are the defining
    formulas [dft], [idft] (every polynomial transformed below fits its domain). *)
From Verif Require Export ModelPC.
From Coq Require Export List.
From Verif Require Export Field Poly Module ModelLC ModelCS.
Local Open Scope fld_scope.

Section CSys.
Variable K : Fld.
(** ahp/constraint_systems.rs:9-31 `make_constraint_matrices_square` with 69-72 and 214-217. *)
Definition make_square : M K unit := fun s =>
  let nv := (length (inps s) + length (auxs s))%nat in
  let nc := length (cons s) in
  if Nat.ltb nv nc then (mapM (fun _ => alloc (Ok 1)) (seq 0 (nc - nv)) ;;; ret tt) s
  else (mapM (fun _ => enforce [] [] []) (seq 0 (nv - nc)) ;;; ret tt) s.
(** ahp/arithmetic.rs:46-47 `Matrix`: rows of (coefficient, column). *)
Notation row := (list (K * nat)).
(** constraint_systems.rs:62-67 `make_row`, 116-130 `reindex`. *)
Definition reindex (ni : nat) (rows : list (lc K)) : list row :=
  map (fun l => map (fun '(v, c) => (c, match v with Aux i => (i + ni)%nat | Input i => i end)) l) rows.
(** arithmetic.rs:49-55 `matrix_density`. *)
Definition density (m : list row) : nat := fold_right (fun r n => (length r + n)%nat) O m.
(** constraint_systems.rs:104-113: the loop of `balance_matrices`. `usize` arithmetic: with [checks] (a debug build) a negative
    difference panics, without it wraps modulo 2^64. Densities are Z here because of the wrapping. *)
Definition usize_sub (checks : bool) (x y : Z) : res Z :=
  if (checks && (x <? y)%Z)%bool then Panic else Ok ((x - y) mod 2 ^ 64)%Z.
Definition usize_add (checks : bool) (x y : Z) : res Z :=
  if (checks && (2 ^ 64 <=? x + y)%Z)%bool then Panic else Ok ((x + y) mod 2 ^ 64)%Z.
Fixpoint balance_loop (checks : bool) (da db : Z) (a b : list row) : res (list row * list row) :=
  match a, b with
  | ra :: a', rb :: b' =>
      if (da >? db)%Z then
        let na := Z.of_nat (length ra) in let nb := Z.of_nat (length rb) in
        rbind (usize_sub checks nb na) (fun d1 => rbind (usize_add checks da d1) (fun da' =>
        rbind (usize_sub checks na nb) (fun d2 => rbind (usize_add checks db d2) (fun db' =>
        rbind (balance_loop checks da' db' a' b') (fun '(x, y) => Ok (rb :: x, ra :: y))))))
      else rbind (balance_loop checks da db a' b') (fun '(x, y) => Ok (ra :: x, rb :: y))
  | _, _ => Ok (a, b)
  end.
(** constraint_systems.rs:100-114 `balance_matrices`. *)
Definition balance (checks : bool) (a b : list row) : res (list row * list row) :=
  balance_loop checks (Z.of_nat (density a)) (Z.of_nat (density b)) a b.
(** arithmetic.rs:57-78 `sort_matrix_columns`: stable sort by column (rows already strictly ascending are left alone). *)
Fixpoint col_insert (e : K * nat) (r : row) : row :=
  match r with [] => [e] | x :: t => if Nat.leb (snd e) (snd x) then e :: r else x :: col_insert e t end.
Definition sort_row (r : row) : row := fold_right col_insert [] r.
Definition sort_columns (m : list row) : list row := map sort_row m.
(** constraint_systems.rs:74-88 `process_matrices`. *)
Definition process_matrices (checks : bool) (s : cs K) : res (list row * list row * list row) :=
  let ni := length (inps s) in
  rbind (balance checks (reindex ni (map ca (cons s))) (reindex ni (map cb (cons s)))) (fun '(a, b) =>
  Ok (sort_columns a, sort_columns b, sort_columns (reindex ni (map cc (cons s))))).
(** constraint_systems.rs:90-98 `num_non_zeros`. *)
Definition num_non_zeros (a b c : list row) : nat := Nat.max (density a) (Nat.max (density b) (density c)).
End CSys.
Arguments make_square {K}. Arguments reindex {K}. Arguments density {K}. Arguments balance {K}. Arguments balance_loop {K}.
Arguments sort_row {K}. Arguments sort_columns {K}. Arguments process_matrices {K}. Arguments num_non_zeros {K}. Arguments col_insert {K}.

(** ark_poly `EvaluationDomain::reindex_by_subdomain` (arithmetic.rs:115, prover.rs:265): sizes of the domain and the subdomain. *)
Definition reidx (h x j : nat) : res nat :=
  if Nat.ltb h x then Panic else
  let period := Nat.div h x in
  if Nat.ltb j x then Ok (j * period)%nat
  else let i := (j - x)%nat in
       if Nat.eqb (period - 1) 0 then Panic else Ok (i + Nat.div i (period - 1) + 1)%nat.

Section AHP.
Variable K : Fld.
(** `EvaluationDomain::new(n)`; `compute_size_of_domain(n)` is its size. *)
Variable dnew : nat -> option (dom K).
(** `DensePolynomial` constructors. *)
Definition trim (p : list K) : list K := ptrim K p.
Definition interp (d : dom K) (v : list K) : list K := trim (idft d v).
(** `evaluate_vanishing_polynomial`. *)
Definition vh (d : dom K) (x : K) : K := x ^ dsize d - 1.
(** `divide_by_vanishing_poly` (ark_poly): quotient and remainder by X^m - 1, adding up the blocks of m coefficients. *)
Fixpoint pdivv_n (fuel m : nat) (p : list K) : list K * list K :=
  match fuel with
  | O => ([], p)
  | S f => if Nat.leb (length p) m then ([], p) else
      let '(q, r) := pdivv_n f m (skipn m p) in (padd (skipn m p) q, padd (firstn m p) r)
  end.
Definition pdivv (m : nat) (p : list K) : list K * list K :=
  let '(q, r) := pdivv_n (length p) m p in (trim q, trim r).
(** `mul_by_vanishing_poly` (ark_poly). *)
Definition mulv (m : nat) (p : list K) : list K := trim (psub (repeat 0 m ++ p) p).
(** ahp/prover.rs:437-442 `vanishing_polynomial`. *)
Definition vpoly (m : nat) : list K := trim ((- (1)) :: repeat 0 (m - 1) ++ [1]).
(** ahp/arithmetic.rs:19-26 `bivariate_eval`. *)
Definition bivariate_eval (d : dom K) (x y : K) : K :=
  if feqb x y then of_nat (dsize d) * x ^ (dsize d - 1) else (vh d x - vh d y) / (x - y).
(** arithmetic.rs:28-34 `batch_evals`. *)
Definition batch_evals (d : dom K) (x : K) : list K := map (fun u => finv (x - u) * vh d x) (dpts d).
(** arithmetic.rs:36-43 `diagonal_evals`. *)
Definition diagonal_evals (d : dom K) : list K :=
  match map (fun u => of_nat (dsize d) * u) (dpts d) with [] => [] | e :: r => e :: rev r end.
Definition get (l : list K) (i : nat) : res K := match nth_error l i with Some x => Ok x | None => Panic end.
(** arithmetic.rs:80-95 `MatrixPolynomials`. *)
Record star := mkStar { st_row : list K; st_col : list K; st_val : list K; st_rc : list K;
  row_k : list K; col_k : list K; val_k : list K; row_b : list K; col_b : list K; val_b : list K; rc_b : list K }.
(** arithmetic.rs:113-122, 124-126: (row, col, val) of each entry in order; the inverted denominator is multiplied in at once. *)
Fixpoint entries_row (hx hh : nat) (hs diag : list K) (i : nat) (r : list (K * nat)) : res (list (K * K * K)) :=
  match r with
  | [] => Ok []
  | (v, j) :: r' =>
      rbind (reidx hh hx j) (fun j' => rbind (get hs j') (fun hj => rbind (get hs i) (fun hi => rbind (get diag j') (fun dj =>
      rbind (entries_row hx hh hs diag i r') (fun l => Ok ((hj, hi, v * finv dj) :: l))))))
  end.
Fixpoint entries (hx hh : nat) (hs diag : list K) (i : nat) (m : list (list (K * nat))) : res (list (K * K * K)) :=
  match m with
  | [] => Ok []
  | r :: m' => rbind (entries_row hx hh hs diag i r) (fun l => rbind (entries hx hh hs diag (S i) m') (fun l' => Ok (l ++ l')))
  end.
(** arithmetic.rs:97-172 `compose_matrix_polynomials`; `domain_k.size() - count` below zero panics. *)
Definition compose (m : list (list (K * nat))) (dx dh dk db : dom K) : res star :=
  let hs := dpts dh in
  rbind (entries (dsize dx) (dsize dh) hs (diagonal_evals dh) 0 m) (fun l =>
  if Nat.ltb (dsize dk) (length l) then Panic else
  rbind (match hs with [] => if Nat.eqb (dsize dk - length l) 0 then Ok 0 else Panic | h0 :: _ => Ok h0 end) (fun h0 =>
  let pad := repeat (h0, h0, 0) (dsize dk - length l) in
  let l := l ++ pad in
  let rk := map (fun e => fst (fst e)) l in
  let ck := map (fun e => snd (fst e)) l in
  let vk := map snd l in
  let rck := map (fun '(r, c) => r * c) (combine rk ck) in
  let r := interp dk rk in let c := interp dk ck in let v := interp dk vk in let rc := interp dk rck in
  Ok (mkStar r c v rc rk ck vk (dft db r) (dft db c) (dft db v) (dft db rc)))).

(** ahp/indexer.rs:12-17 `IndexInfo`, 28-39 `Index`. *)
Record info := mkInfo { i_nc : nat; i_nv : nat; i_nnz : nat }.
Record index := mkIx { ix_info : info; ix_a : list (list (K * nat)); ix_b : list (list (K * nat)); ix_c : list (list (K * nat)); st_a : star; st_b : star; st_c : star }.
Definition dom_or (n : nat) : res (dom K) := match dnew n with Some d => Ok d | None => Err PolynomialDegreeTooLarge end.
(** ahp/indexer.rs:71-116 `AHP::index`; the circuit is synthesised in key-generation mode. *)
Definition ahp_index (checks : bool) (circ : M K unit) : res index :=
  rbind (circ (cs_new Setup)) (fun '(_, s) => rbind (make_square s) (fun '(_, s) =>
  rbind (process_matrices checks s) (fun '(a, b, c) =>
  let ni := length (inps s) in let nc := length (cons s) in let nv := (length (inps s) + length (auxs s))%nat in
  let nnz := num_non_zeros a b c in
  rbind (dom_or ni) (fun dx => rbind (dom_or nv) (fun dh => rbind (dom_or nnz) (fun dk => rbind (dom_or (3 * dsize dk - 3)) (fun db =>
  rbind (compose a dx dh dk db) (fun sa => rbind (compose b dx dh dk db) (fun sb => rbind (compose c dx dh dk db) (fun sc =>
  Ok (mkIx (mkInfo nc nv nnz) a b c sa sb sc))))))))))).

(** ahp/prover.rs:20-40 `ProverState`, what later rounds read. *)
Record pstate := mkPS { ps_ix : index; ps_x : list K; ps_w : list K; ps_za : list K; ps_zb : list K; ps_dx : dom K; ps_dh : dom K; ps_dk : dom K }.
(** prover.rs:110-121 `inner_product`. *)
Fixpoint inner_product (x w : list K) (r : list (K * nat)) (acc : K) : res K :=
  match r with
  | [] => Ok acc
  | (c, j) :: r' =>
      rbind (if Nat.ltb j (length x) then get x j else get w (j - length x)) (fun tmp =>
      inner_product x w r' (acc + (if feqb c 1 then tmp else tmp * c)))
  end.
(** prover.rs:86-147 `prover_init`. *)
Definition prover_init (ix : index) (circ : M K unit) : res pstate :=
  rbind (circ (cs_new Prove)) (fun '(_, s) => rbind (make_square s) (fun '(_, s) =>
  let x := inps s in let w := auxs s in
  if negb (Nat.eqb (i_nc (ix_info ix)) (length (cons s))) || negb (Nat.eqb (i_nc (ix_info ix)) (length x + length w)) then Err InstanceDoesNotMatchIndex else
  rbind (mapR (fun r => inner_product x w r 0) (ix_a ix)) (fun za => rbind (mapR (fun r => inner_product x w r 0) (ix_b ix)) (fun zb =>
  rbind (dom_or (length x)) (fun dx => rbind (dom_or (length (cons s))) (fun dh => rbind (dom_or (i_nnz (ix_info ix))) (fun dk =>
  Ok (mkPS ix x w za zb dx dh dk)))))))).

(** prover.rs:48-53, 61-65, 73-76: the polynomials of the three rounds. *)
Record oracles1 := mkO1 { o_w : list K; o_za : list K; o_zb : list K; o_mask : list K }.
Record oracles2 := mkO2 { o_t : list K; o_g1 : list K; o_h1 : list K }.
Record oracles3 := mkO3 { o_g2 : list K; o_h2 : list K }.
(** prover.rs:176-186: the values of w on the domain H. *)
Definition w_evals (h x : nat) (wext xh : list K) : res (list K) :=
  let ratio := Nat.div h x in
  mapR (fun i => if Nat.eqb (Nat.modulo i ratio) 0 then Ok 0 else rbind (get wext (i - Nat.div i ratio - 1)) (fun a => rbind (get xh i) (fun b => Ok (a - b)))) (seq 0 h).
(** prover.rs:188-190, 194-200: interpolation plus a random constant times the vanishing polynomial. *)
Definition blind (d : dom K) (v : list K) (r : K) : list K := trim (padd (interp d v) (trim (pmul (trim [r]) (vpoly (dsize d))))).
(** prover.rs:150-222 `prover_first_round`; [rw ra rb mask] are the random coefficients; the subtraction at 172-174 panics
    below zero (without overflow checks the wrapped length aborts the allocation). *)
Definition first_round (ps : pstate) (rw ra rb : K) (mask : list K) : res oracles1 :=
  let h := dsize (ps_dh ps) in let x := dsize (ps_dx ps) in
  let xpoly := interp (ps_dx ps) (ps_x ps) in
  let xh := dft (ps_dh ps) xpoly in
  if Nat.ltb h (x + length (ps_w ps)) then Panic else
  let wext := ps_w ps ++ repeat 0 (h - x - length (ps_w ps)) in
  rbind (w_evals h x wext xh) (fun we =>
  let '(w, r) := pdivv x (blind (ps_dh ps) we rw) in
  match r with
  | _ :: _ => Panic
  | [] =>
      let mask := trim (firstn (3 * h) mask) in
      rbind (get (snd (pdivv h mask)) 0) (fun sigma =>
      match mask with
      | [] => Panic
      | m0 :: m' => Ok (mkO1 w (blind (ps_dh ps) (ps_za ps) ra) (blind (ps_dh ps) (ps_zb ps) rb) ((m0 - sigma) :: m'))
      end)
  end).
(** ahp/verifier.rs:26-32 `VerifierFirstMsg`. *)
Record vmsg := mkVM { v_alpha : K; v_a : K; v_b : K; v_c : K }.
(** prover.rs:246-253: the three zipped vectors stop at the shortest. *)
Fixpoint zip_m (ea eb : K) (m a b : list K) : list K :=
  match m, a, b with
  | c :: m', x :: a', y :: b' => (c + (ea * x + eb * y)) :: zip_m ea eb m' a' b'
  | _, _, _ => m
  end.
Definition m_poly (v : vmsg) (za zb : list K) : list K :=
  trim (zip_m (v_a v) (v_b v) (map (fun c => c * v_c v) (trim (pmul za zb))) za zb).
(** prover.rs:262-269: accumulation of the matrix entries. *)
Fixpoint t_row (h x : nat) (eta ri : K) (r : list (K * nat)) (t : list K) : res (list K) :=
  match r with
  | [] => Ok t
  | (c, j) :: r' => rbind (reidx h x j) (fun j' => if Nat.ltb j' (length t) then t_row h x eta ri r' (upd_at j' (fun y => y + eta * c * ri) t) else Panic)
  end.
Fixpoint t_rows (h x : nat) (eta : K) (ral : list K) (i : nat) (m : list (list (K * nat))) (t : list K) : res (list K) :=
  match m with
  | [] => Ok t
  | r :: m' => match r with
               | [] => t_rows h x eta ral (S i) m' t
               | _ => rbind (get ral i) (fun ri => rbind (t_row h x eta ri r t) (t_rows h x eta ral (S i) m'))
               end
  end.
Definition t_evals (ix : index) (h x : nat) (v : vmsg) (ral : list K) : res (list K) :=
  rbind (t_rows h x (v_a v) ral 0 (ix_a ix) (repeat 0 h)) (fun t => rbind (t_rows h x (v_b v) ral 0 (ix_b ix) t) (fun t =>
  t_rows h x (v_c v) ral 0 (ix_c ix) t)).
(** prover.rs:278-281: z = w * v_X, then x added coefficientwise as far as z goes. *)
Fixpoint zip_add (p q : list K) : list K :=
  match p, q with a :: p', b :: q' => (a + b) :: zip_add p' q' | _, _ => p end.
Definition z_poly (x : nat) (w xpoly : list K) : list K := zip_add (mulv x w) xpoly.
(** prover.rs:230-321 `prover_second_round`; `[1..]` of an empty coefficient vector panics. *)
Definition second_round (ps : pstate) (o1 : oracles1) (v : vmsg) : res oracles2 :=
  let dh := ps_dh ps in let h := dsize dh in
  rbind (dom_or (length (ps_x ps))) (fun dx =>
  let x := dsize dx in
  let m := m_poly v (o_za o1) (o_zb o1) in
  let rev_ := batch_evals dh (v_alpha v) in
  let ra := trim (idft dh rev_) in
  rbind (t_evals (ps_ix ps) h x v rev_) (fun te =>
  let t := interp dh te in
  let z := z_poly x (o_w o1) (interp dx (ps_x ps)) in
  rbind (dom_or (Nat.max (length (o_mask o1)) (Nat.max (length ra + length m) (length t + length z)))) (fun d =>
  let ev := map (fun u => peval ra u * peval m u - peval t u * peval z u) (dpts d) in
  let q1 := trim (padd (o_mask o1) (interp d ev)) in
  let '(h1, xg1) := pdivv h q1 in
  match xg1 with
  | [] => Panic
  | _ :: g1 => if Nat.ltb h 2 then Panic else Ok (mkO2 t (trim g1) h1)
  end))).
(** prover.rs:357-375: one term of t on K. *)
Definition t_on_k (alpha beta ea eb ec va vb : K) (sa sb sc : star) (i : nat) : res K :=
  rbind (get (row_k sa) i) (fun ra => rbind (get (col_k sa) i) (fun ca => rbind (get (val_k sa) i) (fun xa =>
  rbind (get (row_k sb) i) (fun rb => rbind (get (col_k sb) i) (fun cb => rbind (get (val_k sb) i) (fun xb =>
  rbind (get (row_k sc) i) (fun rc => rbind (get (col_k sc) i) (fun cc => rbind (get (val_k sc) i) (fun xc =>
  Ok ((ea * xa * finv ((beta - ra) * (alpha - ca)) + eb * xb * finv ((beta - rb) * (alpha - cb)) + ec * xc * finv ((beta - rc) * (alpha - cc))) * va * vb)))))))))).
(** prover.rs:380-394. *)
Definition denom_on_b (alpha beta : K) (s : star) : list K :=
  map (fun '(r, c, rc) => beta * alpha - alpha * r - beta * c + rc) (combine (combine (row_b s) (col_b s)) (rc_b s)).
(** prover.rs:331-427 `prover_third_round`. *)
Definition third_round (ps : pstate) (v : vmsg) (beta : K) : res oracles3 :=
  let alpha := v_alpha v in let dh := ps_dh ps in let dk := ps_dk ps in
  let va := vh dh alpha in let vb := vh dh beta in
  let sa := st_a (ps_ix ps) in let sb := st_b (ps_ix ps) in let sc := st_c (ps_ix ps) in
  rbind (mapR (t_on_k alpha beta (v_a v) (v_b v) (v_c v) va vb sa sb sc) (seq 0 (dsize dk))) (fun tk =>
  let t := interp dk tk in
  match t with
  | [] => Panic
  | _ :: g2 =>
      let da := denom_on_b alpha beta sa in let db_ := denom_on_b alpha beta sb in let dc := denom_on_b alpha beta sc in
      rbind (dom_or (3 * dsize dk - 3)) (fun db =>
      rbind (mapR (fun i => rbind (get (val_b sa) i) (fun xa => rbind (get (val_b sb) i) (fun xb => rbind (get (val_b sc) i) (fun xc =>
              rbind (get da i) (fun a => rbind (get db_ i) (fun b => rbind (get dc i) (fun c =>
              Ok ((v_a v * xa * b * c + v_b v * xb * c * a + v_c v * xc * a * b) * va * vb, a * b * c)))))))) (seq 0 (dsize db))) (fun ab =>
      let ap := interp db (map fst ab) in let bp := interp db (map snd ab) in
      let h2 := fst (pdivv (dsize dk) (trim (psub ap (trim (pmul bp t))))) in
      if Nat.ltb (dsize dk) 2 then Panic else Ok (mkO3 (trim g2) h2)))
  end).

(** ahp/verifier.rs:15-24 `VerifierState` once every field is set. *)
Record vstate := mkVS { vs_dh : dom K; vs_dk : dom K; vs_m : vmsg; vs_beta : K; vs_gamma : K }.
(** verifier.rs:212-218 `get_eval`. *)
Definition get_eval (evs : list (string * K * K)) (l : string) (pt : K) : res K :=
  match ev_get K evs l pt with Some v => Ok v | None => Err MissingEval end.
(** verifier.rs:180-199: value and denominator of one matrix at gamma. *)
Definition star_at (evs : list (string * K * K)) (n : string) (alpha beta gamma : K) : res (K * K) :=
  rbind (get_eval evs (n ++ "_val")%string gamma) (fun v => rbind (get_eval evs (n ++ "_row")%string gamma) (fun r =>
  rbind (get_eval evs (n ++ "_col")%string gamma) (fun c => rbind (get_eval evs (n ++ "_row_col")%string gamma) (fun rc =>
  Ok (v, alpha * beta - alpha * r - beta * c + rc))))).
(** verifier.rs:128-210 `verifier_equality_check`. *)
Definition equality_check (pub : list K) (evs : list (string * K * K)) (vs : vstate) : res bool :=
  let v := vs_m vs in let alpha := v_alpha v in let beta := vs_beta vs in let gamma := vs_gamma vs in
  let va := vh (vs_dh vs) alpha in let vb := vh (vs_dh vs) beta in
  let rab := bivariate_eval (vs_dh vs) alpha beta in
  let fi := 1 :: pub in
  rbind (dom_or (length fi)) (fun dx =>
  let xb := peval (interp dx fi) beta in
  rbind (get_eval evs "mask" beta) (fun mask => rbind (get_eval evs "z_a" beta) (fun za => rbind (get_eval evs "z_b" beta) (fun zb =>
  rbind (get_eval evs "w" beta) (fun w => rbind (get_eval evs "t" beta) (fun t => rbind (get_eval evs "h_1" beta) (fun h1 =>
  rbind (get_eval evs "g_1" beta) (fun g1 =>
  let lhs := mask + rab * (v_a v * za + v_b v * zb + v_c v * za * zb) - t * (vh dx beta * w + xb) in
  let rhs := h1 * vb + beta * g1 in
  if negb (feqb lhs rhs) then Ok false else
  let vk := vh (vs_dk vs) gamma in
  rbind (get_eval evs "h_2" gamma) (fun h2 => rbind (get_eval evs "g_2" gamma) (fun g2 =>
  rbind (star_at evs "a" alpha beta gamma) (fun '(xa, a) => rbind (star_at evs "b" alpha beta gamma) (fun '(xb, b) =>
  rbind (star_at evs "c" alpha beta gamma) (fun '(xc, c) =>
  let ag := (v_a v * xa * b * c + v_b v * xb * c * a + v_c v * xc * a * b) * (va * vb) in
  let bg := a * b * c in
  Ok (feqb (h2 * vk) (ag - bg * (gamma * g2 + t / of_nat (dsize (vs_dk vs)))))))))))))))))).
(** verifier.rs:89-115 `verifier_query_set`: a `BTreeSet`, hence ordered by label (all labels differ). *)
Definition query_set (beta gamma : K) : list (string * K) :=
  [("a_col", gamma); ("a_row", gamma); ("a_row_col", gamma); ("a_val", gamma);
   ("b_col", gamma); ("b_row", gamma); ("b_row_col", gamma); ("b_val", gamma);
   ("c_col", gamma); ("c_row", gamma); ("c_row_col", gamma); ("c_val", gamma);
   ("g_1", beta); ("g_2", gamma); ("h_1", beta); ("h_2", gamma); ("mask", beta); ("t", beta); ("w", beta); ("z_a", beta); ("z_b", beta)]%string.
(** ahp/mod.rs:66-84 `max_degree`; indexer.rs:42-49 unwraps it. *)
Definition max_degree (i : info) : res nat :=
  match dnew (Nat.max (i_nc i) (i_nv i)), dnew (i_nnz i) with
  | Some dh, Some dk => Ok (Nat.max (3 * dsize dh + 2 - 1) (3 * dsize dk - 3))
  | _, _ => Panic
  end.
End AHP.

Section Top.
Variable K : Fld.
Variable PR : Pairing K.
Variable dnew : nat -> option (dom K).
(** data_structures.rs:10-15 `IndexVerifierKey`, 39-45 `IndexProverKey`, 47-52 `Proof`. *)
Record ivkey := mkIVK { iv_info : info; iv_comms : list (commitment K PR); iv_vk : vkey K PR }.
Record ipkey := mkIPK { ip_ix : index K; ip_rands : list (randomness K); ip_ivk : ivkey; ip_ck : ckey K PR }.
Record proof := mkPf { pf_comms : list (list (commitment K PR)); pf_evals : list K; pf_open : list (kproof K PR) }.
(** fs_rng.rs:34-70: the generator state is a hash of everything absorbed so far; modelled as the list of absorbed
    messages, newest first. What is drawn is an arbitrary function of that list: [fs_msg d] is the first verifier
    message (alpha rejection-sampled outside the domain d), [fs_beta d], [fs_gamma], [fs_xi] the later ones. *)
Inductive fmsg := FSeed (iv : ivkey) (pub : list K) | FComms (c : list (commitment K PR)) | FEvals (e : list K).
Record fs := mkFS { fs_msg : dom K -> list fmsg -> vmsg K; fs_beta : dom K -> list fmsg -> K; fs_gamma : list fmsg -> K; fs_xi : list fmsg -> K }.
Variable ro : fs.
(** ark_poly `compute_size_of_domain`, lib.rs:57-65 `universal_setup`. *)
Definition universal_setup (n : nat) (beta : K) (g gamma_g : G1 PR) (h : G2 PR) : res (uparams K PR) :=
  match dnew n with None => Err PolynomialDegreeTooLarge | Some d => Ok (kzg_setup K PR (dsize d) beta g gamma_g h) end.
(** ahp/indexer.rs:51-67 `Index::iter` with the labels of arithmetic.rs:158-161. *)
Definition star_polys (n : string) (s : star K) : list (lpoly K) :=
  [mkLP K (n ++ "_row")%string (st_row K s) None None; mkLP K (n ++ "_col")%string (st_col K s) None None;
   mkLP K (n ++ "_val")%string (st_val K s) None None; mkLP K (n ++ "_row_col")%string (st_rc K s) None None].
Definition index_polys (ix : index K) : list (lpoly K) :=
  star_polys "a" (st_a K ix) ++ star_polys "b" (st_b K ix) ++ star_polys "c" (st_c K ix).
Definition no_draw (l : list (lpoly K)) : list (lpoly K * (list K * list K)) := map (fun p => (p, ([], []))) l.
(** lib.rs:67-94 `index`. *)
Definition marlin_index (checks : bool) (srs : uparams K PR) (circ : M K unit) : res (ipkey * ivkey) :=
  rbind (ahp_index K dnew checks circ) (fun ix =>
  rbind (max_degree K dnew (ix_info K ix)) (fun md =>
  if Nat.ltb (length (u_g K PR srs) - 1) md then Err IndexTooLarge else
  rbind (kzg_trim K PR srs md) (fun '(ck, vk) =>
  rbind (pc_commit K PR ck (no_draw (index_polys ix))) (fun '(cs, rs) =>
  let ivk := mkIVK (ix_info K ix) (map (lc_cm K PR) cs) vk in Ok (mkIPK ix rs ivk ck, ivk))))).
(** prover.rs:207-210, 309-318, 418-426: labels, degree bounds, hiding bounds. *)
Definition polys1 (o : oracles1 K) : list (lpoly K) :=
  [mkLP K "w" (o_w K o) None (Some 1%nat); mkLP K "z_a" (o_za K o) None (Some 1%nat); mkLP K "z_b" (o_zb K o) None (Some 1%nat); mkLP K "mask" (o_mask K o) None None].
Definition polys2 (h : nat) (o : oracles2 K) : list (lpoly K) :=
  [mkLP K "t" (o_t K o) None None; mkLP K "g_1" (o_g1 K o) (Some (h - 2)%nat) (Some 1%nat); mkLP K "h_1" (o_h1 K o) None None].
Definition polys3 (k : nat) (o : oracles3 K) : list (lpoly K) :=
  [mkLP K "g_2" (o_g2 K o) (Some (k - 2)%nat) None; mkLP K "h_2" (o_h2 K o) None None].
(** The prover's randomness: coefficients for the first round, and the two streams of each hiding commitment. *)
Record coins := mkCoins { c_w : K; c_za : K; c_zb : K; c_mask : list K; c_draw : list (list K * list K) }.
(** verifier.rs:40-69 `verifier_first_round`, the checks and domains. *)
Definition verifier_doms (i : info) : res (dom K * dom K) :=
  if negb (Nat.eqb (i_nc i) (i_nv i)) then Err NonSquareMatrix else
  rbind (dom_or K dnew (i_nc i)) (fun dh => rbind (dom_or K dnew (i_nnz i)) (fun dk => Ok (dh, dk))).
(** lib.rs:149-156: evaluations in query order, found by label. *)
Definition eval_query (polys : list (lpoly K)) (q : string * K) : res K :=
  match find (fun p => String.eqb (lp_label K p) (fst q)) polys with Some p => Ok (peval (lp_poly K p) (snd q)) | None => Err MissingEval end.
(** lib.rs:97-181 `create_random_proof`. *)
Definition create_proof (ipk : ipkey) (circ : M K unit) (co : coins) : res proof :=
  let ck := ip_ck ipk in let ivk := ip_ivk ipk in
  rbind (prover_init K dnew (ip_ix ipk) circ) (fun ps =>
  let seed := [FSeed ivk (tl (ps_x K ps))] in
  rbind (first_round K ps (c_w co) (c_za co) (c_zb co) (c_mask co)) (fun o1 =>
  let d := c_draw co in
  rbind (pc_commit K PR ck (combine (polys1 o1) (firstn 4 d))) (fun '(c1, r1) =>
  let tr1 := FComms (map (lc_cm K PR) c1) :: seed in
  rbind (verifier_doms (iv_info ivk)) (fun '(dh, dk) =>
  let v := fs_msg ro dh tr1 in
  rbind (second_round K dnew ps o1 v) (fun o2 =>
  rbind (pc_commit K PR ck (combine (polys2 (dsize (ps_dh K ps)) o2) (firstn 3 (skipn 4 d)))) (fun '(c2, r2) =>
  let tr2 := FComms (map (lc_cm K PR) c2) :: tr1 in
  let beta := fs_beta ro dh tr2 in
  rbind (third_round K dnew ps v beta) (fun o3 =>
  rbind (pc_commit K PR ck (combine (polys3 (dsize (ps_dk K ps)) o3) (firstn 2 (skipn 7 d)))) (fun '(c3, r3) =>
  let tr3 := FComms (map (lc_cm K PR) c3) :: tr2 in
  let gamma := fs_gamma ro tr3 in
  let polys := index_polys (ip_ix ipk) ++ polys1 o1 ++ polys2 (dsize (ps_dh K ps)) o2 ++ polys3 (dsize (ps_dk K ps)) o3 in
  let rands := ip_rands ipk ++ r1 ++ r2 ++ r3 in
  let qs := query_set K beta gamma in
  rbind (mapR (eval_query polys) qs) (fun evs =>
  let xi := fs_xi ro (FEvals evs :: tr3) in
  rbind (batch_open K PR ck polys qs xi rands) (fun op =>
  Ok (mkPf [map (lc_cm K PR) c1; map (lc_cm K PR) c2; map (lc_cm K PR) c3] evs op))))))))))).
(** ahp/mod.rs:34-64: the labels in commitment order. *)
Definition poly_labels : list string :=
  ["a_row"; "a_col"; "a_val"; "a_row_col"; "b_row"; "b_col"; "b_val"; "b_row_col"; "c_row"; "c_col"; "c_val"; "c_row_col";
   "w"; "z_a"; "z_b"; "mask"; "t"; "g_1"; "h_1"; "g_2"; "h_2"]%string.
(** lib.rs:207-218 with prover.rs:224-228, 323-329, 429-435; the two subtractions panic (or wrap to a bound no key supports). *)
Definition degree_bounds (n : nat) (i : info) : res (list (option nat)) :=
  match dnew (i_nc i), dnew (i_nnz i) with
  | Some dh, Some dk => if Nat.ltb (dsize dh) 2 || Nat.ltb (dsize dk) 2 then Panic
      else Ok (repeat None n ++ repeat None 4 ++ [None; Some (dsize dh - 2)%nat; None] ++ [Some (dsize dk - 2)%nat; None])
  | _, _ => Panic
  end.
(** lib.rs:184-250 `verify_proof`. *)
Definition verify_proof (ivk : ivkey) (pf : proof) (pub : list K) : res bool :=
  let seed := [FSeed ivk pub] in
  match pf_comms pf with
  | c1 :: c2 :: c3 :: _ =>
      rbind (verifier_doms (iv_info ivk)) (fun '(dh, dk) =>
      let tr1 := FComms c1 :: seed in let v := fs_msg ro dh tr1 in
      let tr2 := FComms c2 :: tr1 in let beta := fs_beta ro dh tr2 in
      let tr3 := FComms c3 :: tr2 in let gamma := fs_gamma ro tr3 in
      let qs := query_set K beta gamma in
      let xi := fs_xi ro (FEvals (pf_evals pf) :: tr3) in
      rbind (degree_bounds (length (iv_comms ivk)) (iv_info ivk)) (fun db =>
      let comms := map (fun '(c, l, d) => mkLC K PR l c d) (combine (combine (iv_comms ivk ++ c1 ++ c2 ++ c3) poly_labels) db) in
      let evs := map (fun '((l, p), e) => (l, p, e)) (combine qs (pf_evals pf)) in
      rbind (equality_check K dnew pub evs (mkVS K dh dk v beta gamma)) (fun ok =>
      if negb ok then Ok false else batch_check K PR (iv_vk ivk) comms qs evs (pf_open pf) xi)))
  | _ => Panic
  end.
End Top.
