(** Model of plonk/src: the composer (composer/), the polynomial protocol (ahp/) and the scheme (lib.rs). No proofs.
    A `DensePolynomial` is its coefficient vector, lowest first, without trailing zeros ([ptrim], ModelPC.v); labels are strings.
    Variables are the numbers `Permutation::alloc` hands out, so both maps keyed by them are lists indexed by them; a wire
    `Wk(i)` is the pair (k, i). The field is any field, `parallel` iterators are sequential. *)
From Coq Require Export String List Arith Lia Bool.
From Verif Require Export Field Poly ModelPC.
Import ListNotations.
Local Open Scope fld_scope.

(** composer/permutation.rs:12-18 `Wire`. *)
Definition wire := (nat * nat)%type.
(** Element update of a vector; None stands for an index out of bounds. *)
Fixpoint lset {A} (l : list A) (i : nat) (x : A) : option (list A) :=
  match l, i with
  | [], _ => None
  | _ :: r, O => Some (x :: r)
  | y :: r, S j => match lset r j x with Some r' => Some (y :: r') | None => None end
  end.
Definition orp {A} (o : option A) : res A := match o with Some a => Ok a | None => Panic end.

Section Plonk.
Variable K : Fld.
(** `GeneralEvaluationDomain::new` (ark_poly). *)
Variable dnew : nat -> option (dom K).

(** ** composer *)
(** composer/mod.rs:18-40 `Composer`; [c_vmap] is `permutation.variable_map`, [c_asg] is `assignment`. *)
Record composer := mkComp {
  c_n : nat;
  c_q0 : list K; c_q1 : list K; c_q2 : list K; c_q3 : list K; c_qm : list K; c_qc : list K; c_qa : list K; c_pi : list K;
  c_w0 : list nat; c_w1 : list nat; c_w2 : list nat; c_w3 : list nat;
  c_null : nat; c_vmap : list (list wire); c_asg : list K }.
(** composer/mod.rs:75-80 `alloc_and_assign` with permutation.rs:34-39 `alloc`. *)
Definition c_alloc (c : composer) (v : K) : nat * composer :=
  (List.length (c_vmap c),
   mkComp (c_n c) (c_q0 c) (c_q1 c) (c_q2 c) (c_q3 c) (c_qm c) (c_qc c) (c_qa c) (c_pi c) (c_w0 c) (c_w1 c) (c_w2 c) (c_w3 c) (c_null c)
     (c_vmap c ++ [[]]) (c_asg c ++ [v])).
(** composer/mod.rs:43-69 `Composer::new`. *)
Definition c_new : composer :=
  let '(v, c) := c_alloc (mkComp 0 [] [] [] [] [] [] [] [] [] [] [] [] 0 [] []) 0 in
  mkComp (c_n c) (c_q0 c) (c_q1 c) (c_q2 c) (c_q3 c) (c_qm c) (c_qc c) (c_qa c) (c_pi c) (c_w0 c) (c_w1 c) (c_w2 c) (c_w3 c) v (c_vmap c) (c_asg c).
(** composer/permutation.rs:55-58 `add_to_map`; an unknown variable panics. *)
Definition add_to_map (m : list (list wire)) (v : nat) (w : wire) : res (list (list wire)) :=
  match nth_error m v with None => Panic | Some l => orp (lset m v (l ++ [w])) end.
(** composer/permutation.rs:41-53 `insert_gate`. *)
Definition insert_gate (m : list (list wire)) (w0 w1 w2 w3 i : nat) : res (list (list wire)) :=
  rbind (add_to_map m w0 (0, i)%nat) (fun m => rbind (add_to_map m w1 (1, i)%nat) (fun m => rbind (add_to_map m w2 (2, i)%nat) (fun m => add_to_map m w3 (3, i)%nat))).
(** composer/arithmetic.rs:6-40 `create_poly_gate`. *)
Definition poly_gate (c : composer) (l r o : nat * K) (aux : option (nat * K)) (qm qc pi : K) : res composer :=
  let a := match aux with Some a => a | None => (c_null c, 0) end in
  rbind (insert_gate (c_vmap c) (fst a) (fst l) (fst r) (fst o) (c_n c)) (fun m =>
  Ok (mkComp (S (c_n c)) (c_q0 c ++ [snd a]) (c_q1 c ++ [snd l]) (c_q2 c ++ [snd r]) (c_q3 c ++ [snd o]) (c_qm c ++ [qm]) (c_qc c ++ [qc]) (c_qa c ++ [1]) (c_pi c ++ [pi])
    (c_w0 c ++ [fst a]) (c_w1 c ++ [fst l]) (c_w2 c ++ [fst r]) (c_w3 c ++ [fst o]) (c_null c) m (c_asg c))).
(** composer/arithmetic.rs:43-53 `constrain_to_constant`. *)
Definition constrain_to_constant (c : composer) (v : nat) (value pi : K) : res composer := poly_gate c (v, 1) (v, 0) (v, 0) None 0 (- value) (- pi).
(** composer/arithmetic.rs:56-66 `assert_equal`. *)
Definition assert_equal (c : composer) (l r : nat) : res composer := poly_gate c (l, 1) (r, - (1)) (c_null c, 0) None 0 0 0.
(** composer/arithmetic.rs:69-79 `create_add_gate`. *)
Definition add_gate (c : composer) (l r : nat * K) (o : nat) (aux : option (nat * K)) (qc pi : K) : res composer := poly_gate c l r (o, - (1)) aux 0 qc pi.
(** composer/arithmetic.rs:83-102 `create_mul_gate`. *)
Definition mul_gate (c : composer) (l r o : nat) (aux : option (nat * K)) (qm qc pi : K) : res composer := poly_gate c (l, 0) (r, 0) (o, - (1)) aux qm qc pi.

(** composer/permutation.rs:99-108: one assignment `perm_k[i] = next_wire`. *)
Definition perm_set (p : list (list wire)) (s t : wire) : res (list (list wire)) :=
  match nth_error p (fst s) with None => Panic | Some row => rbind (orp (lset row (snd s) t)) (fun row => orp (lset p (fst s) row)) end.
(** composer/permutation.rs:96-109: the loop over one variable's wires; the wire at 0 gets the last one, every other its predecessor. *)
Definition perm_var (p : list (list wire)) (ws : list wire) : res (list (list wire)) :=
  if Nat.leb (List.length ws) 1 then Ok p
  else fold_left (fun p st => rbind p (fun p => perm_set p (fst st) (snd st))) (combine ws (last ws (0, 0)%nat :: removelast ws)) (Ok p).
(** composer/permutation.rs:85-113 `compute_wire_permutation`; [order] is the iteration order of the hash map. *)
Definition wire_perm (c : composer) (order : list nat) (n : nat) : res (list (list wire)) :=
  fold_left (fun p v => rbind p (fun p => perm_var p (nth v (c_vmap c) []))) order (Ok (map (fun k => map (fun i => (k, i)) (seq 0 n)) (seq 0 4))).
(** composer/permutation.rs:62-83 `compute_sigmas`. *)
Definition sigma_of (d : dom K) (ks : list K) (w : wire) : K := dgen d ^ snd w * nth (fst w) ks 0.
Definition sigmas (c : composer) (order : list nat) (d : dom K) (ks : list K) : res (list (list K)) :=
  rbind (wire_perm c order (dsize d)) (fun p => Ok (map (map (sigma_of d ks)) p)).

(** utils.rs:49-56 `pad_to_size` and the padding in compose/synthesize; the subtraction underflows (a panic, or in release
    builds an impossible allocation) when the vector is longer. *)
Definition pad_to (n : nat) (v : list K) : res (list K) := if Nat.ltb n (List.length v) then Panic else Ok (v ++ repeat 0 (n - List.length v)).
(** composer/synthesize.rs:15-29 `Selectors`. *)
Record selectors := mkSel { s_n : nat; s_q0 : list K; s_q1 : list K; s_q2 : list K; s_q3 : list K; s_qm : list K; s_qc : list K; s_qa : list K;
  s_s0 : list K; s_s1 : list K; s_s2 : list K; s_s3 : list K }.
(** composer/synthesize.rs:68-103 `compose`; the vectors of a composer all have c_n entries, each is padded by the same number of zeros. *)
Definition compose (c : composer) (order : list nat) (ks : list K) : res selectors :=
  match dnew (c_n c) with
  | None => Err PolynomialDegreeTooLarge
  | Some d =>
      let n := dsize d in
      rbind (sigmas c order d ks) (fun sg =>
      if Nat.ltb n (c_n c) then Panic else
      let pad := fun v => v ++ repeat 0 (n - c_n c) in
      Ok (mkSel n (pad (c_q0 c)) (pad (c_q1 c)) (pad (c_q2 c)) (pad (c_q3 c)) (pad (c_qm c)) (pad (c_qc c)) (pad (c_qa c))
            (nth 0 sg []) (nth 1 sg []) (nth 2 sg []) (nth 3 sg [])))
  end.
(** composer/synthesize.rs:110-132 `synthesize`; `self.assignment[&v]` panics for an unknown variable. *)
Definition assign (c : composer) (v : nat) : res K := orp (nth_error (c_asg c) v).
Definition synthesize (c : composer) : res (list (list K)) :=
  match dnew (c_n c) with
  | None => Err PolynomialDegreeTooLarge
  | Some d =>
      mapR (fun w => rbind (mapR (assign c) w) (fun w => if Nat.ltb (dsize d) (c_n c) then Panic else Ok (w ++ repeat 0 (dsize d - c_n c)))) [c_w0 c; c_w1 c; c_w2 c; c_w3 c]
  end.

(** ** indexer *)
(** `Evaluations::from_vec_and_domain(v, d).interpolate()` (ark_poly). *)
Definition interp (d : dom K) (v : list K) : list K := ptrim K (idft d v).
(** ahp/indexer/mod.rs:30-35 `IndexInfo`. *)
Record info := mkInfo { i_n : nat; i_ks : list K; i_dn : dom K }.
(** A labelled selector: polynomial, values, values on the coset (the triples of arithmetic.rs:11-19 and permutation.rs:12-18). *)
Record tri := mkTri { t_poly : list K; t_val : list K; t_4n : list K }.
Definition mk_tri (d d4 : dom K) (v : list K) : tri := mkTri (interp d v) v (coset_dft d4 (interp d v)).
(** ahp/indexer/mod.rs:19-28 `Index`. *)
Record index := mkIndex { x_info : info; x_q0 : tri; x_q1 : tri; x_q2 : tri; x_q3 : tri; x_qm : tri; x_qc : tri; x_qa : tri;
  x_s0 : tri; x_s1 : tri; x_s2 : tri; x_s3 : tri; x_l1 : list K; x_d4 : dom K; x_vi : list K }.
(** utils.rs:25-31 `vanishing_poly`. *)
Definition vanishing_poly (d : dom K) : list K := ptrim K (- (1) :: repeat 0 (dsize d - 1) ++ [1]).
(** utils.rs:38-42 `first_lagrange_poly`. *)
Definition first_lagrange_poly (d : dom K) : list K := interp d (1 :: repeat 0 (dsize d - 1)).
(** ahp/indexer/mod.rs:146-257 `index`. *)
Definition plonk_index (c : composer) (order : list nat) (ks : list K) : res index :=
  rbind (compose c order ks) (fun s =>
  match dnew (s_n s), dnew (4 * s_n s) with
  | Some d, Some d4 =>
      let t := mk_tri d d4 in
      rbind (mapR (fun v => if feqb v 0 then Panic else Ok (finv v)) (coset_dft d4 (vanishing_poly d))) (fun vi =>
      Ok (mkIndex (mkInfo (s_n s) ks d) (t (s_q0 s)) (t (s_q1 s)) (t (s_q2 s)) (t (s_q3 s)) (t (s_qm s)) (t (s_qc s)) (t (s_qa s))
        (t (s_s0 s)) (t (s_s1 s)) (t (s_s2 s)) (t (s_s3 s)) (coset_dft d4 (first_lagrange_poly d)) d4 vi))
  | _, _ => Err PolynomialDegreeTooLarge
  end).
(** ahp/indexer/mod.rs:260-263 `Index::iter` with arithmetic.rs:40-51 and permutation.rs:21-29. *)
Definition index_polys (x : index) : list (string * list K) :=
  [("q_0"%string, t_poly (x_q0 x)); ("q_1"%string, t_poly (x_q1 x)); ("q_2"%string, t_poly (x_q2 x)); ("q_3"%string, t_poly (x_q3 x)); ("q_m"%string, t_poly (x_qm x)); ("q_c"%string, t_poly (x_qc x));
   ("q_arith"%string, t_poly (x_qa x)); ("sigma_0"%string, t_poly (x_s0 x)); ("sigma_1"%string, t_poly (x_s1 x)); ("sigma_2"%string, t_poly (x_s2 x)); ("sigma_3"%string, t_poly (x_s3 x))].

(** ** prover *)
(** permutation.rs:84-85, 144-145: the factor closures. *)
Definition nfac (beta gamma w root k : K) : K := w + k * beta * root + gamma.
Definition dfac (beta gamma w s : K) : K := w + beta * s + gamma.
(** permutation.rs:92-107: one entry of `perms`. *)
Definition perm_ratio (x : index) (w : list (list K)) (beta gamma : K) (i : nat) : res K :=
  let ks := i_ks (x_info x) in let root := dgen (i_dn (x_info x)) ^ i in
  let wv := fun k => nth i (nth k w []) 0 in
  let num := nfac beta gamma (wv 0%nat) root (nth 0 ks 0) * nfac beta gamma (wv 1%nat) root (nth 1 ks 0) * nfac beta gamma (wv 2%nat) root (nth 2 ks 0) * nfac beta gamma (wv 3%nat) root (nth 3 ks 0) in
  let den := dfac beta gamma (wv 0%nat) (nth i (t_val (x_s0 x)) 0) * dfac beta gamma (wv 1%nat) (nth i (t_val (x_s1 x)) 0) * dfac beta gamma (wv 2%nat) (nth i (t_val (x_s2 x)) 0) * dfac beta gamma (wv 3%nat) (nth i (t_val (x_s3 x)) 0) in
  if feqb den 0 then Panic else Ok (num * finv den).
(** permutation.rs:109-115: the running products, the first being one; also returns the product over the whole list. *)
Fixpoint run_prod (acc : K) (l : list K) : list K * K :=
  match l with [] => ([], acc) | p :: r => let '(z, e) := run_prod (acc * p) r in (acc :: z, e) end.
(** permutation.rs:73-122 `compute_z`; the assertion on the last product panics. *)
Definition compute_z (x : index) (w : list (list K)) (beta gamma : K) : res (list K) :=
  rbind (mapR (perm_ratio x w beta gamma) (seq 0 (dsize (i_dn (x_info x))))) (fun perms =>
  let '(z, e) := run_prod 1 perms in if feqb e 1 then Ok z else Panic).
(** arithmetic.rs:91-116 `evaluate`. *)
Definition arith_eval (w0 w1 w2 w3 q0 q1 q2 q3 qm qc qa pi : K) : K :=
  if feqb qa 0 then 0 else (q0 * w0 + q1 * w1 + q2 * w2 + q3 * w3 + qm * w1 * w2 + qc + pi) * qa.
(** permutation.rs:155-159: the index of the next point of the small domain inside the large one. *)
Definition next4 (size i : nat) : nat := if Nat.eqb (i / 4) (size / 4 - 1) then Nat.modulo i 4 else (i + 4)%nat.
(** arithmetic.rs:53-88 and permutation.rs:124-169 `compute_quotient`, summed and divided as in prover.rs:196-200: entry i. *)
Definition quotient_at (x : index) (w4 : nat -> list K) (z4 pi4 : list K) (alpha beta gamma : K) (i : nat) : K :=
  let at4 := fun l => nth i l 0 in let ks := i_ks (x_info x) in
  let lin := nth i (coset_dft (x_d4 x) [0; 1]) 0 in
  let w := fun k => nth i (w4 k) 0 in
  let ar := arith_eval (w 0%nat) (w 1%nat) (w 2%nat) (w 3%nat) (at4 (t_4n (x_q0 x))) (at4 (t_4n (x_q1 x))) (at4 (t_4n (x_q2 x))) (at4 (t_4n (x_q3 x))) (at4 (t_4n (x_qm x))) (at4 (t_4n (x_qc x))) (at4 (t_4n (x_qa x))) (at4 pi4) in
  let pm := (nfac beta gamma (w 0%nat) lin (nth 0 ks 0) * nfac beta gamma (w 1%nat) lin (nth 1 ks 0) * nfac beta gamma (w 2%nat) lin (nth 2 ks 0) * nfac beta gamma (w 3%nat) lin (nth 3 ks 0) * at4 z4
     - dfac beta gamma (w 0%nat) (at4 (t_4n (x_s0 x))) * dfac beta gamma (w 1%nat) (at4 (t_4n (x_s1 x))) * dfac beta gamma (w 2%nat) (at4 (t_4n (x_s2 x))) * dfac beta gamma (w 3%nat) (at4 (t_4n (x_s3 x)))
       * nth (next4 (dsize (x_d4 x)) i) z4 0) * alpha + (at4 z4 - 1) * at4 (x_l1 x) * (alpha * alpha) in
  (ar + pm) * at4 (x_vi x).
(** prover.rs:218-251 `quad_split`: four chunks of n coefficients, the rest is dropped. *)
Definition quad_split (n : nat) (p : list K) : list (list K) :=
  map (fun k => ptrim K (firstn n (skipn (k * n) p))) (seq 0 4).
(** prover.rs:167-216 `prover_third_round`. *)
Definition third_round (x : index) (wp : list (list K)) (zp pip : list K) (alpha beta gamma : K) : list (list K) :=
  let d4 := x_d4 x in
  let w4 := fun k => coset_dft d4 (nth k wp []) in
  let t := map (quotient_at x w4 (coset_dft d4 zp) (coset_dft d4 pip) alpha beta gamma) (seq 0 (dsize d4)) in
  quad_split (dsize (i_dn (x_info x))) (ptrim K (coset_idft d4 t)).

(** ** linear combinations *)
(** ark_poly_commit `LinearCombination`; constant terms do not occur. *)
Record lcomb := mkLC { l_label : string; l_terms : list (K * string) }.
(** utils.rs:44-47 `evaluate_first_lagrange_poly`; a zero denominator panics. *)
Definition l1_at (d : dom K) (zeta : K) : res K :=
  let den := of_nat (dsize d) * (zeta - 1) in if feqb den 0 then Panic else Ok ((zeta ^ dsize d - 1) * finv den).
(** ahp/indexer/arithmetic.rs:22-38 `construct_linear_combination`. *)
Definition arith_lc (w0 w1 w2 w3 qa : K) : list (K * string) :=
  [(qa * w0, "q_0"%string); (qa * w1, "q_1"%string); (qa * w2, "q_2"%string); (qa * w3, "q_3"%string); (qa * w1 * w2, "q_m"%string); (qa, "q_c"%string)].
(** ahp/indexer/permutation.rs:32-71 `construct_linear_combination`. *)
Definition perm_lc (i : info) (w0 w1 w2 w3 zs s0 s1 s2 beta gamma alpha zeta : K) : res (list (K * string)) :=
  let ks := i_ks i in
  let num := nfac beta gamma w0 zeta (nth 0 ks 0) * nfac beta gamma w1 zeta (nth 1 ks 0) * nfac beta gamma w2 zeta (nth 2 ks 0) * nfac beta gamma w3 zeta (nth 3 ks 0) in
  let den := dfac beta gamma w0 s0 * dfac beta gamma w1 s1 * dfac beta gamma w2 s2 * beta * zs in
  rbind (l1_at (i_dn i) zeta) (fun l1 => Ok [(num * alpha + l1 * (alpha * alpha), "z"%string); (- den * alpha, "sigma_3"%string)]).
Definition single (l : string) : lcomb := mkLC l [(1, l)].
(** ahp/mod.rs:54-66: the combination for t. *)
Definition t_lc (n : nat) (zeta : K) : lcomb :=
  let zn := zeta ^ n in mkLC "t" [(1, "t_0"%string); (zn, "t_1"%string); (zn * zn, "t_2"%string); (zn * (zn * zn), "t_3"%string)].
(** ahp/mod.rs:29-113 `construct_linear_combinations`, in the order after sorting by label; [ev] answers get_lc_eval. *)
Definition lin_combs (i : info) (alpha beta gamma zeta : K) (ev : lcomb -> K -> res K) : res (list lcomb) :=
  let g := dgen (i_dn i) in
  rbind (ev (single "w_0") zeta) (fun w0 => rbind (ev (single "w_1") zeta) (fun w1 => rbind (ev (single "w_2") zeta) (fun w2 => rbind (ev (single "w_3") zeta) (fun w3 =>
  rbind (ev (single "z") (zeta * g)) (fun zs =>
  rbind (ev (single "sigma_0") zeta) (fun s0 => rbind (ev (single "sigma_1") zeta) (fun s1 => rbind (ev (single "sigma_2") zeta) (fun s2 =>
  rbind (ev (single "q_arith") zeta) (fun qa =>
  rbind (perm_lc i w0 w1 w2 w3 zs s0 s1 s2 beta gamma alpha zeta) (fun pl =>
  Ok [single "q_arith"; mkLC "r" (arith_lc w0 w1 w2 w3 qa ++ pl); single "sigma_0"; single "sigma_1"; single "sigma_2"; t_lc (i_n i) zeta; single "w_0"; single "w_1"; single "w_2"; single "w_3"; single "z"])))))))))).
(** ahp/evaluations.rs:25-51: evaluation of a combination on labelled polynomials; the first polynomial with the label is used. *)
Definition find_label {A} (l : string) (ps : list (string * A)) : option A :=
  match find (fun p => String.eqb (fst p) l) ps with Some p => Some (snd p) | None => None end.
Definition poly_eval_lc (ps : list (string * list K)) (l : lcomb) (pt : K) : res K :=
  rbind (mapR (fun t => match find_label (snd t) ps with Some p => Ok (fst t * peval p pt) | None => Err MissingEval end) (l_terms l)) (fun vs => Ok (fsum vs)).
(** ahp/verifier.rs:77-99 `verifier_query_set`, in the order of the labels (the order of the set). *)
Definition query_set (i : info) (zeta : K) : list (string * K) :=
  [("q_arith"%string, zeta); ("r"%string, zeta); ("sigma_0"%string, zeta); ("sigma_1"%string, zeta); ("sigma_2"%string, zeta); ("t"%string, zeta);
   ("w_0"%string, zeta); ("w_1"%string, zeta); ("w_2"%string, zeta); ("w_3"%string, zeta); ("z"%string, zeta * dgen (i_dn i))].
(** ark_poly_commit `Evaluations`: a map from label and point to value. *)
Definition evals := list ((string * K) * K).
Definition ev_get (e : evals) (l : string) (pt : K) : res K :=
  match find (fun x => String.eqb (fst (fst x)) l && feqb (snd (fst x)) pt) e with Some x => Ok (snd x) | None => Err MissingEval end.
(** ahp/verifier.rs:101-150 `verifier_equality_check`. *)
Definition equality_check (i : info) (alpha beta gamma zeta : K) (e : evals) (pub : list K) : res bool :=
  let d := i_dn i in
  rbind (pad_to (dsize d) pub) (fun pi =>
  let pi_zeta := peval (interp d pi) zeta in
  rbind (ev_get e "w_0" zeta) (fun w0 => rbind (ev_get e "w_1" zeta) (fun w1 => rbind (ev_get e "w_2" zeta) (fun w2 => rbind (ev_get e "w_3" zeta) (fun w3 =>
  rbind (ev_get e "z" (zeta * dgen d)) (fun zs =>
  rbind (ev_get e "sigma_0" zeta) (fun s0 => rbind (ev_get e "sigma_1" zeta) (fun s1 => rbind (ev_get e "sigma_2" zeta) (fun s2 =>
  rbind (ev_get e "q_arith" zeta) (fun qa => rbind (ev_get e "t" zeta) (fun t => rbind (ev_get e "r" zeta) (fun r =>
  rbind (l1_at d zeta) (fun l1 =>
  Ok (feqb (t * (zeta ^ dsize d - 1))
    (r + qa * pi_zeta - zs * dfac beta gamma w0 s0 * dfac beta gamma w1 s1 * dfac beta gamma w2 s2 * (w3 + gamma) * alpha - l1 * (alpha * alpha)))))))))))))))).

(** ** the scheme *)
(** The polynomial commitment is a type parameter of the scheme (lib.rs:44): its operations, as lib.rs uses them. All
    polynomials are committed without degree and hiding bounds, one random source per polynomial. *)
Record pcs := mkPcs { p_srs : Type; p_ck : Type; p_vk : Type; p_comm : Type; p_rand : Type; p_proof : Type; p_rng : Type;
  p_max : p_srs -> nat;
  p_trim : p_srs -> nat -> res (p_ck * p_vk);
  p_commit : p_ck -> list K -> p_rng -> res (p_comm * p_rand);
  p_open : p_ck -> list lcomb -> list (string * list K) -> list (string * p_comm) -> list (string * K) -> K -> list p_rand -> p_rng -> res p_proof;
  p_check : p_vk -> list lcomb -> list (string * p_comm) -> list (string * K) -> evals -> p_proof -> K -> res bool }.
Variable PC : pcs.
(** rng.rs `FiatShamirRng`: every challenge is some function of what was absorbed before it. *)
Record oracle := mkOracle {
  o_bg : list K -> list (p_comm PC) -> K * K;
  o_alpha : list K -> list (p_comm PC) -> list (p_comm PC) -> K;
  o_zeta : list K -> list (p_comm PC) -> list (p_comm PC) -> list (p_comm PC) -> K;
  o_eps : list K -> list (p_comm PC) -> list (p_comm PC) -> list (p_comm PC) -> list K -> K }.
Variable ro : oracle.
(** data_structures.rs:14-45 `ProverKey`, `VerifierKey`, `Proof`. *)
Record vkey := mkVk { v_info : info; v_comms : list (p_comm PC); v_labels : list string; v_rk : p_vk PC }.
Record pkey := mkPk { k_vk : vkey; k_rands : list (p_rand PC); k_index : index; k_ck : p_ck PC }.
Record proof := mkProof { f_comms : list (list (p_comm PC)); f_evals : list K; f_pc : p_proof PC }.
Definition commit_all (ck : p_ck PC) (ps : list (string * list K)) (rng : p_rng PC) : res (list (p_comm PC * p_rand PC)) :=
  mapR (fun p => p_commit PC ck (snd p) rng) ps.
(** lib.rs:62-91 `keygen`; the commitments to the index use no randomness ([rng] stands for None). *)
Definition keygen (srs : p_srs PC) (c : composer) (order : list nat) (ks : list K) (rng : p_rng PC) : res (pkey * vkey) :=
  rbind (plonk_index c order ks) (fun x =>
  let n := i_n (x_info x) in
  if Nat.ltb (p_max PC srs) n then Err IndexTooLarge else
  rbind (p_trim PC srs n) (fun '(ck, rk) =>
  rbind (commit_all ck (index_polys x) rng) (fun cr =>
  let vk := mkVk (x_info x) (map fst cr) (map fst (index_polys x)) rk in
  Ok (mkPk vk (map snd cr) x ck, vk)))).
(** ahp/mod.rs:26-27 `LABELS`. *)
Definition plonk_labels : list string := ["w_0"; "w_1"; "w_2"; "w_3"; "z"; "t_0"; "t_1"; "t_2"; "t_3"]%string.
Definition w_labels : list string := ["w_0"; "w_1"; "w_2"; "w_3"]%string.
Definition t_labels : list string := ["t_0"; "t_1"; "t_2"; "t_3"]%string.
(** lib.rs:164-176: the evaluations in label order. *)
Definition eval_all (lcs : list lcomb) (ps : list (string * list K)) (qs : list (string * K)) : res (list K) :=
  mapR (fun q => match find (fun l => String.eqb (l_label l) (fst q)) lcs with None => Err MissingEval | Some l => poly_eval_lc ps l (snd q) end) qs.
(** lib.rs:93-204 `prove` with prover.rs:69-165 (`prover_init`, the first two rounds). *)
Definition prove (pk : pkey) (c : composer) (rng : p_rng PC) : res proof :=
  let x := k_index pk in let i := v_info (k_vk pk) in let d := i_dn i in
  let pub := c_pi c in
  rbind (pad_to (dsize d) pub) (fun pin => let pip := interp d pin in
  rbind (synthesize c) (fun w => let wp := map (interp d) w in
  let o1 := combine w_labels wp in
  rbind (commit_all (k_ck pk) o1 rng) (fun cr1 => let c1 := map fst cr1 in
  let '(beta, gamma) := o_bg ro pub c1 in
  rbind (compute_z x w beta gamma) (fun z => let zp := interp d z in
  let o2 := [("z"%string, zp)] in
  rbind (commit_all (k_ck pk) o2 rng) (fun cr2 => let c2 := map fst cr2 in
  let alpha := o_alpha ro pub c1 c2 in
  let o3 := combine t_labels (third_round x wp zp pip alpha beta gamma) in
  rbind (commit_all (k_ck pk) o3 rng) (fun cr3 => let c3 := map fst cr3 in
  let zeta := o_zeta ro pub c1 c2 c3 in
  let ps := index_polys x ++ o1 ++ o2 ++ o3 in
  let lcs0 := combine (v_labels (k_vk pk)) (v_comms (k_vk pk)) ++ combine w_labels c1 ++ combine ["z"%string] c2 ++ combine t_labels c3 in
  let rands := k_rands pk ++ map snd cr1 ++ map snd cr2 ++ map snd cr3 in
  let qs := query_set i zeta in
  rbind (lin_combs i alpha beta gamma zeta (poly_eval_lc ps)) (fun lcs =>
  rbind (eval_all lcs ps qs) (fun evs =>
  let eps := o_eps ro pub c1 c2 c3 evs in
  rbind (p_open PC (k_ck pk) lcs ps lcs0 qs eps rands rng) (fun pf =>
  Ok (mkProof [c1; c2; c3] evs pf)))))))))).
(** lib.rs:206-290 `verify`; `proof.commitments[i]` panics when there are fewer than three lists, longer lists are cut off by the labels. *)
Definition verify (vk : vkey) (pub : list K) (p : proof) : res bool :=
  rbind (orp (nth_error (f_comms p) 0)) (fun c1 =>
  let '(beta, gamma) := o_bg ro pub c1 in
  rbind (orp (nth_error (f_comms p) 1)) (fun c2 =>
  let alpha := o_alpha ro pub c1 c2 in
  rbind (orp (nth_error (f_comms p) 2)) (fun c3 =>
  let zeta := o_zeta ro pub c1 c2 c3 in
  let i := v_info vk in let qs := query_set i zeta in
  let eps := o_eps ro pub c1 c2 c3 (f_evals p) in
  let e := combine qs (f_evals p) in
  rbind (equality_check i alpha beta gamma zeta e pub) (fun ok =>
  if negb ok then Ok false else
  let cs := combine (v_labels vk ++ plonk_labels) (v_comms vk ++ c1 ++ c2 ++ c3) in
  rbind (lin_combs i alpha beta gamma zeta (fun l pt => ev_get e (l_label l) pt)) (fun lcs =>
  p_check PC (v_rk vk) lcs cs qs e (f_pc p) eps))))).
End Plonk.
Arguments c_n {K}. Arguments c_q0 {K}. Arguments c_q1 {K}. Arguments c_q2 {K}. Arguments c_q3 {K}. Arguments c_qm {K}. Arguments c_qc {K}. Arguments c_qa {K}. Arguments c_pi {K}.
Arguments c_w0 {K}. Arguments c_w1 {K}. Arguments c_w2 {K}. Arguments c_w3 {K}. Arguments c_null {K}. Arguments c_vmap {K}. Arguments c_asg {K}.
Arguments c_alloc {K}. Arguments poly_gate {K}. Arguments constrain_to_constant {K}. Arguments assert_equal {K}. Arguments add_gate {K}. Arguments mul_gate {K}.
Arguments wire_perm {K}. Arguments sigma_of {K}. Arguments sigmas {K}. Arguments pad_to {K}. Arguments compose {K}. Arguments assign {K}. Arguments synthesize {K}.
Arguments s_n {K}. Arguments s_q0 {K}. Arguments s_q1 {K}. Arguments s_q2 {K}. Arguments s_q3 {K}. Arguments s_qm {K}. Arguments s_qc {K}. Arguments s_qa {K}.
Arguments s_s0 {K}. Arguments s_s1 {K}. Arguments s_s2 {K}. Arguments s_s3 {K}. Arguments interp {K}. Arguments i_n {K}. Arguments i_ks {K}. Arguments i_dn {K}.
Arguments t_poly {K}. Arguments t_val {K}. Arguments t_4n {K}. Arguments mk_tri {K}. Arguments x_info {K}. Arguments x_q0 {K}. Arguments x_q1 {K}. Arguments x_q2 {K}. Arguments x_q3 {K}.
Arguments x_qm {K}. Arguments x_qc {K}. Arguments x_qa {K}. Arguments x_s0 {K}. Arguments x_s1 {K}. Arguments x_s2 {K}. Arguments x_s3 {K}. Arguments x_l1 {K}. Arguments x_d4 {K}. Arguments x_vi {K}.
Arguments vanishing_poly {K}. Arguments first_lagrange_poly {K}. Arguments plonk_index {K}. Arguments index_polys {K}. Arguments nfac {K}. Arguments dfac {K}. Arguments perm_ratio {K}.
Arguments run_prod {K}. Arguments compute_z {K}. Arguments arith_eval {K}. Arguments quotient_at {K}. Arguments quad_split {K}. Arguments third_round {K}.
Arguments l_label {K}. Arguments l_terms {K}. Arguments mkLC {K}. Arguments l1_at {K}. Arguments arith_lc {K}. Arguments perm_lc {K}. Arguments single {K}. Arguments t_lc {K}. Arguments lin_combs {K}.
Arguments poly_eval_lc {K}. Arguments query_set {K}. Arguments ev_get {K}. Arguments equality_check {K}. Arguments eval_all {K}.
Arguments p_srs {K}. Arguments p_ck {K}. Arguments p_vk {K}. Arguments p_comm {K}. Arguments p_rand {K}. Arguments p_proof {K}. Arguments p_rng {K}. Arguments p_max {K}. Arguments p_trim {K}. Arguments p_commit {K}. Arguments p_open {K}. Arguments p_check {K}.
Arguments o_bg {K PC}. Arguments o_alpha {K PC}. Arguments o_zeta {K PC}. Arguments o_eps {K PC}. Arguments v_info {K PC}. Arguments v_comms {K PC}. Arguments v_labels {K PC}. Arguments v_rk {K PC}.
Arguments k_vk {K PC}. Arguments k_rands {K PC}. Arguments k_index {K PC}. Arguments k_ck {K PC}. Arguments f_comms {K PC}. Arguments f_evals {K PC}. Arguments f_pc {K PC}.
Arguments commit_all {K PC}. Arguments keygen {K} dnew {PC}. Arguments prove {K} dnew {PC}. Arguments verify {K PC}.
