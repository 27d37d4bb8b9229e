(** Model of groth16/src: arithmetic-program reduction, key generation, proving, verification. No proofs.
    Group elements are elements of arbitrary modules [Grp]; affine/projective conversions, windowed
    fixed-base tables and `into_repr` are identities. The FFT library is modelled by the
    defining formulas of the transforms ([dft], [idft], ... in Poly.v). *)
From Verif Require Import Field Poly Module ModelLC ModelCS.
Local Open Scope fld_scope.

Section G16.
Variable K : Fld.
Variable PR : Pairing K.
(** `EvaluationDomain::new(n)` (ark_poly): a domain with at least n points, or None. *)
Variable dnew : nat -> option (dom K).

(** lib.rs:128-139 `push_constraints`: terms in order, coefficient first. *)
Definition push_constraints (l : lc K) : list (K * var) := map (fun '(v, c) => (c, v)) l.
(** generator.rs:38-46 `KeypairAssembly` / prover.rs:16-25 `ProvingAssignment`, read off the synthesised system. *)
Definition at_ (s : cs K) : list (list (K * var)) := map (fun c => push_constraints (ca c)) (cons s).
Definition bt_ (s : cs K) : list (list (K * var)) := map (fun c => push_constraints (cb c)) (cons s).
Definition ct_ (s : cs K) : list (list (K * var)) := map (fun c => push_constraints (cc c)) (cons s).
Definition num_inputs (s : cs K) : nat := length (inps s).
Definition num_aux (s : cs K) : nat := length (auxs s).
Definition num_constraints (s : cs K) : nat := length (cons s).

(** r1cs_to_qap.rs:31-34, 81-85: position of a variable in the full assignment. *)
Definition var_pos (ni : nat) (v : var) : nat := match v with Input i => i | Aux i => (ni + i)%nat end.
(** r1cs_to_qap.rs:15-52 `evaluate_constraint`; indexing outside the assignment panics. *)
Fixpoint evaluate_constraint (terms : list (K * var)) (asg : list K) (ni : nat) (sum : K) : res K :=
  match terms with
  | [] => Ok sum
  | (c, v) :: r =>
      match nth_error asg (var_pos ni v) with
      | None => Panic
      | Some x => evaluate_constraint r asg ni (if feqb c 1 then sum + x else sum + x * c)
      end
  end.

(** EvaluationDomain::evaluate_vanishing_polynomial, evaluate_all_lagrange_coefficients (ark_poly). *)
Definition vanish_at (d : dom K) (t : K) : K := t ^ dsize d - 1.
Definition lagrange_at (d : dom K) (t : K) : list K :=
  if feqb (t ^ dsize d) 1 then map (fun x => if feqb x t then 1 else 0) (dpts d)
  else map (fun x => (t ^ dsize d - 1) * x / (of_nat (dsize d) * (t - x))) (dpts d).

(** r1cs_to_qap.rs:80-103: the inner loop over one row, `a[index] += u[i] * coeff`. *)
Fixpoint acc_row (ui : K) (ni : nat) (row : list (K * var)) (a : list K) : res (list K) :=
  match row with
  | [] => Ok a
  | (c, v) :: r => let j := var_pos ni v in
      if Nat.ltb j (length a) then acc_row ui ni r (upd_at j (fun y => y + ui * c) a) else Panic
  end.
(** r1cs_to_qap.rs:79-104: loop over the rows from row [i]; `u[i]` is in range because the domain has
    at least as many points as rows. *)
Fixpoint acc_rows (u : list K) (ni i : nat) (rows : list (list (K * var))) (a : list K) : res (list K) :=
  match rows with
  | [] => Ok a
  | row :: r => match nth_error u i with None => Panic | Some ui => rbind (acc_row ui ni row a) (acc_rows u ni (S i) r) end
  end.
(** r1cs_to_qap.rs:75-77: `a[i] = u[num_constraints + i]` for the inputs. *)
Definition input_row (u : list K) (nc ni len : nat) : list K :=
  map (fun i => nth (nc + i) u 0) (seq 0 ni) ++ repeat 0 (len - ni).
(** r1cs_to_qap.rs:58-110 `instance_map_with_evaluation`: (a, b, c, zt, domain size). *)
Definition instance_map (s : cs K) (t : K) : res (list K * list K * list K * K * nat) :=
  let ni := num_inputs s in let nc := num_constraints s in let nv := (ni + num_aux s)%nat in
  match dnew (nc + (ni - 1) + 1) with
  | None => Err PolynomialDegreeTooLarge
  | Some d =>
      let u := lagrange_at d t in
      rbind (acc_rows u ni 0 (at_ s) (input_row u nc ni nv)) (fun a =>
      rbind (acc_rows u ni 0 (bt_ s) (repeat 0 nv)) (fun b =>
      rbind (acc_rows u ni 0 (ct_ s) (repeat 0 nv)) (fun c =>
      Ok (a, b, c, vanish_at d t, dsize d))))
  end.

Fixpoint res_list {A B} (f : A -> res B) (l : list A) : res (list B) :=
  match l with [] => Ok [] | x :: r => rbind (f x) (fun y => rbind (res_list f r) (fun ys => Ok (y :: ys))) end.
Definition fill_to (n : nat) (l : list K) : list K := l ++ repeat 0 (n - length l).
Definition zipw {A} (f : A -> A -> A) (a b : list A) : list A := map (fun '(x, y) => f x y) (combine a b).
(** r1cs_to_qap.rs:113-172 `witness_map`. *)
Definition witness_map (s : cs K) : res (list K) :=
  let ni := num_inputs s in let nc := num_constraints s in
  let full := inps s ++ auxs s in
  match dnew (nc + ni) with
  | None => Err PolynomialDegreeTooLarge
  | Some d =>
      rbind (res_list (fun row => evaluate_constraint row full ni 0) (at_ s)) (fun av =>
      rbind (res_list (fun row => evaluate_constraint row full ni 0) (bt_ s)) (fun bv =>
      let a := fill_to (dsize d) (av ++ firstn ni full) in
      let b := fill_to (dsize d) bv in
      let a := coset_dft d (idft d a) in
      let b := coset_dft d (idft d b) in
      let ab := zipw fmul a b in
      rbind (res_list (fun row => evaluate_constraint row full ni 0) (ct_ s)) (fun cv =>
      let c := coset_dft d (idft d (fill_to (dsize d) cv)) in
      let ab := zipw fsub ab c in
      (* divide_by_vanishing_poly_on_coset_in_place: the vanishing polynomial is constant on the coset *)
      let ab := map (fun x => x * finv (vanish_at d (dshift d))) ab in
      Ok (coset_idft d ab))))
  end.

(** lib.rs:51-66, 80-91 *)
Record vkey := mkVK { alpha_g1 : G1 PR; beta_g2 : G2 PR; gamma_g2 : G2 PR; delta_g2 : G2 PR; gamma_abc_g1 : list (G1 PR) }.
Record params := mkPar { pvk : vkey; beta_g1 : G1 PR; delta_g1 : G1 PR; a_query : list (G1 PR); b_g1_query : list (G1 PR);
  b_g2_query : list (G2 PR); h_query : list (G1 PR); l_query : list (G1 PR) }.
Record proof := mkPrf { pa : G1 PR; pb : G2 PR; pc : G1 PR }.

(** generator.rs:135-286 `generate_parameters`. The random generators and the point [t] (sampled outside the domain,
    generator.rs:166) are arguments. *)
Definition generate_parameters (circuit : M K unit) (alpha beta gamma delta t : K) (g1 : G1 PR) (g2 : G2 PR) : res params :=
  rbind (circuit (cs_new Setup)) (fun '(_, s) =>
  let ni := num_inputs s in
  match dnew (num_constraints s + (ni - 1) + 1) with None => Err PolynomialDegreeTooLarge | Some _ =>
  rbind (instance_map s t) (fun '(a, b, c, zt, m_raw) =>
  if feqb gamma 0 then Err UnexpectedIdentity else if feqb delta 0 then Err UnexpectedIdentity else
  let gi := finv gamma in let di := finv delta in
  let abc := combine (combine a b) c in
  let gamma_abc := map (fun '((x, y), z) => (beta * x + alpha * y + z) * gi) (firstn ni abc) in
  let l := map (fun '((x, y), z) => (beta * x + alpha * y + z) * di) abc in
  Ok (mkPar (mkVK (gsm alpha g1) (gsm beta g2) (gsm gamma g2) (gsm delta g2) (map (fun x => gsm x g1) gamma_abc))
    (gsm beta g1) (gsm delta g1) (map (fun x => gsm x g1) a) (map (fun x => gsm x g1) b) (map (fun x => gsm x g2) b)
    (map (fun i => gsm (zt * di * t ^ i) g1) (seq 0 (m_raw - 1)))
    (skipn ni (map (fun x => gsm x g1) l))))
  end).

(** prover.rs:213-228 `calculate_coeff`; `query[0]` of an empty query panics. *)
Definition calculate_coeff {G : Grp K} (initial : G) (query : list G) (vk_param : G) (asg : list K) : res G :=
  match query with
  | [] => Panic
  | el :: q => Ok (gadd (gadd (gadd initial el) (msm q asg)) vk_param)
  end.
(** prover.rs:124-211 `create_proof`. *)
Definition create_proof (p : params) (circuit : M K unit) (r s : K) : res proof :=
  rbind (circuit (cs_new Prove)) (fun '(_, st) =>
  rbind (witness_map st) (fun h =>
  let asg := skipn 1 (inps st) ++ auxs st in
  rbind (calculate_coeff (gsm r (delta_g1 p)) (a_query p) (alpha_g1 (pvk p)) asg) (fun g_a =>
  rbind (if negb (feqb r 0) then calculate_coeff (gsm s (delta_g1 p)) (b_g1_query p) (beta_g1 p) asg else Ok g0) (fun g1_b =>
  rbind (calculate_coeff (gsm s (delta_g2 (pvk p))) (b_g2_query p) (beta_g2 (pvk p)) asg) (fun g2_b =>
  let h_acc := msm (h_query p) h in
  let l_acc := msm (l_query p) (auxs st) in
  let g_c := gadd (gadd (gadd (gadd (gsm s g_a) (gsm r g1_b)) (gopp (gsm s (gsm r (delta_g1 p))))) l_acc) h_acc in
  Ok (mkPrf g_a g2_b g_c)))))).

(** verifier.rs:8-16 `prepare_verifying_key`. *)
Record pvkey := mkPVK { pv_vk : vkey; alpha_g1_beta_g2 : GT PR; gamma_g2_neg : G2 PR; delta_g2_neg : G2 PR; pv_abc : list (G1 PR) }.
Definition prepare (vk : vkey) : pvkey :=
  mkPVK vk (pair_e (alpha_g1 vk) (beta_g2 vk)) (gopp (gamma_g2 vk)) (gopp (delta_g2 vk)) (gamma_abc_g1 vk).
(** verifier.rs:28-31: the input loop, a fold over the zipped lists. *)
Fixpoint g_ic_loop (g : G1 PR) (xs : list K) (bs : list (G1 PR)) : G1 PR :=
  match xs, bs with x :: xs', b :: bs' => g_ic_loop (gadd g (gsm x b)) xs' bs' | _, _ => g end.
(** verifier.rs:18-44 `verify_proof`. `final_exponentiation` of a product of Miller loops is the product of
    pairings; its None case (a zero field element) does not arise and is not modelled. *)
Definition verify_proof (pvk : pvkey) (pr : proof) (xs : list K) : res bool :=
  if negb (Nat.eqb (length xs + 1) (length (pv_abc pvk))) then Err MalformedVerifyingKey else
  match pv_abc pvk with
  | [] => Panic
  | b0 :: bs =>
      let g_ic := g_ic_loop b0 xs bs in
      let test := gadd (gadd (pair_e (pa pr) (pb pr)) (pair_e g_ic (gamma_g2_neg pvk))) (pair_e (pc pr) (delta_g2_neg pvk)) in
      Ok (geqb test (alpha_g1_beta_g2 pvk))
  end.
End G16.
