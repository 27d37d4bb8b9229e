(** Model of marlin/src/pc: KZG10 and the multi-polynomial wrapper.
    `DensePolynomial` is its coefficient vector, lowest first; constructors of ark_poly drop trailing zeros ([ptrim]). *)
From Coq Require Export String.
From Verif Require Export Field Poly Module.
From Coq Require Export List.
Local Open Scope fld_scope.
Section PC.
Variable K : Fld.
Variable PR : Pairing K.
(** ark_poly `DensePolynomial::from_coefficients_vec`, used throughout: trailing zeros are removed. *)
Definition ptrim (p : list K) : list K :=
  fold_right (fun c r => match r with [] => if feqb c 0 then [] else [c] | _ => c :: r end) [] p.
(** ark_poly `degree` (kzg10.rs:106, 132): zero for the zero polynomial, asserts a nonzero top coefficient otherwise. *)
Definition degree (p : list K) : res nat :=
  if forallb (fun c => feqb c 0) p then Ok O
  else if feqb (last p 0) 0 then Panic else Ok (length p - 1)%nat.
(** pc/data_structures.rs:26-35 `UniversalParams` (prepared elements dropped: they are copies). *)
Record uparams := mkUP { u_g : list (G1 PR); u_gamma : list (G1 PR); u_h : G2 PR; u_beta_h : G2 PR }.
(** pc/data_structures.rs:43-58 `Powers`; `supported_degree` is `len - 1` (key vectors are never empty: trim keeps index 0). *)
Record powers := mkPow { pg : list (G1 PR); pgam : list (G1 PR) }.
Definition pow_degree (pw : powers) : nat := (length (pg pw) - 1)%nat.
(** pc/data_structures.rs:60-66 `CommitterKey`, 103-110 `VerifierKey`. *)
Record ckey := mkCK { ck_pw : powers; ck_sd : nat }.
Record vkey := mkVK { vk_g : G1 PR; vk_gamma : G1 PR; vk_h : G2 PR; vk_beta_h : G2 PR; vk_sd : nat }.
(** pc/data_structures.rs:246-250 `Proof`. *)
Record kproof := mkKP { k_w : G1 PR; k_rand_v : option K }.

(** kzg10.rs:27-72 `setup`; the random elements are arguments; windowed multiplication is multiplication. *)
Definition kzg_setup (max_degree : nat) (beta : K) (g gamma_g : G1 PR) (h : G2 PR) : uparams :=
  mkUP (map (fun i => gsm (beta ^ i) g) (seq 0 (S max_degree))) (map (fun i => gsm (beta ^ i) gamma_g) (seq 0 (S max_degree))) h (gsm beta h).
(** kzg10.rs:74-98 `trim`. *)
Definition kzg_trim (pp : uparams) (sd : nat) : res (ckey * vkey) :=
  if Nat.ltb (length (u_g pp) - 1) sd then Err TrimmingDegreeTooLarge
  else if Nat.ltb (length (u_g pp)) (S sd) || Nat.ltb (length (u_gamma pp)) (S sd) then Panic
  else match firstn (S sd) (u_g pp), firstn (S sd) (u_gamma pp) with
       | g :: gs, c :: cs => Ok (mkCK (mkPow (g :: gs) (c :: cs)) sd, mkVK g c (u_h pp) (u_beta_h pp) sd)
       | _, _ => Panic
       end.
(** kzg10.rs:175-183 `check_degree_is_within_bounds`. *)
Definition check_degree (d powers : nat) : res unit :=
  if Nat.ltb d 1 then Err DegreeIsZero else if Nat.ltb powers d then Err DegreeOutOfBound else Ok tt.
(** kzg10.rs:185-194 `skip_leading_zeros_and_convert_to_bigints`: the index runs off the end when all coefficients are zero. *)
Fixpoint skip_zeros (p : list K) (n : nat) : res (nat * list K) :=
  match p with [] => Panic | c :: r => if feqb c 0 then skip_zeros r (S n) else Ok (n, p) end.
(** `VariableBaseMSM::multi_scalar_mul(&powers[n..], coeffs)` (kzg10.rs:108-109, 137-140): the slice needs n <= len. *)
Definition msm_from (gs : list (G1 PR)) (p : list K) : res (G1 PR) :=
  rbind (skip_zeros p 0) (fun '(n, cs) => if Nat.ltb (length gs) n then Panic else Ok (msm (skipn n gs) cs)).
(** kzg10.rs:201-209 `check_hiding_bound`. *)
Definition check_hiding (hb powers : nat) : res unit :=
  if Nat.eqb hb 0 then Err HidingBoundIsZero else if Nat.ltb powers hb then Err HidingBoundTooLarge else Ok tt.
(** kzg10.rs:100-123 `commit`; [draw] is the stream of random coefficients, `Rand::rand(hb)` takes hb + 1 of them. The
    generator is present (pc/mod.rs:44 always passes one). *)
Definition kzg_commit (pw : powers) (p : list K) (hiding : option nat) (draw : list K) : res (G1 PR * list K) :=
  rbind (degree p) (fun d => rbind (check_degree d (pow_degree pw)) (fun _ =>
  rbind (msm_from (pg pw) p) (fun comm =>
  match hiding with
  | None => Ok (comm, [])
  | Some hb => rbind (check_hiding hb (length (pg pw))) (fun _ =>
      let r := ptrim (firstn (S hb) draw) in Ok (gadd comm (msm (pgam pw) r), r))
  end))).
(** kzg10.rs:211-226 `compute_witness_polynomial`: division by X - point; the blinding part only when the blinding polynomial is nonzero. *)
Definition is_hiding (r : list K) : bool := negb (forallb (fun c => feqb c 0) r).
Definition witness_poly (p : list K) (point : K) (r : list K) : list K * option (list K) :=
  (ptrim (fst (pdivx point p)), if is_hiding r then Some (ptrim (fst (pdivx point r))) else None).
(** kzg10.rs:125-156 `open`; the bound here is the number of powers. *)
Definition kzg_open (pw : powers) (p : list K) (point : K) (r : list K) : res kproof :=
  rbind (degree p) (fun d => rbind (check_degree d (length (pg pw))) (fun _ =>
  let '(q, rq) := witness_poly p point r in
  rbind (msm_from (pg pw) q) (fun w =>
  Ok (match rq with
      | Some q' => mkKP (gadd w (msm (pgam pw) q')) (Some (peval r point))
      | None => mkKP w None
      end)))).
(** kzg10.rs:158-173 `check`. *)
Definition kzg_check (vk : vkey) (comm : G1 PR) (point value : K) (pf : kproof) : res bool :=
  let u := gadd comm (gopp (gsm value (vk_g vk))) in
  let u := match k_rand_v pf with Some rv => gadd u (gopp (gsm rv (vk_gamma vk))) | None => u end in
  let v := gadd (vk_beta_h vk) (gopp (gsm point (vk_h vk))) in
  Ok (geqb (pair_e u (vk_h vk)) (pair_e (k_w pf) v)).

(** pc/data_structures.rs:188-194 `LabeledPolynomial`; 130-134 `Commitment`; 222-227 `LabeledCommitment`; 173-177 `Randomness`. *)
Record lpoly := mkLP { lp_label : string; lp_poly : list K; lp_db : option nat; lp_hb : option nat }.
Record commitment := mkCm { cm : G1 PR; cm_shift : option (G1 PR) }.
Record lcomm := mkLC { lc_label : string; lc_cm : commitment; lc_db : option nat }.
Record randomness := mkRn { rn : list K; rn_shift : option (list K) }.
(** pc/data_structures.rs:88-99 `shifted_powers`. *)
Definition shifted_powers (ck : ckey) (b : nat) : option powers :=
  if Nat.ltb (ck_sd ck) b then None else Some (mkPow (skipn (ck_sd ck - b) (pg (ck_pw ck))) (pgam (ck_pw ck))).
(** pc/mod.rs:34-71 `commit`: one step of the loop, then the loop; each polynomial comes with its two streams of random coefficients. *)
Definition commit_one (ck : ckey) (p : lpoly) (d1 d2 : list K) : res (lcomm * randomness) :=
  rbind (kzg_commit (ck_pw ck) (lp_poly p) (lp_hb p) d1) (fun '(c, r) =>
  match lp_db p with
  | None => Ok (mkLC (lp_label p) (mkCm c None) None, mkRn r None)
  | Some b =>
      match shifted_powers ck b with
      | None => Err DegreeOutOfBound
      | Some spw => rbind (kzg_commit spw (lp_poly p) (lp_hb p) d2) (fun '(sc, sr) =>
          Ok (mkLC (lp_label p) (mkCm c (Some sc)) (Some b), mkRn r (Some sr)))
      end
  end).
Fixpoint pc_commit (ck : ckey) (polys : list (lpoly * (list K * list K))) : res (list lcomm * list randomness) :=
  match polys with
  | [] => Ok ([], [])
  | (p, (d1, d2)) :: rest => rbind (commit_one ck p d1 d2) (fun '(c, r) =>
      rbind (pc_commit ck rest) (fun '(cs, rs) => Ok (c :: cs, r :: rs)))
  end.
(** pc/mod.rs:242-250 `shift_polynomial`. *)
Definition shift_poly (p : list K) (n : nat) : list K :=
  if forallb (fun c => feqb c 0) p then [] else ptrim (repeat 0 n ++ p).
(** `p += (f, &q)` of ark_poly and pc/data_structures.rs:167-171. *)
Definition acc_poly (p : list K) (f : K) (q : list K) : list K := ptrim (padd p (pscale f q)).
(** pc/mod.rs:85-98: the loop of `open`; `unwrap` of a missing shifted randomness and the subtraction
    `supported_degree - degree_bound` below zero panic. *)
Fixpoint open_loop (sd : nat) (xi : K) (l : list (lpoly * randomness)) (p r : list K) (chal : K) : res (list K * list K) :=
  match l with
  | [] => Ok (p, r)
  | (q, rd) :: rest =>
      let p := acc_poly p chal (lp_poly q) in
      let r := acc_poly r chal (rn rd) in
      match lp_db q with
      | None => open_loop sd xi rest p r (chal * (xi * xi))
      | Some b =>
          match rn_shift rd with
          | None => Panic
          | Some sr =>
              if Nat.ltb sd b then Panic else
              open_loop sd xi rest (acc_poly p (chal * xi) (shift_poly (lp_poly q) (sd - b))) (acc_poly r (chal * xi) sr) (chal * (xi * xi))
          end
      end
  end.
(** pc/mod.rs:73-100 `open`. *)
Definition pc_open (ck : ckey) (polys : list lpoly) (point xi : K) (rands : list randomness) : res kproof :=
  rbind (open_loop (ck_sd ck) xi (combine polys rands) [] [] 1) (fun '(p, r) => kzg_open (ck_pw ck) p point r).
(** pc/mod.rs:216-238: the loop of `accumulate_commitments_and_values`; the assertion and the subtraction panic. *)
Fixpoint acc_loop (sd : nat) (point xi : K) (l : list (lcomm * K)) (c : G1 PR) (v chal : K) : res (G1 PR * K) :=
  match l with
  | [] => Ok (c, v)
  | (lc, value) :: rest =>
      let c := gadd c (gsm chal (cm (lc_cm lc))) in
      let v := v + value * chal in
      match lc_db lc, cm_shift (lc_cm lc) with
      | None, None => acc_loop sd point xi rest c v (chal * (xi * xi))
      | Some b, Some sc =>
          if Nat.ltb sd b then Panic else
          acc_loop sd point xi rest (gadd c (gsm (chal * xi) sc)) (v + point ^ (sd - b) * value * (chal * xi)) (chal * (xi * xi))
      | _, _ => Panic
      end
  end.
(** pc/mod.rs:102-119 `check`. *)
Definition pc_check (vk : vkey) (comms : list lcomm) (point : K) (values : list K) (pf : kproof) (xi : K) : res bool :=
  rbind (acc_loop (vk_sd vk) point xi (combine comms values) g0 0 1) (fun '(c, v) => kzg_check vk c point v pf).
(** pc/mod.rs:135-139, 172-176: grouping the query set by point. The BTreeMap/BTreeSet orders are replaced by
    first-occurrence order, the same in both functions; the query set has no repetitions. *)
Fixpoint group_insert (label : string) (point : K) (m : list (K * list string)) : list (K * list string) :=
  match m with
  | [] => [(point, [label])]
  | (q, ls) :: r => if feqb q point then (q, ls ++ [label]) :: r else (q, ls) :: group_insert label point r
  end.
Definition group (qs : list (string * K)) : list (K * list string) :=
  fold_left (fun m '(l, pt) => group_insert l pt m) qs [].
(** BTreeMap built by `collect` then `get` (pc/mod.rs:129-133, 146-151, 179, 185): the last binding of a label wins. *)
Fixpoint lookup_last {A} (lab : A -> string) (l : string) (xs : list A) : option A :=
  match xs with
  | [] => None
  | x :: r => match lookup_last lab l r with Some y => Some y | None => if String.eqb (lab x) l then Some x else None end
  end.
(** The inner loops pc/mod.rs:145-155 and 184-197: one lookup per label, stopping at the first missing one. *)
Fixpoint mapR {A B} (f : A -> res B) (l : list A) : res (list B) :=
  match l with [] => Ok [] | x :: r => rbind (f x) (fun y => rbind (mapR f r) (fun ys => Ok (y :: ys))) end.
(** pc/mod.rs:122-160 `batch_open`. *)
Definition batch_open (ck : ckey) (polys : list lpoly) (qs : list (string * K)) (xi : K) (rands : list randomness) : res (list kproof) :=
  mapR (fun '(point, labels) =>
    rbind (mapR (fun l => match lookup_last (fun x => lp_label (fst x)) l (combine polys rands) with None => Err MissingPolynomial | Some x => Ok x end) labels) (fun prs =>
    pc_open ck (map fst prs) point xi (map snd prs))) (group qs).
(** `Evaluations` (pc/data_structures.rs:254): a map from (label, point). *)
Fixpoint ev_get (evs : list (string * K * K)) (l : string) (pt : K) : option K :=
  match evs with [] => None | (l', pt', v) :: r => if String.eqb l' l && feqb pt' pt then Some v else ev_get r l pt end.
(** pc/mod.rs:163-202 `batch_check`. *)
Fixpoint check_loop (vk : vkey) (comms : list lcomm) (evs : list (string * K * K)) (xi : K) (l : list ((K * list string) * kproof)) (result : bool) : res bool :=
  match l with
  | [] => Ok result
  | ((point, labels), pf) :: rest =>
      rbind (mapR (fun lb => match lookup_last lc_label lb comms with
                             | None => Err MissingPolynomial
                             | Some c => match ev_get evs lb point with None => Err MissingEvaluation | Some v => Ok (c, v) end
                             end) labels) (fun cvs =>
      rbind (pc_check vk (map fst cvs) point (map snd cvs) pf xi) (fun b => check_loop vk comms evs xi rest (result && b)))
  end.
Definition batch_check (vk : vkey) (comms : list lcomm) (qs : list (string * K)) (evs : list (string * K * K)) (proofs : list kproof) (xi : K) : res bool :=
  if negb (Nat.eqb (length (group qs)) (length proofs)) then Panic
  else check_loop vk comms evs xi (combine (group qs) proofs) true.
End PC.
