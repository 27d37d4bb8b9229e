(** Specification vocabulary for Plonk. *)
From Verif Require Import ModelPlonk.
Local Open Scope fld_scope.
Section S.
Context {K : Fld}.
(** A program against the public interface of the composer: allocations and gates. *)
Inductive op :=
| OAlloc (v : K)
| OConst (v : nat) (value pi : K)
| OEqual (l r : nat)
| OAdd (l r : nat * K) (o : nat) (aux : option (nat * K)) (qc pi : K)
| OMul (l r o : nat) (aux : option (nat * K)) (qm qc pi : K).
Definition run_op (c : composer K) (o : op) : res (composer K) :=
  match o with
  | OAlloc v => Ok (snd (c_alloc c v))
  | OConst v value pi => constrain_to_constant c v value pi
  | OEqual l r => assert_equal c l r
  | OAdd l r o aux qc pi => add_gate c l r o aux qc pi
  | OMul l r o aux qm qc pi => mul_gate c l r o aux qm qc pi
  end.
Fixpoint run_ops (c : composer K) (l : list op) : res (composer K) :=
  match l with [] => Ok c | o :: r => rbind (run_op c o) (fun c => run_ops c r) end.
Definition aux_val (a : nat -> K) (x : option (nat * K)) : K := match x with Some (v, q) => q * a v | None => 0 end.
(** The documented relation of each gate (composer/arithmetic.rs:42, 55, 68, 81) for values [a] of the variables. *)
Definition rel (a : nat -> K) (o : op) : Prop :=
  match o with
  | OAlloc _ => True
  | OConst v value pi => a v = value + pi
  | OEqual l r => a l = a r
  | OAdd (l, ql) (r, qr) o aux qc pi => ql * a l + qr * a r - a o + aux_val a aux + qc + pi = 0
  | OMul l r o aux qm qc pi => qm * a l * a r - a o + aux_val a aux + qc + pi = 0
  end.
(** Left side of the arithmetic equation of one row. *)
Definition row (q0 q1 q2 q3 qm qc pi w0 w1 w2 w3 : K) : K := q0 * w0 + q1 * w1 + q2 * w2 + q3 * w3 + qm * w1 * w2 + qc + pi.
(** The variable in slot (k, i), and its columns. *)
Definition col (c : composer K) (k : nat) : list nat := nth k [c_w0 c; c_w1 c; c_w2 c; c_w3 c] [].
Definition slot_var (c : composer K) (s : wire) : option nat := nth_error (col c (fst s)) (snd s).
(** The target of slot s in a table of four columns. *)
Definition target (p : list (list wire)) (s : wire) : wire := nth (snd s) (nth (fst s) p []) s.
Definition slots (n : nat) : list wire := flat_map (fun k => map (fun i => (k, i)) (seq 0 n)) (seq 0 4).
(** The values [c] assigns to its variables. *)
Definition asg (c : composer K) (v : nat) : K := nth v (c_asg c) 0.
(** All gate rows of the circuit hold for the values [a] of the variables. *)
Definition rows_ok (c : composer K) (a : nat -> K) : Prop := forall i, (i < c_n c)%nat ->
  row (nth i (c_q0 c) 0) (nth i (c_q1 c) 0) (nth i (c_q2 c) 0) (nth i (c_q3 c) 0) (nth i (c_qm c) 0) (nth i (c_qc c) 0) (nth i (c_pi c) 0)
    (a (nth i (c_w0 c) 0%nat)) (a (nth i (c_w1 c) 0%nat)) (a (nth i (c_w2 c) 0%nat)) (a (nth i (c_w3 c) 0%nat)) = 0.
(** What the FFT library guarantees: power-of-two sizes are exact and the generator of the fourfold domain extends the small one. *)
Definition fft_ok (dnew : nat -> option (dom K)) : Prop :=
  (forall n d, dnew n = Some d -> valid_dom d /\ (n <= dsize d)%nat /\ dnew (dsize d) = Some d) /\
  (forall n d d4, dnew n = Some d -> dnew (4 * dsize d)%nat = Some d4 -> dsize d4 = (4 * dsize d)%nat /\ dgen d4 ^ 4 = dgen d).
(** Completeness of the commitment scheme the protocol is instantiated with: openings of the committed polynomials at the true values pass. *)
Definition pc_complete (PC : pcs K) : Prop := forall srs n ck rk ps crs lcs qs evs eps pf rng,
  p_trim PC srs n = Ok (ck, rk) -> Forall2 (fun p cr => exists r, p_commit PC ck (snd p) r = Ok cr) ps crs -> NoDup (map fst ps) -> eval_all lcs ps qs = Ok evs ->
  p_open PC ck lcs ps (combine (map fst ps) (map fst crs)) qs eps (map snd crs) rng = Ok pf ->
  p_check PC rk lcs (combine (map fst ps) (map fst crs)) qs (combine qs evs) pf eps = Ok true.
(** Committing and opening succeed on polynomials of the supported size. *)
Definition pc_total (PC : pcs K) : Prop := forall srs n ck rk, p_trim PC srs n = Ok (ck, rk) ->
  (forall p r, (length p <= n)%nat -> exists cr, p_commit PC ck p r = Ok cr) /\
  (forall lcs ps cs qs eps rs rng, (forall p, In p ps -> (length (snd p) <= n)%nat) -> exists pf, p_open PC ck lcs ps cs qs eps rs rng = Ok pf).
Fixpoint same (l m : list K) : bool := match l, m with [], [] => true | x :: l, y :: m => feqb x y && same l m | _, _ => false end.
(** The ideal scheme: commitments are the polynomials and the check compares values. *)
Definition ideal_pcs : pcs K :=
  mkPcs K nat nat nat (list K) unit unit unit (fun s => s) (fun s n => if Nat.leb n s then Ok (n, n) else Err IndexTooLarge)
    (fun ck p _ => if Nat.leb (List.length p) (S ck) then Ok (p, tt) else Err PolynomialDegreeTooLarge)
    (fun _ _ _ _ _ _ _ _ => Ok tt)
    (fun _ lcs cs qs e _ _ => rbind (eval_all lcs cs qs) (fun evs => Ok (same (map snd e) evs))).
(** Challenges fixed in advance, as a verifier sending its coins would. *)
Definition fixed_oracle (PC : pcs K) (beta gamma alpha zeta eps : K) : oracle K PC :=
  mkOracle K PC (fun _ _ => (beta, gamma)) (fun _ _ _ => alpha) (fun _ _ _ _ => zeta) (fun _ _ _ _ _ => eps).
(** The gate rows with the public inputs [pub]. *)
Definition rows_pub (c : composer K) (pub : list K) (a : nat -> K) : Prop := forall i, (i < c_n c)%nat ->
  row (nth i (c_q0 c) 0) (nth i (c_q1 c) 0) (nth i (c_q2 c) 0) (nth i (c_q3 c) 0) (nth i (c_qm c) 0) (nth i (c_qc c) 0) (nth i pub 0)
    (a (nth i (c_w0 c) 0%nat)) (a (nth i (c_w1 c) 0%nat)) (a (nth i (c_w2 c) 0%nat)) (a (nth i (c_w3 c) 0%nat)) = 0.
(** The four cosets k_j H are pairwise disjoint and of full size. *)
Definition cosets_ok (d : dom K) (ks : list K) : Prop := forall s u : wire, In s (slots (dsize d)) -> In u (slots (dsize d)) ->
  dgen d ^ snd s * nth (fst s) ks 0 = dgen d ^ snd u * nth (fst u) ks 0 -> s = u.
(** The value in a slot and its factor in the grand product. *)
Definition slot_val (c : composer K) (s : wire) : K := match slot_var c s with Some v => asg c v | None => 0 end.
Definition slot_fac (c : composer K) (ks : list K) (d : dom K) (beta gamma : K) (s : wire) : K := slot_val c s + beta * (dgen d ^ snd s * nth (fst s) ks 0) + gamma.
End S.
Arguments op : clear implicits. Arguments fft_ok {K}. Arguments pc_complete {K}. Arguments pc_total {K}. Arguments ideal_pcs : clear implicits. Arguments fixed_oracle {K}. Arguments cosets_ok {K}.
