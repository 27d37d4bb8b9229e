(** Model of gadgets/src/hashes/mimc.rs, cli/src/circuits/hash.rs and, for the MiMC hash,
    gadgets/src/merkletree/cbmt_constraints.rs. No proofs.
    The round constants (mimc.rs:19-43, a seeded generator) are an arbitrary list [cts]; the code
    uses 322 of them and runs one round per constant. Bytes are integers in [0, 256). [nl] is
    NUM_LIMBS. *)
From Verif Require Import Field ModelLC ModelCS ModelBoolean ModelCbmt.
Local Open Scope fld_scope.

Section Mimc.
Variable K : PFld.
Variables (nl : nat) (cts : list K).

(** mimc.rs:49-62 `mimc_block`. *)
Fixpoint mimc_block (cs : list K) (xl xr : K) : K :=
  match cs with
  | [] => xl
  | c :: r => let tmp1 := xl + c in let tmp2 := tmp1 * tmp1 in mimc_block r (tmp2 * tmp1 + xr) xl
  end.

(** `BigInteger::read` on a byte slice (little endian limbs): an error when fewer than 8 * NUM_LIMBS bytes
    are left, which mimc.rs:69,74 replaces by the default (zero); `from_repr` refuses integers
    not below the modulus, which mimc.rs:70,75 replaces by zero. *)
Definition le_val (b : list Z) : Z := fold_right (fun d a => d + 256 * a)%Z 0%Z b.
Definition read_block (b : list Z) : K :=
  let v := if Nat.ltb (length b) (8 * nl) then 0%Z else le_val (firstn (8 * nl) b) in
  if (v <? pmod K)%Z then of_Z v else 0.
(** mimc.rs:66-76: full blocks, then a partial one if bytes remain. *)
Definition blocks (b : list Z) : list K :=
  let n := (8 * nl)%nat in
  map (fun i => read_block (firstn n (skipn (i * n) b))) (seq 0 (length b / n)) ++
  (if Nat.eqb (length b mod n) 0 then [] else [read_block (skipn (length b / n * n) b)]).
(** mimc.rs:82-88: the loop; [xl] is the state before the last block. *)
Fixpoint hash_loop (xl h : K) (v : list K) : K * K :=
  match v with
  | [] => (xl, h)
  | b :: r => hash_loop (match r with [] => h | _ => xl end) (mimc_block cts h b) r
  end.
(** mimc.rs:65-91 `mimc_hash`; line 79 indexes the last block and panics when there is none. *)
Definition mimc_hash (b : list Z) : res (K * K * K) :=
  let v := blocks b in
  match rev v with
  | [] => Panic
  | xr :: _ => let '(xl, h) := hash_loop 0 0 v in Ok (xl, xr, h)
  end.
(** mimc.rs:93-95 `hash`. *)
Definition hash (b : list Z) : res K := rbind (mimc_hash b) (fun t => Ok (snd t)).

(** mimc.rs:119-157: the rounds; returns the final (xl value, xl variable), which the Rust code
    drops at the end of the function. *)
Fixpoint mimc_rounds (cs : list K) (xl xr : option K) (vl vr : var) : M K (option K * var) :=
  match cs with
  | [] => ret (xl, vl)
  | c :: r =>
    let tmp := option_map (fun xl => (xl + c) * (xl + c)) xl in
    vt <- alloc (ok_or tmp AssignmentMissing) ;;
    enforce (lc_add_term (lc_add_var lc_zero vl) c ONE) (lc_add_term (lc_add_var lc_zero vl) c ONE) (lc_add_var lc_zero vt) ;;;
    let new_xl := match xl, tmp, xr with Some xl, Some tmp, Some xr => Some ((xl + c) * tmp + xr) | _, _, _ => None end in
    vn <- alloc (ok_or new_xl AssignmentMissing) ;;
    enforce (lc_add_var lc_zero vt) (lc_add_term (lc_add_var lc_zero vl) c ONE) (lc_sub_var (lc_add_var lc_zero vn) vr) ;;;
    mimc_rounds r new_xl xl vn vl
  end.
(** mimc.rs:110-160: the circuit, given the native result (xl, xr, image) if there is one. *)
Definition mimc_body (t : option (K * K * K)) : M K (option K) :=
  let xl := option_map (fun t => fst (fst t)) t in
  let xr := option_map (fun t => snd (fst t)) t in
  vl <- alloc (ok_or xl AssignmentMissing) ;;
  vr <- alloc (ok_or xr AssignmentMissing) ;;
  mimc_rounds cts xl xr vl vr ;;;
  ret (option_map snd t).
(** mimc.rs:97-160 `mimc`. *)
Definition mimc (b : option (list Z)) : M K (option K) := fun s =>
  match (match b with Some by_ => rmap Some (mimc_hash by_) | None => Ok None end) with
  | Ok t => mimc_body t s
  | Err e => Err e
  | Panic => Panic
  end.

(** cli/src/circuits/hash.rs:13-29 `generate_constraints`. *)
Definition cli_hash (image : option (list Z)) : M K unit :=
  value <- mimc image ;;
  alloc_input (ok_or value AssignmentMissing) ;;;
  ret tt.

(** mimc.rs:163-167 `AbstractHashMimcOutput`. *)
Record mout := mkMO { mo_val : option K; mo_var : var }.
(** mimc.rs:170-184 `alloc`. *)
Definition mout_alloc (f : option K) : M K mout :=
  v <- alloc (ok_or f AssignmentMissing) ;; ret (mkMO f v).
(** `ToBytes::write` of a field element: the canonical integer in 8 * NUM_LIMBS little endian
    bytes. *)
Fixpoint le_bytes (n : nat) (v : Z) : list Z :=
  match n with O => [] | S m => (v mod 256)%Z :: le_bytes m (v / 256)%Z end.
Definition to_bytes (a : K) : list Z := le_bytes (8 * nl) (toZ a).
(** mimc.rs:225-233: the bytes of all values, an error when one is missing. *)
Fixpoint params_bytes (ps : list mout) : res (list Z) :=
  match ps with
  | [] => Ok []
  | p :: r => match mo_val p with
              | Some l => rbind (params_bytes r) (fun b => Ok (to_bytes l ++ b))
              | None => Err AssignmentMissing
              end
  end.
(** mimc.rs:221-238 `hash_enforce`. *)
Definition hash_enforce (ps : list mout) : M K mout := fun s =>
  match params_bytes ps with
  | Ok bytes => (r <- mimc (Some bytes) ;; mout_alloc r) s
  | Err e => Err e
  | Panic => Panic
  end.

(** cbmt_constraints.rs:31-93: one level of `set_membership`; the MiMC output holds a single
    variable, so the inner loops run once. *)
Definition member_step (index : Z) (par sib : mout) : M K mout :=
  vleft <- alloc (Ok (if is_left index then 1 else 0)) ;;
  let input := if is_left index then mo_val par else mo_val sib in
  vin <- alloc (ok_or input AssignmentMissing) ;;
  enforce (lc_add_var lc_zero vleft) (lc_sub_var (lc_add_var lc_zero (mo_var par)) (mo_var sib))
    (lc_sub_var (lc_add_var lc_zero vin) (mo_var sib)) ;;;
  if is_left index then hash_enforce [par; sib] else hash_enforce [sib; par].
(** cbmt_constraints.rs:27-97: the loop. *)
Fixpoint member_loop (index : Z) (par : mout) (lemmas : list mout) : M K mout :=
  match lemmas with
  | [] => ret par
  | sib :: r => par' <- member_step index par sib ;; member_loop (parent index) par' r
  end.
(** cbmt_constraints.rs:21-114 `set_membership`. *)
Definition set_membership (index : Z) (lemmas : list mout) (root leaf : mout) : M K unit :=
  par <- member_loop index leaf lemmas ;;
  enforce (lc_add_var lc_zero (mo_var par)) (lc_add_var lc_zero ONE) (lc_add_var lc_zero (mo_var root)).
End Mimc.
Arguments mimc_block {K}. Arguments mimc {K}. Arguments mimc_body {K}. Arguments mimc_rounds {K}. Arguments cli_hash {K}. Arguments mimc_hash {K}. Arguments hash {K}.
Arguments blocks {K}. Arguments read_block {K}. Arguments hash_loop {K}. Arguments to_bytes {K}. Arguments params_bytes {K}.
Arguments mkMO {K}. Arguments mo_val {K}. Arguments mo_var {K}. Arguments mout_alloc {K}. Arguments hash_enforce {K}.
Arguments member_step {K}. Arguments member_loop {K}. Arguments set_membership {K}.
