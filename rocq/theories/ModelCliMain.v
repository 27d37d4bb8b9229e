(** Model of the three command-line programs: cli/src/setup.rs, cli/src/zkp_prove.rs, cli/src/zkp_verify.rs and cli/src/circuits/. No proofs.
    Strings and file contents are lists of bytes. Directories are not modelled (they are created before writing), nor failures of
    writing. What is printed is modelled only where it is the verdict. *)
From Coq Require Import String Ascii ZArith List Bool.
From Verif Require Import Field ModelLC ModelCS ModelMimc ModelCli.
From Coq Require Import List.
Import ListNotations.
Local Open Scope Z_scope.

(** The bytes of a literal of the source. *)
Definition str (s : string) : list Z := map (fun c => Z.of_N (N_of_ascii c)) (list_ascii_of_string s).
Definition seqb (a b : list Z) : bool := if list_eq_dec Z.eq_dec a b then true else false.

(** ** Decimal numbers *)
(** core `u64::from_str`, the digits (circuits/mini.rs:48-59, zkp_verify.rs:18): [acc] is the value so far; an error when a
    character is not a digit or when the value leaves the 64-bit range. *)
Fixpoint parse_digits (acc : Z) (s : list Z) : option Z :=
  match s with
  | [] => Some acc
  | c :: r => if (48 <=? c) && (c <=? 57) then let v := acc * 10 + (c - 48) in if v <? 2 ^ 64 then parse_digits v r else None else None
  end.
(** core `u64::from_str`: nothing is an error, a leading plus sign is skipped if something follows. *)
Definition parse_u64 (s : list Z) : option Z :=
  match s with
  | [] => None
  | c :: r => if c =? 43 then match r with [] => None | _ => parse_digits 0 r end else parse_digits 0 s
  end.
(** `format!("{}", z)` (zkp_prove.rs:105) for a u64; at most twenty digits. *)
Fixpoint dec (fuel : nat) (n : Z) : list Z :=
  match fuel with O => [] | S f => if n <? 10 then [48 + n] else dec f (n / 10) ++ [48 + n mod 10] end.
Definition print_u64 (n : Z) : list Z := dec 20 n.

(** ** Circuits *)
Section Circuits.
Variable K : PFld.
Local Open Scope fld_scope.
(** circuits/mini.rs:25-32: the loop. *)
Fixpoint mini_loop (num : nat) (x y z : var) : M K unit :=
  match num with
  | O => ret tt
  | S n => bind (enforce (lc_add_var lc_zero x) (lc_add_term (lc_add_var lc_zero y) (of_Z 2) ONE) (lc_add_var lc_zero z)) (fun _ => mini_loop n x y z)
  end.
(** circuits/mini.rs:13-36 `generate_constraints`. *)
Definition mini (x y z : option K) (num : nat) : M K unit :=
  bind (alloc (ok_or x AssignmentMissing)) (fun vx => bind (alloc (ok_or y AssignmentMissing)) (fun vy =>
  bind (alloc_input (ok_or z AssignmentMissing)) (fun vz => mini_loop num vx vy vz))).
End Circuits.
(** The two circuits (setup.rs:17-25, zkp_prove.rs:18-28, zkp_verify.rs:16-47). *)
Inductive kind := Mini | Hash.
(** The `match $circuit` of the three programs. *)
Definition kind_of (s : list Z) : option kind := if seqb s (str "mini") then Some Mini else if seqb s (str "hash") then Some Hash else None.
(** circuits/mod.rs:4-7 `Publics`. *)
Inductive publics (K : PFld) := PMini (z : Z) | PHash (h : K).
Arguments PMini {K}. Arguments PHash {K}.
Section Power.
Variable K : PFld.
Variables (nl : nat) (cts : list K).
(** mini.rs:39-46, hash.rs:32-37 `power_off`. *)
Definition power_off (k : kind) : M K unit := match k with Mini => mini K None None None 10 | Hash => cli_hash nl cts None end.
(** mini.rs:48-75, hash.rs:39-49 `power_on`: missing or unreadable arguments panic, further arguments are ignored; the hash of
    nothing panics. *)
Definition power_on (k : kind) (args : list (list Z)) : res (M K unit * publics K) :=
  match k with
  | Mini => match args with
            | a :: b :: c :: _ => match parse_u64 a, parse_u64 b, parse_u64 c with
                                  | Some x, Some y, Some z => Ok (mini K (Some (of_Z x)) (Some (of_Z y)) (Some (of_Z z)) 10, PMini z)
                                  | _, _, _ => Panic
                                  end
            | _ => Panic
            end
  | Hash => match args with
            | a :: _ => match hash nl cts a with Ok h => Ok (cli_hash nl cts (Some a), PHash h) | _ => Panic end
            | _ => Panic
            end
  end.
End Power.

(** ** The proof systems as the programs use them *)
(** [R] is what `thread_rng` yields during a call. Encoders never fail; decoders ignore bytes behind the value, as `deserialize` does. *)
Record groth (K : PFld) (R : Type) := mkGroth {
  g_pk : Type; g_vk : Type; g_pf : Type;
  g_gen : M K unit -> R -> res g_pk;                       (* zkp_groth16::generate_random_parameters *)
  g_key : g_pk -> g_vk;                                    (* params.vk *)
  g_prove : g_pk -> M K unit -> R -> res g_pf;             (* create_random_proof *)
  g_verify : g_vk -> g_pf -> list K -> res bool;           (* prepare_verifying_key and verify_proof *)
  g_epk : g_pk -> list Z; g_dpk : list Z -> option g_pk; g_evk : g_vk -> list Z; g_dvk : list Z -> option g_vk; g_epf : g_pf -> list Z; g_dpf : list Z -> option g_pf }.
(** Spartan, both variants: `keypair` and the hashes (zkp_prove.rs:66-72, 84-89, zkp_verify.rs:83-90, 101-106) belong to proving and verifying. *)
Record univ (K : PFld) (R : Type) := mkUniv {
  u_srs : Type; u_pf : Type;
  u_gen : M K unit -> R -> res u_srs; u_prove : u_srs -> M K unit -> R -> res u_pf; u_verify : u_srs -> u_pf -> list K -> res bool;
  u_esrs : u_srs -> list Z; u_dsrs : list Z -> option u_srs; u_epf : u_pf -> list Z; u_dpf : list Z -> option u_pf }.
(** Bulletproofs: what is written is the generators, the circuit and the proof (zkp_prove.rs:50-57), and read as a triple (zkp_verify.rs:68-75). *)
Record bullet (K : PFld) (R : Type) := mkBullet {
  b_gens : Type; b_r1cs : Type; b_pf : Type;
  b_prove : M K unit -> R -> res (b_gens * b_r1cs * b_pf); b_verify : b_gens -> b_pf -> b_r1cs -> list K -> res bool;
  b_enc : b_gens * b_r1cs * b_pf -> list Z; b_dec : list Z -> option (b_gens * b_r1cs * b_pf) }.

(** `serde_json::Value`, as far as it is looked at (zkp_verify.rs:143-149). *)
Inductive json := JStr (s : list Z) | JArr (l : list json) | JObj (l : list (list Z * json)) | JOther.
(** `json["name"]`: anything but an object with that name gives Null. *)
Definition jget (j : json) (n : list Z) : json := match j with JObj l => match find (fun e => seqb (fst e) n) l with Some e => snd e | None => JOther end | _ => JOther end.
(** `params[0]`. *)
Definition jfirst (j : json) : json := match j with JArr (x :: _) => x | _ => JOther end.
(** `as_str`. *)
Definition jstr (j : json) : option (list Z) := match j with JStr s => Some s | _ => None end.

(** ** The programs *)
(** Files by path. *)
Definition files := list Z -> option (list Z).
(** `std::fs::write`, `File::create` with `to_writer`. *)
Definition write (w : files) (p b : list Z) : files := fun q => if seqb q p then Some b else w q.
(** `std::fs::read(..).unwrap_or(vec![])` (zkp_prove.rs:38, 64, 82, zkp_verify.rs:55). *)
Definition read_or (w : files) (p : list Z) : list Z := match w p with Some b => b | None => [] end.
(** The errors returned by `main`. *)
Inductive why := BadParams | NoCurve | NoCircuit | NoScheme.
(** How a program ends: status 0 with the verdict printed if there is one, status 1 with a message, or a panic. *)
Inductive ending := Finished (verdict : option bool) | Failed (m : why) | Panicked.
(** `format!("{}-{}-{}.ext", scheme, curve, circuit)` pushed onto a directory. *)
Definition path (dir scheme curve circuit ext : list Z) : list Z := dir ++ str "/" ++ scheme ++ str "-" ++ curve ++ str "-" ++ circuit ++ ext.
(** setup.rs:12, zkp_prove.rs:12-13, zkp_verify.rs:12. *)
Definition SETUP_DIR := str "./setup_files".
Definition PROOFS_DIR := str "./proof_files".
(** The only curve (setup.rs:121-127, zkp_prove.rs:166-172, zkp_verify.rs:153-159). *)
Definition bls := str "bls12_381".

Section Programs.
Variable K : PFld.
Variables (nl : nat) (cts : list K).
Variable R : Type.
Variable GR : groth K R.
Variables SN NI : univ K R.
Variable BU : bullet K R.
(** serde_json and the field's serialization. *)
Variable jprint : json -> list Z.
Variable jparse : list Z -> option json.
Variable efr : K -> list Z.
Variable dfr : list Z -> option K.

(** setup.rs:44-60, 61-77: the universal setup. *)
Definition setup_univ (U : univ K R) (scheme circuit : list Z) (c : M K unit) (r : R) (w : files) : ending * files :=
  match u_gen K R U c r with
  | Ok s => (Finished None, write w (path SETUP_DIR scheme bls circuit (str ".universal_setup")) (u_esrs K R U s))
  | _ => (Panicked, w)
  end.
(** setup.rs:28-92 `handle_scheme!`. *)
Definition setup_scheme (scheme circuit : list Z) (c : M K unit) (r : R) (w : files) : ending * files :=
  if seqb scheme (str "groth16") then
    match g_gen K R GR c r with
    | Ok p => (Finished None, write (write w (path SETUP_DIR scheme bls circuit (str ".pk")) (g_epk K R GR p)) (path SETUP_DIR scheme bls circuit (str ".vk")) (g_evk K R GR (g_key K R GR p)))
    | _ => (Panicked, w)
    end
  else if seqb scheme (str "spartan_snark") then setup_univ SN scheme circuit c r w
  else if seqb scheme (str "spartan_nizk") then setup_univ NI scheme circuit c r w
  else (Failed NoScheme, w).
(** setup.rs:94-130 `main`; args[2] panics when only the scheme is given. *)
Definition setup_main (r : R) (args : list (list Z)) (w : files) : ending * files :=
  match args with
  | [] | [_] => (Failed BadParams, w)
  | [_; _] => (Panicked, w)
  | _ :: scheme :: curve :: rest =>
      let circuit := match rest with c :: _ => c | [] => str "mini" end in
      if seqb curve bls then match kind_of circuit with Some k => setup_scheme scheme circuit (power_off K nl cts k) r w | None => (Failed NoCircuit, w) end
      else (Failed NoCurve, w)
  end.

(** zkp_prove.rs:61-94. *)
Definition prove_univ (U : univ K R) (scheme circuit : list Z) (c : M K unit) (r : R) (w : files) : res (list Z) :=
  match u_dsrs K R U (read_or w (path SETUP_DIR scheme bls circuit (str ".universal_setup"))) with
  | Some s => rbind (u_prove K R U s c r) (fun p => Ok (u_epf K R U p))
  | None => Panic
  end.
(** zkp_prove.rs:41-96: the bytes of the proof; [None] for an unknown scheme. *)
Definition prove_scheme (scheme circuit : list Z) (c : M K unit) (r : R) (w : files) : option (res (list Z)) :=
  if seqb scheme (str "groth16") then Some (
    match g_dpk K R GR (read_or w (path SETUP_DIR scheme bls circuit (str ".pk"))) with
    | Some pk => rbind (g_prove K R GR pk c r) (fun p => Ok (g_epf K R GR p))
    | None => Panic
    end)
  else if seqb scheme (str "bulletproofs") then Some (rbind (b_prove K R BU c r) (fun t => Ok (b_enc K R BU t)))
  else if seqb scheme (str "spartan_snark") then Some (prove_univ SN scheme circuit c r w)
  else if seqb scheme (str "spartan_nizk") then Some (prove_univ NI scheme circuit c r w)
  else None.
(** zkp_prove.rs:104-113. *)
Definition publics_json (p : publics K) : json := JArr [JStr match p with PMini z => print_u64 z | PHash h => to_hex (efr h) end].
(** zkp_prove.rs:115-121. *)
Definition proof_json (circuit scheme : list Z) (p : publics K) (b : list Z) : json :=
  JObj [(str "circuit", JStr circuit); (str "scheme", JStr scheme); (str "curve", JStr bls); (str "params", publics_json p); (str "proof", JStr (to_hex b))].
(** zkp_prove.rs:134-175 `main` with :15-31 and :34-124. *)
Definition prove_main (r : R) (args : list (list Z)) (w : files) : ending * files :=
  match args with
  | [] | [_] => (Failed BadParams, w)
  | _ :: scheme :: curve :: circuit :: rest =>
      if seqb curve bls then
        match kind_of circuit with
        | None => (Failed NoCircuit, w)
        | Some k =>
            match power_on K nl cts k rest with
            | Ok (c, p) => match prove_scheme scheme circuit c r w with
                           | None => (Failed NoScheme, w)
                           | Some (Ok b) => (Finished None, write w (path PROOFS_DIR scheme bls circuit (str ".proof.json")) (jprint (proof_json circuit scheme p b)))
                           | Some _ => (Panicked, w)
                           end
            | _ => (Panicked, w)
            end
        end
      else (Failed NoCurve, w)
  | _ => (Panicked, w)
  end.

(** zkp_verify.rs:76-107. *)
Definition verify_univ (U : univ K R) (scheme circuit : list Z) (pub : list K) (b : list Z) (w : files) : res bool :=
  match u_dsrs K R U (read_or w (path SETUP_DIR scheme bls circuit (str ".universal_setup"))), u_dpf K R U b with
  | Some s, Some p => u_verify K R U s p pub
  | _, _ => Panic
  end.
(** zkp_verify.rs:51-111. *)
Definition verify_scheme (scheme circuit : list Z) (pub : list K) (b : list Z) (w : files) : option (res bool) :=
  if seqb scheme (str "groth16") then Some (
    match g_dvk K R GR (read_or w (path SETUP_DIR scheme bls circuit (str ".vk"))), g_dpf K R GR b with
    | Some vk, Some p => g_verify K R GR vk p pub
    | _, _ => Panic
    end)
  else if seqb scheme (str "bulletproofs") then Some (match b_dec K R BU b with Some (gens, r1cs, p) => b_verify K R BU gens p r1cs pub | None => Panic end)
  else if seqb scheme (str "spartan_snark") then Some (verify_univ SN scheme circuit pub b w)
  else if seqb scheme (str "spartan_nizk") then Some (verify_univ NI scheme circuit pub b w)
  else None.
(** zkp_verify.rs:16-24, 32-36: the public input. *)
Definition read_public (k : kind) (params : json) : option K :=
  match jstr (jfirst params) with
  | None => None
  | Some s => match k with
              | Mini => match parse_u64 s with Some z => Some (of_Z z) | None => None end
              | Hash => match from_hex s with Ok b => dfr b | _ => None end
              end
  end.
(** zkp_verify.rs:132-163 `main` with :14-49; an error of the verification is unwrapped (:65, 74, 90, 106). *)
Definition verify_file (w : files) (content : list Z) : ending :=
  match jparse content with
  | None => Panicked
  | Some j =>
      match jstr (jget j (str "circuit")), jstr (jget j (str "scheme")), jstr (jget j (str "curve")), jstr (jget j (str "proof")) with
      | Some circuit, Some scheme, Some curve, Some hex =>
          match from_hex hex with
          | Ok b =>
              if seqb curve bls then
                match kind_of circuit with
                | None => Failed NoCircuit
                | Some k => match read_public k (jget j (str "params")) with
                            | None => Panicked
                            | Some x => match verify_scheme scheme circuit [x] b w with
                                        | None => Failed NoScheme
                                        | Some (Ok v) => Finished (Some v)
                                        | Some _ => Panicked
                                        end
                            end
                end
              else Failed NoCurve
          | _ => Panicked
          end
      | _, _, _, _ => Panicked
      end
  end.
Definition verify_main (args : list (list Z)) (w : files) : ending :=
  match args with
  | [] | [_] => Failed BadParams
  | _ :: p :: _ => match w p with Some content => verify_file w content | None => Panicked end
  end.
End Programs.
