(** Specification vocabulary for the command-line programs. *)
From Coq Require Import String Ascii ZArith List.
From Verif Require Import Field ModelCS ModelCli SpecCli ModelCliMain.
From Coq Require Import List.
Import ListNotations.
Local Open Scope Z_scope.
(** What is written can be read back; it consists of bytes. *)
Definition lossless {A} (e : A -> list Z) (d : list Z -> option A) : Prop := forall x, d (e x) = Some x.
Definition in_bytes {A} (e : A -> list Z) : Prop := forall x, Forall is_byte (e x).
Definition good_groth {K R} (g : groth K R) : Prop := lossless (g_epk K R g) (g_dpk K R g) /\ lossless (g_evk K R g) (g_dvk K R g) /\ lossless (g_epf K R g) (g_dpf K R g) /\ in_bytes (g_epf K R g).
Definition good_univ {K R} (u : univ K R) : Prop := lossless (u_esrs K R u) (u_dsrs K R u) /\ lossless (u_epf K R u) (u_dpf K R u) /\ in_bytes (u_epf K R u).
Definition good_bullet {K R} (b : bullet K R) : Prop := lossless (b_enc K R b) (b_dec K R b) /\ in_bytes (b_enc K R b).
(** The files of the programs. *)
Definition setup_file (scheme circuit ext : string) : list Z := str ("./setup_files/" ++ scheme ++ "-bls12_381-" ++ circuit ++ ext).
Definition proof_file (scheme circuit : string) : list Z := str ("./proof_files/" ++ scheme ++ "-bls12_381-" ++ circuit ++ ".proof.json").
Definition name (k : kind) : string := match k with Mini => "mini" | Hash => "hash" end.
(** A command line. *)
Definition argv (l : list string) : list (list Z) := map str l.
(** The number a string of decimal digits stands for, and what stands for a 64-bit number. *)
Definition is_digit (c : Z) : Prop := 48 <= c <= 57.
Definition value (s : list Z) : Z := fold_left (fun a c => 10 * a + (c - 48)) s 0.
Definition numeral (s : list Z) (n : Z) : Prop := exists d, (s = d \/ s = 43 :: d) /\ d <> [] /\ Forall is_digit d /\ value d = n /\ n < 2 ^ 64.
(** The public input as a field element. *)
Definition public {K : PFld} (p : publics K) : K := match p with PMini z => of_Z z | PHash h => h end.
(** Public inputs of a circuit. *)
Definition fit {K : PFld} (k : kind) (p : publics K) : Prop := match k, p with Mini, PMini z => 0 <= z < 2 ^ 64 | Hash, PHash _ => True | _, _ => False end.
(** The end of a verification. *)
Definition reported (v : res bool) : ending := match v with Ok b => Finished (Some b) | _ => Panicked end.
(** The circuit named after scheme and curve, mini when there is none. *)
Definition circuit_arg (rest : list (list Z)) : list Z := match rest with c :: _ => c | [] => str "mini" end.
(** Where a proof goes. *)
Definition proof_path (scheme : list Z) (k : kind) : list Z := str "./proof_files/" ++ scheme ++ str "-bls12_381-" ++ str (name k) ++ str ".proof.json".
Section Runs.
Variable K : PFld.
Variables (nl : nat) (cts : list K).
Variable R : Type.
Variable GR : groth K R.
Variables SN NI : univ K R.
Variable BU : bullet K R.
Variable efr : K -> list Z.
(** A successful setup, by scheme: what was generated for the circuit without values and the files afterwards. *)
Inductive setup_makes (r : R) (k : kind) (w : files) : list Z -> files -> Prop :=
| makes_groth p : g_gen K R GR (power_off K nl cts k) r = Ok p ->
    setup_makes r k w (str "groth16") (write (write w (setup_file "groth16" (name k) ".pk") (g_epk K R GR p)) (setup_file "groth16" (name k) ".vk") (g_evk K R GR (g_key K R GR p)))
| makes_snark p : u_gen K R SN (power_off K nl cts k) r = Ok p -> setup_makes r k w (str "spartan_snark") (write w (setup_file "spartan_snark" (name k) ".universal_setup") (u_esrs K R SN p))
| makes_nizk p : u_gen K R NI (power_off K nl cts k) r = Ok p -> setup_makes r k w (str "spartan_nizk") (write w (setup_file "spartan_nizk" (name k) ".universal_setup") (u_esrs K R NI p)).
(** A successful run of a prover, by scheme: the bytes of the proof. *)
Inductive proof_made (r : R) (k : kind) (c : M K unit) (w : files) : list Z -> list Z -> Prop :=
| made_groth pk p : g_dpk K R GR (read_or w (setup_file "groth16" (name k) ".pk")) = Some pk -> g_prove K R GR pk c r = Ok p -> proof_made r k c w (str "groth16") (g_epf K R GR p)
| made_bullet t : b_prove K R BU c r = Ok t -> proof_made r k c w (str "bulletproofs") (b_enc K R BU t)
| made_snark s p : u_dsrs K R SN (read_or w (setup_file "spartan_snark" (name k) ".universal_setup")) = Some s -> u_prove K R SN s c r = Ok p -> proof_made r k c w (str "spartan_snark") (u_epf K R SN p)
| made_nizk s p : u_dsrs K R NI (read_or w (setup_file "spartan_nizk" (name k) ".universal_setup")) = Some s -> u_prove K R NI s c r = Ok p -> proof_made r k c w (str "spartan_nizk") (u_epf K R NI p).
(** What the written file says. *)
Definition contents (k : kind) (scheme : list Z) (p : publics K) (b : list Z) : json :=
  JObj [(str "circuit", JStr (str (name k))); (str "scheme", JStr scheme); (str "curve", JStr (str "bls12_381"));
        (str "params", JArr [JStr match p with PMini z => print_u64 z | PHash h => to_hex (efr h) end]); (str "proof", JStr (to_hex b))].
End Runs.
