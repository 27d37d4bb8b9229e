(** Theorems C107 and C108: the command-line programs setup, zkp-prove and zkp-verify from arguments and files to the verdict. *)
From Coq Require Import String Ascii ZArith List Lia Bool.
From Verif Require Import Field Poly Module ModelTranscript ModelLC SpecLC ModelCS SpecCS ModelMimc ModelGroth16 SpecGroth16 ModelBulletproofs ModelCli SpecCli ModelCliMain SpecCliMain ModelCliInst
  ProofsCliMain ProofsCliMain2 ProofsCliMain3 ProofsCliMain5.
From Coq Require Import List.
Import ListNotations.
Local Open Scope Z_scope.

(** ** C107 *)
Section C107.
Variable K : PFld.
Variables (nl : nat) (cts : list K).
Variable R : Type.
Variable GR : groth K R.
Variables SN NI : univ K R.
Variable BU : bullet K R.
Variable jprint : json -> list Z.
Variable jparse : list Z -> option json.
Variable efr : K -> list Z.
Variable dfr : list Z -> option K.
Notation setup := (setup_main K nl cts R GR SN NI).
Notation prove := (prove_main K nl cts R GR SN NI BU jprint efr).
Notation verify := (verify_main K R GR SN NI BU jparse dfr).
(** Setup succeeds exactly on a known scheme, the one curve and a known circuit (mini when none is named) for which generation succeeds,
    and then writes the files of that scheme and circuit; otherwise it writes nothing. *)
Theorem C107_setup : forall r args w, (forall v w', setup r args w = (Finished v, w') <->
    v = None /\ exists prog scheme rest k, args = prog :: scheme :: str "bls12_381" :: rest /\ circuit_arg rest = str (name k) /\ setup_makes K nl cts R GR SN NI r k w scheme w') /\
  ((forall v, fst (setup r args w) <> Finished v) -> snd (setup r args w) = w).
Proof. intros r args w. split; [intros v w'; apply setup_finishes|apply setup_else]. Qed.
(** The prover likewise; it writes one file, with the names, the public input and the proof. *)
Theorem C107_prove : forall r args w, (forall v w', prove r args w = (Finished v, w') <->
    v = None /\ exists prog scheme k rest c p b, args = prog :: scheme :: str "bls12_381" :: str (name k) :: rest /\ power_on K nl cts k rest = Ok (c, p) /\
      proof_made K R GR SN NI BU r k c w scheme b /\ w' = write w (proof_path scheme k) (jprint (contents K efr k scheme p b))) /\
  ((forall v, fst (prove r args w) <> Finished v) -> snd (prove r args w) = w).
Proof. intros r args w. split; [intros v w'; apply prove_finishes|apply prove_else]. Qed.
(** After a setup and a proof the verdict is that of the scheme's verifier on the generated key, the proof made and the public input,
    whatever else happened to other files. *)
Theorem C107_groth_verdict : lossless jprint jparse -> lossless efr dfr -> in_bytes efr -> forall r r' s0 rest p0 k args w w1 w2 w3 v v', good_groth GR -> circuit_arg rest = str (name k) ->
  setup r (s0 :: str "groth16" :: str "bls12_381" :: rest) w = (Finished v, w1) ->
  prove r' (p0 :: str "groth16" :: str "bls12_381" :: str (name k) :: args) w1 = (Finished v', w2) ->
  w3 (setup_file "groth16" (name k) ".vk") = w2 (setup_file "groth16" (name k) ".vk") -> w3 (proof_file "groth16" (name k)) = w2 (proof_file "groth16" (name k)) ->
  exists pk c p pf, g_gen K R GR (power_off K nl cts k) r = Ok pk /\ power_on K nl cts k args = Ok (c, p) /\ g_prove K R GR pk c r' = Ok pf /\
  forall v0 more, verify (v0 :: proof_file "groth16" (name k) :: more) w3 = reported (g_verify K R GR (g_key K R GR pk) pf [public p]).
Proof. apply groth_run. Qed.
Theorem C107_snark_verdict : lossless jprint jparse -> lossless efr dfr -> in_bytes efr -> forall r r' s0 rest p0 k args w w1 w2 w3 v v', good_univ SN -> circuit_arg rest = str (name k) ->
  setup r (s0 :: str "spartan_snark" :: str "bls12_381" :: rest) w = (Finished v, w1) ->
  prove r' (p0 :: str "spartan_snark" :: str "bls12_381" :: str (name k) :: args) w1 = (Finished v', w2) ->
  w3 (setup_file "spartan_snark" (name k) ".universal_setup") = w2 (setup_file "spartan_snark" (name k) ".universal_setup") -> w3 (proof_file "spartan_snark" (name k)) = w2 (proof_file "spartan_snark" (name k)) ->
  exists s c p pf, u_gen K R SN (power_off K nl cts k) r = Ok s /\ power_on K nl cts k args = Ok (c, p) /\ u_prove K R SN s c r' = Ok pf /\
  forall v0 more, verify (v0 :: proof_file "spartan_snark" (name k) :: more) w3 = reported (u_verify K R SN s pf [public p]).
Proof. apply snark_run. Qed.
Theorem C107_nizk_verdict : lossless jprint jparse -> lossless efr dfr -> in_bytes efr -> forall r r' s0 rest p0 k args w w1 w2 w3 v v', good_univ NI -> circuit_arg rest = str (name k) ->
  setup r (s0 :: str "spartan_nizk" :: str "bls12_381" :: rest) w = (Finished v, w1) ->
  prove r' (p0 :: str "spartan_nizk" :: str "bls12_381" :: str (name k) :: args) w1 = (Finished v', w2) ->
  w3 (setup_file "spartan_nizk" (name k) ".universal_setup") = w2 (setup_file "spartan_nizk" (name k) ".universal_setup") -> w3 (proof_file "spartan_nizk" (name k)) = w2 (proof_file "spartan_nizk" (name k)) ->
  exists s c p pf, u_gen K R NI (power_off K nl cts k) r = Ok s /\ power_on K nl cts k args = Ok (c, p) /\ u_prove K R NI s c r' = Ok pf /\
  forall v0 more, verify (v0 :: proof_file "spartan_nizk" (name k) :: more) w3 = reported (u_verify K R NI s pf [public p]).
Proof. apply nizk_run. Qed.
Theorem C107_bulletproofs_verdict : lossless jprint jparse -> lossless efr dfr -> in_bytes efr -> forall r' p0 k args w w2 w3 v', good_bullet BU ->
  prove r' (p0 :: str "bulletproofs" :: str "bls12_381" :: str (name k) :: args) w = (Finished v', w2) -> w3 (proof_file "bulletproofs" (name k)) = w2 (proof_file "bulletproofs" (name k)) ->
  exists gens r1cs c p pf, power_on K nl cts k args = Ok (c, p) /\ b_prove K R BU c r' = Ok (gens, r1cs, pf) /\
  forall v0 more, verify (v0 :: proof_file "bulletproofs" (name k) :: more) w3 = reported (b_verify K R BU gens pf r1cs [public p]).
Proof. apply bullet_run. Qed.
(** The three arguments of mini are numerals below 2^64 and the circuit is satisfied exactly when x * (y + 2) = z in the integers, as
    long as both sides are below the field's modulus. *)
Theorem C107_mini : forall a b d x y z, numeral a x -> numeral b y -> numeral d z -> x * (y + 2) < pmod K -> z < pmod K ->
  forall rest, exists c s, power_on K nl cts Mini (a :: b :: d :: rest) = Ok (c, PMini z) /\ c (cs_new Prove) = Ok (tt, s) /\ inps s = [f1; of_Z z] /\ (self_sat s <-> x * (y + 2) = z).
Proof. intros. apply mini_integers; assumption. Qed.
End C107.
Print Assumptions C107_setup.
Print Assumptions C107_prove.
Print Assumptions C107_groth_verdict.
Print Assumptions C107_snark_verdict.
Print Assumptions C107_nizk_verdict.
Print Assumptions C107_bulletproofs_verdict.
Print Assumptions C107_mini.
(** What `str::parse::<u64>` reads, and that it reads what `to_string` writes. *)
Theorem C107_numbers : (forall s n, parse_u64 s = Some n <-> numeral s n) /\ (forall n, 0 <= n < 2 ^ 64 -> parse_u64 (print_u64 n) = Some n).
Proof. split; [exact parse_u64_iff|exact print_numeral]. Qed.
Print Assumptions C107_numbers.

(** ** C108 *)
Section C108.
Variable K : PFld.
Variable PR : Pairing K.
Variable dnew : nat -> option (dom K).
Variable R : Type.
Variable keys : R -> gdraw K PR.
Variable blinds : R -> K * K.
Variable G : Grp K.
Variable ch : oracle K G.
Variable points : R -> nat -> list G * list G * G * G * G.
Variable masks : R -> brand K.
Variable epk : params K PR -> list Z. Variable dpk : list Z -> option (params K PR).
Variable evk : vkey K PR -> list Z. Variable dvk : list Z -> option (vkey K PR).
Variable epf : proof K PR -> list Z. Variable dpf : list Z -> option (proof K PR).
Variable enc : gens K G * r1cs K * bproof K G -> list Z. Variable dec : list Z -> option (gens K G * r1cs K * bproof K G).
Notation GR := (groth16_sys K PR dnew R keys blinds epk dpk evk dvk epf dpf).
Notation BU := (bulletproofs_sys K R G ch points masks enc dec).
Variables (nl : nat) (cts : list K).
Variables SN NI : univ K R.
Variable jprint : json -> list Z.
Variable jparse : list Z -> option json.
Variable efr : K -> list Z.
Variable dfr : list Z -> option K.
Notation setup := (setup_main K nl cts R GR SN NI).
Notation prove := (prove_main K nl cts R GR SN NI BU jprint efr).
Notation verify := (verify_main K R GR SN NI BU jparse dfr).
Notation vfile := (verify_file K R GR SN NI BU jparse dfr).
Local Open Scope fld_scope.
(** Under groth16 a correct product is proved and accepted once the setup has finished. *)
Theorem C108_groth_mini : lossless jprint jparse -> lossless efr dfr -> in_bytes efr -> forall r r' s0 rest p0 a b d x y z more w w1 v, good_groth GR -> dom_family dnew -> circuit_arg rest = str "mini" ->
  setup r (s0 :: str "groth16" :: str "bls12_381" :: rest) w = (Finished v, w1) -> numeral a x -> numeral b y -> numeral d z -> of_Z x * (of_Z y + of_Z 2) = (of_Z z : K) ->
  exists w2, prove r' (p0 :: str "groth16" :: str "bls12_381" :: str "mini" :: a :: b :: d :: more) w1 = (Finished None, w2) /\
  forall v0 more', verify (v0 :: proof_file "groth16" "mini" :: more') w2 = Finished (Some true).
Proof. apply groth_mini. Qed.
(** So is the hash of a string. *)
Theorem C108_groth_hash : lossless jprint jparse -> lossless efr dfr -> in_bytes efr -> forall r r' s0 p0 a h rest more w w1 v, good_groth GR -> dom_family dnew -> (0 < nl)%nat -> cts <> [] -> a <> [] -> hash nl cts a = Ok h ->
  setup r (s0 :: str "groth16" :: str "bls12_381" :: str "hash" :: rest) w = (Finished v, w1) ->
  exists w2, prove r' (p0 :: str "groth16" :: str "bls12_381" :: str "hash" :: a :: more) w1 = (Finished None, w2) /\
  forall v0 more', verify (v0 :: proof_file "groth16" "hash" :: more') w2 = Finished (Some true).
Proof. apply groth_hash. Qed.
(** But for every field element there is a proof file claiming it as an image that is accepted under the honestly generated key. *)
Theorem C108_any_image_accepted : lossless jprint jparse -> lossless efr dfr -> in_bytes efr -> forall r s0 rest h w w1 v, good_groth GR -> dom_family dnew -> (0 < nl)%nat -> cts <> [] ->
  setup r (s0 :: str "groth16" :: str "bls12_381" :: str "hash" :: rest) w = (Finished v, w1) ->
  exists b, forall w3, w3 (setup_file "groth16" "hash" ".vk") = w1 (setup_file "groth16" "hash" ".vk") -> vfile w3 (jprint (contents K efr Hash (str "groth16") (PHash h) b)) = Finished (Some true).
Proof. apply groth_hash_forged. Qed.
(** Under bulletproofs a correct product is accepted without a setup. *)
Theorem C108_bulletproofs_mini : lossless jprint jparse -> lossless efr dfr -> in_bytes efr -> forall r' p0 a b d x y z more w, good_bullet BU -> (forall l t, ch l t <> 0) ->
  (forall N, length (fst (fst (fst (fst (points r' N))))) = N /\ length (snd (fst (fst (fst (points r' N))))) = N) -> (length (r_sL K (masks r')) <= 10)%nat -> (length (r_sR K (masks r')) <= 10)%nat ->
  numeral a x -> numeral b y -> numeral d z -> of_Z x * (of_Z y + of_Z 2) = (of_Z z : K) ->
  exists w2, prove r' (p0 :: str "bulletproofs" :: str "bls12_381" :: str "mini" :: a :: b :: d :: more) w = (Finished None, w2) /\
  forall v0 more', verify (v0 :: proof_file "bulletproofs" "mini" :: more') w2 = Finished (Some true).
Proof. apply bullet_mini. Qed.
(** But every public input of both circuits is accepted too, from a file that brings its own generators, circuit and proof. *)
Theorem C108_anything_accepted : lossless jprint jparse -> lossless efr dfr -> in_bytes efr -> forall k p, good_bullet BU -> (forall t, ch "y"%string t <> 0) -> fit k p ->
  exists b, forall w, vfile w (jprint (contents K efr k (str "bulletproofs") p b)) = Finished (Some true).
Proof. apply bullet_forged. Qed.
End C108.
Print Assumptions C108_groth_mini.
Print Assumptions C108_groth_hash.
Print Assumptions C108_any_image_accepted.
Print Assumptions C108_bulletproofs_mini.
Print Assumptions C108_anything_accepted.
(** The verdict on a bulletproofs file depends on no other file; and missing arguments end the programs in a panic instead of a message. *)
Theorem C108_no_other_file : forall (K : PFld) R GR SN NI BU jparse dfr w w' content j, jparse content = Some j -> jget j (str "scheme") = JStr (str "bulletproofs") ->
  verify_file K R GR SN NI BU jparse dfr w content = verify_file K R GR SN NI BU jparse dfr w' content.
Proof. exact bullet_alone. Qed.
Print Assumptions C108_no_other_file.
Theorem C108_short_arguments : forall (K : PFld) nl cts R GR SN NI BU jprint efr r prog a b w, setup_main K nl cts R GR SN NI r [prog; a] w = (Panicked, w) /\
  prove_main K nl cts R GR SN NI BU jprint efr r [prog; a] w = (Panicked, w) /\ prove_main K nl cts R GR SN NI BU jprint efr r [prog; a; b] w = (Panicked, w).
Proof. intros. split; [apply setup_two|apply prove_short]. Qed.
Print Assumptions C108_short_arguments.

(** ** Concrete instances over the integers modulo 97 *)
From Verif Require Import Zp ExMarlin ExCli.
Notation setup97 := (setup_main F97 1 [z97 3; z97 8] Z GR97 sp97 sp97).
Notation prove97 := (prove_main F97 1 [z97 3; z97 8] Z GR97 sp97 sp97 BU97 jprint97 ek).
Notation verify97 := (verify_main F97 Z GR97 sp97 sp97 BU97 jparse97 dfr97).
Definition no_files : files := fun _ => None.
Definition finished (e : ending) : bool := match e with Finished _ => true | _ => false end.
Definition says (e : ending) (b : bool) : bool := match e with Finished (Some v) => Bool.eqb v b | _ => false end.
Definition run97 (scheme circuit : string) (more : list string) : bool :=
  let '(e1, w1) := setup97 4 (argv ["setup"; scheme; "bls12_381"; circuit]%string) no_files in
  let '(e2, w2) := prove97 9 (argv ("zkp-prove" :: scheme :: "bls12_381" :: circuit :: more)%string) w1 in
  finished e1 && finished e2 && says (verify97 [str "zkp-verify"; proof_file scheme circuit] w2) true.
Example ex_C107_groth : run97 "groth16" "mini" ["3"; "5"; "21"]%string = true. Proof. vm_compute. reflexivity. Qed.
Example ex_C107_snark : run97 "spartan_snark" "mini" ["3"; "5"; "21"]%string = true. Proof. vm_compute. reflexivity. Qed.
Example ex_C107_nizk : run97 "spartan_nizk" "hash" ["ab"]%string = true. Proof. vm_compute. reflexivity. Qed.
(** No setup for bulletproofs; 4 * (5 + 2) = 28. *)
Example ex_C107_bulletproofs : let '(e2, w2) := prove97 9 (argv ["zkp-prove"; "bulletproofs"; "bls12_381"; "mini"; "4"; "5"; "28"]%string) no_files in
  finished e2 && says (verify97 [str "zkp-verify"; proof_file "bulletproofs" "mini"] w2) true = true.
Proof. vm_compute. reflexivity. Qed.
(** An unknown circuit and an unknown scheme leave the files alone; without a circuit it is mini. *)
Example ex_C107_setup : map (fun l => fst (setup97 4 (argv l) no_files)) [["setup"; "groth16"; "bls12_381"]; ["setup"; "groth16"; "bls12_381"; "sudoku"]; ["setup"; "marlin"; "bls12_381"]; ["setup"; "groth16"; "bn_256"]; ["setup"]]%string =
  [Finished None; Failed NoCircuit; Failed NoScheme; Failed NoCurve; Failed BadParams].
Proof. vm_compute. reflexivity. Qed.
Example ex_C107_prove : map (fun l => fst (prove97 4 (argv l) no_files)) [["zkp-prove"; "bulletproofs"; "bls12_381"; "mini"; "+3"; "05"; "21"]; ["zkp-prove"; "bulletproofs"; "bls12_381"; "mini"; "-3"; "5"; "21"];
    ["zkp-prove"; "bulletproofs"; "bls12_381"; "mini"; "3"]; ["zkp-prove"; "groth16"; "bls12_381"; "mini"; "3"; "5"; "21"]]%string = [Finished None; Panicked; Panicked; Panicked].
Proof. vm_compute. reflexivity. Qed.
Lemma numeral_of s n : parse_u64 s = Some n -> numeral s n. Proof. apply parse_u64_iff. Qed.
Example ex_C107_mini : numeral (str "+3") 3 /\ numeral (str "05") 5 /\ numeral (str "21") 21 /\ 3 * (5 + 2) < pmod F97 /\ 21 < pmod F97 /\ 3 * (5 + 2) = 21.
Proof. repeat split; try (apply numeral_of; vm_compute; reflexivity). Qed.
Example ex_C107_numbers : parse_u64 (str "18446744073709551615") = Some (2 ^ 64 - 1) /\ parse_u64 (str "18446744073709551616") = None /\ parse_u64 (str "+") = None /\ print_u64 0 = str "0".
Proof. vm_compute. repeat split; reflexivity. Qed.
Definition set97 (c : string) := setup97 4 [str "setup"; str "groth16"; str "bls12_381"; str c] no_files.
Lemma set97_ok c : finished (fst (set97 c)) = true -> exists v, set97 c = (Finished v, snd (set97 c)).
Proof. destruct (set97 c) as [[v| |] w1]; cbn [fst snd finished]; intro E; try discriminate E. exists v. reflexivity. Qed.
Example ex_C108_groth_mini : exists w2, prove97 9 [str "zkp-prove"; str "groth16"; str "bls12_381"; str "mini"; str "3"; str "5"; str "21"] (snd (set97 "mini")) = (Finished None, w2) /\
  forall v0 more, verify97 (v0 :: proof_file "groth16" "mini" :: more) w2 = Finished (Some true).
Proof.
  destruct (set97_ok "mini" ltac:(vm_compute; reflexivity)) as [v E].
  apply (C108_groth_mini F97 P97 dnew97 Z keys97 blinds97 (G1 P97) ch97 points97 masks97 epk97 dpk97 evk97 dvk97 epf97 dpf97 enc97 dec97 1 [z97 3; z97 8] sp97 sp97 jprint97 jparse97 ek dfr97 json97 fr97 ek_bytes
    4 9 (str "setup") [str "mini"] (str "zkp-prove") (str "3") (str "5") (str "21") 3 5 21 [] no_files _ v good97 family97 eq_refl E); try (apply numeral_of; vm_compute; reflexivity).
  apply feqb_eq. vm_compute. reflexivity.
Qed.
Example ex_C108_any_image : exists b, forall w3, w3 (setup_file "groth16" "hash" ".vk") = snd (set97 "hash") (setup_file "groth16" "hash" ".vk") ->
  verify_file F97 Z GR97 sp97 sp97 BU97 jparse97 dfr97 w3 (jprint97 (contents F97 ek Hash (str "groth16") (PHash (z97 42)) b)) = Finished (Some true).
Proof.
  destruct (set97_ok "hash" ltac:(vm_compute; reflexivity)) as [v E].
  apply (C108_any_image_accepted F97 P97 dnew97 Z keys97 blinds97 (G1 P97) ch97 points97 masks97 epk97 dpk97 evk97 dvk97 epf97 dpf97 enc97 dec97 1 [z97 3; z97 8] sp97 sp97 jprint97 jparse97 ek dfr97 json97 fr97 ek_bytes
    4 (str "setup") [] (z97 42) no_files _ v good97 family97); [lia|discriminate|exact E].
Qed.
Example ex_C108_groth_hash : run97 "groth16" "hash" ["ab"]%string = true. Proof. vm_compute. reflexivity. Qed.
Example ex_C108_bulletproofs_mini : exists w2, prove97 9 [str "zkp-prove"; str "bulletproofs"; str "bls12_381"; str "mini"; str "4"; str "5"; str "28"] no_files = (Finished None, w2) /\
  forall v0 more, verify97 (v0 :: proof_file "bulletproofs" "mini" :: more) w2 = Finished (Some true).
Proof.
  apply (C108_bulletproofs_mini F97 P97 dnew97 Z keys97 blinds97 (G1 P97) ch97 points97 masks97 epk97 dpk97 evk97 dvk97 epf97 dpf97 enc97 dec97 1 [z97 3; z97 8] sp97 sp97 jprint97 jparse97 ek dfr97 json97 fr97 ek_bytes
    9 (str "zkp-prove") (str "4") (str "5") (str "28") 4 5 28 [] no_files bullet97 ch97_nz); try (apply numeral_of; vm_compute; reflexivity).
  - intro N. unfold points97. cbn [fst snd]. rewrite !map_length, seq_length. split; reflexivity.
  - cbn. lia.
  - cbn. lia.
  - apply feqb_eq. vm_compute. reflexivity.
Qed.
(** 1 = x * (y + 2) "proved" for numbers, and 42 "proved" to be a hash. *)
Example ex_C108_anything : (exists b, forall w, verify_file F97 Z GR97 sp97 sp97 BU97 jparse97 dfr97 w (jprint97 (contents F97 ek Mini (str "bulletproofs") (PMini 1) b)) = Finished (Some true)) /\
  (exists b, forall w, verify_file F97 Z GR97 sp97 sp97 BU97 jparse97 dfr97 w (jprint97 (contents F97 ek Hash (str "bulletproofs") (PHash (z97 42)) b)) = Finished (Some true)).
Proof.
  split; apply (C108_anything_accepted F97 P97 dnew97 Z keys97 blinds97 (G1 P97) ch97 points97 masks97 epk97 dpk97 evk97 dvk97 epf97 dpf97 enc97 dec97 sp97 sp97 jprint97 jparse97 ek dfr97 json97 fr97 ek_bytes);
    try exact bullet97; try (intro t; apply ch97_nz); cbn [fit]; [lia|exact I].
Qed.
