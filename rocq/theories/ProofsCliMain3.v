(** From setup to the verdict. *)
From Coq Require Import String Ascii ZArith List Lia Bool.
From Verif Require Import Field ModelLC SpecLC ModelCS SpecCS ModelMimc ModelCli SpecCli ProofsCli ModelCliMain SpecCliMain ProofsCliMain ProofsCliMain2.
From Coq Require Import List.
Import ListNotations.
Local Open Scope Z_scope.
Section P.
Variable K : PFld.
Variables (nl : nat) (cts : list K).
Variable R : Type.
Variable GR : groth K R.
Variables SN NI : univ K R.
Variable BU : bullet K R.
Variable jprint : json -> list Z.
Variable jparse : list Z -> option json.
Variable efr : K -> list Z.
Variable dfr : list Z -> option K.
Notation setup := (setup_main K nl cts R GR SN NI).
Notation prove := (prove_main K nl cts R GR SN NI BU jprint efr).
Notation verify := (verify_main K R GR SN NI BU jparse dfr).
Notation vfile := (verify_file K R GR SN NI BU jparse dfr).
Notation off := (power_off K nl cts).
Notation on := (power_on K nl cts).
Notation setup_makes := (setup_makes K nl cts R GR SN NI).
Notation proof_made := (proof_made K R GR SN NI BU).
Notation contents := (contents K efr).
Hypothesis J : lossless jprint jparse.
Hypothesis Lf : lossless efr dfr.
Hypothesis Bf : in_bytes efr.

Lemma on_fit k rest c p : on k rest = Ok (c, p) -> fit k p.
Proof.
  destruct k.
  - intro E. apply power_mini in E. destruct E as (a & b & d & re & x & y & z & _ & _ & _ & D & _ & ->). apply (numeral_range _ _ D).
  - cbn [power_on]. destruct rest as [|a rest]; [discriminate|]. destruct (hash nl cts a) as [h| |]; try discriminate. intro E. injection E as <- <-. exact I.
Qed.
Lemma verify_contents w k scheme p b : fit k p -> Forall is_byte b -> vfile w (jprint (contents k scheme p b)) =
  match verify_scheme K R GR SN NI BU scheme (str (name k)) [public p] b w with None => Failed NoScheme | Some v => reported v end.
Proof.
  intros F B. unfold verify_file. rewrite J.
  change (jget (contents k scheme p b) (str "circuit")) with (JStr (str (name k))). change (jget (contents k scheme p b) (str "scheme")) with (JStr scheme).
  change (jget (contents k scheme p b) (str "curve")) with (JStr bls). change (jget (contents k scheme p b) (str "proof")) with (JStr (to_hex b)).
  change (jget (contents k scheme p b) (str "params")) with (JArr [JStr match p with PMini z => print_u64 z | PHash h => to_hex (efr h) end]).
  cbn [jstr]. rewrite (hex_roundtrip b B), seqb_refl, kind_name.
  assert (read_public K dfr k (JArr [JStr match p with PMini z => print_u64 z | PHash h => to_hex (efr h) end]) = Some (public p)) as ->.
  { unfold read_public. cbn [jfirst jstr]. destruct k, p as [z|h]; cbn [fit] in F; try contradiction; cbn [public].
    - rewrite (print_numeral z F). reflexivity.
    - rewrite (hex_roundtrip _ (Bf h)). apply Lf. }
  destruct (verify_scheme K R GR SN NI BU scheme (str (name k)) [public p] b w) as [[v| |]|]; reflexivity.
Qed.
Lemma write_same w p b : write w p b p = Some b. Proof. unfold write. rewrite seqb_refl. reflexivity. Qed.
Lemma write_other w p b q : seqb q p = false -> write w p b q = w q. Proof. unfold write. intros ->. reflexivity. Qed.
Lemma name_inj k k' : str (name k) = str (name k') -> k = k'. Proof. destruct k, k'; try reflexivity; discriminate. Qed.

Theorem groth_run r r' s0 rest p0 k args w w1 w2 w3 v v' : good_groth GR -> circuit_arg rest = str (name k) ->
  setup r (s0 :: str "groth16" :: str "bls12_381" :: rest) w = (Finished v, w1) ->
  prove r' (p0 :: str "groth16" :: str "bls12_381" :: str (name k) :: args) w1 = (Finished v', w2) ->
  w3 (setup_file "groth16" (name k) ".vk") = w2 (setup_file "groth16" (name k) ".vk") -> w3 (proof_file "groth16" (name k)) = w2 (proof_file "groth16" (name k)) ->
  exists pk c p pf, g_gen K R GR (off k) r = Ok pk /\ on k args = Ok (c, p) /\ g_prove K R GR pk c r' = Ok pf /\
  forall v0 more, verify (v0 :: proof_file "groth16" (name k) :: more) w3 = reported (g_verify K R GR (g_key K R GR pk) pf [public p]).
Proof.
  intros (Lpk & Lvk & Lpf & Bpf) CA S P A3 B3.
  apply setup_finishes in S. destruct S as (_ & q1 & q2 & q3 & k1 & E & CA' & M). injection E as _ <- <-. rewrite CA in CA'. apply name_inj in CA'. subst k1.
  inversion M as [pk G E1 E2|pk G E1 E2|pk G E1 E2]. clear M. subst w1.
  apply prove_finishes in P. destruct P as (_ & q4 & q5 & k2 & q6 & c & p & b & E & On & M & ->). injection E as _ <- E <-. apply name_inj in E. subst k2.
  inversion M as [pk' pf D Q E3 E4|t Q E3 E4|sr pf D Q E3 E4|sr pf D Q E3 E4]. clear M. subst b.
  unfold read_or in D. rewrite write_other in D by (destruct k; vm_compute; reflexivity). rewrite write_same, Lpk in D. injection D as <-.
  change (proof_path (str "groth16") k) with (proof_path (str "groth16") k) in A3, B3.
  assert (PP : proof_path (str "groth16") k = proof_file "groth16" (name k)) by (destruct k; vm_compute; reflexivity). rewrite PP in A3, B3.
  rewrite write_same in B3. rewrite write_other in A3 by (destruct k; vm_compute; reflexivity). rewrite write_same in A3.
  exists pk, c, p, pf. split; [exact G|]. split; [exact On|]. split; [exact Q|]. intros v0 more. cbn [verify_main]. rewrite B3, verify_contents by (try apply Bpf; eapply on_fit, On).
  unfold verify_scheme. cbn [seqb]. rewrite seqb_refl, path_setup. unfold read_or. rewrite A3, Lvk, Lpf. reflexivity.
Qed.
Lemma univ_run_aux (U : univ K R) r' k args c p b pf s (w3 : files) scheme : good_univ U -> on k args = Ok (c, p) ->
  verify_scheme K R GR SN NI BU (str scheme) (str (name k)) [public p] (u_epf K R U pf) w3 = Some (verify_univ K R U (str scheme) (str (name k)) [public p] (u_epf K R U pf) w3) ->
  u_prove K R U s c r' = Ok pf -> b = u_epf K R U pf ->
  w3 (setup_file scheme (name k) ".universal_setup") = Some (u_esrs K R U s) -> w3 (proof_file scheme (name k)) = Some (jprint (contents k (str scheme) p b)) ->
  forall v0 more, verify (v0 :: proof_file scheme (name k) :: more) w3 = reported (u_verify K R U s pf [public p]).
Proof.
  intros (Ls & Lp & Bp) On VS Q -> A3 B3 v0 more. cbn [verify_main]. rewrite B3, verify_contents by (try apply Bp; eapply on_fit, On).
  rewrite VS. unfold verify_univ. rewrite path_setup. unfold read_or. rewrite A3, Ls, Lp. reflexivity.
Qed.
Theorem snark_run r r' s0 rest p0 k args w w1 w2 w3 v v' : good_univ SN -> circuit_arg rest = str (name k) ->
  setup r (s0 :: str "spartan_snark" :: str "bls12_381" :: rest) w = (Finished v, w1) ->
  prove r' (p0 :: str "spartan_snark" :: str "bls12_381" :: str (name k) :: args) w1 = (Finished v', w2) ->
  w3 (setup_file "spartan_snark" (name k) ".universal_setup") = w2 (setup_file "spartan_snark" (name k) ".universal_setup") -> w3 (proof_file "spartan_snark" (name k)) = w2 (proof_file "spartan_snark" (name k)) ->
  exists s c p pf, u_gen K R SN (off k) r = Ok s /\ on k args = Ok (c, p) /\ u_prove K R SN s c r' = Ok pf /\
  forall v0 more, verify (v0 :: proof_file "spartan_snark" (name k) :: more) w3 = reported (u_verify K R SN s pf [public p]).
Proof.
  intros GU CA S P A3 B3. pose proof GU as (Ls & Lp & Bp).
  apply setup_finishes in S. destruct S as (_ & q1 & q2 & q3 & k1 & E & CA' & M). injection E as _ <- <-. rewrite CA in CA'. apply name_inj in CA'. subst k1.
  inversion M as [pk G E1 E2|pk G E1 E2|pk G E1 E2]. clear M. subst w1.
  apply prove_finishes in P. destruct P as (_ & q4 & q5 & k2 & q6 & c & p & b & E & On & M & ->). injection E as _ <- E <-. apply name_inj in E. subst k2.
  inversion M as [pk' pf D Q E3 E4|t Q E3 E4|sr pf D Q E3 E4|sr pf D Q E3 E4]. clear M.
  unfold read_or in D. rewrite write_same, Ls in D. injection D as <-.
  assert (PP : proof_path (str "spartan_snark") k = proof_file "spartan_snark" (name k)) by (destruct k; vm_compute; reflexivity). rewrite PP in A3, B3.
  rewrite write_same in B3. rewrite write_other in A3 by (destruct k; vm_compute; reflexivity). rewrite write_same in A3.
  exists pk, c, p, pf. split; [exact G|]. split; [exact On|]. split; [exact Q|]. subst b. apply (univ_run_aux SN r' k args c p _ pf pk w3 "spartan_snark" GU On eq_refl Q eq_refl A3 B3).
Qed.
Theorem nizk_run r r' s0 rest p0 k args w w1 w2 w3 v v' : good_univ NI -> circuit_arg rest = str (name k) ->
  setup r (s0 :: str "spartan_nizk" :: str "bls12_381" :: rest) w = (Finished v, w1) ->
  prove r' (p0 :: str "spartan_nizk" :: str "bls12_381" :: str (name k) :: args) w1 = (Finished v', w2) ->
  w3 (setup_file "spartan_nizk" (name k) ".universal_setup") = w2 (setup_file "spartan_nizk" (name k) ".universal_setup") -> w3 (proof_file "spartan_nizk" (name k)) = w2 (proof_file "spartan_nizk" (name k)) ->
  exists s c p pf, u_gen K R NI (off k) r = Ok s /\ on k args = Ok (c, p) /\ u_prove K R NI s c r' = Ok pf /\
  forall v0 more, verify (v0 :: proof_file "spartan_nizk" (name k) :: more) w3 = reported (u_verify K R NI s pf [public p]).
Proof.
  intros GU CA S P A3 B3. pose proof GU as (Ls & Lp & Bp).
  apply setup_finishes in S. destruct S as (_ & q1 & q2 & q3 & k1 & E & CA' & M). injection E as _ <- <-. rewrite CA in CA'. apply name_inj in CA'. subst k1.
  inversion M as [pk G E1 E2|pk G E1 E2|pk G E1 E2]. clear M. subst w1.
  apply prove_finishes in P. destruct P as (_ & q4 & q5 & k2 & q6 & c & p & b & E & On & M & ->). injection E as _ <- E <-. apply name_inj in E. subst k2.
  inversion M as [pk' pf D Q E3 E4|t Q E3 E4|sr pf D Q E3 E4|sr pf D Q E3 E4]. clear M.
  unfold read_or in D. rewrite write_same, Ls in D. injection D as <-.
  assert (PP : proof_path (str "spartan_nizk") k = proof_file "spartan_nizk" (name k)) by (destruct k; vm_compute; reflexivity). rewrite PP in A3, B3.
  rewrite write_same in B3. rewrite write_other in A3 by (destruct k; vm_compute; reflexivity). rewrite write_same in A3.
  exists pk, c, p, pf. split; [exact G|]. split; [exact On|]. split; [exact Q|]. subst b. apply (univ_run_aux NI r' k args c p _ pf pk w3 "spartan_nizk" GU On eq_refl Q eq_refl A3 B3).
Qed.
Theorem bullet_run r' p0 k args w w2 w3 v' : good_bullet BU ->
  prove r' (p0 :: str "bulletproofs" :: str "bls12_381" :: str (name k) :: args) w = (Finished v', w2) -> w3 (proof_file "bulletproofs" (name k)) = w2 (proof_file "bulletproofs" (name k)) ->
  exists gens r1cs c p pf, on k args = Ok (c, p) /\ b_prove K R BU c r' = Ok (gens, r1cs, pf) /\
  forall v0 more, verify (v0 :: proof_file "bulletproofs" (name k) :: more) w3 = reported (b_verify K R BU gens pf r1cs [public p]).
Proof.
  intros (Lb & Bb) P B3.
  apply prove_finishes in P. destruct P as (_ & q4 & q5 & k2 & q6 & c & p & b & E & On & M & ->). injection E as _ <- E <-. apply name_inj in E. subst k2.
  inversion M as [pk' pf D Q E3 E4|t Q E3 E4|sr pf D Q E3 E4|sr pf D Q E3 E4]. clear M. subst b.
  assert (PP : proof_path (str "bulletproofs") k = proof_file "bulletproofs" (name k)) by (destruct k; vm_compute; reflexivity). rewrite PP, write_same in B3.
  destruct t as [[gens r1cs] pf]. exists gens, r1cs, c, p, pf. split; [exact On|]. split; [exact Q|]. intros v0 more. cbn [verify_main]. rewrite B3, verify_contents by (try apply Bb; eapply on_fit, On).
  change (verify_scheme K R GR SN NI BU (str "bulletproofs") (str (name k)) [public p] (b_enc K R BU (gens, r1cs, pf)) w3)
    with (Some (match b_dec K R BU (b_enc K R BU (gens, r1cs, pf)) with Some (gens, r1cs, p0) => b_verify K R BU gens p0 r1cs [public p] | None => Panic end)). rewrite Lb. reflexivity.
Qed.
Theorem bullet_alone w w' content j : jparse content = Some j -> jget j (str "scheme") = JStr (str "bulletproofs") -> vfile w content = vfile w' content.
Proof. intros Jp S. unfold verify_file. rewrite Jp, S. cbn [jstr]. reflexivity. Qed.
Theorem bullet_file w k p t : fit k p -> good_bullet BU -> vfile w (jprint (contents k (str "bulletproofs") p (b_enc K R BU t))) =
  reported (let '(gens, r1cs, pf) := t in b_verify K R BU gens pf r1cs [public p]).
Proof.
  intros F (Lb & Bb). rewrite verify_contents by (try apply Bb; exact F).
  change (verify_scheme K R GR SN NI BU (str "bulletproofs") (str (name k)) [public p] (b_enc K R BU t) w)
    with (Some (match b_dec K R BU (b_enc K R BU t) with Some (gens, r1cs, p0) => b_verify K R BU gens p0 r1cs [public p] | None => Panic end)). rewrite Lb. destruct t as [[gens r1cs] pf]. reflexivity.
Qed.
End P.
