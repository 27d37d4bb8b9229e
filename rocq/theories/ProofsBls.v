(** The proof systems and the command-line programs over the scalar field of BLS12-381. *)
From Coq Require Import String Ascii ZArith List Lia Bool.
From Verif Require Import Field Zp Poly Module ModelTranscript ModelLC SpecLC ProofsLC ModelCS SpecCS ModelMimc ModelGroth16 SpecGroth16 ProofsGroth16 ModelBulletproofs ModelCli SpecCli ModelCliMain SpecCliMain ModelCliInst
  ProofsCliMain ProofsCliMain2 ProofsCliMain3 ProofsCliMain5 Bls ModelDomain ProofsDomain.
From Coq Require Import List.
Import ListNotations.
Local Open Scope Z_scope.
Lemma bls_pmod : pmod Fbls = bls_r. Proof. reflexivity. Qed.
Lemma bls_small : bls_r < 256 ^ Z.of_nat 32. Proof. vm_compute. reflexivity. Qed.
Lemma bls_lossless : lossless bls_enc bls_dec.
Proof.
  intro x. unfold bls_dec, bls_enc. cbv zeta. rewrite le_bytes_length. cbn [Nat.ltb Nat.leb].
  replace (firstn 32 (ModelLC.le_bytes 32 (toZ x))) with (ModelLC.le_bytes 32 (toZ x)) by (symmetry; apply firstn_all2; rewrite le_bytes_length; lia).
  pose proof (toZ_range x) as R. rewrite bls_pmod in R. rewrite of_le_bytes_le by (split; [apply R|exact (Z.lt_trans _ _ _ (proj2 R) bls_small)]).
  replace (toZ x <? bls_r) with true by (symmetry; apply Z.ltb_lt, R). exact (f_equal Some (of_toZ x)).
Qed.
Lemma bls_bytes : in_bytes bls_enc.
Proof. intro x. apply le_bytes_byte. Qed.
(** Products of 64-bit numbers do not wrap around in this field. *)
Lemma bls_product x y z : 0 <= x < 2 ^ 64 -> 0 <= y < 2 ^ 64 -> 0 <= z < 2 ^ 64 ->
  (fmul (of_Z x) (fadd (of_Z y) (of_Z 2)) = (of_Z z : Fbls) <-> x * (y + 2) = z).
Proof.
  intros X Y Hz. rewrite <- of_Z_add, <- of_Z_mul. split; [|intros <-; reflexivity]. intro E.
  assert (B : 2 ^ 64 * (2 ^ 64 + 2) < bls_r) by (vm_compute; reflexivity). apply of_Z_inj_small in E; rewrite ?bls_pmod; [exact E|nia|nia].
Qed.
Section K.
Variable K : PFld.
Variable PR : Pairing K.
Variable dnew : nat -> option (dom K).
Lemma generated (c_off c_on : M K unit) s1 s2 al be ga de t (h1 : G1 PR) (h2 : G2 PR) : dom_family dnew ->
  c_off (cs_new Setup) = Ok (tt, s1) -> c_on (cs_new Prove) = Ok (tt, s2) -> SpecGroth16.same_shape s1 s2 -> wf s2 -> self_sat s2 ->
  dnew (length (ModelCS.cons s2) + length (inps s2))%nat <> None -> ga <> f0 -> de <> f0 ->
  exists p, generate_parameters K PR dnew c_off al be ga de t h1 h2 = Ok p.
Proof.
  intros DF E1 E2 S W Sat D Ga De. set (c := fun s : cs K => match md s with Setup => c_off s | Prove => c_on s end).
  destruct (groth16_complete K dnew DF PR c s1 s2 al be ga de t f0 f0 h1 h2 E1 E2 S W Sat D Ga De) as (p & pf & Gp & _). exists p. exact Gp.
Qed.
Lemma mini_generated : dom_family dnew -> dnew 12%nat <> None -> forall al be ga de t (h1 : G1 PR) (h2 : G2 PR), ga <> f0 -> de <> f0 ->
  exists p, generate_parameters K PR dnew (mini K None None None 10) al be ga de t h1 h2 = Ok p.
Proof.
  intros DF D al be ga de t h1 h2 Ga De. assert (E : fmul (of_Z 0) (fadd (of_Z 0) (of_Z 2)) = (of_Z 0 : K)) by (rewrite <- of_Z_add, <- of_Z_mul; reflexivity).
  destruct (mini_honest K 0 0 0 E) as (s1 & s2 & E1 & E2 & S & W & Sat & I & _ & L & _).
  apply (generated _ _ s1 s2 al be ga de t h1 h2 DF E1 E2 S W Sat); [rewrite L, I; exact D|exact Ga|exact De].
Qed.
End K.
Lemma twelve : Z.of_nat 12 <= 2 ^ 32. Proof. vm_compute. congruence. Qed.
Section C.
Variable PR : Pairing Fbls.
Variable R : Type.
Variable keys : R -> gdraw Fbls PR.
Variable blinds : R -> Fbls * Fbls.
Variable G : Grp Fbls.
Variable ch : oracle Fbls G.
Variable points : R -> nat -> list G * list G * G * G * G.
Variable masks : R -> brand Fbls.
Variable epk : params Fbls PR -> list Z. Variable dpk : list Z -> option (params Fbls PR).
Variable evk : vkey Fbls PR -> list Z. Variable dvk : list Z -> option (vkey Fbls PR).
Variable epf : proof Fbls PR -> list Z. Variable dpf : list Z -> option (proof Fbls PR).
Variable enc : gens Fbls G * r1cs Fbls * bproof Fbls G -> list Z. Variable dec : list Z -> option (gens Fbls G * r1cs Fbls * bproof Fbls G).
Notation BU := (bulletproofs_sys Fbls R G ch points masks enc dec).
Notation GR := (groth16_sys Fbls PR bls_domain R keys blinds epk dpk evk dvk epf dpf).
Variables SN NI : univ Fbls R.
Variables (nl : nat) (cts : list Fbls).
Variable jprint : json -> list Z.
Variable jparse : list Z -> option json.
Notation setup := (setup_main Fbls nl cts R GR SN NI).
Notation prove := (prove_main Fbls nl cts R GR SN NI BU jprint bls_enc).
Notation verify := (verify_main Fbls R GR SN NI BU jparse bls_dec).
Hypothesis J : lossless jprint jparse.
Hypothesis GG : good_groth GR.
Local Opaque bls_domain Fbls.
Lemma mini_generates r : d_gamma Fbls PR (keys r) <> f0 -> d_delta Fbls PR (keys r) <> f0 -> exists p, g_gen Fbls R GR (power_off Fbls nl cts Mini) r = Ok p.
Proof.
  intros Ga De. exact (mini_generated Fbls PR bls_domain bls_family (proj2 (bls_sizes 12) twelve) _ _ _ _ _ _ _ Ga De).
Qed.
Theorem bls_mini r r' s0 p0 a b d x y z rest more w : d_gamma Fbls PR (keys r) <> f0 -> d_delta Fbls PR (keys r) <> f0 ->
  numeral a x -> numeral b y -> numeral d z -> x * (y + 2) = z -> circuit_arg rest = str "mini" ->
  exists w1 w2, setup r (s0 :: str "groth16" :: str "bls12_381" :: rest) w = (Finished None, w1) /\
    prove r' (p0 :: str "groth16" :: str "bls12_381" :: str "mini" :: a :: b :: d :: more) w1 = (Finished None, w2) /\
    forall v0 more', verify (v0 :: proof_file "groth16" "mini" :: more') w2 = Finished (Some true).
Proof.
  intros Ga De A B D E CA. destruct (mini_generates r Ga De) as (p & Gp).
  assert (St : exists w1, setup r (s0 :: str "groth16" :: str "bls12_381" :: rest) w = (Finished None, w1)).
  { eexists. apply setup_finishes. split; [reflexivity|]. exists s0, (str "groth16"), rest, Mini. split; [reflexivity|]. split; [exact CA|]. apply (makes_groth Fbls nl cts R GR SN NI r Mini w p Gp). }
  destruct St as (w1 & St). exists w1.
  assert (E' : fmul (of_Z x) (fadd (of_Z y) (of_Z 2)) = (of_Z z : Fbls)) by (rewrite <- of_Z_add, <- of_Z_mul, E; reflexivity).
  destruct (groth_mini Fbls PR bls_domain R keys blinds G ch points masks epk dpk evk dvk epf dpf enc dec nl cts SN NI jprint jparse bls_enc bls_dec J bls_lossless bls_bytes r r' s0 rest p0 a b d x y z more w w1 None GG bls_family CA St A B D E') as (w2 & P & V).
  exists w2. split; [exact St|]. split; [exact P|exact V].
Qed.
End C.
Theorem bls_limit (s : cs Fbls) t : wf s -> 2 ^ 32 < Z.of_nat (length (ModelCS.cons s) + length (inps s)) ->
  witness_map Fbls bls_domain s = Err PolynomialDegreeTooLarge /\ instance_map Fbls bls_domain s t = Err PolynomialDegreeTooLarge.
Proof.
  intros W H. apply qap_too_large; [exact W|]. destruct (bls_domain (length (ModelCS.cons s) + length (inps s))) as [d|] eqn:E; [|reflexivity]. exfalso.
  assert (N : bls_domain (length (ModelCS.cons s) + length (inps s)) <> None) by (rewrite E; discriminate). apply bls_sizes in N. lia.
Qed.
