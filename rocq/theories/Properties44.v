(** C111: the evaluation domains behind the proof systems. C112: the proof systems and the programs over the field of BLS12-381. *)
From Coq Require Import String Ascii ZArith Znumtheory List Lia Bool.
From Verif Require Import Field Zp Poly Module ModelTranscript ModelLC SpecLC ModelCS SpecCS ModelMimc ModelGroth16 SpecGroth16 ProofsGroth16 ModelBulletproofs ModelCli SpecCli ModelCliMain SpecCliMain ModelCliInst
  SpecMarlin Bls Lucas ModelCurve25519 ModelDomain ProofsDomain ProofsBls ProofsCliMain ExCli.
From Coq Require Import List.
Import ListNotations.
Local Open Scope Z_scope.
Section C111.
Local Open Scope fld_scope.
Theorem C111_domains : forall (K : Fld) (s : nat) (w g : K), w ^ (2 ^ s) = 1 -> (s <> O -> w ^ (2 ^ (s - 1)) <> 1) -> g <> 0 -> g ^ (2 ^ s) <> 1 -> 1 + 1 <> (0 : K) ->
  radix2 (radix2_new K s w g) /\ dom_family (radix2_new K s w g).
Proof. exact (fun K s w g A B C D E => conj (radix2_new_ok K s w g A B C D E) (radix2_new_family K s w g A B C D E)). Qed.
Theorem C111_sizes : forall (K : Fld) (s : nat) (w g : K) n,
  ((n <= 2 ^ s)%nat -> exists d, radix2_new K s w g n = Some d /\ (n <= dsize d)%nat /\ forall e, (n <= 2 ^ e)%nat -> (dsize d <= 2 ^ e)%nat) /\
  ((2 ^ s < n)%nat -> radix2_new K s w g n = None).
Proof. exact (fun K s w g n => conj (radix2_new_exact K s w g n) (radix2_new_none K s w g n)). Qed.
Theorem C111_bls : prime bls_r /\ radix2 bls_domain /\ dom_family bls_domain /\ forall n, bls_domain n <> None <-> (Z.of_nat n <= 2 ^ 32)%Z.
Proof. exact (conj bls_r_prime (conj bls_radix2 (conj bls_family bls_sizes))). Qed.
(** With the parameters of the crate curve25519 there are domains up to size four, none of which is one. *)
Theorem C111_curve25519_invalid : (forall n d, ed_domain n = Some d -> dgen d = 0 /\ ~ valid_dom d) /\ forall n, ed_domain n <> None <-> (n <= 4)%nat.
Proof. exact (conj ed_invalid ed_sizes). Qed.
End C111.
Print Assumptions C111_domains.
Print Assumptions C111_sizes.
Print Assumptions C111_bls.
Print Assumptions C111_curve25519_invalid.

Theorem C112_groth16 : forall (PR : Pairing Fbls) (circuit : M Fbls unit) s1 s2 (al be ga de t r s : Fbls) (h1 : G1 PR) (h2 : G2 PR),
  circuit (cs_new Setup) = Ok (tt, s1) -> circuit (cs_new Prove) = Ok (tt, s2) -> SpecGroth16.same_shape s1 s2 -> wf s2 -> self_sat s2 ->
  Z.of_nat (length (ModelCS.cons s2) + length (inps s2)) <= 2 ^ 32 -> ga <> f0 -> de <> f0 ->
  exists p pf, generate_parameters Fbls PR bls_domain circuit al be ga de t h1 h2 = Ok p /\ create_proof Fbls PR bls_domain p circuit r s = Ok pf /\
    verify_proof Fbls PR (prepare Fbls PR (pvk Fbls PR p)) pf (skipn 1 (inps s2)) = Ok true.
Proof. exact (fun PR c s1 s2 al be ga de t r s h1 h2 E1 E2 S W Sat D => groth16_complete Fbls bls_domain bls_family PR c s1 s2 al be ga de t r s h1 h2 E1 E2 S W Sat (proj2 (bls_sizes _) D)). Qed.
Print Assumptions C112_groth16.
(** Above 2^32 constraints and inputs the key generation refuses the circuit. *)
Theorem C112_groth16_limit : forall (s : cs Fbls) t, wf s -> 2 ^ 32 < Z.of_nat (length (ModelCS.cons s) + length (inps s)) ->
  witness_map Fbls bls_domain s = Err PolynomialDegreeTooLarge /\ instance_map Fbls bls_domain s t = Err PolynomialDegreeTooLarge.
Proof. exact bls_limit. Qed.
Print Assumptions C112_groth16_limit.
Theorem C112_serialization : lossless bls_enc bls_dec /\ in_bytes bls_enc.
Proof. exact (conj bls_lossless bls_bytes). Qed.
Print Assumptions C112_serialization.
Theorem C112_no_wrap : forall x y z, 0 <= x < 2 ^ 64 -> 0 <= y < 2 ^ 64 -> 0 <= z < 2 ^ 64 -> (fmul (of_Z x) (fadd (of_Z y) (of_Z 2)) = (of_Z z : Fbls) <-> x * (y + 2) = z).
Proof. exact bls_product. Qed.
Print Assumptions C112_no_wrap.
(** The three programs in a row, for x * (y + 2) = z with 64-bit numbers: setup, proof and a positive verdict. *)
Theorem C112_programs : forall (PR : Pairing Fbls) (R : Type) (keys : R -> gdraw Fbls PR) blinds (G : Grp Fbls) (ch : oracle Fbls G) points masks epk dpk evk dvk epf dpf enc dec
  (SN NI : univ Fbls R) nl cts jprint jparse,
  let GR := groth16_sys Fbls PR bls_domain R keys blinds epk dpk evk dvk epf dpf in let BU := bulletproofs_sys Fbls R G ch points masks enc dec in
  lossless jprint jparse -> good_groth GR ->
  forall r r' s0 p0 a b d x y z rest more w, d_gamma Fbls PR (keys r) <> f0 -> d_delta Fbls PR (keys r) <> f0 ->
  numeral a x -> numeral b y -> numeral d z -> x * (y + 2) = z -> circuit_arg rest = str "mini" ->
  exists w1 w2, setup_main Fbls nl cts R GR SN NI r (s0 :: str "groth16" :: str "bls12_381" :: rest) w = (Finished None, w1) /\
    prove_main Fbls nl cts R GR SN NI BU jprint bls_enc r' (p0 :: str "groth16" :: str "bls12_381" :: str "mini" :: a :: b :: d :: more) w1 = (Finished None, w2) /\
    forall v0 more', verify_main Fbls R GR SN NI BU jparse bls_dec (v0 :: proof_file "groth16" "mini" :: more') w2 = Finished (Some true).
Proof. exact bls_mini. Qed.
Print Assumptions C112_programs.

(** ** Examples *)
(** The hypotheses of C111_domains, met by the field of BLS12-381. *)
Example ex_C111 : bls_root <> f0 /\ (exists d, bls_domain 5 = Some d /\ dsize d = 8%nat) /\ fpow (squares Fbls 29 bls_root) 4 = of_Z (-1).
Proof.
  split; [apply by_feqb; vm_compute; reflexivity|]. split; [eexists; split; reflexivity|]. apply feqb_eq. vm_compute. reflexivity.
Qed.
Example ex_C111_curve25519 : ed_domain 3 <> None. Proof. apply ed_sizes. repeat constructor. Qed.
(** A pairing over the field, draws without zeros, encodings of keys and proofs: 3 * (4 + 2) = 18 from the command line. *)
Definition P_bls : Pairing Fbls := self_pairing Fbls.
Definition keys_bls (r : Z) : gdraw Fbls P_bls := mkDraw Fbls P_bls (of_Z 3) (of_Z 5) (of_Z 7) (of_Z 11) (of_Z r) (f1 : Fbls) (f1 : Fbls).
Definition dk_bls : dec_of Fbls := fun l => match bls_dec l with Some x => Some (x, skipn 32 l) | None => None end.
Lemma dk_bls_ok : self_delim bls_enc dk_bls.
Proof.
  intros x r. unfold dk_bls. pose proof (bls_lossless x) as E. unfold bls_dec in E |- *. cbv zeta in E |- *.
  assert (L : length (bls_enc x) = 32%nat) by apply ProofsLC.le_bytes_length. rewrite firstn_all2 in E by lia. rewrite L in E. rewrite app_length, L. cbn [Nat.add Nat.ltb Nat.leb] in E |- *.
  replace (firstn 32 (bls_enc x ++ r)) with (bls_enc x) by (rewrite <- L, firstn_app, Nat.sub_diag, firstn_all, firstn_O, app_nil_r; reflexivity).
  replace (skipn 32 (bls_enc x ++ r)) with r by (rewrite <- L, skipn_app, Nat.sub_diag, skipn_all; reflexivity).
  destruct (ModelLC.of_le_bytes (bls_enc x) <? bls_r); [|discriminate E]. f_equal. f_equal. congruence.
Qed.
Definition vk_to_b (v : vkey Fbls P_bls) : list Fbls * list Fbls := ([alpha_g1 _ _ v; beta_g2 _ _ v; gamma_g2 _ _ v; delta_g2 _ _ v], gamma_abc_g1 _ _ v).
Definition vk_of_b (p : list Fbls * list Fbls) : vkey Fbls P_bls := let n i := nth i (fst p) (f0 : Fbls) in mkVK Fbls P_bls (n 0%nat) (n 1%nat) (n 2%nat) (n 3%nat) (snd p).
Definition pk_to_b (k : params Fbls P_bls) : list Fbls * list Fbls * list Fbls * list (list Fbls) :=
  (vk_to_b (pvk _ _ k), [beta_g1 _ _ k; delta_g1 _ _ k], [a_query _ _ k; b_g1_query _ _ k; b_g2_query _ _ k; h_query _ _ k; l_query _ _ k]).
Definition pk_of_b (p : list Fbls * list Fbls * list Fbls * list (list Fbls)) : params Fbls P_bls :=
  let '(v, s, q) := p in let n i := nth i q [] in mkPar Fbls P_bls (vk_of_b v) (nth 0 s (f0 : Fbls)) (nth 1 s (f0 : Fbls)) (n 0%nat) (n 1%nat) (n 2%nat) (n 3%nat) (n 4%nat).
Definition pf_to_b (p : proof Fbls P_bls) : list Fbls := [pa _ _ p; pb _ _ p; pc _ _ p].
Definition pf_of_b (l : list Fbls) : proof Fbls P_bls := mkPrf Fbls P_bls (nth 0 l (f0 : Fbls)) (nth 1 l (f0 : Fbls)) (nth 2 l (f0 : Fbls)).
Definition el_b := elist bls_enc. Definition dl_b := dlist_all dk_bls.
Definition epk_b k := epair (epair (epair el_b el_b) el_b) (elist el_b) (pk_to_b k).
Definition dpk_b l := match dpair (dpair (dpair dl_b dl_b) dl_b) (dlist_all dl_b) l with Some (y, _) => Some (pk_of_b y) | None => None end.
Definition evk_b v := epair el_b el_b (vk_to_b v).
Definition dvk_b l := match dpair dl_b dl_b l with Some (y, _) => Some (vk_of_b y) | None => None end.
Definition epf_b p := el_b (pf_to_b p).
Definition dpf_b l := match dl_b l with Some (y, _) => Some (pf_of_b y) | None => None end.
Definition GR_b := groth16_sys Fbls P_bls bls_domain Z keys_bls (fun r => (of_Z r, of_Z (r + 1))) epk_b dpk_b evk_b dvk_b epf_b dpf_b.
Lemma good_b : good_groth GR_b.
Proof.
  assert (dl_ok : self_delim el_b dl_b) by apply dlist_ok, dk_bls_ok. repeat split.
  - apply (via pk_to_b pk_of_b); [intros [[] ? ? ? ? ? ? ?]; reflexivity|]. repeat apply dpair_ok; try apply dl_ok. apply dlist_ok, dl_ok.
  - apply (via vk_to_b vk_of_b); [intros []; reflexivity|]. apply dpair_ok; apply dl_ok.
  - apply (via pf_to_b pf_of_b); [intros []; reflexivity|]. apply dl_ok.
  - intro p. apply elist_bytes, bls_bytes.
Qed.
Example ex_C112_draws : d_gamma Fbls P_bls (keys_bls 13) <> f0 /\ d_delta Fbls P_bls (keys_bls 13) <> f0.
Proof. split; apply by_feqb; vm_compute; reflexivity. Qed.
Definition no_files : files := fun _ => None.
Lemma numeral_b s n : parse_u64 s = Some n -> numeral s n. Proof. apply parse_u64_iff. Qed.
Example ex_C112_programs : forall (SN NI : univ Fbls Z) (G : Grp Fbls) (ch : oracle Fbls G) points masks enc dec nl cts,
  let BU := bulletproofs_sys Fbls Z G ch points masks enc dec in
  exists w1 w2, setup_main Fbls nl cts Z GR_b SN NI 13 [str "setup"; str "groth16"; str "bls12_381"] no_files = (Finished None, w1) /\
    prove_main Fbls nl cts Z GR_b SN NI BU jprint97 bls_enc 14 [str "zkp-prove"; str "groth16"; str "bls12_381"; str "mini"; str "3"; str "4"; str "18"] w1 = (Finished None, w2) /\
    verify_main Fbls Z GR_b SN NI BU jparse97 bls_dec [str "zkp-verify"; proof_file "groth16" "mini"] w2 = Finished (Some true).
Proof.
  intros SN NI G ch points masks enc dec nl cts BU.
  destruct (C112_programs P_bls Z keys_bls (fun r => (of_Z r, of_Z (r + 1))) G ch points masks epk_b dpk_b evk_b dvk_b epf_b dpf_b enc dec SN NI nl cts jprint97 jparse97 json97 good_b
    13 14 (str "setup") (str "zkp-prove") (str "3") (str "4") (str "18") 3 4 18 [] [] no_files (proj1 ex_C112_draws) (proj2 ex_C112_draws)
    (numeral_b (str "3") 3 eq_refl) (numeral_b (str "4") 4 eq_refl) (numeral_b (str "18") 18 eq_refl) eq_refl eq_refl) as (w1 & w2 & A & B & C).
  exists w1, w2. split; [exact A|]. split; [exact B|]. apply C.
Qed.
