(** The proof systems of the command-line programs (ModelCliMain) filled in with the models of groth16 and bulletproofs. [R] is what
    `thread_rng` yields during one run of a program; what is drawn from it is given by functions of [R]. *)
From Coq Require Import ZArith List.
From Verif Require Import Field Poly Module ModelTranscript ModelLC ModelCS ModelGroth16 ModelBulletproofs ModelCliMain.
(** groth16/src/generator.rs:28-33, 168, 201-202: alpha, beta, gamma, delta, the point outside the domain and the two generators. *)
Record gdraw (K : PFld) (PR : Pairing K) := mkDraw { d_alpha : K; d_beta : K; d_gamma : K; d_delta : K; d_t : K; d_g1 : G1 PR; d_g2 : G2 PR }.
Section I.
Variable K : PFld.
Variable PR : Pairing K.
Variable dnew : nat -> option (dom K).
Variable R : Type.
Variable keys : R -> gdraw K PR.
Variable blinds : R -> K * K.
(** cli/src/setup.rs:31-43, zkp_prove.rs:42-48, zkp_verify.rs:58-66 with the curve's serialization. *)
Definition groth16_sys epk dpk evk dvk epf dpf : groth K R :=
  mkGroth K R (params K PR) (vkey K PR) (proof K PR)
    (fun c r => let d := keys r in generate_parameters K PR dnew c (d_alpha K PR d) (d_beta K PR d) (d_gamma K PR d) (d_delta K PR d) (d_t K PR d) (d_g1 K PR d) (d_g2 K PR d))
    (pvk K PR)
    (fun p c r => create_proof K PR dnew p c (fst (blinds r)) (snd (blinds r)))
    (fun vk pf xs => verify_proof K PR (prepare K PR vk) pf xs)
    epk dpk evk dvk epf dpf.
Variable G : Grp K.
Variable ch : oracle K G.
Variable points : R -> nat -> list G * list G * G * G * G.
Variable masks : R -> brand K.
(** zkp_prove.rs:50-57, zkp_verify.rs:68-75. *)
Definition bulletproofs_sys enc dec : bullet K R :=
  mkBullet K R (gens K G) (r1cs K) (bproof K G) (fun c r => create_random_proof K G ch c (points r) (masks r)) (bp_verify K G ch) enc dec.
End I.
