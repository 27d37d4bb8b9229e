(** Provers of Groth16 that compute by the group operations alone: proof elements are fixed linear combinations of the elements of the key. *)
From Verif Require Import Field Poly Module ModelLC ModelCS ModelGroth16.
From Coq Require Import List.
Import ListNotations.
Local Open Scope list_scope.
Local Open Scope fld_scope.
Section S.
Variable K : Fld.
Variable PR : Pairing K.
(** Coefficients for the generator and the key elements of the first group, and of the second. *)
Record comb1 := mkC1 { c_one : K; c_alpha : K; c_beta : K; c_delta : K; c_a : list K; c_b : list K; c_abc : list K; c_h : list K; c_l : list K }.
Record comb2 := mkC2 { d_one : K; d_beta : K; d_gamma : K; d_delta : K; d_b : list K }.
Definition in1 (p : params K PR) (g : G1 PR) (s : comb1) : G1 PR :=
  gadd (gsm (c_one s) g) (gadd (gsm (c_alpha s) (alpha_g1 K PR (pvk K PR p))) (gadd (gsm (c_beta s) (beta_g1 K PR p)) (gadd (gsm (c_delta s) (delta_g1 K PR p))
  (gadd (msm (a_query K PR p) (c_a s)) (gadd (msm (b_g1_query K PR p) (c_b s)) (gadd (msm (gamma_abc_g1 K PR (pvk K PR p)) (c_abc s))
  (gadd (msm (h_query K PR p) (c_h s)) (msm (l_query K PR p) (c_l s))))))))).
Definition in2 (p : params K PR) (g : G2 PR) (s : comb2) : G2 PR :=
  gadd (gsm (d_one s) g) (gadd (gsm (d_beta s) (beta_g2 K PR (pvk K PR p))) (gadd (gsm (d_gamma s) (gamma_g2 K PR (pvk K PR p))) (gadd (gsm (d_delta s) (delta_g2 K PR (pvk K PR p)))
  (msm (b_g2_query K PR p) (d_b s))))).
(** The prover succeeds for the trapdoor (al, be, ga, de, t). *)
Definition succeeds (dnew : nat -> option (dom K)) (circuit : M K unit) (g1 : G1 PR) (g2 : G2 PR) (A : comb1) (B : comb2) (C : comb1) (xs : list K) (al be ga de t : K) : Prop :=
  exists p, generate_parameters K PR dnew circuit al be ga de t g1 g2 = Ok p /\
    verify_proof K PR (prepare K PR (pvk K PR p)) (mkPrf K PR (in1 p g1 A) (in2 p g2 B) (in1 p g1 C)) xs = Ok true.
(** A grid of trapdoors with n points t. *)
Record grid (n : nat) (als bes gas des ts : list K) : Prop := mkGrid {
  gr_al : NoDup als /\ (3 <= length als)%nat; gr_be : NoDup bes /\ (3 <= length bes)%nat; gr_ga : NoDup gas /\ (3 <= length gas)%nat /\ ~ In 0 gas;
  gr_de : NoDup des /\ (4 <= length des)%nat /\ ~ In 0 des; gr_t : NoDup ts /\ (n <= length ts)%nat }.
(** The assignment with the public inputs [xs] and the values [w] for the auxiliary variables. *)
Definition with_inputs (xs w : list K) (v : var) : K := match v with Input i => nth i (1 :: xs) 0 | Aux i => nth i w 0 end.
End S.
Arguments in1 {K PR}. Arguments in2 {K PR}. Arguments succeeds {K PR}. Arguments grid {K}. Arguments with_inputs {K}.
