(** Model of the digests of circuits, instances, parameters and encodings that provers and verifiers of spartan, libra and hyrax
    take as field elements and absorb first. No proofs. *)
From Verif Require Import Field Module ModelTranscript ModelLC ModelLibra ModelSigma ModelSpartan ModelSpark ModelHyrax.
From Coq Require Import String List.
Import ListNotations.
Local Open Scope string_scope.
Local Open Scope list_scope.

Section S.
Variable K : Fld.
Variable G : Grp K.
Notation tr := (transcript K G).
(** `Transcript::new(name)`, the messages in their order, then 31 bytes of "challenge_nextround" made a field element
    (spartan/src/data_structure.rs:339-346, libra/src/evaluate.rs, hyrax/src/evaluate.rs `random_bytes_to_fr`):
    an arbitrary function [h] of the name and the messages. `usize as u64` does not truncate. *)
Variable h : string -> tr -> K.

(** One term of a matrix under the labels of that matrix (spartan/src/r1cs.rs:35-39; 45-49 and 55-59 for the other two). *)
Definition term_msgs (val aux input : string) (t : K * var) : tr :=
  [MF val (fst t); match snd t with Aux i => MU aux i | Input i => MU input i end].
(** spartan/src/r1cs.rs:32-41 (42-51, 52-61): all terms of all rows. *)
Definition matrix_msgs (val aux input : string) (m : matrix K) : tr := flat_map (flat_map (term_msgs val aux input)) m.
(** The messages of spartan/src/r1cs.rs:25-66 `r1cs_to_hash`. *)
Definition r1cs_msgs (i : r1cs K) : tr :=
  [MU "num_inputs" (r_inputs K i); MU "num_aux" (r_aux K i); MU "num_constraints" (r_cons K i)] ++
  matrix_msgs "a_matrix" "a_matrix_index_aux" "a_matrix_index_input" (r_a K i) ++
  matrix_msgs "b_matrix" "b_matrix_index_aux" "b_matrix_index_input" (r_b K i) ++
  matrix_msgs "c_matrix" "c_matrix_index_aux" "c_matrix_index_input" (r_c K i).
(** spartan/src/r1cs.rs:25-66 `r1cs_to_hash`. *)
Definition r1cs_to_hash (i : r1cs K) : K := h "Spartan r1cs" (r1cs_msgs i).

(** spartan/src/data_structure.rs:25-31, hyrax/src/params.rs:107-113, libra/src/params.rs:107-113: the parameters of one commitment; the
    field `n` is the number of generators in everything that is ever built (spartan/src/setup.rs:85-97, 111-126, hyrax/src/params.rs). *)
Definition mcp_msgs (p : mcp K G) : tr :=
  [MU "MultiCommitmentParameters_n" (length (mc_gens K G p)); MG "MultiCommitmentParameters_h" (mc_h K G p)] ++
  map (MG "MultiCommitmentParameters_generators") (mc_gens K G p).
(** A u64 and the two parts of a `PolyCommitmentParameters` (spartan/src/data_structure.rs:65-67 and the like). *)
Definition pcp_msgs (l : string) (p : pcp K G) : tr := MU l (pc_n K G p) :: mcp_msgs (pc_gen_n K G p) ++ mcp_msgs (pc_gen_1 K G p).
(** hyrax/src/params.rs:27-41 `param_to_hash`; libra/src/params.rs:27-41 differs in [name]. *)
Definition hyrax_param_to_hash (name : string) (p : hparams K G) : K :=
  h name (pcp_msgs "r1cs_satisfied_params_pc_params_n" (hp_pc K G p) ++ mcp_msgs (hp_1 K G p) ++ mcp_msgs (hp_3 K G p) ++ mcp_msgs (hp_4 K G p)).
(** spartan/src/data_structure.rs:63-71 (89-97 with another label [l]); [n] is the field `n` of `R1CSSatisfiedParameters`. *)
Definition sat_msgs (l : string) (n : nat) (p : satp K G) : tr :=
  MU "r1cs_satisfied_params_n" n :: pcp_msgs l (sp_pc K G p) ++ mcp_msgs (sp_1 K G p) ++ mcp_msgs (sp_3 K G p) ++ mcp_msgs (sp_4 K G p).
(** spartan/src/data_structure.rs:61-77 `NizkParameters::param_to_hash`. *)
Definition nizk_param_to_hash (n : nat) (p : satp K G) : K := h "Spartan nizk params" (sat_msgs "r1cs_satisfied_params_pc_params_n" n p).
(** spartan/src/data_structure.rs:87-115 `SnarkParameters::param_to_hash`. *)
Definition snark_param_to_hash (n : nat) (p : snarkp K G) : K :=
  h "Spartan snark params" (sat_msgs "r1cs_satisfied_params_pc_params" n (sn_sat K G p) ++
    pcp_msgs "r1cs_eval_params_ops_params_n" (ev_ops K G (sn_evals K G p)) ++
    pcp_msgs "r1cs_eval_params_mem_params_n" (ev_mem K G (sn_evals K G p)) ++
    pcp_msgs "r1cs_eval_params_derefs_params_n" (ev_derefs K G (sn_evals K G p))).
(** spartan/src/data_structure.rs:135-153 `encode_to_hash`. *)
Definition encode_to_hash (c : enc_commit K G) : K :=
  h "Spartan EncodeCommit" ([MU "EncodeCommit_n" (ec_n K G c); MU "EncodeCommit_m" (ec_m K G c)] ++
    map (MG "EncodeCommit_ops_commit") (ec_ops K G c) ++ map (MG "EncodeCommit_mem_commit") (ec_mem K G c)).

(** hyrax/src/circuit.rs:171-176, libra/src/circuit.rs: one gate. *)
Definition gate_msgs (g : gate) : tr :=
  [MU "circuit_gate_g" (gt_g g); MU "circuit_gate_op" (gt_op g); MU "circuit_gate_left_node" (gt_l g); MU "circuit_gate_right_node" (gt_r g)].
(** hyrax/src/circuit.rs:168-177: one layer. *)
Definition layer_msgs (l : layer) : tr :=
  [MU "circuit_gate_count" (l_count l); MU "circuit_bit_size" (l_bits l)] ++ flat_map gate_msgs (l_gates l).
(** hyrax/src/circuit.rs:165-182 `circuit_to_hash`; libra/src/circuit.rs:187-206 differs in [name]. *)
Definition circuit_to_hash (name : string) (c : circuit) : K := h name (MU "circuit_depth" (c_depth c) :: flat_map layer_msgs (c_layers c)).
End S.
