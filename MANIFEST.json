{
 "claims": [
  {
   "property": "C01",
   "status": "proved",
   "theorems": [
    "C01_lc_values",
    "C01_cvar_values"
   ],
   "note": ""
  },
  {
   "property": "C02",
   "status": "proved",
   "theorems": [
    "C02_lc_ordered"
   ],
   "note": ""
  },
  {
   "property": "C03",
   "status": "proved",
   "theorems": [
    "C03_short_not_merged",
    "C03_long_merged"
   ],
   "note": "finding: repeated terms survive in short combinations"
  },
  {
   "property": "C04",
   "status": "proved",
   "theorems": [
    "C04_index_roundtrip",
    "C04_index_not_canonical",
    "C04_index_short"
   ],
   "note": "finding: non-canonical tag bytes decode"
  },
  {
   "property": "C05",
   "status": "proved",
   "theorems": [
    "C05_alloc_bit",
    "C05_alloc_input_bit",
    "C05_alloc_conditionally"
   ],
   "note": "statement form spec is in SpecCS.v"
  },
  {
   "property": "C06",
   "status": "proved",
   "theorems": [
    "C06_xor",
    "C06_and",
    "C06_and_not",
    "C06_nor",
    "C06_not"
   ],
   "note": ""
  },
  {
   "property": "C07",
   "status": "proved",
   "theorems": [
    "C07_enforce_equal",
    "C07_different_constants"
   ],
   "note": "exact characterisation of the satisfying assignments"
  },
  {
   "property": "C08",
   "status": "proved",
   "theorems": [
    "C08_ch",
    "C08_maj"
   ],
   "note": ""
  },
  {
   "property": "C09",
   "status": "proved",
   "theorems": [
    "C09_constant",
    "C09_alloc",
    "C09_rotr",
    "C09_from_bits",
    "C09_from_bits_be",
    "C09_other_lengths_panic"
   ],
   "note": ""
  },
  {
   "property": "C10",
   "status": "proved",
   "theorems": [
    "C10_shr",
    "C10_shr_by_32_is_identity"
   ],
   "note": "finding: shift amounts are reduced mod 32, so a shift by 32 is the identity"
  },
  {
   "property": "C11",
   "status": "proved",
   "theorems": [
    "C11_xor",
    "C11_ch",
    "C11_maj"
   ],
   "note": ""
  },
  {
   "property": "C12",
   "status": "proved",
   "theorems": [
    "C12_addmany",
    "C12_addmany_batched",
    "C12_addmany_panics"
   ],
   "note": "field needs modulus_bits >= 64, the guard the code itself asserts; other operand counts proved to panic"
  },
  {
   "property": "C13",
   "status": "proved",
   "theorems": [
    "C13_multieq"
   ],
   "note": ""
  },
  {
   "property": "C14",
   "status": "proved",
   "theorems": [
    "C14_zero_width_dropped",
    "C14_unequal_accepted"
   ],
   "note": "finding: equalities declared with width zero never become constraints"
  },
  {
   "property": "C15",
   "status": "proved",
   "theorems": [
    "C15_exact",
    "C15_honest",
    "C15_runs"
   ],
   "note": ""
  },
  {
   "property": "C16",
   "status": "proved",
   "theorems": [
    "C16_wraps",
    "C16_width_unchecked"
   ],
   "note": "finding: operands are not range-checked and the width input is a free public input"
  },
  {
   "property": "C17",
   "status": "proved",
   "theorems": [
    "C17_lookup1_unsound"
   ],
   "note": "finding: table entries are allocated as unconstrained private variables"
  },
  {
   "property": "C18",
   "status": "proved",
   "theorems": [
    "C18_lookup2_x",
    "C18_lookup2_xy",
    "C18_lookup3_x",
    "C18_lookup3_xy",
    "C18_wrong_lengths_panic"
   ],
   "note": ""
  },
  {
   "property": "C19",
   "status": "proved",
   "theorems": [
    "C19_roots_agree"
   ],
   "note": ""
  },
  {
   "property": "C20",
   "status": "proved",
   "theorems": [
    "C20_proof_verifies",
    "C20_out_of_range",
    "C20_overflow"
   ],
   "note": "finding: leaf indices near 2^32 wrap in builds without overflow checks"
  },
  {
   "property": "C21",
   "status": "proved",
   "theorems": [
    "C21_binding"
   ],
   "note": ""
  },
  {
   "property": "C22",
   "status": "proved",
   "theorems": [
    "C22_root_is_a_leaf",
    "C22_inner_node_is_a_leaf",
    "C22_index_not_bound"
   ],
   "note": "finding: proof length is not tied to the index"
  },
  {
   "property": "C23",
   "status": "proved",
   "theorems": [
    "C23_circuit",
    "C23_block"
   ],
   "note": ""
  },
  {
   "property": "C24",
   "status": "proved",
   "theorems": [
    "C24_partial_blocks_collide",
    "C24_partial_block_is_zero",
    "C24_noncanonical_block_is_zero",
    "C24_empty_panics",
    "C24_field_elements"
   ],
   "note": "finding: partial and non-canonical blocks are absorbed as zero, giving trivial collisions; empty input panics; canonical field-element input is hashed as specified"
  },
  {
   "property": "C25",
   "status": "proved",
   "theorems": [
    "C25_image_unbound"
   ],
   "note": "finding: the public image is not constrained"
  },
  {
   "property": "C26",
   "status": "proved",
   "theorems": [
    "C26_sha256_circuit",
    "C26_block_circuit",
    "C26_unaligned_panics"
   ],
   "note": "field needs modulus_bits >= 64, the guard the code itself asserts in addmany"
  },
  {
   "property": "C27",
   "status": "proved",
   "theorems": [
    "C27_blake2s_circuit",
    "C27_misuse_panics"
   ],
   "note": "field needs modulus_bits >= 64, the guard the code itself asserts in addmany"
  },
  {
   "property": "C28",
   "status": "proved",
   "theorems": [
    "C28_nothing_enforced",
    "C28_no_siblings",
    "C28_setup_without_values_fails"
   ],
   "note": "finding: with at least one sibling the circuit constrains none of the existing variables; also key generation without dummy values fails"
  },
  {
   "property": "C29",
   "status": "proved",
   "theorems": [
    "C29_native_power",
    "C29_power_circuit",
    "C29_power_unbound",
    "C29_rescue_honest_output_constant",
    "C29_poseidon_honest_output_zero"
   ],
   "note": "finding: the accumulator of the power circuit starts at an unconstrained zero, so honest outputs are constant and the power is not enforced"
  },
  {
   "property": "C30",
   "status": "proved",
   "theorems": [
    "C30_quotient_exact",
    "C30_reduction_sound",
    "C30_too_many_constraints"
   ],
   "note": "evaluation domains are any family satisfying valid_dom; FFTs are modelled by their defining formulas"
  },
  {
   "property": "C31",
   "status": "proved",
   "theorems": [
    "C31_honest_proofs_verify"
   ],
   "note": "Setup and Prove runs are assumed to emit the same constraints (same_shape); evaluation domains are any family of multiplicative cosets satisfying the documented contract; FFTs are modelled by their defining formulas"
  },
  {
   "property": "C32",
   "status": "proved",
   "theorems": [
    "C32_wrong_arity_refused",
    "C32_acceptance_exact",
    "C32_same_key_sum"
   ],
   "note": ""
  },
  {
   "property": "C33",
   "status": "proved",
   "theorems": [
    "C33_ipp_complete",
    "C33_ipp_exact"
   ],
   "note": "challenges nonzero and the opening lengths a power of two are hypotheses; the second theorem gives the verifier's exact answer on any honestly made proof"
  },
  {
   "property": "C34",
   "status": "proved",
   "theorems": [
    "C34_forgery"
   ],
   "note": "finding: the inner product proof is checked against a commitment supplied in the proof and never compared with the opened vectors or t_x"
  },
  {
   "property": "C35",
   "status": "proved",
   "theorems": [
    "C35_last_coefficient_kept",
    "C35_repeated_term_forgotten",
    "C35_exact_without_repetitions",
    "C35_relation_changed_refuted"
   ],
   "note": "finding: dense rows are assigned, not accumulated; the witness exhibits a true statement that becomes unprovable and a false one that is proved"
  },
  {
   "property": "C36",
   "status": "proved",
   "theorems": [
    "C36_single_complete",
    "C36_multi_complete",
    "C36_batch_complete",
    "C36_degree_bound_enforced",
    "C36_constants_rejected",
    "C36_largest_hiding_bound"
   ],
   "note": "Single, multi-polynomial and batched completeness. Findings: constants refused (DegreeIsZero); hiding bound = supported degree + 1 passes check_hiding_bound (compared with the number of powers) but its randomness has one coefficient too many, so openings are refused."
  },
  {
   "property": "C37",
   "status": "proved",
   "theorems": [
    "C37_binding_relation",
    "C37_extract",
    "C37_one_value_per_proof"
   ],
   "note": "The pairing against h is assumed injective (true for a prime-order pairing and h <> 0). Hardness itself is not modelled."
  },
  {
   "property": "C38",
   "status": "proved",
   "theorems": [
    "C38_balance_preserves_relation",
    "C38_release_total",
    "C38_debug_panics",
    "C38_matrices_are_the_circuit"
   ],
   "note": "Finding: a debug build (overflow checks) panics exactly when A is denser than B; release builds wrap and balance correctly."
  },
  {
   "property": "C39",
   "status": "proved",
   "theorems": [
    "C39_placement",
    "C39_exact_for_powers_of_two",
    "C39_displaced_otherwise",
    "C39_prover_panics",
    "C39_honest_proof_rejected_refuted"
   ],
   "note": "Finding. C39_honest_proof_rejected_refuted gives a satisfied circuit with three inputs whose honest proof is rejected; C39_prover_panics the exact panic condition."
  },
  {
   "property": "C40",
   "status": "proved",
   "theorems": [
    "C40_open_verifies",
    "C40_verify_equation",
    "C40_single_exact"
   ],
   "note": ""
  },
  {
   "property": "C41",
   "status": "proved",
   "theorems": [
    "C41_update_commit",
    "C41_update_proof"
   ],
   "note": "finding: update_commit divides by the size the caller passes; a size other than the domain size silently changes the applied delta"
  },
  {
   "property": "C42",
   "status": "proved",
   "theorems": [
    "C42_aggregate",
    "C42_aggregate_empty"
   ],
   "note": ""
  },
  {
   "property": "C43",
   "status": "proved",
   "theorems": [
    "C43_wire_permutation",
    "C43_order_irrelevant"
   ],
   "note": "For the model's slots; every visiting order of the variable map gives the same table."
  },
  {
   "property": "C44",
   "status": "proved",
   "theorems": [
    "C44_grand_product_closes"
   ],
   "note": ""
  },
  {
   "property": "C45",
   "status": "proved",
   "theorems": [
    "C45_gates",
    "C45_assignment",
    "C45_padding"
   ],
   "note": ""
  },
  {
   "property": "C46",
   "status": "proved",
   "theorems": [
    "C46_quad_split",
    "C46_chunk_sizes"
   ],
   "note": ""
  },
  {
   "property": "C47",
   "status": "proved",
   "theorems": [
    "C47_roundtrip",
    "C47_decode_exact",
    "C47_odd_rejected",
    "C47_upper_case_same",
    "C47_plus_same",
    "C47_ascii_never_panics",
    "C47_no_panic_refuted"
   ],
   "note": "finding: decoding is not canonical and panics on some non-ASCII strings"
  },
  {
   "property": "C48",
   "status": "proved",
   "theorems": [
    "C48_success_exact",
    "C48_success_exact_vector",
    "C48_error_codes",
    "C48_codes"
   ],
   "note": "decoders and verification are arbitrary functions; the scripts differ only in the public data's shape"
  },
  {
   "property": "C49",
   "status": "proved",
   "theorems": [
    "C49_key_cell_ignored",
    "C49_success_exact",
    "C49_every_statement_accepted"
   ],
   "note": "finding"
  },
  {
   "property": "C50",
   "status": "proved",
   "theorems": [
    "C50_fresh",
    "C50_sequence",
    "C50_bits",
    "C50_booleans",
    "C50_field_elements",
    "C50_lookups",
    "C50_rangeproof",
    "C50_mimc",
    "C50_sponges",
    "C50_words",
    "C50_sha256",
    "C50_blake2s",
    "C50_membership_needs_witness",
    "C50_addmany_diverges"
   ],
   "note": "Finding: UInt32::addmany on shifted partly-constant words emits different constraints in setup and proving; set_membership cannot be set up without a witness."
  },
  {
   "property": "C51",
   "status": "proved",
   "theorems": [
    "C51_inputize",
    "C51_isnonzero",
    "C51_isnonzero_refuses_zero"
   ],
   "note": ""
  },
  {
   "property": "C52",
   "status": "proved",
   "theorems": [
    "C52_rescue_output_unbound",
    "C52_poseidon_output_unbound",
    "C52_partial_blocks_collide",
    "C52_empty_panics"
   ],
   "note": "finding: public outputs of the Rescue and Poseidon circuits are unconstrained"
  },
  {
   "property": "C53",
   "status": "proved",
   "theorems": [
    "C53_exported_digest_unbound"
   ],
   "note": "finding: the variables hash_enforce exports are fresh bits not tied to the computed digest"
  },
  {
   "property": "C54",
   "status": "proved",
   "theorems": [
    "C54_proofs_are_malleable"
   ],
   "note": "finding: accepted proofs can be transformed into other accepted proofs"
  },
  {
   "property": "C55",
   "status": "proved",
   "theorems": [
    "C55_some_bad_proofs_panic",
    "C55_wrong_arity_panics"
   ],
   "note": "finding: assertion inside verification; arity is not checked before indexing"
  },
  {
   "property": "C56",
   "status": "proved",
   "theorems": [
    "C56_honest_proofs_verify",
    "C56_honest_proofs_verify_matrices"
   ],
   "note": "generator lists of the padded length; oracle never answers zero"
  },
  {
   "property": "C57",
   "status": "proved",
   "theorems": [
    "C57_key_not_pinned"
   ],
   "note": "finding: nothing ties the key cell to an intended circuit (script arguments are not read)"
  },
  {
   "property": "C58",
   "status": "proved",
   "theorems": [
    "C58_exit_status_blind"
   ],
   "note": "finding"
  },
  {
   "property": "C59",
   "status": "proved",
   "theorems": [
    "C59_marlin_complete"
   ],
   "note": "Assumes the public input count (with the constant) is a power of two (see C39), nonzero blinding coefficients, and fewer than 2^64 matrix entries. Success of indexing and proving is a hypothesis: both fail for constant index polynomials (see C36)."
  },
  {
   "property": "C60",
   "status": "proved",
   "theorems": [
    "C60_forgery_always_verifies",
    "C60_soundness_refuted"
   ],
   "note": "Finding: soundness break. The forged proof is rejected only if the challenges alpha, beta lie in the domain H, which the code's rejection sampling excludes."
  },
  {
   "property": "C61",
   "status": "proved",
   "theorems": [
    "C61_position_binding"
   ],
   "note": ""
  },
  {
   "property": "C62",
   "status": "proved",
   "theorems": [
    "C62_lengths_not_checked"
   ],
   "note": "finding: no length check"
  },
  {
   "property": "C63",
   "status": "proved",
   "theorems": [
    "C63_upk_exact"
   ],
   "note": ""
  },
  {
   "property": "C64",
   "status": "proved",
   "theorems": [
    "C64_repeated_positions_panic",
    "C64_repeated_aggregate_panics",
    "C64_key_gen_total"
   ],
   "note": "finding: repeated positions panic instead of returning an error"
  },
  {
   "property": "C65",
   "status": "proved",
   "theorems": [
    "C65_completeness",
    "C65_prover_total"
   ],
   "note": ""
  },
  {
   "property": "C66",
   "status": "proved",
   "theorems": [
    "C66_forgery"
   ],
   "note": "Finding: forgery for every circuit and public input."
  },
  {
   "property": "C67",
   "status": "proved",
   "theorems": [
    "C67_soundness",
    "C67_relations"
   ],
   "note": "Special soundness against the ideal commitment with the round structure enforced; keygen does not check that the cosets k_j H are disjoint, which is a hypothesis here."
  },
  {
   "property": "C68",
   "status": "proved",
   "theorems": [
    "C68_witness_evaluations"
   ],
   "note": "Finding: no zero knowledge."
  },
  {
   "property": "C69",
   "status": "proved",
   "theorems": [
    "C69_few_commitments_panic",
    "C69_extra_lists_ignored",
    "C69_long_input_panics",
    "C69_missing_evaluations",
    "C69_zeta_one_panics"
   ],
   "note": "Finding: panics reachable from untrusted proofs."
  },
  {
   "property": "C70",
   "status": "proved",
   "theorems": [
    "C70_oracle_soundness",
    "C70_oracle_completeness",
    "C70_verify_exact"
   ],
   "note": "soundness of the interactive oracle protocol with truthful evaluations; binding of the commitments and Fiat-Shamir are outside the model, and C60 shows that the composed verifier is not sound"
  },
  {
   "property": "C71",
   "status": "proved",
   "theorems": [
    "C71_extension_unique",
    "C71_eval_value",
    "C71_eval_eq",
    "C71_eval_eq_x_y",
    "C71_combine_with_r",
    "C71_bound_poly_var_bot"
   ],
   "note": ""
  },
  {
   "property": "C72",
   "status": "proved",
   "theorems": [
    "C72_sparse_evaluate_value",
    "C72_what_it_computes"
   ],
   "note": "Finding: interior zeros shift the later entries, so the value is wrong."
  },
  {
   "property": "C73",
   "status": "proved",
   "theorems": [
    "C73_circuit_new",
    "C73_evaluate",
    "C73_layout_differs",
    "C73_layout_split",
    "C73_layout_same"
   ],
   "note": "Finding: the two paddings are swapped in Circuit::evaluate, so public inputs are misplaced when the counts differ."
  },
  {
   "property": "C74",
   "status": "proved",
   "theorems": [
    "C74_gkr_complete",
    "C74_prover_panics"
   ],
   "note": ""
  },
  {
   "property": "C75",
   "status": "proved",
   "theorems": [
    "C75_gates_ignored",
    "C75_forgery",
    "C75_forged_accepted",
    "C75_accepting_checks"
   ],
   "note": "Finding: the wiring predicates are never evaluated by the plain verifier; every output can be forged."
  },
  {
   "property": "C76",
   "status": "proved",
   "theorems": [
    "C76_knowledge_complete",
    "C76_product_complete",
    "C76_eq_complete",
    "C76_round_complete",
    "C76_knowledge_sound",
    "C76_product_sound",
    "C76_eq_sound",
    "C76_round_sound"
   ],
   "note": "Special soundness as an existence statement over two accepting runs; no probability argument. Spartan's fourth protocol (sum-check round) extracts one combined equation per pair (w0, w1)."
  },
  {
   "property": "C77",
   "status": "proved",
   "theorems": [
    "C77_evaluation_exact",
    "C77_prover_total"
   ],
   "note": "Completeness and exactness for the honest folding; knowledge soundness of the folding is not claimed here."
  },
  {
   "property": "C78",
   "status": "proved",
   "theorems": [
    "C78_honest_needs_luck",
    "C78_forgery"
   ],
   "note": "finding: transcript mismatch, product instead of sum, and a forgery for any claimed value."
  },
  {
   "property": "C79",
   "status": "proved",
   "theorems": [
    "C79_generate",
    "C79_same_instance",
    "C79_matrix_vector",
    "C79_vector_matrix",
    "C79_matrix_extension",
    "C79_list_form"
   ],
   "note": ""
  },
  {
   "property": "C80",
   "status": "proved",
   "theorems": [
    "C80_exact",
    "C80_complete",
    "C80_prover_total",
    "C80_rounds_accepted",
    "C80_accepting_checks"
   ],
   "note": "finding: honest proofs are rejected when a zero public input precedes a non-zero one (the verifier deletes zeros before evaluating), see ex_C80"
  },
  {
   "property": "C81",
   "status": "proved",
   "theorems": [
    "C81_nizk_forgery"
   ],
   "note": "finding: forged proofs are accepted for every statement"
  },
  {
   "property": "C82",
   "status": "proved",
   "theorems": [
    "C82_timestamps",
    "C82_timestamps_panic",
    "C82_checking"
   ],
   "note": "Finding: lists of one entry (each matrix has at most one nonzero coefficient) make the prover panic. Coq names: accesses_ok, stamps_of, times, finger in SpecSpark.v."
  },
  {
   "property": "C83",
   "status": "proved",
   "theorems": [
    "C83_product"
   ],
   "note": ""
  },
  {
   "property": "C84",
   "status": "proved",
   "theorems": [
    "C84_encode",
    "C84_complete",
    "C84_total",
    "C84_panics",
    "C84_verdict"
   ],
   "note": "finding: circuits with at most one nonzero entry per matrix make the prover panic; an invalid evaluation proof makes the verifier panic. Completeness is conditional on the trailing-zero condition on public inputs found in C80."
  },
  {
   "property": "C85",
   "status": "proved",
   "theorems": [
    "C85_evaluation",
    "C85_snark",
    "C85_never",
    "C85_checks"
   ],
   "note": "finding: the evaluation proof does not bind the matrices; together with the forgery of C81 every statement is accepted"
  },
  {
   "property": "C86",
   "status": "proved",
   "theorems": [
    "C86_forgery",
    "C86_false_statement",
    "C86_never_false"
   ],
   "note": "finding: the zero-knowledge sum-check of hyrax takes the initial claim from the proof"
  },
  {
   "property": "C87",
   "status": "proved",
   "theorems": [
    "C87_complete",
    "C87_total",
    "C87_panics",
    "C87_one_instance"
   ],
   "note": "finding: (c) and (d) - the prover panics for a layer wider than the one below (zk_sumcheck_proof.rs:431 indexes with log_g where log_ng is meant), for gate counts that are not powers of two, for witnesses that do not pad to half of the input layer, and both sides panic for one instance; ex_C87_rejected: without the hypothesis on lengths in (a) an honest proof can be rejected (the evaluator pads the two halves of the input layer crosswise, C73)"
  },
  {
   "property": "C88",
   "status": "proved",
   "theorems": [
    "C88_layer_special_sound"
   ],
   "note": ""
  },
  {
   "property": "C89",
   "status": "proved",
   "theorems": [
    "C89_layer_sound",
    "C89_sumcheck_sound",
    "C89_layer_polynomial",
    "C89_few_combinations"
   ],
   "note": "the link between a layer's claim and the commitment comm_a0 of its proof is missing in the code (C86), so this does not extend to the whole protocol"
  },
  {
   "property": "C90",
   "status": "proved",
   "theorems": [
    "C90_complete",
    "C90_total",
    "C90_panics",
    "C90_padding",
    "C90_padding_exact",
    "C90_input_layer_only"
   ],
   "note": "finding: honest proofs with fewer inputs than witnesses are rejected (padding of Circuit::evaluate and of the verifier differ); layers of one gate and witness vectors that are not exactly S long make the prover panic"
  },
  {
   "property": "C91",
   "status": "proved",
   "theorems": [
    "C91_round",
    "C91_rounds",
    "C91_sound"
   ],
   "note": "Extraction in Type; the extractor gets the rewound answers as input, probabilities are not modelled."
  },
  {
   "property": "C92",
   "status": "proved",
   "theorems": [
    "C92_layers"
   ],
   "note": "Extraction in Type; linked to the input layer and the witness commitment only through the last values x, y."
  },
  {
   "property": "C93",
   "status": "proved",
   "theorems": [
    "C93_extract",
    "C93_sound",
    "C93_eval",
    "C93_verifiers",
    "C93_void"
   ],
   "note": "Special soundness: the tree of runs is a hypothesis (what a rewinding extractor collects), its existence with good probability is not modelled. Finding: the round count is chosen by the prover, so a proof without rounds is accepted for any commitments at a point with a coordinate 1 in its second half (C93_void)."
  },
  {
   "property": "C94",
   "status": "proved",
   "theorems": [
    "C94_sound"
   ],
   "note": "Combines C91-C93 over the whole verifier. The rewound runs are hypotheses; how a prover is rewound and with which probability is not modelled. The number of row commitments is not checked by the code: missing rows count as zeros, surplus ones are ignored."
  },
  {
   "property": "C95",
   "status": "proved",
   "theorems": [
    "C95_sound",
    "C95_complete"
   ],
   "note": "Strategies are coefficient vectors fixed before the trapdoor (generic/algebraic provers); success on a grid of trapdoors is the combinatorial form of 'with more than negligible probability'. No computational assumption is modelled."
  },
  {
   "property": "C96",
   "status": "proved",
   "theorems": [
    "C96_coins",
    "C96_witnesses",
    "C96_simulator"
   ],
   "note": "Uniform coins are assumed; that the sampling of r and s in create_random_proof is uniform is not modelled. delta nonzero is what generate_parameters needs to succeed."
  },
  {
   "property": "C97",
   "status": "proved",
   "theorems": [
    "C97_commitment",
    "C97_knowledge",
    "C97_equality",
    "C97_product",
    "C97_evaluation",
    "C97_log_dot",
    "C97_rounds"
   ],
   "note": "Honest-verifier style statement for every fixed challenge function: the simulator is 'choose a uniform accepted proof', and needs to program the oracle to do so without the witness. Uniform coins are assumed of the caller's RNG. The linear DotProductProof is left out: it is neither complete nor sound (C78)."
  },
  {
   "property": "C98",
   "status": "proved",
   "theorems": [
    "C98_coins",
    "C98_witnesses"
   ],
   "note": "Perfect witness indistinguishability in full, and the count behind perfect zero-knowledge: accepted proofs for the true output correspond one to one to the choices of the coins. It holds for each fixed challenge function. A simulator that outputs accepted proofs without any witness has to choose the challenges (program the random oracle); that simulator is not modelled. That the coins are uniform and independent is an assumption on the generator passed to the prover (the code draws them from it; see DESIGN.md)."
  },
  {
   "property": "C99",
   "status": "proved",
   "theorems": [
    "C99_nizk",
    "C99_recover",
    "C99_snark"
   ],
   "note": "Finding: R1CSSatProof.w_ry carries the evaluation of the private assignment in the clear (prover.rs:376-380, 410), although commit_ry and product_proof exist to hide it; the verifier ignores it. Removing the field would make the satisfiability proof perfectly zero-knowledge, which C99_nizk shows by the unique coins for the other circuit."
  },
  {
   "property": "C100",
   "status": "proved",
   "theorems": [
    "C100_even",
    "C100_narrow",
    "C100_narrow_two"
   ],
   "note": "finding: the commitments to the values of the third sum-check of a layer reuse blinds of the second when the layer is narrower than the one below (zk_sumcheck_proof.rs:431 uses log_g for log_ng), so a combination of inner values is shown in the exponent; with equal widths the proofs are perfectly witness-hiding"
  },
  {
   "property": "C101",
   "status": "proved",
   "theorems": [
    "C101_instances",
    "C101_merged",
    "C101_collision",
    "C101_circuits",
    "C101_hyrax_parameters",
    "C101_nizk_parameters",
    "C101_snark_parameters",
    "C101_encodings"
   ],
   "note": "finding: spartan/src/r1cs.rs:32-61 hashes matrix terms without row boundaries, so different constraint systems share a digest; the other digests are injective"
  },
  {
   "property": "C102",
   "status": "proved",
   "theorems": [
    "C102_bulletproofs",
    "C102_matrices"
   ],
   "note": "The oracle answers depend on the transcript only; the proof keeps the whole transcript equal, so the inner-product argument inside is literally the same. C102_matrices is the form without the no-repetition hypothesis, for the statement the matrices express (C35). Soundness is C34 (forgeries exist), so this is the privacy half only."
  },
  {
   "property": "C103",
   "status": "proved",
   "theorems": [
    "C103_refines_the_provers",
    "C103_panics_exactly_on_names",
    "C103_paths_unambiguous",
    "C103_namespace_entered_once",
    "C103_names_distinct",
    "C103_get",
    "C103_set",
    "C103_set_panics",
    "C103_first_violated",
    "C103_satisfied",
    "C103_verify",
    "C103_constant_can_be_set",
    "C103_num_constraints"
   ],
   "note": "findings: the constant ONE can be overwritten by set; the trait's num_constraints is todo!(). pretty_print is not modelled."
  },
  {
   "property": "C104",
   "status": "proved",
   "theorems": [
    "C104_normal_form",
    "C104_digest"
   ],
   "note": "The hash function is a parameter; equality is of the hashed bytes (equal for every hash function)."
  },
  {
   "property": "C105",
   "status": "proved",
   "theorems": [
    "C105_marlin_witness_indistinguishable"
   ],
   "note": "Runs that end in an error or a panic (a degenerate draw: constant or zero polynomial) are outside the statement. The trapdoor and the discrete logarithm between the two generators appear only in the bijection. Of an opening the view counts a blinding value that is left out as zero."
  },
  {
   "property": "C106",
   "status": "proved",
   "theorems": [
    "C106_marlin_seed_binds",
    "C106_marlin_draws",
    "C106_plonk_seed_binds"
   ],
   "note": "Everything up to the hash function; the hash (merlin or the digest D), ChaCha and sampling stay arbitrary. Byte encodings of field and group elements enter as hypotheses (fixed length, injective)."
  },
  {
   "property": "C107",
   "status": "proved",
   "theorems": [
    "C107_setup",
    "C107_prove",
    "C107_groth_verdict",
    "C107_snark_verdict",
    "C107_nizk_verdict",
    "C107_bulletproofs_verdict",
    "C107_mini",
    "C107_numbers"
   ],
   "note": "The three command-line programs as functions of arguments, files and randomness; serde_json and the serializations are any lossless ones."
  },
  {
   "property": "C108",
   "status": "proved",
   "theorems": [
    "C108_groth_mini",
    "C108_groth_hash",
    "C108_any_image_accepted",
    "C108_bulletproofs_mini",
    "C108_anything_accepted",
    "C108_no_other_file",
    "C108_short_arguments"
   ],
   "note": "Findings: the hash circuit's image is unconstrained, so any image is accepted under groth16; a bulletproofs proof file carries its own generators and circuit, so anything is accepted; too few arguments panic."
  },
  {
   "property": "C109",
   "status": "proved",
   "theorems": [
    "C109_field",
    "C109_constants_wrong",
    "C109_generator_is_square",
    "C109_legendre",
    "C109_squares_missed",
    "C109_small_squares_missed",
    "C109_nonsquare_accepted"
   ],
   "note": "Finding: wrong exponents in fr.rs; legendre and sqrt answer wrongly for all but a few elements. Nothing in the repository calls them on this field."
  },
  {
   "property": "C110",
   "status": "proved",
   "theorems": [
    "C110_mul_assign",
    "C110_affine_mul",
    "C110_affine_mul_scalar",
    "C110_projective_mul",
    "C110_sums",
    "C110_cofactor",
    "C110_write_read",
    "C110_serialized_size",
    "C110_deserialize",
    "C110_no_roundtrip"
   ],
   "note": "Finding: serialize and deserialize are not inverse. Relies on ark_serialize 0.2's instance for slices, which writes the length first."
  },
  {
   "property": "C111",
   "status": "proved",
   "theorems": [
    "C111_domains",
    "C111_sizes",
    "C111_bls",
    "C111_curve25519_invalid"
   ],
   "note": "Discharges the hypotheses dom_family and radix2 of other claims for the field of BLS12-381. Finding: no valid domain over curve25519's field. The constructor is ark_poly's, not in the repository."
  },
  {
   "property": "C112",
   "status": "proved",
   "theorems": [
    "C112_groth16",
    "C112_groth16_limit",
    "C112_serialization",
    "C112_no_wrap",
    "C112_programs"
   ],
   "note": "Field, domains and element serialization are concrete; pairing, randomness, json and point serialization are arbitrary."
  },
  {
   "property": "C113",
   "status": "proved",
   "theorems": [
    "C113_rescue_honest",
    "C113_poseidon_honest",
    "C113_rescue_setup_panics",
    "C113_poseidon_setup_panics",
    "C113_rescue_missing",
    "C113_poseidon_missing"
   ],
   "note": "key generation without a preimage panics"
  },
  {
   "property": "C114",
   "status": "proved",
   "theorems": [
    "C114_rescue_unbound",
    "C114_poseidon_unbound",
    "C114_inverse_in_bn",
    "C114_inverse_in_bls_refuted"
   ],
   "note": "finding: example circuits leave the matrix, accumulators and capacity unconstrained; INVALPH is the inverse of 5 for another curve's scalar field"
  },
  {
   "property": "C115",
   "status": "proved",
   "theorems": [
    "C115_merge",
    "C115_prover_run",
    "C115_tree",
    "C115_same_circuit",
    "C115_groth16_accepts",
    "C115_missing_values"
   ],
   "note": "the limb count nl is a parameter with modulus <= 2^(64 nl); the bytes hashed natively are those of both elements"
  },
  {
   "property": "C116",
   "status": "proved",
   "theorems": [
    "C116_any_root_accepted",
    "C116_any_root_satisfiable",
    "C116_path_length",
    "C116_one_key_for_all_leaves"
   ],
   "note": "finding: the hash gadget's exported variables are not tied to the hash, so the example verifies false roots; trees whose size is not a power of two need several keys"
  },
  {
   "property": "C117",
   "status": "proved",
   "theorems": [
    "C117_prover_run",
    "C117_true_root",
    "C117_tree",
    "C117_same_circuit",
    "C117_groth16_accepts",
    "C117_missing_values"
   ],
   "note": ""
  },
  {
   "property": "C118",
   "status": "proved",
   "theorems": [
    "C118_any_root_satisfiable",
    "C118_any_root_accepted",
    "C118_short_roots"
   ],
   "note": "finding: digest bits of hash_enforce are unconstrained"
  },
  {
   "property": "C119",
   "status": "proved",
   "theorems": [
    "C119_info_round_trip",
    "C119_info_local",
    "C119_info_size",
    "C119_info_truncated"
   ],
   "note": ""
  },
  {
   "property": "C120",
   "status": "proved",
   "theorems": [
    "C120_round_trip",
    "C120_local",
    "C120_truncated",
    "C120_prefix_free",
    "C120_sizes",
    "C120_key_sizes"
   ],
   "note": ""
  },
  {
   "property": "C121",
   "status": "proved",
   "theorems": [
    "C121_trailing_bytes",
    "C121_compressed_proofs_refused"
   ],
   "note": "finding: compressed proofs of the command line program cannot be read by the on-chain script; trailing bytes are ignored"
  },
  {
   "property": "C122",
   "status": "proved",
   "theorems": [
    "C122_slices",
    "C122_sums",
    "C122_generated",
    "C122_conversions",
    "C122_default_keys_refuse"
   ],
   "note": ""
  },
  {
   "property": "C123",
   "status": "proved",
   "theorems": [
    "C123_wrong_constants_panic",
    "C123_circuit",
    "C123_same_relation",
    "C123_accepted"
   ],
   "note": ""
  },
  {
   "property": "C124",
   "status": "proved",
   "theorems": [
    "C124_images_not_public",
    "C124_statement_fixed"
   ],
   "note": "finding: the image is private, contrary to the comment in the source"
  },
  {
   "property": "C125",
   "status": "proved",
   "theorems": [
    "C125_setup",
    "C125_complete",
    "C125_forgery",
    "C125_mimc_example"
   ],
   "note": "contains the finding of C60 for this field"
  },
  {
   "property": "C126",
   "status": "proved",
   "theorems": [
    "C126_index_refuses",
    "C126_bits_refused"
   ],
   "note": "finding: circuits without right-hand sides cannot be indexed"
  },
  {
   "property": "C127",
   "status": "proved",
   "theorems": [
    "C127_optional_rng",
    "C127_try_fill",
    "C127_with_generator",
    "C127_without_hiding",
    "C127_success_means_no_hiding",
    "C127_never_missing_rng",
    "C127_hiding_panics",
    "C127_kzg_missing_rng"
   ],
   "note": "finding: PC::commit panics instead of returning MissingRng"
  },
  {
   "property": "C128",
   "status": "proved",
   "theorems": [
    "C128_index_iff"
   ],
   "note": ""
  }
 ]
}
