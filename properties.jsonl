{"id": "C01", "title": "Linear-combination arithmetic preserves value", "statement": "Building or combining linear combinations with +, -, unary -, scalar * and the (coefficient, term) forms yields a combination whose value under any assignment is exactly the corresponding arithmetic on the operands' values, including when operands contain repeated or unsorted terms and when either side is empty.", "quantifier": "all fields, all assignments of field values to variables, all linear combinations (any length, any term order, repeats allowed), all coefficients", "why_tests_cant": "tests evaluate a few short sums; the merge/insert code has a length-6 switch, empty shortcuts and duplicate handling that only an induction over all term lists covers", "anchors": ["r1cs/src/impl_lc.rs: get_var_loc, AddAssign<(F,Variable)>, Sub<(F,Variable)>, Neg, Mul, op_impl, Add/Sub LinearCombination, Add/Sub (F, LinearCombination)"]}
{"id": "C02", "title": "Linear combinations stay ordered by variable", "statement": "A linear combination built from the empty one by any sequence of the public arithmetic operators always lists its terms in non-decreasing variable order (inputs before auxiliaries, then by index), so that the binary-search path is only ever used on ordered data.", "quantifier": "all finite sequences of operations, all variables and coefficients", "why_tests_cant": "the invariant concerns every history of operations; tests exercise one or two", "anchors": ["r1cs/src/impl_lc.rs: get_var_loc, AddAssign, op_impl", "r1cs/src/lib.rs: Index Ord"]}
{"id": "C03", "title": "Repeated additions of one variable are not merged in short combinations", "statement": "Adding the same variable twice to a combination holding fewer than six terms yields two separate terms for that variable (not one term with the summed coefficient); every consumer must therefore sum, not overwrite, repeated entries.", "quantifier": "all combinations with fewer than six terms, all variables and coefficients", "why_tests_cant": "value-level tests cannot see the stored shape, and consumers that overwrite duplicates only misbehave on circuits that repeat a variable", "anchors": ["r1cs/src/impl_lc.rs: get_var_loc, AddAssign<(F,Variable)>"]}
{"id": "C04", "title": "Variable index encoding round-trips but is not canonical", "statement": "Decoding the bytes produced by encoding a variable index gives back the index and leaves any following bytes untouched, for every index below 2^64; but decoding is not injective: every non-zero tag byte decodes as an auxiliary variable.", "quantifier": "all indices, all trailing bytes, all 256 tag bytes", "why_tests_cant": "round-trip over a 2^65-element domain and non-canonicity for every tag", "anchors": ["r1cs/src/lib.rs: Index CanonicalSerialize/CanonicalDeserialize"]}
{"id": "C05", "title": "Allocated bits can only be 0 or 1", "statement": "After allocating a bit (private or public) every assignment satisfying the emitted constraints gives it value 0 or 1; with the conditional form, additionally the bit must be 0 whenever the guarding bit is 1. The honest assignment satisfies the constraints whenever the guard is respected.", "quantifier": "all fields, all prior constraint systems, all satisfying assignments (including malicious ones), all supplied witness values", "why_tests_cant": "tests only try honest witnesses; soundness ranges over all malicious assignments in a 255-bit field", "anchors": ["gadgets/src/algebra/boolean.rs: AllocatedBit::alloc, alloc_input, alloc_conditionally"]}
{"id": "C06", "title": "Boolean gates compute their truth tables", "statement": "xor, and, and_not, nor and not over boolean values (variables, negated variables and constants in any combination) return a boolean whose value under every satisfying assignment in which the operands are bits is the truth-table result; and honest witnesses satisfy all emitted constraints.", "quantifier": "all fields, all operand kinds, all satisfying assignments", "why_tests_cant": "malicious assignments are not enumerable by tests; operand-kind combinations are partially tested only with honest values", "anchors": ["gadgets/src/algebra/boolean.rs: AllocatedBit::{xor,and,and_not,nor}, Boolean::{xor,and,not,lc}"]}
{"id": "C07", "title": "Boolean equality is enforced exactly", "statement": "enforcing equality of two booleans succeeds at synthesis unless both are different constants (then it reports Unsatisfiable), and the emitted constraint is satisfied by an assignment exactly when both booleans have the same value under it.", "quantifier": "all fields, all operand kinds, all assignments", "why_tests_cant": "iff over all assignments", "anchors": ["gadgets/src/algebra/boolean.rs: Boolean::enforce_equal"]}
{"id": "C08", "title": "Choice and majority gates are sound and complete", "statement": "The SHA-2 choice and majority gates return a boolean that under every satisfying assignment equals (a and b) xor (not a and c), respectively the majority of a, b, c, for every mix of variables, negated variables and constants; honest witnesses satisfy the constraints.", "quantifier": "all fields, all 27 operand-kind combinations, all satisfying assignments", "why_tests_cant": "soundness for all malicious assignments", "anchors": ["gadgets/src/algebra/boolean.rs: Boolean::sha256_ch, sha256_maj"]}
{"id": "C09", "title": "32-bit word views agree with integers", "statement": "Constants, big-endian/little-endian conversions, rotation and shift of 32-bit words denote the corresponding integer operations under every assignment; in particular rotation by any amount is rotation modulo 32.", "quantifier": "all words, all assignments, all rotation amounts", "why_tests_cant": "2^32 words times all shift amounts times all assignments", "anchors": ["gadgets/src/algebra/uint32.rs: constant, into_bits_be, from_bits_be, into_bits, from_bits, rotr, shr"]}
{"id": "C10", "title": "Right shift reduces the amount modulo 32", "statement": "Shifting a word right by n denotes division by 2^(n mod 32); for n >= 32 the result is therefore not the integer shift (which would be 0).", "quantifier": "all words and all shift amounts", "why_tests_cant": "the boundary is outside the amounts used by the hash circuits", "anchors": ["gadgets/src/algebra/uint32.rs: shr"]}
{"id": "C11", "title": "Word-level xor, choice and majority", "statement": "Bitwise xor, choice and majority of 32-bit words denote the integer bitwise operations under every satisfying assignment.", "quantifier": "all words, all operand kinds per bit, all satisfying assignments", "why_tests_cant": "malicious assignments", "anchors": ["gadgets/src/algebra/uint32.rs: xor, triop, sha256_ch, sha256_maj"]}
{"id": "C12", "title": "Modular addition gadget computes the sum mod 2^32", "statement": "Adding 2 to 10 words yields a word whose value under every satisfying assignment is the sum of the operand values modulo 2^32, provided the field has more than 2^64 elements; the honest assignment satisfies the constraints; other operand counts panic.", "quantifier": "all prime fields with capacity at least 64, all operands, all satisfying assignments, also with many additions batched in one equality packer", "why_tests_cant": "carry bits are prover-chosen; soundness ranges over all carries and batching offsets", "anchors": ["gadgets/src/algebra/uint32.rs: addmany", "gadgets/src/operator/multieq.rs"]}
{"id": "C13", "title": "Batched equalities imply each equality", "statement": "When several equalities between quantities of declared bit widths are packed into shared constraints, every satisfying assignment in which each side is within its declared width satisfies every individual equality, no matter how the packer splits them into constraints.", "quantifier": "all prime fields, all sequences of equalities and widths (positive), all satisfying assignments", "why_tests_cant": "packing offsets depend on the whole history; collisions need carefully chosen values", "anchors": ["gadgets/src/operator/multieq.rs: accumulate, enforce_equal, Drop"]}
{"id": "C14", "title": "Zero-width equalities can be silently dropped", "statement": "An equality declared with bit width zero, when it is the last thing packed, is never turned into a constraint: assignments violating it are accepted.", "quantifier": "all fields, all linear combinations", "why_tests_cant": "needs an unusual call; silent absence of a constraint is invisible to honest tests", "anchors": ["gadgets/src/operator/multieq.rs: enforce_equal, Drop"]}
{"id": "C15", "title": "Comparison gadget enforces a bounded positive difference", "statement": "With the width input set to 2^n and 2^(n+1) at most the field size, an assignment satisfies the constraints of the comparison gadget for some choice of the gadget's own helper variables exactly when the field difference (right minus left, as a canonical integer) lies in [1, 2^n).", "quantifier": "all prime fields, all n, all satisfying assignments", "why_tests_cant": "malicious helper values; boundary values of a 255-bit field", "anchors": ["gadgets/src/operator/rangeproof.rs"]}
{"id": "C16", "title": "Comparison gadget does not by itself order canonical integers", "statement": "There are satisfying assignments of the comparison gadget in which the left operand's canonical integer is larger than the right one's (operands are not range-checked), and, if the public width input is not checked by the verifier, any pair, even an equal one, can satisfy it for a suitable width input.", "quantifier": "all prime fields and n with 2^(n+1) at most the field size", "why_tests_cant": "requires operands near the modulus", "anchors": ["gadgets/src/operator/rangeproof.rs"]}
{"id": "C17", "title": "One-bit table lookup is unsound", "statement": "In the one-bit lookup gadget the table entries are free private variables: for any prior satisfied system and any desired result there is a satisfying assignment giving that result, whatever the table and the selector bit.", "quantifier": "all fields, tables, selector bits, result values", "why_tests_cant": "honest tests always see the right table", "anchors": ["gadgets/src/lookup/table.rs: lookup1_x"]}
{"id": "C18", "title": "Two- and three-bit table lookups are sound and complete", "statement": "The 2-bit and 3-bit lookup gadgets (x and xy forms) force the result to be the table entry selected by the bits under every satisfying assignment with bit-valued selectors; honest assignments satisfy them; wrong table lengths panic.", "quantifier": "all fields, all tables, all selector kinds (variables, negations, constants), all satisfying assignments", "why_tests_cant": "malicious assignments and arbitrary tables", "anchors": ["gadgets/src/lookup/table.rs: synth, lookup2_x, lookup2_xy, lookup3_x, lookup3_xy"]}
{"id": "C19", "title": "Merkle root computed two ways is the same", "statement": "For every list of leaves the streaming root computation and the root of the materialised tree agree (both give the default value on no leaves).", "quantifier": "all leaf lists of any length, all merge functions", "why_tests_cant": "tests cover a handful of sizes; the queue algorithm interleaves levels for non-power-of-two sizes", "anchors": ["gadgets/src/merkletree/cbmt.rs: build_merkle_root, build_merkle_tree, root"]}
{"id": "C20", "title": "Merkle proofs for every in-range leaf verify, others are refused", "statement": "For every leaf list (below 2^31 leaves) and every in-range index, a proof is produced and verifies for that leaf against the root; for every out-of-range index no proof is produced as long as the sum of leaf count and index stays below 2^32; beyond that the call panics with overflow checks and otherwise returns a verifying proof for an inner node.", "quantifier": "all leaf lists, all indices, all merge functions", "why_tests_cant": "unbounded sizes", "anchors": ["gadgets/src/merkletree/cbmt.rs: build_proof, MerkleProof::root, verify, build_merkle_proof, TreeIndex"]}
{"id": "C21", "title": "Merkle proofs are binding up to hash collisions", "statement": "If two proofs with the same index and the same number of lemmas verify against one root for different leaves, then two different merge inputs with equal outputs can be computed from them.", "quantifier": "all proofs, leaves, merge functions", "why_tests_cant": "reduction statement over all adversarial proofs", "anchors": ["gadgets/src/merkletree/cbmt.rs: MerkleProof::root, verify"]}
{"id": "C22", "title": "Merkle verification does not bind proof length", "statement": "Verification does not check that the number of lemmas matches the index depth: the root itself verifies as a leaf at every index with an empty lemma list, an inner node verifies as a leaf at its own index, and the index of a proof with k lemmas matters only modulo 2^k.", "quantifier": "all trees", "why_tests_cant": "adversarial proof shapes", "anchors": ["gadgets/src/merkletree/cbmt.rs: MerkleProof::new, root, verify"]}
{"id": "C23", "title": "MiMC circuit computes the MiMC permutation", "statement": "In the MiMC gadget every satisfying assignment gives the final state variable the MiMC block value of the two preimage variables, for every choice of those; and the honest run satisfies all constraints.", "quantifier": "all fields, round constants and assignments", "why_tests_cant": "322 rounds over a 255-bit field; soundness for malicious assignments", "anchors": ["gadgets/src/hashes/mimc.rs: mimc_block, mimc"]}
{"id": "C24", "title": "MiMC byte hash has trivial collisions and panics on empty input", "statement": "The byte-level MiMC hash maps a non-empty final partial block to zero, so any two inputs sharing full blocks and ending in non-empty partial blocks collide, as do non-canonical blocks; on empty input it panics.", "quantifier": "all byte strings", "why_tests_cant": "tests use one random input", "anchors": ["gadgets/src/hashes/mimc.rs: mimc_hash, hash"]}
{"id": "C25", "title": "CLI hash circuit does not bind the public image", "statement": "The command-line hash-preimage circuit never relates the public image to the hash computation: for every public image value there is a satisfying assignment.", "quantifier": "all fields, all public values", "why_tests_cant": "honest tests never prove a false image", "anchors": ["cli/src/circuits/hash.rs: generate_constraints", "gadgets/src/hashes/mimc.rs: mimc"]}
{"id": "C26", "title": "SHA-256 circuit computes SHA-256", "statement": "For every byte-aligned input bit string (constants, variables or mixed), every satisfying assignment of the SHA-256 circuit gives the 256 output bits the FIPS 180-4 digest of the input's value under that assignment; inputs whose bit length is not a multiple of 8 panic.", "quantifier": "all input lengths, all operand kinds, all prime fields with capacity at least 64, all satisfying assignments", "why_tests_cant": "tests compare honest witnesses on few inputs; soundness for all assignments and all lengths", "anchors": ["gadgets/src/hashes/sha256.rs: sha256, sha256_block_no_padding, sha256_compression_function, get_sha256_iv"]}
{"id": "C27", "title": "BLAKE2s circuit computes BLAKE2s", "statement": "For every byte-aligned input, every satisfying assignment of the BLAKE2s circuit gives the output bits the RFC 7693 BLAKE2s-256 digest (with the given 8-byte personalisation) of the input's value.", "quantifier": "all input lengths below 2^64 bytes, all operand kinds, all satisfying assignments", "why_tests_cant": "as for SHA-256", "anchors": ["gadgets/src/hashes/blake2s.rs: mixing_g, blake2s_compression, blake2s"]}
{"id": "C28", "title": "Merkle membership circuit enforces nothing beyond allocation", "statement": "In the set-membership circuit with the MiMC hash the constraints never tie hash outputs to inputs: any root value can be satisfied for any leaf by a suitable assignment.", "quantifier": "all fields, leaves, paths, roots", "why_tests_cant": "honest tests cannot reveal missing constraints", "anchors": ["gadgets/src/merkletree/cbmt_constraints.rs: set_membership", "gadgets/src/hashes/mimc.rs: hash_enforce"]}
{"id": "C29", "title": "Poseidon and Rescue power sub-circuits are wrong", "statement": "The exponentiation sub-circuit used by the Poseidon and Rescue gadgets returns 0 on every honest run (its accumulator starts at 0), so honest public outputs do not depend on the input.", "quantifier": "all fields, all inputs, all exponents", "why_tests_cant": "the circuits' own tests only check satisfiability", "anchors": ["gadgets/src/hashes/rescue.rs: pow_with_constraint", "gadgets/src/hashes/poseidon.rs: pow_with_constraint"]}
{"id": "C30", "title": "Groth16: arithmetic-program reduction is exact", "statement": "A full assignment satisfies the rank-1 system exactly when the quotient computed by the prover is exact: the polynomial identity A*B - C = H*Z holds with deg H < domain size - 1; evaluating at the setup point gives the same per-variable coefficients used in the keys.", "quantifier": "all constraint systems, all assignments, all evaluation points outside the domain", "why_tests_cant": "algebraic identity over all systems", "anchors": ["groth16/src/r1cs_to_qap.rs: evaluate_constraint, instance_map_with_evaluation, witness_map"]}
{"id": "C31", "title": "Groth16: honest proofs verify", "statement": "For every circuit, every satisfying assignment, every setup randomness and prover randomness, the proof produced with the generated parameters is accepted by verification with the circuit's public inputs.", "quantifier": "all constraint systems, assignments, toxic waste values (outside the bad set), prover randomness, bilinear groups", "why_tests_cant": "tests fix two tiny circuits", "anchors": ["groth16/src/generator.rs: generate_parameters", "groth16/src/prover.rs: create_proof", "groth16/src/verifier.rs: verify_proof"]}
{"id": "C32", "title": "Groth16: wrong number of public inputs is refused", "statement": "Verification with a number of public inputs different from the one fixed by the key always reports a malformed-key error and never accepts; two input vectors are accepted with one proof only if they have the same weighted key sum.", "quantifier": "all keys, proofs, input vectors", "why_tests_cant": "all lengths", "anchors": ["groth16/src/verifier.rs: verify_proof"]}
{"id": "C33", "title": "Inner-product argument is complete", "statement": "For every power-of-two length and every pair of vectors and nonzero challenges, the prover's inner-product proof is accepted by the verifier for the matching commitment.", "quantifier": "all sizes 2^k, all vectors, all generators, all nonzero challenge sequences", "why_tests_cant": "unbounded recursion depth", "anchors": ["bulletproofs/src/inner_product_proof.rs: prove, verify"]}
{"id": "C34", "title": "Bulletproofs circuit verification accepts proofs of false statements", "statement": "For every circuit and every public input vector, including unsatisfiable ones, there is a proof accepted by verification: the inner product of the opened vectors is never tied to the claimed value.", "quantifier": "all circuits, public inputs, generators, challenge functions with nonzero challenges", "why_tests_cant": "forgery, not reachable from honest tests", "anchors": ["bulletproofs/src/arithmetic_circuit.rs: verify_proof"]}
{"id": "C35", "title": "Bulletproofs matrices keep only the last of repeated terms", "statement": "When a constraint's linear combination mentions a variable twice, the Bulletproofs backend proves a different statement from the rank-1 system: only the last coefficient is kept.", "quantifier": "all constraints with a repeated variable", "why_tests_cant": "consumer-specific semantics difference", "anchors": ["bulletproofs/src/arithmetic_circuit.rs: create_random_proof", "bulletproofs/src/lib.rs: push_constraints"]}
{"id": "C36", "title": "Polynomial commitment: honest openings verify", "statement": "For every non-constant polynomial within the supported degree, every point, every hiding bound from 1 to the supported degree and all randomness, commit and open succeed and the opening is accepted for the value of the polynomial at the point; the same for several polynomials with degree bounds at one point and for batches over several points. Constants are refused by commit and open, longer polynomials by commit; a hiding bound one above the supported degree is accepted by commit but every opening is then refused by check.", "quantifier": "all polynomials, points, randomness, setup values", "why_tests_cant": "all degrees", "anchors": ["marlin/src/pc/kzg10.rs: commit, open, check, compute_witness_polynomial", "marlin/src/pc/mod.rs"]}
{"id": "C37", "title": "Polynomial commitment: two openings of one commitment to different values break the setup assumption", "statement": "From two accepted openings of one commitment at one point to different values one can compute the group element (1/(tau - z)) g (or the hiding relation), so equivocation is as hard as the q-SDH problem.", "quantifier": "all commitments, points, values, proofs", "why_tests_cant": "reduction statement", "anchors": ["marlin/src/pc/kzg10.rs: check"]}
{"id": "C38", "title": "Marlin: row swapping for balance preserves the relation", "statement": "Balancing the density of the two left matrices by swapping rows never changes which assignments satisfy the system.", "quantifier": "all matrices, all assignments", "why_tests_cant": "all matrix shapes", "anchors": ["marlin/src/ahp/constraint_systems.rs: balance_matrices"]}
{"id": "C39", "title": "Marlin: public-input count must be a power of two", "statement": "Every matrix column gets its own point of the evaluation domain. When the number of public inputs (with the constant) equals the size of its padded domain (a power of two), the polynomial interpolated by the prover takes at the point of column j the value of the variable that the matrices call column j. Otherwise the auxiliary variables are displaced by the number of missing inputs: the first ones are read as zero and the others as another variable's value; an honest proof can then be rejected, and proving panics when the displaced variables do not fit.", "quantifier": "all circuit shapes", "why_tests_cant": "tests use one public input", "anchors": ["marlin/src/ahp/constraint_systems.rs: reindex", "marlin/src/ahp/arithmetic.rs: compose_matrix_polynomials", "marlin/src/ahp/prover.rs: prover_first_round"]}
{"id": "C40", "title": "Vector commitment: honest sub-vector openings verify", "statement": "For every committed vector and every non-empty set of distinct positions, the opening proof verifies for the values at those positions.", "quantifier": "all vectors up to the key size, all position sets", "why_tests_cant": "unbounded sizes", "anchors": ["asvc/src/lib.rs: key_gen, commit, prove_pos, verify_pos"]}
{"id": "C41", "title": "Vector commitment: updates are consistent with recommitting", "statement": "Updating a commitment for a change at one position gives exactly the commitment of the changed vector, and updating a position proof gives exactly the proof for the changed vector.", "quantifier": "all vectors, positions, deltas", "why_tests_cant": "algebraic equality for all sizes", "anchors": ["asvc/src/lib.rs: update_commit, update_proof"]}
{"id": "C42", "title": "Vector commitment: aggregated proofs equal direct sub-vector proofs", "statement": "Aggregating single-position proofs for distinct positions gives exactly the proof that opening the whole set directly produces.", "quantifier": "all vectors and sets of distinct positions", "why_tests_cant": "partial-fraction identity over all sets", "anchors": ["asvc/src/lib.rs: aggregate_proofs, prove_pos"]}
{"id": "C43", "title": "Plonk: copy constraints form a permutation", "statement": "For every circuit built through the composer, the wire permutation is a bijection on the padded gate slots, relates only slots holding the same variable, and an arbitrary slot assignment is invariant under it exactly when it is constant on each variable's slots.", "quantifier": "all composer histories, all padded sizes", "why_tests_cant": "invariant over all build histories", "anchors": ["plonk/src/composer/permutation.rs: alloc, insert_gate, compute_wire_permutation"]}
{"id": "C44", "title": "Plonk: the grand product closes for honest witnesses", "statement": "For every circuit and every assignment synthesised by the composer, the product of the permutation numerators equals the product of denominators, so the prover's closing assertion never fails unless a denominator is zero.", "quantifier": "all circuits, all challenges with nonzero denominators", "why_tests_cant": "all circuits and challenges", "anchors": ["plonk/src/ahp/indexer/permutation.rs: compute_z", "plonk/src/composer/synthesize.rs"]}
{"id": "C45", "title": "Plonk: gate equations express the documented relations", "statement": "The gates added by the composer are satisfied by the synthesised witness exactly when the documented relation holds between the variables' values (constant, equality, addition, multiplication gates), and the padding rows are always satisfied.", "quantifier": "all composer histories, all values", "why_tests_cant": "all histories", "anchors": ["plonk/src/composer/arithmetic.rs", "plonk/src/ahp/indexer/arithmetic.rs: evaluate"]}
{"id": "C46", "title": "Plonk: splitting and recombining the quotient is lossless", "statement": "Splitting a quotient of at most 4n coefficients into four chunks and recombining with powers of zeta^n gives the original evaluation; longer quotients lose their top coefficients.", "quantifier": "all polynomials, sizes, points", "why_tests_cant": "all sizes", "anchors": ["plonk/src/ahp/prover.rs: quad_split", "plonk/src/ahp/mod.rs: construct_linear_combinations"]}
{"id": "C47", "title": "Hex codec of the command-line tools round-trips but is not canonical", "statement": "Decoding the hex produced for any byte string returns the byte string; odd-length strings are rejected; but distinct strings (upper case, a leading plus sign in a pair) decode to the same bytes.", "quantifier": "all byte strings, all ASCII strings", "why_tests_cant": "all strings", "anchors": ["cli/src/zkp_prove.rs: to_hex", "cli/src/zkp_verify.rs: from_hex"]}
{"id": "C48", "title": "On-chain verifier scripts succeed only on accepted proofs", "statement": "The verifier scripts return success exactly when all three cells load, decode and verification answers true; every other outcome yields a non-zero error code.", "quantifier": "all cell contents, all decode outcomes, all verification results including errors", "why_tests_cant": "exhaustive over outcome combinations", "anchors": ["ckb-contracts/contracts/universal_groth16_verifier/src/entry.rs, error.rs, main.rs"]}
{"id": "C49", "title": "On-chain Bulletproofs script does not fix the statement", "statement": "The Bulletproofs verifier script takes the circuit from the proof cell and ignores the verification-key cell, so acceptance says nothing about the intended circuit; any accepted (generators, circuit, proof) triple is accepted for every key cell content.", "quantifier": "all key cells, all proof cells", "why_tests_cant": "adversarial cell contents", "anchors": ["ckb-contracts/contracts/mini_bulletproofs_verifier/src/entry.rs"]}
{"id": "C50", "title": "Setup and proving see the same circuit", "statement": "Whenever a gadget run with witness values succeeds, the same gadget run during key generation without (or with other) values succeeds, allocates as many variables and emits the same constraints in the same order: bit and boolean operations, field variables, lookups, range proof, MiMC, Rescue, Poseidon, word allocation, SHA-256, BLAKE2s, and every composition of these. Two exceptions: the Merkle membership gadget refuses key generation without values, and word addition of a word whose bits are all constant but whose cached value is unknown (shift an unknown bit out, then add) allocates 33 variables during key generation and none while proving.", "quantifier": "all gadgets modelled, all witness values", "why_tests_cant": "relational property over two runs", "anchors": ["gadgets/src/algebra/boolean.rs", "gadgets/src/algebra/uint32.rs", "gadgets/src/hashes/mimc.rs: mimc", "groth16/src/generator.rs: KeypairAssembly"]}
{"id": "C51", "title": "Field variables: exposing and non-zero assertion", "statement": "Exposing a field variable adds exactly one public input, forced equal to the variable; the non-zero assertion cannot be satisfied when the variable is zero, is satisfied by an honest prover otherwise, and proving with the value zero returns a division-by-zero error.", "quantifier": "all fields, all prior systems, all satisfying assignments", "why_tests_cant": "malicious assignments", "anchors": ["gadgets/src/algebra/fr.rs: inputize, isnonzero"]}
{"id": "C52", "title": "Rescue and Poseidon circuits do not bind their public output", "statement": "For every choice of preimage variables and every claimed public output there is a satisfying assignment of the Rescue and of the Poseidon circuit; their byte-level hashes collide on inputs ending in partial blocks and panic on empty input.", "quantifier": "all fields, constants, preimages, outputs, byte strings", "why_tests_cant": "malicious assignments; the tests check honest satisfiability only", "anchors": ["gadgets/src/hashes/rescue.rs: rescue, rescue_hash", "gadgets/src/hashes/poseidon.rs: poseidon, poseidon_hash"]}
{"id": "C53", "title": "hash_enforce of the SHA-256 gadget does not bind the digest it exports", "statement": "The field variables exported by the public hash_enforce of the SHA-256 gadget are fresh bits unconnected to the computed digest: from every satisfying assignment of the circuit, every choice of the 256 exported bits gives another satisfying assignment with the same input.", "quantifier": "all messages, all digests, all satisfying assignments", "why_tests_cant": "tests check the digest value the gadget computes, never that the exported variables are forced to it", "anchors": ["gadgets/src/hashes/sha256.rs: AbstractHashSha256Output, hash_enforce"]}
{"id": "C54", "title": "Groth16 proofs are malleable", "statement": "From any accepted proof, anyone knowing only the verification key can make other accepted proofs for the same public inputs: shifting B by k*delta and C by k*A, or rescaling A by k and B by 1/k; a proof is therefore not a unique identifier of the statement or of the prover.", "quantifier": "all verification keys, proofs, public input vectors, all scalars", "why_tests_cant": "acceptance of every transformed proof is an algebraic identity over all group elements; tests never transform proofs", "anchors": ["groth16/src/verify.rs: verify_proof"]}
{"id": "C55", "title": "Bulletproofs verification panics instead of answering", "statement": "For every circuit there are proofs on which verification panics instead of returning false, and a wrong number of public inputs always panics, whatever the proof.", "quantifier": "all circuits, generators with a nonzero g, public inputs, challenge functions with nonzero y", "why_tests_cant": "malformed proofs chosen by an attacker; unbounded sizes", "anchors": ["bulletproofs/src/arithmetic_circuit.rs: verify_proof"]}
{"id": "C56", "title": "Bulletproofs: honest proofs verify", "statement": "For every circuit whose combinations name each variable at most once and whose own witness satisfies it, the proof produced by create_random_proof is accepted by verification for the circuit's public inputs; in general acceptance follows from satisfaction of the dense matrices.", "quantifier": "all circuits, all witnesses, all randomness, all generators, all nonzero challenge functions", "why_tests_cant": "universal over circuits and over the verifier's equation of degree ten", "anchors": ["bulletproofs/src/arithmetic_circuit.rs: create_random_proof, prove, verify_proof"]}
{"id": "C57", "title": "On-chain Groth16 script does not pin the verification key", "statement": "The key is read from an output cell of the same transaction, so for every choice of the key's four fixed elements there are key and proof cells with which the script succeeds for every public cell that decodes.", "quantifier": "all pairings, all public cells, all alpha, beta, gamma, delta", "why_tests_cant": "protocol-level adversary choosing cells", "anchors": ["ckb-contracts/contracts/universal_groth16_verifier/src/entry.rs"]}
{"id": "C58", "title": "Verification tool exits with status zero on rejected proofs", "statement": "zkp-verify terminates with exit status 0 whenever verification returns at all; acceptance and rejection differ only in the printed line, and a verification error aborts.", "quantifier": "all verdicts", "why_tests_cant": "the status code is not examined by tests", "anchors": ["cli/src/zkp_verify.rs: main, handle_scheme"]}
{"id": "C59", "title": "Marlin: honest proofs verify", "statement": "For every circuit whose number of public inputs (with the constant) is a power of two, every satisfying assignment, every setup, all transcript challenges outside the evaluation domain and all nonzero blinding factors: if indexing and proving succeed, the proof verifies for the public inputs.", "quantifier": "all circuits, assignments, trapdoors, challenges, randomness", "why_tests_cant": "all circuit shapes and sizes; depends on two sumcheck identities and the polynomial commitment", "anchors": ["marlin/src/lib.rs: index, create_random_proof, verify_proof", "marlin/src/ahp/prover.rs", "marlin/src/ahp/verifier.rs", "marlin/src/ahp/indexer.rs"]}
{"id": "C60", "title": "Marlin: verification accepts proofs whose commitments all come in the last round", "statement": "The verifier does not check how many commitments each round carries. An explicit program using only the public keys and the transcript hash produces, for every circuit (satisfiable or not) and every vector of public inputs, a proof that verification accepts.", "quantifier": "all circuits, all public inputs, all trapdoors and challenges outside the domain", "why_tests_cant": "tests use proofs made by the honest prover", "anchors": ["marlin/src/lib.rs: verify_proof", "marlin/src/ahp/verifier.rs: verifier_equality_check"]}
{"id": "C61", "title": "Vector commitment openings are binding per position", "statement": "Two accepted openings of one commitment under the same root that claim different values for a common position yield, by public operations on the two proofs and the verification key alone, the pairing value e(g1,g2) divided by tau - omega^i. The coefficients used are determined by the claimed positions and values and do not depend on the secret tau.", "quantifier": "All fields, pairings, roots, position lists without repeated powers, claimed values, keys produced by key generation for any domain at least as large as both lists together, commitments and pairs of proofs.", "why_tests_cant": "Breaking binding needs adversarial proofs; tests only exercise honest openings.", "anchors": ["asvc/src/lib.rs"]}
{"id": "C62", "title": "verify_pos does not check list lengths", "statement": "Verification of a sub-vector opening pads the claimed values with zeros, or truncates them, to the number of positions: a caller passing fewer values than positions gets the verdict for zeros at the uncovered positions.", "quantifier": "All fields, pairings, keys from key generation, commitments, values, proofs, roots, and position lists without repeated powers of at most the domain size.", "why_tests_cant": "The existing tests always pass lists of equal length.", "anchors": ["asvc/src/lib.rs"]}
{"id": "C63", "title": "verify_upk accepts exactly the generated update key", "statement": "For a position inside the domain and a pairing injective against g2, update-key verification accepts a pair (a_i, u_i) if and only if it is the update key that key generation produced for that position.", "quantifier": "All fields, pairings, domains, secrets, generators, positions and candidate update keys.", "why_tests_cant": "Uniqueness quantifies over every candidate key.", "anchors": ["asvc/src/lib.rs"]}
{"id": "C64", "title": "Panics of the vector commitment", "statement": "Verification and aggregation panic whenever two listed positions have the same power of the root and every position has a value or proof; key generation panics exactly when the sampled secret lies in the evaluation domain.", "quantifier": "All fields, pairings, verification keys, commitments, values, proofs, position lists, roots, domains and secrets.", "why_tests_cant": "The panicking secret has negligible probability under sampling; repeated positions are not in the tests.", "anchors": ["asvc/src/lib.rs"]}
{"id": "C65", "title": "Plonk: completeness", "statement": "For every circuit built through the composer whose values satisfy the documented gate relations, every proof the prover returns is accepted with the composer's public inputs, given a complete polynomial commitment; and the prover returns one whenever no slot factor is zero and the evaluation point is not one.", "quantifier": "all fields, FFT libraries, commitment schemes, transcripts, circuits, keys", "why_tests_cant": "all circuits, challenges and commitment schemes at once", "anchors": ["plonk/src/lib.rs: keygen, prove, verify", "plonk/src/ahp/prover.rs", "plonk/src/ahp/verifier.rs"]}
{"id": "C66", "title": "Plonk: proofs can be forged by moving commitments between rounds", "statement": "verify does not check how many commitments each round carries. A program that knows no witness sends empty first and second rounds and all nine commitments in the third; the resulting proof is accepted for every circuit with at least one gate and every public input that fits the domain, including unsatisfiable circuits.", "quantifier": "all circuits with a gate, all public inputs up to the domain size, all transcripts whose evaluation point is not one", "why_tests_cant": "an attack is a program, not an input a test would choose", "anchors": ["plonk/src/lib.rs:206-290 verify"]}
{"id": "C67", "title": "Plonk: soundness of the protocol when the rounds are respected", "statement": "With an ideal polynomial commitment and challenges sent after the four wire polynomials, the grand product polynomial and the four quotient chunks, if fixed wire polynomials are accepted for more than 4n values of beta and gamma, three of alpha and more than 5n of zeta, then the wires' values on the gate slots are an assignment of the variables satisfying every row with the given public inputs; with the composer's public inputs every documented relation holds.", "quantifier": "all circuits, keys with disjoint cosets, adversarial polynomials, public inputs", "why_tests_cant": "needs extraction from all challenges", "anchors": ["plonk/src/lib.rs:206-290 verify", "plonk/src/ahp/verifier.rs:101-150", "plonk/src/ahp/mod.rs: construct_linear_combinations"]}
{"id": "C68", "title": "Plonk: proofs contain unblinded evaluations of the witness", "statement": "For every proof the prover returns, the evaluations of w_0 to w_3 it contains are the values at the challenge point of the polynomials of degree below n that interpolate the witness on the domain, independent of the random source passed to the prover; the protocol adds no blinding.", "quantifier": "all circuits, witnesses, random sources", "why_tests_cant": "statement about every random source", "anchors": ["plonk/src/ahp/prover.rs: prover_first_round", "plonk/src/lib.rs:93-204 prove"]}
{"id": "C69", "title": "Plonk: the verifier on malformed proofs", "statement": "Fewer than three commitment lists and more public inputs than the domain make verify panic, as does the challenge one; fewer than eleven evaluations give an error; further commitment lists are ignored.", "quantifier": "all keys, public inputs, proofs", "why_tests_cant": "all malformed proofs", "anchors": ["plonk/src/lib.rs:206-290 verify", "plonk/src/utils.rs:49-56 pad_to_size"]}
{"id": "C70", "title": "Marlin's equations are sound", "statement": "Consider Marlin with the polynomial commitments replaced by truthful evaluations of polynomials the prover fixes round by round (each before it sees the challenge of that round). If, for enough challenges, `verifier_equality_check` accepts the evaluations, and the two polynomials g_1, g_2 obey the degree bounds the verifier attaches to them, then the R1CS that was indexed has a satisfying assignment whose inputs are the constant 1 and the given public inputs. Conversely a satisfying assignment always gives such a prover when the inputs fill their domain. `verify_proof` accepts exactly when the equality check accepts the supplied evaluations and the commitment opening check does.", "quantifier": "every circuit that is indexed, every public input list of the same domain, every prover strategy, every four challenge sets of the stated sizes (|H| alphas, 2 etas, 2D+|H|+1 betas, max(D2+|K|+1, 4|K|) gammas)", "why_tests_cant": "a test tries finitely many cheating provers; soundness is about all of them", "anchors": ["marlin/src/ahp/verifier.rs:128-210 verifier_equality_check", "marlin/src/ahp/indexer.rs", "marlin/src/lib.rs:184-250 verify_proof"]}
{"id": "C71", "title": "The multilinear-extension helpers compute the multilinear extension", "statement": "eval_value(v, r) returns the value at r of the unique function that is affine in each of its r.len() variables and takes the entries of v (zero padded) on the Boolean points, variable 0 being the most significant index bit; it panics exactly when v is longer than 2^r.len(). eval_eq(r) is the table of the Lagrange basis at r. eval_eq_x_y(rx, ry) is the inner product of the two tables. combine_with_r(v, x) fixes the first variable to x and bound_poly_var_bot(v, x) the last one, for vectors whose length is a power of two greater than one.", "quantifier": "for all fields, vectors and points", "why_tests_cant": "uniqueness of the extension and agreement at every point of an exponentially large domain cannot be sampled", "anchors": ["libra/src/evaluate.rs:35-76", "hyrax/src/evaluate.rs:52-115", "spartan/src/polynomial.rs:8-32", "spartan/src/polynomial.rs:121-147"]}
{"id": "C72", "title": "sparse_evaluate_value is right exactly when zeros only trail", "statement": "spartan's sparse_evaluate_value(v, r) equals the multilinear extension of v at every r of length k if and only if no zero entry of v precedes a nonzero one; in general it returns the extension of v with all zeros squeezed out, because entries are numbered after the zeros have been filtered away.", "quantifier": "for all fields, vectors and dimensions", "why_tests_cant": "the existing use passes vectors without interior zeros; the exact condition is a statement about all vectors and all points", "anchors": ["spartan/src/polynomial.rs:40-58"]}
{"id": "C73", "title": "Libra's circuit construction and evaluation, and where the inputs end up", "statement": "Circuit::new succeeds exactly when every operator is 0 or 1 and every operand index is below the size of the layer underneath (the input layer having twice the least power of two not below either count), and panics otherwise. Circuit::evaluate then returns, for each layer, the values of its gates computed from the input layer witnesses ++ zeros(S - #inputs) ++ inputs ++ zeros(S - #witnesses), and panics when inputs or witnesses exceed S. This is the intended layout (each half padded on its own) when the two counts agree; it differs from it whenever the counts differ and no public input is zero, and only the intended layout's extension splits into the witness half and the input half.", "quantifier": "for all circuit descriptions, fields, inputs and witnesses", "why_tests_cant": "tests use equal or full halves; the layout error shows only for unequal lengths, and the gate semantics is for circuits of any shape", "anchors": ["libra/src/circuit.rs:26-79", "libra/src/circuit.rs:110-190"]}
{"id": "C74", "title": "Libra's plain GKR protocol is complete for power-of-two layers and its prover panics otherwise", "statement": "Over any field of characteristic not two, for every circuit with at least one gate layer whose non-output layers have a power of two of gates, LinearGKRProof::prover returns the circuit's outputs and a proof that LinearGKRProof::verify accepts, for every challenge oracle. If some non-output layer does not have a power of two of gates, prover panics.", "quantifier": "for all circuits, inputs, witnesses, hashes and challenge oracles", "why_tests_cant": "completeness is claimed for circuits of every shape and depth and every challenge; a run fixes one", "anchors": ["libra/src/libra_linear_gkr.rs:28-198", "libra/src/sumcheck.rs"]}
{"id": "C75", "title": "Libra's plain verifier never looks at the gates, so any outputs can be proved", "statement": "LinearGKRProof::verify depends on the circuit only through its depth and layer sizes: two circuits with equally many gates per layer get the same verdict on every proof. An attacker program that does not evaluate the circuit produces, for any circuit with a gate layer, any input layer and any claimed outputs, a proof the verifier accepts, unless the extension of the input layer vanishes at the challenge points.", "quantifier": "for all circuits, input layers, claimed outputs, hashes and challenge oracles", "why_tests_cant": "this is a statement about a malicious prover; tests only run the honest one", "anchors": ["libra/src/libra_linear_gkr.rs:116-198", "libra/src/sumcheck.rs"]}
{"id": "C76", "title": "The sigma protocols of Spartan, Libra and Hyrax are complete and special-sound", "statement": "Spartan's knowledge, product, equality and per-round sum-check proofs (the first three also in libra and hyrax commitment.rs): an honest proof of a true statement is accepted and leaves prover and verifier with the same transcript. Conversely, from two accepting proofs with the same first message and two challenge oracles that first differ on the last challenge, an opening is computed (the statement lives in Type, so its proof is the extractor): of the commitment (knowledge), of all three commitments with the third value the product of the other two (product), a pure blinding difference (equality), or a round polynomial p whose commitment is the one sent and for which the combined claim commits to w0 (p(0) + p(1)) + w1 p(r) (sum-check round).", "quantifier": "for all fields, groups, parameters, values, blinds, transcripts and challenge oracles", "why_tests_cant": "tests run a handful of random instances of the honest prover; extraction talks about arbitrary accepting proofs", "anchors": ["spartan/src/prover.rs:725-964", "spartan/src/verify.rs:339-489", "libra/src/commitment.rs:13-210", "hyrax/src/commitment.rs:13-211"]}
{"id": "C77", "title": "A polynomial evaluation proof is accepted exactly when the claimed value is right", "statement": "packing_poly_commit followed by inner_product_proof and inner_product_verify, run honestly for a polynomial of 2^k coefficients and any claimed value: the verifier ends on the prover's transcript, and accepts if and only if b c (value - f(r)) q is the identity, where f is the multilinear extension of the coefficients, b and c the folded vector entry and the last challenge of that run, and q the value generator. In particular the true value is always accepted. With non-zero challenges, matching lengths and enough generators the prover does not panic.", "quantifier": "for all fields, groups, polynomials, points, claimed values, blinds, generators and challenge oracles", "why_tests_cant": "the statement ranges over all sizes and all challenge values; tests use one size with random challenges", "anchors": ["spartan/src/prover.rs:966-1060", "spartan/src/verify.rs:491-536", "spartan/src/inner_product.rs:12-155", "spartan/src/commitments.rs:10-56", "libra/src/commitment.rs:325-618"]}
{"id": "C78", "title": "Libra's and Hyrax's DotProductProof is neither complete nor sound", "statement": "DotProductProof::prover absorbs the two claim commitments where the verifier absorbs delta and beta, and both multiply the products a_i d_i together instead of adding them. An honestly made proof is accepted only if (c' - c) Cx is the identity, c and c' the challenges of the two different transcripts. And for every vector a of length at least two with non-zero entries, every challenge oracle and every value y, there is an accepted proof that y is the inner product of a with the committed vector (x1, 0, ..., 0), x1 non-zero.", "quantifier": "for all fields, groups, parameters, vectors, claimed values, blinds and challenge oracles", "why_tests_cant": "the type has no caller and no test in the repository", "anchors": ["libra/src/commitment.rs:212-322", "hyrax/src/commitment.rs:214-323"]}
{"id": "C79", "title": "Spartan's instance and matrix helpers compute what they are named after", "statement": "generate_r1cs returns an instance with the counts of the synthesised system, the next power of two of constraints, and the same satisfying assignments; the counts and constraints agree with synthesis by the prover whenever the circuit's shape does not depend on values. evaluate_matrix_vec gives the rows evaluated at z = (aux, inputs), evaluate_matrix_vec_col the transposed product, evaluate_mle the multilinear extension of the matrix with duplicate terms added up, and switch_matrix_to_list the non-zero entries in strictly increasing row-major order, in range, with the same sums.", "quantifier": "for all fields, circuits, matrices whose terms mention allocated variables, vectors and points", "why_tests_cant": "tests run one or two circuits and never compare the helpers with the matrix they stand for", "anchors": ["spartan/src/r1cs.rs:171-243", "spartan/src/polynomial.rs:60-118"]}
{"id": "C80", "title": "An honest Spartan NIZK verifies, except when a zero public input precedes a non-zero one", "statement": "For a circuit of fixed shape with a satisfying assignment, honest parameters and any challenges, the verdict of verify_nizk_proof on the output of create_nizk_proof is exactly: (c - c') beta h = c' vs r0 d g, where d is the difference between the extension of the public inputs with their zeros deleted and that of the public inputs. If no zero public input precedes a non-zero one then d = 0 and the proof is accepted. With non-zero challenges the prover does not fail. For g and h without known relation an honest proof about inputs with an inner zero is rejected unless vs r0 d vanishes.", "quantifier": "for all fields where 2 and 3 are non-zero, groups, circuits, witnesses, parameters, blinds and challenge oracles", "why_tests_cant": "a test with a zero input in the right place would be needed, and acceptance on samples says nothing about all circuits and challenges", "anchors": ["spartan/src/prover.rs:104-134", "spartan/src/prover.rs:200-723", "spartan/src/verify.rs:25-52", "spartan/src/verify.rs:103-405", "spartan/src/polynomial.rs:40-58"]}
{"id": "C81", "title": "Anyone can make a Spartan NIZK for any statement", "statement": "verify_nizk_proof evaluates the constraint matrices at the point (r_x, r_y) contained in the proof and never compares it with the point of its own challenges. For every instance, every public input that fits, every challenge oracle and every non-empty parameters, the proof consisting of zeros and identities with a point outside the matrices is accepted; it depends on the sizes of the instance only.", "quantifier": "for all fields, groups, instances, public inputs, parameters, hashes and challenge oracles", "why_tests_cant": "tests only feed honest proofs to the verifier", "anchors": ["spartan/src/verify.rs:25-52", "spartan/src/verify.rs:103-288", "spartan/src/polynomial.rs:60-82"]}
{"id": "C82", "title": "Spartan's offline memory checking: time stamps, totals and panics", "statement": "memory_in_the_head gives each access the number of earlier accesses to the same cell, over all lists in order, and each cell its total; it panics exactly when a list has the wrong length or an address is out of range. For the values read honestly from a memory of at least two cells, memory_checking succeeds for every gamma_1 and gamma_2 when the lists have at least two entries, its products are those of the fingerprints a*g1^2 + v*g1 + t - g2, and initial state times writes equals reads times final state. With lists of one entry it panics for every memory and every challenge.", "quantifier": "for all fields, challenges, memories, lists of addresses and lengths", "why_tests_cant": "the identity is over all challenges and all access patterns; tests use one matrix", "anchors": ["spartan/src/spark.rs:132-176", "spartan/src/spark.rs:209-312"]}
{"id": "C83", "title": "Spartan's product circuits compute the product of two or more elements", "statement": "evaluate_product_circuit of construct_product_circuit is the product of the list for every list of at least two elements, of whatever length; for lists of no or one element it panics.", "quantifier": "for all fields and all lists", "why_tests_cant": "the padding with ones happens per layer and depends on the whole binary length", "anchors": ["spartan/src/spark.rs:314-359"]}
{"id": "C84", "title": "Spartan's SNARK: honest proofs verify; circuits with one entry per matrix cannot be proved", "statement": "For parameters from generate_setup_snark_parameters and the encoding of the instance, every proof that create_snark_proof makes for a satisfied circuit is accepted by verify_snark_proof, provided no zero public input precedes a nonzero one. encode succeeds on every well-formed instance. The prover succeeds whenever the challenges are nonzero, it has enough random values, and some matrix of the instance has two nonzero entries. When each of the three matrices has at most one nonzero entry - a single multiplication, say - create_snark_proof panics for every witness, challenge and random value. verify_snark_proof answers false exactly when the first part (sat) does: a wrong evaluation proof makes it panic, never answer false.", "quantifier": "for all fields with 2 and 3 nonzero, groups, challenge functions, circuits, witnesses, random values and generators", "why_tests_cant": "completeness depends on the padded sizes of the sparse encoding, the memory checking and three packed openings at once; the tests prove fixed circuits", "anchors": ["spartan/src/prover.rs:137-198", "spartan/src/prover.rs:1062-1162", "spartan/src/verify.rs:54-101", "spartan/src/verify.rs:538-617", "spartan/src/spark.rs:18-105", "spartan/src/setup.rs:33-55"]}
{"id": "C85", "title": "Spartan's SNARK accepts proofs of false statements; its matrix evaluation proof binds nothing", "statement": "For an encoding made by encode under the key made by generate_setup_snark_parameters, for an instance in which some matrix has two nonzero entries, whenever the challenges are nonzero: (1) for every point (rx, ry) and every three field elements there is an evaluation proof that sparse_poly_eval_verify accepts for the claim that the three matrices take those values there (if each matrix has a nonzero entry); (2) a given program computes, for every list of public inputs shorter than half the padded variables, a proof that verify_snark_proof accepts, even if no assignment satisfies the instance. The timestamp check loops over the length of the address evaluations supplied by the prover, so moving them into the neighbouring list leaves the openings intact and skips the check. (3) For an instance with at most one nonzero entry in every matrix, verify_snark_proof accepts no proof at all.", "quantifier": "for all fields with 2 and 3 nonzero, groups, nonzero challenge functions, well-formed instances, encodings, generators, random values of the forger, public inputs and hashes", "why_tests_cant": "tests never submit an evaluation proof whose lists are split otherwise than the prover splits them", "anchors": ["spartan/src/verify.rs:54-101", "spartan/src/verify.rs:538-617", "spartan/src/verify.rs:843-1028", "spartan/src/verify.rs:1030-1083", "spartan/src/prover.rs:1062-1162"]}
{"id": "C86", "title": "Hyrax accepts proofs of false statements without a witness, and never answers false", "statement": "For every circuit with at least one layer, 2^k >= 2 instances, any public inputs that fit and any claimed outputs of the right length, a given program computes, from public data only, a proof that HyraxProof::verify accepts, whenever the challenges 'challenge_nextround' are nonzero. The sum-check verifier starts from the commitment comm_a0 found in the proof and never compares it with the commitment of the claim. In particular, for the circuit with one gate adding the public input 1 to itself, a proof of the output 1 is accepted although no witness gives that output. Whenever verify returns, it returns true: every failed check is an assertion that panics.", "quantifier": "for all fields, groups, challenge functions nonzero on the label, generators, circuits, numbers of instances, inputs, claimed outputs, witness commitment lengths and hashes", "why_tests_cant": "tests only submit proofs made by the honest prover", "anchors": ["hyrax/src/hyrax_proof.rs:214-355", "hyrax/src/zk_sumcheck_proof.rs:622-760", "hyrax/src/evaluate.rs:11-50", "hyrax/src/evaluate.rs:151-250", "hyrax/src/commitment.rs:426-490", "hyrax/src/params.rs:77-105"]}
{"id": "C87", "title": "Hyrax: the honest prover succeeds exactly on a narrow class of circuits and sizes, and its proofs are then accepted", "statement": "For a circuit from `Circuit::new` with at least one layer, parameters from `Parameters::new(num)` and a field in which 2 and 3 are not zero: (a) whenever `HyraxProof::prover` returns a proof and in every instance the input and the witness vector have the same length, the returned outputs are the values of the circuit and `HyraxProof::verify` accepts the proof; (b) if no challenge is zero the prover returns a proof (with the outputs of the circuit) when: the number of instances is 2^k with k >= 1, every layer has a power of two of gates and at most as many as the layer below has nodes (unless that has one node), every input fits, every witness vector pads to exactly half of the input layer, and the parameters are large enough; (c) in every other case the prover panics; (d) with a single instance the verifier panics on every proof.", "quantifier": "all fields with 2, 3 nonzero, groups, challenge functions, circuits, instance counts, inputs, witnesses, parameters and random values", "why_tests_cant": "The tests use one circuit of powers of two with several instances. That the prover panics for a layer wider than the one below (an index computed with log_g instead of log_ng), for a layer whose gate count is not a power of two, or for one instance, and that all other executions succeed and verify, is a statement about all circuits and sizes.", "anchors": ["hyrax/src/hyrax_proof.rs:29-354", "hyrax/src/zk_sumcheck_proof.rs:38-615", "hyrax/src/zk_sumcheck_proof.rs:622-770", "hyrax/src/evaluate.rs:11-251", "hyrax/src/commitment.rs:334-481", "hyrax/src/params.rs:17-105"]}
{"id": "C88", "title": "What two accepted proofs of a Hyrax layer give", "statement": "Let two proofs of one layer agree in every message sent before the last challenge and let both be accepted by `ZkSumcheckProof::verify` under challenge functions that first differ at that last challenge. Then: both runs return the same points and commitments; every round-polynomial commitment opens to a polynomial (four coefficients in the first log_n rounds, three in the others) computed from the two answers; and for all openings a, x, y, z of the commitments comm_a0, x, y, z in the proof, the combination, with the challenges drawn after the deltas, of the gaps of the sum-check run (p_0(0)+p_0(1)-a, p_j(0)+p_j(1)-p_{j-1}(r_{j-1}), add(x+y)+mul z - p_last(r_last), where add and mul are the gate sums at the points of the layer) is the value of an opening of the neutral element, and that opening is computed from the two proofs. So either these gaps combine to zero or a relation between the two generators is found.", "quantifier": "for all fields, groups, pairs of challenge functions, generators, gate lists, points, sizes and all pairs of accepted proofs, honest or not", "why_tests_cant": "A test can show that honest proofs are accepted. That acceptance of arbitrary messages determines committed polynomials and forces the linear relation between them is a statement about all provers.", "anchors": ["hyrax/src/zk_sumcheck_proof.rs:622-759", "hyrax/src/evaluate.rs:151-235", "hyrax/src/commitment.rs:121-219"]}
{"id": "C89", "title": "Hyrax's argument for one layer is sound when its claim is the committed one", "statement": "In the situation of C88, with gates numbered in order, operators 0 and 1 and operands in range: for all values vs of the layer below (one vector per instance) and all openings a, x, y, z, if a is not u0 V(qa,ql) + u1 V(qa,qr), V being the multilinear extension of the values of the layer above computed from vs, then one of the following holds: an opening of the neutral element to a value other than zero is computed from the two proofs and the openings (the commitment is not binding); the gaps are not all zero but orthogonal to the vector of challenges drawn after them (for every nonzero gap at most one value of its challenge does this); in some round the challenge is a zero of a nonzero polynomial with at most four coefficients that is fixed before it; or x, y are not the values of the layer below at the new points, or z is not xy. The proof goes through a sum-check soundness theorem for any function of degree at most d in each variable, and the facts that the layer polynomial has degree at most three in each variable and sums to the claim. Together with C86 this locates the defect of the whole protocol: the layers are sound, their claims are not linked.", "quantifier": "for all fields, groups, challenge functions, generators, gate lists, points, sizes, values of the layer below and pairs of accepted proofs; the sum-check theorem for all functions, degrees and numbers of variables", "why_tests_cant": "Soundness quantifies over all cheating provers and all wrong claims; no set of runs shows it.", "anchors": ["hyrax/src/zk_sumcheck_proof.rs:622-759", "hyrax/src/evaluate.rs:151-251"]}
{"id": "C90", "title": "When libra's zero-knowledge prover succeeds, and when its proof is accepted", "statement": "Let S be the least power of two not below the declared numbers of inputs and of witnesses, for a circuit with at least one layer of gates over a field of characteristic other than two. (a) If no challenge is zero and there are at most S inputs, exactly S witnesses, every layer of gates but the last has 2^k gates with k at least 1, and the parameters were made for at least half of log S (rounded up), the prover returns a proof and the output of the circuit on the input layer that Circuit::evaluate builds. (b) If one of these conditions on the sizes fails, it panics, for all challenges and randomness. (c) Every proof it returns for as many inputs as witnesses is accepted, with the output of the circuit on witnesses followed by inputs. (d) Finding: with fewer inputs than witnesses, evaluate pads between witnesses and inputs while the verifier pads after the inputs; the honest proof is accepted if the two layers agree at the two points the verifier arrives at, and if it is accepted although they do not agree, an opening of the neutral element to a nonzero value is computed from it; an honest proof that is rejected is exhibited. (e) For a circuit without gates the verifier panics on every proof.", "quantifier": "for all fields of characteristic other than two, groups, challenge functions, generators, circuits, inputs, witnesses and prover randomness", "why_tests_cant": "Tests run a few circuits with as many inputs as witnesses; the panics and the padding mismatch concern other sizes, and completeness must hold for all randomness and circuits.", "anchors": ["libra/src/libra_zk_linear_gkr.rs:41-268", "libra/src/libra_zk_linear_gkr.rs:271-469", "libra/src/circuit.rs:140-185", "libra/src/circuit.rs:82-113"]}
{"id": "C91", "title": "The committed sum-checks of spartan and libra are sound under rewinding", "statement": "`sum_check_eval_verify`, the check of one round of the sum-checks of spartan (sizes 4 and 3) and libra (size 3): from four accepted answers (two last challenges after each of two pairs of weights with nonzero determinant) an extractor computes the polynomial p of the round, with an opening of its commitment, an opening of the commitment to the claim at p(0) + p(1) and an opening of the next claim at p(r); or it computes a nonzero relation between the generators. For all rounds together: if the first claim opens to a, the values at the ends of all rounds fit (p_1(0) + p_1(1) = a, p_{j+1}(0) + p_{j+1}(1) = p_j(r_j), and the last claim opens to p_n(r_n)). Hence for every function F of degree at most d in each of n variables: if a is not the sum of F over the cube, then the last claim does not open to F(r_1..r_n), or in some round the challenge is a zero of a nonzero polynomial with at most d + 1 coefficients that is fixed before it, or a relation between the generators is computed.", "quantifier": "for all fields, groups, challenge functions, generators, sizes, numbers of rounds, proofs, answers under rewinding, functions F and degrees", "why_tests_cant": "Soundness quantifies over all cheating provers; tests run the honest one.", "anchors": ["spartan/src/verify.rs:291-337", "spartan/src/verify.rs:339-406", "libra/src/sumcheck.rs:524-581"]}
{"id": "C92", "title": "The layers of libra's zero-knowledge protocol are sound under rewinding", "statement": "The layer loop of `ZKLinearGKRProof::verify`, over any legal circuit: given an accepted run, the further answers of C91 for every round and two answers for the product and equality proof of each layer, an extractor computes either a nonzero relation between generators, or for every layer openings of all round polynomials and of the two values x, y sent, such that: for every vector inp of values of the input layer, if the opened claim is not alpha V(gu) + beta V(gv), V being the multilinear extension of what the circuit computes from inp in that layer, then the run was lucky (in some layer a round challenge is a zero of a nonzero polynomial with at most three coefficients fixed before it, or wrong values x, y are made up for by the weights drawn after them), or the last x, y, which open the commitments handed to the check of the input layer, are not the values of inp at the final points.", "quantifier": "for all fields, groups, challenge functions, parameters, legal circuits, depths, proofs, answers under rewinding and inputs", "why_tests_cant": "Soundness of a layered protocol is an induction over layers and over all provers; no run shows it.", "anchors": ["libra/src/libra_zk_linear_gkr.rs:312-403", "libra/src/libra_zk_linear_gkr.rs:271-469"]}
{"id": "C93", "title": "The log-size dot-product proof of spartan, libra and hyrax binds the evaluation of a committed polynomial to the committed rows", "statement": "Take a tree of accepted runs of `LogDotProductProof::verify` (libra and hyrax) or of the dot-product part of spartan's `inner_product_verify` for the same two commitments: three challenges with different squares to every L, R of the same number k of rounds, and two last challenges at every leaf whose folded r_eq is not zero. From it one computes a vector x of 2^k entries and a blind r with Cx + Cy = <x, G> + <x, r_eq> q + r h. Hence, if Cx opens to w and Cy to y, either y = <w, r_eq> or a linear relation between the generators is computed. If the row commitments handed to `reduce_verifier` / `inner_product_verify` open to the rows of a vector v (missing rows count as zeros, further ones as nothing), the value y opened by commit_ry equals the multilinear extension of v at the point, or a relation is computed. Exception, and a finding: the number of rounds is taken from the proof, so at a point with a coordinate equal to 1 in its second half (in particular at boolean points) a proof without rounds is accepted for every pair of commitments.", "quantifier": "for all fields, groups, parameters, commitments, vectors, points, transcripts, labels, round counts k and trees of runs", "why_tests_cant": "Soundness is about all provers, with no bound on the number of rounds, and about what can be computed from 2 * 3^k related runs; a test replays single runs of an honest prover. The void proof needs a point that random challenges never hit.", "anchors": ["libra/src/commitment.rs:392-422", "libra/src/commitment.rs:461-479", "libra/src/commitment.rs:572-617", "spartan/src/verify.rs:491-536", "spartan/src/inner_product.rs:104-155", "hyrax/src/commitment.rs:463-481"]}
{"id": "C94", "title": "Libra's zero-knowledge verifier accepts wrong outputs only with a broken commitment key or an unlucky challenge", "statement": "Let `ZKLinearGKRProof::verify` accept a proof for claimed outputs and public inputs, with parameters from `Parameters::new` large enough for the witness, and let the run be rewound: further accepted answers for every sum-check round, product proof and equality proof of every layer, and a tree of runs for each of the two evaluation proofs of the witness. Then for every opening of the proof's row commitments to a witness vector w one of these holds. (a) A linear relation between the generators of the three-element key or of the witness key is computed. (b) The multilinear extension of the claimed outputs agrees, at the point drawn after outputs and commitments are absorbed, with that of the outputs the circuit really computes on the input layer (w, inputs) padded with zeros. (c) Some later challenge is a zero of a nonzero polynomial with at most three coefficients that is opened before it is drawn, or two wrong values are made up for by the two weights drawn after them. The polynomials and values of (c) are computed from the runs and open the commitments of the proof. Prover behaviour is otherwise arbitrary.", "quantifier": "for all fields, groups, oracles, parameters, circuits, outputs, inputs, proofs, rewound runs and openings of the witness commitments", "why_tests_cant": "The statement is about all provers and about what is computable from related runs of the verifier; tests run the honest prover on fixed circuits.", "anchors": ["libra/src/libra_zk_linear_gkr.rs:271-469", "libra/src/sumcheck.rs", "libra/src/commitment.rs:392-422", "libra/src/commitment.rs:461-479"]}
{"id": "C95", "title": "Groth16 is knowledge sound against provers that only use the group operations", "statement": "Let a prover be given by coefficients: its proof elements are fixed linear combinations of the generator and all elements of the proving key in the right group (`vk.alpha_g1`, `beta_g1`, `delta_g1`, `a_query`, `b_g1_query`, `gamma_abc_g1`, `h_query`, `l_query`; `beta_g2`, `gamma_g2`, `delta_g2`, `b_g2_query`). If for public inputs xs the proof so computed is accepted by `verify_proof` for every key that `generate_parameters` makes from the trapdoors of a grid (three values of alpha, of beta and of gamma, four of delta, 2m - 1 of t, where m is the domain size; gamma and delta nonzero), then xs together with the coefficients the third proof element has on `l_query` satisfies every constraint of the circuit. Conversely for every satisfying assignment there are coefficients, with the auxiliary values as those on `l_query`, whose proof is accepted for every trapdoor with gamma and delta nonzero.", "quantifier": "for all fields, nondegenerate pairings, domain families, circuits, coefficient vectors, public inputs and grids of trapdoors", "why_tests_cant": "The statement is about all strategies of a generic prover and about all keys at once; tests run the honest prover with one key.", "anchors": ["groth16/src/generator.rs:135-286", "groth16/src/verifier.rs:8-44", "groth16/src/r1cs_to_qap.rs:58-110"]}
{"id": "C96", "title": "Groth16 proofs are perfectly zero-knowledge", "statement": "Fix a key made by `generate_parameters` with nonzero gamma and delta, over cyclic groups with a nondegenerate pairing. For every prover run whose assignment satisfies the circuit, an arbitrary proof is accepted by `verify_proof` for the run's public inputs if and only if `create_proof` outputs it for exactly one pair (r, s) of its two random field elements. So with uniform r and s the honest proof is uniform on the accepted proofs, and depends on the public inputs only: for two satisfying witnesses with the same public inputs every proof of the one is the proof of the other for exactly one pair of coins. A simulator that knows the trapdoor and no witness outputs, for two chosen field elements, an accepted proof for any public inputs of the right number, and every accepted proof for exactly one choice.", "quantifier": "for all fields, nondegenerate pairings of cyclic groups, domain families, circuits, satisfying assignments, trapdoors, coins and proofs", "why_tests_cant": "Zero knowledge compares distributions over all coins and all witnesses; a test sees single proofs.", "anchors": ["groth16/src/prover.rs:124-211", "groth16/src/generator.rs:135-286", "groth16/src/verifier.rs:8-44"]}
{"id": "C97", "title": "The commitment proofs of spartan, libra and hyrax are perfectly zero-knowledge", "statement": "If the blinding generator h of the commitment key generates the group (every element is exactly one multiple of h), every commitment opens to every vector, with exactly one blind. For every challenge function and transcript, and for true statements: an arbitrary proof is accepted by the verifier of the proof of knowledge, of equality, of a product, of the evaluation of a committed polynomial, of a log-size dot product, or of a whole committed sum-check (spartan's two phases, libra's two phases), if and only if the honest prover outputs it for exactly one choice of its random values. For the vectors inside a proof this is said for the lengths the honest prover produces. So honest proofs with uniform coins are uniform on the accepted proofs of that shape, whatever the witness: the same proof is also the proof of any other opening of the same commitments.", "quantifier": "for all fields, groups, challenge functions, transcripts, keys, statements, witnesses, blinds and arbitrary proofs; for sum-checks all numbers of rounds and tables; for log-size proofs all lengths 2^k", "why_tests_cant": "Zero knowledge is an equality of distributions over all coins and all witnesses; a test sees single proofs and cannot tell whether another witness would have given the same ones.", "anchors": ["spartan/src/prover.rs:725-827", "spartan/src/prover.rs:829-863", "spartan/src/prover.rs:865-930", "spartan/src/prover.rs:932-964", "spartan/src/verify.rs:339-489", "libra/src/commitment.rs:19-59", "libra/src/commitment.rs:69-109", "libra/src/commitment.rs:121-209", "libra/src/commitment.rs:334-422"]}
{"id": "C98", "title": "libra's zero-knowledge protocol is perfectly zero-knowledge", "statement": "Let the circuit be one built by Circuit::new with at least one layer, let the parameters be those of Parameters::new, let both blinding generators span the group, let 2 be nonzero in the field, and let the public inputs and the witness satisfy the prover's size conditions (property C90) and have the same length. Then, for every function giving the challenges: a proof of the verifier's shape is accepted by ZKLinearGKRProof::verify for the circuit's true output if and only if some choice of the prover's random values makes ZKLinearGKRProof::prover return exactly this proof; and any two such choices agree on every random value the prover reads. Consequently, whenever two witnesses give the same output, every proof returned for the first is returned for the second too, with one and only one choice of the random values: the proof does not depend on which witness was used.", "quantifier": "all fields with 2 <> 0, groups, challenge functions, parameters, circuits, public inputs, witnesses, random values and proofs", "why_tests_cant": "That the distribution of proofs is the same for two witnesses is a statement about all choices of the random values at once; a test sees one proof, and the field has more than 2^250 elements.", "anchors": ["libra/src/libra_zk_linear_gkr.rs:41-268", "libra/src/libra_zk_linear_gkr.rs:271-469", "libra/src/sumcheck.rs:186-306", "libra/src/sumcheck.rs:308-426", "libra/src/commitment.rs:424-487"]}
{"id": "C99", "title": "What spartan's proofs reveal about the private assignment: one evaluation of it, sent in the clear, and nothing else", "statement": "Let two circuits have the structure of the one the instance was generated from, run without error, be satisfied, and have the same public inputs; let the parameters fit the instance, the blinding generators of the three commitment keys used for scalars and round polynomials span the group, and 2 and 3 be nonzero in the field. Call the value of a circuit at a proof the multilinear extension of its private assignment, padded with zeros, at the coordinates of ry after the first. Then for every proof returned by create_nizk_proof for the first circuit: (leak) the proof's field w_ry, which the verifier never reads, is the first circuit's value; (nothing else) replacing this field by the second circuit's value gives a proof that create_nizk_proof returns for the second circuit, with one and only one choice of the random values it reads; consequently the very proof is one that could have been made from the second circuit if and only if the two values are equal, so the NIZK is not zero-knowledge. (Recovery) From proofs for the same assignment with a linear combination of their vectors eval_eq(ry[1..]) equal to the j-th unit vector, the j-th private value is the same combination of their fields w_ry; with a single private value one proof suffices. The same leak and the same converse hold for create_snark_proof, where ry is the point any accepting run of the verifier recomputes.", "quantifier": "all fields with 2, 3 <> 0, groups, challenge functions, circuits, instances, fitting parameters, random values and proofs; for the recovery any finite list of proofs", "why_tests_cant": "That no randomness whatever turns a proof for one secret into a proof for another, and that everything but one field is distributed independently of the secret, are statements about all choices of the random values; completeness tests pass because the verifier does not look at the field.", "anchors": ["spartan/src/prover.rs:104-134", "spartan/src/prover.rs:200-420", "spartan/src/data_structure.rs:190-201", "spartan/src/verify.rs:103-288"]}
{"id": "C100", "title": "What a hyrax proof shows of the witness: nothing for equally wide layers, inner values in the clear for a narrower last layer", "statement": "Let every layer of the circuit have as many gates as the input layer has nodes, and let two witnesses (one vector per instance, as many values as inputs, within the limits of the parameters) have the same outputs. Then whatever proof HyraxProof::prover returns for the first witness with some random values, it returns for the second witness with exactly one other choice of the random values it reads. If instead the last layer has 2^a gates and the layer below 2^b nodes with a < b, the blinds of the value commitments of the last sum-check are those of the sum-check before (zk_sumcheck_proof.rs:431 indexes by log_g instead of log_ng), so that for j < b - a the commitments comm_evals[log_n + a + j] and comm_evals[log_n + b + j] of the first layer proof differ by exactly v * g, where g is the public generator and v is the difference of two partial sums of the layer polynomial over the values of the inner layer, at points everyone can compute from the proof. Two witnesses with different v never have a proof in common, so the proof tells them apart whatever randomness the prover uses.", "quantifier": "all fields where 2 and 3 are not zero, groups, oracles, parameters, circuits, numbers of instances 2^k, inputs, pairs of witnesses, and random values", "why_tests_cant": "A test can verify an honest proof, which passes; that a different witness could have given the same proof for every choice of random values, or that no choice at all does, is a statement over the whole space of random values.", "anchors": ["hyrax/src/zk_sumcheck_proof.rs", "hyrax/src/hyrax_proof.rs"]}
{"id": "C101", "title": "What the digests absorbed first determine: everything except the rows of an R1CS instance", "statement": "Digests equal for every hash function mean equal transcripts. r1cs_to_hash (spartan) writes the terms of a matrix one after the other without marking where a row ends, so two instances have the same digest exactly if their three counts and, for each matrix, the concatenation of its rows are the same. Hence every instance has the digest of the instance whose first constraint is (sum of all rows of A) * (sum of all rows of B) = sum of all rows of C and whose other constraints are 0 * 0 = 0; and two circuits, one that no assignment satisfies and one that every assignment satisfies, have the same digest. The other digests are faithful: circuit_to_hash (libra, hyrax) determines the circuit, param_to_hash (libra, hyrax, spartan NIZK and SNARK) the parameters, encode_to_hash the commitments of the encoding.", "quantifier": "all fields, groups, pairs of instances, circuits, parameters and encodings; all functions from transcripts to field elements", "why_tests_cant": "Two instances have to be chosen to collide; tests hash one instance once.", "anchors": ["spartan/src/r1cs.rs", "spartan/src/data_structure.rs", "hyrax/src/circuit.rs", "hyrax/src/params.rs", "libra/src/circuit.rs", "libra/src/params.rs"]}
{"id": "C102", "title": "bulletproofs: a proof says nothing about which satisfying assignment made it", "statement": "Take two runs of a circuit (the same constraints, the same public inputs, two private assignments, both satisfying) and one choice of the prover's coins for the first. The proof create_random_proof returns for the first run is returned for the second run for exactly one choice of coins. So the coins of the two runs are in bijection with equal outputs, and with uniformly random coins the two distributions of proofs are the same. The vectors l_x, r_x that the proof carries in the clear are included: the masks sL, sR (drawn for max(constraints, private variables) positions and zero in the padding) cover every position that depends on the assignment.", "quantifier": "all fields, groups whose every element is exactly one multiple of the blinding generator h, circuits and pairs of satisfying private assignments, coins, and all oracles that never return 0", "why_tests_cant": "Indistinguishability quantifies over the coins; a test sees single proofs.", "anchors": ["bulletproofs/src/arithmetic_circuit.rs", "bulletproofs/src/inner_product_proof.rs", "bulletproofs/src/lib.rs"]}
{"id": "C103", "title": "gadgets test system: names, values and satisfaction", "statement": "A circuit that synthesizes on TestConstraintSystem synthesizes on the provers' constraint systems with the same result, the same variables, values and constraints: the test system adds only panics. It panics exactly when a name contains '/', when the full path is already taken (by a variable, a constraint or a namespace), when a value closure panics, and when a namespace is closed that was never opened; so a namespace cannot be entered twice, even in sequence. Distinct (namespace, name) pairs have distinct paths, and in every state a circuit reaches each variable and each constraint has a path of its own: get returns the value of the one variable of that path and panics on other paths; set changes that one value and nothing else. which_is_unsatisfied returns the path of the first violated constraint; is_satisfied is true exactly if the assignment satisfies all constraints; verify panics on a wrong length and otherwise compares all inputs after the first. Finding: set(\"ONE\", x) is accepted and overwrites the constant: the system with the single constraint 1 * 1 = 0 then reports itself satisfied though no assignment satisfies it. Finding: the trait's num_constraints is todo!(), so generic circuit code calling it panics on this system.", "quantifier": "all fields, circuits as programs over the trait's operations (with values depending on variables handed out), states, names, values", "why_tests_cant": "The source's own test runs one circuit with three variables; which names collide and that set touches nothing else are statements about all states.", "anchors": ["gadgets/src/test_constraint_system.rs"]}
{"id": "C104", "title": "gadgets test system: what the digest of a circuit determines", "statement": "hash() of two test systems is equal for every hash function exactly if they have the same number of inputs, of auxiliary variables and of constraints and, position by position, the three linear combinations of the constraints are equal as combinations (for every variable the coefficients add up to the same element). So reordering terms, splitting a coefficient or adding cancelling terms does not change the digest, and names and assigned values never enter it; any other change to a constraint changes the hashed bytes. proc_lc computes a normal form: equal outputs exactly for equal combinations.", "quantifier": "all fields with an injective encoding of fixed length up to 32 bytes, all pairs of systems with sizes below 2^64", "why_tests_cant": "A regression test compares one digest with a literal; which circuits share a digest is a statement about pairs of circuits.", "anchors": ["gadgets/src/test_constraint_system.rs"]}
{"id": "C105", "title": "Marlin: proofs do not depend on which satisfying assignment made them", "statement": "Let a key be made for a circuit and let two synthesis runs of that circuit have the same public inputs, each with a satisfying assignment of its own. Then for every proof there is a bijection of the random numbers the prover draws (the three blinding coefficients, the 3h coefficients of the mask, two coefficients per hiding commitment) such that whenever create_random_proof on the first assignment yields this proof, and the run on the second assignment with the rearranged random numbers ends with a proof, the two proofs show the same: all commitments of the three rounds, all evaluations, and of the openings the group element and the value of the blinding polynomial; and the same in the other direction. It needs the challenges outside the evaluation domain, beta different from the trapdoor, at least 3 points in the domain, as many inputs as the input domain has points, and blinding coefficients different from zero.", "quantifier": "all fields, pairings, circuits, keys, pairs of satisfying assignments, transcripts and random numbers", "why_tests_cant": "A test sees single proofs; that the same distribution of proofs belongs to every satisfying assignment is a statement about all random numbers and all pairs of assignments.", "anchors": ["marlin/src/lib.rs", "marlin/src/ahp/prover.rs", "marlin/src/pc/mod.rs", "marlin/src/pc/kzg10.rs"]}
{"id": "C106", "title": "What the Fiat-Shamir generators of marlin and plonk hash determines the protocol messages", "statement": "The bytes written into the hash by marlin (index verifier key, public inputs, then three lists of commitments and the evaluations, each followed by the previous seed) and by plonk (protocol name, public inputs, the same four messages) can be read back: if two runs have the same seed at the same stage, then everything absorbed up to that stage was the same, although vectors are written without their length and an absent shifted commitment as zero with a flag; otherwise two of the strings hashed in the two runs are different and have the same hash. Marlin's verifier reads its generator in the states after one, two, three and four calls of absorb and in no other. Plonk's seed does not contain the key: it determines the public inputs and the messages only.", "quantifier": "every field, pairing, fixed-length injective encoding of field and group elements, hash function with outputs of one length, keys whose sizes fit their integer types, public inputs, proofs with lists of any length, and stage", "why_tests_cant": "an ambiguity would need two crafted transcripts whose byte strings coincide", "anchors": ["marlin/src/fs_rng.rs:34-70", "plonk/src/rng.rs:30-71", "marlin/src/lib.rs:106-157", "marlin/src/lib.rs:184-205", "plonk/src/lib.rs:100-122", "plonk/src/lib.rs:212-228", "marlin/src/pc/data_structures.rs:111-154", "marlin/src/data_structures.rs:23-33"]}
{"id": "C107", "title": "The command-line programs do what their arguments and files say, and the verdict is the verifier's on what was generated and proved", "statement": "`setup` ends successfully exactly when it is given a scheme among groth16, spartan_snark and spartan_nizk, the curve bls12_381 and a circuit among mini and hash (mini when none is named) and the generation succeeds; it then writes the scheme's files for that circuit from the circuit without values, and otherwise writes nothing. `zkp-prove` ends successfully exactly when scheme, curve and circuit are known, the circuit's arguments can be read, the key file can be read and proving succeeds; it then writes one file whose contents are the three names, the public input and the proof in hexadecimal. After a setup and a proof, `zkp-verify` on that file prints the verdict of the scheme's verifier on the generated key, the proof made and the public input, whatever happened to other files. The arguments of mini are decimal numerals below 2^64 with an optional plus sign, reading undoes writing, and the circuit is satisfied exactly when x * (y + 2) = z in the integers, provided both sides are below the field's modulus.", "quantifier": "for all command lines, file systems, random draws, schemes, lossless serializations, fields and round constants", "why_tests_cant": "Each program is a chain of string comparisons, file names and conversions; tests run a handful of command lines, none with unknown names, missing files or unreadable numbers, and there are no tests of these binaries at all.", "anchors": ["cli/src/setup.rs:12-130", "cli/src/zkp_prove.rs:12-175", "cli/src/zkp_verify.rs:12-163", "cli/src/circuits/mini.rs:13-75", "cli/src/circuits/hash.rs:13-49", "cli/src/circuits/mod.rs:4-7"]}
{"id": "C108", "title": "zkp-verify accepts honest proofs, but also any hash image under groth16 and anything at all under bulletproofs", "statement": "With the modelled groth16 and bulletproofs behind the programs: once `setup groth16` has finished, proving a correct product x * (y + 2) = z, or the hash of a non-empty string, finishes and `zkp-verify` prints that the proof is valid; under bulletproofs the same holds for correct products. However, under the key of an honest `setup groth16 bls12_381 hash`, for every field element there is a proof file claiming it to be an image that `zkp-verify` accepts, because the circuit never constrains its public input; and under bulletproofs, for both circuits and every public input there is a file accepted whatever other files exist, because generators and circuit are read from the proof file itself and the verdict depends on no other file. Calling `setup` with the scheme only, or `zkp-prove` with fewer than three arguments, panics instead of printing the usage message.", "quantifier": "for all fields, pairings, groups, key material, blinds, random oracles without zero challenges, file systems and public inputs", "why_tests_cant": "Acceptance of forged files is invisible to tests that verify what the prover wrote; that no preimage or satisfying assignment is needed is a statement about all public inputs.", "anchors": ["cli/src/zkp_verify.rs:51-111", "cli/src/zkp_prove.rs:34-124", "cli/src/circuits/hash.rs:13-29", "cli/src/setup.rs:94-119", "bulletproofs/src/arithmetic_circuit.rs:187-302"]}
{"id": "C109", "title": "The parameters of the Ristretto scalar field are right, except the exponents, the two-adic root and the generator; squares are not recognised", "statement": "MODULUS of curve25519::Fr is 2^252 + 27742317777372353535851937790883648493 and is prime; R, R2, INV, MODULUS_BITS, CAPACITY, REPR_SHAVE_BITS and TWO_ADICITY are what they should be. MODULUS_MINUS_ONE_DIV_TWO, T and T_MINUS_ONE_DIV_TWO are not, the two-adic root of unity is zero, and the generator is a square. Consequently `legendre` answers QuadraticResidue exactly for the twelfth roots of one: squares y*y with y^24 <> 1, among them n*n for every n from 2 to 1448, are called non-residues and `sqrt` answers None, and some non-square is called a residue.", "quantifier": "All elements of the field.", "why_tests_cant": "No test of the repository takes a square root or a Legendre symbol of this field, and the set of elements answered wrongly is only characterised by a theorem over a field of 2^252 elements.", "anchors": ["curve25519/src/fr.rs:13-98"]}
{"id": "C110", "title": "The Ristretto wrapper computes multiples and sums of points; write and read are inverse, serialize and deserialize are not", "statement": "`mul_assign` by s is the s-fold point; `AffineCurve::mul` is the multiple for representations below the group order and panics otherwise; `ProjectiveCurve::mul` is the multiple for four limbs with value below the order and panics otherwise; `vartime_multiscalar_mul` adds the multiples up to the shorter length; `sum` adds; multiplication by the cofactor is multiplication by eight although COFACTOR is zero. `read` after `write` gives the point back and reads nothing else. `serialize` writes 40 bytes though `serialized_size` is 32, and `deserialize` takes the first 32 of them: it never gives back the point and the rest of the reader, leaves eight bytes over, and gives the same point only for the one encoding that is four times the length prefix.", "quantifier": "All groups over the scalar field with any injective 32-byte encoding; all points, scalars, integers, limbs, byte strings.", "why_tests_cant": "The repository never serializes a Ristretto point through CanonicalSerialize in its tests; whether a wrong result arises for all points needs a statement about all of them.", "anchors": ["curve25519/src/group.rs:29-47", "curve25519/src/group.rs:58-94", "curve25519/src/group.rs:145-173", "curve25519/src/group.rs:217-225", "curve25519/src/group.rs:260-338"]}
{"id": "C111", "title": "Radix-2 domains are what the proof systems assume; over BLS12-381's scalars they exist up to 2^32, over curve25519's none is valid", "statement": "In a field with an element of order 2^s and a shift whose 2^s-th power is not one, the domain made for n has the least power of two not below n as size, consists of that many distinct roots of unity, is nested with the other domains, and is refused exactly for n > 2^s. The order of BLS12-381's groups is prime and its two-adic root and generator satisfy this with s = 32, so the assumptions on domains in the theorems on groth16 and marlin hold for the field the programs use. With the parameters of the crate curve25519 every domain has generator zero and is not a domain.", "quantifier": "All fields, all numbers of coefficients.", "why_tests_cant": "Domains up to 2^32 points over a field of 2^255 elements cannot be enumerated, and primality of the order is not testable by running the code.", "anchors": ["groth16/src/generator.rs:166", "groth16/src/r1cs_to_qap.rs:63", "groth16/src/r1cs_to_qap.rs:123-124", "marlin/src/ahp/indexer.rs:82-89", "curve25519/src/fr.rs:17-25"]}
{"id": "C112", "title": "Over BLS12-381: setup, zkp-prove and zkp-verify in a row accept every correct product of 64-bit numbers", "statement": "With groth16 over the scalar field of BLS12-381 and its radix-2 domains: a satisfied circuit with at most 2^32 constraints and inputs gets keys, a proof, and a positive verdict; with more, it is refused. For 64-bit numbers x, y, z the circuit's equation in the field is x * (y + 2) = z over the integers. For decimal numerals of such numbers, `setup groth16 bls12_381` finishes whenever gamma and delta are drawn nonzero, `zkp-prove` finishes, and `zkp-verify` prints that the proof is valid, whatever files there were before.", "quantifier": "All pairings over the field, all draws with nonzero gamma and delta, all triples of 64-bit numbers with the equation, all further arguments and previous files, any lossless encodings of json, keys and proofs.", "why_tests_cant": "The end-to-end run is only tried on a few numbers by hand; absence of wrap-around and of failures for all 2^128 pairs needs proof.", "anchors": ["cli/src/setup.rs:20-130", "cli/src/zkp_prove.rs:30-130", "cli/src/zkp_verify.rs:20-150", "groth16/src/generator.rs:135-286"]}
{"id": "C113", "title": "The Rescue and Poseidon example circuits publish the native hash", "statement": "With both preimage halves given, the example circuits `RescueDemo` and `PoseidonDemo` synthesise without error, the recorded values satisfy every constraint and the one public input is exactly `rescue_hash`/`poseidon_hash` of the preimage (unlike the library gadgets of C29). With a half missing, proving returns `AssignmentMissing` and key generation panics on an unwrap, so keys can only be made with a preimage at hand.", "quantifier": "all fields, constants, matrices, exponents (non-zero for the panic), round numbers, preimages, starting constraint systems", "why_tests_cant": "the examples run a few random preimages and always supply values", "anchors": ["gadgets/examples/rescue_groth16.rs: RescueDemo, pow_with_constraint, rescue_hash", "gadgets/examples/rescue_spartan.rs: RescueDemo", "gadgets/examples/poseidon.rs: PoseidonDemo, poseidon_hash"]}
{"id": "C114", "title": "The example circuits do not bind their public output, and the inverse exponent is for another field", "statement": "For every preimage and every claimed output there is an assignment satisfying all constraints of `RescueDemo` and of `PoseidonDemo` with that preimage and that output: the matrix entries, the row accumulators, the power accumulators and the third state entry are unconstrained witnesses. The constant INVALPH undoes x^5 in every prime field whose order is the one in the source comment, but not in the BLS12-381 scalar field the examples use.", "quantifier": "all fields, constants, preimages, outputs; all x of a field of the stated order; witness for BLS12-381", "why_tests_cant": "malicious assignments; the examples only check honest proofs", "anchors": ["gadgets/examples/rescue_groth16.rs: RescueDemo, INVALPH", "gadgets/examples/poseidon.rs: PoseidonDemo", "gadgets/src/hashes/rescue.rs: INVALPH"]}
{"id": "C115", "title": "The MiMC Merkle tree example circuit proves membership for the true root", "statement": "For the circuit `MerkleTreeCircuit` of the MiMC example: the native merge of two field elements is MiMC of the pair; a prover's run with a path, a root and a leaf ends without error with exactly [1, root] as public inputs, and its own values satisfy the constraints if and only if climbing the path from the leaf gives the root; the path and root built by the tree always do. A setup run and a prover's run have the same shape if and only if their paths have equal length, with k*(1+2*rounds)+1 constraints for k siblings. A Groth16 key made with any path of the same length (the all-zero tree of the example) then yields a proof the verifier accepts for the root. A missing leaf (with a non-empty path) or proof panics in setup, and any missing value panics in proving.", "quantifier": "all prime fields, constants, trees, leaves, paths, roots, randomness, evaluation domains, pairings", "why_tests_cant": "the example covers eight leaves and one field, and never a path of another length or a missing value", "anchors": ["gadgets/examples/merkle_tree_mimc.rs: MergeMimc, MerkleTreeCircuit, main", "gadgets/src/merkletree/cbmt_constraints.rs: MerkleProofGadget::set_membership", "gadgets/src/merkletree/cbmt.rs: CBMT::build_merkle_tree, build_proof", "gadgets/src/hashes/mimc.rs: AbstractHashMimcOutput, hash_enforce"]}
{"id": "C116", "title": "A key of the MiMC Merkle example accepts every root; one key serves all leaves only for power-of-two trees", "statement": "For every key honestly generated for the MiMC Merkle circuit with a non-empty path, and every field element y, there is a proof the verifier accepts for the public root y; moreover the constraints are satisfiable for every pair of root and leaf. The path for leaf j of a tree of n leaves has index n+j-1 and exactly floor(log2(n+j)) siblings, so all leaves of a tree have paths of one length, hence share one key, exactly when n is a power of two.", "quantifier": "all prime fields, constants, keys, roots, leaves; all trees of at most 2^31-1 leaves", "why_tests_cant": "forged witnesses; the example only checks honest proofs and a tree of eight leaves", "anchors": ["gadgets/examples/merkle_tree_mimc.rs: MerkleTreeCircuit, main", "gadgets/src/merkletree/cbmt_constraints.rs: MerkleProofGadget::set_membership", "gadgets/src/merkletree/cbmt.rs: MerkleTree::build_proof"]}
{"id": "C117", "title": "Merkle tree example circuit with SHA-256: an honest run succeeds exactly when the path reaches the root, and its proof verifies", "statement": "For every path of byte strings, root and leaf, synthesis by the prover succeeds, the public inputs are 1 followed by the bits of the root's bytes (most significant first), and the assignment satisfies the constraints exactly when the bits obtained by hashing along the path with SHA-256 agree with the root's bits on their common prefix; for a 32-byte root and a non-empty path this is equality. The tree built with the program's merge function gives, for every leaf, a path and root with that property. Runs with the same index and the same byte lengths have the same constraints in the generator and the prover, so a key generated from any such material yields proofs the verifier accepts. A missing path, root or leaf panics in every mode.", "quantifier": "all prime fields of at least 64 bits; all paths, roots, leaves and trees of at most 2^31-1 leaves; all pairing groups and trapdoors", "why_tests_cant": "the example runs one tree of eight 32-byte leaves", "anchors": ["gadgets/examples/merkle_tree_sha256.rs: MergeSha256::merge, MerkleTreeCircuit::generate_constraints, main", "gadgets/src/merkletree/cbmt_constraints.rs: MerkleProofGadget::set_membership", "gadgets/src/hashes/sha256.rs: AbstractHashSha256Output, AbstractHashSha256::hash_enforce", "gadgets/src/merkletree/cbmt.rs: MerkleTree::build_proof"]}
{"id": "C118", "title": "A key of the SHA-256 Merkle example accepts every root of the same length; short roots are compared only on a prefix", "statement": "hash_enforce allocates fresh bits for the digest and never ties them to the computed digest, so for every key honestly generated for the circuit with a non-empty path and every byte string y as long as the key's root, the constraints have a solution with public root y and there is a proof the verifier accepts for it. For a root of at most 32 bytes the prover's own check only asks that the root be a prefix of the digest, so an empty root accepts every leaf.", "quantifier": "all prime fields of at least 64 bits, keys, roots and leaves", "why_tests_cant": "forged witnesses; the example only checks honest proofs with 32-byte roots", "anchors": ["gadgets/src/hashes/sha256.rs: AbstractHashSha256::hash_enforce", "gadgets/src/merkletree/cbmt_constraints.rs: MerkleProofGadget::set_membership", "gadgets/examples/merkle_tree_sha256.rs: MerkleTreeCircuit, main"]}
{"id": "C119", "title": "Plonk's IndexInfo encoding: reading inverts writing, the announced size is right, truncated input is refused", "statement": "For all encodings of field elements and domains that can be read back whatever follows, reading an IndexInfo written by serialize (in each of its three variants), followed by any bytes, gives the same IndexInfo and leaves exactly those bytes; reading depends only on the bytes consumed; the written length is the one serialized_size announces when field elements and domains have fixed sizes; no strict prefix of an encoding can be read.", "quantifier": "all field and domain encodings, IndexInfos with a size below 2^64, trailing bytes and prefixes", "why_tests_cant": "the space of values, continuations and truncation points", "anchors": ["plonk/src/ahp/indexer/mod.rs: impl CanonicalSerialize for IndexInfo", "plonk/src/ahp/indexer/mod.rs: impl CanonicalDeserialize for IndexInfo"]}
{"id": "C120", "title": "Groth16 proofs and keys: encodings are lossless, prefix-free and of exactly known size", "statement": "For all point encodings that can be read back, the derived encodings of Proof, VerifyKey and Parameters can be read back whatever follows, depend only on the bytes consumed, reject every strict prefix, and no encoding begins another one. A proof takes two G1 points and one G2 point; a verification key takes one G1 point, three G2 points, eight bytes and one G1 point per public input and one for the constant; the size of generated parameters is an explicit function of the circuit's numbers of inputs and private variables and the domain size.", "quantifier": "all pairing groups, point encodings, keys and proofs, circuits and trapdoors", "why_tests_cant": "the space of keys, circuits and truncation points", "anchors": ["groth16/src/lib.rs: Proof, VerifyKey, Parameters", "groth16/src/generator.rs: generate_parameters"]}
{"id": "C121", "title": "Script cells: trailing bytes are ignored; the on-chain Groth16 script refuses every proof written by the command line program", "statement": "A verifier script whose three cells hold encodings in the form it reads, each followed by arbitrary bytes, ends exactly as verification of the decoded values ends, so an accepted proof has unboundedly many accepted cells. The Groth16 script reads the unchecked, uncompressed form, while zkp-prove writes compressed points: whenever a compressed proof is shorter than an uncompressed one (192 and 384 bytes for BLS12-381) the script ends with the encoding error for every such proof, key cell and public cell.", "quantifier": "all key, proof and public encodings, verifiers, cells and trailing bytes; all point encodings with these sizes", "why_tests_cant": "the two programs are tested separately, the script's test uses serialize_uncompressed", "anchors": ["ckb-contracts/contracts/universal_groth16_verifier/src/entry.rs: main", "cli/src/zkp_prove.rs: groth16 branch", "ckb-contracts/bench-tests/src/tests.rs: groth16 test", "groth16/src/lib.rs: Proof"]}
{"id": "C122", "title": "Groth16 key accessors split the queries, panic exactly out of range; conversions and default keys", "statement": "get_a_query, get_b_g1_query and get_b_g2_query at n with 1 <= n <= length return the elements 1..n and n.. of the query and panic for every other n, get_h_query likewise from 0; at the number of inputs of the circuit of a generated key they return one element per public input and one per private variable, and the sums over these parts give the accumulator the prover computes over the whole query. Converting a verification key to a prepared key and back is the identity, the other way round exactly for prepared keys that come from a key. Default keys refuse every proof with MalformedVerifyingKey.", "quantifier": "all keys, indices, circuits, scalars, proofs and inputs", "why_tests_cant": "the space of indices and keys; the accessors are not called in the repository", "anchors": ["groth16/src/lib.rs: Parameters::get_a_query, get_b_g1_query, get_b_g2_query, get_h_query, get_vk", "groth16/src/lib.rs: From<PreparedVerifyingKey>, From<VerifyKey>, Default", "groth16/src/prover.rs: calculate_coeff"]}
{"id": "C123", "title": "Marlin's MiMC example: the circuit computes one MiMC image per sample, its honest proofs verify", "statement": "generate_constraints of MimcDemo panics unless there are exactly five constants. Otherwise every run, for the keys or for a proof and whatever the draws, succeeds with 12 private variables and 10 constraints per sample and no public input; in every satisfying assignment the twelfth variable of a sample is the five-round MiMC image of its first two; a proving run assigns the draws to those and satisfies the constraints. Runs with equally many samples build the same relation, so the keys of one run fit the proofs of another, and whenever indexing and proving succeed verify_proof accepts the proof with no public inputs, as main asserts.", "quantifier": "all fields, constants, sample counts, draws of both runs, domains, challenge generators, setups and prover coins", "why_tests_cant": "the draws are random and the example is run once with 100 samples", "anchors": ["marlin/examples/mimc.rs: MimcDemo::generate_constraints, main"]}
{"id": "C124", "title": "Marlin's MiMC example proves no image", "statement": "The last value of a sample, which the source calls a public input, is allocated as a private variable. For every list of images there are draws whose run satisfies the circuit with exactly these images, and all runs with equally many samples have the same constraints and the same, empty, list of public inputs: an accepted proof is a proof of the same statement whatever the images.", "quantifier": "all fields, constants, image lists and draws", "why_tests_cant": "the example only checks that its own proof is accepted", "anchors": ["marlin/examples/mimc.rs: MimcDemo::generate_constraints lines 84-92", "marlin/examples/mimc.rs: main line 150"]}
{"id": "C125", "title": "Marlin over BLS12-381: setup sizes, honest proofs, forged proofs, the MiMC example", "statement": "With ark_poly's radix-2 domains over BLS12-381's scalar field: universal_setup(n) succeeds exactly for n up to 2^32. With its output and challenges outside the domains, a proof made by create_random_proof for a satisfied circuit whose number of public inputs with the constant is a power of two up to 2^32 is accepted by verify_proof; for every circuit with at least two constraints and nonzero entries and every list of fewer than 2^32 public inputs a proof computed from public data alone is accepted too; and verify_proof accepts every proof main of marlin/examples/mimc.rs makes, whatever it draws.", "quantifier": "all pairings over the field, setups, circuits, runs, public inputs, challenge generators and prover coins", "why_tests_cant": "examples run single circuits; a forged proof is never tried", "anchors": ["marlin/src/lib.rs: universal_setup, index, create_random_proof, verify_proof", "marlin/examples/mimc.rs: main"]}
{"id": "C126", "title": "Marlin's index refuses every circuit whose constraints all have an empty right-hand side", "statement": "If every constraint of a circuit has the empty linear combination as its third part, as the constraint of AllocatedBit::alloc has, index returns no keys for any setup, because the value polynomial of the third matrix is zero and PC::commit refuses constants (DegreeIsZero). In particular a circuit that only allocates bits, of any number and values, cannot be used with Marlin although it is satisfiable.", "quantifier": "all fields, pairings, domains, setups, build modes and circuits", "why_tests_cant": "no test uses such a circuit", "anchors": ["marlin/src/lib.rs: index", "marlin/src/pc/kzg10.rs: check_degree_is_within_bounds", "marlin/src/ahp/arithmetic.rs: compose_matrix_polynomials", "gadgets/src/algebra/boolean.rs: AllocatedBit::alloc"]}
{"id": "C127", "title": "Marlin: committing without a random generator panics on hiding polynomials, MissingRng is never returned", "statement": "OptionalRng without a generator panics in next_u32, next_u64 and fill_bytes and returns the error CUSTOM_START exactly then in try_fill_bytes; with a generator it is that generator. PC::commit with a generator is the commitment the other claims speak about; without one, as index calls it, it gives the same result when no polynomial has a hiding bound, and it succeeds only then. It never returns Error::MissingRng, with or without a generator: the first polynomial with a hiding bound that could be committed to makes it panic, while KZG10::commit without a generator does return MissingRng.", "quantifier": "all generators, keys, polynomials, bounds and draws", "why_tests_cant": "index passes no hiding bounds and the prover always passes a generator", "anchors": ["marlin/src/pc/optional_rng.rs: OptionalRng", "marlin/src/pc/mod.rs: PC::commit", "marlin/src/pc/kzg10.rs: KZG10::commit"]}
{"id": "C128", "title": "Exactly when Marlin's index succeeds", "statement": "Given a setup of degree n and a circuit whose matrices AHP::index can arrange, with maximal degree md: if n < md, index returns IndexTooLarge; otherwise it returns keys if and only if each of the twelve index polynomials (row, column, value and row-column for the three matrices) is non-constant, and it returns DegreeIsZero when one of them is constant. No other error and no panic occurs.", "quantifier": "all fields, pairings, domain constructors, setups of the shape universal_setup makes, build modes and circuits", "why_tests_cant": "tests index only circuits for which the setup is long enough and no index polynomial is constant", "anchors": ["marlin/src/lib.rs: index", "marlin/src/pc/mod.rs: PC::trim, PC::commit", "marlin/src/pc/kzg10.rs: commit", "marlin/src/ahp/arithmetic.rs: compose_matrix_polynomials"]}
