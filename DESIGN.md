# Formal model of ckb-zkp: design

Source: `/repo` (Rust, read as text, never built or run). Model and proofs:
`rocq/theories` (Rocq/Coq 8.16.1, logical path `Verif`). Properties: `properties.jsonl`.
Status per property: `MANIFEST.json`. Mutation log: `seeded/LOG.jsonl`.

## 1. Conventions

* **Fields.** `Field.v` defines a record `Fld` (carrier, operations, decidable equality,
  the `field_theory` laws). Every generic theorem quantifies over all `K : Fld`. `Zp.v`
  builds the instance Z/p for every prime p, and a `PFld` record (a field with
  `of_Z`/`to_Z` and modulus) for code that uses `PrimeField` (`into_repr`, bit
  capacity). `Gold.v` proves 2^64 - 2^32 + 1 prime (Lucas criterion, checked by the kernel); the
  concrete cases shown next to theorems live in that field, which like the real scalar
  fields has at least 64 bits and a large power-of-two subgroup. Nothing generic depends on it.
* **Results and panics.** `res A := Ok a | Err e | Panic`. `assert!`, `unwrap`, index out of
  bounds and debug-mode overflow are `Panic`; `SynthesisError` variants are `Err`.
* **`&mut` and closures.** Constraint-system code becomes a state monad
  `M A := cs -> res (A * cs)`. The state holds the input and auxiliary values and the
  emitted constraints in order. Witness closures become `res F` values; the state has a mode
  flag (`Setup`: closures not called, as in key generation; `Prove`: closures
  called and errors propagated).
* **Namespaces and annotations** (strings) are dropped: they do not influence constraints.
* **Soundness shape.** "If running the gadget from `s` gives `Ok (r, s')`, then for every
  assignment `a` of all variables with value 1 at the constant one that satisfies all
  constraints of `s'`, R a r" where R is stated with integers/booleans only.
* **Completeness shape.** "In `Prove` mode with consistent witness values, if the values
  in `s` satisfy the constraints of `s`, the values in `s'` satisfy those of `s'`."
* **Groups.** Elliptic-curve groups are arbitrary modules over the field (record
  `Grp` in `Module.v`), pairings arbitrary bilinear maps; hash/transcript challenges are arbitrary
  functions of the transcript. So theorems hold for every curve; nothing is claimed about curve
  arithmetic (arkworks / dalek), serialization of curve points, or hardness.
* Every model definition carries a comment with file and lines; simplifications are said there.

## 2. Files

| file | content |
|---|---|
| `Field.v`, `Zp.v`, `Gold.v` | fields, Z/p instance, a concrete 64-bit prime field |
| `Poly.v` | finite sums, coefficient-list polynomials, roots, evaluation domains |
| `Module.v` | groups as modules over the field, multi-scalar sums, pairings |
| `Model*.v` | models of the Rust code (no proofs) |
| `Spec*.v` | independent specifications (SHA-256, BLAKE2s, words, ...) |
| `Proofs*.v` | lemmas |
| `Properties*.v` | the property theorems (`exact lemma`), each with `Print Assumptions`, and concrete non-trivial cases meeting their hypotheses |

## 3. Plan per property

| id | modelled | proof |
|---|---|---|
| C01 | every operator of `impl_lc.rs` on term lists, binary search included | induction on term lists; ring |
| C02 | same | sortedness invariant by induction over operation sequences |
| C03 | same | direct computation of the short path, for all lists of length < 6 |
| C04 | tag + 8 little-endian bytes | arithmetic round-trip; two-tag witness |
| C05-C08 | all of `boolean.rs` in the monad | case analysis, field reasoning (integral domain) |
| C09-C12 | all of `uint32.rs` | bit-list/integer lemmas, C13 for `addmany` |
| C13, C14 | `multieq.rs` as state of the packer + trace of calls, Drop as final flush | base-2^k uniqueness by induction over the trace; no wrap below 2^CAPACITY |
| C15, C16 | `rangeproof.rs` | both directions; explicit counterexample families |
| C17, C18 | `lookup/table.rs` | C17 by constructing assignments; C18 field reasoning per selector |
| C19-C22 | `cbmt.rs`, u32 arithmetic explicit | heap-index recursion; queue invariant relating to heap array |
| C23-C25 | `mimc.rs`, `cli/circuits/hash.rs`; round constants arbitrary list | induction over rounds; constructed assignments |
| C26 | `sha256.rs` on top of C06-C12, including deferred sums | refinement to FIPS 180-4 over integers |
| C27 | `blake2s.rs` | refinement to RFC 7693 over integers |
| C28 | `cbmt_constraints.rs` with the MiMC hash | constructed assignment |
| C29 | `pow_with_constraint` | induction over exponent bits |
| C30-C32 | groth16, FFTs replaced by their defining property (interpolation on the domain) | polynomial division by the vanishing polynomial, module algebra |
| C33-C35, C55, C56 | bulletproofs: inner product argument, prover, verifier, dense and sparse matrices | induction on log-size; explicit forger; coefficientwise module algebra (`ModTac.v`) |
| C36, C37 | marlin `pc` | synthetic division; module algebra |
| C38, C39, C59, C60, C70 | all of marlin's `ahp` and `lib.rs` | permutation of rows; sumcheck identities from interpolation; commitment lemmas of C36; explicit forger; for C70 polynomial identities from enough points, kernel r(x,y) diagonal on H |
| C40-C42, C61-C64 | asvc | Lagrange/partial fractions; binding by an explicit public reduction |
| C43-C46, C65-C69 | all of plonk | invariants over histories; products over permutations; divisibility by the vanishing polynomial; special soundness by root counting; explicit forger |
| C71, C72 | `evaluate.rs`/`polynomial.rs` helpers of libra, hyrax, spartan | induction over variables; uniqueness of the multilinear extension |
| C73-C75 | libra circuits and `libra_linear_gkr.rs` | refinement to a gate semantics; sumcheck invariant per round; explicit forger |
| C76-C78 | sigma protocols and evaluation proofs of spartan, libra, hyrax | module equations; induction over folding rounds; extraction from two runs; explicit forger |
| C79-C81 | spartan: instances, matrix helpers, the NIZK | bilinear forms over sparse rows; sum-check round invariants; explicit forger |
| C82-C83 | spartan: memory checking and product circuits of spark.rs | counting invariant over the accesses; product preserved by each layer |
| C84, C85 | spartan: encoding and SNARK | multilinear extension of packed blocks; bilinear form of the sparse lists; layered sum-check invariants; explicit forger |
| C86, C87 | hyrax | explicit forger; three sum-checks per layer, induction over layers; exact conditions for success |
| C88, C89 | hyrax: one layer against arbitrary provers | forking at the last challenge; generic sum-check soundness; degree and sum of the layer polynomial |
| C90 | libra's zero-knowledge protocol | induction over layers; exact conditions for success and acceptance |
| C91 | spartan, libra: committed sum-checks against arbitrary provers | rewinding: two weights, two challenges each; generic sum-check soundness |
| C92 | libra's zero-knowledge layers against arbitrary provers | rewinding; induction over layers |
| C93 | log-size dot-product proof, evaluation of committed polynomials against arbitrary provers | tree of runs with three challenges per round; induction over rounds |
| C94 | libra's zero-knowledge verifier as a whole against arbitrary provers | C91 to C93 combined; input layer split into witness and inputs |
| C95 | Groth16 against provers that compute by the group operations | coefficients fixed before the trapdoor; verification equation compared as a polynomial in the trapdoor; no computational assumption |
| C96 | Groth16: zero knowledge | coins, accepted proofs and choices of the simulator are in bijection |
| C97 | spartan, libra, hyrax: zero knowledge of the commitment proofs | honest proofs and coins are in bijection with accepted proofs; induction over rounds |
| C98 | libra: zero knowledge of the whole protocol | the bijections of C97 composed over the phases, the layers (induction) and the openings |
| C99 | spartan: what the NIZK and the SNARK reveal | the bijections of C97 composed over the satisfiability proof; the field w_ry is the whole difference between two witnesses |
| C100 | hyrax: what a proof reveals | the coins of each round, layer and opening solved for; for a narrower last layer two commitments under one blind, whose difference is a spec-level partial sum times the generator |
| C101 | the digests of instances, circuits, parameters and encodings (`ModelDigest.v`) | projections and cuts of the message lists by label; an explicit pair of circuits |
| C102 | bulletproofs: witness indistinguishability | the coins of the second run solved for: masks from l_x, r_x, blinds from the commitments; mu and tau_x then follow from the two verification equations |
| C103 | gadgets test system: names, values, satisfaction (findings) | refinement of the provers' system by erasing names; invariant `tidy` (each path names one object); paths parse uniquely |
| C104 | gadgets test system: digest | proc_lc is a sorted normal form; fixed-width encoding of the byte string is injective |
| C105 | marlin: witness indistinguishability | blinding coefficients solved for the value at beta, mask shifted by a multiple of X(X - beta) so that the quotient at tau agrees, hiding polynomials shifted by a multiple of X - beta; the sum over the domain is zero by satisfaction |
| C106 | Fiat-Shamir generators on the byte level | fixed-width encodings are uniquely readable; induction over the chain of seeds, exhibiting the colliding strings |
| C107, C108 | the three command-line programs | file store as a function; lossless encodings; numerals by induction over digits; composition with C31, C34, C25 |
| C109, C110 | `curve25519`: field parameters, wrapper of Ristretto points | primality by a chain of Pocklington certificates; Fermat and a Bezout identity on exponents; byte arithmetic |
| C111, C112 | ark_poly's radix-2 domains; groth16 and the programs over BLS12-381's scalars | order of two-power roots by induction; Pocklington with several primes; instances of C31 and C108 |
| C113, C114 | the Rescue and Poseidon example circuits: honest runs, missing values, unbound outputs, INVALPH | refinement to an option-free circuit; Hoare-style rules of C29 and C52; Fermat's theorem |
| C115, C116 | the Merkle tree example circuit with MiMC: honest runs, shapes, keys, unbound roots, path lengths | refinement to climbing a path; relational lemma between modes; solving the system from free variables; log2 induction |
| C117, C118 | the Merkle tree example circuit with SHA-256: honest runs, tree, shapes, keys, unbound digests, short roots | refinement to climbing a path of bit strings; value-tracking and shape lemmas for the SHA-256 gadget; solving from free digest bits |
| C119, C120, C121, C122 | byte encodings of plonk's IndexInfo and Groth16 proofs and keys, cells of the Groth16 script, key accessors, conversions and defaults | combinators for derived encodings with lossless/local/size lemmas; lengths preserved by the generator's loops |
| C123, C124 | Marlin's MiMC example circuit: relation, honest proofs, private images | Hoare-style rules of C29; relational lemma between runs; inverting the rounds |
| C125 | Marlin over BLS12-381's scalar field | instances of C59, C60, C123 with the domains of C111 |
| C126 | circuits Marlin's indexer refuses | the value polynomial of an empty matrix; induction over the committed list |
| C127 | `OptionalRng` and commitments without a generator | case analysis, induction over the polynomials |
| C128 | the exact success condition of Marlin's indexer | canonical index polynomials bounded by the domain, totality of `trim` and `commit`, induction over the committed list |
| C47, C58 | cli hex codec, end of zkp-verify | relation between strings and bytes |
| C48, C49, C57 | contract entry points with decoders and verification as arbitrary functions | case analysis; combined with C34 and C32 |
| C50 | mode flag of the monad | relational lemma per gadget |

Extraction theorems (C76, C88, C89, C90_padding_exact and later ones of this kind) conclude in Type: an opening or
a relation between generators "exists" in every group of prime order, so what is proved is a program computing it from
the given runs. The proofs use no axiom and groups are abstract, so that program knows no discrete logarithm.
From C91 on, the extractor's input is an accepted run and further accepted answers at named places of it
(`SpecRewind.v`, `SpecLibraSound.v`, `SpecLibraSound2.v`; a tree of runs in `SpecBulletTree.v`); how a prover is rewound to obtain them, and with which probability, is not modelled.
The examples use the field itself as the group: there every accepted run can be rewound (`ExRewind.v`, `ExBulletTree.v`, `ExLibraSound.v`).

## 4. Trusted base

* The Coq 8.16.1 kernel, including its `vm_compute` machine (used for the primality
  certificate of `Gold.v` and for concrete examples); `coqchk` re-checks everything without it.
* Axioms: none. `Print Assumptions` under every property theorem prints `Closed under the global
  context`. The standard library modules that get loaded contain the module-type
  parameters `Coq.ssr.ssrunder.Under_rel.*` (seven), which `coqchk` reports; no theorem uses them.
* The reading of the Rust source recorded in the model comments (file and lines on every definition).

### Modelled

* `r1cs`: linear combinations, index encoding, constraint systems (Setup/Prove).
* `gadgets`: `boolean`, `uint32`, `multieq`, `rangeproof`, lookup tables, `cbmt`, `mimc`, `rescue`, `poseidon`,
  `sha256`, `blake2s`, Merkle membership; CLI circuits where properties cite them.  `test_constraint_system.rs` without
  `pretty_print` (`ModelTestCS.v`).
* `groth16`: r1cs_to_qap, generator, prover, verifier. Evaluation domains are an arbitrary partial
  function from size to domain satisfying `dom_family`; FFTs are their defining sums; windowed
  multiplication is multiplication; the `None` case of the final exponentiation is not modelled.
* `bulletproofs`: `inner_product_proof.rs`, `arithmetic_circuit.rs` (prove, verify, create_random_proof) and the
  vector helpers of `lib.rs`. Transcripts are lists of labelled messages; a challenge is an arbitrary function of the
  label and the transcript so far. `u32` index casts are identities.
* `marlin/src/pc`: KZG10 setup, trim, commit, open, check and the multi-polynomial wrapper with degree bounds and batches.
* `marlin`: `ahp` (constraint matrices, indexer, three prover rounds, verifier equations) and `lib.rs` (index,
  create_random_proof, verify_proof). The Fiat-Shamir generator is an arbitrary function of the absorbed messages
  (what is written into its hash, byte by byte, is in `ModelFsRng.v`, C106, with plonk's);
  `EvaluationDomain::new` is an arbitrary function satisfying `radix2` (power-of-two sizes, nested generators).
  `AttackMarlin.v` is not a model of code but an adversary program (C60). `SpecMarlin2.v` defines the oracle protocol of C70 (prover polynomials evaluated truthfully). `SpecMarlinZk.v` says which random numbers a run draws and what a proof shows (C105).
* `asvc/src/lib.rs`: key generation, commit, open, verify, both update functions, update-key verification and aggregation; the
  sampled secret and generators are parameters.
* `plonk`: composer, permutation, synthesis, indexer, prover rounds, linear combinations, verifier equation and `lib.rs`
  (keygen, prove, verify). The polynomial commitment is the type parameter it is in the code; completeness assumes the
  law `pc_complete`, soundness (C67) uses the ideal scheme `ideal_pcs`. The transcript is an arbitrary function of what
  was absorbed. `AttackPlonk.v` is an adversary program (C66).
* `libra`: `evaluate.rs`, `circuit.rs` (new, evaluate), `sumcheck.rs` and `libra_linear_gkr.rs` (prover and verifier of the protocol without
  zero knowledge); `AttackLibra.v` is an adversary program (C75). Multilinear helpers of `hyrax` and `spartan`.
* Commitments and sigma protocols of `spartan` (`commitments.rs`, `inner_product.rs`, the proof functions of `prover.rs` and `verify.rs` up to
  the inner product) and of `libra`/`hyrax` `commitment.rs`. Multi-scalar multiplication zips its arguments, as the pairing curves' version does
  (the curve25519 wrapper, `curve25519/src/group.rs:29-47`, cuts both lists to the shorter length too); `1 << lg_n` does not wrap.
* `spartan`: `r1cs.rs` (instances, list form), matrix helpers of `polynomial.rs`, `create_nizk_proof`, `r1cs_satisfied_prover`, both committed
  sum-checks, `verify_nizk_proof` and `r1cs_satisfied_verify`. The two hashes absorbed first are parameters (computed in `ModelDigest.v`, C101). `AttackSpartan.v` is an adversary
  program (C81). Not modelled: parameter generation from a seed.
* `spartan/src/spark.rs`, the parameters of `setup.rs` (random group elements are arguments), and the SNARK of `prover.rs` and `verify.rs`
  (`ModelSpark.v`, `ModelSnark.v`); `usize` and `u64` do not overflow. `AttackSnark.v` is an adversary program (C85).
* `hyrax`: `zk_sumcheck_proof.rs`, `hyrax_proof.rs`, `evaluate.rs`, `params.rs` (`ModelHyrax.v`); its `circuit.rs` is libra's. The hashes of the
  circuit and of the parameters are parameters. `AttackHyrax.v` is an adversary program (C86). The functions computing them are in `ModelDigest.v` (C101).
* `libra_zk_linear_gkr.rs` with the sum-check functions it uses and `eval_operators` (`ModelLibraZk.v`). Its `params.rs` and `commitment.rs` are
  hyrax's; the hashes of circuit and parameters are parameters, random numbers are arguments.
* `cli`: `to_hex`, `from_hex`, the reporting of the verdict; the programs `setup`, `zkp-prove`, `zkp-verify` with their circuits (`ModelCliMain.v`), as functions of arguments, files and randomness; serde_json and serializations are arbitrary lossless functions; decoders and proof systems are arbitrary in C107 and the modelled groth16 and bulletproofs in C108 (`ModelCliInst.v`). File names are byte strings; failing writes and the creation of directories are left out. `AttackCli.v` is an adversary program. `ckb-contracts`: the `main` and `program_entry` of the ten
  scripts, with cell loading, decoding and verification as arbitrary functions.
* `curve25519`: the parameters in `fr.rs`, with ark_ff's `legendre` and the beginning of its `sqrt` (the loop for residues is an arbitrary function), and the
  wrapper `group.rs` over an arbitrary group with an arbitrary encoding (`ModelCurve25519.v`). `serialize` follows ark_serialize 0.2's instance for slices, which
  writes the length as eight bytes; that crate is not in the repository. `Lucas.v` proves the order of the group prime.
* Evaluation domains: `ModelDomain.v` is ark_poly 0.2's radix-2 constructor, from memory of that crate, which is not in the repository; the constants of
  BLS12-381's scalar field (`Bls.v`, `ModelDomain.v`) are ark_bls12_381's. Claims other than C111 and C112 take domains as arguments.
* Example circuits (`ModelDemo.v`): `RescueDemo` (rescue_groth16.rs, the same in rescue_spartan.rs) and `PoseidonDemo`, with `Option` values; both Merkle tree circuits
  (`ModelMerkleDemo.v`); Marlin's `MimcDemo` (`ModelMimcDemo.v`), the random draws being arguments. The `sha2` crate call in `MergeSha256::merge` is represented by the SHA-256 specification. The `main` functions around them are not modelled.
* Commitments with an optional generator (`ModelOptRng.v`): `OptionalRng`, `PC::commit` and `KZG10::commit` with their `rng` arguments; a generator is the list of field elements it gives.
* Encodings (`ModelSerial.v`): the derived instances of Groth16's structures and plonk's `IndexInfo`, from ark_serialize 0.2's rules (fields in order, vectors preceded by their length
  as eight bytes), from memory of that crate, which is not in the repository. Encodings of points, field elements and domains are arguments.

### Not modelled at all

Arkworks and dalek arithmetic, curve-point serialization, pairings beyond bilinearity, FFT internals,
random number generators and the hash functions behind transcripts (arbitrary functions),
parallelism (`rayon`), `no_std`/feature switches, CKB syscalls beyond their results.
Nothing here speaks about computational hardness: soundness statements are algebraic.

## 5. Findings

Where the expected behaviour is false of the code, the property states what is true and the
theorem exhibits it for all inputs. The main ones: C10, C14, C16, C17, C20, C22, C24, C25, C28, C29, C34, C35, C36, C38, C39, C47, C49, C50, C52-C55, C57, C58, C60, C41, C62, C64, C66, C68, C69, C72, C73, C75, C78, C80, C81, C82, C84, C85, C86, C87, C90, C93, C99, C100, C101, C103, C108, C109, C110, C111, C114, C116, C118, C121, C124, C126, C127
(each described by its statement in `properties.jsonl` and its note in `MANIFEST.json`).
