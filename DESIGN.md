# Formal model of sota-zk-labs/zkp-implementation in Rocq (Coq 8.16.1)

Sources: `/repo` (Rust), read as text. Properties: `properties.jsonl` (C01...).
Theorems per property: `MANIFEST.json`. Mutation experiments: `seeded/LOG.jsonl`.

## 1. Layout

`rocq/theories/`

| file | contents |
|---|---|
| `Base.v`, `BaseLemmas.v` | outcome monad (`Ret`/`Err`/`Panic`), bytes, little-endian encodings, power-of-two helpers; lemmas |
| `ArkPoly.v`, `ArkDomain.v`, `ArkPolyFft.v` | executable model of the ark-poly operations the repo calls, on coefficient lists: construction, evaluation, addition, division by X - z, FFT product, vanishing polynomial product and division, domains, interpolation |
| `ArkPolyLemmas.v`, `ArkDomainLemmas.v`, `ArkPolyFftLemmas.v` | bridges to mathcomp `{poly F}` and primitive roots |
| `FriModel.v` | the `fri` crate: hasher, Merkle tree, layers, transcript, prover, verifier |
| `FriSpec.v`, `FriMerkle.v`, `FriTranscript.v`, `FriFold.v`, `FriComplete.v`, `FriSound.v`, `FriSpecLemmas.v`, `FriProps.v`, `FriExamples.v` | specification, lemmas, C01-C17, examples |
| `FriAuthSpec.v`, `FriAuthProps.v` | C70: soundness of openings that end in the published roots |
| `KzgModel.v` | the `kzg` crate |
| `KzgSpec.v`, `KzgLemmas.v`, `KzgProps.v`, `KzgExamples.v` | C18-C27 |
| `NovaModel.v` | the `nova` crate (R1CS, NIFS, transcript, augmented circuit, IVC) and the driver of `nova/examples/examples.rs` |
| `NovaSpec.v`, `NovaLemmas.v`, `NovaTranscript.v`, `NovaProps.v`, `NovaIvcProps.v`, `NovaDriverProps.v`, `NovaExamples.v` | C28-C43, C61, C62 |
| `NovaSoundSpec.v`, `NovaSoundProps.v`, `NovaSoundExamples.v` | C69: the extractor and soundness of folding |
| `PlonkModel.v` | the `plonk` crate without the parsers: gates, circuit, compile, slices, challenge generator, prover, verifier |
| `PlonkSpec.v` | specification: gate relations, wire slots, Lagrange basis, quotient and linearisation polynomials, verifier equation, Fiat-Shamir challenges |
| `PlonkLemmas.v`, `PlonkRefine.v` | code on coefficient lists refines the polynomial specification |
| `PlonkCompile.v`, `PlonkProve.v`, `PlonkVerify.v` | inversion and characterisation of compile, generate_proof, verify |
| `PlonkProps.v`, `PlonkChallengeProps.v`, `PlonkExamples.v` | C44-C54 |
| `PlonkSoundSpec.v`, `PlonkSoundProps.v`, `PlonkForgeProps.v`, `PlonkSoundExamples.v` | C64-C68: adversarial provers |
| `ParserModel.v` | the equation parser (`parser.rs`) and the common-preprocessed-input generator (`cpi_parser.rs`, `cpi_circuit.rs`) |
| `ParserSpec.v`, `ParserStrings.v`, `ParserGates.v`, `ParserParse.v`, `ParserSound.v`, `ParserAst.v`, `ParserCircuit.v`, `ParserNorm.v`, `ParserProps.v`, `CpiLemmas.v`, `CpiProps.v`, `ParserExamples.v` | C55-C60 |
| `StatementSpec.v`, `ProgramModel.v`, `ProgramProps.v`, `ProgramExamples.v` | C71, C72: public part of a circuit; the programs `{fri,kzg,plonk}/examples/example.rs` |
| `PlonkHideSpec.v`, `PlonkHideProps.v`, `PlonkHideExamples.v` | C73: blinding |
| `PlonkMachine.v`, `PlonkMachineProps.v`, `PlonkMachineExamples.v` | C74: the verifier's exponents on machine words, both build profiles |
| `Sha256.v`, `ShaProps.v`, `ShaExamples.v` | C75: SHA-256 as the standard defines it; the concrete configurations |
| `PlonkErrorProps.v`, `PlonkErrorExamples.v` | C76: the share of challenges for which a cheating prover is accepted |
| `FriMachine.v`, `FriMachineProps.v`, `FriMachineExamples.v` | C77: the FRI prover and verifier on machine words |
| `OracleProver.v` | provers that consult a random table; how often an unlucky answer is found |
| `PlonkFsSpec.v`, `PlonkFsProps.v`, `PlonkFsExamples.v` | C78: forging non-interactive PLONK proofs against a random table |
| `KzgAlgSpec.v`, `KzgAlgProps.v`, `KzgAlgExamples.v` | C79: KZG openings, single and batched, of provers that compute from the reference string |
| `SeedProps.v`, `SeedExamples.v` | C80: challenges of all three transcripts come from 64-bit seeds |
| `NovaForgeProps.v` | C81: Nova instances chosen after the challenge |
| `NovaErrorSpec.v`, `NovaErrorProps.v`, `NovaErrorExamples.v` | C82: folding error for instances fixed before the challenge, interactive and against a random table |
| `PlonkSizesProps.v`, `PlonkSizesExamples.v` | C83: padding, compilation and reference string sizes on machine words (definitions at the end of `PlonkMachine.v`) |
| `FriQuerySpec.v`, `FriQueryProps.v`, `FriQueryExamples.v` | C84: distribution of FRI query positions, share of draws that miss the inconsistent positions |
| `HonestErrorSpec.v`, `HonestErrorProps.v`, `HonestFriProps.v`, `HonestErrorExamples.v` | C85: how often the honest PLONK and FRI provers fail |
| `BasePrime.v`, `Encodings.v`, `EncodingProps.v`, `EncodingExamples.v` | C86: primality of the base modulus; the uncompressed encodings of scalars, base field elements and points |
| `NovaHonestSpec.v`, `NovaHonestProps.v`, `NovaHonestExamples.v` | C39, C87: the running pair of the IVC driver in closed form; how often honest folds fail |
| `EquationSpec.v`, `EquationProps.v`, `EquationExamples.v` | C88: gate counts of parsed equations; parser, compiler, prover and verifier composed |
| `CpiVerifyProps.v`, `CpiVerifyExamples.v` | C89: the verifier run on the preprocessed input alone |
| `ShaMdSpec.v`, `ShaMdProps.v`, `ShaMdExamples.v` | C90: SHA-256 as an iterated hash; collisions, padding, length extension; the three transcripts |
| `ParserRename.v`, `RenameSpec.v`, `RenameProps.v`, `RenameExamples.v` | C91: renaming the factors of wire names in both front ends; negated right sides |
| `MerkleSpec.v`, `MerkleProps.v`, `MerkleExamples.v` | C92: Merkle roots as commitments to whole vectors |
| `NumeralProps.v`, `NumeralExamples.v` | C93: numerals with leading zeros in the two front ends |
| `NovaRevealProps.v`, `NovaRevealExamples.v` | C94: what Nova proofs and instances show of the witness |
| `KzgRevealProps.v`, `KzgRevealExamples.v` | C95: what KZG commitments and openings leave hidden |
| `FriRevealProps.v`, `FriRevealExamples.v` | C96: what FRI proofs show of the polynomial |
| `TestRelationProps.v`, `TestRelationExamples.v` | C97: the relation of the Nova examples |
| `Concrete.v`, `Pocklington.v`, `ConcreteProps.v` | the concrete moduli (Lucas and Pocklington primality certificates) and FFT constants: C63 |
| `Assumptions.v` | `Print Assumptions` of every property theorem (generated by `tools/mkmanifest.py`) |

Model files contain definitions only (no proofs), so that the model still
compiles when a proof breaks under a seeded bug.

## 2. Modelling conventions

* `Result`/panic: `outcome A := Ret a | Err msg | Panic`. `assert!`, `unwrap`,
  `expect`, out-of-bounds indexing and division by zero in a field are `Panic`.
  `Result::Err(String)` is `Err` with the message.
* `usize`/`u64` are unbounded `nat`, except where a property is about the
  width (transcript index, 8-byte seed). Documented per definition.
* Fields: an arbitrary mathcomp `fieldType F`. Two-adic domains: parameters
  `S` (TWO_ADICITY) and `omega` (TWO_ADIC_ROOT_OF_UNITY), with the hypothesis
  `(2^S).-primitive_root omega` where needed.
* Groups/pairing: `G1`, `G2`, `GT` are `lmodType F`; `e` is bilinear and
  non-degenerate (record of laws, hypothesis of the theorems that need it; an
  instance is exhibited, so hypotheses are satisfiable).
* Externals (SHA-256, decimal printing, serializers, `from_le_bytes_mod_order`,
  `StdRng::seed_from_u64` stream): fields of explicit records of functions,
  arbitrary except for hypotheses written in each theorem (e.g. fixed output
  length, injectivity). Collision resistance is never assumed: binding
  theorems conclude "equal, or here is a collision".
* Prover randomness (PLONK blinders, KZG batch coefficients) is a universally
  quantified parameter.
* `HashMap`/`HashSet` are association lists / lists (only membership, lookup,
  insertion are used by the code, never iteration order - except where noted).
* Strings are lists of ASCII characters; non-ASCII input is out of scope.

## 3. Trusted base

* Coq 8.16.1 kernel (no `native_compute`; `vm_compute` is used).
* mathcomp (ssreflect, algebra, algebra-tactics, zify) as libraries; they add
  no axioms to our theorems (each `Print Assumptions` is recorded in section 6).
* The reading of `/repo` into the model (citations in each definition), and the
  reading of arkworks semantics that is not in `/repo` (section 4).

## 4. What is modelled / not modelled

Modelled, function by function (citations in each definition):

| Rust | model |
|---|---|
| `fri/src/hasher.rs` | `hash`, `hash_slice` |
| `fri/src/merkle_tree.rs` | `mt_new`, `mt_root`, `mt_generate_proof`, `verify_merkle_proof` |
| `fri/src/fiat_shamir/transcript.rs` | `tr_new`, `tr_digest`, `tr_seed`, `tr_challenge`, `tr_challenges`, `tr_challenges_usize` |
| `fri/src/fri_layer.rs`, `prover.rs`, `verifier.rs` | `layer_from_poly`, `fold_polynomial`, `folding_phase`, `query_phase`, `fri_generate_proof`, `verify_query`, `fri_verify` |
| `fri/src/fields/goldilocks.rs` | `Concrete.v` |
| `kzg/src/srs.rs` | `srs_new_from_secret` (`Srs::new` draws the secret at random and calls it: every theorem quantifies over the secret) |
| `kzg/src/scheme.rs`, `commitment.rs`, `opening.rs` | `kzg_commit`, `kzg_commit_vector`, `kzg_commit_para`, `kzg_open`, `kzg_open_vector`, `kzg_verify`, `aggregate_commitments`, `batch_verify`, `com_*`, `opening_add` |
| `nova/src/utils.rs`, `r1cs/mod.rs`, `nifs/*`, `transcript.rs`, `circuit.rs`, `ivc/*` | `NovaModel.v`, same names |
| `nova/examples/examples.rs` | `driver_*` |
| `fri/examples/example.rs`, `kzg/examples/example.rs`, `plonk/examples/example.rs` | `fri_example`, `kzg_example`, `plonk_example_calls`, `plonk_example` |
| `plonk/src/gate.rs`, `circuit.rs`, `constraint.rs`, `compiled_circuit.rs`, `slice_polynomial.rs`, `challenge.rs`, `prover.rs`, `verifier.rs` | `PlonkModel.v`, same names |
| `plonk/src/parser.rs`, `common_preprocessed_input/*` | `ParserModel.v`, same names (`cpi_` prefix for the second) |

Not modelled:

* `println!`/timers, `Debug` impls, the crates' own tests.
* Serialization formats of group and field elements: oracles outside C86; theorems
  that need injectivity or a fixed length say so. C86 writes the formats down (from
  the documentation of ark-ff and ark-bls12-381 0.4, whose sources are not in
  `/repo`) and proves what those theorems need.
* The construction of the BLS12-381 groups and pairing: abstract prime-order
  bilinear group over the scalar field (`pairing_group`, laws in `pairing_ok`).
  Curve points outside the prime-order subgroup (which arkworks can represent when
  deserialising without checks) have no counterpart in the model.
* C78 is about the table in the place of `StdRng`: it assumes nothing about the
  digest and counts only runs whose transcripts have distinct 64-bit seeds. Against a
  prover that can try about 2^32 transcripts two of them are expected to share a
  seed, and the theorem says nothing about such runs. The circuit and its public
  inputs are fixed before the table is drawn.
* SHA-256 (except in C75 and C90, which define it and treat it as an iterated hash), `StdRng`: arbitrary functions. Collision resistance is never
  assumed; binding theorems conclude "equal, or here is a collision".
* FFT algorithms: their mathematical result, and the panic of ark-poly when a
  product's domain exceeds the two-adicity of the field, are modelled.
* integer overflow, except for the exponents made from the proof's degree field (C74), the sizes and indices of FRI (C77) and the padded length and reference string size of PLONK (C83); memory, time, threads
  (`rayon` maps preserve order). Outside C83 `len - 1` underflow in `pad_circuit` is
  modelled as a panic.
* Non-ASCII input strings of the parser.
* `HashMap` iteration order: never observed by the code (only lookup, insert,
  and a per-entry update over all entries), so association lists are faithful.

ark-poly semantics relied on (not in `/repo`): `from_coefficients_vec` drops
trailing zeros; `is_zero` is "all coefficients zero"; `degree` asserts that the
leading coefficient is non-zero; addition/subtraction drop trailing zeros;
multiplication of a dense polynomial by a zero scalar gives the zero
polynomial; dense product is by FFT over the smallest domain holding the sum of
the lengths minus one and unwraps `GeneralEvaluationDomain::new`;
`divide_with_q_and_r` is Euclidean division and panics on zero divisor;
`divide_by_vanishing_poly`/`mul_by_vanishing_poly` are exact;
`GeneralEvaluationDomain::new(n)` rounds up to a power of two and is `None`
beyond the two-adicity (for fields that declare a small subgroup, as arkworks does
for the BLS12-381 scalar field, ark-poly then tries a mixed-radix domain: sizes
above 2^32 are outside the model for such fields); `interpolate` zero-pads.

## 5. Plan per property

| id | model | proof |
|---|---|---|
| C01-C03 | `FriMerkle`: tree as list of levels built with `chunks(2)` | induction on levels; binding by walking two paths in lock step |
| C04 | decimal encoding `to_string` concatenation | direct, plus witness computed |
| C05 | `fold_polynomial` on coefficient list | even/odd decomposition in `{poly F}` |
| C06, C08, C09 | `FriLayer::from_poly`, `folding_phase`, `query_phase`, `generate_proof` | invariants over the folding loop |
| C07 | whole prover and verifier incl. transcripts | prover/verifier transcript agreement + per-layer fold identity |
| C10-C14 | `verify`, `verify_query` | characterisation of the zip loops; explicit forgeries |
| C15-C17 | transcript as state machine over call histories | induction over histories; collision extraction |
| C18-C27 | SRS, `KzgScheme`, openings over an abstract bilinear group | algebra over `lmodType`; polynomial division by X-z |
| C28-C32 | vectors, R1CS, folding | list induction + ring identities |
| C33-C36 | NIFS prover/verifier/transcript | composition with C19/C23 |
| C37, C54 | transcripts as state machines | as C15/C16 |
| C38-C43 | augmented circuit, IVC | state machine invariant over call histories; simulation of the example driver |
| C44-C48 | gates, padding, interpolation, permutation polys, slices | Lagrange interpolation lemmas |
| C49-C53 | prover and verifier | quotient divisibility by X^n-1 <-> values on the domain; group equation by linearity |
| C61, C62 | trivial pair, NIFS verifier | computation of the satisfaction check row by row; characterisation of the verifier as in C10 |
| C63 | the two moduli | Lucas certificate (Goldilocks), Pocklington certificate (BLS12-381 scalar), by computation on `N`; orders of the FFT constants |
| C64, C68 | public inputs and degree in `verify` | the verifier equation (C52) split into the part that depends on them |
| C65, C66 | forged proofs as explicit records | solve the verifier equation for one public input / for the two openings |
| C67 | polynomials behind an arbitrary proof's commitments | peel the challenges in reverse order; each step a polynomial with a bounded number of roots |
| C69 | an explicit extractor on three folded witnesses | interpolation in r of the relaxed R1CS rows (degree 2) and of the commitments (in the group) |
| C70 | vectors behind the roots; paths that end in the roots | Merkle binding against the tree of the vector; fold identity as in C07; counting residues |
| C71 | verify on two compiled circuits from calls equal up to wire values | column interpolations of equal lists; verify reads no wire polynomial |
| C72 | main of the three example programs | instances of C23, C07/C08, C51; the example's calls with other values have the same public part |
| C73 | the values shown of the blinded polynomials as a function of the nine blinders | Newton interpolation: two (three) blinders of a wire (the permutation) polynomial are determined by two (three) values outside the domain |
| C74 | `verify_machine`: `verify` with the exponents on words of any width, checked or wrapping | exact verdict by comparing the two group equations; corollaries for small, raised and honest degree fields |
| C75 | `sha256_standard`: FIPS 180-4 on binary numbers, checked on three test vectors | length by construction; instances of C07-C09, C51, C63 |
| C76 | `PlonkSoundSpec.v`: interactive verifier and adaptive provers (`strategy`) | C52 for the link to the code; the case split of C67, and per challenge a count of fibres: fixing all coins but one leaves at most the listed number of bad values |
| C77 | `FriMachine.v`: the operations that can overflow go through `word` | the sum giving the opposite index overflows only for domains beyond the two-adicity; modular inverse of an odd length for the lost factor |
| C78 | `PlonkFsSpec.v`: the table replaces the generator (`StdRng`), the rest of the environment (digest, serialisation) is kept; provers are `oracle_prover` trees | per table the case split of C67; each bad event is an unlucky answer to one prefix of the transcript, judged from the prefix and the earlier answers; `unlucky_share` counts tables by resampling one entry |
| C79 | `KzgAlgSpec.v`: a claim is the polynomials behind commitment and witness, the value and the point; verdicts are those of `kzg_verify` and `batch_verify`; the draws range over integers below B | a false claim makes (X - z) q - (f - y) nonzero; for a batch, at most one value of the draw of a refused claim makes the sum vanish |
| C80 | the three transcripts as modelled for C15, C37 and C54, the generators kept abstract | every successful draw decodes 8 bytes, so its seed is below 256^8; pigeonhole for the collision |
| C81 | model of C29-C36 | the error vector that makes any assignment satisfy the relation; commitments solved for after the challenge, which does not depend on them; explicit KZG openings |
| C82 | `NovaErrorSpec.v`: instances with the vectors behind them; verdicts are those of `is_r1cs_satisfied` and `nifs_verify`; provers are `oracle_prover` trees | each row of the relation is a polynomial of degree at most 2 in the challenge, nonzero for some row; roots counted per secret, `unlucky_share` for tables |
| C83 | `padded_length`, `compile_machine`, `srs_new_machine` in `PlonkMachine.v`: `len - 1`, `1 << exponent` and `circuit_size + 3` on words, checked or wrapping | case split on the exponent reaching the word width (where no domain exists); the empty circuit is computed; the prover indexes coefficient 0 of a zero polynomial |
| C84 | `with_draws` (the generator answers given draws at the query seed and is unchanged elsewhere), `spoiled_at`, `honest_openings`; hypothesis: the query seed differs from the folding seeds | counting residues below p; C70 for each accepted list of draws, then counting tuples over the positions that are not spoiled |
| C85 | `good_blinders`, `run_seeds_differ`, `fold_seeds_differ`, `proved_and_accepted`; generator = table of seeds | C51/C49 (exact success condition) and C08/C07; each failure is a root of a non-zero polynomial in the last challenge drawn (top coefficients from the blinders), then the counting of `OracleProver.v` |
| C86 | `field_bytes`, `point_bytes`, `field_of_bytes`, `scalar_of_base`; `bigint_of` (the representative below the modulus) | base-256 digits; C54, C37, C43 with their encoding hypotheses discharged; Brillhart-Lehmer-Selfridge criterion for the base modulus |
| C87 | `running_pair` (recursion over the folds), `cross_term`, `step_seeds_differ`; challenge tables as in C82 | the driver invariant of C39 with the running pair; per fold at most 2 challenges kill the error and 1 the witness; `unlucky_share` |
| C88 | `equation_size`; circuits of C57, tables of C85 | counting gates along the parser's folds; C45, C57, C58 and C85 composed |
| C89 | `cpi`, `verify`, `compute_cpi` | `verify` reads the circuit only through its commitments, size, shifts and public-input polynomial; C60, C45 and C88 for texts |
| C90 | `sha256_standard` with its blocks | induction on blocks from the end; length field decides unequal lengths; C16, C86 composed for the transcripts |
| C91 | `parse`, `compute_cpi`, `generate_proof`, `verify` | an injective map of factors that fixes numerals commutes with every gate generator; positions depend on names only up to equality; the negated numeral and a fresh name are exchanged by such a map; then C57, C60 for the false proofs |
| C92 | `mt_new`, `mt_root`, `verify_merkle_proof` | induction from the root down: equal levels come from equal lists of chunks or two chunks collide; counting for existence |
| C93 | `parse`, `compute_cpi` on x*y=d | the wire positions of both circuits computed for a symbolic numeral; the first permutation polynomials differ at row 1, so agreement of commitments forces a root |
| C94 | `nifs_prover`, `nifs_prove`, `fw_commit`, `create_trivial_pair` | inversion of the prover for any reference string; evaluation of the folded polynomial; root counting |
| C95 | `kzg_commit`, `kzg_open` | add a multiple of the vanishing polynomial of the secret and the points; root counting |
| C96 | `fri_generate_proof`, `layer_from_poly`, `mt_root` | shape of generated proofs (C09); roots of unity; root counting; binding of whole vectors (C92) |
| C97 | `test_r1cs`, `test_witness`, `test_io`, `is_r1cs_satisfied`, `fw_commit` | rows of the matrices evaluated symbolically; C29; root counting for the last claim |
| C55-C60 | parser and CPI string processing | structural induction on character lists, permutation cycle argument |

## 6. Assumptions printed

`rocq/theories/Assumptions.v` prints the assumptions of every property theorem
during the build; every one is "Closed under the global context" (no axiom at
all: mathcomp 1.x algebra over decidable structures needs none, and none is
declared here).
