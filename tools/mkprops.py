#!/usr/bin/env python3
"""Writes /verif/properties.jsonl (single source of truth for the property list)."""
import json, os
P = []
def add(title, statement, quantifier, why, *anchors):
    P.append(dict(id="C%02d" % (len(P)+1), title=title, statement=statement,
                  quantifier=quantifier, why_tests_cant=why, anchors=list(anchors)))

# ---------------------------------------------------------------- FRI
add("Merkle opening completeness",
    "For a tree built from a vector whose length is a power of two, asking for a proof of any in-range leaf succeeds, the proof carries that index and that leaf value and the tree's root, and proof verification returns true.",
    "every hash function, every leaf vector of length 2^k for every k, every index below the length",
    "tests open one index of one 4-leaf tree; the claim is over all depths, values and indices",
    "fri/src/merkle_tree.rs: MerkleTree::new, generate_proof, root, verify_merkle_proof")
add("Merkle openings outside power-of-two sizes",
    "For a tree built from a non-empty vector whose length is not a power of two, asking for a proof of the last committed leaf panics; openings never panic for in-range indices exactly when the length is a power of two; an index at or beyond the padded length always panics, and the root of an empty tree panics.",
    "every hash function, every leaf vector length and value, every index",
    "tests never build a non-power-of-two tree; the claim covers every length",
    "fri/src/merkle_tree.rs: MerkleTree::new, generate_proof, root")
add("Merkle proof binding",
    "Two Merkle proofs that both verify, with the same root, index and path length, carry the same leaf value unless two distinct inputs of the leaf hash or of the two-element node hash with equal outputs can be read off the two proofs; and verification ignores index bits above the path length.",
    "every hash function, every pair of proofs of every depth",
    "a security reduction over all proofs; tests cannot enumerate proofs or hashes",
    "fri/src/merkle_tree.rs: verify_merkle_proof", "fri/src/hasher.rs: hash, hash_slice")
add("Ambiguous encoding of hashed field elements",
    "The byte string handed to SHA-256 for a list of field elements is the plain concatenation of their decimal forms, so distinct element pairs (and a pair versus a single element) with equal concatenations always get equal node hashes, whatever the hash function; e.g. (1,23) and (12,3) always collide.",
    "every hash function, every prime modulus above 123, all element lists with equal concatenated decimal forms",
    "a collision that holds for every hash function is not observable by sampling inputs",
    "fri/src/hasher.rs: hash, hash_slice")
add("Polynomial folding identity",
    "Folding a polynomial p by r returns a polynomial q with q(x^2) = (p(x)+p(-x))/2 + r(p(x)-p(-x))/(2x) for every non-zero x, equivalently q = p_even + r p_odd, and q has at most half (rounded up) as many coefficients as p.",
    "every field of characteristic other than two, every polynomial of every degree, every r and x",
    "the test folds one cubic with r=1",
    "fri/src/prover.rs: fold_polynomial")
add("FRI layer contents",
    "A layer built from p, a coset shift c and a power-of-two domain size n holds exactly the n values p(c w^i), i<n, w the domain generator; entries i and i+n/2 are values at opposite points; and its root is the Merkle root of those values. Building fails exactly when the field has no such domain.",
    "every polynomial, every shift, every domain size",
    "the values are over all domain sizes and all polynomials",
    "fri/src/fri_layer.rs: FriLayer::from_poly")
add("FRI completeness",
    "Whenever proof generation returns a proof, verification of that proof with the same digest returns Ok.",
    "every field with two-adic roots of unity, every digest, every polynomial, every blow-up factor, every number of queries",
    "three tests use fixed small polynomials and two queries; Fiat-Shamir challenges range over the whole field",
    "fri/src/prover.rs: generate_proof, folding_phase, query_phase", "fri/src/verifier.rs: verify, verify_query")
add("When FRI proof generation panics",
    "Proof generation panics exactly when the rounded-up domain size is 1, or exceeds the field's two-adic subgroup, or the polynomial obtained by folding down to the last layer has no non-zero coefficient (so in particular for the zero polynomial, and for a constant polynomial with blow-up 1); otherwise it returns a proof.",
    "every polynomial, blow-up factor, number of queries and digest",
    "panic conditions depend on data-dependent challenges and on boundary sizes no test touches",
    "fri/src/prover.rs: folding_phase, generate_proof")
add("Shape of a generated FRI proof",
    "A generated proof has domain size = smallest power of two >= (number of coefficients x blow-up), coset = field generator, one root per halving of the domain, exactly the requested number of decommitments (each with one entry per layer), and in every layer the opened index is the query index modulo the layer size, the symmetric index is half a layer away, and the opened values are the folded polynomial's values at opposite domain points.",
    "every polynomial, blow-up factor, number of queries and digest for which a proof is returned",
    "holds over all layer counts and all query positions",
    "fri/src/prover.rs: generate_proof, query_phase")
add("FRI verifier decision",
    "Verification returns Ok exactly when, for every pair of a regenerated query and a supplied decommitment, and for every layer entry that has both a path and a challenge, the indices are the expected ones, the values equal the path leaves, both Merkle paths verify, the folded value equals the next layer's value, and at the last entry equals the claimed constant.",
    "every proof object on which the verifier does not panic, every digest",
    "acceptance is over all, including malformed, proof objects",
    "fri/src/verifier.rs: verify, verify_query")
add("FRI verifier never authenticates the layer commitments",
    "For every list of layer roots, every constant and every power-of-two domain size with as many halvings, there is a proof carrying exactly those roots that the verifier accepts, although no opened path ends in any of them: acceptance does not tie opened values to the committed roots.",
    "every digest and hash, every list of roots, every constant, every number of queries",
    "a missing check is visible only against adversarial proofs, which no test builds",
    "fri/src/verifier.rs: verify_query", "fri/src/merkle_tree.rs: verify_merkle_proof")
add("FRI verifier tolerates missing decommitments",
    "A proof with no decommitments is accepted for every roots, constant and claimed number of queries with non-zero domain size; a proof with no layer roots is accepted whatever its decommitments contain; dropping trailing decommitments from an accepted proof leaves it accepted.",
    "every such proof object and digest",
    "requires adversarial proof objects of every shape",
    "fri/src/verifier.rs: verify, verify_query")
add("FRI verifier imposes no degree bound",
    "The layer count equals log2 of the domain size, so honest folding of any vector of 2^k values (equivalently any polynomial with up to 2^k coefficients, blow-up 1) ends in a constant and is accepted: an accepted proof for domain size D does not imply degree below D/blow-up for any blow-up above one.",
    "every k>=1, every value vector of length 2^k whose total fold is non-zero, every digest",
    "soundness of the low-degree test is a claim about all words, not sampled polynomials",
    "fri/src/prover.rs: generate_proof", "fri/src/verifier.rs: verify")
add("FRI verifier panics on malformed proofs",
    "The verifier panics (instead of returning an error) for a proof whose domain size is 0 with at least one query, whose coset shift is 0, or whose claimed domain exceeds the field's two-adic subgroup, as soon as the entry reaching the faulty step passes the preceding checks.",
    "every digest and every such proof object",
    "needs adversarial inputs",
    "fri/src/verifier.rs: verify, verify_query")
add("FRI transcript: one challenge batch per message",
    "Starting from a new transcript, a sequence of digest/challenge calls panics exactly when two challenge calls have no digest between them; the challenges returned are a function of the messages digested so far and of nothing else (equal histories give equal challenges; earlier challenge requests do not influence later ones).",
    "every digest, every finite history of calls",
    "all interleavings of calls of every length",
    "fri/src/fiat_shamir/transcript.rs: Transcript::new, digest, generate_a_challenge, generate_challenges, generate_challenge_list_usize")
add("FRI transcript binding",
    "If two histories of digested messages (of possibly different lengths, below 2^56) leave the transcript in the same internal hash value, then the histories are equal or a collision of the digest can be read off them.",
    "every fixed-output-length digest, every pair of message histories",
    "collision reduction over all histories",
    "fri/src/fiat_shamir/transcript.rs: Transcript::digest")
add("FRI challenges carry only 64 bits of transcript state",
    "Two transcripts whose hash values agree on the first 8 bytes produce identical challenges and query lists, of any requested length.",
    "every digest and random generator, every pair of transcripts",
    "needs pairs of states agreeing on a prefix; infeasible to sample",
    "fri/src/fiat_shamir/transcript.rs: generate_rng_with_seed, generate_challenges")

# ---------------------------------------------------------------- KZG
add("SRS contents",
    "The reference string for secret s and size n holds exactly n+3 first-group points, the i-th being s^i times the generator, together with the second-group generator and s times it.",
    "every secret, every size, every pairing group",
    "tests use size 5 and 10 only, and never look at the points",
    "kzg/src/srs.rs: Srs::new_from_secret")
add("Commitment is evaluation at the secret",
    "Committing to a polynomial gives p(s) times the generator when the reference string has more points than the degree, and panics otherwise (also when the leading stored coefficient of a non-zero polynomial is zero); committing to a coefficient vector behaves the same after dropping trailing zeros.",
    "every polynomial and vector, every secret and size",
    "all degrees including the exact size boundary",
    "kzg/src/scheme.rs: commit, commit_vector, evaluate_in_s")
add("Commitment homomorphism",
    "Adding, subtracting, negating and scaling commitments yields the commitments of the sum, difference, negation and scaling of the committed polynomials; committing to a scalar equals committing to the constant polynomial.",
    "all polynomials that fit the reference string, all scalars",
    "algebraic law over all inputs",
    "kzg/src/scheme.rs: Add, Sub, Mul, Neg for KzgCommitment, commit_para")
add("Commitment aggregation",
    "Aggregating commitments c_0..c_n with challenge v gives the sum of v^i c_i (zero for the empty list), hence the commitment of the sum of v^i p_i when each c_i commits to p_i.",
    "all lists of every length, all challenges",
    "one test with two commitments",
    "kzg/src/scheme.rs: aggregate_commitments")
add("Opening correctness",
    "Opening a polynomial with at least one stored coefficient at z returns p(z) and the commitment to the exact quotient (p - p(z))/(X - z); opening the polynomial with no coefficients (in particular every all-zero vector) panics.",
    "every polynomial, vector, point, secret and size",
    "division exactness over all degrees and points; zero polynomial untested",
    "kzg/src/scheme.rs: open, open_vector")
add("KZG completeness",
    "An opening produced for a polynomial at z verifies against its commitment at z.",
    "every bilinear group, secret, size, polynomial that fits, and point (including z = secret)",
    "one fixed polynomial is tested",
    "kzg/src/scheme.rs: commit, open, verify")
add("KZG verification equation and evaluation binding",
    "Verification of (C, (W, y), z) is true exactly when (s-z)W = C - y g1; so for a fixed C, W and z at most one y verifies, and two accepted openings of the same commitment at the same z with different values yield the group element 1/(s-z) g1.",
    "every non-degenerate bilinear group, all group elements and scalars",
    "a reduction over all adversarial openings",
    "kzg/src/scheme.rs: verify")
add("Wrong evaluations are rejected",
    "For an honestly computed commitment and witness, replacing the claimed value by any other value makes verification false.",
    "every polynomial, point, secret and wrong value",
    "all wrong values; no test checks rejection",
    "kzg/src/scheme.rs: open, verify")
add("Batch verification completeness and soundness",
    "If every opening verifies individually then batch verification is true for every random stream; if some opening does not verify, then for any fixing of the other coefficients at most one value of that opening's coefficient makes the batch accept; unequal input lengths panic.",
    "all batches of every size, all random coefficients",
    "randomised check over all coefficient streams",
    "kzg/src/scheme.rs: batch_verify")
add("Sum of openings",
    "Adding two openings adds the evaluations but doubles the first witness point instead of adding the second, so for two valid openings at z the sum verifies against the sum of commitments exactly when the two witness points are equal or z equals the secret: in general it is not an opening of the sum.",
    "all pairs of valid openings in every non-degenerate bilinear group",
    "no test adds openings; the failure is over generic inputs",
    "kzg/src/opening.rs: Add for KzgOpening")

# ---------------------------------------------------------------- NOVA
add("Vector and matrix helpers",
    "matrix_vector_product returns for each row the sum of products over the common prefix of row and vector; hadamard/scale/add/sub are pointwise; vec_add/vec_sub panic exactly on unequal lengths, hadamard_product exactly when the second vector is shorter; vec_equal is equality.",
    "all matrices (ragged included) and vectors",
    "helpers are only exercised through one fixed 4x6 system",
    "nova/src/utils.rs: matrix_vector_product, hadamard_product, vector_elem_product, vec_sub, vec_add, vec_equal")
add("R1CS satisfaction check",
    "The check returns Ok exactly when witness and instance have the declared lengths, (A z)o(B z) = u (C z) + E for z = (W, x, u), and both commitments are the commitments of W and E; with matching lengths it panics when E has a different length than the number of rows of C or B has fewer rows than A.",
    "all matrices, instances, witnesses and commitment keys",
    "one satisfied instance tested",
    "nova/src/r1cs/mod.rs: is_r1cs_satisfied")
add("Nova folding preserves satisfaction",
    "If two instance-witness pairs satisfy the relaxed R1CS, the pair returned by the folding prover satisfies it too, for whatever challenge the transcript yields; equivalently for every r the folded pair with the computed cross term satisfies it.",
    "all well-shaped R1CS, all satisfying pairs (relaxed or strict), all challenges",
    "tests fold one pair of strict instances",
    "nova/src/nifs/mod.rs: compute_t, fold_witness, fold_instance", "nova/src/nifs/nifs_prover.rs: prover")
add("Cross term identity",
    "For vectors z1, z2 with scalars u1, u2 and every r, A(z1+r z2) o B(z1+r z2) - (u1+r u2) C(z1+r z2) equals the error of the first plus r times the computed cross term plus r^2 times the error of the second.",
    "all matrices, vectors, scalars",
    "polynomial identity in r over all inputs",
    "nova/src/nifs/mod.rs: compute_t")
add("Folding commutes with committing",
    "Folding two committed instances gives the instance whose commitments are those of the folded witness, when vectors have matching lengths; the verifier computes the same folded instance as the prover from public data.",
    "all witnesses, cross terms, challenges, secrets",
    "homomorphism over all inputs",
    "nova/src/nifs/mod.rs: fold_witness, fold_instance", "nova/src/nifs/nifs_verifier.rs: verifier")
add("NIFS completeness",
    "If the prover's fold and opening proof are produced without panic, verification with a transcript in the same starting state returns Ok.",
    "all R1CS, witnesses of matching lengths, keys and digests",
    "one fold tested",
    "nova/src/nifs/nifs_prover.rs: prover, prove", "nova/src/nifs/nifs_verifier.rs: verify, verify_challenge, verify_opening")
add("NIFS proving panics on zero vectors",
    "Producing the opening proof panics whenever the folded error or folded witness vector is all zero; in particular folding any strictly satisfied instance with itself always ends in a panic.",
    "all R1CS and all satisfying strict instances",
    "needs a degenerate input no test has",
    "nova/src/nifs/nifs_prover.rs: prove", "kzg/src/scheme.rs: open_vector")
add("NIFS verification ignores satisfiability",
    "NIFS verification accepts the proof produced from any two witnesses of matching lengths, whether or not they satisfy the R1CS; acceptance therefore does not imply that the folded instance is satisfiable.",
    "all witness pairs (satisfying or not), all keys and digests for which proving does not panic",
    "absence of a check shows only on invalid witnesses",
    "nova/src/nifs/nifs_verifier.rs: verify")
add("Nova challenge does not bind the instances",
    "The folding challenge depends on the two instances only through u1, u2 and the cross-term commitment: replacing their commitments and public inputs leaves the verifier's recomputed challenge unchanged.",
    "all instances, transcripts and digests",
    "independence from inputs is universally quantified",
    "nova/src/nifs/nifs_verifier.rs: verify_challenge")
add("Nova transcript history and binding",
    "A sequence of feed/challenge calls on a fresh transcript panics exactly when a challenge is requested with no feed since the start or the last challenge; challenges depend only on what was fed; equal hash values mean equal feed histories or a digest collision.",
    "all finite call histories, all digests with 32-byte output",
    "all interleavings and a collision reduction",
    "nova/src/transcript.rs: feed, feed_scalar_num, generate_challenges, from_commitment, from_scalar_number")
add("IVC step function is a faithful state machine",
    "Over any sequence of run and next_step calls on a fresh augmented circuit: a failing run changes nothing, next_step panics exactly when no run has succeeded since the last next_step, the counter equals the number of next_step calls, the state equals the user function iterated from z_0 over the witnesses of the adopted runs, and the stored hash is hash(i, z_0, z_i, U_i).",
    "all call histories, user functions, witnesses, digests",
    "histories of every length and order",
    "nova/src/circuit.rs: AugmentedCircuit::new, run, next_step, hash_io")
add("IVC completeness for any number of steps",
    "Driving the IVC as the shipped example does, for any number of steps and any witnesses, every run and every verification succeeds, the state is the user function iterated and the running witness and instance are the fold of the steps, as long as no proving call panics.",
    "every step count, every witness sequence, user function, digest and key, matching vector lengths",
    "tests run 3 and 4 steps",
    "nova/examples/examples.rs: main", "nova/src/ivc/ivc_prover.rs: prove", "nova/src/ivc/ivc_verifier.rs: verify")
add("IVC verification does not check the computation",
    "For every non-zero step counter, every initial state and every claimed current state, there is a proof that IVC verification accepts: acceptance does not imply that the state results from iterating the user function.",
    "all states, counters, user functions, digests and keys",
    "soundness against all adversarial proofs",
    "nova/src/ivc/ivc_verifier.rs: verify")
add("IVC verification at step zero",
    "At step 0 verification returns Ok exactly when the current state equals the initial state and ignores the proof; at later steps it returns an error when the cross-term commitment or folding proof is missing, when the public hash, the error commitment or the scalar u is wrong, and panics when the fresh instance has no public input.",
    "all proofs and states",
    "decision over all inputs",
    "nova/src/ivc/ivc_verifier.rs: verify")
add("Augmented circuit accepts any running instance",
    "At a later step, run never checks the supplied running instance against the stored hash: whenever it succeeds for one running instance and cross-term commitment it succeeds for every other.",
    "all instances, commitments, states",
    "absence of a check",
    "nova/src/circuit.rs: AugmentedCircuit::run")
add("Public-IO hash binding",
    "Equal public-IO hashes mean equal step counters, states and running instances, or a digest collision.",
    "all inputs, all 32-byte digests",
    "collision reduction",
    "nova/src/circuit.rs: hash_io")

# ---------------------------------------------------------------- PLONK
add("Gate equations",
    "The selector polynomial equation of an addition (multiplication, constant) gate with wires a,b,c and public input p holds exactly when a+b = c+p (a*b = c+p, a = constant+p); a dummy gate's equation always holds.",
    "all wire values, constants, public inputs",
    "all field values",
    "plonk/src/gate.rs: new_add_gate, new_mul_gate, new_constant_gate, new_dummy_gate")
add("Circuit padding and compilation size",
    "Compiling a circuit with at least two gates gives the smallest power-of-two size not below the gate count; compiling with no gate or exactly one gate panics.",
    "all circuits",
    "boundary sizes over all lengths; one-gate circuit untested",
    "plonk/src/circuit.rs: pad_circuit, compile", "plonk/src/common_preprocessed_input/cpi_circuit.rs: pad_circuit")
add("Compiled polynomials interpolate the circuit",
    "The compiled wire and selector polynomials take at the i-th domain point the i-th gate's wire value and selector, and zero at padding rows; all have degree below the size.",
    "all circuits that compile",
    "all sizes and rows",
    "plonk/src/circuit.rs: get_assignment, compile")
add("Permutation polynomials encode the wire positions",
    "The three permutation polynomials take at row i the code (1, 2 or 3 times the j-th root) of the position stored for that wire, identity codes at padding rows; compile panics when a stored position is outside 3 x size; the position code is injective when 2^n, 3^n and 1 are pairwise different, which holds for the BLS12-381 scalar modulus for every power of two up to 2^32.",
    "all circuits, all sizes",
    "all positions; coset disjointness for all 33 domain sizes of a 255-bit field",
    "plonk/src/circuit.rs: cal_permutation, find_cosets")
add("Quotient splitting",
    "Splitting a non-zero polynomial t in three and recombining at a point z gives a polynomial whose value at z is t(z); the three slices have at most degree+1 coefficients and t = lo + X^(d+1) mid + X^(2d+2) hi; splitting the zero polynomial panics.",
    "all polynomials, all points",
    "all coefficient counts modulo three",
    "plonk/src/slice_polynomial.rs: SlicePoly::new, compact, commit")
add("PLONK completeness",
    "Whenever proof generation for a compiled circuit returns a proof, verification with SHA-256 of that proof against the same compiled circuit and reference string returns Ok, unless the evaluation challenge equals 1 (then the verifier panics).",
    "all circuits, blinding values, reference strings, hash and random generators",
    "three fixed circuits; challenges and blinders range over the field",
    "plonk/src/prover.rs: generate_proof", "plonk/src/verifier.rs: verify")
add("PLONK prover refuses unsatisfied circuits",
    "If proof generation returns a proof then every gate equation of the circuit holds for its wire values, and the permutation grand product at the drawn challenges equals one.",
    "all circuits, blinders, challenges",
    "all unsatisfying assignments",
    "plonk/src/prover.rs: compute_quotient_polynomial, compute_acc, divide_by_vanishing_poly")
add("PLONK prover succeeds on satisfied circuits",
    "If every gate equation holds and wire values are equal along the stored position permutation, then proof generation with a reference string created for the circuit size returns a proof, except when a challenge makes a permutation denominator or one of the named intermediate polynomials vanish.",
    "all satisfied circuits with permutation positions, blinders and challenges outside the explicit exceptional set",
    "all circuits and sizes; size of reference string is exactly tight",
    "plonk/src/prover.rs: generate_proof", "kzg/src/srs.rs: new_from_secret")
add("PLONK verifier equation",
    "Verification returns Ok exactly when the proof's u equals the recomputed challenge and the group equation (s-z)W_z + u(s-zw)W_zw = [F] - [E] of the protocol holds for the recomputed challenges; otherwise it returns the corresponding error.",
    "all proof objects, circuits and reference strings with z different from 1",
    "all adversarial proofs",
    "plonk/src/verifier.rs: verify, verify_challenges")
add("PLONK prover ignores its digest parameter",
    "Proof generation derives all challenges with SHA-256 whatever digest type it is instantiated with, while verification uses the requested digest, so completeness fails for other digests: for suitable digests the verifier rejects the honest proof.",
    "all digests (independence); existence of a rejecting digest",
    "tests only use SHA-256",
    "plonk/src/prover.rs: generate_proof", "plonk/src/verifier.rs: verify_challenges")
add("PLONK challenge generator history and binding",
    "Challenges can be drawn only after a feed since the last draw; a generator never fed panics; challenges depend only on the fed commitments and equal hash values mean equal histories or a digest collision; public inputs and the circuit do not enter the challenges.",
    "all call histories, digests, proofs and circuits",
    "all histories",
    "plonk/src/challenge.rs: ChallengeGenerator", "plonk/src/verifier.rs: verify_challenges")

# ---------------------------------------------------------------- parser
add("Exponent expansion",
    "Normalising an input lower-cases it, drops blanks and expands v^k (single-letter v, k >= 1) to k factors of v; it does not preserve meaning for other inputs: v^0 becomes v, a power of a multi-letter name repeats only its last letter, and a power of a numeral uses the numeral's digits as part of the exponent (3^2 becomes 32 factors of 3).",
    "all inputs made of names, numerals and exponents (positive part); witnesses (negative part)",
    "all strings; tests have one exponent",
    "plonk/src/parser.rs: parse_string", "plonk/src/common_preprocessed_input/cpi_parser.rs: normalize")
add("Parser copy permutation",
    "The positions stored in a parsed circuit form a permutation of all wire slots, and each slot is sent to a slot carrying the same sub-expression.",
    "all inputs that parse, all witness maps",
    "all expressions and sharing patterns",
    "plonk/src/parser.rs: prepare_gen_circuit, gen_circuit, push_into_position_map_or_insert")
add("Parser circuit is satisfied exactly by solutions",
    "In a parsed circuit all gate equations and copy constraints hold for the stored wire values exactly when the equation holds for the given witness values.",
    "all inputs that parse, all witness maps",
    "all expressions and values",
    "plonk/src/parser.rs: parse")
add("Parsed circuits do not enforce the equation",
    "The output wire of the last gate is unconstrained and a negated right-hand variable is an unconstrained new wire, so for every input and every witness values there is an assignment satisfying all gate and copy constraints of the parsed circuit even when the equation is false; consequently a proof built from a non-solution is accepted by the verifier.",
    "all inputs that parse, all witness values",
    "soundness of the generated constraints, not of one run",
    "plonk/src/parser.rs: prepare_gen_circuit, gen_circuit", "plonk/src/verifier.rs: verify")
add("Parser panics",
    "Parsing panics when the input does not contain exactly one '=', when a factor is empty, or when a factor is neither a registered witness nor a 32-bit integer literal; witness names containing upper-case letters can never be used.",
    "all inputs",
    "all malformed strings",
    "plonk/src/parser.rs: prepare_gen_circuit, get_witness_value")
add("Preprocessor agrees with parser",
    "For inputs whose literals are canonical numerals and whose right side is not negative, the common preprocessed input equals the selector and permutation data of the parsed circuit; for a negative right side such as x*y=-1 they differ (the preprocessor treats the value as an unconstrained variable).",
    "all such inputs; a witness for the difference",
    "one fixed expression tested",
    "plonk/src/common_preprocessed_input/cpi_parser.rs: CPIGenerator", "plonk/src/parser.rs: Parser")

add("Trivial pair is not a relaxed zero",
    "The pair returned by create_trivial_pair has u = 1 (not 0), zero vectors and zero commitments; it satisfies a relation exactly when its shape matches and, in every row, the product of the last-column entries of A and B equals the last-column entry of C; it does not satisfy the relation used in the repository's own tests and example.",
    "all relations, lengths and keys; the shipped test relation",
    "no test checks the trivial pair; the claim ranges over all relations",
    "nova/src/r1cs/mod.rs: create_trivial_pair, new_trivial_witness, is_r1cs_satisfied", "nova/src/nifs/nifs_verifier.rs: gen_test_values")
add("NIFS verification decision",
    "On any transcript that has absorbed some messages, NIFS verification accepts exactly when the proof's r and opening point are the transcript's challenges for (u1, u2, com_T) and the folded commitments, and both openings satisfy the KZG equation at that point for the supplied folded instance; nothing else of the two input instances matters.",
    "all proofs, instances, transcripts histories, digests and keys",
    "a decision over all inputs",
    "nova/src/nifs/nifs_verifier.rs: verify, verify_challenge, verify_opening")

add("Concrete fields meet the algebraic assumptions",
    "The Goldilocks modulus and the BLS12-381 scalar modulus are prime; in every field of that characteristic 7 generates the multiplicative group and the derived FFT constants (two-adicity 32, 7^((p-1)/2^32)) are a primitive 2^32-th root; the BLS12-381 scalar constants are a primitive 2^32-th root in every field of that characteristic; hence FRI completeness holds over Goldilocks, and over the BLS scalar field the three wire columns of a PLONK circuit have disjoint codes for every circuit size, so copy-constraint violations are caught for all but a bounded number of challenges.",
    "all fields of those characteristics, all domain sizes up to 2^32, all circuits",
    "the modulus has 255 bits; primality and orders cannot be tested by examples",
    "fri/src/fields/goldilocks.rs: FqConfig", "plonk/src/circuit.rs: find_cosets", "plonk/src/types.rs")

add("PLONK public inputs are bound only through one value",
    "Verification of a proof against a compiled circuit depends on the circuit's public inputs only through the value of their polynomial at the proof's evaluation challenge, which does not depend on them: replacing the public inputs by any others with the same value there leaves the verdict unchanged, and every accepted proof is also accepted for the same circuit with some different public inputs.",
    "all circuits that compile, all proofs, digests, reference strings and replacement public inputs",
    "claims about every accepted proof and every replacement",
    "plonk/src/verifier.rs: verify, verify_challenges", "plonk/src/prover.rs: generate_proof", "plonk/src/challenge.rs: ChallengeGenerator")
add("PLONK witness-free forgery",
    "For every circuit and every gate there is a value of that gate's public input for which a proof with zero wire commitments, computed from the published reference string without any wire values, is accepted, whether or not the circuit can be satisfied (unless one challenge hits the evaluation domain).",
    "all circuits that compile, all gates, digests and reference strings",
    "an adversary strategy that works for every circuit, not an input of a test",
    "plonk/src/verifier.rs: verify, verify_challenges", "plonk/src/challenge.rs: ChallengeGenerator")
add("PLONK reference string secret breaks soundness",
    "Whoever knows the secret behind the reference string completes any commitments and claimed values of the first four rounds to an accepted proof, unless the secret equals the evaluation challenge or its shift or the challenge is 1.",
    "all circuits that compile, all proof prefixes, secrets and digests",
    "ranges over all adversarial messages",
    "plonk/src/verifier.rs: verify", "kzg/src/srs.rs: Srs::new_from_secret")
add("PLONK round-by-round soundness",
    "If a proof is accepted and its group elements are commitments to polynomials, then the committed wire polynomials give an assignment satisfying every gate relation and every copy constraint of the circuit, or one of the challenges (or the secret) took one of boundedly many unlucky values determined by what was fixed before it was drawn: 2 for alpha, 5 for v, 1 for u, a number linear in the polynomial sizes and the proof's degree field for zeta and the secret, and (3n)^2 for beta then 3n for gamma.",
    "all circuits that compile, all proofs and explaining polynomials, all digests and secrets",
    "soundness against every prover",
    "plonk/src/verifier.rs: verify", "plonk/src/circuit.rs: compile_circuit", "plonk/src/prover.rs: generate_proof")
add("PLONK degree field is not bound",
    "The proof's degree field is absorbed into no challenge: an accepted proof with its degree replaced by d is accepted exactly when the evaluation challenge is in the domain or both degrees combine the last two quotient parts to the same group element.",
    "all accepted proofs and replacement degrees",
    "malleability over all proofs",
    "plonk/src/verifier.rs: verify", "plonk/src/prover.rs: Proof")

add("Nova folding soundness",
    "Three satisfied folds of the same two instances and cross-term commitment under distinct challenges determine, by an explicit interpolation of the three folded witnesses, a witness for each of the two instances and the honest cross term, unless the third folded witness differs from the interpolated one while having the same commitment; hence a prover answering three or more challenges holds witnesses for both instances or exhibits commitment collisions. The instances must have equally many public inputs: surplus public inputs of one instance are silently dropped by folding although no witness satisfies such an instance.",
    "all relations, instance pairs, cross-term commitments, challenges, answers and reference strings",
    "knowledge extraction from every prover",
    "nova/src/nifs/mod.rs: fold_witness, fold_instance", "nova/src/r1cs/mod.rs: is_r1cs_satisfied", "nova/src/nifs/nifs_verifier.rs: verifier")
add("FRI soundness for openings that end in the roots",
    "If the verifier accepts and a complete decommitment's paths do end in the published roots (which the verifier does not check), then the vectors behind the roots are folds of each other at the query position, down to the claimed constant, or a hash collision can be read off; vectors consistent at every position are exactly the layers of one polynomial whose complete fold is the constant; otherwise some layer's error spoils a number of positions equal to twice the number of values merged into one entry of that layer, and no spoiled position was queried. Generated proofs have such openings.",
    "all accepted proofs with such openings, all committed vectors, digests and domain sizes",
    "soundness over all cheating provers and query positions",
    "fri/src/verifier.rs: verify, verify_query", "fri/src/prover.rs: generate_proof", "fri/src/merkle_tree.rs: MerkleProof::verify")

add("PLONK verdicts depend on the public part of the circuit only",
    "Two circuits built by calls with the same kinds, positions, public inputs and constants compile together, to the same size, and accept exactly the same proofs under every digest and reference string, whatever wire values they were built with; so the verifier can compile the circuit without knowing the witness, and a proof generated from any satisfying wire values is accepted by it.",
    "all pairs of circuits with the same public part, all proofs, digests, reference strings and blinders",
    "ranges over all circuits and all witnesses",
    "plonk/src/verifier.rs: verify, get_circuit_commitment", "plonk/src/circuit.rs: compile, get_assignment", "plonk/src/constraint.rs")
add("The example programs",
    "The KZG example program succeeds for every secret; the FRI example program succeeds unless the six coefficients fold to zero under the drawn challenges; the PLONK example program's circuit compiles to eight rows and the program succeeds unless a listed accident happens or the evaluation challenge is 1. The PLONK example's circuit does not state its advertised equation xy + 3x^2 + xyz = 11: it accepts a proof for every choice of x, y, z and of the factor of x^2, since neither the output wire nor the wire carrying the 3 is tied to a constant.",
    "all secrets, blinders, digests and field environments; all values x, y, z and factors",
    "the programs draw random secrets and blinders; the negative part ranges over all witnesses",
    "kzg/examples/example.rs: main", "fri/examples/example.rs: main", "plonk/examples/example.rs: main", "plonk/src/gate.rs: Gate::new_constant_gate")

add("PLONK blinding",
    "For every evaluation point and secret that are different (also from the shifted point) and outside the evaluation domain, the values an honest proof shows of the wire and permutation polynomials - at the secret, inside the commitments, and at the evaluation points - take every combination for exactly one choice of the nine blinders, whatever the wire values; so two witnesses of the same statement cannot be told apart by them: each choice of blinders for one has exactly one counterpart for the other showing the same values and giving the same first challenges. (The three quotient commitments are not blinded and not covered.)",
    "all circuits that compile, all pairs of witnesses, secrets, evaluation points and blinders",
    "a distribution statement over all blinders",
    "plonk/src/prover.rs: generate_proof (rounds 1 and 2)", "plonk/src/prover.rs: Proof")

add("The degree field of a proof and machine integers",
    "With the exponents computed on 64-bit words (any width), the verifier's verdict is the one of exact arithmetic for degree fields below half the range, so proofs of the prover are accepted in debug and release builds alike; for larger fields a build with overflow checks panics on every proof that passes the challenge check - an accepted proof with the field raised is enough, and so is any proof with the final challenge copied in - while a build without them reduces the exponents and never panics for this reason.",
    "all proofs, degree fields, word widths, digests and both build profiles",
    "ranges over all proofs and field values near the end of the word range",
    "plonk/src/verifier.rs: verify (exponents proof.degree + 1 and proof.degree * 2 + 2)", "plonk/src/prover.rs: Proof")

add("The real hash function and fields meet the assumptions",
    "SHA-256 returns 32 bytes for every message, so the transcripts never run out of seed bytes with it; over the Goldilocks field with generator 7 and SHA-256 the FRI prover panics exactly for a domain of one element, above 2^32, or a polynomial folding to zero under the drawn challenges, and otherwise returns a proof the verifier accepts; over the BLS12-381 scalar field with SHA-256 every satisfied PLONK circuit of up to 2^29 rows gets a proof, accepted unless the evaluation challenge is 1, but for the listed accidents.",
    "all messages, polynomials, blow-up factors, query counts, circuits, secrets and blinders",
    "ranges over all messages and inputs of the concrete configuration the crates are used in",
    "fri/src/hasher.rs: hash, hash_slice", "fri/src/fields/goldilocks.rs", "fri/src/fiat_shamir/transcript.rs: Transcript", "plonk/src/challenge.rs: ChallengeGenerator", "plonk/src/prover.rs: generate_proof")

add("PLONK interactive soundness error",
    "A proof is accepted by the verifier exactly when the interactive verifier accepts it for the challenges the transcript gives. In the interactive protocol, against every prover that computes its group elements from the reference string and whose first three polynomials do not satisfy the circuit - whatever it sends later, each message depending on all challenges seen so far - the share of challenges and secrets (beta, gamma, alpha, zeta, v, u, s) for which the verifier accepts is at most ((3n)^2 + 3n + 2 + D max(4N, n + N + 2D) + 6D + N) / |F|, for n rows, N points and degree fields below D; over the BLS12-381 scalar field, with 64-bit degree fields, up to 2^28 rows and 2^32 points, it is at most 2^-120.",
    "all circuits, all adaptive provers of this kind, all finite fields with the stated coset facts",
    "a probability over all challenges, against all adaptive provers",
    "plonk/src/verifier.rs: verify", "plonk/src/challenge.rs: ChallengeGenerator", "plonk/src/prover.rs: Proof", "kzg/src/srs.rs: Srs")

add("FRI sizes and machine integers",
    "With sizes and indices computed on words wider than the two-adicity of the field, the verifier's verdict on every proof is the one of exact arithmetic in both build profiles, and so is the result of the prover in a build with overflow checks. A build without checks computes the domain size from (coefficients x blow-up factor) modulo the word size: what it returns is still accepted, but for every polynomial with an odd number of coefficients (at least 3) there is a blow-up factor above 1 for which it silently returns the proof for blow-up factor 1, where the checked build panics.",
    "all polynomials, blow-up factors, query counts, proofs, digests, word widths and both build profiles",
    "ranges over all factors near the end of the word range and all malformed proofs",
    "fri/src/prover.rs: generate_proof, query_phase", "fri/src/verifier.rs: verify_query")

add("PLONK forgeries against a random generator",
    "With the generator behind the challenges replaced by a random table (one pair of field elements for each 64-bit seed) and everything else as in the code, every prover that asks for the challenges of at most Q transcripts of its choice, adaptively, and then outputs a proof with the polynomials behind its commitments, is accepted on wire polynomials that do not satisfy the fixed circuit for at most a share (Q + 5) ((3n)^2 + 3n + 2 + D max(4N, n + N + 2D) + 5D) / |F| of the tables, unless it exhibits a polynomial with the secret as a root or its transcripts contain two with the same seed; over the BLS12-381 scalar field, with 64-bit degree fields, up to 2^28 rows and 2^32 points, at most (Q + 5) / 2^120.",
    "all circuits, secrets, digests of at least 8 bytes, adaptive provers and numbers of questions",
    "a probability over all tables, against all adaptive provers",
    "plonk/src/challenge.rs: ChallengeGenerator (feed, generate_rng_with_seed, generate_challenges)", "plonk/src/verifier.rs: verify", "plonk/src/prover.rs: Proof")

add("KZG openings of provers that compute from the reference string",
    "An opening accepted from a prover that makes the commitment and the witness from polynomials is either true or shows a nonzero polynomial with the secret as a root. So for polynomials of up to N coefficients, whatever witness and value the prover answers to each point, the share of points and secrets for which a wrong value is accepted is at most N / |F|; and a batch holding at least one wrong claim is accepted for at most a share 1/B + N/|F| of the draws (below B) and secrets - with the 128-bit draws of the code, over the BLS12-381 scalar field and up to 2^32 points, at most 2^-127.",
    "all polynomials, claims, batches of every length, points, secrets and draws",
    "a probability over all secrets, points and draws, against all provers of this kind",
    "kzg/src/scheme.rs: verify, batch_verify", "kzg/src/srs.rs: Srs")

add("All challenges come from 64-bit seeds",
    "Whatever the digest, the serialisation, the circuit and the history of calls, the challenges returned by one draw of n from a PLONK, Nova or FRI transcript are one of at most 2^64 lists, fixed by the random generator and n alone - so no number of FRI queries gives more than 2^64 query lists; the final challenge inside every accepted PLONK proof and both challenges inside every accepted folding proof lie in one set of at most 2^64 values known in advance; and among any 2^64 + 1 PLONK transcripts two give the same challenges, however many are drawn.",
    "all digests, histories, transcripts, proofs, circuits and numbers of challenges",
    "ranges over all histories and accepted proofs; the set has 2^64 elements",
    "plonk/src/challenge.rs: ChallengeGenerator", "nova/src/transcript.rs: Transcript", "fri/src/fiat_shamir/transcript.rs: Transcript", "plonk/src/verifier.rs: verify", "nova/src/nifs/nifs_verifier.rs: verify")

add("Nova instances chosen after the folding challenge",
    "For every relation shape, every second instance whatsoever, every scalar and public inputs claimed for the first one, every cross-term commitment and every vector w, there are commitments that complete the first instance and a folding proof that is accepted, such that the folded instance is satisfied by a known witness with w in it; the same with the roles of the two instances exchanged, unless the challenge is 0. So an accepted folding proof together with a witness of the fold does not make the folded instances satisfiable: an instance without any witness is folded this way with a satisfied one.",
    "all relations, instances, public inputs, scalars, cross-term commitments, secrets, digests and starting transcripts",
    "an attack on all relations and all transcripts",
    "nova/src/nifs/nifs_verifier.rs: verify, verify_challenge, verify_opening, verifier", "nova/src/nifs/mod.rs: fold_instance", "nova/src/r1cs/mod.rs: is_r1cs_satisfied")

add("Nova folding error for instances fixed before the challenge",
    "When the vectors behind both instances and the cross term are fixed before the challenge and one of the instances does not satisfy the relation, then, whatever witness the prover answers to each challenge, the share of challenges and secrets for which the folded instance is satisfied is at most (2 + 2N) / |F|, for vectors of length up to N. With the generator replaced by a random table and the challenge derived as the code does, a prover asking for the challenges of at most Q cross terms of its choice, adaptively, obtains an accepted folding proof and a witness of the fold for at most a share 2 (Q + 1) / |F| of the tables - over the BLS12-381 scalar field at most (Q + 1) / 2^250 - unless it finds a second opening of a commitment or two cross terms with one seed.",
    "all relations, pairs of instances, adaptive provers, numbers of questions, secrets and digests",
    "a probability over all challenges, secrets and tables, against all provers of this kind",
    "nova/src/nifs/nifs_verifier.rs: verify", "nova/src/nifs/mod.rs: fold_instance", "nova/src/r1cs/mod.rs: is_r1cs_satisfied", "nova/src/transcript.rs: Transcript")

add("PLONK sizes and machine integers",
    "Compiling a circuit with at least one gate gives the same result in debug and release builds, for every word width above the field's two-adicity. The empty circuit panics in a build with overflow checks; without them it compiles to one row without constraints, for which the prover then never returns a proof. A reference string has size + 3 points whenever that fits in a word; for the three largest sizes a checked build panics and an unchecked one returns a string of at most two points that cannot commit to anything longer.",
    "all circuits, sizes, word widths, blinders, reference strings and both build profiles",
    "ranges over all circuits and sizes near the end of the word range",
    "plonk/src/circuit.rs: pad_circuit, compile", "plonk/src/prover.rs: compute_linearisation_polynomial", "kzg/src/srs.rs: new_from_secret")

add("FRI query positions and the error of a bounded number of queries",
    "In a field of p elements (p prime) each of the 2^n query positions is obtained from p / 2^n field elements, rounded down or up (Goldilocks, n <= 32: (p - 1) / 2^n, and one more for position 0). With Merkle roots, layers and constant fixed, the folding challenges derived as the code does, and the nq draws at the query seed uniformly random, whatever decommitments the prover answers to the draws: if the folding relation fails at B positions, at most (p - B (p / 2^n))^nq of the p^nq lists of draws lead to an accepted proof whose openings end in the roots and show no hash collision; and unless the layers are those of one polynomial whose complete fold is the constant, B is at least 2.",
    "all fields, layers, cosets, constants, digests, numbers of queries and adaptive answers",
    "a count over all lists of draws, against all provers",
    "fri/src/verifier.rs: verify", "fri/src/prover.rs: generate_proof", "fri/src/fiat_shamir/transcript.rs: generate_challenge_list_usize")

add("Honest provers rarely fail",
    "With the generator behind the challenges replaced by a uniformly random table from seeds to field elements: PLONK - for every satisfied circuit of n rows, every reference string of at least n, and blinders with b1, b3, b5, b7 non-zero and b1 + b3 different from b5 (all but a share 5 / |F| of the nine-tuples), the run of the prover that draws its challenges from three different seeds fails to return a proof that the verifier accepts for at most a share 3 (5 n + 6) / |F| of the tables (BLS12-381, up to 2^28 rows: 2^-219); FRI - for every non-zero polynomial and domain of 2^n points within the two-adicity, the run that draws its folding challenges from different seeds fails for at most a share n / |F| (Goldilocks: 2^-58).",
    "all satisfied circuits, polynomials, blow-up factors, numbers of queries, reference strings, good blinders and sets of failing tables",
    "a count over all tables, for all satisfied circuits and polynomials",
    "plonk/src/prover.rs: generate_proof", "plonk/src/verifier.rs: verify", "fri/src/prover.rs: generate_proof", "fri/src/verifier.rs: verify")

add("The real encodings",
    "The uncompressed encodings of scalars (32 bytes), base field elements (48 bytes) and points (96 bytes, infinity flagged in the first byte) give different bytes for different values and always have that length; the base field modulus is prime. Hence, with SHA-256 and these encodings and with no assumption about encodings: PLONK transcripts, Nova transcripts and hash_io bind everything fed to them, or two hashed strings are a SHA-256 collision. The check of the public input in the augmented circuit compares digests modulo the scalar modulus r: two digests give the same public input exactly when they are congruent modulo r, and at most three digests do.",
    "all lists of commitments, transcript histories, instances, states and digests",
    "injectivity over all values and histories",
    "plonk/src/challenge.rs: ChallengeGenerator::feed", "nova/src/transcript.rs: feed, feed_scalar_num", "nova/src/circuit.rs: hash_io, AugmentedCircuit::run")

add("Honest Nova folding and IVC rarely fail",
    "The IVC driver panics exactly when the error vector or the witness vector of one of its running pairs after the first is zero; otherwise it returns. When the witness vectors of the later steps and the cross term of the first fold are not zero, the share of challenge tables for which an honest run of the driver with different seeds for its challenges does not return is at most 3 times the number of folds over the number of scalars; for the BLS12-381 scalars and at most 2^30 folds it is below 2^-219. One honest fold of two committed pairs fails (prover, proof or verifier) for at most 3 values of the challenge.",
    "all relations, witness lists, user functions, secrets, environments and sets of challenge tables",
    "a count over all tables of challenges",
    "nova/examples/examples.rs: main", "nova/src/nifs/nifs_prover.rs: prover, prove", "nova/src/nifs/nifs_verifier.rs: verify", "kzg/src/scheme.rs: open_vector")

add("From an equation to an accepted proof",
    "The parsed circuit of an equation has at least one and at most as many gates as the equation has operations and numerals (v^k counting as k factors); it has a single gate exactly for an equation between two single variables, and compilation panics for those and, up to the two-adicity of the field, returns for all others, with a size at most the next power of two. Over the BLS12-381 scalars, for equations up to size 2^28 and with a reference string at least that long: without a solution the prover returns no proof for any environment; with a solution, the challenge tables for which the honest prover does not get an accepted proof (the transcripts having different seeds) are at most one in 2^219; and whatever the witness values, a prover that changes wire values of the same gates gets accepted proofs for all but the same share.",
    "all equations, inputs writing them, witness maps, secrets, blinders and sets of challenge tables",
    "the composition of parser, compiler, prover and verifier on all inputs, and a count over all tables",
    "plonk/src/parser.rs: parse", "plonk/src/circuit.rs: compile", "plonk/src/prover.rs: generate_proof", "plonk/src/verifier.rs: verify")

add("A verifier that holds only the preprocessed input",
    "The verdict on any proof is a function of the output of compute_common_preprocessed_input and the reference string: circuits with the same preprocessed input get the same verdict on every proof, so a verifier needs neither the wire values nor the selector polynomials. For an equation it is enough to know the text: the verdict is the one on the compiled circuit of any prover, whatever its witness values. Preprocessing returns for every equation with at least two gates as soon as the two-adicity of the field and the length of the reference string allow.",
    "all circuits, equations, texts, witness maps, reference strings, transcript functions and proofs",
    "equality of two procedures' verdicts on all proofs, including those nobody knows how to make",
    "plonk/src/verifier.rs: verify", "plonk/src/common_preprocessed_input/cpi_parser.rs: CPIGenerator", "plonk/src/common_preprocessed_input/cpi_circuit.rs")

add("What a transcript collision would give: SHA-256 as an iterated hash",
    "Two different messages shorter than 2^64 bits with the same SHA-256 digest give two different (chaining value, block) pairs, met while hashing those two messages, which the compression function sends to the same value; padding is injective on such messages. So two different histories of a PLONK, Nova or Goldilocks FRI transcript that lead to the same state give a collision of the compression function on the inputs those transcripts hash. The digest of a padded message followed by more bytes is a function of the digest, the length of the message and the added bytes (length extension: the digest is not a keyed authenticator of its input).",
    "all pairs of messages, extensions and transcript histories",
    "collisions exist but cannot be exhibited; the reduction is over all pairs of messages",
    "plonk/src/challenge.rs: ChallengeGenerator", "nova/src/transcript.rs: Transcript", "fri/src/fiat_shamir/transcript.rs: Transcript")

add("Names of variables, and negated right sides",
    "Renaming the variables of an equation one-to-one changes neither the preprocessed input nor, when the renamed variables have the same values, the parsed circuit. Preprocessing reads a negated numeral at the head of the right side (x*y=-3) as the name of a fresh variable: the preprocessed input is that of x*y=z. So, for canonical numerals, whatever values the variables have, equation solved or not, there is a circuit with that preprocessed input from which the prover makes a proof that the verifier accepts.",
    "all equations, one-to-one renamings, texts, witness values, reference strings, blinders and numerals",
    "ranges over every pair of texts and renaming; the acceptance of false statements shows only when the two front ends are compared on all inputs",
    "plonk/src/common_preprocessed_input/cpi_parser.rs: compute_common_preprocessed_input", "plonk/src/parser.rs: parse", "plonk/src/prover.rs: generate_proof", "plonk/src/verifier.rs: verify")

add("Merkle roots bind whole vectors",
    "Two trees of the same depth with the same root are built from the same vector, whatever the lengths (powers of two or not), or two different lists that are hashed while the two trees are built have the same hash. An opening that verifies against the root of a vector of length 2^k, with a path of length k and an index in range, opens to the entry at that index, or a list hashed while it is checked collides with a different list hashed for the tree. Over a finite field such collisions always exist: for every length above 1 there are two vectors with the same root.",
    "every hash function, all vectors of all lengths, all openings",
    "a reduction over all vectors and proofs; vectors with equal roots exist but cannot be sampled",
    "fri/src/merkle_tree.rs: MerkleTree::new, root, verify_merkle_proof", "fri/src/hasher.rs: hash, hash_slice")

add("Numerals with leading zeros split the two front ends",
    "The preprocessed input of x*y=d depends on the value of the numeral d only: superfluous leading zeros do not matter. The circuit a prover parses from the same text does depend on them: whenever d has a superfluous leading zero (x*y=06) the text parses and compiles, to size 4, but the preprocessed input computed from the same text disagrees with that circuit already on the commitment to the first permutation column, except for at most three SRS trapdoors.",
    "every numeral the parsers accept, every field and domain in which the coset constants separate the columns, every SRS",
    "a family of inputs no test contains: the two parsers name the constant's wire differently, and agree on every canonical text",
    "plonk/src/parser.rs: Parser::parse, get_witness_value", "plonk/src/common_preprocessed_input/cpi_parser.rs: compute_common_preprocessed_input, check_constant")

add("Nova proofs and instances do not hide the witness",
    "Every folding proof shows, in the clear, the value at its opening point of W1 + r W2, the folded witness polynomial; for the first fold, into the trivial pair, that is r times the value of the step's own witness polynomial. So from one such proof with non-zero challenge and point an unknown entry is computed from the others, and as many such proofs of one witness as it has entries, at different points, determine it. Instances carry deterministic commitments: committing to a guess with the public reference string confirms a right guess, and a guess that is another polynomial is confirmed for fewer trapdoors than the longer of the two has entries.",
    "all relations, witnesses, instances, transcripts, reference strings and guesses",
    "what a proof reveals is a statement about all witnesses consistent with it",
    "nova/src/nifs/nifs_prover.rs: prover, prove", "nova/src/r1cs/mod.rs: FWitness::commit, create_trivial_pair", "nova/src/nifs/mod.rs: NIFSProof")

add("What KZG commitments and openings leave hidden",
    "For a polynomial of at most n coefficients whose value at the secret is not zero, its commitment together with its openings at any n-2 points other than the secret is, whatever further point is chosen and whatever value there, also exactly what some other polynomial of at most n coefficients with that value would publish, and for each value there is only one such polynomial. The commitment and the openings at n-1 points determine the polynomial.",
    "all polynomials, sizes, secrets, opening points, further points and values",
    "what stays hidden is a statement about every polynomial consistent with what was published",
    "kzg/src/scheme.rs: commit, open", "kzg/src/srs.rs: Srs::new_from_secret")

add("FRI proofs do not hide the polynomial",
    "Every query of a generated FRI proof shows the values of the prover's polynomial at a point and at its opposite, and the points can be computed from the proof. Positions that differ modulo half the domain show different pairs of points, so once their number is at least half the size of the polynomial only the prover's polynomial fits the proof. The first root is deterministic: building the first layer of a guess confirms a right guess, and a wrong guess of at most the size of the domain that passes gives two different lists of field elements, hashed while building the two trees, with the same hash.",
    "all polynomials, blow-up factors, query counts, digests, generated proofs and guesses",
    "what a proof reveals is a statement about all polynomials consistent with it",
    "fri/src/prover.rs: generate_proof, query_phase", "fri/src/fri_layer.rs: FriLayer::from_poly", "fri/src/merkle_tree.rs: MerkleTree")

add("The relation of the Nova examples",
    "The matrices that the examples and tests build accept a committed, unfolded pair exactly when the witness lists x, x^2, x^3, x^3 + x and the output is x^3 + x + 5 for some x, and a relaxed pair exactly when four equations between witness, output, scalar and error hold and the commitments match. The witness and output generated for every input are accepted with every reference string long enough to commit four entries, and at most three witnesses fit one output.",
    "all fields, reference strings, witnesses, outputs, scalars, errors and inputs (inputs whose x^3 + x + 5 fits a machine word in the code)",
    "which pairs a relation accepts is a statement about all pairs",
    "nova/src/nifs/nifs_verifier.rs: gen_test_values", "nova/examples/examples.rs: gen_test_values", "nova/src/r1cs/mod.rs: is_r1cs_satisfied")

if __name__ == "__main__":
    out = os.path.join(os.path.dirname(os.path.abspath(__file__)), "..", "properties.jsonl")
    with open(out, "w") as f:
        for p in P: f.write(json.dumps(p, ensure_ascii=False) + "\n")
    for p in P: print(p["id"], p["title"])
