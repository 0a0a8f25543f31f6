{"id": "C01", "title": "Merkle opening completeness", "statement": "For a tree built from a vector whose length is a power of two, asking for a proof of any in-range leaf succeeds, the proof carries that index and that leaf value and the tree's root, and proof verification returns true.", "quantifier": "every hash function, every leaf vector of length 2^k for every k, every index below the length", "why_tests_cant": "tests open one index of one 4-leaf tree; the claim is over all depths, values and indices", "anchors": ["fri/src/merkle_tree.rs: MerkleTree::new, generate_proof, root, verify_merkle_proof"]}
{"id": "C02", "title": "Merkle openings outside power-of-two sizes", "statement": "For a tree built from a non-empty vector whose length is not a power of two, asking for a proof of the last committed leaf panics; openings never panic for in-range indices exactly when the length is a power of two; an index at or beyond the padded length always panics, and the root of an empty tree panics.", "quantifier": "every hash function, every leaf vector length and value, every index", "why_tests_cant": "tests never build a non-power-of-two tree; the claim covers every length", "anchors": ["fri/src/merkle_tree.rs: MerkleTree::new, generate_proof, root"]}
{"id": "C03", "title": "Merkle proof binding", "statement": "Two Merkle proofs that both verify, with the same root, index and path length, carry the same leaf value unless two distinct inputs of the leaf hash or of the two-element node hash with equal outputs can be read off the two proofs; and verification ignores index bits above the path length.", "quantifier": "every hash function, every pair of proofs of every depth", "why_tests_cant": "a security reduction over all proofs; tests cannot enumerate proofs or hashes", "anchors": ["fri/src/merkle_tree.rs: verify_merkle_proof", "fri/src/hasher.rs: hash, hash_slice"]}
{"id": "C04", "title": "Ambiguous encoding of hashed field elements", "statement": "The byte string handed to SHA-256 for a list of field elements is the plain concatenation of their decimal forms, so distinct element pairs (and a pair versus a single element) with equal concatenations always get equal node hashes, whatever the hash function; e.g. (1,23) and (12,3) always collide.", "quantifier": "every hash function, every prime modulus above 123, all element lists with equal concatenated decimal forms", "why_tests_cant": "a collision that holds for every hash function is not observable by sampling inputs", "anchors": ["fri/src/hasher.rs: hash, hash_slice"]}
{"id": "C05", "title": "Polynomial folding identity", "statement": "Folding a polynomial p by r returns a polynomial q with q(x^2) = (p(x)+p(-x))/2 + r(p(x)-p(-x))/(2x) for every non-zero x, equivalently q = p_even + r p_odd, and q has at most half (rounded up) as many coefficients as p.", "quantifier": "every field of characteristic other than two, every polynomial of every degree, every r and x", "why_tests_cant": "the test folds one cubic with r=1", "anchors": ["fri/src/prover.rs: fold_polynomial"]}
{"id": "C06", "title": "FRI layer contents", "statement": "A layer built from p, a coset shift c and a power-of-two domain size n holds exactly the n values p(c w^i), i<n, w the domain generator; entries i and i+n/2 are values at opposite points; and its root is the Merkle root of those values. Building fails exactly when the field has no such domain.", "quantifier": "every polynomial, every shift, every domain size", "why_tests_cant": "the values are over all domain sizes and all polynomials", "anchors": ["fri/src/fri_layer.rs: FriLayer::from_poly"]}
{"id": "C07", "title": "FRI completeness", "statement": "Whenever proof generation returns a proof, verification of that proof with the same digest returns Ok.", "quantifier": "every field with two-adic roots of unity, every digest, every polynomial, every blow-up factor, every number of queries", "why_tests_cant": "three tests use fixed small polynomials and two queries; Fiat-Shamir challenges range over the whole field", "anchors": ["fri/src/prover.rs: generate_proof, folding_phase, query_phase", "fri/src/verifier.rs: verify, verify_query"]}
{"id": "C08", "title": "When FRI proof generation panics", "statement": "Proof generation panics exactly when the rounded-up domain size is 1, or exceeds the field's two-adic subgroup, or the polynomial obtained by folding down to the last layer has no non-zero coefficient (so in particular for the zero polynomial, and for a constant polynomial with blow-up 1); otherwise it returns a proof.", "quantifier": "every polynomial, blow-up factor, number of queries and digest", "why_tests_cant": "panic conditions depend on data-dependent challenges and on boundary sizes no test touches", "anchors": ["fri/src/prover.rs: folding_phase, generate_proof"]}
{"id": "C09", "title": "Shape of a generated FRI proof", "statement": "A generated proof has domain size = smallest power of two >= (number of coefficients x blow-up), coset = field generator, one root per halving of the domain, exactly the requested number of decommitments (each with one entry per layer), and in every layer the opened index is the query index modulo the layer size, the symmetric index is half a layer away, and the opened values are the folded polynomial's values at opposite domain points.", "quantifier": "every polynomial, blow-up factor, number of queries and digest for which a proof is returned", "why_tests_cant": "holds over all layer counts and all query positions", "anchors": ["fri/src/prover.rs: generate_proof, query_phase"]}
{"id": "C10", "title": "FRI verifier decision", "statement": "Verification returns Ok exactly when, for every pair of a regenerated query and a supplied decommitment, and for every layer entry that has both a path and a challenge, the indices are the expected ones, the values equal the path leaves, both Merkle paths verify, the folded value equals the next layer's value, and at the last entry equals the claimed constant.", "quantifier": "every proof object on which the verifier does not panic, every digest", "why_tests_cant": "acceptance is over all, including malformed, proof objects", "anchors": ["fri/src/verifier.rs: verify, verify_query"]}
{"id": "C11", "title": "FRI verifier never authenticates the layer commitments", "statement": "For every list of layer roots, every constant and every power-of-two domain size with as many halvings, there is a proof carrying exactly those roots that the verifier accepts, although no opened path ends in any of them: acceptance does not tie opened values to the committed roots.", "quantifier": "every digest and hash, every list of roots, every constant, every number of queries", "why_tests_cant": "a missing check is visible only against adversarial proofs, which no test builds", "anchors": ["fri/src/verifier.rs: verify_query", "fri/src/merkle_tree.rs: verify_merkle_proof"]}
{"id": "C12", "title": "FRI verifier tolerates missing decommitments", "statement": "A proof with no decommitments is accepted for every roots, constant and claimed number of queries with non-zero domain size; a proof with no layer roots is accepted whatever its decommitments contain; dropping trailing decommitments from an accepted proof leaves it accepted.", "quantifier": "every such proof object and digest", "why_tests_cant": "requires adversarial proof objects of every shape", "anchors": ["fri/src/verifier.rs: verify, verify_query"]}
{"id": "C13", "title": "FRI verifier imposes no degree bound", "statement": "The layer count equals log2 of the domain size, so honest folding of any vector of 2^k values (equivalently any polynomial with up to 2^k coefficients, blow-up 1) ends in a constant and is accepted: an accepted proof for domain size D does not imply degree below D/blow-up for any blow-up above one.", "quantifier": "every k>=1, every value vector of length 2^k whose total fold is non-zero, every digest", "why_tests_cant": "soundness of the low-degree test is a claim about all words, not sampled polynomials", "anchors": ["fri/src/prover.rs: generate_proof", "fri/src/verifier.rs: verify"]}
{"id": "C14", "title": "FRI verifier panics on malformed proofs", "statement": "The verifier panics (instead of returning an error) for a proof whose domain size is 0 with at least one query, whose coset shift is 0, or whose claimed domain exceeds the field's two-adic subgroup, as soon as the entry reaching the faulty step passes the preceding checks.", "quantifier": "every digest and every such proof object", "why_tests_cant": "needs adversarial inputs", "anchors": ["fri/src/verifier.rs: verify, verify_query"]}
{"id": "C15", "title": "FRI transcript: one challenge batch per message", "statement": "Starting from a new transcript, a sequence of digest/challenge calls panics exactly when two challenge calls have no digest between them; the challenges returned are a function of the messages digested so far and of nothing else (equal histories give equal challenges; earlier challenge requests do not influence later ones).", "quantifier": "every digest, every finite history of calls", "why_tests_cant": "all interleavings of calls of every length", "anchors": ["fri/src/fiat_shamir/transcript.rs: Transcript::new, digest, generate_a_challenge, generate_challenges, generate_challenge_list_usize"]}
{"id": "C16", "title": "FRI transcript binding", "statement": "If two histories of digested messages (of possibly different lengths, below 2^56) leave the transcript in the same internal hash value, then the histories are equal or a collision of the digest can be read off them.", "quantifier": "every fixed-output-length digest, every pair of message histories", "why_tests_cant": "collision reduction over all histories", "anchors": ["fri/src/fiat_shamir/transcript.rs: Transcript::digest"]}
{"id": "C17", "title": "FRI challenges carry only 64 bits of transcript state", "statement": "Two transcripts whose hash values agree on the first 8 bytes produce identical challenges and query lists, of any requested length.", "quantifier": "every digest and random generator, every pair of transcripts", "why_tests_cant": "needs pairs of states agreeing on a prefix; infeasible to sample", "anchors": ["fri/src/fiat_shamir/transcript.rs: generate_rng_with_seed, generate_challenges"]}
{"id": "C18", "title": "SRS contents", "statement": "The reference string for secret s and size n holds exactly n+3 first-group points, the i-th being s^i times the generator, together with the second-group generator and s times it.", "quantifier": "every secret, every size, every pairing group", "why_tests_cant": "tests use size 5 and 10 only, and never look at the points", "anchors": ["kzg/src/srs.rs: Srs::new_from_secret"]}
{"id": "C19", "title": "Commitment is evaluation at the secret", "statement": "Committing to a polynomial gives p(s) times the generator when the reference string has more points than the degree, and panics otherwise (also when the leading stored coefficient of a non-zero polynomial is zero); committing to a coefficient vector behaves the same after dropping trailing zeros.", "quantifier": "every polynomial and vector, every secret and size", "why_tests_cant": "all degrees including the exact size boundary", "anchors": ["kzg/src/scheme.rs: commit, commit_vector, evaluate_in_s"]}
{"id": "C20", "title": "Commitment homomorphism", "statement": "Adding, subtracting, negating and scaling commitments yields the commitments of the sum, difference, negation and scaling of the committed polynomials; committing to a scalar equals committing to the constant polynomial.", "quantifier": "all polynomials that fit the reference string, all scalars", "why_tests_cant": "algebraic law over all inputs", "anchors": ["kzg/src/scheme.rs: Add, Sub, Mul, Neg for KzgCommitment, commit_para"]}
{"id": "C21", "title": "Commitment aggregation", "statement": "Aggregating commitments c_0..c_n with challenge v gives the sum of v^i c_i (zero for the empty list), hence the commitment of the sum of v^i p_i when each c_i commits to p_i.", "quantifier": "all lists of every length, all challenges", "why_tests_cant": "one test with two commitments", "anchors": ["kzg/src/scheme.rs: aggregate_commitments"]}
{"id": "C22", "title": "Opening correctness", "statement": "Opening a polynomial with at least one stored coefficient at z returns p(z) and the commitment to the exact quotient (p - p(z))/(X - z); opening the polynomial with no coefficients (in particular every all-zero vector) panics.", "quantifier": "every polynomial, vector, point, secret and size", "why_tests_cant": "division exactness over all degrees and points; zero polynomial untested", "anchors": ["kzg/src/scheme.rs: open, open_vector"]}
{"id": "C23", "title": "KZG completeness", "statement": "An opening produced for a polynomial at z verifies against its commitment at z.", "quantifier": "every bilinear group, secret, size, polynomial that fits, and point (including z = secret)", "why_tests_cant": "one fixed polynomial is tested", "anchors": ["kzg/src/scheme.rs: commit, open, verify"]}
{"id": "C24", "title": "KZG verification equation and evaluation binding", "statement": "Verification of (C, (W, y), z) is true exactly when (s-z)W = C - y g1; so for a fixed C, W and z at most one y verifies, and two accepted openings of the same commitment at the same z with different values yield the group element 1/(s-z) g1.", "quantifier": "every non-degenerate bilinear group, all group elements and scalars", "why_tests_cant": "a reduction over all adversarial openings", "anchors": ["kzg/src/scheme.rs: verify"]}
{"id": "C25", "title": "Wrong evaluations are rejected", "statement": "For an honestly computed commitment and witness, replacing the claimed value by any other value makes verification false.", "quantifier": "every polynomial, point, secret and wrong value", "why_tests_cant": "all wrong values; no test checks rejection", "anchors": ["kzg/src/scheme.rs: open, verify"]}
{"id": "C26", "title": "Batch verification completeness and soundness", "statement": "If every opening verifies individually then batch verification is true for every random stream; if some opening does not verify, then for any fixing of the other coefficients at most one value of that opening's coefficient makes the batch accept; unequal input lengths panic.", "quantifier": "all batches of every size, all random coefficients", "why_tests_cant": "randomised check over all coefficient streams", "anchors": ["kzg/src/scheme.rs: batch_verify"]}
{"id": "C27", "title": "Sum of openings", "statement": "Adding two openings adds the evaluations but doubles the first witness point instead of adding the second, so for two valid openings at z the sum verifies against the sum of commitments exactly when the two witness points are equal or z equals the secret: in general it is not an opening of the sum.", "quantifier": "all pairs of valid openings in every non-degenerate bilinear group", "why_tests_cant": "no test adds openings; the failure is over generic inputs", "anchors": ["kzg/src/opening.rs: Add for KzgOpening"]}
{"id": "C28", "title": "Vector and matrix helpers", "statement": "matrix_vector_product returns for each row the sum of products over the common prefix of row and vector; hadamard/scale/add/sub are pointwise; vec_add/vec_sub panic exactly on unequal lengths, hadamard_product exactly when the second vector is shorter; vec_equal is equality.", "quantifier": "all matrices (ragged included) and vectors", "why_tests_cant": "helpers are only exercised through one fixed 4x6 system", "anchors": ["nova/src/utils.rs: matrix_vector_product, hadamard_product, vector_elem_product, vec_sub, vec_add, vec_equal"]}
{"id": "C29", "title": "R1CS satisfaction check", "statement": "The check returns Ok exactly when witness and instance have the declared lengths, (A z)o(B z) = u (C z) + E for z = (W, x, u), and both commitments are the commitments of W and E; with matching lengths it panics when E has a different length than the number of rows of C or B has fewer rows than A.", "quantifier": "all matrices, instances, witnesses and commitment keys", "why_tests_cant": "one satisfied instance tested", "anchors": ["nova/src/r1cs/mod.rs: is_r1cs_satisfied"]}
{"id": "C30", "title": "Nova folding preserves satisfaction", "statement": "If two instance-witness pairs satisfy the relaxed R1CS, the pair returned by the folding prover satisfies it too, for whatever challenge the transcript yields; equivalently for every r the folded pair with the computed cross term satisfies it.", "quantifier": "all well-shaped R1CS, all satisfying pairs (relaxed or strict), all challenges", "why_tests_cant": "tests fold one pair of strict instances", "anchors": ["nova/src/nifs/mod.rs: compute_t, fold_witness, fold_instance", "nova/src/nifs/nifs_prover.rs: prover"]}
{"id": "C31", "title": "Cross term identity", "statement": "For vectors z1, z2 with scalars u1, u2 and every r, A(z1+r z2) o B(z1+r z2) - (u1+r u2) C(z1+r z2) equals the error of the first plus r times the computed cross term plus r^2 times the error of the second.", "quantifier": "all matrices, vectors, scalars", "why_tests_cant": "polynomial identity in r over all inputs", "anchors": ["nova/src/nifs/mod.rs: compute_t"]}
{"id": "C32", "title": "Folding commutes with committing", "statement": "Folding two committed instances gives the instance whose commitments are those of the folded witness, when vectors have matching lengths; the verifier computes the same folded instance as the prover from public data.", "quantifier": "all witnesses, cross terms, challenges, secrets", "why_tests_cant": "homomorphism over all inputs", "anchors": ["nova/src/nifs/mod.rs: fold_witness, fold_instance", "nova/src/nifs/nifs_verifier.rs: verifier"]}
{"id": "C33", "title": "NIFS completeness", "statement": "If the prover's fold and opening proof are produced without panic, verification with a transcript in the same starting state returns Ok.", "quantifier": "all R1CS, witnesses of matching lengths, keys and digests", "why_tests_cant": "one fold tested", "anchors": ["nova/src/nifs/nifs_prover.rs: prover, prove", "nova/src/nifs/nifs_verifier.rs: verify, verify_challenge, verify_opening"]}
{"id": "C34", "title": "NIFS proving panics on zero vectors", "statement": "Producing the opening proof panics whenever the folded error or folded witness vector is all zero; in particular folding any strictly satisfied instance with itself always ends in a panic.", "quantifier": "all R1CS and all satisfying strict instances", "why_tests_cant": "needs a degenerate input no test has", "anchors": ["nova/src/nifs/nifs_prover.rs: prove", "kzg/src/scheme.rs: open_vector"]}
{"id": "C35", "title": "NIFS verification ignores satisfiability", "statement": "NIFS verification accepts the proof produced from any two witnesses of matching lengths, whether or not they satisfy the R1CS; acceptance therefore does not imply that the folded instance is satisfiable.", "quantifier": "all witness pairs (satisfying or not), all keys and digests for which proving does not panic", "why_tests_cant": "absence of a check shows only on invalid witnesses", "anchors": ["nova/src/nifs/nifs_verifier.rs: verify"]}
{"id": "C36", "title": "Nova challenge does not bind the instances", "statement": "The folding challenge depends on the two instances only through u1, u2 and the cross-term commitment: replacing their commitments and public inputs leaves the verifier's recomputed challenge unchanged.", "quantifier": "all instances, transcripts and digests", "why_tests_cant": "independence from inputs is universally quantified", "anchors": ["nova/src/nifs/nifs_verifier.rs: verify_challenge"]}
{"id": "C37", "title": "Nova transcript history and binding", "statement": "A sequence of feed/challenge calls on a fresh transcript panics exactly when a challenge is requested with no feed since the start or the last challenge; challenges depend only on what was fed; equal hash values mean equal feed histories or a digest collision.", "quantifier": "all finite call histories, all digests with 32-byte output", "why_tests_cant": "all interleavings and a collision reduction", "anchors": ["nova/src/transcript.rs: feed, feed_scalar_num, generate_challenges, from_commitment, from_scalar_number"]}
{"id": "C38", "title": "IVC step function is a faithful state machine", "statement": "Over any sequence of run and next_step calls on a fresh augmented circuit: a failing run changes nothing, next_step panics exactly when no run has succeeded since the last next_step, the counter equals the number of next_step calls, the state equals the user function iterated from z_0 over the witnesses of the adopted runs, and the stored hash is hash(i, z_0, z_i, U_i).", "quantifier": "all call histories, user functions, witnesses, digests", "why_tests_cant": "histories of every length and order", "anchors": ["nova/src/circuit.rs: AugmentedCircuit::new, run, next_step, hash_io"]}
{"id": "C39", "title": "IVC completeness for any number of steps", "statement": "Driving the IVC as the shipped example does, for any number of steps and any witnesses, every run and every verification succeeds, the state is the user function iterated and the running witness and instance are the fold of the steps, as long as no proving call panics.", "quantifier": "every step count, every witness sequence, user function, digest and key, matching vector lengths", "why_tests_cant": "tests run 3 and 4 steps", "anchors": ["nova/examples/examples.rs: main", "nova/src/ivc/ivc_prover.rs: prove", "nova/src/ivc/ivc_verifier.rs: verify"]}
{"id": "C40", "title": "IVC verification does not check the computation", "statement": "For every non-zero step counter, every initial state and every claimed current state, there is a proof that IVC verification accepts: acceptance does not imply that the state results from iterating the user function.", "quantifier": "all states, counters, user functions, digests and keys", "why_tests_cant": "soundness against all adversarial proofs", "anchors": ["nova/src/ivc/ivc_verifier.rs: verify"]}
{"id": "C41", "title": "IVC verification at step zero", "statement": "At step 0 verification returns Ok exactly when the current state equals the initial state and ignores the proof; at later steps it returns an error when the cross-term commitment or folding proof is missing, when the public hash, the error commitment or the scalar u is wrong, and panics when the fresh instance has no public input.", "quantifier": "all proofs and states", "why_tests_cant": "decision over all inputs", "anchors": ["nova/src/ivc/ivc_verifier.rs: verify"]}
{"id": "C42", "title": "Augmented circuit accepts any running instance", "statement": "At a later step, run never checks the supplied running instance against the stored hash: whenever it succeeds for one running instance and cross-term commitment it succeeds for every other.", "quantifier": "all instances, commitments, states", "why_tests_cant": "absence of a check", "anchors": ["nova/src/circuit.rs: AugmentedCircuit::run"]}
{"id": "C43", "title": "Public-IO hash binding", "statement": "Equal public-IO hashes mean equal step counters, states and running instances, or a digest collision.", "quantifier": "all inputs, all 32-byte digests", "why_tests_cant": "collision reduction", "anchors": ["nova/src/circuit.rs: hash_io"]}
{"id": "C44", "title": "Gate equations", "statement": "The selector polynomial equation of an addition (multiplication, constant) gate with wires a,b,c and public input p holds exactly when a+b = c+p (a*b = c+p, a = constant+p); a dummy gate's equation always holds.", "quantifier": "all wire values, constants, public inputs", "why_tests_cant": "all field values", "anchors": ["plonk/src/gate.rs: new_add_gate, new_mul_gate, new_constant_gate, new_dummy_gate"]}
{"id": "C45", "title": "Circuit padding and compilation size", "statement": "Compiling a circuit with at least two gates gives the smallest power-of-two size not below the gate count; compiling with no gate or exactly one gate panics.", "quantifier": "all circuits", "why_tests_cant": "boundary sizes over all lengths; one-gate circuit untested", "anchors": ["plonk/src/circuit.rs: pad_circuit, compile", "plonk/src/common_preprocessed_input/cpi_circuit.rs: pad_circuit"]}
{"id": "C46", "title": "Compiled polynomials interpolate the circuit", "statement": "The compiled wire and selector polynomials take at the i-th domain point the i-th gate's wire value and selector, and zero at padding rows; all have degree below the size.", "quantifier": "all circuits that compile", "why_tests_cant": "all sizes and rows", "anchors": ["plonk/src/circuit.rs: get_assignment, compile"]}
{"id": "C47", "title": "Permutation polynomials encode the wire positions", "statement": "The three permutation polynomials take at row i the code (1, 2 or 3 times the j-th root) of the position stored for that wire, identity codes at padding rows; compile panics when a stored position is outside 3 x size; the position code is injective when 2^n, 3^n and 1 are pairwise different, which holds for the BLS12-381 scalar modulus for every power of two up to 2^32.", "quantifier": "all circuits, all sizes", "why_tests_cant": "all positions; coset disjointness for all 33 domain sizes of a 255-bit field", "anchors": ["plonk/src/circuit.rs: cal_permutation, find_cosets"]}
{"id": "C48", "title": "Quotient splitting", "statement": "Splitting a non-zero polynomial t in three and recombining at a point z gives a polynomial whose value at z is t(z); the three slices have at most degree+1 coefficients and t = lo + X^(d+1) mid + X^(2d+2) hi; splitting the zero polynomial panics.", "quantifier": "all polynomials, all points", "why_tests_cant": "all coefficient counts modulo three", "anchors": ["plonk/src/slice_polynomial.rs: SlicePoly::new, compact, commit"]}
{"id": "C49", "title": "PLONK completeness", "statement": "Whenever proof generation for a compiled circuit returns a proof, verification with SHA-256 of that proof against the same compiled circuit and reference string returns Ok, unless the evaluation challenge equals 1 (then the verifier panics).", "quantifier": "all circuits, blinding values, reference strings, hash and random generators", "why_tests_cant": "three fixed circuits; challenges and blinders range over the field", "anchors": ["plonk/src/prover.rs: generate_proof", "plonk/src/verifier.rs: verify"]}
{"id": "C50", "title": "PLONK prover refuses unsatisfied circuits", "statement": "If proof generation returns a proof then every gate equation of the circuit holds for its wire values, and the permutation grand product at the drawn challenges equals one.", "quantifier": "all circuits, blinders, challenges", "why_tests_cant": "all unsatisfying assignments", "anchors": ["plonk/src/prover.rs: compute_quotient_polynomial, compute_acc, divide_by_vanishing_poly"]}
{"id": "C51", "title": "PLONK prover succeeds on satisfied circuits", "statement": "If every gate equation holds and wire values are equal along the stored position permutation, then proof generation with a reference string created for the circuit size returns a proof, except when a challenge makes a permutation denominator or one of the named intermediate polynomials vanish.", "quantifier": "all satisfied circuits with permutation positions, blinders and challenges outside the explicit exceptional set", "why_tests_cant": "all circuits and sizes; size of reference string is exactly tight", "anchors": ["plonk/src/prover.rs: generate_proof", "kzg/src/srs.rs: new_from_secret"]}
{"id": "C52", "title": "PLONK verifier equation", "statement": "Verification returns Ok exactly when the proof's u equals the recomputed challenge and the group equation (s-z)W_z + u(s-zw)W_zw = [F] - [E] of the protocol holds for the recomputed challenges; otherwise it returns the corresponding error.", "quantifier": "all proof objects, circuits and reference strings with z different from 1", "why_tests_cant": "all adversarial proofs", "anchors": ["plonk/src/verifier.rs: verify, verify_challenges"]}
{"id": "C53", "title": "PLONK prover ignores its digest parameter", "statement": "Proof generation derives all challenges with SHA-256 whatever digest type it is instantiated with, while verification uses the requested digest, so completeness fails for other digests: for suitable digests the verifier rejects the honest proof.", "quantifier": "all digests (independence); existence of a rejecting digest", "why_tests_cant": "tests only use SHA-256", "anchors": ["plonk/src/prover.rs: generate_proof", "plonk/src/verifier.rs: verify_challenges"]}
{"id": "C54", "title": "PLONK challenge generator history and binding", "statement": "Challenges can be drawn only after a feed since the last draw; a generator never fed panics; challenges depend only on the fed commitments and equal hash values mean equal histories or a digest collision; public inputs and the circuit do not enter the challenges.", "quantifier": "all call histories, digests, proofs and circuits", "why_tests_cant": "all histories", "anchors": ["plonk/src/challenge.rs: ChallengeGenerator", "plonk/src/verifier.rs: verify_challenges"]}
{"id": "C55", "title": "Exponent expansion", "statement": "Normalising an input lower-cases it, drops blanks and expands v^k (single-letter v, k >= 1) to k factors of v; it does not preserve meaning for other inputs: v^0 becomes v, a power of a multi-letter name repeats only its last letter, and a power of a numeral uses the numeral's digits as part of the exponent (3^2 becomes 32 factors of 3).", "quantifier": "all inputs made of names, numerals and exponents (positive part); witnesses (negative part)", "why_tests_cant": "all strings; tests have one exponent", "anchors": ["plonk/src/parser.rs: parse_string", "plonk/src/common_preprocessed_input/cpi_parser.rs: normalize"]}
{"id": "C56", "title": "Parser copy permutation", "statement": "The positions stored in a parsed circuit form a permutation of all wire slots, and each slot is sent to a slot carrying the same sub-expression.", "quantifier": "all inputs that parse, all witness maps", "why_tests_cant": "all expressions and sharing patterns", "anchors": ["plonk/src/parser.rs: prepare_gen_circuit, gen_circuit, push_into_position_map_or_insert"]}
{"id": "C57", "title": "Parser circuit is satisfied exactly by solutions", "statement": "In a parsed circuit all gate equations and copy constraints hold for the stored wire values exactly when the equation holds for the given witness values.", "quantifier": "all inputs that parse, all witness maps", "why_tests_cant": "all expressions and values", "anchors": ["plonk/src/parser.rs: parse"]}
{"id": "C58", "title": "Parsed circuits do not enforce the equation", "statement": "The output wire of the last gate is unconstrained and a negated right-hand variable is an unconstrained new wire, so for every input and every witness values there is an assignment satisfying all gate and copy constraints of the parsed circuit even when the equation is false; consequently a proof built from a non-solution is accepted by the verifier.", "quantifier": "all inputs that parse, all witness values", "why_tests_cant": "soundness of the generated constraints, not of one run", "anchors": ["plonk/src/parser.rs: prepare_gen_circuit, gen_circuit", "plonk/src/verifier.rs: verify"]}
{"id": "C59", "title": "Parser panics", "statement": "Parsing panics when the input does not contain exactly one '=', when a factor is empty, or when a factor is neither a registered witness nor a 32-bit integer literal; witness names containing upper-case letters can never be used.", "quantifier": "all inputs", "why_tests_cant": "all malformed strings", "anchors": ["plonk/src/parser.rs: prepare_gen_circuit, get_witness_value"]}
{"id": "C60", "title": "Preprocessor agrees with parser", "statement": "For inputs whose literals are canonical numerals and whose right side is not negative, the common preprocessed input equals the selector and permutation data of the parsed circuit; for a negative right side such as x*y=-1 they differ (the preprocessor treats the value as an unconstrained variable).", "quantifier": "all such inputs; a witness for the difference", "why_tests_cant": "one fixed expression tested", "anchors": ["plonk/src/common_preprocessed_input/cpi_parser.rs: CPIGenerator", "plonk/src/parser.rs: Parser"]}
{"id": "C61", "title": "Trivial pair is not a relaxed zero", "statement": "The pair returned by create_trivial_pair has u = 1 (not 0), zero vectors and zero commitments; it satisfies a relation exactly when its shape matches and, in every row, the product of the last-column entries of A and B equals the last-column entry of C; it does not satisfy the relation used in the repository's own tests and example.", "quantifier": "all relations, lengths and keys; the shipped test relation", "why_tests_cant": "no test checks the trivial pair; the claim ranges over all relations", "anchors": ["nova/src/r1cs/mod.rs: create_trivial_pair, new_trivial_witness, is_r1cs_satisfied", "nova/src/nifs/nifs_verifier.rs: gen_test_values"]}
{"id": "C62", "title": "NIFS verification decision", "statement": "On any transcript that has absorbed some messages, NIFS verification accepts exactly when the proof's r and opening point are the transcript's challenges for (u1, u2, com_T) and the folded commitments, and both openings satisfy the KZG equation at that point for the supplied folded instance; nothing else of the two input instances matters.", "quantifier": "all proofs, instances, transcripts histories, digests and keys", "why_tests_cant": "a decision over all inputs", "anchors": ["nova/src/nifs/nifs_verifier.rs: verify, verify_challenge, verify_opening"]}
{"id": "C63", "title": "Concrete fields meet the algebraic assumptions", "statement": "The Goldilocks modulus and the BLS12-381 scalar modulus are prime; in every field of that characteristic 7 generates the multiplicative group and the derived FFT constants (two-adicity 32, 7^((p-1)/2^32)) are a primitive 2^32-th root; the BLS12-381 scalar constants are a primitive 2^32-th root in every field of that characteristic; hence FRI completeness holds over Goldilocks, and over the BLS scalar field the three wire columns of a PLONK circuit have disjoint codes for every circuit size, so copy-constraint violations are caught for all but a bounded number of challenges.", "quantifier": "all fields of those characteristics, all domain sizes up to 2^32, all circuits", "why_tests_cant": "the modulus has 255 bits; primality and orders cannot be tested by examples", "anchors": ["fri/src/fields/goldilocks.rs: FqConfig", "plonk/src/circuit.rs: find_cosets", "plonk/src/types.rs"]}
{"id": "C64", "title": "PLONK public inputs are bound only through one value", "statement": "Verification of a proof against a compiled circuit depends on the circuit's public inputs only through the value of their polynomial at the proof's evaluation challenge, which does not depend on them: replacing the public inputs by any others with the same value there leaves the verdict unchanged, and every accepted proof is also accepted for the same circuit with some different public inputs.", "quantifier": "all circuits that compile, all proofs, digests, reference strings and replacement public inputs", "why_tests_cant": "claims about every accepted proof and every replacement", "anchors": ["plonk/src/verifier.rs: verify, verify_challenges", "plonk/src/prover.rs: generate_proof", "plonk/src/challenge.rs: ChallengeGenerator"]}
{"id": "C65", "title": "PLONK witness-free forgery", "statement": "For every circuit and every gate there is a value of that gate's public input for which a proof with zero wire commitments, computed from the published reference string without any wire values, is accepted, whether or not the circuit can be satisfied (unless one challenge hits the evaluation domain).", "quantifier": "all circuits that compile, all gates, digests and reference strings", "why_tests_cant": "an adversary strategy that works for every circuit, not an input of a test", "anchors": ["plonk/src/verifier.rs: verify, verify_challenges", "plonk/src/challenge.rs: ChallengeGenerator"]}
{"id": "C66", "title": "PLONK reference string secret breaks soundness", "statement": "Whoever knows the secret behind the reference string completes any commitments and claimed values of the first four rounds to an accepted proof, unless the secret equals the evaluation challenge or its shift or the challenge is 1.", "quantifier": "all circuits that compile, all proof prefixes, secrets and digests", "why_tests_cant": "ranges over all adversarial messages", "anchors": ["plonk/src/verifier.rs: verify", "kzg/src/srs.rs: Srs::new_from_secret"]}
{"id": "C67", "title": "PLONK round-by-round soundness", "statement": "If a proof is accepted and its group elements are commitments to polynomials, then the committed wire polynomials give an assignment satisfying every gate relation and every copy constraint of the circuit, or one of the challenges (or the secret) took one of boundedly many unlucky values determined by what was fixed before it was drawn: 2 for alpha, 5 for v, 1 for u, a number linear in the polynomial sizes and the proof's degree field for zeta and the secret, and (3n)^2 for beta then 3n for gamma.", "quantifier": "all circuits that compile, all proofs and explaining polynomials, all digests and secrets", "why_tests_cant": "soundness against every prover", "anchors": ["plonk/src/verifier.rs: verify", "plonk/src/circuit.rs: compile_circuit", "plonk/src/prover.rs: generate_proof"]}
{"id": "C68", "title": "PLONK degree field is not bound", "statement": "The proof's degree field is absorbed into no challenge: an accepted proof with its degree replaced by d is accepted exactly when the evaluation challenge is in the domain or both degrees combine the last two quotient parts to the same group element.", "quantifier": "all accepted proofs and replacement degrees", "why_tests_cant": "malleability over all proofs", "anchors": ["plonk/src/verifier.rs: verify", "plonk/src/prover.rs: Proof"]}
{"id": "C69", "title": "Nova folding soundness", "statement": "Three satisfied folds of the same two instances and cross-term commitment under distinct challenges determine, by an explicit interpolation of the three folded witnesses, a witness for each of the two instances and the honest cross term, unless the third folded witness differs from the interpolated one while having the same commitment; hence a prover answering three or more challenges holds witnesses for both instances or exhibits commitment collisions. The instances must have equally many public inputs: surplus public inputs of one instance are silently dropped by folding although no witness satisfies such an instance.", "quantifier": "all relations, instance pairs, cross-term commitments, challenges, answers and reference strings", "why_tests_cant": "knowledge extraction from every prover", "anchors": ["nova/src/nifs/mod.rs: fold_witness, fold_instance", "nova/src/r1cs/mod.rs: is_r1cs_satisfied", "nova/src/nifs/nifs_verifier.rs: verifier"]}
{"id": "C70", "title": "FRI soundness for openings that end in the roots", "statement": "If the verifier accepts and a complete decommitment's paths do end in the published roots (which the verifier does not check), then the vectors behind the roots are folds of each other at the query position, down to the claimed constant, or a hash collision can be read off; vectors consistent at every position are exactly the layers of one polynomial whose complete fold is the constant; otherwise some layer's error spoils a number of positions equal to twice the number of values merged into one entry of that layer, and no spoiled position was queried. Generated proofs have such openings.", "quantifier": "all accepted proofs with such openings, all committed vectors, digests and domain sizes", "why_tests_cant": "soundness over all cheating provers and query positions", "anchors": ["fri/src/verifier.rs: verify, verify_query", "fri/src/prover.rs: generate_proof", "fri/src/merkle_tree.rs: MerkleProof::verify"]}
{"id": "C71", "title": "PLONK verdicts depend on the public part of the circuit only", "statement": "Two circuits built by calls with the same kinds, positions, public inputs and constants compile together, to the same size, and accept exactly the same proofs under every digest and reference string, whatever wire values they were built with; so the verifier can compile the circuit without knowing the witness, and a proof generated from any satisfying wire values is accepted by it.", "quantifier": "all pairs of circuits with the same public part, all proofs, digests, reference strings and blinders", "why_tests_cant": "ranges over all circuits and all witnesses", "anchors": ["plonk/src/verifier.rs: verify, get_circuit_commitment", "plonk/src/circuit.rs: compile, get_assignment", "plonk/src/constraint.rs"]}
{"id": "C72", "title": "The example programs", "statement": "The KZG example program succeeds for every secret; the FRI example program succeeds unless the six coefficients fold to zero under the drawn challenges; the PLONK example program's circuit compiles to eight rows and the program succeeds unless a listed accident happens or the evaluation challenge is 1. The PLONK example's circuit does not state its advertised equation xy + 3x^2 + xyz = 11: it accepts a proof for every choice of x, y, z and of the factor of x^2, since neither the output wire nor the wire carrying the 3 is tied to a constant.", "quantifier": "all secrets, blinders, digests and field environments; all values x, y, z and factors", "why_tests_cant": "the programs draw random secrets and blinders; the negative part ranges over all witnesses", "anchors": ["kzg/examples/example.rs: main", "fri/examples/example.rs: main", "plonk/examples/example.rs: main", "plonk/src/gate.rs: Gate::new_constant_gate"]}
{"id": "C73", "title": "PLONK blinding", "statement": "For every evaluation point and secret that are different (also from the shifted point) and outside the evaluation domain, the values an honest proof shows of the wire and permutation polynomials - at the secret, inside the commitments, and at the evaluation points - take every combination for exactly one choice of the nine blinders, whatever the wire values; so two witnesses of the same statement cannot be told apart by them: each choice of blinders for one has exactly one counterpart for the other showing the same values and giving the same first challenges. (The three quotient commitments are not blinded and not covered.)", "quantifier": "all circuits that compile, all pairs of witnesses, secrets, evaluation points and blinders", "why_tests_cant": "a distribution statement over all blinders", "anchors": ["plonk/src/prover.rs: generate_proof (rounds 1 and 2)", "plonk/src/prover.rs: Proof"]}
{"id": "C74", "title": "The degree field of a proof and machine integers", "statement": "With the exponents computed on 64-bit words (any width), the verifier's verdict is the one of exact arithmetic for degree fields below half the range, so proofs of the prover are accepted in debug and release builds alike; for larger fields a build with overflow checks panics on every proof that passes the challenge check - an accepted proof with the field raised is enough, and so is any proof with the final challenge copied in - while a build without them reduces the exponents and never panics for this reason.", "quantifier": "all proofs, degree fields, word widths, digests and both build profiles", "why_tests_cant": "ranges over all proofs and field values near the end of the word range", "anchors": ["plonk/src/verifier.rs: verify (exponents proof.degree + 1 and proof.degree * 2 + 2)", "plonk/src/prover.rs: Proof"]}
{"id": "C75", "title": "The real hash function and fields meet the assumptions", "statement": "SHA-256 returns 32 bytes for every message, so the transcripts never run out of seed bytes with it; over the Goldilocks field with generator 7 and SHA-256 the FRI prover panics exactly for a domain of one element, above 2^32, or a polynomial folding to zero under the drawn challenges, and otherwise returns a proof the verifier accepts; over the BLS12-381 scalar field with SHA-256 every satisfied PLONK circuit of up to 2^29 rows gets a proof, accepted unless the evaluation challenge is 1, but for the listed accidents.", "quantifier": "all messages, polynomials, blow-up factors, query counts, circuits, secrets and blinders", "why_tests_cant": "ranges over all messages and inputs of the concrete configuration the crates are used in", "anchors": ["fri/src/hasher.rs: hash, hash_slice", "fri/src/fields/goldilocks.rs", "fri/src/fiat_shamir/transcript.rs: Transcript", "plonk/src/challenge.rs: ChallengeGenerator", "plonk/src/prover.rs: generate_proof"]}
{"id": "C76", "title": "PLONK interactive soundness error", "statement": "A proof is accepted by the verifier exactly when the interactive verifier accepts it for the challenges the transcript gives. In the interactive protocol, against every prover that computes its group elements from the reference string and whose first three polynomials do not satisfy the circuit - whatever it sends later, each message depending on all challenges seen so far - the share of challenges and secrets (beta, gamma, alpha, zeta, v, u, s) for which the verifier accepts is at most ((3n)^2 + 3n + 2 + D max(4N, n + N + 2D) + 6D + N) / |F|, for n rows, N points and degree fields below D; over the BLS12-381 scalar field, with 64-bit degree fields, up to 2^28 rows and 2^32 points, it is at most 2^-120.", "quantifier": "all circuits, all adaptive provers of this kind, all finite fields with the stated coset facts", "why_tests_cant": "a probability over all challenges, against all adaptive provers", "anchors": ["plonk/src/verifier.rs: verify", "plonk/src/challenge.rs: ChallengeGenerator", "plonk/src/prover.rs: Proof", "kzg/src/srs.rs: Srs"]}
{"id": "C77", "title": "FRI sizes and machine integers", "statement": "With sizes and indices computed on words wider than the two-adicity of the field, the verifier's verdict on every proof is the one of exact arithmetic in both build profiles, and so is the result of the prover in a build with overflow checks. A build without checks computes the domain size from (coefficients x blow-up factor) modulo the word size: what it returns is still accepted, but for every polynomial with an odd number of coefficients (at least 3) there is a blow-up factor above 1 for which it silently returns the proof for blow-up factor 1, where the checked build panics.", "quantifier": "all polynomials, blow-up factors, query counts, proofs, digests, word widths and both build profiles", "why_tests_cant": "ranges over all factors near the end of the word range and all malformed proofs", "anchors": ["fri/src/prover.rs: generate_proof, query_phase", "fri/src/verifier.rs: verify_query"]}
{"id": "C78", "title": "PLONK forgeries against a random generator", "statement": "With the generator behind the challenges replaced by a random table (one pair of field elements for each 64-bit seed) and everything else as in the code, every prover that asks for the challenges of at most Q transcripts of its choice, adaptively, and then outputs a proof with the polynomials behind its commitments, is accepted on wire polynomials that do not satisfy the fixed circuit for at most a share (Q + 5) ((3n)^2 + 3n + 2 + D max(4N, n + N + 2D) + 5D) / |F| of the tables, unless it exhibits a polynomial with the secret as a root or its transcripts contain two with the same seed; over the BLS12-381 scalar field, with 64-bit degree fields, up to 2^28 rows and 2^32 points, at most (Q + 5) / 2^120.", "quantifier": "all circuits, secrets, digests of at least 8 bytes, adaptive provers and numbers of questions", "why_tests_cant": "a probability over all tables, against all adaptive provers", "anchors": ["plonk/src/challenge.rs: ChallengeGenerator (feed, generate_rng_with_seed, generate_challenges)", "plonk/src/verifier.rs: verify", "plonk/src/prover.rs: Proof"]}
{"id": "C79", "title": "KZG openings of provers that compute from the reference string", "statement": "An opening accepted from a prover that makes the commitment and the witness from polynomials is either true or shows a nonzero polynomial with the secret as a root. So for polynomials of up to N coefficients, whatever witness and value the prover answers to each point, the share of points and secrets for which a wrong value is accepted is at most N / |F|; and a batch holding at least one wrong claim is accepted for at most a share 1/B + N/|F| of the draws (below B) and secrets - with the 128-bit draws of the code, over the BLS12-381 scalar field and up to 2^32 points, at most 2^-127.", "quantifier": "all polynomials, claims, batches of every length, points, secrets and draws", "why_tests_cant": "a probability over all secrets, points and draws, against all provers of this kind", "anchors": ["kzg/src/scheme.rs: verify, batch_verify", "kzg/src/srs.rs: Srs"]}
{"id": "C80", "title": "All challenges come from 64-bit seeds", "statement": "Whatever the digest, the serialisation, the circuit and the history of calls, the challenges returned by one draw of n from a PLONK, Nova or FRI transcript are one of at most 2^64 lists, fixed by the random generator and n alone - so no number of FRI queries gives more than 2^64 query lists; the final challenge inside every accepted PLONK proof and both challenges inside every accepted folding proof lie in one set of at most 2^64 values known in advance; and among any 2^64 + 1 PLONK transcripts two give the same challenges, however many are drawn.", "quantifier": "all digests, histories, transcripts, proofs, circuits and numbers of challenges", "why_tests_cant": "ranges over all histories and accepted proofs; the set has 2^64 elements", "anchors": ["plonk/src/challenge.rs: ChallengeGenerator", "nova/src/transcript.rs: Transcript", "fri/src/fiat_shamir/transcript.rs: Transcript", "plonk/src/verifier.rs: verify", "nova/src/nifs/nifs_verifier.rs: verify"]}
{"id": "C81", "title": "Nova instances chosen after the folding challenge", "statement": "For every relation shape, every second instance whatsoever, every scalar and public inputs claimed for the first one, every cross-term commitment and every vector w, there are commitments that complete the first instance and a folding proof that is accepted, such that the folded instance is satisfied by a known witness with w in it; the same with the roles of the two instances exchanged, unless the challenge is 0. So an accepted folding proof together with a witness of the fold does not make the folded instances satisfiable: an instance without any witness is folded this way with a satisfied one.", "quantifier": "all relations, instances, public inputs, scalars, cross-term commitments, secrets, digests and starting transcripts", "why_tests_cant": "an attack on all relations and all transcripts", "anchors": ["nova/src/nifs/nifs_verifier.rs: verify, verify_challenge, verify_opening, verifier", "nova/src/nifs/mod.rs: fold_instance", "nova/src/r1cs/mod.rs: is_r1cs_satisfied"]}
{"id": "C82", "title": "Nova folding error for instances fixed before the challenge", "statement": "When the vectors behind both instances and the cross term are fixed before the challenge and one of the instances does not satisfy the relation, then, whatever witness the prover answers to each challenge, the share of challenges and secrets for which the folded instance is satisfied is at most (2 + 2N) / |F|, for vectors of length up to N. With the generator replaced by a random table and the challenge derived as the code does, a prover asking for the challenges of at most Q cross terms of its choice, adaptively, obtains an accepted folding proof and a witness of the fold for at most a share 2 (Q + 1) / |F| of the tables - over the BLS12-381 scalar field at most (Q + 1) / 2^250 - unless it finds a second opening of a commitment or two cross terms with one seed.", "quantifier": "all relations, pairs of instances, adaptive provers, numbers of questions, secrets and digests", "why_tests_cant": "a probability over all challenges, secrets and tables, against all provers of this kind", "anchors": ["nova/src/nifs/nifs_verifier.rs: verify", "nova/src/nifs/mod.rs: fold_instance", "nova/src/r1cs/mod.rs: is_r1cs_satisfied", "nova/src/transcript.rs: Transcript"]}
{"id": "C83", "title": "PLONK sizes and machine integers", "statement": "Compiling a circuit with at least one gate gives the same result in debug and release builds, for every word width above the field's two-adicity. The empty circuit panics in a build with overflow checks; without them it compiles to one row without constraints, for which the prover then never returns a proof. A reference string has size + 3 points whenever that fits in a word; for the three largest sizes a checked build panics and an unchecked one returns a string of at most two points that cannot commit to anything longer.", "quantifier": "all circuits, sizes, word widths, blinders, reference strings and both build profiles", "why_tests_cant": "ranges over all circuits and sizes near the end of the word range", "anchors": ["plonk/src/circuit.rs: pad_circuit, compile", "plonk/src/prover.rs: compute_linearisation_polynomial", "kzg/src/srs.rs: new_from_secret"]}
{"id": "C84", "title": "FRI query positions and the error of a bounded number of queries", "statement": "In a field of p elements (p prime) each of the 2^n query positions is obtained from p / 2^n field elements, rounded down or up (Goldilocks, n <= 32: (p - 1) / 2^n, and one more for position 0). With Merkle roots, layers and constant fixed, the folding challenges derived as the code does, and the nq draws at the query seed uniformly random, whatever decommitments the prover answers to the draws: if the folding relation fails at B positions, at most (p - B (p / 2^n))^nq of the p^nq lists of draws lead to an accepted proof whose openings end in the roots and show no hash collision; and unless the layers are those of one polynomial whose complete fold is the constant, B is at least 2.", "quantifier": "all fields, layers, cosets, constants, digests, numbers of queries and adaptive answers", "why_tests_cant": "a count over all lists of draws, against all provers", "anchors": ["fri/src/verifier.rs: verify", "fri/src/prover.rs: generate_proof", "fri/src/fiat_shamir/transcript.rs: generate_challenge_list_usize"]}
{"id": "C85", "title": "Honest provers rarely fail", "statement": "With the generator behind the challenges replaced by a uniformly random table from seeds to field elements: PLONK - for every satisfied circuit of n rows, every reference string of at least n, and blinders with b1, b3, b5, b7 non-zero and b1 + b3 different from b5 (all but a share 5 / |F| of the nine-tuples), the run of the prover that draws its challenges from three different seeds fails to return a proof that the verifier accepts for at most a share 3 (5 n + 6) / |F| of the tables (BLS12-381, up to 2^28 rows: 2^-219); FRI - for every non-zero polynomial and domain of 2^n points within the two-adicity, the run that draws its folding challenges from different seeds fails for at most a share n / |F| (Goldilocks: 2^-58).", "quantifier": "all satisfied circuits, polynomials, blow-up factors, numbers of queries, reference strings, good blinders and sets of failing tables", "why_tests_cant": "a count over all tables, for all satisfied circuits and polynomials", "anchors": ["plonk/src/prover.rs: generate_proof", "plonk/src/verifier.rs: verify", "fri/src/prover.rs: generate_proof", "fri/src/verifier.rs: verify"]}
{"id": "C86", "title": "The real encodings", "statement": "The uncompressed encodings of scalars (32 bytes), base field elements (48 bytes) and points (96 bytes, infinity flagged in the first byte) give different bytes for different values and always have that length; the base field modulus is prime. Hence, with SHA-256 and these encodings and with no assumption about encodings: PLONK transcripts, Nova transcripts and hash_io bind everything fed to them, or two hashed strings are a SHA-256 collision. The check of the public input in the augmented circuit compares digests modulo the scalar modulus r: two digests give the same public input exactly when they are congruent modulo r, and at most three digests do.", "quantifier": "all lists of commitments, transcript histories, instances, states and digests", "why_tests_cant": "injectivity over all values and histories", "anchors": ["plonk/src/challenge.rs: ChallengeGenerator::feed", "nova/src/transcript.rs: feed, feed_scalar_num", "nova/src/circuit.rs: hash_io, AugmentedCircuit::run"]}
{"id": "C87", "title": "Honest Nova folding and IVC rarely fail", "statement": "The IVC driver panics exactly when the error vector or the witness vector of one of its running pairs after the first is zero; otherwise it returns. When the witness vectors of the later steps and the cross term of the first fold are not zero, the share of challenge tables for which an honest run of the driver with different seeds for its challenges does not return is at most 3 times the number of folds over the number of scalars; for the BLS12-381 scalars and at most 2^30 folds it is below 2^-219. One honest fold of two committed pairs fails (prover, proof or verifier) for at most 3 values of the challenge.", "quantifier": "all relations, witness lists, user functions, secrets, environments and sets of challenge tables", "why_tests_cant": "a count over all tables of challenges", "anchors": ["nova/examples/examples.rs: main", "nova/src/nifs/nifs_prover.rs: prover, prove", "nova/src/nifs/nifs_verifier.rs: verify", "kzg/src/scheme.rs: open_vector"]}
{"id": "C88", "title": "From an equation to an accepted proof", "statement": "The parsed circuit of an equation has at least one and at most as many gates as the equation has operations and numerals (v^k counting as k factors); it has a single gate exactly for an equation between two single variables, and compilation panics for those and, up to the two-adicity of the field, returns for all others, with a size at most the next power of two. Over the BLS12-381 scalars, for equations up to size 2^28 and with a reference string at least that long: without a solution the prover returns no proof for any environment; with a solution, the challenge tables for which the honest prover does not get an accepted proof (the transcripts having different seeds) are at most one in 2^219; and whatever the witness values, a prover that changes wire values of the same gates gets accepted proofs for all but the same share.", "quantifier": "all equations, inputs writing them, witness maps, secrets, blinders and sets of challenge tables", "why_tests_cant": "the composition of parser, compiler, prover and verifier on all inputs, and a count over all tables", "anchors": ["plonk/src/parser.rs: parse", "plonk/src/circuit.rs: compile", "plonk/src/prover.rs: generate_proof", "plonk/src/verifier.rs: verify"]}
{"id": "C89", "title": "A verifier that holds only the preprocessed input", "statement": "The verdict on any proof is a function of the output of compute_common_preprocessed_input and the reference string: circuits with the same preprocessed input get the same verdict on every proof, so a verifier needs neither the wire values nor the selector polynomials. For an equation it is enough to know the text: the verdict is the one on the compiled circuit of any prover, whatever its witness values. Preprocessing returns for every equation with at least two gates as soon as the two-adicity of the field and the length of the reference string allow.", "quantifier": "all circuits, equations, texts, witness maps, reference strings, transcript functions and proofs", "why_tests_cant": "equality of two procedures' verdicts on all proofs, including those nobody knows how to make", "anchors": ["plonk/src/verifier.rs: verify", "plonk/src/common_preprocessed_input/cpi_parser.rs: CPIGenerator", "plonk/src/common_preprocessed_input/cpi_circuit.rs"]}
{"id": "C90", "title": "What a transcript collision would give: SHA-256 as an iterated hash", "statement": "Two different messages shorter than 2^64 bits with the same SHA-256 digest give two different (chaining value, block) pairs, met while hashing those two messages, which the compression function sends to the same value; padding is injective on such messages. So two different histories of a PLONK, Nova or Goldilocks FRI transcript that lead to the same state give a collision of the compression function on the inputs those transcripts hash. The digest of a padded message followed by more bytes is a function of the digest, the length of the message and the added bytes (length extension: the digest is not a keyed authenticator of its input).", "quantifier": "all pairs of messages, extensions and transcript histories", "why_tests_cant": "collisions exist but cannot be exhibited; the reduction is over all pairs of messages", "anchors": ["plonk/src/challenge.rs: ChallengeGenerator", "nova/src/transcript.rs: Transcript", "fri/src/fiat_shamir/transcript.rs: Transcript"]}
{"id": "C91", "title": "Names of variables, and negated right sides", "statement": "Renaming the variables of an equation one-to-one changes neither the preprocessed input nor, when the renamed variables have the same values, the parsed circuit. Preprocessing reads a negated numeral at the head of the right side (x*y=-3) as the name of a fresh variable: the preprocessed input is that of x*y=z. So, for canonical numerals, whatever values the variables have, equation solved or not, there is a circuit with that preprocessed input from which the prover makes a proof that the verifier accepts.", "quantifier": "all equations, one-to-one renamings, texts, witness values, reference strings, blinders and numerals", "why_tests_cant": "ranges over every pair of texts and renaming; the acceptance of false statements shows only when the two front ends are compared on all inputs", "anchors": ["plonk/src/common_preprocessed_input/cpi_parser.rs: compute_common_preprocessed_input", "plonk/src/parser.rs: parse", "plonk/src/prover.rs: generate_proof", "plonk/src/verifier.rs: verify"]}
{"id": "C92", "title": "Merkle roots bind whole vectors", "statement": "Two trees of the same depth with the same root are built from the same vector, whatever the lengths (powers of two or not), or two different lists that are hashed while the two trees are built have the same hash. An opening that verifies against the root of a vector of length 2^k, with a path of length k and an index in range, opens to the entry at that index, or a list hashed while it is checked collides with a different list hashed for the tree. Over a finite field such collisions always exist: for every length above 1 there are two vectors with the same root.", "quantifier": "every hash function, all vectors of all lengths, all openings", "why_tests_cant": "a reduction over all vectors and proofs; vectors with equal roots exist but cannot be sampled", "anchors": ["fri/src/merkle_tree.rs: MerkleTree::new, root, verify_merkle_proof", "fri/src/hasher.rs: hash, hash_slice"]}
{"id": "C93", "title": "Numerals with leading zeros split the two front ends", "statement": "The preprocessed input of x*y=d depends on the value of the numeral d only: superfluous leading zeros do not matter. The circuit a prover parses from the same text does depend on them: whenever d has a superfluous leading zero (x*y=06) the text parses and compiles, to size 4, but the preprocessed input computed from the same text disagrees with that circuit already on the commitment to the first permutation column, except for at most three SRS trapdoors.", "quantifier": "every numeral the parsers accept, every field and domain in which the coset constants separate the columns, every SRS", "why_tests_cant": "a family of inputs no test contains: the two parsers name the constant's wire differently, and agree on every canonical text", "anchors": ["plonk/src/parser.rs: Parser::parse, get_witness_value", "plonk/src/common_preprocessed_input/cpi_parser.rs: compute_common_preprocessed_input, check_constant"]}
{"id": "C94", "title": "Nova proofs and instances do not hide the witness", "statement": "Every folding proof shows, in the clear, the value at its opening point of W1 + r W2, the folded witness polynomial; for the first fold, into the trivial pair, that is r times the value of the step's own witness polynomial. So from one such proof with non-zero challenge and point an unknown entry is computed from the others, and as many such proofs of one witness as it has entries, at different points, determine it. Instances carry deterministic commitments: committing to a guess with the public reference string confirms a right guess, and a guess that is another polynomial is confirmed for fewer trapdoors than the longer of the two has entries.", "quantifier": "all relations, witnesses, instances, transcripts, reference strings and guesses", "why_tests_cant": "what a proof reveals is a statement about all witnesses consistent with it", "anchors": ["nova/src/nifs/nifs_prover.rs: prover, prove", "nova/src/r1cs/mod.rs: FWitness::commit, create_trivial_pair", "nova/src/nifs/mod.rs: NIFSProof"]}
{"id": "C95", "title": "What KZG commitments and openings leave hidden", "statement": "For a polynomial of at most n coefficients whose value at the secret is not zero, its commitment together with its openings at any n-2 points other than the secret is, whatever further point is chosen and whatever value there, also exactly what some other polynomial of at most n coefficients with that value would publish, and for each value there is only one such polynomial. The commitment and the openings at n-1 points determine the polynomial.", "quantifier": "all polynomials, sizes, secrets, opening points, further points and values", "why_tests_cant": "what stays hidden is a statement about every polynomial consistent with what was published", "anchors": ["kzg/src/scheme.rs: commit, open", "kzg/src/srs.rs: Srs::new_from_secret"]}
{"id": "C96", "title": "FRI proofs do not hide the polynomial", "statement": "Every query of a generated FRI proof shows the values of the prover's polynomial at a point and at its opposite, and the points can be computed from the proof. Positions that differ modulo half the domain show different pairs of points, so once their number is at least half the size of the polynomial only the prover's polynomial fits the proof. The first root is deterministic: building the first layer of a guess confirms a right guess, and a wrong guess of at most the size of the domain that passes gives two different lists of field elements, hashed while building the two trees, with the same hash.", "quantifier": "all polynomials, blow-up factors, query counts, digests, generated proofs and guesses", "why_tests_cant": "what a proof reveals is a statement about all polynomials consistent with it", "anchors": ["fri/src/prover.rs: generate_proof, query_phase", "fri/src/fri_layer.rs: FriLayer::from_poly", "fri/src/merkle_tree.rs: MerkleTree"]}
{"id": "C97", "title": "The relation of the Nova examples", "statement": "The matrices that the examples and tests build accept a committed, unfolded pair exactly when the witness lists x, x^2, x^3, x^3 + x and the output is x^3 + x + 5 for some x, and a relaxed pair exactly when four equations between witness, output, scalar and error hold and the commitments match. The witness and output generated for every input are accepted with every reference string long enough to commit four entries, and at most three witnesses fit one output.", "quantifier": "all fields, reference strings, witnesses, outputs, scalars, errors and inputs (inputs whose x^3 + x + 5 fits a machine word in the code)", "why_tests_cant": "which pairs a relation accepts is a statement about all pairs", "anchors": ["nova/src/nifs/nifs_verifier.rs: gen_test_values", "nova/examples/examples.rs: gen_test_values", "nova/src/r1cs/mod.rs: is_r1cs_satisfied"]}
