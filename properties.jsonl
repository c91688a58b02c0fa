{"id": "C01", "title": "Evaluation domain construction", "statement": "Domain::new_for_size(n) returns Err exactly when the least power of two >= n exceeds 2^S of the field; otherwise it returns a domain whose size is that least power of two, whose power_of_two is its logarithm, and whose generator has multiplicative order exactly equal to the size.", "quantifier": "every field with a primitive 2^S-th root of unity, every requested size n", "why_tests_cant": "A test checks a handful of sizes in one field; the exact-order claim is about all of them.", "anchors": ["src/domains/mod.rs:Domain::new_for_size"]}
{"id": "C02", "title": "Coset and next-domain index maps", "statement": "For an index i of a power-of-two domain of size n>=2 with generator w, coset_for_natural_index_and_size returns the sorted pair of indices of w^i and -w^i, both give the same next-domain index, and index_and_size_for_next_domain returns the index of (w^i)^2 in the domain of half the size generated by w^2.", "quantifier": "every field, every power-of-two domain size, every index", "why_tests_cant": "All domain sizes and indices; off-by-half mistakes only show for some indices.", "anchors": ["src/domains/mod.rs:Domain::coset_for_natural_index_and_size", "src/domains/mod.rs:Domain::index_and_size_for_next_domain", "src/iop/trivial_coset_combiner.rs:TrivialCombiner::get_coset_for_natural_index"]}
{"id": "C03", "title": "FFT is polynomial evaluation", "statement": "Polynomial::fft of a coefficient vector of power-of-two length n returns exactly the values of that polynomial at 1, w, ..., w^(n-1), where w is the generator of the domain of size n.", "quantifier": "every field, every coefficient vector, every number of worker CPUs", "why_tests_cant": "Needs every length, vector and CPU count; the parallel path is only taken for some combinations of size and CPU count.", "anchors": ["src/polynomials/mod.rs:Polynomial::fft", "src/fft/fft.rs:best_fft", "src/fft/fft.rs:serial_fft", "src/fft/fft.rs:parallel_fft"]}
{"id": "C04", "title": "Inverse FFT inverts FFT", "statement": "ifft(fft(p)) = p and fft(ifft(v)) = v; ifft of a value vector is the unique polynomial of degree < n taking these values on the domain.", "quantifier": "every field, every vector of power-of-two length, every number of worker CPUs", "why_tests_cant": "Universal over vectors, sizes and CPU counts.", "anchors": ["src/polynomials/mod.rs:Polynomial::ifft", "src/polynomials/mod.rs:Polynomial::fft"]}
{"id": "C05", "title": "Coset FFT and its inverse", "statement": "coset_fft evaluates the polynomial on the coset g*<w> (g the multiplicative generator, or any given nonzero generator), and icoset_fft inverts it.", "quantifier": "every field, every vector, every CPU count, every nonzero coset shift", "why_tests_cant": "Universal over vectors, shifts and CPU counts.", "anchors": ["src/polynomials/mod.rs:Polynomial::coset_fft", "src/polynomials/mod.rs:Polynomial::coset_fft_for_generator", "src/polynomials/mod.rs:Polynomial::icoset_fft", "src/polynomials/mod.rs:Polynomial::icoset_fft_for_generator", "src/fft/mod.rs:distribute_powers"]}
{"id": "C06", "title": "Parallel FFT equals serial FFT", "statement": "The serial and the parallel FFT kernels return the same vector, so best_fft does not depend on the number of CPUs or on the CPU hint.", "quantifier": "every input vector, every root of unity of matching order, every CPU count and hint", "why_tests_cant": "The machine running the tests has one fixed CPU count.", "anchors": ["src/fft/fft.rs:best_fft", "src/fft/fft.rs:parallel_fft", "src/fft/multicore.rs:Worker::log_num_cpus"]}
{"id": "C07", "title": "Chunked worker loops are schedule independent", "statement": "Worker::scope splits n elements into consecutive disjoint chunks that cover all n elements, the number of spawned tasks is exactly get_num_spawned_threads(n), and every interleaving of the spawned tasks leaves the same array as running them one after the other.", "quantifier": "every element count, every CPU count, every interleaving of task steps", "why_tests_cant": "Tests observe one schedule on one machine.", "anchors": ["src/fft/multicore.rs:Worker::scope", "src/fft/multicore.rs:Worker::get_chunk_size", "src/fft/multicore.rs:Worker::get_num_spawned_threads"]}
{"id": "C08", "title": "Filtering (zero-padded) LDE", "statement": "filtering_lde and coset_filtering_lde by a power-of-two factor k return the values of the polynomial on the domain (coset) of size k*n, although the kernels skip the structurally zero entries.", "quantifier": "every field, every coefficient vector, every power-of-two factor, every CPU count", "why_tests_cant": "The skipping logic has four cases per butterfly that depend on level and index; tests cover a few sizes.", "anchors": ["src/polynomials/mod.rs:Polynomial::filtering_lde", "src/polynomials/mod.rs:Polynomial::coset_filtering_lde", "src/fft/lde.rs:serial_lde", "src/fft/lde.rs:parallel_lde", "src/fft/lde.rs:best_lde"]}
{"id": "C09", "title": "lde / coset_lde evaluate on the extended domain", "statement": "lde(k) and coset_lde(k), the versions used by prover, return the values of the polynomial on the domain (coset) of size k*n, and therefore do not depend on the number of CPUs of the machine.", "quantifier": "every field, every coefficient vector, every power-of-two factor, every CPU count", "why_tests_cant": "A test machine has one CPU count; the result is wrong only for factors that are at least twice a CPU count larger than one.", "anchors": ["src/polynomials/mod.rs:Polynomial::lde", "src/polynomials/mod.rs:Polynomial::lde_using_multiple_cosets", "src/polynomials/mod.rs:Polynomial::coset_lde_using_multiple_cosets"]}
{"id": "C10", "title": "All LDE variants agree", "statement": "lde_using_multiple_cosets_naive, lde_using_multiple_cosets and filtering_lde (and their coset versions) return the same vector on the same input.", "quantifier": "every field, every coefficient vector, every factor, every CPU count", "why_tests_cant": "Universal over inputs and CPU counts.", "anchors": ["src/polynomials/mod.rs:Polynomial::lde_using_multiple_cosets_naive", "src/polynomials/mod.rs:Polynomial::coset_lde_using_multiple_cosets_naive"]}
{"id": "C11", "title": "Alternative FFT kernels compute the same transform", "statement": "The radix-4 FFT and the decimation-in-time FFT (which prunes work given the number of nonzero leading entries) equal the standard FFT.", "quantifier": "every vector, every (even for radix 4) log size, every CPU count, every valid nonzero-prefix count", "why_tests_cant": "Universal over vectors and pruning bounds.", "anchors": ["src/fft/radix4_fft/mod.rs:serial_fft_radix_4", "src/fft/radix4_fft/mod.rs:base_4_digit_reverse", "src/fft/dit_fft/mod.rs:serial_DIT_fft"]}
{"id": "C12", "title": "Batch inversion", "statement": "batch_inversion replaces every entry by its inverse when all entries are nonzero and returns Err exactly when some entry is zero.", "quantifier": "every value vector, every CPU count", "why_tests_cant": "Universal over vectors; the chunk bookkeeping depends on the CPU count.", "anchors": ["src/polynomials/mod.rs:Polynomial::batch_inversion"]}
{"id": "C13", "title": "Point evaluation", "statement": "evaluate_at(x) returns the value of the polynomial at x, independently of CPU count and of the order in which partial sums arrive; evaluate_at_consequitive_powers(c, a, b) returns sum_i c_i * a * b^i.", "quantifier": "every polynomial, point, CPU count and arrival order", "why_tests_cant": "Arrival order is a scheduling accident that a test cannot enumerate.", "anchors": ["src/polynomials/mod.rs:Polynomial::evaluate_at", "src/utils/poly.rs:evaluate_at_consequitive_powers"]}
{"id": "C14", "title": "Pointwise arithmetic", "statement": "scale, negate, add_assign, sub_assign, mul_assign, add_assign_scaled, add_constant, pow, square and distribute_powers act entry by entry as the corresponding field operation (i-th entry times g^i for distribute_powers), and in coefficient form add/sub/add_scaled are polynomial addition/subtraction.", "quantifier": "every pair of vectors meeting the length assertion, every CPU count", "why_tests_cant": "Universal over vectors and CPU counts.", "anchors": ["src/polynomials/mod.rs:Polynomial::scale", "src/polynomials/mod.rs:Polynomial::add_assign", "src/polynomials/mod.rs:Polynomial::mul_assign", "src/polynomials/mod.rs:Polynomial::pow", "src/fft/mod.rs:distribute_powers"]}
{"id": "C15", "title": "from_roots builds the vanishing polynomial", "statement": "Polynomial::from_roots(r) for a non-empty root list returns the coefficients of the product of (X - r_i); it panics on an empty list.", "quantifier": "every non-empty list of field elements, every CPU count", "why_tests_cant": "Universal over root lists; uses the LDE so it inherits its CPU dependence.", "anchors": ["src/polynomials/mod.rs:Polynomial::from_roots"]}
{"id": "C16", "title": "Lagrange interpolation", "statement": "interpolate(points) with at least two points with pairwise distinct x returns n coefficients of the unique polynomial of degree < n through the points; it panics on fewer than two points or on a repeated x.", "quantifier": "every list of points", "why_tests_cant": "Universal over point lists.", "anchors": ["src/utils/poly.rs:interpolate"]}
{"id": "C17", "title": "Padding, trimming and size bookkeeping", "statement": "from_coeffs/new_for_size/from_values build an object whose length is the next power of two and whose omega, omegainv, geninv, minv are consistent with that size; pad_by_factor and pad_to_size keep the polynomial, trim_to_degree keeps the coefficients up to the degree and zeroes the others.", "quantifier": "every vector, factor, size and degree", "why_tests_cant": "Universal over sizes.", "anchors": ["src/polynomials/mod.rs:Polynomial::from_coeffs", "src/polynomials/mod.rs:Polynomial::from_values", "src/polynomials/mod.rs:Polynomial::pad_by_factor", "src/polynomials/mod.rs:Polynomial::pad_to_size", "src/polynomials/mod.rs:Polynomial::trim_to_degree"]}
{"id": "C18", "title": "Degree-one evaluation over a domain", "statement": "evaluate_at_domain_for_degree_one and its coset version return the values of the degree-one polynomial on the domain (coset) of the requested size.", "quantifier": "every degree-one polynomial, every size, every CPU count", "why_tests_cant": "Universal over sizes and CPU counts.", "anchors": ["src/polynomials/mod.rs:Polynomial::evaluate_at_domain_for_degree_one", "src/polynomials/mod.rs:Polynomial::coset_evaluate_at_domain_for_degree_one"]}
{"id": "C19", "title": "Merkle commitment completeness", "statement": "Every query answered by the commitment of a vector verifies against the root of this commitment and carries the queried value and index.", "quantifier": "every hash function, every vector of power-of-two length >= 2, every index", "why_tests_cant": "Universal over lengths and indices.", "anchors": ["src/iop/blake2s_trivial_iop.rs:Blake2sIopTree::create", "src/iop/blake2s_trivial_iop.rs:Blake2sIopTree::get_path", "src/iop/blake2s_trivial_iop.rs:Blake2sIopTree::verify", "src/iop/blake2s_trivial_iop.rs:TrivialBlake2sIOP::query"]}
{"id": "C20", "title": "Merkle opening binding", "statement": "Two accepted openings of the same root at the same index with paths of the same length carry the same value and path, or else two of the byte strings that are hashed to check them are different and have equal hashes.", "quantifier": "every hash function, root, index, pair of values and paths", "why_tests_cant": "Binding is a statement about all adversarial openings.", "anchors": ["src/iop/blake2s_trivial_iop.rs:Blake2sIopTree::verify", "src/iop/blake2s_trivial_iop.rs:TrivialBlake2sIOP::verify_query"]}
{"id": "C21", "title": "Merkle root binds the whole vector", "statement": "If two vectors have equal roots then they are equal or two of the byte strings hashed to build their trees collide; an accepted opening of the root of a committed vector has the path length of the vector and carries the committed value at that index, or two of the byte strings hashed for the tree and the opening collide.", "quantifier": "every hash function, every pair of vectors, every adversarial opening", "why_tests_cant": "Statement about all adversarial openings.", "anchors": ["src/iop/blake2s_trivial_iop.rs:Blake2sIopTree::create", "src/iop/blake2s_trivial_iop.rs:Blake2sIopTree::verify"]}
{"id": "C22", "title": "A Merkle opening determines its position", "statement": "An accepted opening for index i cannot be re-used for a different index: the verifier checks that the path length matches the size of the committed vector and that the index is inside it.", "quantifier": "every root, value, path and index", "why_tests_cant": "Adversarial inputs.", "anchors": ["src/iop/blake2s_trivial_iop.rs:Blake2sIopTree::verify", "src/iop/blake2s_trivial_iop.rs:TrivialBlake2sIOP::verify_query"]}
{"id": "C23", "title": "Hash-to-field never fails", "statement": "Turning a 32-byte digest into a field challenge (transcript and Merkle root challenge) never panics and yields an element whose canonical representation is below 2^CAPACITY.", "quantifier": "every prime field, every digest", "why_tests_cant": "Every digest and modulus.", "anchors": ["src/transcript/mod.rs:Blake2sTranscript::get_challenge", "src/iop/blake2s_trivial_iop.rs:Blake2sTreeHasher::interpret_hash"]}
{"id": "C24", "title": "Transcript framing", "statement": "The transcript state is determined by the sequence of committed messages, and two different sequences of committed messages give different absorbed byte strings.", "quantifier": "every pair of message sequences", "why_tests_cant": "Injectivity over all sequences.", "anchors": ["src/transcript/mod.rs:Blake2sTranscript::commit_bytes", "src/transcript/mod.rs:Blake2sTranscript::commit_field_element"]}
{"id": "C25", "title": "Transcript challenges depend on everything absorbed", "statement": "Each challenge is the hash of everything committed and every challenge drawn before it; equal histories give equal challenges, and two consecutive challenges come from hashing different byte strings.", "quantifier": "every history", "why_tests_cant": "Universal over histories.", "anchors": ["src/transcript/mod.rs:Blake2sTranscript::get_challenge", "src/transcript/mod.rs:Blake2sTranscript::get_challenge_bytes"]}
{"id": "C26", "title": "FRI folding step", "statement": "One FRI folding step of the values of f on a domain with challenge b yields the values of f_even + b*f_odd on the squared domain, halving the degree bound.", "quantifier": "every polynomial, every domain, every challenge, every CPU count", "why_tests_cant": "Universal over polynomials and challenges.", "anchors": ["src/fri/fri_on_values.rs:NaiveFriIop::proof_from_lde_by_values"]}
{"id": "C27", "title": "FRI prover by values and through coefficients agree", "statement": "On the LDE of a polynomial of degree below the claimed bound, proof_from_lde_by_values and proof_from_lde_through_coefficients produce the same commitments, challenges and final coefficients.", "quantifier": "every polynomial, lde factor, output degree, CPU count, hash function", "why_tests_cant": "Universal over polynomials.", "anchors": ["src/fri/fri_on_values.rs:NaiveFriIop::proof_from_lde_by_values", "src/fri/mod.rs:NaiveFriIop::proof_from_lde_through_coefficients"]}
{"id": "C28", "title": "FRI prototype completeness", "statement": "For the LDE of a polynomial below the degree bound, verify_prototype accepts the prototype made by the prover at every index that is not a multiple giving an even position.", "quantifier": "every polynomial, lde factor, output degree, index, hash function", "why_tests_cant": "Universal.", "anchors": ["src/fri/verifier.rs:NaiveFriIop::verify_prototype", "src/fri/mod.rs:NaiveFriIop::proof_from_lde"]}
{"id": "C29", "title": "FRI proof completeness", "statement": "For the LDE of a polynomial below the degree bound, verify_proof accepts the proof produced by proof_from_lde and prototype_into_proof at every odd index with the honest oracle value.", "quantifier": "every polynomial, lde factor, output degree, odd index, hash function, CPU count", "why_tests_cant": "Universal; fails for output degrees other than one.", "anchors": ["src/fri/verifier.rs:NaiveFriIop::verify_proof_queries", "src/fri/query_producer.rs:FRIProofPrototype::produce_proof"]}
{"id": "C30", "title": "FRI proof is checked against the oracle value", "statement": "verify_proof accepts only if the first-round opening at the challenged index equals the expected oracle value, every opening verifies against its round root, and every round is consistent with the folding of the previous round.", "quantifier": "every (adversarial) FRI proof, index and expected value", "why_tests_cant": "Adversarial proofs.", "anchors": ["src/fri/verifier.rs:NaiveFriIop::verify_proof_queries"]}
{"id": "C31", "title": "FRI rejects functions of too high degree", "statement": "If FRI verify_proof accepts a proof at every admissible index for the same committed codeword then the codeword agrees with a polynomial of degree below the claimed bound.", "quantifier": "every adversarial FRI proof", "why_tests_cant": "Soundness ranges over all adversaries.", "anchors": ["src/fri/verifier.rs:NaiveFriIop::verify_proof_queries"]}
{"id": "C32", "title": "Challenge index selection", "statement": "bytes_to_challenge_index returns an index below the LDE size that is odd and not a multiple of the LDE factor, so the queried point is outside of the trace domain and usable by FRI.", "quantifier": "every byte string of length >= 8, every power-of-two LDE size and factor >= 2", "why_tests_cant": "Universal over bytes and sizes; boundary wraps are rare.", "anchors": ["src/verifier/mod.rs:Verifier::bytes_to_challenge_index"]}
{"id": "C33", "title": "Constraint builder semantics and degree bookkeeping", "statement": "Building a constraint with +=, -=, *= and pow yields a constraint whose value on any register assignment is the corresponding arithmetic expression and whose degree field is the maximum total degree of its terms.", "quantifier": "every sequence of builder operations, every assignment", "why_tests_cant": "Universal over expressions.", "anchors": ["src/air/constraint.rs:Constraint", "src/air/constraint.rs:PolyvariateTerm", "src/air/constraint.rs:UnivariateTerm"]}
{"id": "C34", "title": "is_satisfied is exactly constraint satisfaction", "statement": "ARPInstance::is_satisfied returns Ok if and only if every constraint vanishes at every row of its density and every boundary constraint with a value holds (no row access out of the trace).", "quantifier": "every instance, every witness", "why_tests_cant": "Universal over instances and witnesses.", "anchors": ["src/arp/per_register/mod.rs:ARPInstance::verify_witness", "src/arp/density_query.rs:DenseConstraintQuery"]}
{"id": "C35", "title": "Witness polynomials interpolate the trace", "statement": "calculate_witness_polys returns for each register the polynomial of degree < num_rows whose value at w^i is row i of the register, and shifting by k rows is multiplication of the argument by the mask w^k used in remapped constraints.", "quantifier": "every witness with a power-of-two number of rows, every CPU count", "why_tests_cant": "Universal over witnesses.", "anchors": ["src/arp/per_register/mod.rs:calculate_witness_polys", "src/arp/mappings.rs:remap_univariate_term"]}
{"id": "C36", "title": "Dense divisor", "statement": "The divisor used by prover and verifier for a dense constraint vanishes exactly at the rows start_at <= i < num_rows - span of the trace domain; prover and verifier compute the same inverse divisor at every point.", "quantifier": "every column domain, start, span, row count, evaluation point", "why_tests_cant": "Universal over densities.", "anchors": ["src/ali/per_register/mod.rs:inverse_divisor_for_dense_constraint_in_coset", "src/verifier/mod.rs:inverse_divisor_for_dense_constraint"]}
{"id": "C37", "title": "ALI composition polynomial", "statement": "For a witness that satisfies the instance, calculate_g returns a polynomial g of degree below max_degree*num_rows such that g times the divisors equals the challenge-weighted combination of the constraints, for any number of constraint densities.", "quantifier": "every instance, satisfying witness, transcript state and CPU count", "why_tests_cant": "Universal over instances; the combination is wrong when there are two or more densities.", "anchors": ["src/ali/per_register/mod.rs:ALIInstance::calculate_g"]}
{"id": "C38", "title": "Verifier recomputes g(z) from the claimed openings", "statement": "When the proof carries the true values f(z*mask), the verifier's calculation of g(z) equals the prover's polynomial g evaluated at z.", "quantifier": "every instance, satisfying witness, z outside of the trace domain", "why_tests_cant": "Universal over instances, witnesses and challenges.", "anchors": ["src/verifier/mod.rs:Verifier::calculate_g_at_z_from_f_at_z", "src/ali/per_register/mod.rs:ALIInstance::calculate_g"]}
{"id": "C39", "title": "DEEP quotients", "statement": "calculate_deep returns the values on the LDE domains of h1 = sum alpha_i (f_i - f_i(m_i z))/(X - m_i z) and h2 = (g - g(z))/(X - z), which are polynomials of degree below that of f and g, and the verifier's simulation at a queried point gives the same values.", "quantifier": "every set of witness polynomials, masks, z and challenges with z*mask outside of the LDE domain", "why_tests_cant": "Universal.", "anchors": ["src/ali/per_register/deep.rs:ALIInstance::calculate_deep", "src/verifier/mod.rs:Verifier::simulate_h1_from_f_at_z", "src/verifier/mod.rs:Verifier::simulate_h2_from_g_at_z"]}
{"id": "C40", "title": "End-to-end completeness", "statement": "If the witness satisfies the instance and Prover::prove returns a proof, then Verifier::verify returns Ok(true) on that proof.", "quantifier": "every instance, satisfying witness, lde factor, final degree, CPU count and hash function", "why_tests_cant": "Universal over instances and witnesses; fails for particular CPU counts, final degrees and for several densities.", "anchors": ["src/prover/mod.rs:Prover::prove", "src/verifier/mod.rs:Verifier::verify"]}
{"id": "C41", "title": "End-to-end soundness", "statement": "Verifier::verify does not accept a proof for an instance that no witness satisfies (except by breaking the hash function).", "quantifier": "every instance, every adversarial proof", "why_tests_cant": "Adversarial proofs cannot be enumerated by tests.", "anchors": ["src/verifier/mod.rs:Verifier::verify", "src/fri/verifier.rs:NaiveFriIop::verify_proof_queries"]}
{"id": "C42", "title": "Verifier binds the claimed openings", "statement": "An accepted proof has exactly as many f openings as there are registers, all openings verify under their roots at the challenged indices, and the verifier rejects a proof whose list of claimed f(z*mask) values is shorter or longer than the list of masks.", "quantifier": "every adversarial proof", "why_tests_cant": "Adversarial proofs.", "anchors": ["src/verifier/mod.rs:Verifier::verify"]}
{"id": "C43", "title": "Verifier is total", "statement": "Verifier::verify returns Ok or Err, and does not panic, on every proof object.", "quantifier": "every instance, every proof object", "why_tests_cant": "Adversarial proofs.", "anchors": ["src/verifier/mod.rs:Verifier::verify", "src/fri/verifier.rs:NaiveFriIop::verify_proof_queries"]}
{"id": "C44", "title": "Prover and verifier draw the same challenges", "statement": "Running the verifier on an honest proof reproduces exactly the transcript challenges and the query indices of the prover.", "quantifier": "every instance, witness and hash function", "why_tests_cant": "Universal.", "anchors": ["src/prover/mod.rs:Prover::prove", "src/verifier/mod.rs:Verifier::verify"]}
{"id": "C45", "title": "Verifier precomputation matches the prover", "statement": "Prover::new and Verifier::new derive the same masks in the same order, the same constraint batches, the same column domain and the same maximal degree from the same instance, and the same constraint domain.", "quantifier": "every instance", "why_tests_cant": "Universal over instances.", "anchors": ["src/verifier/mod.rs:Verifier::new", "src/ali/per_register/mod.rs:ALIInstance::from_arp", "src/ali/mod.rs:get_masks_from_constraint"]}
{"id": "C46", "title": "Fibonacci AIR", "statement": "The traced Fibonacci system and its generated witness: calculate_witness for n steps yields rows (F_i, F_{i+1}) and they satisfy the traced constraints; conversely every witness that satisfies them has the claimed final value equal to the Fibonacci number.", "quantifier": "every number of steps", "why_tests_cant": "Universal over n.", "anchors": ["src/air/test_trace_system.rs:Fibonacci::trace", "src/air/test_trace_system.rs:TestTraceSystem::calculate_witness", "src/arp/mod.rs:TestTraceSystem::into_arp"]}
{"id": "C47", "title": "VDF instance", "statement": "The witness of VDF::into_arp satisfies its constraints; its last row is start^(2^n) in F[i]/(i^2 - r); conversely any witness satisfying the constraints and boundary constraints has exactly these rows.", "quantifier": "every starting value and number of operations", "why_tests_cant": "Universal.", "anchors": ["src/experiments/vdf.rs:VDF::into_arp"]}
{"id": "C48", "title": "Cubic VDF instance", "statement": "The witness of CubicVDF::into_arp satisfies its constraints and its last row is start^(3^n); conversely satisfying witnesses have exactly these values.", "quantifier": "every starting value and number of operations", "why_tests_cant": "Universal.", "anchors": ["src/experiments/cubic_vdf.rs:CubicVDF::into_arp"]}
{"id": "C49", "title": "Quadratic extension arithmetic", "statement": "Fq2 mul, square, inverse, mul_by_0 and mul_by_1 implement the arithmetic of F[u]/(u^2 - beta); norm is multiplicative; sqrt returns a square root.", "quantifier": "all elements of the extension", "why_tests_cant": "Universal.", "anchors": ["src/experiments/square_root_calculator/fp2.rs"]}
{"id": "C50", "title": "Tensor LDE queries", "statement": "The tensor query functions compute the values of the tensor-product (multivariate) extension they claim to.", "quantifier": "all inputs", "why_tests_cant": "Universal.", "anchors": ["src/experiments/tensor_lde.rs"]}
{"id": "C51", "title": "Register remapping", "statement": "TestTraceSystem::into_arp maps the registers of all kinds injectively onto 0..total, keeps the value of every constraint, and reports the number of registers that the witness has.", "quantifier": "every trace system state", "why_tests_cant": "Universal over register populations.", "anchors": ["src/arp/mod.rs:TestTraceSystem::into_arp"]}
{"id": "C52", "title": "log2_floor and index arithmetic", "statement": "log2_floor(n) is the largest k with 2^k <= n for every n>0 and panics on 0.", "quantifier": "every n", "why_tests_cant": "Universal.", "anchors": ["src/utils/mod.rs:log2_floor", "src/fft/multicore.rs:log2_floor"]}
{"id": "C53", "title": "Precomputed powers", "statement": "PrecomputedOmegas::new_for_domain returns the powers of the generator, the coset powers and the first half of the powers of the inverse.", "quantifier": "every domain, every CPU count", "why_tests_cant": "Universal over CPU counts.", "anchors": ["src/precomputations/mod.rs:PrecomputedOmegas::new_for_domain"]}
{"id": "C54", "title": "Malformed instances are rejected without a panic", "statement": "Prover::new and Prover::prove return Err rather than panic on an instance or witness with a number of rows or a maximal degree that is not a power of two.", "quantifier": "every instance and witness", "why_tests_cant": "Universal over instances.", "anchors": ["src/prover/mod.rs:Prover::new", "src/prover/mod.rs:Prover::prove", "src/arp/per_register/mod.rs:make_witness_polymonials"]}
{"id": "C55", "title": "Prefetching kernels compute the same transforms", "statement": "The transforms compiled for the nightly toolchain (with the unrolled loops and prefetch hints) return the same values as the stable ones: best_fft evaluates the polynomial at the powers of the root, and best_lde does so for zero padded coefficients, serially and for every CPU count.", "quantifier": "every vector of 2^L coefficients, every primitive root, every extension factor, CPU count and hint", "why_tests_cant": "Universal over sizes, inputs and CPU counts; the stable test build never compiles this code.", "anchors": ["src/fft/prefetch_fft.rs:best_fft", "src/fft/prefetch_lde.rs:best_lde", "src/prefetch.rs", "src/fft/mod.rs"]}
{"id": "C56", "title": "The verifier's equation at z is sound", "statement": "If the trace columns committed by a prover violate a constraint or a boundary constraint of the instance, then for all values of the other coefficients there is at most one value of that constraint's random coefficient for which any polynomial g of the admitted degree passes the verifier's comparison of g(z) with the value computed from the true openings, at as many points z as (maximal degree + 1) times the number of rows. If the comparison can be passed for two values of every coefficient, the trace satisfies the instance; an honest prover passes for all values.", "quantifier": "every supported instance, every trace of the right shape (satisfying or not), all challenges, all answers g, all points z outside of the trace domain", "why_tests_cant": "Universal over cheating provers: traces, polynomials and challenges.", "anchors": ["src/verifier/mod.rs:calculate_g_at_z_from_f_at_z", "src/ali/per_register/mod.rs:calculate_g", "src/arp/per_register/mod.rs:calculate_witness_polys"]}
{"id": "C57", "title": "The DEEP check binds the claimed openings", "statement": "Whatever values a prover shows for the columns: if for two values of the random coefficient of an opening the values that the verifier simulates from them agree on a set of positions with polynomials of degree below N, then on these positions the column agrees with a polynomial of degree at most N whose value at the opened point is the claimed one; the same holds for the composition polynomial and the value that the verifier computed for it. If more than N positions are used, the claimed value is the only one that passes, and the true value if the column has degree at most N.", "quantifier": "every instance of the verifier, all column values (polynomial or not), all claimed openings, coefficients, points and sets of positions", "why_tests_cant": "Universal over cheating provers and over sets of positions.", "anchors": ["src/verifier/mod.rs:simulate_h1_from_f_at_z", "src/verifier/mod.rs:simulate_h2_from_g_at_z"]}
{"id": "C58", "title": "FRI folding and its verifier are sound", "statement": "If a committed vector differs at more than 4^R e of its odd positions from every polynomial of degree below 2^R m, then for all but R |F|^(R-1) of the |F|^R lists of challenges the FRI verifier rejects at more than e odd positions, whatever vectors are committed in the later rounds, whatever final polynomial of degree below m and whatever openings are sent, unless two of the byte strings hashed on the way collide. Conversely, if folding with two different challenges per round always ends near a polynomial of degree below m, the vector is near one of degree below 2^R m.", "quantifier": "every finite field with the constants of the code, every domain, number of rounds, vector, error bound; every prover (roots, final coefficients and openings that depend on the position)", "why_tests_cant": "Universal over cheating provers and a counting statement about challenges.", "anchors": ["src/fri/verifier.rs:verify_proof_queries", "src/fri/fri_on_values.rs:proof_from_lde_by_values"]}
{"id": "C59", "title": "The checks of the verifier are sound for arbitrary oracles", "statement": "Take arbitrary column oracles. Suppose that for the coefficient of each constraint and each boundary constraint there are two values for which a prover is accepted: it has an oracle for the composition polynomial such that at (D+1)n+1 points z its claimed openings make the verifier's constraint equation produce a value y, the combination of columns that the verifier computes is, for two values of each of its coefficients, near a polynomial of degree below n, and the quotient of the composition oracle is near one of degree below Dn. Then there is a trace that satisfies the instance, and the column oracles that the verifier reads are near polynomials of degree at most n with the values of that trace. Conversely a prover with a satisfying trace is accepted for all challenges.", "quantifier": "every field with the constants of the code, every supported instance, every pair of domains, sets of positions, error bounds within the unique decoding radius, every column oracle; every prover (openings, composition oracle, polynomials)", "why_tests_cant": "Universal over cheating provers; the conclusion is the existence of a satisfying trace.", "anchors": ["src/verifier/mod.rs:Verifier::verify", "src/verifier/mod.rs:calculate_g_at_z_from_f_at_z", "src/verifier/mod.rs:simulate_h1_from_f_at_z", "src/verifier/mod.rs:simulate_h2_from_g_at_z"]}
{"id": "C60", "title": "Histories of calls on the trace system", "statement": "After any sequence of allocations, constraint and boundary constraint additions, steps and witness computations on a new trace system that does not fail: the registers returned by allocations are pairwise different and exactly the allocated ones; constraints and boundary constraints are recorded in the order of the calls; the step counter is the sum of the steps taken; and if the system converts to an ARP instance, the witness has the column of every allocated register, in order, and the reported number of registers is the number of columns. A call fails only if it is a step of zero rows (an error) or a witness computation; the latter panics if no ordinary register is allocated, and succeeds if one is and every generator returns values for existing columns.", "quantifier": "every field, every finite sequence of calls with every argument, including arbitrary witness generators", "why_tests_cant": "Universal over call histories and over user-supplied closures.", "anchors": ["src/air/test_trace_system.rs:TestTraceSystem", "src/air/mod.rs:TraceSystem", "src/arp/mod.rs:into_arp"]}
{"id": "C61", "title": "FRI rejects as often as the oracle is far", "statement": "Let the layers of a FRI proof be commitments to vectors, with one pair of openings per layer and at most m final coefficients for R layers, and let 3E + 2^R m be at most the number of odd positions. For each layer at most a quarter of its size many challenges are bad, and which ones depends on the layer alone. If the challenge of no layer is bad, then the verifier rejects at more than E odd positions, or all oracle values that it accepts are those of one polynomial of degree below 2^R m, or two of the hashed strings collide. In particular an oracle that differs from every such polynomial at more than E odd positions is rejected at more than E of them.", "quantifier": "every finite field with the constants of the code, every hash function, domain, number of rounds, layers, oracle, openings and final coefficients", "why_tests_cant": "Universal over cheating provers; counts challenges in a field of 252 bits.", "anchors": ["src/fri/verifier.rs:verify_proof_queries", "src/fri/mod.rs:FriIop", "src/fri/fri_on_values.rs:proof_from_lde_by_values"]}
{"id": "C62", "title": "A prover that answers challenges gets away only with few of them", "statement": "Let a prover commit to columns, then answer the constraint challenges with a commitment to a composition column, then the point with claimed openings, then the DEEP coefficients with two FRI proofs. If the columns do not agree with a trace that satisfies the instance at all but 2E1 of the odd positions, then among all lists of challenges (2 per constraint, one point, one coefficient per opening) all but a fraction of ((D+2)n+2)/|F| are such that: two of the hashed strings collide, or a FRI challenge is unlucky, or the verifier's checks reject more than E1 positions of the first or more than E2 positions of the second FRI oracle.", "quantifier": "every finite field with the constants of the code, every hash function, instance, prover strategy and distances within a quarter of the code's", "why_tests_cant": "Universal over cheating provers; counts lists of challenges over a field of 252 bits.", "anchors": ["src/verifier/mod.rs:Verifier::verify", "src/verifier/mod.rs:calculate_g_at_z", "src/verifier/mod.rs:simulate_h1", "src/fri/verifier.rs:verify_proof_queries"]}
{"id": "C63", "title": "Claimed openings are bound by the transcript", "statement": "If the verifier accepts a proof whose commitments are to extensions of polynomials of low degree and whose FRI proofs are made by the prover for polynomials of low degree, then the instance is satisfiable (up to unlucky challenges).", "quantifier": "every field, hash function, supported instance, blow-up factor and proof of that kind", "why_tests_cant": "Universal over provers that follow the protocol except for the openings they claim.", "anchors": ["src/verifier/mod.rs:Verifier::verify", "src/prover/mod.rs:Prover::prove", "src/transcript/mod.rs"]}
{"id": "C64", "title": "The prover's outcome on any witness of the right shape", "statement": "For a supported instance and a witness with one column per register and one value per row, satisfying or not, the prover never panics. It returns an error exactly if the point that the transcript gives after its commitments lies in the extended domain of the composition polynomial, and otherwise a proof that contains these commitments. A witness of another shape never gives a proof: no columns or columns of different lengths panic, another number of columns or rows is an error.", "quantifier": "every field with the constants of the code, hash function, supported instance with any number of densities, witness, blow-up factor above one, final degree below the number of rows, and CPU count for which extensions are right", "why_tests_cant": "Universal over witnesses that violate the constraints, over hash functions and over sizes.", "anchors": ["src/prover/mod.rs:Prover::prove", "src/arp/per_register/mod.rs", "src/ali/per_register/mod.rs"]}
{"id": "C65", "title": "A proof for a wrong witness is accepted only with few challenges", "statement": "With final degree one, a proof made by the prover for a witness of the right shape is accepted if and only if the value the verifier computes from the true openings at the drawn point is the value of one fixed polynomial of degree below D n, which depends on the witness and the constraint challenges only. If the witness does not satisfy the instance, then of the |F|^(2N+1) choices of constraint challenges and point no more than |F|^(2N) ((D+1)n+1) are bad, the bad ones do not depend on the hash function, and the verifier accepts the prover's proof only if the transcript gives a bad choice.", "quantifier": "every (for the counting: finite) field with the constants of the code, hash function, supported instance with any number of densities, witness and CPU count for which extensions are right", "why_tests_cant": "Universal over witnesses and hash functions, and a counting statement over all challenges.", "anchors": ["src/prover/mod.rs:Prover::prove", "src/verifier/mod.rs:Verifier::verify", "src/ali/per_register/mod.rs:calculate_g"]}
{"id": "C66", "title": "The declared fields are fields with the constants the proof system needs", "statement": "Each of the three field declarations of the crate (modulus 257 with generator 3, the 252-bit modulus 2^251 + 17*2^192 + 1 with generator 3, the 255-bit modulus of bn256.rs with generator 7) is right: the modulus is prime, every element but zero is a power of the generator, the derived root of unity is a power of the generator and has order exactly 2^S with p - 1 = 2^S t and t odd, and the derived bit length, capacity and limb count follow from the modulus. Hence, in any field declared this way, there is a domain of 2^k points exactly for k <= S, the coset generator * domain used for low degree extensions differs from the domain unless the domain is the whole multiplicative group, and two integers give the same element exactly when they are congruent modulo p. In each of the three fields every digest is turned into a challenge.", "quantifier": "every field, declared modulus and generator (and the three in the crate); every domain size, integer, digest", "why_tests_cant": "primality of a 255-bit modulus and the order of its generator are statements about 10^76 elements; arithmetic that works on some values does not show that the modulus is prime or that the generator generates", "anchors": ["src/lib.rs: Fr", "src/bn256.rs: Fr", "src/experiments/mod.rs: Fr", "src/domains/mod.rs: Domain::new_for_size", "src/polynomials/mod.rs: Polynomial::coset_lde"]}
{"id": "C67", "title": "Domain sizes and index maps with machine integers", "statement": "With the 64-bit integers of the machine, asking for a domain of at most 2^63 points gives, within 64 iterations, the least power of two that is large enough with a generator of exactly that order, or an error if and only if the field has no such subgroup. Asking for more than 2^63 points panics in a build with overflow checks and never returns in a build without. The integer logarithm returns the exact floor below 2^63 and behaves in the same two ways from 2^63 on. In a domain of 2^(k+1) <= 2^63 points the partner of an index in a pair and the index in the next domain are computed without overflow.", "quantifier": "every field with the constants of the code, build profile, requested size, index, and number of loop iterations", "why_tests_cant": "The statement covers all 64-bit sizes and says that a loop never ends, which no finite run shows.", "anchors": ["src/domains/mod.rs: Domain::new_for_size, coset_for_natural_index_and_size, index_and_size_for_next_domain", "src/utils/mod.rs: log2_floor", "src/fft/multicore.rs: log2_floor", "src/iop/trivial_coset_combiner.rs: get_coset_for_natural_index"]}
{"id": "C68", "title": "The transforms with 32-bit indices and checked array accesses", "statement": "The transforms of the code, with their u32 loop counters, truncating casts, wrapping or checked arithmetic and bounds-checked array accesses, return the values of the polynomial at all powers of the root of unity for every vector of at most 2^31 entries, in both build profiles and, for the entry point that chooses between serial and parallel, on every number of CPUs; the same holds for the sparse kernel of low degree extensions. From 2^32 entries on the serial transform panics in both profiles. For exactly 2^32 entries the result of the entry point therefore depends on the machine: it panics with one CPU and is right with two or more (below 2^32) CPUs.", "quantifier": "every field, vector, root of unity of the right order, build profile, CPU count, and sufficient number of loop iterations", "why_tests_cant": "Vectors near the limit do not fit into a test, and below the limit all vectors and sizes are covered.", "anchors": ["src/fft/fft.rs: best_fft, serial_fft, parallel_fft", "src/fft/lde.rs: serial_lde"]}
{"id": "C69", "title": "The verifier stops on every proof", "statement": "Verification of any proof terminates, also in a build without overflow checks. (False: the two sizes in a FRI proof are multiplied and rounded up to a power of two unchecked. In any accepted proof these two numbers can be changed so that a build without overflow checks never returns and a build with them panics. As long as the product is at most 2^63 the machine gives the answer of the model in 64 iterations, every proof the model accepts is accepted, and without overflow checks only the product modulo 2^64 matters.)", "quantifier": "every field with the constants of the code, hash function, verifier, proof, build profile, and number of loop iterations", "why_tests_cant": "Non-termination for all iteration counts and agreement with the model for all proofs are universal statements.", "anchors": ["src/fri/verifier.rs: verify_proof_queries", "src/verifier/mod.rs: Verifier::verify", "src/domains/mod.rs: Domain::new_for_size"]}
{"id": "C70", "title": "The recursive FFT kernels compute the transform", "statement": "For every vector of 2^L entries with L at least 1, the recursive FFT and LDE kernels (serial, split over any number of CPU bits below L, and as dispatched on any number of CPUs) return the values of the polynomial at the powers of omega, the same as the kernels in use. On a vector of one entry the recursive FFT panics and the recursive LDE returns only if the entry is zero, while the kernels in use return the entry.", "quantifier": "every field, primitive root of order 2^L, vector of 2^L elements, number of CPUs and of CPU bits", "why_tests_cant": "Correctness for all sizes, inputs and splits needs an induction on the recursion.", "anchors": ["src/fft/recursive_fft.rs: best_fft, parallel_fft, recursive_fft, merge_fft, split_even_odd", "src/fft/recursive_lde.rs: best_lde, parallel_lde, recursive_lde, merge_lde"]}
{"id": "C71", "title": "Comparisons, equality of oracles, and keys of the prover's maps", "statement": "The order of the quadratic extension is the lexicographic order of canonical integers, first by the coefficient of u: a strict total order, equal exactly for equal elements. Two oracles compare equal exactly if they were built from the same vector, on whatever numbers of CPUs, unless two of the byte strings hashed for them collide. Two different keys of the prover's maps never feed the same bytes to the hasher, though no tag distinguishes a number of steps from a mask.", "quantifier": "every field with the constants of the code, all extension elements, all vectors and hash functions, all keys whose numbers fit a machine word", "why_tests_cant": "Totality, transitivity and injectivity are statements about all pairs and triples.", "anchors": ["src/experiments/square_root_calculator/fp2.rs: Ord for Fq2", "src/iop/blake2s_trivial_iop.rs: PartialEq for TrivialBlake2sIOP", "src/air/constraint.rs: Hash for StepDifference", "src/ali/mod.rs: MaskProperties, WitnessEvaluationData"]}
{"id": "C72", "title": "A proof does not depend on the machine", "statement": "Making a prover for an instance and proving a witness gives the same answer (the same proof, error or panic) on machines with different numbers of CPUs.", "quantifier": "every instance, witness, blow-up factor, final degree, hash function and pair of CPU counts", "why_tests_cant": "Universal over CPU counts and instances; a test runs on one machine. It fails when the blow-up factor is at least twice the number of CPUs.", "anchors": ["src/prover/mod.rs:Prover::new", "src/prover/mod.rs:Prover::prove", "src/fft/multicore.rs:Worker::new", "src/polynomials/mod.rs:lde"]}
{"id": "C73", "title": "The shape and the size of a proof", "statement": "A proof for n rows, largest degree D, R registers, blow-up factor L and final degree m has R commitments and R openings with log2(n L) siblings each, one opening of the composition polynomial with log2(D n L) siblings, one claimed value per mask, and two FRI proofs, for n and for D n coefficients, with log2(n/m)+1 and log2(D n/m)+1 layers, one root and two openings per layer, in trees that get half as large in each layer, and m final coefficients. With b = log2(D n L) it has at most R(b+1) + 4b^2 + 5b + 1 digests and at most (masks) + R + 4b + 2m + 1 field elements.", "quantifier": "every supported instance with any number of densities, witness, hash function, blow-up factor, final degree and CPU count for which extensions are right", "why_tests_cant": "Universal over sizes; says that proofs stay small for all of them.", "anchors": ["src/prover/mod.rs:Prover::prove", "src/verifier/mod.rs:InstanceProof", "src/fri/query_producer.rs", "src/iop/blake2s_trivial_iop.rs"]}
{"id": "C74", "title": "Challenges and queried positions are evenly distributed", "statement": "A field challenge drawn from the transcript is always one of the 2^CAPACITY smallest elements, and each of these is the result of exactly the same number of hash outputs (2^(256-CAPACITY) of the 2^256). The queried position in a domain of 2^k elements is always odd, and each of the 2^(k-1) odd positions is the result of exactly the same number of hash outputs. This is for fields whose bit length is neither 0 nor 1 modulo 64; for the others all field elements are equally frequent, but at least all but one in 2^63 hash outputs make drawing a challenge panic.", "quantifier": "every field of fewer than 256 bits with the declared constants, every transcript, domain size 2^k with 1 <= k <= 64, positive even blow-up factor, field element and position", "why_tests_cant": "Counts over all 2^256 hash outputs.", "anchors": ["src/transcript/mod.rs:Blake2sTranscript::get_challenge", "src/transcript/mod.rs:Blake2sTranscript::get_challenge_bytes", "src/iop/blake2s_trivial_iop.rs", "src/verifier/mod.rs:bytes_to_challenge_index"]}
{"id": "C75", "title": "Exactly which proofs the verifier accepts", "statement": "For a supported instance the verifier returns Ok(true) exactly for the proofs that satisfy this list, where all challenges are recomputed from the proof by hashing the roots of the columns, the root of the composition polynomial, the last roots and the final coefficients of the two FRI proofs in this order: there is one opening and one root per register; every column opening has a valid path at the first drawn position and the composition opening at the second one; there is a claimed value for every register and row offset that a constraint reads; the drawn point z is not on the trace domain and the denominators at the queried points are not zero; the first FRI proof is accepted for the combination of the column quotients computed from the openings and the claims; the second one for the quotient of the composition polynomial, whose value at z is computed from the claims with every constraint and boundary constraint and its own coefficients.", "quantifier": "every field, hash function, supported instance with any number of densities whose ranges fit the trace, power-of-two blow-up factor, and every proof (honest or not)", "why_tests_cant": "Ranges over all proofs, including every malformed or forged one.", "anchors": ["src/verifier/mod.rs:Verifier::verify", "src/verifier/mod.rs:Verifier::calculate_g_at_z_from_f_at_z", "src/verifier/mod.rs:Verifier::simulate_h1_from_f_at_z", "src/verifier/mod.rs:Verifier::simulate_h2_from_g_at_z", "src/verifier/mod.rs:Verifier::bytes_to_challenge_index", "src/fri/verifier.rs:NaiveFriIop::verify_proof_queries"]}
{"id": "C76", "title": "The verifier's constructor and its own sizes with machine integers", "statement": "If the power of two above the largest declared degree times the power of two above the number of rows is at most 2^63, building a verifier with 64-bit integers gives the same result as with unbounded ones, in debug and release builds; above that no verifier is returned. A verifier computes its extended sizes and the queried positions in 64 bits: if they fit, checking a proof gives the same result as with unbounded sizes; if not, it gives no answer; so no proof is accepted because of a wrap-around, and every proof that the verifier with unbounded integers accepts is accepted in both builds.", "quantifier": "every field, hash function, instance, power-of-two blow-up factor, proof, and both build profiles", "why_tests_cant": "The sizes where the 64-bit product wraps cannot be reached with a real trace in a test, but a declared degree can be any u64.", "anchors": ["src/verifier/mod.rs:Verifier::new", "src/verifier/mod.rs:Verifier::verify", "src/verifier/mod.rs:bytes_to_challenge_index", "src/domains/mod.rs:Domain::new_for_size"]}
{"id": "C77", "title": "Ranges of constraints in debug and release builds", "statement": "In every build, prover and verifier divide a dense constraint with start s and span t on n rows by a polynomial for which exactly the values at the rows s <= i < n - t must be zero. Debug builds panic if s + t > n. In release builds a range inside of the trace is treated the same way; if t <= n < s + t no row is enforced; if t > n all rows of the trace domain from s on are enforced, although the range is empty, and the check of a witness rejects every witness.", "quantifier": "every field, domain, polynomial, start and span up to 2^63, number of rows, evaluation point and witness, both build profiles", "why_tests_cant": "Start and span are arbitrary numbers, and tests run in one build profile only.", "anchors": ["src/verifier/mod.rs:inverse_divisor_for_dense_constraint", "src/ali/per_register/mod.rs:inverse_divisor_for_dense_constraint_in_coset", "src/arp/density_query.rs:DenseConstraintQuery", "src/arp/per_register/mod.rs:verify_witness"]}
{"id": "C78", "title": "Prover constructor with machine integers", "statement": "In every build, if Prover::new returns a prover, its constraints domain has room for the number of rows times the largest declared degree, and it is the prover that exact integers would give. If that product (with the rows rounded up) is above 2^63, a debug build panics or gives an error. A release build computes with the product modulo 2^64; it then can return a prover with a domain that is too small, and of another size than that of the verifier for the same properties.", "quantifier": "every field, instance, LDE factor, final degree and worker, both build profiles", "why_tests_cant": "Degrees and numbers of rows are arbitrary 64-bit numbers, and tests run in one build profile only.", "anchors": ["src/prover/mod.rs:new", "src/ali/per_register/mod.rs:from_arp", "src/arp/per_register/mod.rs:from_instance", "src/domains/mod.rs:new_for_size"]}
{"id": "C79", "title": "Release builds answer what debug builds answer", "statement": "For every input on which a debug build of the logarithm, the domain constructor, the transforms, the FRI verifier, the witness check, the constructors of prover and verifier or the verifier does not panic, a release build gives the same result (value, error or endless loop). What the verifier accepts according to the exact arithmetic is accepted in both builds. The converse fails: with boundary constraints and no constraint of a positive degree a debug build of the verifier panics, and a release build continues with the exponent 2^64 - 1.", "quantifier": "every field, hash function, instance, proof, witness, array, worker and size", "why_tests_cant": "Tests run in one build profile; the agreement is about all inputs in two profiles.", "anchors": ["src/verifier/mod.rs:verify", "src/verifier/mod.rs:calculate_g_at_z_from_f_at_z", "src/prover/mod.rs:new", "src/fri/verifier.rs:verify_proof_queries", "src/fft/fft.rs:best_fft", "src/fft/lde.rs:serial_lde", "src/domains/mod.rs:new_for_size", "src/arp/per_register/mod.rs:is_satisfied"]}
{"id": "C80", "title": "Parts of a proof that have no effect on the verdict", "statement": "Editing only the lists of oracle roots for h1 and h2 of an accepted proof never gives another accepted proof. More generally, which parts of a proof the verdict depends on.", "quantifier": "every field, hash function, verifier, proof and pair of root lists", "why_tests_cant": "That a part of the input has no effect, or that every edit of it is noticed, is a statement about all pairs of proofs.", "anchors": ["src/verifier/mod.rs:verify", "src/fri/verifier.rs:verify_proof_queries", "src/fri/mod.rs:FRIProof"]}
