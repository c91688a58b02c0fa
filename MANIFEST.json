{
 "claims": [
  {
   "property": "C01",
   "status": "proved",
   "theorems": [
    "C01_domain_new"
   ],
   "note": ""
  },
  {
   "property": "C02",
   "status": "proved",
   "theorems": [
    "C02_index_maps",
    "C02_other_sizes_panic"
   ],
   "note": ""
  },
  {
   "property": "C03",
   "status": "proved",
   "theorems": [
    "C03_fft_is_evaluation"
   ],
   "note": ""
  },
  {
   "property": "C04",
   "status": "proved",
   "theorems": [
    "C04_ifft_interpolates",
    "C04_fft_ifft"
   ],
   "note": ""
  },
  {
   "property": "C05",
   "status": "proved",
   "theorems": [
    "C05_coset_fft_is_evaluation",
    "C05_coset_fft_default",
    "C05_icoset_fft",
    "C05_icoset_fft_default"
   ],
   "note": ""
  },
  {
   "property": "C06",
   "status": "proved",
   "theorems": [
    "C06_parallel_equals_serial",
    "C06_parallel_lde_equals_serial"
   ],
   "note": ""
  },
  {
   "property": "C07",
   "status": "proved",
   "theorems": [
    "C07_every_interleaving",
    "C07_chunks",
    "C07_chunk_loop",
    "C07_distribute_powers",
    "C07_each",
    "C07_zip",
    "C07_parallel_fft",
    "C07_fold",
    "C07_interleave",
    "C07_evaluate_at",
    "C07_batch_inversion"
   ],
   "note": "Small-step interleaving semantics with spawning, panicking tasks and joining. Every schedule of tasks with disjoint slices ends, is never stuck and gives the result (or panic) of running the tasks in order; the chunks of a worker are consecutive, disjoint and cover the vector. Instances for the loops of the crate link the schedules to the functions of the model."
  },
  {
   "property": "C08",
   "status": "proved",
   "theorems": [
    "C08_filtering_lde",
    "C08_coset_filtering_lde"
   ],
   "note": ""
  },
  {
   "property": "C09",
   "status": "partial",
   "theorems": [
    "C09_lde_partial",
    "C09_exact",
    "C09_iff",
    "C09_cpu_condition_necessary",
    "C09_refuted"
   ],
   "note": "The full statement is false of the code: with c > 1 CPUs and a factor >= 2c the cosets are computed with wrong shifts (src/polynomials/mod.rs:449-458 starts chunk i at coset_omega^i instead of coset_omega^(i*chunk)). Proved: correct exactly when c = 1 or factor < 2c; a concrete counterexample is C09_refuted. C09_exact says for every number of CPUs and factor what is returned instead; C09_iff: under a violated condition exactly the constant polynomials are extended correctly."
  },
  {
   "property": "C10",
   "status": "partial",
   "theorems": [
    "C10_naive_equals_filtering",
    "C10_cosets_equals_filtering_partial",
    "C10_iff",
    "C10_bad_factor"
   ],
   "note": "The naive and the filtering variants agree always; lde_using_multiple_cosets agrees under the CPU condition of C09, and otherwise exactly for constant polynomials (C10_iff)."
  },
  {
   "property": "C11",
   "status": "proved",
   "theorems": [
    "C11_radix4",
    "C11_radix4_odd",
    "C11_dit"
   ],
   "note": "For every field, vector, primitive root and CPU count: radix 4 (even log sizes; the odd ones panic, as asserted) and DIT with every valid prefix count return the evaluations, as the standard FFT does; serial, parallel and dispatched versions."
  },
  {
   "property": "C12",
   "status": "proved",
   "theorems": [
    "C12_batch_inversion"
   ],
   "note": ""
  },
  {
   "property": "C13",
   "status": "proved",
   "theorems": [
    "C13_evaluate_at",
    "C13_consecutive_powers"
   ],
   "note": ""
  },
  {
   "property": "C14",
   "status": "proved",
   "theorems": [
    "C14_vectors",
    "C14_unary",
    "C14_unary_values",
    "C14_binary_values",
    "C14_binary_coefficients",
    "C14_keeps_consistent"
   ],
   "note": ""
  },
  {
   "property": "C15",
   "status": "partial",
   "theorems": [
    "C15_from_roots_partial",
    "C15_iff",
    "C15_refuted"
   ],
   "note": "The full statement is false of the code because from_roots uses lde: C15_refuted gives seven roots on two CPUs. Proved whenever the last chunk of roots is not too short (always on one CPU); panics on the empty list. C15_iff: for roots outside of the evaluation domain this condition is necessary."
  },
  {
   "property": "C16",
   "status": "proved",
   "theorems": [
    "C16_interpolate",
    "C16_unique"
   ],
   "note": ""
  },
  {
   "property": "C17",
   "status": "proved",
   "theorems": [
    "C17_constructors",
    "C17_from_coeffs_from_values",
    "C17_pad_by_factor",
    "C17_pad_to_size",
    "C17_trim"
   ],
   "note": ""
  },
  {
   "property": "C18",
   "status": "proved",
   "theorems": [
    "C18_degree_one"
   ],
   "note": ""
  },
  {
   "property": "C19",
   "status": "proved",
   "theorems": [
    "C19_merkle_complete",
    "C19_other_lengths"
   ],
   "note": ""
  },
  {
   "property": "C20",
   "status": "proved",
   "theorems": [
    "C20_opening_binding"
   ],
   "note": ""
  },
  {
   "property": "C21",
   "status": "proved",
   "theorems": [
    "C21_opening_of_vector",
    "C21_root_binds_vector"
   ],
   "note": ""
  },
  {
   "property": "C22",
   "status": "partial",
   "theorems": [
    "C22_index_not_checked",
    "C22_refuted",
    "C22_position_partial"
   ],
   "note": "The full statement is false of the code: verify reads the index only modulo 2^(path length) and never compares the path length or index with the size of the tree (src/iop/blake2s_trivial_iop.rs:236-249). Proved: against the root of a committed vector the path length must match and the value is the one at the index modulo the length (C21_opening_of_vector); in-range indices of a vector of distinct values are determined."
  },
  {
   "property": "C23",
   "status": "partial",
   "theorems": [
    "C23_hash_to_field_partial",
    "C23_condition_necessary",
    "C23_refuted",
    "C23_root_challenge",
    "C74_few_answers"
   ],
   "note": "The full statement is false of the code for fields whose bit length is 0 or 1 modulo 64 (the shaving mask is computed from 256 - CAPACITY modulo 64 but applied to the top limb of a representation with fewer limbs); C23_refuted uses the prime 2^64-2^32+1. Proved for all other fields, and the condition is shown to be necessary; without it fewer than one digest in 2^63 is mapped to the field (C74_few_answers)."
  },
  {
   "property": "C24",
   "status": "partial",
   "theorems": [
    "C24_refuted",
    "C24_same_shape_partial",
    "C24_field_elements_partial"
   ],
   "note": "The full statement is false of the code: commit_bytes has no framing. Proved for sequences of one shape and for sequences of field elements of any length."
  },
  {
   "property": "C25",
   "status": "proved",
   "theorems": [
    "C25_challenge_is_hash_of_history",
    "C25_total",
    "C25_fresh_inputs",
    "C25_challenges_bind_history"
   ],
   "note": ""
  },
  {
   "property": "C26",
   "status": "proved",
   "theorems": [
    "C26_fold_poly",
    "C26_fold_layer",
    "C26_prover_layers"
   ],
   "note": "fold_poly b f is f_even + b f_odd; every layer stored by the prover holds its values on the halved domain, for every worker count."
  },
  {
   "property": "C27",
   "status": "partial",
   "theorems": [
    "C27_exact",
    "C27_provers_agree_partial",
    "C27_refuted"
   ],
   "note": "C27_statement is refuted: on two CPUs with LDE factor 4 the layers differ (wrong multi-threaded LDE, see C09). Proved whenever there is one CPU or factor < 2 CPUs. C27_exact: when the prover on values succeeds, the other one gives the same prototype exactly in these cases or when the first folded polynomial is a constant."
  },
  {
   "property": "C28",
   "status": "proved",
   "theorems": [
    "C28_prototype_complete",
    "C28_prover_total"
   ],
   "note": "Odd positions accepted, even positions give an error; the prover returns a prototype when hash-to-field is total."
  },
  {
   "property": "C29",
   "status": "partial",
   "theorems": [
    "C29_acceptance",
    "C29_complete_partial",
    "C29_refuted"
   ],
   "note": "Refuted for output degree above 1 (the verifier folds once more than the prover); proved for output degree 1; exact acceptance condition for every output degree."
  },
  {
   "property": "C30",
   "status": "proved",
   "theorems": [
    "C30_verify_exact",
    "C30_oracle_value",
    "C30_committed_oracle"
   ],
   "note": "Acceptance is equivalent to the independent predicate accepts; the oracle value is the committed leaf or two of the strings hashed for the tree and the openings collide."
  },
  {
   "property": "C31",
   "status": "partial",
   "theorems": [
    "C31_any_vector_accepted",
    "C31_refuted",
    "C31_fold_chain_partial",
    "C31_two_challenges_partial"
   ],
   "note": "C31_statement is refuted: the verifier checks neither the number of rounds nor of final coefficients, so every vector is accepted for every claimed degree. Proved: the folding chain for fixed rounds, and degree doubling from two challenges. The step over random challenges, with the missing checks as hypotheses, is C58 and C61."
  },
  {
   "property": "C32",
   "status": "proved",
   "theorems": [
    "C32_challenge_index",
    "C32_index_of_challenge"
   ],
   "note": ""
  },
  {
   "property": "C33",
   "status": "partial",
   "theorems": [
    "C33_degree",
    "C33_builder_partial",
    "C33_pow_keeps_coefficient",
    "C33_total",
    "C33_refuted",
    "C33_exact",
    "C33_univariate_iff",
    "C33_polyvariate_iff"
   ],
   "note": "Degree bookkeeping for every builder program, value for programs that apply pow to terms with coefficient one. The full statement is refuted: UnivariateTerm::pow keeps the coefficient, so pow of 2x is 2x^2 (C33_refuted). C33_exact gives the value for every program, and the two _iff theorems say for which terms it is the intended one."
  },
  {
   "property": "C34",
   "status": "proved",
   "theorems": [
    "C34_is_satisfied",
    "C34_error_iff_violated",
    "C34_densities"
   ],
   "note": "Ok iff satisfied, for every instance and trace; Err iff violated when all cells are in the trace."
  },
  {
   "property": "C35",
   "status": "proved",
   "theorems": [
    "C35_witness_polynomials",
    "C35_remap_total",
    "C35_masks_are_shifts",
    "C35_shift_wraps"
   ],
   "note": "For every CPU count and every trace whose length is a domain size."
  },
  {
   "property": "C36",
   "status": "proved",
   "theorems": [
    "C36_verifier_divisor",
    "C36_divisor_rows",
    "C36_prover_verifier_agree"
   ],
   "note": "Exact result of the verifier's inverse divisor at every point, its zeros, and agreement with every entry of the prover's table on the coset, for all row ranges that fit the trace domain."
  },
  {
   "property": "C37",
   "status": "partial",
   "theorems": [
    "C37_composition_partial",
    "C37_refuted",
    "C37_exact",
    "C37_right_iff",
    "C37_two_densities"
   ],
   "note": "Proved for every satisfied instance whose constraints all have the same density and for CPU counts with a correct LDE (C09). The full statement (any number of densities) is false of the code: C37_refuted gives two constraints with different densities on four rows where calculate_g returns another polynomial. C37_exact says for every instance, witness and number of densities what is returned, C37_right_iff when it is the right polynomial, and C37_two_densities that with two densities this needs the first numerator to vanish on the coset or the weights of the second batch to add up to minus one."
  },
  {
   "property": "C38",
   "status": "partial",
   "theorems": [
    "C38_verifier_value",
    "C38_same_value_partial",
    "C38_refuted"
   ],
   "note": "Verifier side proved for any number of densities; equality with the prover's g(z) for a single density. With two densities the values differ (C38_refuted)."
  },
  {
   "property": "C39",
   "status": "proved",
   "theorems": [
    "C39_quotient",
    "C39_deep"
   ],
   "note": "For all polynomials, value tables, masks and transcripts: exact result of calculate_deep (error exactly when a point is in a domain), degrees of h1 and h2, and agreement with the verifier's simulation at every position."
  },
  {
   "property": "C40",
   "status": "partial",
   "theorems": [
    "C40_completeness_partial",
    "C40_refuted_cpus",
    "C40_refuted_output",
    "C40_refuted_densities",
    "C40_any_densities",
    "C40_two_densities"
   ],
   "note": "The full statement C40_statement is false of the code, with three independent counterexamples on the 4-row squaring instance: two CPUs with LDE factor 4 (parallel LDE bug), final degree 2 (FRI), two densities. Proved: for every supported instance and satisfying witness, when prove returns a proof, verify accepts it, for one CPU or a blow-up and degree below twice the number of CPUs, and final degree 1. With any number of densities (C40_any_densities) the proof is accepted if and only if the right and the computed composition agree at the drawn point; with two densities (C40_two_densities) fewer than D n points accept unless the condition of C37_two_densities holds."
  },
  {
   "property": "C41",
   "status": "partial",
   "theorems": [
    "C41_forgery",
    "C41_refuted"
   ],
   "note": "False of the code: C41_forgery shows that commitments to arbitrary vectors can be completed to an accepted proof for every well-formed instance, satisfiable or not, unless z falls in the evaluation domain. The cause is that the FRI verifier takes the number of rounds and of final coefficients from the proof. C41_refuted: accepted proof for an instance with contradictory boundary constraints."
  },
  {
   "property": "C42",
   "status": "partial",
   "theorems": [
    "C42_openings",
    "C42_no_missing_value",
    "C42_extra_values_ignored",
    "C42_refuted"
   ],
   "note": "Proved for every verifier and proof: an accepted proof has one opening per register, all openings verify under their roots at the challenged indices, and no claimed value is missing. A list that is longer than the list of masks is not rejected: extra values are ignored (C42_extra_values_ignored, C42_refuted)."
  },
  {
   "property": "C43",
   "status": "partial",
   "theorems": [
    "C43_exact",
    "C43_fri_exact",
    "C43_no_panic_partial",
    "C43_no_roots",
    "C43_no_rounds",
    "C43_small_domain",
    "C43_refuted"
   ],
   "note": "False of the code: empty root lists, FRI proofs without rounds and FRI proofs that claim a too small domain panic. Proved: on every supported instance no other proof panics, i.e. none with non-empty root lists and FRI proofs that claim at least the domain of the instance and have at least one round. C43_exact says exactly which proofs panic, C43_fri_exact the same for a FRI proof."
  },
  {
   "property": "C44",
   "status": "proved",
   "theorems": [
    "C44_challenges",
    "prove_erase"
   ],
   "note": "For every instance, witness, hash function, number of CPUs, LDE factor and output degree: whenever the prover finishes, the verifier exists and draws from the proof exactly the logged challenges and indices. prove_erase shows that the prover with the log is the prover of the model."
  },
  {
   "property": "C45",
   "status": "partial",
   "theorems": [
    "C45_same_precomputation_partial",
    "C45_verifier_exists",
    "C45_refuted"
   ],
   "note": "All precomputed data agree for every instance except the constraint domain, which agrees exactly when the largest degree is positive or there is at most one row; C45_refuted is an instance without constraints."
  },
  {
   "property": "C46",
   "status": "proved",
   "theorems": [
    "C46_generated_witness",
    "C46_satisfying_traces"
   ],
   "note": "For every number of steps and every claimed value."
  },
  {
   "property": "C47",
   "status": "proved",
   "theorems": [
    "C47_witness",
    "C47_satisfying_traces"
   ],
   "note": "Powers are stated in F[X]/(X^2+1) with polynomial division; the converse holds for traces of any length and origin."
  },
  {
   "property": "C48",
   "status": "partial",
   "theorems": [
    "C48_witness",
    "C48_satisfying_traces_partial",
    "C48_last_row_free",
    "C48_refuted"
   ],
   "note": "The witness satisfies the instance; in every satisfying trace the element columns are start^(3^i) in all rows, hence the last row is start^(3^n). The squaring columns are forced in all rows but the last: there any value is accepted (C48_last_row_free), so the literal \"exactly these values\" (C48_statement) is refuted."
  },
  {
   "property": "C49",
   "status": "partial",
   "theorems": [
    "C49_ring",
    "C49_eq",
    "C49_sparse",
    "C49_inverse",
    "C49_norm_partial",
    "C49_norm_refuted",
    "C49_sqrt",
    "C49_code_consts",
    "C49_sqrt_code",
    "C49_legendre_refuted"
   ],
   "note": "Ring operations, sparse products, inverse and square root (sound, complete, no panic) are proved in F[X]/(X^2-beta), for every field with suitable constants and for the actual 252 bit field with the literal limbs of the source (primality and the constants are checked in the kernel). \"norm is multiplicative\" is refuted: the code returns c0^2 + beta*c1^2, with the wrong sign, so norm and the Legendre symbol built on it are wrong outside the base field (C49_norm_refuted, C49_legendre_refuted); C49_norm_partial says exactly where norm is right."
  },
  {
   "property": "C50",
   "status": "proved",
   "theorems": [
    "C50_identity",
    "C50_diagonal",
    "C50_vector",
    "C50_vector_size",
    "C50_powers",
    "C50_generators"
   ],
   "note": "Matrix queries against block matrices, vector queries against the tensor product of vectors (out of range indices panic), and the generators of the two parts."
  },
  {
   "property": "C51",
   "status": "partial",
   "theorems": [
    "C51_remapping_partial",
    "C51_needs_witness",
    "C51_refuted"
   ],
   "note": "Injectivity, columns, values and boundary constraints are proved. The reported number of registers counts ordinary registers only; this part is refuted and characterised (equal iff no other kinds are allocated)."
  },
  {
   "property": "C52",
   "status": "proved",
   "theorems": [
    "C52_log2_floor"
   ],
   "note": ""
  },
  {
   "property": "C53",
   "status": "proved",
   "theorems": [
    "C53_precomputed_powers"
   ],
   "note": ""
  },
  {
   "property": "C54",
   "status": "partial",
   "theorems": [
    "C54_refuted_rows",
    "C54_refuted_degree",
    "C54_refuted_proof",
    "C54_rows_panic",
    "C54_shape_rejected",
    "C54_no_proof_partial"
   ],
   "note": "The full statement (C54_statement) is false of the code and refuted: with three rows and a matching witness, and with a constraint of degree three, the prover panics; with a constraint of degree three without terms a proof comes out. Proved: for a number of rows that is not a power of two every witness of the right shape panics, a witness of another shape is an error, and no proof ever comes out; for a degree that is not a power of two no proof comes out if there is a boundary constraint or a term."
  },
  {
   "property": "C55",
   "status": "proved",
   "theorems": [
    "C55_same_fft",
    "C55_lde_evaluates",
    "C55_fft_evaluates"
   ],
   "note": "Prefetch instructions are modelled as no-ops; the unrolled loops and the sparse butterflies of the extension kernel are modelled as written."
  },
  {
   "property": "C56",
   "status": "proved",
   "theorems": [
    "C56_constraint",
    "C56_boundary",
    "C56_all",
    "C56_honest"
   ],
   "note": "Special soundness of the random linear combination, stated about the function of the verifier. Openings are the true values of the committed columns; that openings can be trusted is C57 (DEEP) and C58 (FRI folding)."
  },
  {
   "property": "C57",
   "status": "proved",
   "theorems": [
    "C57_columns",
    "C57_composition",
    "C57_unique"
   ],
   "note": "Stated about the functions of the verifier, for arbitrary oracles."
  },
  {
   "property": "C58",
   "status": "proved",
   "theorems": [
    "C58_tree",
    "C58_count",
    "C58_fri_soundness"
   ],
   "note": "The number of openings and of final coefficients, which the verifier does not check (C31), are hypotheses; positions are the odd ones, since the verifier only accepts those."
  },
  {
   "property": "C59",
   "status": "proved",
   "theorems": [
    "C59_iop_soundness",
    "C59_honest"
   ],
   "note": "Puts C56 and C57 together. That the quantities are near polynomials of low degree is what FRI checks (C58). The degree slack of one (degree at most n rather than below n) is that of the DEEP quotient in the code."
  },
  {
   "property": "C60",
   "status": "partial",
   "theorems": [
    "C60_handles",
    "C60_recorded",
    "C60_fails",
    "C60_succeeds",
    "C60_no_auxiliary_columns",
    "C60_columns_partial",
    "C60_refuted"
   ],
   "note": "Handles, recording and step counting are proved for every history. C60_fails and C60_succeeds say which calls can fail. The claim that a conversion gives every register its own column is false: C60_refuted is a history with one auxiliary register, whose column in the witness is one that was never written to it. Proved for disciplined histories (ordinary registers only, two of them before the first witness computation, generators that write to allocated registers); every history with two or more auxiliary or constant registers fails to convert."
  },
  {
   "property": "C61",
   "status": "proved",
   "theorems": [
    "C61_few_bad",
    "C61_chain",
    "C61_few_bad_layer",
    "C61_fri_soundness",
    "C61_rejects"
   ],
   "note": "Strengthens C58: the fraction of rejected positions is the distance of the oracle (within a third of the distance of the code), with no loss per round, and the set of bad challenges of a layer depends only on that layer, as the challenge in the code does. The number of rounds, openings and final coefficients, which the verifier does not check (C31), are hypotheses."
  },
  {
   "property": "C62",
   "status": "proved",
   "theorems": [
    "C62_constraint_challenges",
    "C62_points",
    "C62_masks",
    "C62_soundness"
   ],
   "note": "Puts C56, C57, C61 together for a prover that answers challenges one after the other: the first three count the bad challenges of each round, C62_soundness counts the challenge lists with which the prover gets away. The order of the messages is the interactive one, in which the claimed openings are fixed before the DEEP coefficients are drawn; the transcript of the code does not enforce that (C63). The shapes that the verifier does not check (C31, number of claims) are hypotheses, and unlucky FRI challenges, which C61_few_bad_layer counts, are excluded."
  },
  {
   "property": "C63",
   "status": "partial",
   "theorems": [
    "C63_absorbed",
    "C63_known_early",
    "C63_line",
    "C63_false_claims",
    "C63_refuted"
   ],
   "note": "The claimed openings are never absorbed into the transcript, so a prover knows the point and all DEEP coefficients before claiming anything (C63_absorbed, C63_known_early). C63_refuted: a contradictory instance with two registers has an accepted proof whose commitments are all to polynomials of low degree and whose FRI proofs are outputs of the FRI prover of the code, so this is independent of the missing degree checks of C31 and C41. C63_false_claims says for all instances and challenges which false claims get through; C63_line shows that whenever two cells are opened at the same point there is a line of them. What holds when the claims come before the coefficients is C62."
  },
  {
   "property": "C64",
   "status": "proved",
   "theorems": [
    "C64_prover_outcome",
    "C64_shapes"
   ],
   "note": "Extends C44 and C40 from satisfying witnesses to all witnesses: the division by the constraint divisors is done pointwise on a coset, so it never fails on a wrong witness. The instance may have any number of densities; the CPU count is one for which the extensions are right (C09, C40)."
  },
  {
   "property": "C65",
   "status": "proved",
   "theorems": [
    "C65_exact",
    "C65_wrong_witness"
   ],
   "note": "The counterpart of C40 for the prover of the code on wrong witnesses; for arbitrary provers see C62. C65_exact holds for every witness and any number of densities, and says what the fixed polynomial is. The final degree is one because of C29. reads_fit says that the constraints read inside of the trace at the rows where they apply."
  },
  {
   "property": "C66",
   "status": "proved",
   "theorems": [
    "C66_fields",
    "C66_roots",
    "C66_coset",
    "C66_arithmetic",
    "C66_challenges"
   ],
   "note": "Primality and the order of the generators are checked by a Lehmer certificate (complete factorisation of p - 1, addition chains with the quotients given), evaluated in the kernel; the factors are certified recursively. SpecField.v says what a declaration means. Not covered: the Montgomery arithmetic that the derive macro generates."
  },
  {
   "property": "C67",
   "status": "proved",
   "theorems": [
    "C67_domain",
    "C67_domain_forever",
    "C67_log2",
    "C67_log2_forever",
    "C67_pairs"
   ],
   "note": "M_Words.v models the size and index computations with 64- and 32-bit integers in both build profiles; a loop that has not ended within the given number of iterations is None."
  },
  {
   "property": "C68",
   "status": "proved",
   "theorems": [
    "C68_fft",
    "C68_lde",
    "C68_serial_limit",
    "C68_depends_on_cpus"
   ],
   "note": "M_Words.v models serial_fft, serial_lde, parallel_fft and best_fft with u32 counters, casts and bounds-checked arrays. In parallel_fft the indices of the two shuffles, which are below the length, are taken from the model with natural numbers. C68_depends_on_cpus qualifies C03 at 2^32 entries."
  },
  {
   "property": "C69",
   "status": "partial",
   "theorems": [
    "C69_refuted",
    "C69_hang",
    "C69_panic",
    "C69_small_partial",
    "C69_accepts_partial",
    "C69_release_partial"
   ],
   "note": "Refuted as stated: C69_hang takes any accepted proof and changes two numbers. What holds is C69_small_partial (products up to 2^63: the answer of the model), C69_accepts_partial (accepted proofs are accepted by the machine) and C69_release_partial (without overflow checks the product modulo 2^64 decides). Sizes that the verifier computes from its own instance are natural numbers."
  },
  {
   "property": "C70",
   "status": "proved",
   "theorems": [
    "C70_recursive_fft",
    "C70_recursive_lde",
    "C70_one_entry"
   ],
   "note": "M_FftRec.v models recursive_fft.rs and recursive_lde.rs, which are in the repository but not compiled."
  },
  {
   "property": "C71",
   "status": "proved",
   "theorems": [
    "C71_order_lexicographic",
    "C71_order_total",
    "C71_oracles",
    "C71_keys_distinct"
   ],
   "note": "M_Compare.v. The order of the base field is that generated by the ff crate (canonical integers). Equality of oracles compares roots only, so a collision is the only way to be wrong."
  },
  {
   "property": "C72",
   "status": "partial",
   "theorems": [
    "C72_new",
    "C72_same_proof_partial",
    "C72_refuted"
   ],
   "note": "The preparation (Prover::new) is the same on every machine (C72_new). The full statement C72_statement is refuted: on two CPUs with blow-up factor four the squaring instance gets another answer than on one CPU. Proved for supported instances with any number of densities, all witnesses (also wrong ones and ones of another shape) and all pairs of CPU counts for which extensions are right (C09)."
  },
  {
   "property": "C73",
   "status": "proved",
   "theorems": [
    "C73_shape",
    "C73_size"
   ],
   "note": "For every witness for which the prover of the code returns a proof."
  },
  {
   "property": "C74",
   "status": "proved",
   "theorems": [
    "C74_challenges_uniform",
    "C74_challenges_uniform_any",
    "C74_few_answers",
    "C74_positions_uniform",
    "C74_transcript_challenge",
    "C74_transcript_position"
   ],
   "note": "Counts all digests; the hash function is arbitrary, so this says that the challenges are as evenly distributed as the outputs of the hash."
  },
  {
   "property": "C75",
   "status": "proved",
   "theorems": [
    "C75_accepts_iff",
    "C75_masks",
    "C75_constraints"
   ],
   "note": "The openings that have to be claimed and the order of the constraints are given by C75_masks and C75_constraints. Decoding of a digest to a field element is assumed not to panic (see C23, C74)."
  },
  {
   "property": "C76",
   "status": "partial",
   "theorems": [
    "C76_new_fits",
    "C76_new_debug",
    "C76_new_release",
    "C76_new_release_rows",
    "C76_new_model",
    "C76_verify_fits",
    "C76_verify_large",
    "C76_no_false_accept",
    "C76_accepts",
    "C76_refuted"
   ],
   "note": "False for the constructor in a release build (C76_refuted): the product of the two powers of two wraps to 0 and Verifier::new returns a verifier whose constraints domain has one point (C76_new_release), where a debug build panics or gives an error (C76_new_debug) and unbounded integers give an error (C76_new_model). The part about checking proofs holds (C76_verify_fits, C76_verify_large, C76_no_false_accept, C76_accepts)."
  },
  {
   "property": "C77",
   "status": "partial",
   "theorems": [
    "C77_debug",
    "C77_release_fits",
    "C77_release_value",
    "C77_enforced",
    "C77_release_rows",
    "C77_prover_verifier_agree",
    "C77_checker",
    "C77_checker_builds",
    "C77_rows_partial",
    "C77_refuted"
   ],
   "note": "The first sentence is false of release builds (C77_refuted): num_rows - span wraps, and a constraint with a span above the number of rows is enforced at all rows from its start on. C77_rows_partial: it holds in debug builds and for spans up to the number of rows. C77_release_value, C77_enforced and C77_release_rows say what a release build enforces, C77_checker and C77_checker_builds that its witness check never succeeds and where it returns an error on such an instance."
  },
  {
   "property": "C78",
   "status": "partial",
   "theorems": [
    "C78_new_fits",
    "C78_new_debug",
    "C78_new_release",
    "C78_room_partial",
    "C78_refuted",
    "C78_differ"
   ],
   "note": "The room for the constraints is false of release builds (C78_refuted): the product of trace size and largest degree wraps. C78_room_partial: it holds in debug builds and when the product is below 2^64. C78_new_release gives the size in a release build, C78_differ an instance where prover and verifier get different domains there."
  },
  {
   "property": "C79",
   "status": "proved",
   "theorems": [
    "C79_log2",
    "C79_domain",
    "C79_fft",
    "C79_lde",
    "C79_fri",
    "C79_witness_check",
    "C79_verifier_new",
    "C79_prover_new",
    "C79_g_at_z",
    "C79_verify",
    "C79_same_builds",
    "C79_accepts",
    "C79_release_boundary",
    "C79_converse_fails"
   ],
   "note": "unless_panic x y: the debug result x is a panic, or the release result y is x (also for computations that do not end). C79_same_builds names the instances on which the value of the composition polynomial and the verdict are those of the models used elsewhere, C79_converse_fails and C79_release_boundary what happens otherwise."
  },
  {
   "property": "C80",
   "status": "partial",
   "theorems": [
    "C80_fri",
    "C80_same_verdict",
    "C80_roots_ignored",
    "C80_claimed_degree",
    "C80_last_roots_partial",
    "C80_refuted"
   ],
   "note": "The first sentence is false (C80_refuted): all roots of h1 and h2 except the last are never read, nor compared with those of the FRI proofs. C80_last_roots_partial: an accepted proof has both lists, and any lists with the same last roots are accepted. C80_same_verdict lists the parts without effect on the verdict: values beyond the masks, these roots, and in a FRI proof the number of output coefficients, the claimed degree and factor beyond their product (C80_claimed_degree) and roots without openings."
  }
 ]
}