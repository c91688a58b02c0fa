# Formal model of matter-labs/hodor: design

## 1. What is modelled, in general terms

The model is a set of total, computable Gallina functions written over an
arbitrary mathcomp `fieldType` `F` with the parameters the Rust code takes from
the `ff` crate (record `ff_params` in `M_Field.v`: root of unity, `S`,
multiplicative generator, modulus, representation).  Two hypotheses about these
parameters are used: `ff_ok` (the root of unity is a primitive 2^S-th root,
the generator is not zero, the characteristic is not two) and `ff_repr_ok`
(`into_repr`/`from_repr` are inverse bijections with the numbers below the
modulus).  Both are shown to hold for a concrete field with 257 elements
(`Instances.v`), and for the field of the experiments with its literal
constants (`Fr251.v`, modulus 2^251 + 17*2^192 + 1, primality certified in the
kernel) and the field of `bn256.rs` (`Fr255.v`).  `SpecField.v` says what a declaration
by a modulus and a generator means, and C66 derives the hypotheses from it.

`Vec<F>` and `&mut [F]` are `seq F`; in-place loops are folds that return the
new array.  Every fallible or panicking function returns

    Inductive outcome A := Ok (a : A) | Err | Panic.

`Err` is the `Result::Err` of the code (the error payload is not modelled),
`Panic` is any `assert!`, `unwrap`, `expect`, `unreachable!`, `unimplemented!`,
out-of-bounds index or arithmetic underflow of the code (debug-build
semantics).  `usize`/`u64`/`u32` are unbounded `nat`s, except in `M_Words.v`,
`M_WordsFri.v`, `M_WordsNew.v`, `M_WordsRange.v`, `M_WordsProver.v` and
`M_WordsEval.v`, which model the size and index computations, the transforms, the FRI verifier, the constructors and
sizes of prover and verifier and the ranges of constraints with machine integers in debug and release builds.

`Worker` is its CPU count.  Every `worker.scope` loop is modelled with its real
chunking in the sequential model.  `M_Sched.v` gives an interleaving semantics
of spawned tasks (each task reads and writes single cells, any task may move at
any time), `M_SchedLoops.v` writes the loops of the code as sets of such tasks,
and `Prop_Sched.v` (C07) proves that every execution ends in the array that the
sequential model computes.

The Blake2s functions are parameters (arbitrary functions from byte strings to
32-byte strings).  Nothing is assumed about them.  Statements that need
collision resistance are stated as "or two of these byte strings collide", with the
list of strings that were hashed (`collision_among`); that some collision exists is
true of every hash function (`collisions_exist` in Prop_Hash.v).

### Files (rocq/theories)

* `M_Base`, `M_Field`, `M_Worker`, `M_Bytes`: outcomes, field parameters, CPU chunking, byte strings.
* `M_Domain`: src/domains.  `M_Fft`: src/fft/fft.rs, lde.rs, mod.rs.  `M_FftAlt`: radix4_fft, dit_fft.
  `M_Prefetch`: prefetch_fft.rs, prefetch_lde.rs (feature "nightly").
* `M_Poly`: src/polynomials, src/precomputations.  `M_PolyUtils`: src/utils/poly.rs.
* `M_Merkle`, `M_Transcript`: src/iop, src/transcript.  `M_Fri`: src/fri.
* `M_Air`, `M_Arp`, `M_TraceSys`: src/air, src/arp.  `M_Ali`: src/ali.
* `M_Challenge`, `M_Verifier`: src/verifier.  `M_Prover`, `M_ProverLog`: src/prover (the second one is the first
  one instrumented with a log of its challenges, proved to have the same result).
* `M_Vdf`, `M_Fp2`, `M_Tensor`: src/experiments.
* `M_Sched`, `M_SchedLoops`: interleavings of the worker loops.
* `Spec*.v`: vocabulary in which the properties are stated (evaluation of a vector as a polynomial, Merkle tree as a
  recursive function, satisfaction of an instance by a trace, composition polynomial, ...).  The defining
  parts of these specifications use the data types of the model but none of its functions, except that `SpecFri.v` and
  `SpecVerify.v` use the check of a Merkle path, the byte encodings and the construction of a domain, which have their
  own properties (C01, C19-C24).
* `P_*.v`: lemmas.  `Prop_*.v`: the property theorems `Cxx_...`, with examples `Cxx_ex...` that meet the hypotheses and
  with `Print Assumptions`.

## 2. Properties

Properties that the code violates are kept in their full form
(`Definition Cxx_statement`); the theorem is then a `Cxx_refuted` theorem giving
a concrete violation, together with the strongest positive version that we
could prove (suffix `_partial`).  Such a property has status "partial".

| id | title | status | file | method |
|----|-------|--------|------|--------|
| C01 | Evaluation domain construction | proved | `Prop_Domain.v` | order of successive squares of a primitive 2^S-th root |
| C02 | Coset and next-domain index maps | proved | `Prop_Domain.v` | arithmetic modulo n, w^(n/2) = -1 |
| C03 | FFT is polynomial evaluation | proved | `Prop_Fft.v` | stage invariant: block b after stage s is the transform of a stride subsequence; serial and parallel kernel |
| C04 | Inverse FFT inverts FFT | proved | `Prop_Fft.v` | orthogonality of the powers of a primitive root |
| C05 | Coset FFT and its inverse | proved | `Prop_Fft.v` | C03/C04 composed with the scaling of the coefficients |
| C06 | Parallel FFT equals serial FFT | proved | `Prop_Fft.v` | both kernels equal the transform |
| C07 | Chunked worker loops are schedule independent | proved | `Prop_Sched.v` | small-step interleaving semantics of the spawned closures; commutation of steps on disjoint cells; induction on executions |
| C08 | Filtering (zero-padded) LDE | proved | `Prop_Fft.v` | zero-pattern invariant: the skipping butterflies equal the full ones |
| C09 | lde / coset_lde evaluate on the extended domain | partial | `Prop_Fft.v`, `Prop_LdeExact.v` | closed form of every chunk; the full statement is refuted (wrong start of chunk), the exact CPU condition is proved |
| C10 | All LDE variants agree | partial | `Prop_Fft.v`, `Prop_LdeExact.v` | corollaries of C08, C09 |
| C11 | Alternative FFT kernels compute the same transform | proved | `Prop_FftAlt.v` | stage invariants of the radix 4 and of the pruned decimation-in-time loops |
| C12 | Batch inversion | proved | `Prop_PolyOps.v` | prefix products per chunk, two passes |
| C13 | Point evaluation | proved | `Prop_PolyOps.v` | sum over chunks, permutation invariance of the order of arrival |
| C14 | Pointwise arithmetic | proved | `Prop_PolyOps.v` | map characterisation of the chunked loops |
| C15 | from_roots builds the vanishing polynomial | partial | `Prop_LdeExact.v`, `Prop_PolyOps.v` | products of linear factors in evaluation form, C09 |
| C16 | Lagrange interpolation | proved | `Prop_PolyOps.v` | Lagrange basis, uniqueness by counting roots |
| C17 | Padding, trimming and size bookkeeping | proved | `Prop_PolyOps.v` | direct |
| C18 | Degree-one evaluation over a domain | proved | `Prop_PolyOps.v` | geometric progressions |
| C19 | Merkle commitment completeness | proved | `Prop_Hash.v` | induction on tree levels |
| C20 | Merkle opening binding | proved | `Prop_Hash.v` | induction on the path, a collision is extracted |
| C21 | Merkle root binds the whole vector | proved | `Prop_Hash.v` | induction on tree levels, a collision is extracted |
| C22 | A Merkle opening determines its position | partial | `Prop_Hash.v` | counterexample; what does hold is proved from C21 |
| C23 | Hash-to-field never fails | partial | `Prop_Hash.v`, `Prop_Uniform.v` | bounds of the shaved representation; necessary and sufficient condition on the field |
| C24 | Transcript framing | partial | `Prop_Hash.v` | counterexample (no framing); injectivity for one shape |
| C25 | Transcript challenges depend on everything absorbed | proved | `Prop_Hash.v` | the transcript as one growing byte string |
| C26 | FRI folding step | proved | `Prop_Fri.v` | even/odd split of a polynomial |
| C27 | FRI prover by values and through coefficients agree | partial | `Prop_Fri.v`, `Prop_FriExact.v` | induction on rounds; refuted because of C09 |
| C28 | FRI prototype completeness | proved | `Prop_Fri.v` | induction on rounds |
| C29 | FRI proof completeness | partial | `Prop_Fri.v` | induction on rounds; refuted for output degree > 1 |
| C30 | FRI proof is checked against the oracle value | proved | `Prop_Fri.v` | inversion of the verifier loop |
| C31 | FRI rejects functions of too high degree | partial | `Prop_Fri.v` | forgery computed for all vectors; algebra of two foldings |
| C32 | Challenge index selection | proved | `Prop_Fri.v` | modular arithmetic |
| C33 | Constraint builder semantics and degree bookkeeping | partial | `Prop_Air.v`, `Prop_Builder.v` | induction over builder programs |
| C34 | is_satisfied is exactly constraint satisfaction | proved | `Prop_Air.v` | loop characterisation of is_satisfied |
| C35 | Witness polynomials interpolate the trace | proved | `Prop_Arp.v` | C04, shift = multiplication of the argument |
| C36 | Dense divisor | proved | `Prop_Ali.v` | factorisation of X^n - 1 |
| C37 | ALI composition polynomial | partial | `Prop_Ali.v`, `Prop_Densities.v` | values on the coset determine the polynomial (C04, C05); refuted for two densities; P_AliMany.v: what is returned for any number of densities |
| C38 | Verifier recomputes g(z) from the claimed openings | partial | `Prop_Ali.v` | evaluation of the composition polynomial |
| C39 | DEEP quotients | proved | `Prop_Ali.v` | synthetic division by X - a |
| C40 | End-to-end completeness | partial | `Prop_Densities.v`, `Prop_Stark.v` | composition of C03-C39 with Merkle and FRI completeness |
| C41 | End-to-end soundness | partial | `Prop_Verify.v` | forgery: every commitment can be completed to an accepted proof |
| C42 | Verifier binds the claimed openings | partial | `Prop_Verify.v` | inversion of verify |
| C43 | Verifier is total | partial | `Prop_Panic.v`, `Prop_Verify.v` | case analysis of verify; counterexamples for the panics |
| C44 | Prover and verifier draw the same challenges | proved | `?`, `Prop_Challenges.v` | simulation: an instrumented prover logs its challenges |
| C45 | Verifier precomputation matches the prover | partial | `Prop_Ali.v` | both sides equal the same closed form |
| C46 | Fibonacci AIR | proved | `Prop_Air.v` | induction on the number of steps |
| C47 | VDF instance | proved | `Prop_Vdf.v` | induction on the number of steps in F[X]/(X^2 - r) |
| C48 | Cubic VDF instance | partial | `Prop_Vdf.v` | induction on the number of steps; counterexample for the free last row |
| C49 | Quadratic extension arithmetic | partial | `Prop_Fp2.v` | identities in F[X]/(X^2 - beta); Tonelli-Shanks style argument for sqrt; the 252 bit prime is certified in the kernel |
| C50 | Tensor LDE queries | proved | `Prop_Tensor.v` | index arithmetic, iterated sums |
| C51 | Register remapping | partial | `Prop_Air.v` | injectivity of the register map; counter refuted |
| C52 | log2_floor and index arithmetic | proved | `Prop_Domain.v` | binary logarithm |
| C53 | Precomputed powers | proved | `Prop_Domain.v` | closed form of the loops |
| C54 | Malformed instances are rejected without a panic | partial | `Prop_Malformed.v` | case analysis of the prover; counterexamples for the panics |
| C55 | Prefetching kernels compute the same transforms | proved | `Prop_Prefetch.v` | loop peeling; bounds of the prefetched indices; the early end of the bit reversal only skips swaps of zeros |
| C56 | The verifier's equation at z is sound | proved | `Prop_Sound.v` | the combination times X^n-1 is a polynomial identity by counting roots; the difference of two of them isolates one quotient, whose divisor must divide the constraint polynomial up to a power of X |
| C57 | The DEEP check binds the claimed openings | proved | `Prop_SoundDeep.v` | difference of the two simulated values isolates one quotient; multiply out |
| C58 | FRI folding and its verifier are sound | proved | `Prop_SoundFri.v` | two folds determine the even and odd part (close_back); counting by induction on the rounds over the first challenge; the chain of openings of C31 with a set of rejected positions |
| C59 | The checks of the verifier are sound for arbitrary oracles | proved | `Prop_SoundIop.v` | C57 gives polynomials for the columns and the composition oracle; unique decoding makes the openings those of one list of polynomials; then the equation of C56 with degree slack one; the converse from the completeness lemmas of C38 and C44 |
| C60 | Histories of calls on the trace system | partial | `Prop_Trace.v` | histories of calls as lists folded over the modelled methods from the new system; one invariant by induction on the history (registers are a permutation of the allocated ones, recorded lists, step counter, emptiness of unwritten columns); a second invariant, that the spare column is empty, for disciplined histories |
| C61 | FRI rejects as often as the oracle is far | proved | `Prop_FriProx.v` | proximity gap for lines by double counting within a third of the distance (P_Prox); agreement sets pulled back layer by layer through the accepted positions; Merkle binding (C21) and the per-position meaning of acceptance (C30) for the verifier |
| C62 | A prover that answers challenges gets away only with few of them | proved | `Prop_SoundGame.v` | challenge lists counted with duplicate-free lists (P_Few): for each round the bad challenges are few because a nonzero linear form or polynomial vanishes rarely (C56, C57); a list of challenges with which the checks of [verify] pass is bad in some round, by C61 and the Merkle binding (C21) |
| C63 | Claimed openings are bound by the transcript | partial | `Prop_Claims.v` | draw_challenges as a function of what it reads; the simulated DEEP value with false claims equals the true one when the weighted errors cancel at every point (sum grouped by point), so the FRI prover (C28, C29) completes the proof; concrete run over F_257 with a contradictory instance |
| C64 | The prover's outcome on any witness of the right shape | proved | `Prop_AnyWitness.v` | P_Run.v: the run of the prover with the composition polynomial as a parameter; for any witness that polynomial is the interpolation of the pointwise quotients on the coset; totality of the FRI prover and of queries (C28, C29, C32) gives the last part |
| C65 | A proof for a wrong witness is accepted only with few challenges | proved | `Prop_AnyWitness.v` | the same run; FRI completeness and C29_acceptance turn acceptance into one equation at the drawn point; C56 and counting (few) bound the challenges for which the equation holds |
| C66 | The declared fields are fields with the constants the proof system needs | proved | `Prop_Fields.v` | SpecField.v states what modulus and generator declare; Lehmer certificates checked by computation in the kernel, a generator has order p - 1 by counting residues; existing instance lemmas follow from the general theorem |
| C67 | Domain sizes and index maps with machine integers | proved | `Prop_Words.v` | M_Words.v with machine integers, build profiles and loops that may run forever; loop invariants against the natural-number model; an invariant that keeps the loop condition true for the infinite loop |
| C68 | The transforms with 32-bit indices and checked array accesses | proved | `Prop_Words.v` | refinement of the transform kernels of M_Fft.v by u32 kernels on arrays with checked accesses, loop by loop; the limit by the truncated length |
| C69 | The verifier stops on every proof | partial | `Prop_Words.v` | M_WordsFri.v: the FRI verifier and the verifier on M_Words.v; refinement while the product fits; inversion of an accepting run for the changed proof |
| C70 | The recursive FFT kernels compute the transform | proved | `Prop_FftRec.v` | M_FftRec.v: the uncompiled recursive kernels; induction on L, splitting a polynomial into even and odd parts |
| C71 | Comparisons, equality of oracles, and keys of the prover's maps | proved | `Prop_Compare.v` | M_Compare.v: hand-written Ord, PartialEq and Hash; case analysis, C21 for the roots, injectivity of little-endian words |
| C72 | A proof does not depend on the machine | partial | `Prop_Cpus.v` | the run of the prover (P_Run.v) mentions the CPU count only in functions whose results are known not to depend on it |
| C73 | The shape and the size of a proof | proved | `Prop_Shape.v` | the run of the prover (P_Run.v) with the exact FRI proof of P_Fri.v; the bounds are arithmetic |
| C74 | Challenges and queried positions are evenly distributed | proved | `Prop_Uniform.v` | reading 32 bytes as a number is a bijection, and the masks and remainders keep a block of bits of it (P_Count.v) |
| C75 | Exactly which proofs the verifier accepts | proved | `Prop_Accept.v` | acceptance is written out in SpecVerify.v without outcomes or folds; both directions by rewriting the transcript to an explicit stream and the verifier's folds to sums (P_GzAny.v) |
| C76 | The verifier's constructor and its own sizes with machine integers | partial | `Prop_WordsNew.v` | constructor and verifier with machine integers (M_WordsNew.v); a product of two powers of two either fits in 63 bits or is 0 modulo 2^64 |
| C77 | Ranges of constraints in debug and release builds | partial | `Prop_WordsRange.v` | divisors and row ranges with machine integers (M_WordsRange.v); the product over the other rows is divisible by X^N-1 after multiplication exactly with polynomials that vanish at the enforced rows |
| C78 | Prover constructor with machine integers | partial | `Prop_WordsProver.v` | constructor of the prover with machine integers (M_WordsProver.v); the model with natural numbers is the machine one when nothing wraps, and the size of the domain is read off the wrapped product |
| C79 | Release builds answer what debug builds answer | proved | `Prop_Builds.v` | a relation between the two builds that the operations of the machine satisfy and that sequencing, folds and loops preserve; the theorems follow the structure of the functions |
| C80 | Parts of a proof that have no effect on the verdict | partial | `Prop_Unread.v` | relation between proofs that agree on what is read (Prop_Unread.v); the verdict is equal because the challenges and every zipped list are equal |

No property was found to be impossible to express in the model.

## 3. Disagreements between the code and the properties

Each of these is a theorem (`_refuted`, `_forgery`, ...) about the model, with a concrete witness.

* Wrong multi-threaded LDE (C09, C15, C27, C40): src/polynomials/mod.rs:449-458 starts chunk i at
  `coset_omega^i` instead of `coset_omega^(i*chunk)`.  Correct exactly when there is one CPU or the factor is below
  twice the number of CPUs.
* Merkle openings do not bind the index beyond the path length (C22).
* The digest-to-field mask is wrong for fields with bit length 0 or 1 modulo 64 (C23).
* No framing in the transcript (C24).
* FRI with output degree above 1 rejects honest proofs (C29); the FRI verifier takes the number of rounds and of
  final coefficients from the proof, so it accepts every vector (C31) and the STARK verifier accepts proofs of
  unsatisfiable instances (C41).
* `UnivariateTerm::pow` forgets the power of the coefficient (C33).
* With two constraint densities `calculate_g` computes a wrong polynomial (C37, C38, C40).
* Surplus claimed values are ignored by the verifier (C42); some malformed proofs panic (C43); the constraint domains of
  prover and verifier differ for an instance without constraints (C45).
* The last row of the squaring columns of the cubic VDF is unconstrained (C48).
* The norm of `Fq2` has the wrong sign and with it the Legendre symbol (C49).
* The reported number of registers counts ordinary registers only (C51).
* Malformed instances panic instead of giving an error (C54).
* Sizes in a FRI proof are unchecked: changing two numbers of an accepted proof makes a release build of the verifier
  run forever and a debug build panic (C69).  The serial FFT panics from 2^32 points on, so at 2^32 points the result
  depends on the number of CPUs (C68).
* Not a property, but observed: the verifier does not tie the field `h1_iop_roots` of a proof to the roots in the FRI
  proof.

## 4. Trusted base

* The kernel of Coq 8.16.1 (and its `vm_compute` in some concrete examples).
* `Print Assumptions` reports "Closed under the global context" for every theorem listed in MANIFEST.json: no axiom
  of any library is used, none is added, and no kernel check is switched off.
* Libraries: mathcomp (ssreflect, algebra) and Coq's standard library (`NArith`, `ZArith`).
* The correspondence of the model to the Rust text.  Every definition cites the lines it models and says where it
  simplifies.
* Facts about dependencies that the model takes for granted: the `ff` derive macro implements the field operations
  (`mul_assign`, `inverse`, `pow`, `sqrt`, ...) and the canonical representation of a prime field, in Montgomery form
  that is not visible through its API; `indexmap` iterates in insertion order; `crossbeam::scope` joins all spawned
  closures before it returns; Rust's borrow rules make the closures of one scope work on disjoint slices; memory is
  sequentially consistent for such data-race-free programs.  `HashMap`s that the code only reads by key are
  association lists.

## 5. Not modelled

* Overflow of `usize`, `u64` and `u32` outside of the functions of `M_Words.v`, `M_WordsFri.v`, `M_WordsNew.v`,
  `M_WordsRange.v`, `M_WordsProver.v` and `M_WordsEval.v`
  (domain sizes, index maps, the transforms of fft.rs and lde.rs, the FRI verifier, the constructors of prover and verifier, the
  sizes and queried positions of the verifier, the divisors and row ranges of constraints); memory exhaustion.
* Benchmark and printing code (`experiments` tests, timing, `Display`), the unused hashers in `utils`.
* The effect of the prefetch intrinsic (it has none on values; its bounds check is modelled).
* Files that are not compiled: `ali/deep_ali.rs`,
  `arp/single_witness/mod.rs` (their `mod` lines are commented out).
* Montgomery arithmetic of the `ff` crate: field elements are elements of an abstract field.
* Probabilities.  Soundness statements about random challenges count the bad ones (`few` in SpecSound.v, or "at most
  one"), which gives the probability when the challenges are uniform.  That the hash function of the transcript
  behaves like a random function is not modelled.

## 6. Tests against wrong programs

seeded/LOG.jsonl lists edits of the model that a realistic bug would cause, with the theorems that stop being
provable.  The edits are made in a scratch copy by a script that rebuilds everything that depends on the edited
file; a lemma whose proof fails is replaced by an axiom, so that the list of failed theorems contains exactly those
whose proofs depend on a failed lemma.
