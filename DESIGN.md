# Formal model of 3for/qesa in Rocq (Coq 8.16.1)

## 1. What is modelled, and how

The library is a stack of discrete-log zero-knowledge arguments. Everything it
does is deterministic computation over four external ingredients, which are the
boundary of the model:

| external ingredient (crate) | model | assumed behaviour |
|---|---|---|
| `curve25519_dalek::Scalar` | carrier `Scalar` of class `Crypto` | field laws; `invert(0) = 0`; `==` decides equality |
| `RistrettoPoint` | carrier `Point` | module over the scalars (abelian group + scalar multiplication); `==` decides equality |
| `CompressedRistretto` | carrier `Compressed` | `decompress (compress P) = Some P`, and every decodable string is the canonical encoding of its point |
| `merlin::Transcript` | the history (list of labelled events) | a challenge is an arbitrary function `ro` of the whole history including the label being drawn (the actual function: C88) |
| `rand::thread_rng` | an arbitrary tape `nat -> Scalar` read in order | none (every theorem quantifies over all tapes) |

`vartime_multiscalar_mul` panics on length mismatch (dalek 2.x asserts this) and
otherwise is the sum of scalar multiples.

These are *hypotheses in the theorem statements* (class `CryptoLaws`), never
axioms. `Fermat.v`, `Primes.v`, `Fp.v` and `Basis.v` construct instances over the real
Ristretto scalar field (integers modulo l = 2^252 + 27742317777372353535851937790883648493,
with a machine-checked primality proof; points are vectors of m residues, so that any
number of independent generators exists), `Ex.v` one over Z/p for a prime p of 50 bits and
`ExSmall.v` one over Z/1009. No theorem is vacuous, and every theorem has an `Example` next to
it that runs the model on concrete values of such an instance. Most cases use the 50-bit
prime, because an independent re-check of the build (coqchk) evaluates every case without the
virtual machine; the findings that depend on the field (an isotropic vector, C10; byte
reduction, C49) and C31 use the Ristretto scalars.

Rust features:
* a function mutating through `&mut Transcript` takes and returns the history;
* panics (`assert!`, `unwrap`, indexing, `split_at`, usize/u16 underflow with
  overflow checks on, division by zero) are the explicit result `Panic`;
* `while` loops are recursion on fuel; running out of fuel is the explicit result
  `Diverge`. Top-level functions use a fuel that is proved sufficient whenever
  the loop terminates; non-termination findings are stated for every fuel.
* `usize` values are `nat` (no wrap-around of lengths above 2^64 is modelled);
  `u16` arithmetic in `copy/mapping.rs` is modelled exactly (`N`, `mod 65536`).
* `println!` debugging output is not modelled.

Modelled: every function of `math_utils.rs`, `matrix.rs`, `transcript.rs` (at byte level in
`Challenge.v`), `ipa/*.rs`, `qesa_zk.rs`, `copy/*.rs`, `lmpa/*.rs`, and every unit test except
`lib.rs:it_works` (`UnitTests.v`: the mapping test, the QESA equation-system
tests and their helpers, the two copy tests; `UnitTests2.v`: the tests that call one function or one
prover and its verifier; `LmpaBatch.v`: the batching tests of
`simple_zk.rs`; `FloatTests.v`: the three f64 experiments of `lmpa/no_zk.rs`, over an arbitrary
number type, instantiated with binary64 as specified by the standard library's `SpecFloat` and
with the scalar field).

Not modelled: the curve arithmetic inside the dependencies (the hash function is, in
`Merlin.v`; the arguments take an arbitrary function of the history), timing/side channels, memory use (except the capacity bound of
`Release.v`), `Debug`/`Clone` derivations. Overflow checks are on, as in `cargo test`; the functions
with arithmetic that can overflow are also modelled without them, in `Release.v` (usize) and
`MappingRelease.v` (u16); the test functions are modelled with overflow checks only.

## 2. Files

All in `rocq/theories`.

| kind | files |
|---|---|
| vocabulary | `Base.v` (results, lists, loops), `Crypto.v` (the boundary classes), `Count.v` (words, counting), `Forking.v` (trees of words, prover strategies) |
| model | `MathUtils.v`, `Matrix.v`, `GramSchmidt.v`, `IpaNoZK.v`, `IpaAlmZK.v`, `QesaInner.v`, `Mapping.v`, `MappingRelease.v`, `Release.v`, `Copy.v`, `LmpaNoZK.v`, `LmpaSimpleZK.v`, `LmpaBatch.v`, `Challenge.v`, `Merlin.v`, `UnitTests.v`, `UnitTests2.v`, `FloatTests.v` |
| specification | `Spec.v`, `IpaSpec.v`, `QesaSpec.v`, `CopySpec.v`, `LmpaSpec.v`, `KarySpec.v`, `TransSpec.v`, `SepSpec.v`, `SessionSpec.v`, `MerlinSpec.v` (sums, powers, histories, verification equations; no model function is used in them except record types, `oracle`, in `SepSpec.v` and `SessionSpec.v` the verifiers whose runs are compared and, in `MerlinSpec.v`, the permutation and byte encodings) |
| instances | `Fermat.v`, `Primes.v`, `Fp.v`, `Basis.v`, `Ex.v`, `ExSmall.v` |
| lemmas | `Algebra.v`, `ListFacts.v`, `Vec.v`, `Poly.v`, `MatrixFacts.v`, `GramFacts.v`, `IpaFacts.v`, `IpaSound.v`, `QesaFacts.v`, `MappingFacts.v`, `CopyFacts.v`, `LmpaFacts.v`, `KaryFacts.v`, `FloatFacts.v`, `ZkView.v`, `ZkMask.v`, `ZkPoly.v` |
| properties | `Prop*.v`; the theorems are named `Cnn_...` after the property, the cases `Cnn_case...` |
| audit | `Assumptions.v`: `Print Assumptions` of a tuple holding every property theorem |

## 3. Plan per property

| id | what is modelled | how it is proved |
|---|---|---|
| C01-C09 | `math_utils.rs`, `matrix.rs` function by function | list induction, against index-sum specification |
| C10-C12 | `gramschmidt.rs` | field algebra; isotropic witness over F_l by computation; support by loop invariant |
| C13-C15 | `ipa/no_zk.rs` create/verify | induction on log2 n; folding identity; closed form by induction |
| C16 | verify; trees of accepting runs | explicit extractor, Lagrange interpolation on 4 points, induction on depth |
| C17 | verify | unfolding, for all proofs |
| C18-C21 | `ipa/alm_zk.rs` | from C13 by bilinearity; extractor on 3 betas; explicit forger |
| C22-C27 | `ipa/qesa_inner.rs`, `qesa_zk.rs` | adjointness + C18; extractor; explicit forger for an unsatisfiable system |
| C28-C33 | `copy/mapping.rs` with u16 arithmetic | list invariants over the loops |
| C34-C35 | `copy/copy.rs` | aggregation identity, then C22 |
| C36-C39 | `lmpa/no_zk.rs` binary version | induction on log2 n; extractor on 3 challenges |
| C40-C42, C51 | `lmpa/simple_zk.rs` | linearity; explicit bijection of blinding vectors; explicit forger |
| C43-C47 | k-ary version and its wrapper | double-sum identity; explicit forger; fuel-for-all divergence |
| C48 | `pedersen_commit` | linearity |
| C49 | `transcript.rs` | integer arithmetic on the real modulus |
| C50 | all verify functions | exact final history computed |
| C52-C56 | QESA and copy arguments: what is and is not bound | explicit forgers; closed form of the verifier; slots forced by the copy equations |
| C57, C58 | all verifiers, three provers | no `Diverge` for any input; exact panic conditions |
| C59, C60 | `ipa/alm_zk.rs` | inversion of the sampling; explicit formulas for the last message |
| C61 | all proofs | explicit twins of accepted proofs |
| C62, C63 | batching in the tests of `simple_zk.rs`; `pedersen_commit`, `commit` | polynomial identity; opening bijections; relation extraction |
| C64 | `copy.rs` | tree of accepting runs, on top of C24 |
| C65-C67 | tests of `mapping.rs`, `qesa_inner.rs`, `copy.rs` | exact outcome for every tape |
| C68 | QESA and copy provers | inversion of every assertion; C59 |
| C69 | f64 experiments of `lmpa/no_zk.rs` | the k-ary lemmas with scalars as points; evaluation in binary64 |
| C70 | the remaining unit tests | exact outcome, from the completeness theorems |
| C71 | `ipa/gramschmidt.rs`, `ipa/alm_zk.rs` | counting words; few roots per letter |
| C72 | `ipa/no_zk.rs`, `lmpa/no_zk.rs`, `lmpa/simple_zk.rs` | sizes: truncation lemmas, commuting column selection with folding |
| C73 | `copy/mapping.rs` without overflow checks | the list invariants of C28-C30 |
| C74 | `ipa/qesa_inner.rs`, `qesa_zk.rs`, `copy/copy.rs` | counting words, as C71; degrees of the bad events in s and b |
| C75 | all verifiers with a sound statement | counting words: a test passed by many words has a tree of passing words (`Forking.v`), then C16, C20, C24, C37, C42, C64 |
| C76 | `ipa/alm_zk.rs`, `ipa/no_zk.rs` prover | rounds as functions of 2d+2 scalars (`ZkView.v`); mask tape = mask coordinates (`ZkMask.v`); counting through an injective affine map; elimination and few-zeros counts for the degenerate points (`ZkPoly.v`) |
| C77 | `qesa_zk.rs`, `ipa/qesa_inner.rs` prover | C76 for vectors that are polynomials in five further letters (`ZkFamily.v`); a point where nothing degenerates is constructed from a condition on the generators alone (`ZkGen.v`: two-by-two determinants of the folded logarithms); the QESA vectors are of degree 2n in x, s, b and the blinding scalars; commitments = blinding scalars by an invertible 2x2 system |
| C78 | `copy/copy.rs` prover | the C77 argument with one more challenge: witness and system of degree k (number of commitments) in the copy challenge; the aggregated commitment is public |
| C79 | all verifiers with a sound statement, challenges from a hash table | `FiatShamir.v`: provers as query trees, tables of answers; a table is bad for a history when the continuation has few good answers, each query hits a bad answer for at most K/q of the tables, the remaining tables form a tree; then C16, C20, C24, C37, C42, C64. Not covered: statements chosen after queries (the code does not hash the statement, C21, C27, C51), L and R of different lengths (C80), the efficiency of the extractor |
| C80 | `NoZK::verify` and its callers, |L| ≠ |R| | `PropShort.v`: the verdict for any lengths; the completion of a short proof as a query program `complete`, preserved acceptance, the challenges of the completed proof are exactly its queries; C79 for the prover followed by the completion |
| C81 | all functions with usize arithmetic that can overflow, without overflow checks (`Release.v`) | `PropOverflow.v`: a wrapped value exceeds every vector length, so each use panics; the verdict of the verifiers as an equivalence with the checked verdict on the truncated proof |
| C82 | `zk_create`/`zk_verify`, `copy_create`/`copy_verify` with challenges from a hash function | `Nizk.v` (the two games: hash function sampled lazily, simulator replaces the answers at the challenges of its proof), `PropNizk.v`. The almost-zk argument on its own: C89 |
| C83 | the same, P proofs of statements chosen adaptively | `Nizk.v` (`client`, `real_session`, `sim_session`; induction over the session, one proof replaced at a time), `PropNizkMany.v` |
| C84 | SimpleZK with hashed challenges: zero-knowledge against adaptive distinguishers, one proof or many | `PropNizkLmpa.v`: `simple_zk_simulatable` (perfect simulation, so the only error is a query of the first message before the proof), then `nizk` and `nizk_many` of `Nizk.v`. A matrix of zeros is excluded, with the distinguisher that then wins (`C84_case_zero_row`) |
| C85 | condition on the generators in C77, C78, C82, C83 | `PropZkGen.v`: the product of the determinants is a nonzero polynomial of degree 2d+2 in the logarithms of the generators, so few generators are bad; C77 with the generators drawn too. Nothing in `/repo` checks the condition |
| C86 | all verifiers with a sound statement | `Rewind.v`: the extractor and its analysis (cyclic order makes every challenge be tried for at most k starting points, so the average number of runs is the product of the branching numbers); `PropExtract.v`: the trees it collects are handed to the extractors of C16, C20, C24, C37, C42, C64. Interactive challenges; for hashed challenges only the counting bounds of C79 and C80 |
| C87 | the same, with generators r_i B + s_i X | `PropDlog.v`: the generators only depend on r + x s, so s stays uniform given what the adversary sees and a relation c has c.s = 0 for a fraction 1/q only; summed with C86. The library takes the generators from its caller; the tests draw G and H at random and hash a string to Q. That such points behave like uniform ones is not proved |
| C88 | `transcript.rs` on top of merlin 1.2: `Merlin.v` (Keccak-f[1600], STROBE-128, framing), written from the published description of the crates, whose sources are not in `/repo`; the known answers below are what ties it to them | `PropMerlin.v`: cells can be taken back one by one and the marks written by STROBE tell how many belong to the last operation, so the input can be decoded from the end; padding is injective; simulation of the byte machine by the cells. Known answers by evaluation: SHA3-256 of the empty string and merlin's simple test vector in the file; its long one (32 rounds, a8c933f5...03c) was evaluated once outside the build |
| C89 | `AlmZK::create`/`verify` alone, hashed challenges | `NizkHit.v`: C_r is made from both masks, so instead of bounding its guesses in the real game they are bounded in the simulated one, where the first cross term spreads them, and carried over by C76 itself; `PropNizkAlm.v` |
| C90 | all verifiers with a sound statement, challenges from a hash table | `FsRewind.v`: the extractor on tables (change the answer at the place of the j-th challenge, in cyclic order; a run whose j-th challenge is at another place is dropped after one run) and its two bounds, by counting along the lines of tables that differ at one place; `FsExtract.v`: its tree consists of the prover's own accepted runs; `PropFsExtract.v`: handed to the extractors of C16-C64 as in C86. Tables stand for answers sampled when they are asked for; what is counted is runs of the prover |
| C91 | the same, with generators r_i B + s_i X | `PropFsDlog.v`: C90 for every choice of the generators and C87's count of the relations with c.s = 0, for each table of answers; for QESA and copy the tables on which the proof is accepted and the opening is wrong are counted, using that the extractor only returns something for accepted tables |
| C92 | `transcript.rs:12-17`; curve25519-dalek's `Scalar::random`, which reduces 64 bytes in the same way (dependency, from its documentation) | `PropBytes.v`: every scalar has c or c+1 preimages, so each count changes by a factor between c^N and (c+1)^N; Bernoulli's inequality and the complement give the distance; then C74, C79, C41, C82 |
| C93 | as C90, C91 | `PropFsAny.v`: C90 and C91 applied to the prover followed by the completion of C80, which asks every challenge of the proof and keeps accepted proofs accepted and the openings unchanged |
| C94 | `matrix.rs`, `math_utils.rs` (batching, transposing), `ipa/qesa_inner.rs:20-185`, `copy/copy.rs:164-234` on systems of any shape | `PropShape.v`: closed forms of transposing and batching on uneven rows, from these the verifier, prover and copy verifier without any assumption on the matrices; the prover's inner product as a polynomial in the last challenge |
| C95 | `lmpa/no_zk.rs:17-382`, `lmpa/simple_zk.rs:18-120`, `copy/copy.rs:23-161` on inputs of any size | `PropInputs.v`: induction on the rounds with ragged rows; the shape of the k-ary message table read off a run that returned; the copy prover's three loops as folds guarded by range conditions |
| C96 | `matrix_split`, `matrixpoint_transpose`, the k-ary prover, verifier and wrappers on ragged matrices and for every k | loop invariant of the transposing loop on chunk lists; shapes of partial sums; dropping empty rows, then C95; one step of the k = 1 loop |
| C97 | common challenges of two runs of the same or of different arguments (domain separation, unambiguous encoding of the messages) | C50 layouts; first label of a layout; cutting a list of events at its challenges |
| C98 | sequences of verifications on one transcript | C50 layouts cut at the challenges; the run a challenge belongs to is read off the blocks before it, backwards; the target that makes a linear-map proof accepted, for any messages |
| C99 | all arguments, with `transcript.rs:12-17` and `Scalar::random` | `PropBytesAll.v`: the transfer of C92 applied to the any-prover bounds (C79, C80), the copy prover's failures (C74) and the hiding theorems for many proofs (C83, C84, C89); sessions are flattened to one word of scalars |
| C100 | QESA and copy provers, generators as multiples of one point with random factors | `PropGenHidden.v`: C83 for the good generators, the count of the bad ones of C85, summed over all generators; bytes by the transfer of C92 |
| C101 | `ipa/no_zk.rs` create, verify, the transcript of the unit test | `PropNozkBind.v`: the outcome as a function of one point; folding with non-zero challenges is injective; explicit forgers with P or t chosen after alpha |
| C102 | C79 with the statement chosen by the prover and hashed by the caller: `ipa/no_zk.rs`, `ipa/alm_zk.rs`, `ipa/qesa_inner.rs`, `copy/copy.rs`, `lmpa/no_zk.rs`, `lmpa/simple_zk.rs` verify | `PropAdaptive.v`: forking on the joint output, all leaves share the statement because it is read off the first history; encodings that can be read back; a case without the hash. `PropAdaptiveAny.v`: every prover, followed by the completion of C80. The hashing of the statement is the caller's and not in the code |
| C103 | C102 with `transcript.rs` challenges as reduced 64-byte strings | `PropBytesAdaptive.v`: the every-prover form of C102 and the transfer C92 |
| C104 | C90 and C91 with the statement chosen by the prover and hashed by the caller; same functions as C102 | `PropAdaptiveExtract.v`: the rewinding extractor of `FsRewind.v` on the joint output; accepted runs that share the first challenge query share the statement, so the trees it finds are trees for the statement of the first run. Extractors, discrete logarithms and the every-prover forms |
| C105 | C93 and C104 with hash answers of 64 bytes; `Challenge.v` (reduction of 64 bytes), same functions as C93 and C104 | `PropBytesExtract.v`: the distance bound of C92 for "accepted" and for "found" gives the loss; for the mean number of runs every scalar has at most 2^512/l + 1 preimages among the strings |
| C106 | the discrete logarithms of C93 and C104 with hash answers of 64 bytes; `Challenge.v`, same functions as C93 and C104 | `PropBytesDlog.v`: the distance bound of C92 for each choice of the generators, for "accepted", "witness" and "logarithm", summed over the generators |

No property is considered inexpressible. What a model of this kind cannot say:
computational statements ("no efficient prover can find a relation") - soundness
is therefore stated as explicit extraction "witness or relation"; probability -
"except with negligible probability" becomes the explicit excluded challenge
values, for honest runs a count of the failing tapes (C71) and challenges
(C74), for cheating provers a count of the challenges they can answer (C75) and of the hash tables they can exploit (C79); zero-knowledge becomes exact bijections,
simulation equalities, or counts of tapes that differ by a stated number (C76, C77, C78).

## 4. Trusted base

* Coq's kernel (8.16.1), including its `vm_compute` evaluator.
* The reading of the Rust source recorded in the comment above each definition.
* The behaviour assumed for the dependencies in section 1 (classes `Crypto` and
  `CryptoLaws`, premises of the theorems).

No axiom is declared anywhere. `Print Assumptions` answers "Closed under the global
context" for every theorem listed in `MANIFEST.json` (`theories/Assumptions.v` prints it
during the build); no standard-library axiom is used by any of them. A check of the whole
library context (`coqchk -o`) also lists the parameters `Coq.ssr.ssrunder.Under_rel.*`: they
belong to a standard-library module that other standard-library files load, and no theorem
here depends on them.

## 5. Status

`MANIFEST.json` lists the theorems of each property; all are proved, none is partial.
Properties whose natural formulation is false of the program are stated as what the program
does, with a witness (`_refuted`, or the explicit forger): C10 (isotropic vectors), C17, C21,
C25-C27, C31, C32, C38, C44, C46, C47, C51-C55, C59-C61, C69, C101. Seeded-bug experiments are recorded
in `seeded/LOG.jsonl`: each line names the edited definition, the edit, the claim it breaks,
the theorems that stop being provable and any theorem added or tightened because of it. In
those experiments a failing lemma is admitted so that the rest still builds; a theorem counts
as failed when its assumptions then contain an admitted lemma, and `examples_failed` lists the
concrete cases whose computed value changed.

Limits common to all theorems: lengths are unbounded naturals rather than 64-bit; challenges
are an arbitrary function of the history, so exceptional values are explicit premises or
explicit disjuncts; where a probability is meant (C41, C71, C74-C80, C82-C87, C89-C93) it is a number of
words of challenges and random scalars.
