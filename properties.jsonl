{"id": "C01", "title": "Inner product is the truncated sum of products", "statement": "inner_product(a,b) equals the sum over i < min(|a|,|b|) of a_i*b_i; it is symmetric, and on equal-length vectors it is linear in each argument.", "quantifier": "all scalar vectors of every length, over every field", "why_tests_cant": "Tests sample a few random vectors of one length.", "anchors": ["src/math_utils.rs: inner_product"]}
{"id": "C02", "title": "Challenge expansion is exactly x, x^2, ..., x^n", "statement": "vandemonde_challenge(x,n) returns exactly n scalars, the i-th (from 0) being x^(i+1), for every n >= 1; it panics exactly when n = 0 (usize underflow, overflow checks on).", "quantifier": "all scalars x and all n", "why_tests_cant": "The only test uses x = 2, n = 32; the n = 0 boundary is untested.", "anchors": ["src/math_utils.rs: vandemonde_challenge"]}
{"id": "C03", "title": "Vandermonde vectors and matrices are exactly 1, x, ..., x^(n-1)", "statement": "vandemonde_vector(x,n) and vandemonde_vector_general return n entries x^0..x^(n-1) for n >= 1 and panic for n = 0; vandemonde_matrix(m,n) has m rows, row i being the vector of the i-th drawn scalar, and panics exactly when m >= 1 and n = 0; rand_matrix(m,n) has m rows of n points which, read row by row, are the first m*n drawn points.", "quantifier": "all x, m, n and all random tapes", "why_tests_cant": "No test covers these beyond incidental use.", "anchors": ["src/matrix.rs: vandemonde_vector, vandemonde_vector_general, vandemonde_matrix, rand_matrix"]}
{"id": "C04", "title": "Matrix-vector products compute the matrix-vector product", "statement": "Entry i of matrix_vector_mul / matrixpoint_vector_mul / matrix_vector_mul_general is the sum over j of M_ij * v_j (truncated to the shorter of row and vector); the maps are linear in the vector.", "quantifier": "all matrices and vectors, any shape", "why_tests_cant": "Exercised only through end-to-end protocol tests on random square inputs.", "anchors": ["src/matrix.rs: matrix_vector_mul, matrixpoint_vector_mul, matrix_vector_mul_general"]}
{"id": "C05", "title": "Entrywise operations are entrywise and reject shape mismatches", "statement": "row_row_add/row_row_sub/rowpoint_rowpoint_add/row_row_add_general succeed exactly when lengths agree and then act entrywise; matrix_matrix_add and its point/general versions succeed exactly when the shapes agree row by row and then act entrywise; scalar multiplication of vectors and matrices scales every entry and keeps the shape.", "quantifier": "all vectors and matrices, including ragged ones", "why_tests_cant": "The panic branches and ragged shapes are never tested.", "anchors": ["src/matrix.rs: row_row_add, row_row_sub, matrix_matrix_add, *_general, rowpoint_rowpoint_add, matrixpoint_matrix_add, matrix_scalar_mul, matrixpoint_scalar_mul, vectorpoint_scalar_mul"]}
{"id": "C06", "title": "Transpose swaps indices and is an involution", "statement": "For every rectangular non-empty matrix, matrix_transpose and matrixpoint_transpose return the matrix with entry (j,i) equal to the input entry (i,j); with at least one column, transposing twice gives the input back; on an empty matrix both panic, and they panic when some row is longer than the first.", "quantifier": "all matrices", "why_tests_cant": "Transpose is only used inside protocol tests.", "anchors": ["src/matrix.rs: matrix_transpose, matrixpoint_transpose"]}
{"id": "C07", "title": "Transpose is the adjoint for the inner product", "statement": "For every r x c matrix M with r >= 1 and vectors s (length r), w (length c): <s, M w> = <M^T s, w>, where all three operations are the library's.", "quantifier": "all matrices and vectors of matching shape", "why_tests_cant": "It is an algebraic identity over all inputs that QESA relies on.", "anchors": ["src/matrix.rs: matrix_transpose, matrix_vector_mul", "src/math_utils.rs: inner_product"]}
{"id": "C08", "title": "Block-matrix batching is the challenge-weighted sum of the matrices", "statement": "For k >= 1 matrices of the same shape and c challenges, block_matrix_batch returns the entrywise sum over i < min(k,c) of challenge_i * M_i; it panics when there is no matrix or no challenge.", "quantifier": "all blocks, shapes and challenge vectors", "why_tests_cant": "Tests use two or three random matrices.", "anchors": ["src/matrix.rs: BlockMatrix::block_matrix_batch"]}
{"id": "C09", "title": "matrix_split is lossless and shape-exact", "statement": "For a rectangular matrix with m >= 1 rows and n columns and a chunk size c dividing n, matrix_split returns n/c matrices of shape m x c whose row-wise concatenation is the input; it panics for m = 0, c = 0 and c not dividing n.", "quantifier": "all matrices and chunk sizes", "why_tests_cant": "Only used inside the k-ary LMPA tests with one shape.", "anchors": ["src/matrix.rs: matrix_split"]}
{"id": "C10", "title": "orth returns a vector orthogonal to its first argument", "statement": "If <a,b> != 0 and <a,a> != 0, orth(a,b) returns b - (<a,b>/<a,a>) a, which is orthogonal to a; it panics exactly when <a,b> = 0. FINDING: over the real Ristretto scalar field there are isotropic vectors (<a,a> = 0, a != 0) for which orth returns normally a vector that is not orthogonal to a.", "quantifier": "all equal-length vectors over every field; the finding is exhibited over the real group order", "why_tests_cant": "Random tests never hit isotropic vectors.", "anchors": ["src/ipa/gramschmidt.rs: orth"]}
{"id": "C11", "title": "Double Gram-Schmidt sampling is orthogonal to both inputs", "statement": "Whenever sample_gram_schmidt(a) returns and <a,a> != 0 its result is orthogonal to a; whenever sample_gram_schmidt_twice(a,b) returns and neither a nor the a-orthogonal part of b is isotropic, its result is orthogonal to a and to b.", "quantifier": "all vectors and all random tapes", "why_tests_cant": "Tests sample one random 4-vector.", "anchors": ["src/ipa/gramschmidt.rs: sample_gram_schmidt, sample_gram_schmidt_twice"]}
{"id": "C12", "title": "The sparse mask is supported exactly on the M_n^+ positions", "statement": "For n >= 2 the sampled mask has length n and is zero outside {0,1} u {2^k, 2^k+1 : 2^(k+1) <= n, k >= 1} u {n-2,n-1}, and every position of that set holds a value drawn from the random source; for n < 2 sampling panics.", "quantifier": "all n and all random tapes", "why_tests_cant": "Tests only look at n = 4, where every position is in the set.", "anchors": ["src/ipa/gramschmidt.rs: sample_m_n_plus"]}
{"id": "C13", "title": "Inner-product argument (no-zk) completeness", "statement": "For every power-of-two n, generators G,H, Q, vectors a,b of length n, transcript and hash behaviour: create returns a proof, and verify on P = <a,G>+<b,H>+<a,b>Q, t = <a,b> returns true, provided the challenge alpha is non-zero; prover and verifier leave the transcript in the same state.", "quantifier": "all n = 2^d, all inputs, all transcripts, all hash functions", "why_tests_cant": "The single test is n = 4 with one random input.", "anchors": ["src/ipa/no_zk.rs: create, NoZK::verify, generate_challenges"]}
{"id": "C14", "title": "Inner-product argument: proof size and input validation", "statement": "create (no-zk) returns normally exactly when all four vectors have the same power-of-two length n; the proof then has exactly log2 n left and log2 n right points.", "quantifier": "all vectors of all lengths", "why_tests_cant": "No test passes malformed inputs or counts rounds.", "anchors": ["src/ipa/no_zk.rs: create"]}
{"id": "C15", "title": "Inner-product verifier decides exactly the closed-form verification equation", "statement": "When the points decode, |L| = |R| = d, n = 2^d = |G| = |H| and alpha != 0, verify returns true iff (prod x_j)(P - t Q + alpha^-1 t Q) + sum_j (prod_{k>j} x_k)(x_j^2 L_j + R_j) = a*sum_i s_i G_i + b*sum_i s'_i H_i + a b alpha^-1 Q with s_i (s'_i) the product of the challenges at the one (zero) bits of i.", "quantifier": "all proofs, statements, transcripts and hash functions", "why_tests_cant": "Tests only see accepting honest proofs.", "anchors": ["src/ipa/no_zk.rs: NoZK::verify"]}
{"id": "C16", "title": "Inner-product argument knowledge soundness (special soundness)", "statement": "There is an explicit extractor that, from any tree of accepting verifier runs on one statement (P,t) - two distinct non-zero alpha, four distinct challenges per round - outputs either vectors a,b with P = <a,G>+<b,H>+tQ and <a,b> = t, or a non-trivial linear relation between the points of G,H,Q.", "quantifier": "all n = 2^d, all statements, all (malicious) proofs, all hash functions", "why_tests_cant": "Soundness quantifies over all provers.", "anchors": ["src/ipa/no_zk.rs: NoZK::verify"]}
{"id": "C17", "title": "Malformed inner-product proofs make the verifier panic instead of returning false", "statement": "FINDING: no_zk verify panics (never returns false) as soon as one proof point does not decode or the number of left points does not match n; it also silently ignores surplus right points, so accepting proofs are malleable.", "quantifier": "all proofs and statements", "why_tests_cant": "Tests never submit malformed proofs.", "anchors": ["src/ipa/no_zk.rs: NoZK::verify"]}
{"id": "C18", "title": "Almost-zk inner-product argument completeness", "statement": "For power-of-two n, C_w = <a,G>+<b,H>, t = <a,b>: whenever alm_zk create returns (its Gram-Schmidt asserts pass), none of the three projected-on vectors is isotropic and alpha != 0, verify returns true and both transcripts end in the same state.", "quantifier": "all inputs, random tapes, transcripts, hash functions", "why_tests_cant": "One random test with n = 4.", "anchors": ["src/ipa/alm_zk.rs: create, AlmZK::verify"]}
{"id": "C19", "title": "Almost-zk prover: exact failure conditions", "statement": "alm_zk create panics for every random tape when a or b is the zero vector (although the statement t = 0 is true); when it returns, with Q != 0 and non-zero challenges alpha and x_j, verify accepts iff the masked vectors satisfy <beta a + r', beta b + r''> = beta^2 t.", "quantifier": "all inputs and random tapes", "why_tests_cant": "Needs all tapes; random tests never meet these inputs.", "anchors": ["src/ipa/alm_zk.rs: create", "src/ipa/gramschmidt.rs: orth"]}
{"id": "C20", "title": "Almost-zk inner-product argument knowledge soundness", "statement": "From accepting runs on one statement (C_w,t) and one C_r with three distinct beta (each with a C16 tree), an explicit extractor outputs a,b with C_w = <a,G>+<b,H> and <a,b> = t, or a non-trivial relation between G,H,Q.", "quantifier": "all statements, all proofs, all hash functions", "why_tests_cant": "Soundness quantifies over all provers.", "anchors": ["src/ipa/alm_zk.rs: AlmZK::verify"]}
{"id": "C21", "title": "Almost-zk argument does not bind the statement into the challenge", "statement": "FINDING: C_w and t are not absorbed before beta; for every hash function with non-zero challenges a prover can choose C_w = <a,G>+<b,H> with <a,b> != t and produce an accepting proof when the transcript was not pre-loaded with C_w. Pre-loading C_w alone does not help: for every C_w = <a,G>+<b,H> and all masks r, s a t computed after beta is accepted, and it differs from <a,b> unless beta (<a,s>+<r,b>) + <r,s> = 0.", "quantifier": "all hash functions, all n = 2^d >= 2", "why_tests_cant": "An attack must be exhibited for every hash function.", "anchors": ["src/ipa/alm_zk.rs: create, AlmZK::verify"]}
{"id": "C22", "title": "QESA inner argument completeness", "statement": "For n a power of two >= 4, any list of (n-2)x(n-2) matrices and witness w with w_0 = 1 and w^T M_i w = 0 for every i, any r': whenever create returns, the non-isotropy conditions hold and x, alpha are non-zero, verify returns true and the transcripts agree.", "quantifier": "all n, witnesses, matrix systems, blinding values, tapes, transcripts, hash functions", "why_tests_cant": "Two fixed shapes are tested.", "anchors": ["src/ipa/qesa_inner.rs: create, Inner::verify, compute_gamma_prime"]}
{"id": "C23", "title": "QESA zero-knowledge wrapper completeness", "statement": "Same as C22 for the public API qesa_zk::create / Zk::verify, for every choice of the two blinding scalars it draws.", "quantifier": "all systems, witnesses and random tapes", "why_tests_cant": "qesa_zk has no test at all.", "anchors": ["src/qesa_zk.rs: create, Zk::verify"]}
{"id": "C24", "title": "QESA soundness when the committed first coordinate is one", "statement": "From a tree of accepting QESA verifier runs with fixed c'_w, c''_w and x (n-1 values of s, three of b, and the sub-argument trees), an explicit extractor outputs v, u opening c'_w + c''_w over G and H such that v, with first entry stretched to 1 + x^2 (v_0 - 1), satisfies the batched equation, or a non-trivial relation between the generators. If moreover c'_w is opened over G by w with w_0 = 1 and every c''_w over H, trees for min(#matrices, n) distinct non-zero x yield an explicit relation or prove w^T M_i w = 0 for each of the first n matrices.", "quantifier": "all statements, all proofs, all hash functions", "why_tests_cant": "Soundness quantifies over all provers.", "anchors": ["src/ipa/qesa_inner.rs: Inner::verify"]}
{"id": "C25", "title": "QESA verifier accepts proofs of unsatisfiable systems", "statement": "FINDING: because the challenge fixing w_0 = 1 is reused from the batching challenges, even when c'_w is a commitment over G only and c''_w over H only there is a system of three quadratic equations that no w with w_0 = 1 satisfies, together with a proof computed from public data that Zk::verify accepts, for every hash function whose challenges x and alpha are non-zero.", "quantifier": "all n = 2^d >= 4, all generators, all hash functions with non-zero challenges", "why_tests_cant": "A soundness break for every challenge value cannot be seen by completeness tests.", "anchors": ["src/ipa/qesa_inner.rs: Inner::verify", "src/qesa_zk.rs: Zk::verify"]}
{"id": "C26", "title": "QESA equations beyond the n-th are silently ignored", "statement": "FINDING: block_matrix_batch zips matrices with n challenges, so verify gives the same verdict and transcript whatever matrices follow the first n.", "quantifier": "all systems with more than n matrices, all proofs", "why_tests_cant": "No test has more matrices than n.", "anchors": ["src/matrix.rs: BlockMatrix::block_matrix_batch", "src/ipa/qesa_inner.rs: Inner::verify"]}
{"id": "C27", "title": "QESA does not bind the equations into the challenge", "statement": "FINDING: the matrices are not absorbed in the transcript before the batching challenge x; for every hash function with non-zero challenges a prover can pick, after fixing its commitment, a system its witness violates (and that is satisfiable by no w with first coordinate 1) and still have verify accept.", "quantifier": "all hash functions with non-zero challenges", "why_tests_cant": "An adaptive attack must be exhibited for every hash function.", "anchors": ["src/ipa/qesa_inner.rs: create, Inner::verify"]}
{"id": "C28", "title": "Message positions are fresh, distinct and inside the witness area", "statement": "Whenever compute_mapping returns for n, witness_size < 65536, it assigns every message a position p with witness_size <= p < n-2, positions are strictly increasing in message order (hence distinct), none equals a commitment index, they are the smallest such positions, and last_index is the position of the last message.", "quantifier": "all n, witness sizes and families of index sets", "why_tests_cant": "The test is a random sample at n = 18.", "anchors": ["src/copy/mapping.rs: compute_mapping"]}
{"id": "C29", "title": "Message metadata follows the order of the commitments", "statement": "Whenever compute_mapping returns with at most 65536 commitments, message number i is, in order, the j-th smallest index of commitment c exactly as in the concatenation of the index sets: msg_id = i, commitment_index is that index, commitment_crs_id = c; num_commitments and the set of unique indices are exact.", "quantifier": "all families of index sets", "why_tests_cant": "Random sample only; commitment_index is never checked.", "anchors": ["src/copy/mapping.rs: compute_mapping"]}
{"id": "C30", "title": "compute_mapping succeeds exactly when there is room", "statement": "For 2 <= n < 65536 and witness_size < 65536 compute_mapping returns normally iff there is at least one message and at least as many positions in [witness_size, n-2) outside the commitment indices as messages; otherwise it panics.", "quantifier": "all inputs", "why_tests_cant": "Panic conditions are not tested.", "anchors": ["src/copy/mapping.rs: compute_mapping"]}
{"id": "C31", "title": "The reserved index 0 and the caller's witness area are not protected", "statement": "FINDING: compute_mapping computes whether index 0 is used and discards the answer: it accepts index 0 (reserved for the constant 1) and indices inside the caller's witness; there are such inputs for which the honest copy prover returns a proof that verify rejects.", "quantifier": "existence over the real scalar field plus the universal statement that index 0 never makes compute_mapping panic by itself", "why_tests_cant": "No test uses index 0 or an overlapping index.", "anchors": ["src/copy/mapping.rs: compute_mapping", "src/copy/copy.rs: create"]}
{"id": "C32", "title": "Sizes are silently truncated to 16 bits", "statement": "FINDING: compute_mapping depends on n and witness_size only modulo 65536, so it can return positions below witness_size (overwriting witness entries), and for every n that is a multiple of 65536 (every larger power of two) it panics.", "quantifier": "all n, witness sizes, index sets", "why_tests_cant": "Tests use n <= 32.", "anchors": ["src/copy/mapping.rs: compute_mapping"]}
{"id": "C33", "title": "Message commitments are Pedersen commitments and additively homomorphic", "statement": "commit(G, {i_1<...<i_k}, m, r) = sum m_j G_{i_j} + r G_last when |m| = k, all indices are in range and G is non-empty, and panics otherwise; a linear combination of commitments over the same index set is the commitment of the linear combination.", "quantifier": "all generators, index sets, messages, randomness", "why_tests_cant": "No direct test.", "anchors": ["src/copy/mapping.rs: commit"]}
{"id": "C34", "title": "Copy argument completeness", "statement": "For every n = 2^d >= 4, witness w with w_0 = 1, openings (m_k, r_k) of commitments made with commit over index sets mapped by compute_mapping whose indices lie at or beyond the witness and below n-2, and caller matrices satisfied by the final assigned witness: whenever create returns, the non-isotropy conditions hold and the challenges x, alpha(IPA) are non-zero, verify returns true.", "quantifier": "all n, witnesses, index families, messages, randomness, systems, tapes, transcripts, hash functions", "why_tests_cant": "Two random tests without equations.", "anchors": ["src/copy/copy.rs: create, Copy::verify", "src/copy/mapping.rs: compute_mapping, commit"]}
{"id": "C35", "title": "Copy equations hold exactly when the slot holds the aggregated messages", "statement": "The matrices appended by the copy prover and verifier are the same function of map and challenges, one per unique commitment index; for w with w_0 = 1, w^T M w = 0 for the matrix of index c iff w_c equals the sum over the messages mapped to c of alpha^(crs_id+1) * w_position.", "quantifier": "all mappings returned by compute_mapping, all witnesses and challenges", "why_tests_cant": "The appended matrices are not observable in tests.", "anchors": ["src/copy/copy.rs: create, Copy::verify"]}
{"id": "C36", "title": "Linear-map preimage argument (binary) completeness", "statement": "For every n = 2^d, every m x n point matrix A and witness w of length n: create returns and verify accepts for t = A w; both transcripts end in the same state, for every hash function (no challenge has to be excluded).", "quantifier": "all m >= 1, n = 2^d, A, w, transcripts, hash functions", "why_tests_cant": "One test with m = n = 4.", "anchors": ["src/lmpa/no_zk.rs: create, NoZK::verify"]}
{"id": "C37", "title": "Linear-map preimage argument: extraction for the first row", "statement": "There is an explicit extractor that, from a tree of accepting verify runs with three distinct challenges per round, outputs w of length n with (A w)_0 = t_0 (unconditionally, without any hardness assumption).", "quantifier": "all n = 2^d, all A, t, all proofs, all hash functions", "why_tests_cant": "Soundness quantifies over all provers.", "anchors": ["src/lmpa/no_zk.rs: NoZK::verify"]}
{"id": "C38", "title": "Linear-map preimage verifiers check only the first row of t", "statement": "FINDING: NoZK::verify and SimpleZK::verify compare only component 0: for every proof and statement, replacing t_1,t_2,... by anything (same length) does not change verdict or transcript; hence proofs of false statements (t not in the image of A) are accepted.", "quantifier": "all proofs, statements, replacement values", "why_tests_cant": "Tests only check honest proofs of true statements.", "anchors": ["src/lmpa/no_zk.rs: NoZK::verify", "src/lmpa/simple_zk.rs: SimpleZK::verify"]}
{"id": "C39", "title": "Binary LMPA: termination, rounds and input validation", "statement": "With rectangular A (m x n, m >= 1) and |w| = n: create returns iff n is a power of two, with exactly log2 n rounds of m-point messages; it panics for other n >= 1, and it does not terminate for n = 0; verify terminates on every input.", "quantifier": "all n, m, A, w, proofs", "why_tests_cant": "Non-termination cannot be observed by a finite test.", "anchors": ["src/lmpa/no_zk.rs: create, NoZK::verify"]}
{"id": "C40", "title": "SimpleZK completeness", "statement": "For every n = 2^d, m x n matrix A, witness w, blinding tape: SimpleZK create returns and verify accepts for t = A w, transcripts agree, for every hash function.", "quantifier": "all n = 2^d, m >= 1, A, w, tapes, transcripts, hash functions", "why_tests_cant": "Few random tests.", "anchors": ["src/lmpa/simple_zk.rs: create, SimpleZK::verify"]}
{"id": "C41", "title": "SimpleZK is perfectly witness-hiding", "statement": "For any two witnesses w1,w2 with A w1 = A w2 there is a bijection between blinding vectors under which create produces the identical proof and transcript for w1 and w2; and for every statement t = A w the proof is reproduced, without w, by a simulator that is given beta and a vector w' related bijectively to the blinding vector; the simulated proof is accepted whenever the hash is programmed to return beta.", "quantifier": "all A, witnesses, blinding vectors, hash functions", "why_tests_cant": "Zero-knowledge is a statement about distributions over all randomness.", "anchors": ["src/lmpa/simple_zk.rs: create"]}
{"id": "C42", "title": "SimpleZK knowledge soundness for the first row", "statement": "From C37 trees for two distinct beta and the same a, an explicit extractor outputs w with (A w)_0 = t_0.", "quantifier": "all statements, proofs, hash functions", "why_tests_cant": "Soundness quantifies over all provers.", "anchors": ["src/lmpa/simple_zk.rs: SimpleZK::verify"]}
{"id": "C43", "title": "k-ary linear-map preimage argument completeness", "statement": "For k >= 2, n = r*k^d with r < k, r >= 1, m >= 1, A of shape m x n and t = A w: create_lmpa_noZK returns a proof with d rounds of 2k-1 messages and verify_lmpa_noZK accepts it, provided the round challenges are non-zero.", "quantifier": "all k, d, r, m, A, w, transcripts, hash functions", "why_tests_cant": "One test with k = 5, d = 3.", "anchors": ["src/lmpa/no_zk.rs: create_lmpa_noZK, verify_lmpa_noZK"]}
{"id": "C44", "title": "k-ary linear-map verifier accepts forged proofs for every statement", "statement": "FINDING: verify_lmpa_noZK compares prover-supplied data with prover-supplied data: for every A of matching shape, every t and every hash function there is a proof, computed without a witness, that it accepts; its verdict does not depend on t when n >= k, and never on the values in A.", "quantifier": "all A, t, n, m, k, hash functions", "why_tests_cant": "Completeness tests cannot see soundness failures.", "anchors": ["src/lmpa/no_zk.rs: verify_lmpa_noZK"]}
{"id": "C45", "title": "k-ary argument: termination and divisibility", "statement": "create_lmpa_noZK panics for k = 0, does not terminate for k = 1 and n >= 1 (with A and w of n columns), and for k >= 2 terminates; for well-shaped input it returns iff n = r*k^d with r < k; verify always terminates.", "quantifier": "all n, k, A, w, proofs", "why_tests_cant": "Non-termination cannot be observed by a finite test.", "anchors": ["src/lmpa/no_zk.rs: create_lmpa_noZK, verify_lmpa_noZK"]}
{"id": "C46", "title": "SimpleZK_general completeness and its gap", "statement": "verify_general accepts create_general's proof of t = A w whenever at least one folding round takes place (n >= k) and the round challenges are non-zero; FINDING: when n < k the honest proof is checked against beta*t+a while the prover used the unblinded witness, and there are true statements for which the honest proof is rejected.", "quantifier": "all n, k, A, w, tapes; existence for the finding", "why_tests_cant": "Only k = 5, n = 125 is tested.", "anchors": ["src/lmpa/simple_zk.rs: create_general, SimpleZK_general::verify_general"]}
{"id": "C47", "title": "SimpleZK_general does not blind the witness", "statement": "FINDING: the blinded witness is computed and discarded: the proof's response equals the (folded) raw witness for every tape; for n < k the proof contains w verbatim.", "quantifier": "all A, w, tapes, hash functions", "why_tests_cant": "Absence of blinding is a property of all tapes.", "anchors": ["src/lmpa/simple_zk.rs: create_general"]}
{"id": "C48", "title": "Pedersen commitments are additively homomorphic", "statement": "pedersen_commit(H,G,m,r) = <m,G> + r H when |m| = |G|, panics otherwise, and a1*commit(m1,r1)+a2*commit(m2,r2) = commit(a1 m1+a2 m2, a1 r1+a2 r2).", "quantifier": "all generators, messages, randomness, coefficients", "why_tests_cant": "The test checks a single one-element message.", "anchors": ["src/lmpa/simple_zk.rs: pedersen_commit"]}
{"id": "C49", "title": "Challenges are near-uniform reductions of 64 bytes and functions of the whole history", "statement": "challenge_scalar returns the little-endian 64-byte hash output modulo the group order (a canonical scalar); every scalar has floor(2^512/l) or floor(2^512/l)+1 preimages; equal histories give equal challenges and each draw extends the history.", "quantifier": "all 64-byte strings / histories, the real group order", "why_tests_cant": "2^512 inputs.", "anchors": ["src/transcript.rs: challenge_scalar"]}
{"id": "C50", "title": "Transcript layout: every prover message is absorbed before the challenge it must precede", "statement": "For each of the arguments (IPA no-zk, almost-zk, QESA inner, copy, binary LMPA, SimpleZK, k-ary LMPA) whenever verify returns, the final history is the initial one followed by an explicit, fixed sequence of labelled messages and challenges in which all messages of a round precede its challenge; so the challenges of a round are a function of all earlier messages.", "quantifier": "all proofs, statements, transcripts, hash functions", "why_tests_cant": "Ordering of absorption is invisible to completeness tests.", "anchors": ["src/ipa/no_zk.rs", "src/ipa/alm_zk.rs", "src/ipa/qesa_inner.rs", "src/copy/copy.rs", "src/lmpa/no_zk.rs", "src/lmpa/simple_zk.rs"]}
{"id": "C51", "title": "SimpleZK and binary LMPA do not bind t (and A) into the challenges", "statement": "FINDING: A and t are never absorbed; for every hash function with non-zero beta a prover can choose t_0 outside the image of row 0 of A (e.g. A = 0, t != 0) and a proof that SimpleZK verify accepts.", "quantifier": "all hash functions with non-zero challenges", "why_tests_cant": "Adaptive attack for every hash function.", "anchors": ["src/lmpa/simple_zk.rs: SimpleZK::verify", "src/lmpa/no_zk.rs: NoZK::verify"]}
{"id": "C52", "title": "QESA proofs do not bind the committed witness", "statement": "FINDING: verify only uses the sum c'_w + c''_w and c''_w is sent after x, so for every system, every point sent as c'_w (with or without a known opening) and every vector chosen after seeing x that satisfies the single batched equation there is an accepted proof. In particular w_0 w_1 = 0, w_0 w_1 = w_0^2 (no solution with w_0 = 1) is accepted for every c'_w and every hash function with 1 + x and alpha non-zero.", "quantifier": "all n = 2^d >= 4, generators, systems, commitments, hash functions", "why_tests_cant": "Soundness quantifies over all provers.", "anchors": ["src/ipa/qesa_inner.rs: Inner::verify", "src/qesa_zk.rs: Zk::verify"]}
{"id": "C53", "title": "Copy proofs do not bind the commitments", "statement": "FINDING: for every mapping, every list of points presented as commitments (with or without known openings), every C_w and every vector chosen after both challenges that satisfies the batched equation there is a copy proof that verify accepts; in particular the prover can use any messages it likes in the witness, whatever the commitments contain.", "quantifier": "all n = 2^d >= 4, generators, mappings, commitments, caller systems and messages satisfying them, hash functions with non-zero IPA challenge", "why_tests_cant": "Soundness quantifies over all provers.", "anchors": ["src/copy/copy.rs: Copy::verify"]}
{"id": "C54", "title": "Copy equations are dropped when the caller supplies n or more matrices", "statement": "FINDING: the copy matrices are pushed behind the caller's; with at least n caller matrices verify returns exactly the verdict of the QESA verifier on the caller's system alone, so the verdict does not depend on the mapping.", "quantifier": "all proofs, mappings, systems with at least n matrices", "why_tests_cant": "No test passes that many matrices.", "anchors": ["src/copy/copy.rs: Copy::verify", "src/matrix.rs: block_matrix_batch"]}
{"id": "C55", "title": "Copy proofs do not absorb the commitments", "statement": "FINDING: alpha is drawn before the commitments are absorbed and only sum alpha^(k+1) C_k is used: verify gives the same result for any two commitment lists with equal combination, for instance C_1 + alpha D, C_2 - D instead of C_1, C_2 for every point D.", "quantifier": "all proofs, mappings, systems, commitments, hash functions", "why_tests_cant": "Adaptive choice of the statement for every hash function.", "anchors": ["src/copy/copy.rs: Copy::verify"]}
{"id": "C56", "title": "Copy equations force witness entries to equal the committed messages", "statement": "If C_w commits to v (v_0 = 1) and commitment k opens to message m_k over its index set (indices distinct, not 0, below n-2), and the copy equations hold for the combined vector at more than K (number of commitments) distinct alpha, then every message m_k[j] equals v at the position assigned to it and v is zero at every commitment index.", "quantifier": "all n, index families, messages, vectors, sets of challenges", "why_tests_cant": "Quantifies over all committed vectors and challenges.", "anchors": ["src/copy/copy.rs: Copy::create, Copy::verify", "src/copy/mapping.rs: compute_mapping"]}
{"id": "C57", "title": "Verifiers terminate on every input; so do the inner-product, QESA and copy provers", "statement": "Whatever the proof, statement, dimensions, transcript and hash function, every verifier (IPA, almost-zk, QESA inner and zk, copy, binary LMPA, SimpleZK, k-ary LMPA, general) returns or panics: it never loops. The same holds of the IPA, almost-zk, QESA and copy provers, for every random tape.", "quantifier": "all inputs, well-formed or not", "why_tests_cant": "Non-termination cannot be observed by a finite test; inputs are unbounded.", "anchors": ["src/ipa/no_zk.rs", "src/ipa/alm_zk.rs", "src/ipa/qesa_inner.rs", "src/qesa_zk.rs", "src/copy/copy.rs", "src/lmpa/no_zk.rs", "src/lmpa/simple_zk.rs"]}
{"id": "C58", "title": "Exactly which proofs make a verifier panic", "statement": "For a well-formed statement each verifier returns a verdict iff the proof has an explicit shape, and panics otherwise: IPA iff all L and R decode and n = 2^|L|; almost-zk additionally iff C_r decodes; QESA additionally iff both commitments decode; copy iff C_w and c''_w decode (the inner c'_w is not looked at); binary LMPA, for any n, generators and (ragged) matrix, iff n = |G| >= 1, there is a row, every row length is divisible by 2^d with d = floor(log2 n) (it need not be n, nor n a power of two), there are at least d left and right vectors, and t and the first d of each are non-empty (any other lengths are accepted); k-ary iff the first d blocks have at least 2k-1 rows of which the first 2k-1 have equal length, and the two compared vectors are non-empty.", "quantifier": "all proofs, hash functions, transcripts; all n, d, k", "why_tests_cant": "The set of malformed proofs is unbounded; no test feeds one.", "anchors": ["src/ipa/no_zk.rs: NoZK::verify", "src/ipa/alm_zk.rs: AlmZK::verify", "src/ipa/qesa_inner.rs: Inner::verify", "src/copy/copy.rs: Copy::verify", "src/lmpa/no_zk.rs", "src/lmpa/simple_zk.rs"]}
{"id": "C59", "title": "Almost-zk prover: exactly when it returns, and honest inputs on which it always panics", "statement": "With vectors of length n, create returns iff n = 2^d >= 2 and four explicit inner products of the inputs with the drawn masks are non-zero. FINDING: hence it panics for every random tape (although the statement is true) when a or b vanishes at the mask positions M_n^+ (non-zero vectors for n >= 16), when a is proportional to b and b is not isotropic (e.g. proving <a,a>), and when n = 1.", "quantifier": "all vectors, tapes, generators, hash functions", "why_tests_cant": "Tests draw random vectors, for which these cases have negligible probability.", "anchors": ["src/ipa/alm_zk.rs: create", "src/ipa/gramschmidt.rs"]}
{"id": "C60", "title": "The last message reveals fixed combinations; for n = 2 the almost-zk proof does not hide b", "statement": "The final scalars of the inner-product proof are sum_i s'_i a_i and sum_i s_i b_i with s, s' the products of the public challenges at the one / zero bits of i. FINDING: for n = 2 the second mask of the almost-zk prover is zero for every tape (it is orthogonal to two independent vectors), so the proof reveals b_0 + x b_1 = nz_b / beta for the public x.", "quantifier": "all vectors, tapes with non-isotropic projections, generators, hash functions", "why_tests_cant": "Hiding cannot be tested by completeness runs.", "anchors": ["src/ipa/alm_zk.rs: create", "src/ipa/no_zk.rs: create"]}
{"id": "C61", "title": "Proofs are malleable", "statement": "FINDING: LMPA and SimpleZK verifiers give the same verdict when left/right vectors beyond the first log2 n are appended to a proof; the k-ary verifier ignores surplus blocks and the t_Vec field; the copy verifier ignores the commitment c'_w stored in the inner proof. Hence every accepted proof of these kinds has a different accepted proof for the same statement.", "quantifier": "all proofs, appended data, statements, hash functions", "why_tests_cant": "Non-malleability quantifies over all proofs.", "anchors": ["src/lmpa/no_zk.rs: verify, verify_general", "src/lmpa/simple_zk.rs: verify", "src/copy/copy.rs: Copy::verify"]}
{"id": "C62", "title": "Batching of the rows of a linear-map statement", "statement": "The batched row has entries sum_i y^i A_ij, and w satisfies the batched equation with right-hand side sum_i y^i t_i at m distinct y iff A w = t (so fewer than m bad challenges). The crate's tests of this step pass for all draws (columns 2^d, respectively n + 1 = 2^d). FINDING: the target is never batched (the transposed column is zipped with y^0 only), and in the batched test the batched equation is row 1, which verify ignores: any value is accepted in its place.", "quantifier": "all m, n, matrices, witnesses, challenges, tapes, hash functions", "why_tests_cant": "Statement about all challenge values and dimensions.", "anchors": ["src/lmpa/simple_zk.rs: test_lmpa_simple_zk_create_verify_efficient_communication, test_lmpa_batch", "src/math_utils.rs: vandemonde_vector", "src/matrix.rs: matrixpoint_transpose, matrixpoint_vector_mul"]}
{"id": "C63", "title": "Pedersen commitments: perfect hiding, binding up to relations", "statement": "If the blinding generator generates the group, every point opens to every message of the right length with exactly one blinding. Two different openings of one point yield a non-trivial linear relation between the generators, and a relation turns any opening into another. The same for the index-set commitments of the copy argument when indices are distinct and exclude the last generator. FINDING: commit does not check this; with the last index or a repeated index the commitment opens to other messages without any relation.", "quantifier": "all generators, messages, blindings, index sets", "why_tests_cant": "Hiding and binding are statements about all openings.", "anchors": ["src/lmpa/simple_zk.rs: pedersen_commit", "src/copy/mapping.rs: commit"]}
{"id": "C64", "title": "End-to-end special soundness of the copy argument", "statement": "Let C_w be opened by w' with w'_0 = 1, every commitment by its messages, every c''_w over H. From accepting runs of the copy verifier for more than 2K challenges alpha (K commitments), for each as many x as there are equations, for each of them a tree over the remaining challenges, either an explicit finder returns a non-trivial linear relation between the generators, or w' satisfies all equations of the caller, holds every committed message at its assigned position and is zero at every commitment index.", "quantifier": "all n >= 3, systems, index families, messages, transcripts, challenge trees", "why_tests_cant": "Soundness quantifies over all provers and challenges.", "anchors": ["src/copy/copy.rs: Copy::verify", "src/ipa/qesa_inner.rs: Inner::verify", "src/copy/mapping.rs: compute_mapping"]}
{"id": "C65", "title": "Exact outcome of the randomised mapping test", "statement": "For every sequence of index draws in [1, n-2) the test test_random_compute_mapping (any n in 3..65535, any number of commitments and of draws per commitment) passes exactly when at least one message exists and the number of messages plus the number of distinct drawn indices is at most n-3; otherwise it panics, and no assertion after the call of compute_mapping can be the one that fails. With 2K+3 <= n (K draws in all) it always passes. With n = 2K+2, the size the test uses and its comment calls sufficient, it panics exactly on pairwise distinct draws: 51891840 of the 815730721 possible draw sequences of the test as written.", "quantifier": "all n, numbers of commitments, draws per commitment and draw sequences", "why_tests_cant": "the test is random: a run sees one draw sequence out of 815 million and fails on about one in sixteen", "anchors": ["src/copy/mapping.rs:147-220"]}
{"id": "C66", "title": "Equation systems built by the QESA tests", "statement": "helper_create_solutions returns exactly when n >= 1, the drawn witness is not isotropic and no drawn row is orthogonal to it (otherwise it panics); every row of every matrix it returns vanishes on the witness, so its test cannot fail once the helper returns. The second helper returns the fixed system w1*w1 = w3*w0 with a satisfying witness for at least five entries, and panics for four or fewer. Both proof tests pass whenever the prover returns and no exceptional challenge or isotropic vector occurs.", "quantifier": "all random tapes, sizes, numbers of matrices, oracles, generators", "why_tests_cant": "the tests fix n and sample one tape", "anchors": ["src/ipa/qesa_inner.rs:219-357"]}
{"id": "C67", "title": "Exact room condition and outcome of the copy tests", "statement": "For messages of any sizes k_1..k_m with index sets {1..k_i}, the mapping of the copy tests exists exactly when there is a message and max k_i + sum k_i + 3 <= n; otherwise the test panics, although its own assertion n - 3 > sum k_i can hold. When the mapping exists, the prover returns and no exceptional value occurs, both copy tests pass.", "quantifier": "all message sizes, n < 65536, random tapes, oracles, generators", "why_tests_cant": "the tests use two fixed size lists at n = 32 and n = 16", "anchors": ["src/copy/copy.rs:242-409"]}
{"id": "C68", "title": "Exactly which inputs the QESA, zero-knowledge and copy provers accept", "statement": "A returning run of the inner QESA prover implies at least one matrix, |H| = |G| = 2^(d+2), |w| = |G| - 2 and |r'| = 2, whatever the inputs; for matrices of one common shape m x c it returns if and only if in addition m = c = |G| - 2, both masks can be sampled and the four mask products are non-zero. A returning run of the copy prover implies that the mapping counts as many commitments as there are openings, at least one opening, w starts with the constant 1, |w| <= |G| - 2, |H| = |G| = 2^(d+2); for a well-formed mapping and matching messages this together with the draw condition is also sufficient. Every violation is a panic, never an endless loop or a proof. The number of messages is not checked by the copy prover.", "quantifier": "all generators, matrices, witnesses, mappings, openings, oracles and random tapes", "why_tests_cant": "tests only call the provers with well-formed inputs; none of the assertions is exercised", "anchors": ["src/ipa/qesa_inner.rs:20-114", "src/qesa_zk.rs:12-33", "src/copy/copy.rs:23-161"]}
{"id": "C69", "title": "The f64 experiments with protocols 3.9 and 3.14", "statement": "Run in exact arithmetic, test_lmpa_noZK_float accepts exactly when the target is the matrix-vector product, for every k >= 2, every number of rounds, every non-zero x; both 3.14 experiments accept whatever the claimed target t_expected is, because it is overwritten before the comparison (for every number type, binary64 included); the first 3.14 experiment panics as soon as two rounds are needed; the second never ends when there are no rows. In binary64 the three tests as written (x = 2.0) pass, and with x = 3.0 the 3.14 tests fail by rounding.", "quantifier": "all k, d, m, x <> 0, all matrices and witnesses of the stated shapes, all number types for the target and panic claims", "why_tests_cant": "each test runs one size with one x, and no test gives a wrong target", "anchors": ["src/lmpa/no_zk.rs:420-568", "src/lmpa/no_zk.rs:602-821", "src/lmpa/no_zk.rs:824-1006", "src/matrix.rs:148-234"]}
{"id": "C70", "title": "Outcomes of the remaining unit tests", "statement": "Every unit test not treated elsewhere is modelled with its random draws and sizes as parameters. test_vandermonde passes for every base and positive size. test_orth and test_sample_gram_schmidt pass exactly when the asserted product and <a,a> are non-zero; test_sample_gram_schmidt_twice exactly when the three asserted products are non-zero and neither a nor the part of b away from a is isotropic (or, for isotropic a, by one exact coincidence). test_create_nozk_proof passes on every draw for a power-of-two size unless alpha = 0, when it passes only if t*Q = 0; other sizes panic. test_create_almzk_proof panics outside the stated draws and passes inside them when the named products and alpha are non-zero. The two binary linear-map tests always pass; the k-ary ones pass when no challenge is zero; test_commitment_combination passes exactly for one generator.", "quantifier": "all draws (vectors, matrices, generators, tapes), all sizes, all random oracles", "why_tests_cant": "A test runs once with fresh randomness at one size; it cannot tell an exact identity from one that fails on a thin set of draws, and never shows what happens on that set.", "anchors": ["src/math_utils.rs:22-37", "src/ipa/gramschmidt.rs:63-97", "src/ipa/no_zk.rs:188-220", "src/ipa/alm_zk.rs:120-156", "src/lmpa/no_zk.rs:389-417", "src/lmpa/no_zk.rs:570-599", "src/lmpa/simple_zk.rs:153-211", "src/lmpa/simple_zk.rs:249-269"]}
{"id": "C71", "title": "How many random tapes make an honest almost-zk run fail", "statement": "Draw the prover's masks letter by letter from any finite set of q scalars. For n = 2^(d+1) >= 2 and any vectors a, b: either the prover panics on every tape, or it panics on at most 5 q^(K-1) of the q^K tapes of length K. With a, b and one residual direction not isotropic and no zero challenge, prover plus verifier fail on at most 7 q^(K-1) tapes. When a and b are drawn as well, as the unit test does, the test fails on at most 21 q^(K-1) of the tapes, for every such n, all generators and every oracle without zero values.", "quantifier": "all n = 2^(d+1) >= 2, all vectors, generators, finite sets of scalars, tape lengths, oracles", "why_tests_cant": "The failing set has density about 1/2^252: no test ever lands in it, and a test cannot distinguish a negligible failure rate from, say, one in a million.", "anchors": ["src/ipa/gramschmidt.rs:4-61", "src/ipa/alm_zk.rs:20-117", "src/ipa/alm_zk.rs:120-156"]}
{"id": "C72", "title": "The verifiers take the problem size from the generators, not from the statement", "statement": "IPA and almost-zk verify ignore generators beyond the first n. LMPA and SimpleZK (prover and verifier) use nothing of G but its length and nothing of H and Q. FINDING: their verifiers never compare the matrix width with n: with d = floor(log2 n), the verdict on rows of length divisible by 2^d is that on every (length/2^d)-th column, the others are not looked at. The honest run on width e*2^d is accepted iff the leftover columns 1..e-1 of the folded first row cancel; for e = 1 it is accepted for every n, power of two or not.", "quantifier": "all proofs, matrices, generators, n, e, hash functions", "why_tests_cant": "Tests use |G| = n = matrix width only.", "anchors": ["src/ipa/no_zk.rs: NoZK::verify", "src/ipa/alm_zk.rs: AlmZK::verify", "src/lmpa/no_zk.rs: create, verify", "src/lmpa/simple_zk.rs: create, verify"]}
{"id": "C73", "title": "compute_mapping without overflow checks", "statement": "In a build without overflow checks the u16 subtraction n - 2 wraps: compute_mapping behaves as in the checked build when n mod 2^16 >= 2; otherwise it does not panic there but places the messages in [witness_size, 65534 + n mod 2^16), returning iff there is room. FINDING: so for n a multiple of 2^16 the release build returns positions inside the witness where the debug build panics, and for n = 0, 1 it returns positions of a witness that does not exist.", "quantifier": "all n, witness sizes, index sets", "why_tests_cant": "Tests run with overflow checks and n <= 32.", "anchors": ["src/copy/mapping.rs: compute_mapping"]}
{"id": "C74", "title": "How many challenges and random tapes make an honest QESA, zero-knowledge QESA or copy run fail", "statement": "Draw the challenges x, s, b and the first inner challenge, and then the prover's tape (including the two blinding scalars of the zk wrapper and of the copy argument), from any finite set of q scalars. For every satisfied system, witness with w_0 = 1, n = 2^(d+2), generators, and tape length K, prover plus verifier fail (panic or reject) on at most (2n + 30) q^(K+3) of the q^(K+4) choices. For the copy argument the copy challenge alpha is drawn as well and the bound is (2n + 30) q^(K+4) of q^(K+5), without any value of alpha being excluded.", "quantifier": "all satisfied systems, witnesses, sizes n = 2^(d+2), generators, commitments, finite sets of scalars, tape lengths, all oracles that answer the named challenges with the drawn values", "why_tests_cant": "The failing choices have density about n/2^251: no test lands in them, and passing tests do not bound a failure rate.", "anchors": ["src/ipa/qesa_inner.rs:20-113", "src/ipa/qesa_inner.rs:117-186", "src/qesa_zk.rs:12-45", "src/copy/copy.rs: CopyProof::create", "src/copy/copy.rs: CopyProof::verify", "src/ipa/gramschmidt.rs:4-61"]}
{"id": "C75", "title": "How many challenges a prover without a witness can answer", "statement": "Run the arguments interactively with challenges drawn from any q scalars, against any prover strategy (each message an arbitrary function of the challenges seen so far). If the verifier accepts more than the stated number of the q^mu challenge words, a tree consisting of accepted runs exists on which the extractor outputs a witness or a non-trivial relation of the generators: (2+3d) q^d of q^(d+1) for the inner-product argument with n = 2^d, (4+3d) q^(d+1) of q^(d+2) for almost-zk, (n+4+3d) q^(d+3) of q^(d+4) for QESA with fixed x, (m+n+4+3d) q^(d+4) for QESA with m equations and provers opening their commitments, 2K more for the copy argument with K commitments. For the linear-map arguments, where no relation is needed: a false first row is accepted for at most 2d q^(d-1) of q^d words, and the bound is attained for d = 1.", "quantifier": "all prover strategies, statements, generators, sizes, finite challenge sets", "why_tests_cant": "Tests run honest provers; no test can quantify over all cheating strategies or measure a soundness error.", "anchors": ["src/ipa/no_zk.rs: NoZK::verify", "src/ipa/alm_zk.rs: AlmZK::verify", "src/ipa/qesa_inner.rs: Inner::verify", "src/copy/copy.rs: Copy::verify", "src/lmpa/no_zk.rs: NoZK::verify", "src/lmpa/simple_zk.rs: SimpleZK::verify"]}
{"id": "C76", "title": "The almost-zk argument is honest-verifier zero-knowledge", "statement": "For n = 2^(d+1) >= 8, with the challenges drawn at random: (1) fix the challenges and the first mask, and let nothing degenerate there (a rank condition, decidable by elimination); then for every test on the proof, the number of second masks for which the honest proof passes is exactly (q-1)^2 times the number of views (2d+2 scalars) for which a proof simulated from two scalars and the view, without a and b, passes. (2) The verifier accepts every simulated proof. (3) With masks and challenges all drawn, if one non-degenerate point exists, the counts of honest and simulated (challenges, proof) pairs passing any test differ by at most (3d+7)((2d+1)4n^2+d+5) parts in q. (4) So two witnesses of one statement are indistinguishable up to twice that.", "quantifier": "all n = 2^(d+1) >= 8, witnesses, generators with known mutual logarithms, statements, transcripts, tests on (challenges, proof), complete lists of scalars", "why_tests_cant": "Zero-knowledge compares two distributions over about 2^2000 tapes; a test sees single runs.", "anchors": ["src/ipa/alm_zk.rs:17-76", "src/ipa/alm_zk.rs:80-110", "src/ipa/no_zk.rs:28-108", "src/ipa/gramschmidt.rs:4-61"]}
{"id": "C77", "title": "The QESA argument is honest-verifier zero-knowledge", "statement": "For n = 2^(d+1) >= 8 and a satisfied system: (1) with the d+6 challenges, the two blinding scalars and both masks all drawn, the number of runs of zk::create whose (challenges, proof) pass a test differs from (q-1)^2 q^(2d+2) times the number of simulated ones by at most ((3d+12)((8n+2d+1)4n^2+32n+d+5)+5) parts in q. The simulated proof is computed from the public system, two random commitments and 2d+4 scalars, without the witness. (2) The verifier accepts every simulated proof whose alpha and x_j are not zero, also for unsatisfiable systems. (3) Two witnesses of one system are indistinguishable up to twice that bound.", "quantifier": "all n = 2^(d+1) >= 8, systems of (n-2)x(n-2) matrices, witnesses, generators with known mutual logarithms that are good in the sense of C85 (almost all are), transcripts, tests on (challenges, proof), complete lists of scalars", "why_tests_cant": "Compares two distributions over about 2^6000 tapes; a test sees single runs, and a proof that leaks the witness verifies just as well.", "anchors": ["src/qesa_zk.rs:12-33", "src/ipa/qesa_inner.rs:20-114", "src/ipa/alm_zk.rs:17-76", "src/ipa/gramschmidt.rs:4-61"]}
{"id": "C78", "title": "The copy argument is honest-verifier zero-knowledge", "statement": "For n = 2^(d+1) >= 8, honest openings of k public commitments and a satisfied system: (1) with the d+7 challenges, the two blinding scalars and both masks all drawn, the number of runs of copy::create whose (challenges, proof) pass a test differs from (q-1)^2 q^(2d+2) times the number of simulated ones by at most ((3d+13)((8(n+k)+2d+1)4n^2+32(n+k)+d+5)+6) parts in q. The simulated proof is computed from the public commitments, system and mapping, two random scalars and 2d+4 further ones, without witness, messages or commitment randomness. (2) The verifier accepts every simulated proof whose alpha and x_j are not zero, for any commitments. (3) Two witnesses, and two ways of opening the same commitments, are indistinguishable up to twice that bound.", "quantifier": "all n = 2^(d+1) >= 8 below 65536, index sets behind the caller's witness, openings, systems, witnesses, generators with known mutual logarithms that are good in the sense of C85 (almost all are), transcripts, tests on (challenges, proof), complete lists of scalars", "why_tests_cant": "Compares two distributions over tapes; a test sees single runs, and a proof that leaks a committed message verifies just as well.", "anchors": ["src/copy/copy.rs:23-158", "src/copy/mapping.rs:31-47", "src/ipa/qesa_inner.rs:20-114", "src/ipa/alm_zk.rs:17-76"]}
{"id": "C79", "title": "Hashing the challenges (Fiat-Shamir): what a prover with T hash queries can achieve", "statement": "Model the hash as a table of answers (from any finite set of q scalars) on a finite set D of transcripts, and the prover as any adaptive program that makes at most T queries and then outputs a proof for a fixed statement. If, over the q^|D| tables, the prover convinces the verifier for more than K T q^(|D|-1) of them, there is a tree of the prover's own accepted proofs on which the extractor outputs a witness or a non-trivial relation of the generators: K = 3 for the inner-product and almost-zk arguments, max(3, n-2) for one batched QESA equation, max(3, n-2, m) for all m equations and provers that output their openings, also 2k for the copy argument with k commitments. For the linear-map arguments K = 2 and no relation is needed: for a false first row no prover exceeds 2 T q^(|D|-1) tables. The T queries include the challenges of the proof itself, which any prover can ask last.", "quantifier": "all adaptive provers, query bounds T, statements fixed in advance, generators, sizes, initial transcripts, finite answer sets and finite sets of transcripts containing the queries; provers whose L and R have equal length (inner-product family)", "why_tests_cant": "A cheating prover can retry first messages until the hash suits it; tests only run the honest prover, and no test quantifies over adaptive provers or hash functions.", "anchors": ["src/transcript.rs", "src/ipa/no_zk.rs: NoZK::verify", "src/ipa/alm_zk.rs: AlmZK::verify", "src/ipa/qesa_inner.rs: Inner::verify", "src/copy/copy.rs: Copy::verify", "src/lmpa/no_zk.rs: NoZK::verify", "src/lmpa/simple_zk.rs: SimpleZK::verify"]}
{"id": "C80", "title": "Inner-product proofs with fewer R than L points are no weaker, and the hashed-challenge bounds hold for every prover", "statement": "The verifiers zip L and R, so an inner-product proof whose R is shorter than L is checked with only min(|L|,|R|) folding rounds, against the first of the remaining folded generators; with R empty, the scalars a and b alone prove the statement with witness (a,0,...),(b,0,...), and no point of L is bound to the transcript. Whenever such a proof is accepted, an honest continuation with the witness (a,0,...),(b,0,...) completes it, with d+1 further queries to the hash, to an accepted proof of the same statement with one round per halving that keeps the given rounds; the same holds inside the almost-zk (d+2), QESA (d+5) and copy (d+6) proofs. Hence the bounds of C79, with T plus this number of queries, hold for every adaptive prover, without a premise on the lengths of L and R or on which challenges it asks.", "quantifier": "all proofs with lists of any length, all statements, generators, sizes 2^d, oracles and initial transcripts; all adaptive provers with T queries, all finite answer sets and query sets", "why_tests_cant": "No test builds a proof with lists of different lengths; that truncation gives a cheating prover nothing is a statement about all provers.", "anchors": ["src/ipa/no_zk.rs: NoZK::verify", "src/ipa/alm_zk.rs: AlmZK::verify", "src/ipa/qesa_inner.rs: Inner::verify", "src/copy/copy.rs: Copy::verify"]}
{"id": "C81", "title": "Builds without overflow checks: wrapped subtractions never produce an answer, the wrapped shift 1 << |L| admits surplus points in L and nothing more", "statement": "In a release build the usize subtractions (n-1, n-2, (n-2)-|w|, shift+j-i) wrap around and 1 << |L| in NoZK::verify shifts by |L| mod 64. With vectors of at most cap entries, 2 cap + 2 < 2^bits: vandemonde_challenge, vandemonde_vector (both versions), the mask sampler, the QESA and copy provers, and the prover and verifier of the k-ary argument (all its loops), have the same outcome as with overflow checks. NoZK::verify, and the almost-zk, QESA and copy verifiers built on it, give a verdict exactly when every point of L decodes, |L| < 64 or |R| <= |L| mod 64, and the checked verifier gives that verdict on the proof with L cut to |L| mod 64 points. So the two builds do not agree: a proof with 64 surplus points in L is accepted by a release build and panics in a debug build. The surplus is worthless: for every prover and hash table the release verifier accepts no more often than the checked one does for the same prover with the surplus dropped, so the bounds of C80 carry over.", "quantifier": "all inputs within the vector capacity, all proofs with lists of any length, oracles, transcripts, usize widths; all adaptive provers, answer sets and query sets", "why_tests_cant": "Tests run with overflow checks on and never build proofs with 64 or more points in L.", "anchors": ["src/ipa/no_zk.rs: NoZK::verify", "src/math_utils.rs: vandemonde_challenge", "src/matrix.rs: vandemonde_vector", "src/ipa/gramschmidt.rs: sample_m_n_plus", "src/ipa/qesa_inner.rs: create, Inner::verify, compute_gamma_prime", "src/copy/copy.rs: create, Copy::verify", "src/lmpa/no_zk.rs: create_lmpa_noZK, verify_lmpa_noZK"]}
{"id": "C82", "title": "Zero-knowledge with hashed challenges: a distinguisher that queries the hash function before and after it sees a proof, against a simulator that sets the answers at that proof's challenges", "statement": "A distinguisher makes T1 adaptive queries, is given one QESA proof (or copy proof), makes T2 further queries and gives a verdict. Played with the prover, every challenge is the hash function's answer at the running transcript, which the distinguisher may ask for; played with the simulator, the proof is made without a witness and the answers at the challenges of its verification are replaced. Over all answers, challenges and random scalars the two numbers of plays with verdict true (the second scaled by the number of unused random scalars) differ by at most (c + T1 + 1) / |F| of all plays, c the constant of C77 or C78. In particular no distinguisher tells two witnesses (or two openings of the same commitments) apart by more than twice that. On the way: prover and verifier end on the same transcript, whether or not the proof is accepted, for the inner product argument, the almost-zk argument, and for QESA and copy unless the challenge x is 0.", "quantifier": "all distinguishers, query numbers, witnesses, systems, generators that are good in the sense of C85 (almost all are), sizes n = 2^(d+1) >= 8, complete finite scalar fields, base point not the identity", "why_tests_cant": "Requires counting over all answers of a random hash function; tests fix one transcript and never simulate.", "anchors": ["src/qesa_zk.rs:12-33", "src/ipa/qesa_inner.rs:20-114", "src/ipa/alm_zk.rs:17-76", "src/ipa/no_zk.rs", "src/copy/copy.rs:23-158", "src/transcript.rs"]}
{"id": "C83", "title": "Zero-knowledge with hashed challenges for any number of proofs of adaptively chosen statements", "statement": "A client interleaves T queries to the hash function with P requests for QESA proofs (or copy proofs), each request naming a statement (system, commitments, index sets, application transcript) chosen after what it has seen, and finally decides. Answered by the prover, the proofs use the same hash function the client sees; answered by the simulator, each proof is made without its witness and the answers at its challenges are replaced. Over all answers, challenges and random scalars the numbers of sessions with verdict true (the second scaled by the number of unused random scalars per proof) differ by at most P (c + T + (d+6) P + 1) / |F| of all sessions for QESA, with d+7 and the constant of C78 for copy. In particular two assignments of witnesses (and openings) to the same statements are told apart by at most twice that.", "quantifier": "all clients, query and request numbers, families of statements with witnesses, generators that are good in the sense of C85 (almost all are), sizes n = 2^(d+1) >= 8, complete finite scalar fields, base point not the identity", "why_tests_cant": "Requires counting over all answers of a random hash function and all adaptive clients; tests make single proofs and never simulate.", "anchors": ["src/qesa_zk.rs:12-33", "src/ipa/qesa_inner.rs:20-114", "src/ipa/alm_zk.rs:17-76", "src/ipa/no_zk.rs", "src/copy/copy.rs:23-158", "src/transcript.rs"]}
{"id": "C84", "title": "SimpleZK is zero-knowledge when the challenges come from the hash function", "statement": "For n = 2^d columns, any number of rows >= 1 and a first row that is not all zero: a distinguisher that makes at most T1 adaptive queries to the hash function before it gets a SimpleZK proof and T2 after it has the same number of winning runs, up to T1*|F|^(d+n+T1+T2) of the |F|^(d+1+n+T1+T2), whether the proof is made by simple_zk create with the witness or by a simulator that has no witness, draws the challenges itself and lets the hash function agree with them. For P proofs of statements that are chosen adaptively, with T queries altogether, the difference is at most P*(T+(d+1)P) of |F| in the same sense; so two lists of witnesses of the same statements cannot be told apart.", "quantifier": "all prime fields and groups with the laws of CryptoLaws, all sizes, matrices, witnesses, initial transcripts, all (adaptive) distinguishers, all numbers of queries and proofs", "why_tests_cant": "Quantifies over all distinguishers and compares numbers of runs over all random choices; a test runs one proof.", "anchors": ["src/lmpa/simple_zk.rs:18-47", "src/lmpa/simple_zk.rs:124-148", "src/lmpa/no_zk.rs:17-79"]}
{"id": "C85", "title": "Zero-knowledge needs only a condition on the generators, which almost all generators satisfy", "statement": "Call generators good if, for some nonzero challenges, at every folding level k = 2^j >= 2 the 2x2 determinant h_0 h_(k+1) - h_1 h_k of the folded logarithms of the second list is not zero, and g_(n-2) h_(n-2) + g_(n-1) h_(n-1) is not zero. (1) Any test of generators that flags only lists that are not good flags at most 2n(2d+2) in |F| of all pairs of lists of n = 2^(d+1) generators. (2) With generators, challenges, blinding scalars and masks all drawn, the number of QESA runs whose (generators, challenges, proof) pass a test differs from the scaled number of simulated ones by at most C77's constant plus 2n(2d+2) parts in |F|; no premise on generators or on a non-degenerate point is left.", "quantifier": "all n = 2^(d+1) (>= 4 for (1), >= 8 for (2)), finite scalar fields, tests on generators, challenges and proof, satisfied systems of (n-2)x(n-2) matrices, transcripts", "why_tests_cant": "A statement about the fraction of bad parameters among about 2^4000 and about a distribution over runs; a test picks one set of generators.", "anchors": ["src/qesa_zk.rs:12-33", "src/ipa/qesa_inner.rs:20-114", "src/ipa/alm_zk.rs:17-76", "src/ipa/gramschmidt.rs:4-61"]}
{"id": "C86", "title": "A rewinding extractor with a bounded expected number of runs", "statement": "For every argument there is an explicit extractor that uses the prover only as a black box: it picks challenges, runs the prover and the verifier, rewinds, and computes a witness or a non-trivial relation between the generators from the accepted runs (for the QESA and copy arguments as a whole: given the prover's openings of its commitments, it computes a relation, or there is none to be found and the opened values satisfy the system). It starts every round with a random challenge, gives up if that run cannot be completed, and otherwise goes through the following challenges in cyclic order. For q challenge values, counted over all random choices of the extractor: whatever it returns is correct; the number of choices for which it returns something is at least the number of challenge words the prover can answer minus the soundness error of C75; the average number of runs is at most 3 n^2 (inner product argument), 9 n^2 (almost-zk argument), 27 n^3 (QESA, batched equation), 27 (m+1) n^3 (QESA), 27 (2 k + 1)(m+1) n^3 (copy argument with k commitments), 3^d (linear map with n = 2^d) and 2 * 3^d (SimpleZK).", "quantifier": "every prover strategy (messages are arbitrary functions of the challenges seen), every set of challenge values, every size n = 2^d, every system, mapping and statement", "why_tests_cant": "a knowledge error and an expected running time are statements about all provers and all random choices", "anchors": ["src/ipa/no_zk.rs: NoZK::verify", "src/ipa/alm_zk.rs: AlmZK::verify", "src/ipa/qesa_inner.rs: Inner::verify", "src/copy/copy.rs: Copy::verify", "src/lmpa/no_zk.rs: NoZK::verify", "src/lmpa/simple_zk.rs: SimpleZK::verify"]}
{"id": "C87", "title": "Convincing the verifier of a false statement computes discrete logarithms", "statement": "Let all generators be random combinations of two points B and X = x B. Then every algorithm that finds a non-trivial relation between the generators, or two openings of one commitment, gives the discrete logarithm of X to the base B by an explicit formula, for all but a fraction 1/q of the choices of the generators. Consequently, for a prover whose messages may depend on the generators: the probability that the verifier accepts is at most the probability that the extractor of C86 returns a witness, plus the probability that it lets us compute the logarithm, plus 1/q, plus the soundness error (2 + 3 d)/q for the inner product argument and (4 + 3 d)/q for the almost-zk argument. For QESA and copy provers that open their commitments to values violating the statement there is no witness term: acceptance is at most logarithm + 1/q + soundness error. The average number of prover runs is that of C86.", "quantifier": "every prover strategy depending on the generators, every size n = 2^d, every system, mapping and statement; counted over all choices of the 2 (2 n + 1) generator coefficients and all choices of the extractor", "why_tests_cant": "binding and soundness rest on the hardness of the discrete logarithm; a test cannot relate an unknown attack to it", "anchors": ["src/ipa/no_zk.rs: NoZK::verify", "src/ipa/alm_zk.rs: AlmZK::verify", "src/ipa/qesa_inner.rs: Inner::verify", "src/copy/copy.rs: Copy::verify"]}
{"id": "C88", "title": "The bytes behind a challenge come from a sponge whose input determines the whole history", "statement": "The transcript of merlin 1.2, modelled down to the Keccak permutation (the model reproduces merlin's published test vectors), never panics on the histories of this library and returns, for a challenge, 64 bytes of the output of a sponge on blocks of 168 cells. These blocks determine the protocol name, every message with its label, the order of messages and challenges, and the label of the request: two different histories never give the same blocks, wherever labels, messages and 32- and 8-byte values begin and end. So two histories receive the same challenge bytes only by a coincidence of the permutation itself.", "quantifier": "all protocol names, all histories of any length, all labels, every injective 32-byte encoding of points", "why_tests_cant": "ambiguity of an encoding is a statement about all pairs of inputs", "anchors": ["src/transcript.rs:12-17", "Cargo.toml"]}
{"id": "C89", "title": "The almost-zk argument on its own is zero-knowledge with hashed challenges", "statement": "For n = 2^(d+1) >= 8 and vectors a, b for which one non-degenerate choice of challenges and first mask exists (C76): a distinguisher that makes T1 adaptive queries to the hash function before it is given one AlmZK proof and T2 after it has, up to 2(c + T1) parts in |F| of all plays, the same number of plays with verdict true whether the proof is made by the prover or by a simulator without a and b that sets the answers at the proof's challenges; c = (3d+7)((2d+1)4n^2+d+5) is the constant of C76. For P proofs of adaptively chosen statements and T queries in all the bound is 2 P (c + T + (d+3) P) parts. Two pairs of vectors with the same commitment and inner product cannot be told apart by more than twice the bound.", "quantifier": "all distinguishers and clients, query numbers, vectors, commitments, generators with known mutual logarithms, initial transcripts, sizes n = 2^(d+1) >= 8, complete finite scalar fields, base point not the identity", "why_tests_cant": "Quantifies over all distinguishers and compares numbers of runs over all random choices; a test runs one proof.", "anchors": ["src/ipa/alm_zk.rs:17-76", "src/ipa/alm_zk.rs:80-112", "src/ipa/no_zk.rs:17-111", "src/ipa/gramschmidt.rs:4-61"]}
{"id": "C90", "title": "A rewinding extractor for the arguments with hashed challenges", "statement": "For every argument, as it is used with challenges computed by hashing, there is an explicit extractor for provers that make T adaptive queries to the hash function. It runs the prover with a table of answers; if the proof is accepted it runs the prover again with another answer at one challenge of that proof, drops the run at once if the new proof has its challenge of that round at another place, and otherwise goes on to the next round. From the accepted proofs it computes a witness or a non-trivial relation between the generators (for QESA and the copy argument as a whole, against provers that also output openings of their commitments: a relation, or there is none to be found and the opening output in the first run satisfies the system). Counted over all tables of answers, with q challenge values: whatever it returns is correct; it returns something for all tables for which the prover's proof is accepted but at most s T q^(N-1) of q^N, with s = 2 + 3d (inner product argument, n = 2^d), 4 + 3d (almost-zk), n + 5 + 3d (QESA, batched), m + n + 4 + 3d (QESA with m equations), 2k + m + n + 4 + 3d (copy argument with k commitments), 2d (linear map) and 1 + 2d (SimpleZK); and it makes on average at most K + T (K - 1) runs, with K = 3n^2, 9n^2, 54n^3, 27(m+1)n^3, 27(2k+1)(m+1)n^3, 3^d, 2*3^d. For the inner product argument, the linear map and SimpleZK this is also stated for every prover with T queries of its own, which need not have asked the challenges of its proof.", "quantifier": "every prover as an adaptive query program, every number of queries T, every set of challenge values and every finite set of histories containing the proof's challenges, every size n = 2^d, every system, mapping and statement", "why_tests_cant": "a knowledge error and an expected running time are statements about all provers and all hash functions", "anchors": ["src/ipa/no_zk.rs: NoZK::verify", "src/ipa/alm_zk.rs: AlmZK::verify", "src/ipa/qesa_inner.rs: Inner::verify", "src/copy/copy.rs: Copy::verify", "src/lmpa/no_zk.rs: NoZK::verify", "src/lmpa/simple_zk.rs: SimpleZK::verify"]}
{"id": "C91", "title": "With hashed challenges and random generators, cheating yields discrete logarithms", "statement": "Let the generators G, H, Q be random combinations r_i B + s_i X of two points and let the prover, which may depend on them, make T adaptive queries to the hash function. Run the extractor of C90 on it and read the discrete logarithm of X to the base B off every relation it returns. Counted over all r, s and all tables of answers, with q scalars and M entries in the tables: the number of accepted proofs is at most the number of runs in which a witness is found, plus the number in which the logarithm is found, plus q^M q^N q^(N-1) (a fraction 1/q of all cases), plus a fraction s T / q of all cases, with s as in C90 and N = 2n+1 (inner product and almost-zk arguments). For QESA and the copy argument, against provers that also output openings of their commitments: the number of cases in which the proof is accepted although the opening violates the statement is at most the number in which the logarithm is found plus the same two fractions. The average number of runs of the prover is at most K + T (K - 1), with K as in C90.", "quantifier": "every prover (family over the generators) as an adaptive query program, every T, complete finite scalar fields, every size n = 2^d, every system, mapping, committed messages, every set of outputs violating the statement", "why_tests_cant": "relates the success rates of two algorithms over all generators and all hash functions", "anchors": ["src/ipa/no_zk.rs: NoZK::verify", "src/ipa/alm_zk.rs: AlmZK::verify", "src/ipa/qesa_inner.rs: Inner::verify", "src/copy/copy.rs: Copy::verify"]}
{"id": "C92", "title": "Reduced 64-byte strings instead of uniform scalars", "statement": "The program does not draw uniform scalars: challenges and random scalars are 64 uniform bytes reduced modulo the group order l. For every event about N scalars the number of N-tuples of byte strings that lead to it lies between c^N and (c+1)^N times the number of N-tuples of scalars, c = floor(2^512 / l), and its probability changes by at most N/2^259. Consequently: a prover whose proofs are accepted for more than a fraction aT/l + N/2^259 of the tables of 64-byte hash answers is caught by the extractors of C79 (inner product argument and QESA spelled out); an honest QESA run fails for at most a fraction (2n+30)/l + N/2^259 of the byte strings (C74); two witnesses of a linear map (C41) or of a system of quadratic equations (C82) lead to any observation with probabilities that differ by at most the bound for uniform scalars plus 2N/2^259.", "quantifier": "every group whose scalars are the integers modulo l; all events, all N, all provers, observers and sizes", "why_tests_cant": "The deviation is far below anything a test can measure, and the statement is about all events.", "anchors": ["src/transcript.rs:12-17", "src/ipa/gramschmidt.rs", "src/qesa_zk.rs", "src/ipa/no_zk.rs:112-158"]}
{"id": "C93", "title": "Rewinding extractors and discrete logarithms for every prover", "statement": "The extractors of C90 and the solvers of C91 work for every prover that makes T adaptive queries to the hash function: it need not have asked for the challenges of its own proof, and the lists L and R in its proofs may have different lengths (which the verifiers accept, C80). The extractor runs the prover followed by the completion of C80, which makes the proof well-formed and asks for its challenges. All bounds of C90 and C91 hold with T increased by the queries of the completion: d + 1 for the inner product argument (n = 2^d), d + 2 for the almost-zk argument, d + 5 for QESA and d + 6 for the copy argument; the accepted proofs, the openings and the violated statements that are counted are those of the original prover.", "quantifier": "every prover as an adaptive query program, every T, every set of challenge values and every finite set of histories containing what the completed prover may ask, every size n = 2^d, every system, mapping and statement", "why_tests_cant": "a knowledge error and an expected running time are statements about all provers and all hash functions", "anchors": ["src/ipa/no_zk.rs: NoZK::verify", "src/ipa/alm_zk.rs: AlmZK::verify", "src/ipa/qesa_inner.rs: Inner::verify", "src/copy/copy.rs: Copy::verify"]}
{"id": "C94", "title": "Systems of equations of any shape", "statement": "Nothing checks that the matrices of a system are square or that their rows have equal lengths. Transposing returns iff there is a row and no row is longer than the first one, and then moves the entries of each column up over the missing ones. Batching returns iff both lists are non-empty and all matrices it reads have the shape of the first one. For any G, H, proof and list of matrices of any shape, with n = |H|, the QESA verifier gets to a verdict iff n >= 3, |G| = n, there is a matrix, its first row has length n-2 and no longer row follows, the first n matrices have its shape, both commitments decode and the inner proof has the shape of C58; the number of rows is free. The prover returns iff in addition there are n-2 rows, n = 2^(d+2), |w| = n-2, |r'| = 2 and the draws succeed. The copy verifier gets to a verdict, for any mapping and any commitments, iff the positions and indices used are in range, there is a commitment, and the system extended by square matrices is as above. When rows are uneven honest proofs are useless: the verifier recomputes the commitment but its inner product agrees with the prover's for at most 3 values of the last challenge, unless s^(f+1) is r'_0 or r'_0 + 1 (f the number of full rows), even for a satisfied system.", "quantifier": "all matrices of any shape, generators, proofs, mappings, commitments, oracles and random tapes", "why_tests_cant": "tests only build square matrices of the right size", "anchors": ["src/ipa/qesa_inner.rs:20-185", "src/matrix.rs", "src/math_utils.rs", "src/copy/copy.rs:164-234"]}
{"id": "C95", "title": "Exact input domains of the linear-map and copy provers and of the k-ary verifier", "statement": "For inputs of any size: lmpa::noZK::create and SimpleZK::create return exactly when there is a generator, every row length is a multiple of 2^d and the witness has at least 2^d entries (d = log2 of the number of generators, rounded down); they loop forever exactly when there is no generator and every row is empty, and panic otherwise. For k >= 2 and a non-empty rectangular matrix the k-ary prover and its wrapper create_general return exactly when n < k, or the matrix has k*(n/k) columns, the witness as many entries, m is the number of rows, the target has m entries and n/k = r*k^d with 1 <= r < k; the k-ary verifier and verify_general give a verdict exactly when n/k divides the number of columns and leaves at least k blocks, each later block size divides the one before, and the proof has enough blocks of the right shape (so they also accept sizes such as n = 3, k = 2, where the last column is never read and on which the prover panics). Copy::create, for any mapping, witness and openings: either a number is out of range (the number of commitments differs from the openings or is 0, the witness does not start with 1 or is longer than n-2, a mapping entry has a position or index >= n or a commitment id past the openings, or a listed index or one of its positions is >= n-2) and it panics, or it runs the QESA prover on the witness updated entry by entry in mapping order and on the given system extended by one matrix per listed index; it returns exactly when moreover the system's shapes, the generator counts and the random draws fit.", "quantifier": "for all matrices (ragged ones for the binary provers), witnesses, targets, mappings with repeated or clashing positions, openings, k >= 2, n, m, oracles and random tapes", "why_tests_cant": "tests run the functions on matching power-of-two sizes only; overflow of a boundary by one, ragged rows, sizes that do not divide and hand-made mappings are never tried", "anchors": ["src/lmpa/no_zk.rs:17-79", "src/lmpa/no_zk.rs:88-221", "src/lmpa/no_zk.rs:288-382", "src/lmpa/simple_zk.rs:18-120", "src/copy/copy.rs:23-161"]}
{"id": "C96", "title": "Ragged matrices and every k: matrix_split, the point transpose and the k-ary functions", "statement": "For a list of rows of any lengths: matrix_split returns exactly when the matrix is not empty, the chunk size is positive and divides the length of the first row, and no row is longer than the first; part i then holds the i-th chunk of those rows that have one (a row that is too short is silently left out, its last chunk may be short), and otherwise it panics. matrixpoint_transpose moves up entries in the same way. For k >= 2 and n >= k the k-ary prover (and create_general) returns exactly when the first row has c*k entries with c = n/k, every other row has none or as many, the witness has as many, m and the length of t are the number of non-empty rows, and c = r*k^d with 1 <= r < k; the k-ary verifier (and verify_general) gives a verdict exactly when the first row's length is a multiple of c and at least c*k, every other row is empty or has between c*k and that many entries, and the later block sizes and the proof fit. For k = 0 both always panic; for k = 1 and n = 0 the prover returns and the verifier compares; for k = 1 and n >= 1 the verifier always panics and the prover never returns: it loops forever exactly when the first row and the witness have n entries and no row has more, and panics otherwise. For k >= 2 the prover never loops.", "quantifier": "for all matrices of points (any row lengths, including empty ones), witnesses, targets, n, m, k, proofs, oracles and random tapes", "why_tests_cant": "tests pass rectangular matrices and k >= 2 only; a matrix with an empty or short row, or k = 0 or 1, is never tried", "anchors": ["src/matrix.rs:261-305", "src/lmpa/no_zk.rs:88-221", "src/lmpa/no_zk.rs:288-382", "src/lmpa/simple_zk.rs:56-120"]}
{"id": "C97", "title": "Which challenges two proofs can have in common", "statement": "Take any two runs of verifiers that start from the same history and return (any proofs, statements, sizes and hash functions), and a challenge drawn with the same history in both. If the runs belong to different arguments (IPA no-zk, almost-zk, QESA, copy, binary LMPA, SimpleZK, k-ary LMPA, k-ary SimpleZK), then they are a SimpleZK run and a k-ary SimpleZK run and the challenge is beta. If they belong to the same argument, it is the challenge of the same round in both, and all messages hashed before it are equal, as are the sizes n in the IPA-based arguments: the points L_j, R_j, C_r, c'_w, c''_w, C_w of the two proofs agree up to that round. FINDING: in the k-ary argument the messages agree, but not their division into vectors: the same messages with the same challenge are a proof the verifier reads to the end when presented as vectors of any length r >= 1 that leaves at least 2k-1 of them.", "quantifier": "all pairs of returning runs of the eight verifiers, all proofs and sizes", "why_tests_cant": "tests run one argument on one fresh transcript", "anchors": ["src/ipa/no_zk.rs: NoZK::verify", "src/ipa/alm_zk.rs: AlmZK::verify", "src/ipa/qesa_inner.rs: Inner::verify", "src/copy/copy.rs: Copy::verify", "src/lmpa/no_zk.rs: NoZK::verify", "src/lmpa/no_zk.rs:288-382", "src/lmpa/simple_zk.rs"]}
{"id": "C98", "title": "Several proofs on one transcript", "statement": "Let verifications (of any of the eight arguments, in any order) run one after another on one transcript, each starting from the history the one before has left, and compare two such sessions that start from the same history. If a challenge of an inner-product, almost-zk, QESA or copy verification in the first session is drawn in the second one too, it belongs there to a verification of the same argument that starts at the same place, with the same history before it (so C97 applies to the two). If all verifications are of these four arguments, the final history determines the whole session: which arguments in which order, and what each of them appended. FINDING: this fails for the linear-map arguments, which do not hash the number of rounds. Whenever the challenges are not 0, the same messages are one accepted proof with d1 + d2 rounds, or two accepted proofs with d1 and d2 rounds one after the other, for any matrices and any final scalars with suitable targets; likewise a SimpleZK proof can be read as a shorter SimpleZK proof followed by a proof without blinding.", "quantifier": "all sessions of any length, all arguments, proofs, statements, sizes, hash functions", "why_tests_cant": "A test verifies one proof on a fresh transcript; which sequences of proofs lead to the same hash inputs is a statement about all pairs of sessions", "anchors": ["src/ipa/no_zk.rs: NoZK::verify", "src/ipa/alm_zk.rs: AlmZK::verify", "src/ipa/qesa_inner.rs: Inner::verify", "src/copy/copy.rs: Copy::verify", "src/lmpa/no_zk.rs: NoZK::verify", "src/lmpa/no_zk.rs:288-382", "src/lmpa/simple_zk.rs"]}
{"id": "C99", "title": "Every argument with the program's own randomness", "statement": "Answers of the hash function and random draws are 64 uniform bytes reduced modulo the group order l. Against the verifier of the inner product argument, its zero-knowledge variant, the quadratic-equation argument or the copy argument, every prover with T queries (no assumption on the shape of its proofs) is accepted with probability at most k(T+r)/l + |D|/2^259, for the k and r of the uniform-scalar bounds, unless the extractors of C79 and C80 compute a witness or a nontrivial relation between the generators from its own runs (for the last two arguments, whose provers also output how they open their commitments: a relation, or the opened vector of one of the runs is a witness); a false first row of a linear map is accepted with probability at most 2(T+d)/l + |D|/2^259 and 2(T+d+1)/l + |D|/2^259. The honest prover of the copy argument fails with probability at most (2n+30)/l plus (5+K)/2^259. An observer that asks for P proofs of statements of its choice and makes T queries tells apart two choices of the witnesses, for the quadratic-equation, copy and linear-map arguments, only with the advantage of the uniform-scalar bounds plus 2N/2^259 for the N strings used; likewise one proof of the inner product argument.", "quantifier": "all groups whose scalars are the integers modulo l, sizes, statements, adaptive provers, observers and numbers of queries and proofs; domain D containing the prover's possible queries; the hiding claims except the one for linear maps for sizes from 8 and generators that satisfy the nondegeneracy condition of the uniform-scalar versions (C77, C82, C89)", "why_tests_cant": "probabilities below 2^-200 cannot be sampled, and provers and observers are arbitrary programs", "anchors": ["src/transcript.rs:12-17", "src/ipa/no_zk.rs: NoZK::verify", "src/ipa/alm_zk.rs: create, AlmZK::verify", "src/ipa/qesa_inner.rs: Inner::verify", "src/qesa_zk.rs: create", "src/copy/copy.rs: create, Copy::verify", "src/lmpa/no_zk.rs: NoZK::verify", "src/lmpa/simple_zk.rs: create, SimpleZK::verify"]}
{"id": "C100", "title": "Witnesses stay hidden for random generators, without conditions on them", "statement": "Draw the logarithms of the 2n generators of G_Vec and H_Vec at random, and let an observer that knows them ask for P QESA (or copy) proofs of satisfied statements of its choice, with T hash queries, n = 2^(d+1) >= 8. Over all generators, hash answers and coins, the numbers of sessions with any verdict, for two choices of the witnesses (and of the openings of the commitments), differ by at most 2a + 4n(d+1) parts in the number of scalars, a = P((3d+12)((8n+2d+1)4n^2+32n+d+5)+6+T+(d+6)P) for QESA and the corresponding bound of C83 for the copy argument: no condition on the generators remains. With reduced 64-byte strings for every scalar the probabilities differ by at most (2a+4n(d+1))/l + 2N/2^259 for the N strings used.", "quantifier": "all sizes 2^(d+1) >= 8 (below 65536 for copy), bases B, points Q = qB, observers, statements, witnesses and openings, each allowed to depend on the generators; complete lists of scalars; byte version for every group whose scalars are the integers modulo l", "why_tests_cant": "a claim about all observers and an average over all generators", "anchors": ["src/qesa_zk.rs:12-33", "src/ipa/qesa_inner.rs:20-114", "src/ipa/alm_zk.rs:17-76", "src/copy/copy.rs:23-158", "src/ipa/gramschmidt.rs:4-61", "src/transcript.rs:12-17"]}
{"id": "C101", "title": "Inner-product argument does not bind P and t into the challenges", "statement": "FINDING: NoZK hashes n and the round messages, but neither P nor t. With alpha non-zero the outcome of verify depends on (P,t) only through P - tQ + alpha^(-1) tQ, so a proof accepted for (P,t) is accepted for (P',t') if (and, for non-zero round challenges, only if) P' = P + (alpha^(-1) - 1)(t - t')Q; with alpha = 0 the verifier ignores t. So for every hash function with alpha non-zero, any vectors a, b and any t different from their product, the honest prover's output on a, b is accepted for a P (computed from alpha) that has no opening with coefficient t at Q when the generators are independent. Hashing P first, as the unit test does and its comment suggests, does not repair this: for alpha different from 0 and 1 a P with a wrong coefficient q at Q is accepted with a t computed after alpha, and again no opening with coefficient t exists.", "quantifier": "all hash functions, earlier transcripts, sizes 2^d, generators, vectors, claimed values and (for the accepted line) all proofs", "why_tests_cant": "An adaptive choice of the statement against every hash function; the tests use honest statements only.", "anchors": ["src/ipa/no_zk.rs:28-110", "src/ipa/no_zk.rs:112-173", "src/ipa/no_zk.rs: test (209-217)"]}
{"id": "C102", "title": "Fiat-Shamir soundness with statements chosen by the prover", "statement": "The arguments do not hash the statement, so the bounds of C79 fix it in advance. If the caller first hashes the statement under an encoding from which it can be read back, the same bounds hold for provers that choose it after any queries. A prover with T queries (it asks for the challenges of its proof) that convinces the verifier of a statement in sel, for more than 3T out of |vals| tables of answers, has one statement for which its own accepted runs form trees from which the extractors compute a witness or a non-trivial relation between the generators: NoZK (P and t), AlmZK (C_w and t). QESA (the equations; bound n T) and the copy argument (the equations and the message commitments, fixed key sets; bound max(2 s, n) T for s sets) against provers that output openings as in C79. For the linear-map arguments (A and t; any number of rounds, also none) false statements of the prover's choice pass for at most 2T out of |vals| tables, and for provers that need not ask their challenges 2(T+d) and 2(T+d+1). Every prover is covered (its L and R may have different lengths and it need not ask the challenges of its proof) when T is increased by d+1, d+2, d+5 and d+6 for the first four arguments. Readable encodings exist for all these statements. Without the hash one query is enough for every table.", "quantifier": "all hash functions given by tables, provers with any number of queries, statement encodings that can be read back, selections of statements, sizes 2^d, generators, earlier transcripts", "why_tests_cant": "Quantifies over all provers and over all answers of the hash function.", "anchors": ["src/ipa/no_zk.rs:112-173", "src/ipa/alm_zk.rs", "src/ipa/qesa_inner.rs", "src/copy/copy.rs", "src/lmpa/no_zk.rs", "src/lmpa/simple_zk.rs"]}
{"id": "C103", "title": "Prover-chosen statements with the program's own hash values", "statement": "C102 with 64-byte hash answers reduced modulo the group order l, as the program computes challenges, and for every prover (no condition on its queries or on the lengths of its lists). Statements chosen by the prover and hashed by the caller under an encoding that can be read back: either the proofs are accepted for at most a fraction aT'/l + N/2^259 of the tables of N byte strings, or the extractor output of C102 (a witness for one chosen statement, or a non-trivial relation between the generators, computed from the prover's own runs) exists. a = 3 and T' = T+d+1, T+d+2 for NoZK and AlmZK, a = n and T' = T+d+5 for QESA, a = max(2 s, n) and T' = T+d+6 for the copy argument with s key sets. For the linear-map arguments false statements of the prover's choice pass for at most 2(T+d)/l + N/2^259 and 2(T+d+1)/l + N/2^259 of the tables.", "quantifier": "every group whose scalars are the integers modulo l; all provers, numbers of queries, readable encodings, selections of statements, sizes 2^d, generators, earlier transcripts", "why_tests_cant": "A probability below 2^-240 over 64-byte strings, for every adaptive prover strategy, is not observable by running the code.", "anchors": ["src/transcript.rs", "src/ipa/no_zk.rs: verify", "src/ipa/alm_zk.rs: verify", "src/ipa/qesa_inner.rs: verify", "src/copy/copy.rs: verify", "src/lmpa/no_zk.rs: verify", "src/lmpa/simple_zk.rs: verify"]}
{"id": "C104", "title": "Rewinding extractors and discrete logarithms for statements chosen by the prover", "statement": "When the prover chooses the statement (after any of its queries) and the caller hashes it before the proof, under an encoding that can be read back, the extractors of C90 still work: the prover is run with a table of hash answers and, if its proof is accepted, again with other answers at the challenges; what comes out is a witness for the statement chosen in the FIRST run (NoZK and AlmZK: the two vectors or a non-trivial relation between the generators; linear-map arguments: a preimage of the first row; QESA and copy: a relation, or the chosen system holds for the opening the prover output). It succeeds for all tables for which the prover succeeds but sTq^(N-1), with on average at most K+T(K-1) runs: s = 2+3d, K = 3*4^d for NoZK; 4+3d, 9*4^d for AlmZK; 2d, 3^d for LMPA; 1+2d, 2*3^d for SimpleZK; 2n+4+3d, 27(n+1)n^3 for QESA; 2s+2n+4+3d, 27(2s+1)(n+1)n^3 for copy with s key sets. With generators drawn as random combinations of B and X (C91), summed over all generators and tables: for NoZK and AlmZK the accepted proofs are at most the witnesses extracted plus the discrete logarithms of X found plus that loss and a fraction 1/q; for QESA and copy the accepted outputs whose opening violates the chosen statement are at most the logarithms found plus the same. For copy the extractor is given openings of the message commitments of each statement. The extractors also hold for every prover (no condition on its queries; for NoZK, AlmZK, QESA and copy none on the lengths of its lists), with T increased by the number of challenges.", "quantifier": "all provers and numbers of queries, readable encodings, selections of statements, sizes 2^d (d = 0 included where the argument allows it), generators, sets of challenges, earlier transcripts", "why_tests_cant": "A statement about every adaptive prover and an extractor that rewinds it; tests run the honest prover for a fixed statement.", "anchors": ["src/ipa/no_zk.rs: verify", "src/ipa/alm_zk.rs: verify", "src/ipa/qesa_inner.rs: verify", "src/copy/copy.rs: verify", "src/lmpa/no_zk.rs: verify", "src/lmpa/simple_zk.rs: verify"]}
{"id": "C105", "title": "Extractors with the program's own 64-byte hash answers", "statement": "The extractors of C93 (fixed statements: NoZK, AlmZK, QESA batched and not, copy) and of C104 (statements chosen by the prover and hashed first: also the linear-map arguments) work when each answer of the hash function is a string of 64 bytes reduced modulo l, as in challenge_scalar. For every prover and a list of N queries, over all 2^(512N) tables of strings: whatever the extractor outputs for a table is correct (the witness, or the relation, of C93 and C104); the fraction of tables for which the proof is accepted is at most the fraction for which the extractor succeeds plus sT'/l + N/2^258; and its mean number of runs is at most (K+T'(K-1))(1+2^-259)^N, with the s, K and T' of C93 and C104. In general (transfer): a bound of that form for uniform scalars gives one for reduced strings, and the mean of any number computed from N uniform scalars grows by at most that factor.", "quantifier": "all provers and numbers of queries, statements (fixed, or chosen under readable encodings), sizes, generators, groups whose scalars are the integers modulo l = 2^252 + 27742317777372353535851937790883648493, tables of 64-byte strings", "why_tests_cant": "A count over 2^(512N) tables for an extractor that rewinds an arbitrary prover; tests run the honest prover with one hash function.", "anchors": ["src/transcript.rs:12-17", "src/ipa/no_zk.rs: verify", "src/ipa/alm_zk.rs: verify", "src/ipa/qesa_inner.rs: verify", "src/copy/copy.rs: verify", "src/lmpa/no_zk.rs: verify", "src/lmpa/simple_zk.rs: verify"]}
{"id": "C106", "title": "Discrete logarithms from cheating provers with 64-byte hash answers", "statement": "The discrete logarithms of C93 (fixed statements, every prover) and C104 (statements chosen by the prover) are also found when each answer of the hash function is a string of 64 bytes reduced modulo l, as in challenge_scalar. Generators are drawn as random combinations of B and X; the probabilities are over all l^(2N) choices of the coefficients (N generators) and all 2^(512M) tables of M strings. NoZK and AlmZK: the probability that the proof is accepted is at most the probability that a witness is extracted plus the probability that the discrete logarithm of X is computed plus (sT'+1)/l + 3M/2^259; what counts as a witness is one for the statement. QESA and copy: the probability that the proof is accepted and the opening the prover outputs violates the statement is at most the probability that the logarithm is computed plus (sT'+1)/l + 2M/2^259. The mean number of runs is at most (K+T'(K-1))(1+2^-259)^M; s, K and T' are those of C93 and C104.", "quantifier": "all provers and numbers of queries (for chosen statements those that ask their own challenges, as in C104), statements, sizes, B and X = xB, groups whose scalars are the integers modulo l = 2^252 + 27742317777372353535851937790883648493", "why_tests_cant": "A reduction for every prover with probabilities over generators and hash tables; tests run the honest prover with one hash function.", "anchors": ["src/transcript.rs:12-17", "src/ipa/no_zk.rs: verify", "src/ipa/alm_zk.rs: verify", "src/ipa/qesa_inner.rs: verify", "src/copy/copy.rs: verify"]}
