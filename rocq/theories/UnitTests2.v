(** Model of the remaining unit tests: src/math_utils.rs, src/ipa/gramschmidt.rs,
    src/ipa/no_zk.rs, src/ipa/alm_zk.rs, src/lmpa/no_zk.rs, src/lmpa/simple_zk.rs. The
    values a test draws at its start (vectors, generators, matrices) are parameters, what
    the tested functions draw themselves comes from the tape [rng]; a failing assertion is
    [Panic]; [tr] is the fresh transcript Transcript::new(label) on both sides. *)
From Coq Require Import String.
From Verif Require Export UnitTests IpaAlmZK LmpaSimpleZK.
Local Open Scope string_scope.
Local Open Scope nat_scope.
Local Open Scope list_scope.

Section UnitTests2.
Context {C : Crypto}.

(** src/math_utils.rs:22-37, n = 32 and x = 2 as parameters *)
Definition test_vandermonde (x : Scalar) (n : nat) : res unit :=
  challenges <- vandemonde_challenge x n ;;
  assertb (length challenges =? n) ;;;
  two_n <- foldM (fun two_n i => c <- idx challenges i ;; assertb (seqb two_n c) ;;; Ok (two_n * x)%S)
                 (seq 0 (length challenges)) x ;;
  Ok tt.

(** src/ipa/gramschmidt.rs:63-73 *)
Definition test_orth (a b : list Scalar) : res unit :=
  orth_a <- orth a b ;;
  assertb (seqb (inner_product orth_a a) s0).

(** src/ipa/gramschmidt.rs:75-84 *)
Definition test_sample_gram_schmidt (rng : nat -> Scalar) (a : list Scalar) : res unit :=
  '(v, _) <- sample_gram_schmidt rng 0 a ;;
  assertb (seqb (inner_product v a) s0).

(** src/ipa/gramschmidt.rs:86-97 *)
Definition test_sample_gram_schmidt_twice (rng : nat -> Scalar) (a b : list Scalar) : res unit :=
  '(v, _) <- sample_gram_schmidt_twice rng 0 a b ;;
  assertb (seqb (inner_product v a) s0) ;;;
  assertb (seqb (inner_product v b) s0).

(** src/ipa/no_zk.rs:188-220 *)
Definition test_create_nozk_proof (ro : oracle) (tr : transcript) (G H : list Point) (Q : Point) (a b : list Scalar) (n : nat)
  : res unit :=
  let t := inner_product a b in
  P <- msm (a ++ b ++ [t]) (G ++ H ++ [Q]) ;;
  let tr := append_message tr "P" (compress P) in
  '(proof, _) <- no_zk_create ro tr G H Q a b ;;
  '(accepted, _) <- no_zk_verify ro tr proof G H Q n P t ;;
  assertb accepted.

(** src/ipa/alm_zk.rs:120-156 *)
Definition test_create_almzk_proof (ro : oracle) (rng : nat -> Scalar) (tr : transcript) (G H : list Point) (Q : Point)
    (a b : list Scalar) (n : nat) : res unit :=
  let t := inner_product a b in
  C_w <- msm (a ++ b) (G ++ H) ;;
  '(proof, _, _) <- alm_zk_create ro rng 0 tr G H Q C_w a b t ;;
  '(accepted, _) <- alm_zk_verify ro tr proof G H Q n C_w t ;;
  assertb accepted.

(** src/lmpa/no_zk.rs:389-417 *)
Definition test_lmpa_no_zk_create_verify (ro : oracle) (tr : transcript) (A : list (list Point)) (G H : list Point) (Q : Point)
    (w : list Scalar) (n : nat) : res unit :=
  let t := matrixpoint_vector_mul A w in
  '(proof, _) <- lmpa_create ro tr A G H Q w ;;
  '(accepted, _) <- lmpa_verify ro tr proof A G H Q n t ;;
  assertb accepted.

(** src/lmpa/no_zk.rs:570-599 *)
Definition test_lmpa_noZK_merlin (ro : oracle) (tr : transcript) (A : list (list Point)) (w : list Scalar) (k d m : nat) : res unit :=
  let n := k ^ d in
  let t := matrixpoint_vector_mul A w in
  '(proof, _) <- create_lmpa_noZK ro tr A w t n m k s1 p0 ;;
  '(accepted, _) <- verify_lmpa_noZK ro tr proof A t n m k s1 p0 ;;
  assertb accepted.

(** src/lmpa/simple_zk.rs:153-177 *)
Definition test_lmpa_ZK_merlin (ro : oracle) (rng : nat -> Scalar) (tr : transcript) (A : list (list Point)) (w : list Scalar)
    (k d m : nat) : res unit :=
  let n := k ^ d in
  let t := matrixpoint_vector_mul A w in
  '(proof, _) <- create_general ro rng 0 tr A w t n m k ;;
  '(accepted, _) <- verify_general ro tr proof A t n m k ;;
  assertb accepted.

(** src/lmpa/simple_zk.rs:181-211: the proof is verified twice *)
Definition test_lmpa_simple_zk_create_verify (ro : oracle) (rng : nat -> Scalar) (tr : transcript) (A : list (list Point))
    (G H : list Point) (Q : Point) (w : list Scalar) (n : nat) : res unit :=
  let t := matrixpoint_vector_mul A w in
  '(proof, _) <- simple_zk_create ro rng 0 tr A G H Q w ;;
  '(accepted, _) <- simple_zk_verify ro tr proof A G H Q n t ;;
  assertb accepted ;;;
  '(accepted, _) <- simple_zk_verify ro tr proof A G H Q n t ;;
  assertb accepted.

(** src/lmpa/simple_zk.rs:249-269 *)
Definition test_commitment_combination (G : list Point) (G0 : Point) (w_1 w_2 r_1 r_2 a_1 a_2 : Scalar) : res unit :=
  c_1 <- pedersen_commit G0 G [w_1] r_1 ;;
  c_2 <- pedersen_commit G0 G [w_2] r_2 ;;
  let w_combined := (w_1 * a_1 + w_2 * a_2)%S in
  let r_combined := (r_1 * a_1 + r_2 * a_2)%S in
  c_combined <- pedersen_commit G0 G [w_combined] r_combined ;;
  assertb (peqb (a_1 *: c_1 + a_2 *: c_2)%P c_combined).

End UnitTests2.
