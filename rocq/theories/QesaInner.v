(** Model of src/ipa/qesa_inner.rs and src/qesa_zk.rs *)
From Coq Require Import String.
From Verif Require Export Matrix IpaAlmZK.
Local Open Scope string_scope.
Local Open Scope nat_scope.
Local Open Scope list_scope.

Section QesaInner.
Context {C : Crypto}.

(** src/ipa/qesa_inner.rs:14-18 *)
Record Inner := mkInner {
  alm_zk : AlmZK;
  c_prime_w : Compressed;
  c_prime_prime_w : Compressed
}.

(** src/ipa/qesa_inner.rs:188-212 *)
Definition compute_gamma_prime (gamma : list (list Scalar)) (n : nat)
  : res (list (list Scalar)) :=
  let gamma_prime := map (fun row => (row ++ [s0]) ++ [s0]) gamma in
  n2 <- usub n 2 ;;
  let row_n_minus_two := (repeat s0 n2 ++ [s0]) ++ [(- s1)%S] in
  let gamma_prime := gamma_prime ++ [row_n_minus_two] in
  let row_n_minus_one := (repeat s0 n2 ++ [s1]) ++ [s0] in
  Ok (gamma_prime ++ [row_n_minus_one]).

(** src/ipa/qesa_inner.rs:20-114. [gamma_i] is passed by reference; the random
    tape is only used by alm_zk::create. *)
Definition inner_create (ro : oracle) (rng : nat -> Scalar) (pos : nat) (tr : transcript)
    (G_Vec H_Vec : list Point) (Q : Point) (gamma_i : BlockMatrix)
    (w r_prime : list Scalar) : res (Inner * transcript * nat) :=
  let n := length G_Vec in
  n2 <- usub n 2 ;;
  assertb (length w =? n2) ;;;
  assertb (length r_prime =? 2) ;;;
  let w_prime := w ++ r_prime in
  cpw <- msm w_prime G_Vec ;;
  let tr := append_message tr "c_prime_w" (compress cpw) in
  let '(x, tr) := challenge_scalar ro tr "x" in
  x_challenges <- vandemonde_challenge x n ;;
  assertb (length x_challenges =? n) ;;;
  gamma <- block_matrix_batch gamma_i x_challenges ;;
  beta <- idx x_challenges 1 ;;
  G_0 <- idx G_Vec 0 ;;
  G_Vec <- upd G_Vec 0 (pmul (sinv beta) G_0) ;;
  r_1 <- idx r_prime 1 ;;
  r_0 <- idx r_prime 0 ;;
  let r_prime_prime := [(- r_1)%S; r_0] in
  let gamma_w := matrix_vector_mul gamma w in
  let w_prime_prime := gamma_w ++ r_prime_prime in
  cppw <- msm w_prime_prime H_Vec ;;
  let tr := append_message tr "c_prime_prime_w" (compress cppw) in
  let '(s, tr) := challenge_scalar ro tr "s" in
  s_challenges <- vandemonde_challenge s n2 ;;
  let '(b, tr) := challenge_scalar ro tr "b" in
  b_challenges <- vandemonde_challenge b 2 ;;
  let s_prime := s_challenges ++ b_challenges in
  assertb (length s_prime =? n) ;;;
  gamma_prime <- compute_gamma_prime gamma n ;;
  gamma_prime_t <- matrix_transpose gamma_prime ;;
  let gamma_prime_t_s_prime := matrix_vector_mul gamma_prime_t s_prime in
  a <- row_row_sub w_prime s_prime ;;
  b <- row_row_add w_prime_prime gamma_prime_t_s_prime ;;
  let t := inner_product a b in
  C_w <- msm (a ++ b) (G_Vec ++ H_Vec) ;;
  let tr := append_message tr "c_w" (compress C_w) in
  '(alm_zk_proof, tr, pos) <- alm_zk_create ro rng pos tr G_Vec H_Vec Q C_w a b t ;;
  Ok (mkInner alm_zk_proof (compress cpw) (compress cppw), tr, pos).

(** src/ipa/qesa_inner.rs:117-185 *)
Definition inner_verify (ro : oracle) (tr : transcript) (proof : Inner)
    (G_Vec H_Vec : list Point) (Q : Point) (gamma_i : BlockMatrix)
  : res (bool * transcript) :=
  let n := length H_Vec in
  let tr := append_message tr "c_prime_w" (c_prime_w proof) in
  cpw <- unwrap (decompress (c_prime_w proof)) ;;
  let '(x, tr) := challenge_scalar ro tr "x" in
  x_challenges <- vandemonde_challenge x n ;;
  gamma <- block_matrix_batch gamma_i x_challenges ;;
  beta <- idx x_challenges 1 ;;
  G_0 <- idx G_Vec 0 ;;
  G_Vec <- upd G_Vec 0 (pmul (sinv beta) G_0) ;;
  cppw <- unwrap (decompress (c_prime_prime_w proof)) ;;
  G_0 <- idx G_Vec 0 ;;
  let cpw := (cpw - (beta - s1)%S *: G_0)%P in
  let tr := append_message tr "c_prime_prime_w" (compress cppw) in
  n2 <- usub n 2 ;;
  let '(s, tr) := challenge_scalar ro tr "s" in
  s_challenges <- vandemonde_challenge s n2 ;;
  let '(b, tr) := challenge_scalar ro tr "b" in
  b_challenges <- vandemonde_challenge b 2 ;;
  let s_prime := s_challenges ++ b_challenges in
  assertb (length s_prime =? n) ;;;
  gamma_prime <- compute_gamma_prime gamma n ;;
  gamma_prime_t <- matrix_transpose gamma_prime ;;
  let gamma_prime_t_s_prime := matrix_vector_mul gamma_prime_t s_prime in
  gamma_t <- matrix_transpose gamma ;;
  let gamma_t_s := matrix_vector_mul gamma_t s_challenges in
  let t := (- inner_product s_challenges gamma_t_s)%S in
  m1 <- msm gamma_prime_t_s_prime H_Vec ;;
  let C_w := (cpw + cppw + m1)%P in
  m2 <- msm s_prime G_Vec ;;
  let C_w := (C_w - m2)%P in
  let tr := append_message tr "c_w" (compress C_w) in
  alm_zk_verify ro tr (alm_zk proof) G_Vec H_Vec Q n C_w t.

(** src/qesa_zk.rs:8-10 *)
Record Zk := mkZk { zk_inner : Inner }.

(** src/qesa_zk.rs:12-33 *)
Definition zk_create (ro : oracle) (rng : nat -> Scalar) (pos : nat) (tr : transcript)
    (G_Vec H_Vec : list Point) (Q : Point) (gamma_i : BlockMatrix) (w : list Scalar)
  : res (Zk * transcript * nat) :=
  let r_prime := [rng pos; rng (S pos)] in
  '(qesa_inner_proof, tr, pos) <-
     inner_create ro rng (S (S pos)) tr G_Vec H_Vec Q gamma_i w r_prime ;;
  Ok (mkZk qesa_inner_proof, tr, pos).

(** src/qesa_zk.rs:36-45 *)
Definition zk_verify (ro : oracle) (tr : transcript) (proof : Zk)
    (G_Vec H_Vec : list Point) (Q : Point) (gamma_i : BlockMatrix)
  : res (bool * transcript) :=
  inner_verify ro tr (zk_inner proof) G_Vec H_Vec Q gamma_i.

End QesaInner.
