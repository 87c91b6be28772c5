(** Model of src/ipa/alm_zk.rs (almost zero-knowledge inner product argument) *)
From Coq Require Import String.
From Verif Require Export GramSchmidt IpaNoZK.
Local Open Scope string_scope.
Local Open Scope nat_scope.
Local Open Scope list_scope.

Section IpaAlmZK.
Context {C : Crypto}.

(** src/ipa/alm_zk.rs:12-15 *)
Record AlmZK := mkAlmZK {
  C_r : Compressed;
  az_NoZK : NoZK
}.

(** src/ipa/alm_zk.rs:17-77. Returns the new read position of the random tape as
    third component. *)
Definition alm_zk_create (ro : oracle) (rng : nat -> Scalar) (pos : nat) (tr : transcript)
    (G_Vec H_Vec : list Point) (Q C_w : Point) (a_Vec b_Vec : list Scalar) (t : Scalar)
  : res (AlmZK * transcript * nat) :=
  '(r_prime, pos) <- sample_gram_schmidt rng pos b_Vec ;;
  '(r_prime_prime, pos) <- sample_gram_schmidt_twice rng pos a_Vec r_prime ;;
  Cr <- msm (r_prime ++ r_prime_prime) (G_Vec ++ H_Vec) ;;
  let tr := append_message tr "C_r" (compress Cr) in
  let '(beta, tr) := challenge_scalar ro tr "beta" in
  let masked_a_Vec := map2 (fun a r => beta * a + r)%S a_Vec r_prime in
  let masked_b_Vec := map2 (fun b r => beta * b + r)%S b_Vec r_prime_prime in
  let beta_sq_t := (beta * beta * t)%S in
  let P := compress (beta *: C_w + Cr + beta_sq_t *: Q)%P in
  let tr := append_message tr "P" P in
  '(no_zk_proof, tr) <- no_zk_create ro tr G_Vec H_Vec Q masked_a_Vec masked_b_Vec ;;
  Ok (mkAlmZK (compress Cr) no_zk_proof, tr, pos).

(** src/ipa/alm_zk.rs:80-112 *)
Definition alm_zk_verify (ro : oracle) (tr : transcript) (proof : AlmZK)
    (G_Vec H_Vec : list Point) (Q : Point) (n : nat) (C_w : Point) (t : Scalar)
  : res (bool * transcript) :=
  let tr := append_message tr "C_r" (C_r proof) in
  Cr <- unwrap (decompress (C_r proof)) ;;
  let '(beta, tr) := challenge_scalar ro tr "beta" in
  let beta_sq_t := (beta * beta * t)%S in
  let P := (beta *: C_w + Cr + beta_sq_t *: Q)%P in
  let tr := append_message tr "P" (compress P) in
  no_zk_verify ro tr (az_NoZK proof) G_Vec H_Vec Q n P beta_sq_t.

End IpaAlmZK.
