(** Model of src/ipa/gramschmidt.rs. thread_rng is a tape [rng : nat -> Scalar]
    with a read position that is threaded through. *)
From Verif Require Export MathUtils.

Section GramSchmidt.
Context {C : Crypto}.
Local Open Scope S_scope.

(** while i <= n { r[i/2] = random; r[i/2+1] = random; i = i*2 }
    src/ipa/gramschmidt.rs:13-18 *)
Fixpoint sample_loop (fuel : nat) (rng : nat -> Scalar) (n i pos : nat) (r : list Scalar)
  : res (list Scalar * nat) :=
  match fuel with
  | O => Diverge
  | S f =>
    if (i <=? n)%nat then
      r <- upd r (i / 2) (rng pos) ;;
      r <- upd r (i / 2 + 1) (rng (S pos)) ;;
      sample_loop f rng n (i * 2) (S (S pos)) r
    else Ok (r, pos)
  end.

(** src/ipa/gramschmidt.rs:4-26. Fuel n+1: i doubles each time from 4. *)
Definition sample_m_n_plus (rng : nat -> Scalar) (pos : nat) (n : nat) : res (list Scalar * nat) :=
  let r := repeat s0 n in
  r <- upd r 0 (rng pos) ;;
  r <- upd r 1 (rng (S pos)) ;;
  '(r, pos) <- sample_loop (S n) rng n 4 (S (S pos)) r ;;
  i2 <- usub n 2 ;;
  r <- upd r i2 (rng pos) ;;
  i1 <- usub n 1 ;;
  r <- upd r i1 (rng (S pos)) ;;
  assertb (n =? length r)%nat ;;;
  Ok (r, S (S pos)).

(** src/ipa/gramschmidt.rs:31-44 *)
Definition orth (a b : list Scalar) : res (list Scalar) :=
  let aa := inner_product a a in
  let ab := inner_product a b in
  assertb (negb (seqb s0 ab)) ;;;
  let x := ab * sinv aa in
  let ax := map (fun k => k * x) a in
  Ok (map2 (fun r s => r - s) b ax).

(** src/ipa/gramschmidt.rs:48-51 *)
Definition sample_gram_schmidt (rng : nat -> Scalar) (pos : nat) (a : list Scalar)
  : res (list Scalar * nat) :=
  '(sampled_matrix, pos) <- sample_m_n_plus rng pos (length a) ;;
  v <- orth a sampled_matrix ;;
  Ok (v, pos).

(** src/ipa/gramschmidt.rs:56-61 *)
Definition sample_gram_schmidt_twice (rng : nat -> Scalar) (pos : nat) (a b : list Scalar)
  : res (list Scalar * nat) :=
  orth_a_b <- orth a b ;;
  '(orth_a_sample, pos) <- sample_gram_schmidt rng pos a ;;
  v <- orth orth_a_b orth_a_sample ;;
  Ok (v, pos).

End GramSchmidt.
