(** Model of the row batching done by the callers of SimpleZK in
    src/lmpa/simple_zk.rs (tests, lines 212-247 and 271-332). Random inputs of the
    tests are parameters; H is drawn but never used by create and verify. *)
From Verif Require Export LmpaSimpleZK.
Local Open Scope nat_scope.
Local Open Scope list_scope.

Section LmpaBatch.
Context {C : Crypto}.

(** src/lmpa/simple_zk.rs:223, 230-231 and 281, 286-287:
    Y = vandemonde_vector(y, m), A_T = transpose(A), A_T_Y = A_T * Y *)
Definition batch_row (A : list (list Point)) (y : Scalar) (m : nat) : res (list Point) :=
  Y <- vandemonde_vector y m ;;
  A_T <- matrixpoint_transpose A ;;
  Ok (matrixpoint_vector_mul A_T Y).

(** src/lmpa/simple_zk.rs:234, 296: transpose(vec![t; 1]) * Y *)
Definition batch_target (t : list Point) (y : Scalar) (m : nat) : res (list Point) :=
  Y <- vandemonde_vector y m ;;
  t_T <- matrixpoint_transpose [t] ;;
  Ok (matrixpoint_vector_mul t_T Y).

(** src/lmpa/simple_zk.rs:212-247; the prover and the verifier transcripts start
    from the same label, here tr *)
Definition test_efficient_communication (ro : oracle) (rng : nat -> Scalar) (pos : nat) (tr : transcript)
    (G H : list Point) (Q : Point) (y : Scalar) (A : list (list Point)) (w : list Scalar) (n m : nat)
  : res bool :=
  A_T_Y <- batch_row A y m ;;
  let A_efficient := [A_T_Y] in
  let t := matrixpoint_vector_mul A_efficient w in
  t_efficient <- batch_target t y m ;;
  '(proof, _) <- simple_zk_create ro rng pos tr A_efficient G H Q w ;;
  '(b, _) <- simple_zk_verify ro tr proof A_efficient G H Q n t_efficient ;;
  Ok b.

(** src/lmpa/simple_zk.rs:302-308: B = [G0 :: G; 0 :: A_T_Y] *)
Definition batch_matrix (G0 : Point) (G A_T_Y : list Point) : list (list Point) :=
  [G0 :: G; p0 :: A_T_Y].

(** src/lmpa/simple_zk.rs:271-332 *)
Definition test_lmpa_batch (ro : oracle) (rng : nat -> Scalar) (pos : nat) (tr : transcript)
    (G H : list Point) (Q : Point) (y : Scalar) (G0 : Point) (A : list (list Point)) (w : list Scalar)
    (r_w : Scalar) (n m : nat) : res bool :=
  A_T_Y <- batch_row A y m ;;
  let A_efficient := [A_T_Y] in
  c_w <- pedersen_commit G0 G w r_w ;;
  let t := matrixpoint_vector_mul A_efficient w in
  t_efficient <- batch_target t y m ;;
  let B := batch_matrix G0 G A_T_Y in
  let r_w_w := r_w :: w in
  let u := c_w :: t_efficient in
  let new_n := n + 1 in
  new_G <- idx B 0 ;;
  '(proof, _) <- simple_zk_create ro rng pos tr B new_G H Q r_w_w ;;
  '(b, _) <- simple_zk_verify ro tr proof B new_G H Q new_n u ;;
  Ok b.

End LmpaBatch.
