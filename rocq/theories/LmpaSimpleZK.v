(** Model of src/lmpa/simple_zk.rs *)
From Coq Require Import String.
From Verif Require Export LmpaNoZK.
Local Open Scope string_scope.
Local Open Scope nat_scope.
Local Open Scope list_scope.

Section LmpaSimpleZK.
Context {C : Crypto}.

(** (0..n).map(|_| Scalar::random(rng)).collect() *)
Definition draw (rng : nat -> Scalar) (pos n : nat) : list Scalar :=
  map (fun i => rng (pos + i)) (seq 0 n).

(** src/lmpa/simple_zk.rs:13-16 *)
Record SimpleZK := mkSimpleZK {
  sz_no_zk : LmpaNoZK;
  sz_a : list Point
}.

(** src/lmpa/simple_zk.rs:18-47 *)
Definition simple_zk_create (ro : oracle) (rng : nat -> Scalar) (pos : nat) (tr : transcript)
    (A : list (list Point)) (G_Vec H_Vec : list Point) (Q : Point) (w : list Scalar)
  : res (SimpleZK * transcript) :=
  let n := length G_Vec in
  let r := draw rng pos n in
  let a := matrixpoint_vector_mul A r in
  let tr := append_points tr "a" a in
  let '(beta, tr) := challenge_scalar ro tr "beta" in
  let w_prime := map2 (fun witness random => beta * witness + random)%S w r in
  '(proof, tr) <- lmpa_create ro tr A G_Vec H_Vec Q w_prime ;;
  Ok (mkSimpleZK proof a, tr).

(** src/lmpa/simple_zk.rs:124-148 *)
Definition simple_zk_verify (ro : oracle) (tr : transcript) (proof : SimpleZK)
    (A : list (list Point)) (G_Vec H_Vec : list Point) (Q : Point) (n : nat) (t : list Point)
  : res (bool * transcript) :=
  assertb (n =? length G_Vec) ;;;
  let tr := append_points tr "a" (sz_a proof) in
  let '(beta, tr) := challenge_scalar ro tr "beta" in
  let t := map2 (fun t_i a_i => beta *: t_i + a_i)%P t (sz_a proof) in
  lmpa_verify ro tr (sz_no_zk proof) A G_Vec H_Vec Q n t.

(** src/lmpa/simple_zk.rs:51-54 *)
Record SimpleZKGeneral := mkSimpleZKGeneral {
  lamp_no_zk : LmpaKary;
  szg_a : list Point
}.

(** src/lmpa/simple_zk.rs:56-95. w_prime (76-80) is computed and never used: the
    unblinded w is passed on (line 85). *)
Definition create_general (ro : oracle) (rng : nat -> Scalar) (pos : nat) (tr : transcript)
    (A : list (list Point)) (w : list Scalar) (t : list Point) (n m k : nat)
  : res (SimpleZKGeneral * transcript) :=
  let r := draw rng pos n in
  let a := matrixpoint_vector_mul A r in
  let tr := append_points tr "a" a in
  let '(beta, tr) := challenge_scalar ro tr "beta" in
  let w_prime := map2 (fun witness random => beta * witness + random)%S w r in
  '(proof, tr) <- create_lmpa_noZK ro tr A w t n m k s1 p0 ;;
  Ok (mkSimpleZKGeneral proof a, tr).

(** src/lmpa/simple_zk.rs:98-120 *)
Definition verify_general (ro : oracle) (tr : transcript) (proof : SimpleZKGeneral)
    (A : list (list Point)) (t : list Point) (n m k : nat) : res (bool * transcript) :=
  let tr := append_points tr "a" (szg_a proof) in
  let '(beta, tr) := challenge_scalar ro tr "beta" in
  let t := map2 (fun t_i a_i => beta *: t_i + a_i)%P t (szg_a proof) in
  verify_lmpa_noZK ro tr (lamp_no_zk proof) A t n m k s1 p0.

(** src/lmpa/simple_zk.rs:334-347 *)
Definition pedersen_commit (H : Point) (G_Vec : list Point) (msg : list Scalar) (rand : Scalar)
  : res Point :=
  commitment <- msm msg G_Vec ;;
  Ok (commitment + rand *: H)%P.

End LmpaSimpleZK.
