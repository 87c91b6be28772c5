(** The boundary with the dependencies: scalars, points, encodings
    (curve25519-dalek), and the Fiat-Shamir transcript (merlin). *)
From Coq Require Import String.
From Verif Require Export Base.

(** Operations taken from curve25519-dalek.
    [Scalar] = curve25519_dalek::scalar::Scalar, [Point] =
    curve25519_dalek::ristretto::RistrettoPoint, [Compressed] =
    curve25519_dalek::ristretto::CompressedRistretto (32-byte strings, of which
    only some decode). *)
Class Crypto : Type := {
  Scalar : Type;
  s0 : Scalar;                         (* Scalar::zero() *)
  s1 : Scalar;                         (* Scalar::one() *)
  sadd : Scalar -> Scalar -> Scalar;
  ssub : Scalar -> Scalar -> Scalar;
  smul : Scalar -> Scalar -> Scalar;
  sopp : Scalar -> Scalar;
  sinv : Scalar -> Scalar;             (* Scalar::invert *)
  seqb : Scalar -> Scalar -> bool;     (* == *)
  Point : Type;
  p0 : Point;                          (* RistrettoPoint::identity() *)
  padd : Point -> Point -> Point;
  psub : Point -> Point -> Point;
  popp : Point -> Point;
  pmul : Scalar -> Point -> Point;     (* scalar * point = point * scalar *)
  peqb : Point -> Point -> bool;       (* == *)
  Compressed : Type;
  compress : Point -> Compressed;
  decompress : Compressed -> option Point
}.

Declare Scope S_scope.
Delimit Scope S_scope with S.
Declare Scope P_scope.
Delimit Scope P_scope with P.
Infix "+" := sadd : S_scope.
Infix "-" := ssub : S_scope.
Infix "*" := smul : S_scope.
Notation "- x" := (sopp x) : S_scope.
Infix "+" := padd : P_scope.
Infix "-" := psub : P_scope.
Notation "- x" := (popp x) : P_scope.
Infix "*:" := pmul (at level 40, no associativity) : P_scope.
Bind Scope S_scope with Scalar.
Bind Scope P_scope with Point.

(** What the proofs assume about those operations: the scalars are a field (with
    invert(0) = 0, as Fermat inversion gives), the points are a module over it,
    both equality tests are exact, and encodings are canonical. *)
Class CryptoLaws (C : Crypto) : Prop := {
  sadd_comm : forall x y : Scalar, sadd x y = sadd y x;
  sadd_assoc : forall x y z : Scalar, sadd x (sadd y z) = sadd (sadd x y) z;
  sadd_0_l : forall x : Scalar, sadd s0 x = x;
  sadd_opp : forall x : Scalar, sadd x (sopp x) = s0;
  ssub_def : forall x y : Scalar, ssub x y = sadd x (sopp y);
  smul_comm : forall x y : Scalar, smul x y = smul y x;
  smul_assoc : forall x y z : Scalar, smul x (smul y z) = smul (smul x y) z;
  smul_1_l : forall x : Scalar, smul s1 x = x;
  smul_add_l : forall x y z : Scalar, smul (sadd x y) z = sadd (smul x z) (smul y z);
  s1_neq_s0 : s1 <> s0;
  sinv_l : forall x : Scalar, x <> s0 -> smul (sinv x) x = s1;
  sinv_0 : sinv s0 = s0;
  seqb_eq : forall x y : Scalar, seqb x y = true <-> x = y;
  padd_comm : forall x y : Point, padd x y = padd y x;
  padd_assoc : forall x y z : Point, padd x (padd y z) = padd (padd x y) z;
  padd_0_l : forall x : Point, padd p0 x = x;
  padd_opp : forall x : Point, padd x (popp x) = p0;
  psub_def : forall x y : Point, psub x y = padd x (popp y);
  pmul_add_r : forall s (x y : Point), pmul s (padd x y) = padd (pmul s x) (pmul s y);
  pmul_add_l : forall s t (x : Point), pmul (sadd s t) x = padd (pmul s x) (pmul t x);
  pmul_mul : forall s t (x : Point), pmul s (pmul t x) = pmul (smul s t) x;
  pmul_1 : forall x : Point, pmul s1 x = x;
  peqb_eq : forall x y : Point, peqb x y = true <-> x = y;
  decompress_compress : forall P, decompress (compress P) = Some P;
  compress_decompress : forall c P, decompress c = Some P -> compress P = c
}.

(** ** Merlin transcript (merlin::Transcript)

    A transcript is modelled by its history, oldest event first.
    [EvMsg l m] is append_message(l, m.as_bytes()), [EvU64 l n] is
    append_u64(l, n), [EvChal l] is challenge_bytes(l, ..): drawing a challenge
    also advances the sponge state. *)
Section Transcript.
Context {C : Crypto}.

Inductive event : Type :=
| EvMsg (label : string) (msg : Compressed)
| EvU64 (label : string) (n : nat)
| EvChal (label : string).

Definition transcript : Type := list event.

(** The output of the hash: an arbitrary function of the complete history, the
    last event being the request itself. *)
Definition oracle : Type := transcript -> Scalar.

(** merlin Transcript::append_message *)
Definition append_message (tr : transcript) (label : string) (m : Compressed) : transcript :=
  tr ++ [EvMsg label m].

(** merlin Transcript::append_u64 *)
Definition append_u64 (tr : transcript) (label : string) (n : nat) : transcript :=
  tr ++ [EvU64 label n].

(** src/transcript.rs:12-17 (TranscriptProtocol::challenge_scalar). The
    reduction of the 64 output bytes modulo the group order is modelled
    separately in Challenge.v; here its result is the oracle's answer. *)
Definition challenge_scalar (ro : oracle) (tr : transcript) (label : string)
  : Scalar * transcript :=
  let tr' := tr ++ [EvChal label] in (ro tr', tr').

End Transcript.

(** ** vartime_multiscalar_mul (curve25519-dalek): sum of scalar multiples;
    asserts that both iterators have the same length. *)
Section Msm.
Context {C : Crypto}.

Definition psum (l : list Point) : Point := fold_left padd l p0.

Definition msm (ss : list Scalar) (ps : list Point) : res Point :=
  if length ss =? length ps then Ok (psum (map2 pmul ss ps)) else Panic.

End Msm.
