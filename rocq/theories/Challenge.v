(** Model of src/transcript.rs at the level of bytes. Merlin's challenge_bytes fills a
    64-byte buffer that is a function of the whole history; Scalar::from_bytes_mod_order_wide
    reads it as a little-endian integer and reduces it modulo the group order. *)
From Coq Require Import String.
From Verif Require Export Crypto Fp.
Local Open Scope Z_scope.

Definition byte_string (k : nat) (buf : list Z) : Prop :=
  length buf = k /\ Forall (fun b => 0 <= b < 256) buf.
(** little-endian value *)
Fixpoint le_value (buf : list Z) : Z :=
  match buf with [] => 0 | b :: buf' => b + 256 * le_value buf' end.

Section Challenge.
Context {m : nat}.
(** curve25519_dalek::scalar::Scalar::from_bytes_mod_order_wide *)
Definition from_bytes_mod_order_wide (buf : list Z) : @Scalar (RC m) := fp ell (le_value buf).

(** src/transcript.rs:12-17. [hb] is the sponge: the 64 bytes drawn after a history whose
    last event is the request itself. *)
Definition challenge_scalar_bytes (hb : @transcript (RC m) -> list Z) (tr : @transcript (RC m)) (label : string)
  : @Scalar (RC m) * @transcript (RC m) :=
  let tr' := tr ++ [EvChal label] in
  let buf := hb tr' in
  (from_bytes_mod_order_wide buf, tr').
End Challenge.
