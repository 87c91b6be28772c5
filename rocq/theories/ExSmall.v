(** A small lawful instance (scalars Z/1009, one-coordinate points) for concrete
    cases that need many runs. *)
From Coq Require Import ZArith Znumtheory Lia.
From Verif Require Export Ex.
From Verif Require Import Primes.
Local Open Scope Z_scope.

Definition FS : Crypto := fp_crypto 1009 1.
Lemma prime_1009 : prime 1009.
Proof. apply (small_prime 2000); [lia|vm_compute; reflexivity]. Qed.
Lemma FS_laws : CryptoLaws FS.
Proof. apply fp_laws. exact prime_1009. Qed.
Definition fN (z : Z) : @Scalar FS := fp 1009 z.
Definition qN (z : Z) : @Point FS := vtab 1009 1 (fun _ => fp 1009 z).
Definition zf (x : @Scalar FS) : Z := val 1009 x.
Definition zq (x : @Point FS) : Z := val 1009 (ventry 1009 1 x 0).
