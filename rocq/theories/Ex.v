(** Helpers for the concrete cases. They run over the scalars Z/pe for a prime pe of 50 bits, and
    one-coordinate points: checking a case by the kernel's plain conversion (coqchk) over the
    252-bit Ristretto scalars takes some forty times as long. *)
From Verif Require Export Fp.

Definition pe : Z := 1257559732178653.
Definition EX : Crypto := fp_crypto pe 1.
Lemma EX_laws : CryptoLaws EX.
Proof. apply fp_laws. exact prime_1257559732178653. Qed.

Definition rmap {A B} (f : A -> B) (r : res A) : res B :=
  match r with Ok a => Ok (f a) | Panic => Panic | Diverge => Diverge end.
(** scalar / point with the given integer value *)
Definition sN (z : Z) : @Scalar EX := fp pe z.
Definition pN (z : Z) : @Point EX := vtab pe 1 (fun _ => fp pe z).
Definition zs (x : @Scalar EX) : Z := val pe x.
Definition zp (x : @Point EX) : Z := val pe (ventry pe 1 x 0).

Lemma sN_eq a b : (a mod pe = b mod pe)%Z -> sN a = sN b.
Proof. apply fp_eq_mod. Qed.
Lemma zs_inj a b : zs a = zs b -> a = b.
Proof. apply Fp_eq. Qed.
Lemma zp_inj a b : zp a = zp b -> a = b.
Proof.
  intros H. apply Vm_ext. intros i Hi. assert (i = 0%nat) by lia. subst.
  apply Fp_eq. exact H.
Qed.
Lemma sN_neq a b : (a mod pe <> b mod pe)%Z -> sN a <> sN b.
Proof. intros H E. apply H. now apply (f_equal zs) in E. Qed.

(** the same for the Ristretto scalars *)
Definition sR (z : Z) : @Scalar (RC 1) := fp ell z.
Definition pR (z : Z) : @Point (RC 1) := vtab ell 1 (fun _ => fp ell z).
Definition zR (x : @Scalar (RC 1)) : Z := val ell x.
Lemma sR_eq a b : (a mod ell = b mod ell)%Z -> sR a = sR b.
Proof. apply fp_eq_mod. Qed.
Lemma sR_neq a b : (a mod ell <> b mod ell)%Z -> sR a <> sR b.
Proof. intros H E. apply H. now apply (f_equal zR) in E. Qed.
Lemma zR_inj a b : zR a = zR b -> a = b.
Proof. apply Fp_eq. Qed.
