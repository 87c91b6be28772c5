(** Model of src/math_utils.rs *)
From Verif Require Export Crypto.

Section MathUtils.
Context {C : Crypto}.
Local Open Scope S_scope.

(** Iterator::sum over scalars (curve25519-dalek: fold from zero) *)
Definition ssum (l : list Scalar) : Scalar := fold_left sadd l s0.

(** src/math_utils.rs:4-6 *)
Definition inner_product (a b : list Scalar) : Scalar := ssum (map2 smul a b).

(** src/math_utils.rs:13-20. The range 0..n-1 underflows for n = 0. *)
Definition vandemonde_challenge (x : Scalar) (n : nat) : res (list Scalar) :=
  let challenges := [x] in
  bound <- usub n 1 ;;
  foldM (fun challenges i =>
           c <- idx challenges i ;;
           Ok (challenges ++ [c * x]))
        (seq 0 bound) challenges.

End MathUtils.
