(** Independent specification vocabulary: sums over indices, entries, powers,
    linear combinations, quadratic forms. Nothing here mentions the model's
    functions. *)
From Verif Require Export Crypto.

Section Spec.
Context {C : Crypto}.

(** f 0 + f 1 + ... + f (n-1) *)
Fixpoint sum_S (n : nat) (f : nat -> Scalar) : Scalar :=
  match n with O => s0 | S k => (sum_S k f + f k)%S end.
Fixpoint sum_P (n : nat) (f : nat -> Point) : Point :=
  match n with O => p0 | S k => (sum_P k f + f k)%P end.
Fixpoint prod_S (n : nat) (f : nat -> Scalar) : Scalar :=
  match n with O => s1 | S k => (prod_S k f * f k)%S end.

(** x^k *)
Fixpoint spow (x : Scalar) (k : nat) : Scalar :=
  match k with O => s1 | S k' => (spow x k' * x)%S end.

(** entry of a vector / matrix (used only at in-range indices) *)
Definition sc (v : list Scalar) (i : nat) : Scalar := nth i v s0.
Definition pt (v : list Point) (i : nat) : Point := nth i v p0.
Definition ent (M : list (list Scalar)) (i j : nat) : Scalar := sc (nth i M []) j.
Definition pent (M : list (list Point)) (i j : nat) : Point := pt (nth i M []) j.

(** <a,b> and <s,P> over the indices of the first argument *)
Definition dotp (a b : list Scalar) : Scalar := sum_S (length a) (fun i => (sc a i * sc b i)%S).
Definition comb (s : list Scalar) (P : list Point) : Point :=
  sum_P (length s) (fun i => (sc s i *: pt P i)%P).

(** rectangular r x c matrix *)
Definition rect {T} (r c : nat) (M : list (list T)) : Prop :=
  length M = r /\ Forall (fun row => length row = c) M.

(** r x c matrix given by its entries *)
Definition tab {T} (n : nat) (f : nat -> T) : list T := map f (seq 0 n).
Definition mat {T} (r c : nat) (f : nat -> nat -> T) : list (list T) :=
  tab r (fun i => tab c (fun j => f i j)).

(** w^T M w *)
Definition quad (M : list (list Scalar)) (w : list Scalar) : Scalar :=
  sum_S (length w) (fun i => sum_S (length w) (fun j => (sc w i * ent M i j * sc w j)%S)).

End Spec.
