(** Specification side of the k-ary linear-map preimage argument: one folding
    round written out with sums, and the transcript layout. *)
From Coq Require Import String.
From Verif Require Export LmpaSpec.
Local Open Scope string_scope.
Local Open Scope nat_scope.
Local Open Scope list_scope.

Section KarySpec.
Context {C : Crypto}.

(** events of one round *)
Definition ka_round (u : list (list Point)) : list event :=
  concat (map (lm_msgs "u_l") u) ++ [EvChal "challenge_x"].
Definition ka_hist (tr : transcript) (us : list (list (list Point))) (j : nat) : transcript :=
  tr ++ concat (map ka_round (firstn j us)).

(** A and w are cut into k pieces of c columns. Row r of (piece i of A) (piece j of w): *)
Definition ka_cross (c : nat) (A : list (list Point)) (w : list Scalar) (i j r : nat) : Point :=
  sum_P c (fun s => sc w (j * c + s) *: pent A r (i * c + s))%P.
(** the messages of a round: u_l is the sum of the products with (k-1) + j - i = l,
    the middle one being t *)
Definition ka_u (k c m : nat) (A : list (list Point)) (w : list Scalar) (t : list Point)
  : list (list Point) :=
  mat (2 * (k - 1) + 1) m (fun l r =>
    if l =? k - 1 then pt t r
    else sum_P k (fun i => sum_P k (fun j =>
           if k - 1 + j =? l + i then ka_cross c A w i j r else p0))).
(** sum_i x^i A_i and sum_j x^(-j) w_j *)
Definition ka_A (k c m : nat) (x : Scalar) (A : list (list Point)) : list (list Point) :=
  mat m c (fun r s => sum_P k (fun i => spow x i *: pent A r (i * c + s))%P).
Definition ka_w (k c : nat) (x : Scalar) (w : list Scalar) : list Scalar :=
  tab c (fun s => sum_S k (fun j => spow (sinv x) j * sc w (j * c + s))%S).
(** x^(k-1-l), for x <> 0 *)
Definition ka_z (k : nat) (x : Scalar) (l : nat) : Scalar :=
  (spow x (k - 1 - l) * spow (sinv x) (l - (k - 1)))%S.
Definition ka_t (k m : nat) (x : Scalar) (u : list (list Point)) : list Point :=
  tab m (fun r => sum_P (2 * (k - 1) + 1) (fun l => ka_z k x l *: pent u l r)%P).

(** the raw witness folded with the challenges of d rounds, n = r k^d *)
Fixpoint ka_fold_w (k r d : nat) (xs : list Scalar) (w : list Scalar) : list Scalar :=
  match d, xs with
  | S d', x :: xs' => ka_fold_w k r d' xs' (ka_w k (r * k ^ d') x w)
  | _, _ => w
  end.

End KarySpec.
