(** Specification side of the inner product argument: the shape of the
    transcript, the closed forms of the folded quantities, trees of challenges
    and the knowledge extractor. *)
From Coq Require Import String.
From Verif Require Export Spec.
Local Open Scope string_scope.
Local Open Scope nat_scope.
Local Open Scope list_scope.

Section IpaSpec.
Context {C : Crypto}.

(** events of one folding round *)
Definition ipa_round (LR : Compressed * Compressed) : list event :=
  [EvMsg "L" (fst LR); EvMsg "R" (snd LR); EvChal "x_i"].
(** history when alpha is drawn, and when the challenge of round j-1 is drawn *)
Definition ipa_start (tr : transcript) (n : nat) : transcript :=
  tr ++ [EvU64 "n" n; EvChal "alpha"].
Definition ipa_rounds (LRs : list (Compressed * Compressed)) : list event :=
  concat (map ipa_round LRs).
Definition ipa_hist (tr : transcript) (n : nat) (LRs : list (Compressed * Compressed)) (j : nat)
  : transcript :=
  ipa_start tr n ++ ipa_rounds (firstn j LRs).

(** coefficient of G_i (resp. H_i) after d rounds: the product of the challenges
    at the one (resp. zero) bits of i, round 0 corresponding to the top bit *)
Definition coefG (d : nat) (xs : list Scalar) (i : nat) : Scalar :=
  prod_S d (fun j => if Nat.testbit i (d - 1 - j) then sc xs j else s1).
Definition coefH (d : nat) (xs : list Scalar) (i : nat) : Scalar :=
  prod_S d (fun j => if Nat.testbit i (d - 1 - j) then s1 else sc xs j).

(** ** Trees of challenges
    A node holds the prover's message (L,R) and four continuations, one for each
    of four different verifier challenges; a leaf holds the final message. *)
Inductive ipa_tree : Type :=
| Leaf (a b : Scalar)
| Node (l r : Point) (x1 : Scalar) (T1 : ipa_tree) (x2 : Scalar) (T2 : ipa_tree)
       (x3 : Scalar) (T3 : ipa_tree) (x4 : Scalar) (T4 : ipa_tree).

(** a root-to-leaf path: the rounds (L,R,x) and the final a, b *)
Definition ipa_path : Type := (list (Point * Point * Scalar) * Scalar * Scalar)%type.
Definition path_cons (l r : Point) (x : Scalar) (p : ipa_path) : ipa_path :=
  let '(q, a, b) := p in ((l, r, x) :: q, a, b).
Fixpoint paths (T : ipa_tree) : list ipa_path :=
  match T with
  | Leaf a b => [([], a, b)]
  | Node l r x1 T1 x2 T2 x3 T3 x4 T4 =>
      map (path_cons l r x1) (paths T1) ++ map (path_cons l r x2) (paths T2) ++
      map (path_cons l r x3) (paths T3) ++ map (path_cons l r x4) (paths T4)
  end.
(** the four challenges at every node are pairwise different *)
Fixpoint distinct_challenges (T : ipa_tree) : Prop :=
  match T with
  | Leaf _ _ => True
  | Node _ _ x1 T1 x2 T2 x3 T3 x4 T4 =>
      NoDup [x1; x2; x3; x4] /\ distinct_challenges T1 /\ distinct_challenges T2 /\
      distinct_challenges T3 /\ distinct_challenges T4
  end.

(** ** The extractor: scalar arithmetic only *)
Inductive extracted : Type :=
| Wit (a b : list Scalar) (c : Scalar)      (* vectors and their product *)
| Rel (g h : list Scalar) (q : Scalar).     (* a relation between G, H, Q *)

Definition vscale (x : Scalar) (v : list Scalar) : list Scalar := map (smul x) v.
Definition lc3 (l : Scalar * Scalar * Scalar) (u v w : list Scalar) : list Scalar :=
  let '(l1, l2, l3) := l in
  map2 sadd (vscale l1 u) (map2 sadd (vscale l2 v) (vscale l3 w)).
Definition lc3s (l : Scalar * Scalar * Scalar) (u v w : Scalar) : Scalar :=
  let '(l1, l2, l3) := l in (l1 * u + (l2 * v + l3 * w))%S.
(** Lagrange: weights giving the coefficients of x^2, x, 1 of the quadratic
    polynomial through three points with abscissae x1, x2, x3 *)
Definition lag_den (x y z : Scalar) : Scalar := sinv ((x - y) * (x - z))%S.
Definition lag2 (x1 x2 x3 : Scalar) := (lag_den x1 x2 x3, lag_den x2 x1 x3, lag_den x3 x1 x2).
Definition lag1 (x1 x2 x3 : Scalar) :=
  (- (x2 + x3) * lag_den x1 x2 x3, - (x1 + x3) * lag_den x2 x1 x3, - (x1 + x2) * lag_den x3 x1 x2)%S.
Definition lag0 (x1 x2 x3 : Scalar) :=
  (x2 * x3 * lag_den x1 x2 x3, x1 * x3 * lag_den x2 x1 x3, x1 * x2 * lag_den x3 x1 x2)%S.

Definition liftG (x : Scalar) (v : list Scalar) : list Scalar := v ++ vscale x v.
Definition liftH (x : Scalar) (v : list Scalar) : list Scalar := vscale x v ++ v.
Definition all_zero (v : list Scalar) : bool := forallb (fun x => seqb x s0) v.

(** x^2 u + x v + w - z *)
Definition residue (x : Scalar) (u v w z : list Scalar) : list Scalar :=
  map2 ssub (lc3 (x * x, x, s1)%S u v w) z.

Fixpoint extract (T : ipa_tree) : extracted :=
  match T with
  | Leaf a b => Wit [a] [b] (a * b)%S
  | Node _ _ x1 T1 x2 T2 x3 T3 x4 T4 =>
    match extract T1, extract T2, extract T3, extract T4 with
    | Wit a1 b1 c1, Wit a2 b2 c2, Wit a3 b3 c3, Wit a4 b4 c4 =>
      let g l := lc3 l (liftG x1 a1) (liftG x2 a2) (liftG x3 a3) in
      let h l := lc3 l (liftH x1 b1) (liftH x2 b2) (liftH x3 b3) in
      let q l := lc3s l c1 c2 c3 in
      let l2 := lag2 x1 x2 x3 in let l1 := lag1 x1 x2 x3 in let l0 := lag0 x1 x2 x3 in
      let rg := residue x4 (g l2) (g l1) (g l0) (liftG x4 a4) in
      let rh := residue x4 (h l2) (h l1) (h l0) (liftH x4 b4) in
      if all_zero rg && all_zero rh then Wit (g l1) (h l1) (q l1)
      else Rel rg rh (lc3s (x4 * x4, x4, s1)%S (q l2) (q l1) (q l0) - c4)%S
    | Rel g h q, _, _, _ => Rel (liftG x1 g) (liftH x1 h) q
    | _, Rel g h q, _, _ => Rel (liftG x2 g) (liftH x2 h) q
    | _, _, Rel g h q, _ => Rel (liftG x3 g) (liftH x3 h) q
    | _, _, _, Rel g h q => Rel (liftG x4 g) (liftH x4 h) q
    end
  end.

(** two trees for two values of alpha *)
Definition ipa_extract (t alpha : Scalar) (T : ipa_tree) (alpha' : Scalar) (T' : ipa_tree)
  : extracted :=
  match extract T, extract T' with
  | Rel g h q, _ => Rel g h (q * sinv alpha)%S
  | _, Rel g h q => Rel g h (q * sinv alpha')%S
  | Wit a b c, Wit a' b' c' =>
    let rg := map2 ssub a a' in
    let rh := map2 ssub b b' in
    let rq := ((c - t) * sinv alpha - (c' - t) * sinv alpha')%S in
    if all_zero rg && all_zero rh && seqb rq s0 then Wit a b c else Rel rg rh rq
  end.

(** ** The almost zero-knowledge argument *)
(** history when beta is drawn *)
Definition alm_beta_hist (tr : transcript) (Cr : Compressed) : transcript :=
  tr ++ [EvMsg "C_r" Cr; EvChal "beta"].
(** the point handed to the inner product argument *)
Definition alm_P (beta t : Scalar) (Cw Cr Q : Point) : Point :=
  (beta *: Cw + Cr + (beta * beta * t)%S *: Q)%P.
(** history at the start of the inner product argument *)
Definition alm_ipa_hist (tr : transcript) (Cr : Compressed) (P : Point) : transcript :=
  alm_beta_hist tr Cr ++ [EvMsg "P" (compress P)].

(** two trees, for two values of alpha *)
Record alpha_trees := mkAT {
  at_alpha : Scalar; at_T : ipa_tree; at_alpha' : Scalar; at_T' : ipa_tree
}.
Definition good_trees (B : alpha_trees) : Prop :=
  at_alpha B <> s0 /\ at_alpha' B <> s0 /\ at_alpha B <> at_alpha' B /\
  distinct_challenges (at_T B) /\ distinct_challenges (at_T' B).
Definition all_paths (B : alpha_trees) (acc : Scalar -> ipa_path -> Prop) : Prop :=
  (forall p, In p (paths (at_T B)) -> acc (at_alpha B) p) /\
  (forall p, In p (paths (at_T' B)) -> acc (at_alpha' B) p).
Definition trees_extract (t : Scalar) (B : alpha_trees) : extracted :=
  ipa_extract t (at_alpha B) (at_T B) (at_alpha' B) (at_T' B).

(** the two lines through (b1,v1) and (b2,v2): slope and value at 0 *)
Definition vslope (b1 b2 : Scalar) (v1 v2 : list Scalar) : list Scalar :=
  vscale (sinv (b1 - b2)%S) (map2 ssub v1 v2).
Definition vorigin (b1 b2 : Scalar) (v1 v2 : list Scalar) : list Scalar :=
  map2 ssub v1 (vscale b1 (vslope b1 b2 v1 v2)).
Definition vline (b : Scalar) (slope origin : list Scalar) : list Scalar :=
  map2 sadd (vscale b slope) origin.

(** three values of beta *)
Definition alm_extract (t b1 : Scalar) (B1 : alpha_trees) (b2 : Scalar) (B2 : alpha_trees)
    (b3 : Scalar) (B3 : alpha_trees) : extracted :=
  match trees_extract (b1 * b1 * t)%S B1, trees_extract (b2 * b2 * t)%S B2,
        trees_extract (b3 * b3 * t)%S B3 with
  | Rel g h q, _, _ => Rel g h q
  | _, Rel g h q, _ => Rel g h q
  | _, _, Rel g h q => Rel g h q
  | Wit a1 w1 _, Wit a2 w2 _, Wit a3 w3 _ =>
    let rg := map2 ssub a3 (vline b3 (vslope b1 b2 a1 a2) (vorigin b1 b2 a1 a2)) in
    let rh := map2 ssub w3 (vline b3 (vslope b1 b2 w1 w2) (vorigin b1 b2 w1 w2)) in
    if all_zero rg && all_zero rh then Wit (vslope b1 b2 a1 a2) (vslope b1 b2 w1 w2) t
    else Rel rg rh s0
  end.

(** (g,h,q) is a non-trivial linear relation between the points G, H, Q *)
Definition nontrivial_relation (n : nat) (G H : list Point) (Q : Point)
    (g h : list Scalar) (q : Scalar) : Prop :=
  length g = n /\ length h = n /\
  (comb g G + comb h H + q *: Q = p0)%P /\
  ~ ((forall i, i < n -> sc g i = s0 /\ sc h i = s0) /\ q = s0).

End IpaSpec.
