(** Specification side of the binary linear-map preimage argument: the transcript
    layout, trees of challenges and the knowledge extractor. *)
From Coq Require Import String.
From Verif Require Export IpaSpec.
Local Open Scope string_scope.
Local Open Scope nat_scope.
Local Open Scope list_scope.

Section LmpaSpec.
Context {C : Crypto}.

(** A w: one linear combination per row *)
Definition pmv (A : list (list Point)) (w : list Scalar) : list Point :=
  map (fun row => comb w row) A.

(** one message per point *)
Definition lm_msgs (label : string) (us : list Point) : list event :=
  map (fun u => EvMsg label (compress u)) us.
Definition lm_round (L R : list Point) : list event :=
  lm_msgs "L" L ++ lm_msgs "R" R ++ [EvChal "challenge"].
Definition lm_rounds (LRs : list (list Point * list Point)) : list event :=
  concat (map (fun LR => lm_round (fst LR) (snd LR)) LRs).
(** history after the challenge of round j-1 *)
Definition lm_hist (tr : transcript) (LRs : list (list Point * list Point)) (j : nat) : transcript :=
  tr ++ lm_rounds (firstn j LRs).

(** ** Trees with three continuations per round *)
Inductive lm_tree : Type :=
| LLeaf (w : Scalar)
| LNode (l r : list Point) (x1 : Scalar) (T1 : lm_tree) (x2 : Scalar) (T2 : lm_tree)
        (x3 : Scalar) (T3 : lm_tree).
Definition lm_path : Type := (list (list Point * list Point * Scalar) * Scalar)%type.
Definition lm_path_cons (l r : list Point) (x : Scalar) (p : lm_path) : lm_path :=
  ((l, r, x) :: fst p, snd p).
Fixpoint lm_paths (T : lm_tree) : list lm_path :=
  match T with
  | LLeaf w => [([], w)]
  | LNode l r x1 T1 x2 T2 x3 T3 =>
      map (lm_path_cons l r x1) (lm_paths T1) ++ map (lm_path_cons l r x2) (lm_paths T2) ++
      map (lm_path_cons l r x3) (lm_paths T3)
  end.
(** d rounds everywhere, and different challenges at every node *)
Fixpoint lm_good (d : nat) (T : lm_tree) : Prop :=
  match d, T with
  | O, LLeaf _ => True
  | S d', LNode _ _ x1 T1 x2 T2 x3 T3 =>
      NoDup [x1; x2; x3] /\ lm_good d' T1 /\ lm_good d' T2 /\ lm_good d' T3
  | _, _ => False
  end.

(** the coefficient of the challenge in the interpolated round equation *)
Fixpoint lm_extract (T : lm_tree) : list Scalar :=
  match T with
  | LLeaf w => [w]
  | LNode _ _ x1 T1 x2 T2 x3 T3 =>
      let w1 := lm_extract T1 in let w2 := lm_extract T2 in let w3 := lm_extract T3 in
      lc3 (lag1 x1 x2 x3) w1 w2 w3 ++
      lc3 (lag1 x1 x2 x3) (vscale x1 w1) (vscale x2 w2) (vscale x3 w3)
  end.

(** two values of beta: the slope of the line through the two openings *)
Definition sz_extract (b1 : Scalar) (T1 : lm_tree) (b2 : Scalar) (T2 : lm_tree) : list Scalar :=
  vslope b1 b2 (lm_extract T1) (lm_extract T2).

(** history when beta is drawn *)
Definition sz_hist (tr : transcript) (a : list Point) : transcript :=
  tr ++ lm_msgs "a" a ++ [EvChal "beta"].
(** beta t + a *)
Definition sz_t (beta : Scalar) (t a : list Point) : list Point :=
  map2 (fun t_i a_i => beta *: t_i + a_i)%P t a.

End LmpaSpec.
