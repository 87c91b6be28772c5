(** Specification vocabulary for the QESA inner argument: histories, the batched
    matrix, its extension, the challenge vector, the rescaled generators and the
    statement handed to the almost-zk argument. Written with index sums only. *)
From Coq Require Import String.
From Verif Require Export IpaSpec QesaInner.
Local Open Scope string_scope.
Local Open Scope nat_scope.
Local Open Scope list_scope.

Section QesaSpec.
Context {C : Crypto}.

(** the history hashed to obtain x, s, b and the one the sub-argument starts from *)
Definition q_hist_x (tr : transcript) (c1 : Compressed) : transcript :=
  tr ++ [EvMsg "c_prime_w" c1; EvChal "x"].
Definition q_hist_s tr c1 (c2 : Compressed) : transcript :=
  q_hist_x tr c1 ++ [EvMsg "c_prime_prime_w" c2; EvChal "s"].
Definition q_hist_b tr c1 c2 : transcript := q_hist_s tr c1 c2 ++ [EvChal "b"].
Definition q_hist_w tr c1 c2 (cw : Compressed) : transcript :=
  q_hist_b tr c1 c2 ++ [EvMsg "c_w" cw].

(** Gamma(x) = sum_t x^(t+1) M_t over the first n matrices *)
Definition q_gamma (n : nat) (Ms : list (list (list Scalar))) (x : Scalar) : list (list Scalar) :=
  mat (n - 2) (n - 2) (fun i j =>
    sum_S (min (length Ms) n) (fun t => spow x (S t) * ent (nth t Ms []) i j)%S).
(** block diagonal of Gamma and ((0,-1),(1,0)) *)
Definition q_gamma' (n : nat) (Gm : list (list Scalar)) : list (list Scalar) :=
  mat n n (fun i j =>
    if (i <? n - 2) && (j <? n - 2) then ent Gm i j
    else if (i =? n - 2) && (j =? n - 1) then (- s1)%S
    else if (i =? n - 1) && (j =? n - 2) then s1 else s0).
(** (s, s^2, ..., s^(n-2), b, b^2) *)
Definition q_s' (n : nat) (s b : Scalar) : list Scalar :=
  tab n (fun i => if i <? n - 2 then spow s (S i) else if i =? n - 2 then b else (b * b)%S).

(** M v and M^T v, with the number of results given explicitly *)
Definition mv (r : nat) (M : list (list Scalar)) (v : list Scalar) : list Scalar :=
  tab r (fun i => sum_S (length v) (fun j => ent M i j * sc v j)%S).
Definition mtv (c : nat) (M : list (list Scalar)) (v : list Scalar) : list Scalar :=
  tab c (fun j => sum_S (length v) (fun i => sc v i * ent M i j)%S).

(** G with its first point multiplied by 1/beta *)
Definition q_G (beta : Scalar) (G : list Point) : list Point :=
  tab (length G) (fun i => if i =? 0 then (sinv beta *: pt G 0)%P else pt G i).

(** the point and the inner product handed to the almost-zk argument *)
Definition q_Cw (n : nat) (G H : list Point) (Ms : list (list (list Scalar))) (x s b : Scalar)
    (P1 P2 : Point) : Point :=
  let beta := (x * x)%S in
  let Gm' := q_gamma' n (q_gamma n Ms x) in
  (P1 - (beta - s1)%S *: pt (q_G beta G) 0 + P2
   + comb (mtv n Gm' (q_s' n s b)) H - comb (q_s' n s b) (q_G beta G))%P.
Definition q_t (n : nat) (Ms : list (list (list Scalar))) (x s : Scalar) : Scalar :=
  (- quad (q_gamma n Ms x) (tab (n - 2) (fun i => spow s (S i))))%S.

(** the decoded point (only used for valid encodings) *)
Definition dec (c : Compressed) : Point :=
  match decompress c with Some P => P | None => p0 end.

(** the three challenges of a run, and the history the challenge alpha is drawn from *)
Definition q_x (ro : oracle) tr (pf : Inner) : Scalar := ro (q_hist_x tr (c_prime_w pf)).
Definition q_s (ro : oracle) tr (pf : Inner) : Scalar :=
  ro (q_hist_s tr (c_prime_w pf) (c_prime_prime_w pf)).
Definition q_b (ro : oracle) tr (pf : Inner) : Scalar :=
  ro (q_hist_b tr (c_prime_w pf) (c_prime_prime_w pf)).
Definition q_run_Cw (ro : oracle) tr (pf : Inner) (G H : list Point) Ms : Point :=
  q_Cw (length H) G H Ms (q_x ro tr pf) (q_s ro tr pf) (q_b ro tr pf)
    (dec (c_prime_w pf)) (dec (c_prime_prime_w pf)).
Definition q_run_hist (ro : oracle) tr (pf : Inner) (G H : list Point) Ms : transcript :=
  q_hist_w tr (c_prime_w pf) (c_prime_prime_w pf) (compress (q_run_Cw ro tr pf G H Ms)).
Definition q_alpha_hist (ro : oracle) tr (pf : Inner) (G H : list Point) (Q : Point) Ms : transcript :=
  let tr1 := q_run_hist ro tr pf G H Ms in
  let Cr := C_r (alm_zk pf) in
  ipa_start (alm_ipa_hist tr1 Cr
    (alm_P (ro (alm_beta_hist tr1 Cr)) (q_t (length H) Ms (q_x ro tr pf) (q_s ro tr pf))
       (q_run_Cw ro tr pf G H Ms) (dec Cr) Q)) (length H).

(** the vectors the prover runs the almost-zk argument on *)
Definition q_w' (w r' : list Scalar) : list Scalar := w ++ r'.
Definition q_w'' (n : nat) Ms x (w r' : list Scalar) : list Scalar :=
  mv n (q_gamma' n (q_gamma n Ms x)) (w ++ r').
Definition q_a (n : nat) (w r' : list Scalar) (s b : Scalar) : list Scalar :=
  tab n (fun i => sc (w ++ r') i - sc (q_s' n s b) i)%S.
Definition q_bv (n : nat) Ms x (w r' : list Scalar) (s b : Scalar) : list Scalar :=
  tab n (fun i => sc (q_w'' n Ms x w r') i
                  + sc (mtv n (q_gamma' n (q_gamma n Ms x)) (q_s' n s b)) i)%S.


(** ** extractor: trees over the challenges s, b of QESA and beta, alpha, x_j of
    the sub-arguments, for one fixed pair of commitments and one x *)
Record beta_trees := mkBT {
  bt_Cr : Compressed;
  bt_b1 : Scalar; bt_B1 : alpha_trees;
  bt_b2 : Scalar; bt_B2 : alpha_trees;
  bt_b3 : Scalar; bt_B3 : alpha_trees
}.
Definition good_beta (B : beta_trees) : Prop :=
  bt_b1 B <> bt_b2 B /\ bt_b1 B <> bt_b3 B /\ bt_b2 B <> bt_b3 B /\
  good_trees (bt_B1 B) /\ good_trees (bt_B2 B) /\ good_trees (bt_B3 B).
Definition beta_paths (B : beta_trees) (acc : Compressed -> Scalar -> Scalar -> ipa_path -> Prop) : Prop :=
  all_paths (bt_B1 B) (acc (bt_Cr B) (bt_b1 B)) /\
  all_paths (bt_B2 B) (acc (bt_Cr B) (bt_b2 B)) /\
  all_paths (bt_B3 B) (acc (bt_Cr B) (bt_b3 B)).
Definition beta_extract (t : Scalar) (B : beta_trees) : extracted :=
  alm_extract t (bt_b1 B) (bt_B1 B) (bt_b2 B) (bt_B2 B) (bt_b3 B) (bt_B3 B).

(** several s, for each of them several b *)
Definition sb_trees := list (Scalar * list (Scalar * beta_trees)).
Definition sb_leaves (T : sb_trees) : list (Scalar * Scalar * beta_trees) :=
  flat_map (fun '(s, l) => map (fun '(b, B) => (s, b, B)) l) T.
(** n-1 distinct s, three distinct b for each, good sub-trees *)
Definition good_sb (n : nat) (T : sb_trees) : Prop :=
  n - 1 <= length T /\ NoDup (map fst T) /\
  (forall s l, In (s, l) T -> 3 <= length l /\ NoDup (map fst l)) /\
  (forall s b B, In (s, b, B) (sb_leaves T) -> good_beta B).
Definition sb_paths (T : sb_trees)
    (acc : Scalar -> Scalar -> Compressed -> Scalar -> Scalar -> ipa_path -> Prop) : Prop :=
  forall s b B, In (s, b, B) (sb_leaves T) -> beta_paths B (acc s b).

(** undo the shift by s' *)
Definition q_leaf_open (n : nat) Ms (x : Scalar) (leaf : Scalar * Scalar * beta_trees) : extracted :=
  let '(s, b, B) := leaf in
  match beta_extract (q_t n Ms x s) B with
  | Wit a bv c => Wit (map2 sadd a (q_s' n s b))
                      (map2 ssub bv (mtv n (q_gamma' n (q_gamma n Ms x)) (q_s' n s b))) c
  | Rel g h q => Rel g h q
  end.
(** all leaves must open to the same vectors *)
Fixpoint q_agree (n : nat) Ms (x : Scalar) (v u : list Scalar) leaves : extracted :=
  match leaves with
  | [] => Wit v u s0
  | leaf :: leaves' =>
    match q_leaf_open n Ms x leaf with
    | Rel g h q => Rel g h q
    | Wit v2 u2 _ =>
      if all_zero (map2 ssub v2 v) && all_zero (map2 ssub u2 u) then q_agree n Ms x v u leaves'
      else Rel (map2 ssub v2 v) (map2 ssub u2 u) s0
    end
  end.
Definition q_sb_extract (n : nat) Ms (x : Scalar) (T : sb_trees) : extracted :=
  match sb_leaves T with
  | [] => Wit [] [] s0
  | leaf :: leaves =>
    match q_leaf_open n Ms x leaf with
    | Rel g h q => Rel g h q
    | Wit v u _ => q_agree n Ms x v u leaves
    end
  end.

(** v with its first entry replaced *)
Definition set_first (c : Scalar) (v : list Scalar) : list Scalar :=
  tab (length v) (fun i => if i =? 0 then c else sc v i).
(** from the rescaled generators back to G *)
Definition q_extract (n : nat) Ms (x : Scalar) (T : sb_trees) : extracted :=
  match q_sb_extract n Ms x T with
  | Rel g h q => Rel (set_first (sinv (x * x) * sc g 0)%S g) h q
  | Wit v u c => Wit (set_first (s1 + sinv (x * x) * (sc v 0 - s1))%S v) u c
  end.

(** compare with given openings: either a relation or nothing new *)
Definition q_compare (n : nat) Ms (x : Scalar) (T : sb_trees) (w' u : list Scalar)
  : option (list Scalar * list Scalar * Scalar) :=
  match q_extract n Ms x T with
  | Rel g h q => Some (g, h, q)
  | Wit v u2 _ =>
    if all_zero (map2 ssub v w') && all_zero (map2 ssub u2 u) then None
    else Some (map2 ssub v w', map2 ssub u2 u, s0)
  end.

End QesaSpec.
