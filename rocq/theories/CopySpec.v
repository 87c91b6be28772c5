(** Specification vocabulary for the message mapping and the copy argument. *)
From Coq Require Import String Sorted.
From Verif Require Export QesaSpec Copy.
Local Open Scope string_scope.
Local Open Scope nat_scope.
Local Open Scope list_scope.

(** total number of messages *)
Definition cm_total (sets : list (list N)) : nat := list_sum (map (@length N) sets).
(** number of messages of the commitments before number c *)
Definition cm_offset (sets : list (list N)) (c : nat) : nat := cm_total (firstn c sets).
(** a position that may hold a message *)
Definition cm_free (n ws : N) (sets : list (list N)) (p : N) : Prop :=
  (ws <= p)%N /\ (p < n - 2)%N /\ forall s, In s sets -> ~ In p s.

Section CopySpec.
Context {C : Crypto}.

(** sum of f over a list *)
Fixpoint sum_over {A} (f : A -> Scalar) (l : list A) : Scalar :=
  match l with [] => s0 | a :: l' => (f a + sum_over f l')%S end.

Definition mpos (m : MessageMap) : nat := N.to_nat (position_in_witness m).
Definition midx (m : MessageMap) : nat := N.to_nat (commitment_index m).
Definition mcrs (m : MessageMap) : nat := N.to_nat (commitment_crs_id m).

(** what the slot of commitment index c must hold: the sum over the messages
    committed with generator c of alpha^(commitment number + 1) * w at the message's position *)
Definition cp_slot (mp : Mapping) (alpha : Scalar) (w : list Scalar) (c : nat) : Scalar :=
  sum_over (fun m => if midx m =? c then (spow alpha (S (mcrs m)) * sc w (mpos m))%S else s0) (msgs_map mp).

(** entry i of the witness once the messages are placed, before aggregation *)
Definition cp_placed (mp : Mapping) (w msgs : list Scalar) (i : nat) : Scalar :=
  (sc w i + sum_over (fun '(x, m) => if mpos m =? i then x else s0) (combine msgs (msgs_map mp)))%S.
(** the aggregation added to entry i *)
Definition cp_added (mp : Mapping) (msgs : list Scalar) (alpha : Scalar) (i : nat) : Scalar :=
  sum_over (fun '(x, m) => if midx m =? i then (spow alpha (S (mcrs m)) * x)%S else s0)
           (combine msgs (msgs_map mp)).
(** the final witness (n-2 entries) *)
Definition cp_witness (n : nat) (mp : Mapping) (w msgs : list Scalar) (alpha : Scalar) : list Scalar :=
  tab (n - 2) (fun i => cp_placed mp w msgs i + cp_added mp msgs alpha i)%S.

(** history hashed to obtain alpha *)
Definition cp_hist (tr : transcript) (cw : Compressed) : transcript :=
  tr ++ [EvMsg "c_w" cw; EvChal "alpha"].

(** the first row of the copy matrix of index c *)
Definition cp_row (n : nat) (mp : Mapping) (alpha : Scalar) (c : nat) : list Scalar :=
  tab (n - 2) (fun i =>
    if i =? c then (- s1)%S
    else sum_over (fun m => if (midx m =? c) && (mpos m =? i) then spow alpha (S (mcrs m)) else s0)
                  (msgs_map mp)).
Definition cp_matrix (n : nat) (mp : Mapping) (alpha : Scalar) (c : N) : list (list Scalar) :=
  cp_row n mp alpha (N.to_nat c) :: repeat (repeat s0 (n - 2)) (n - 3).
(** caller's matrices followed by one copy matrix per distinct commitment index *)
Definition cp_system (n : nat) (mp : Mapping) (alpha : Scalar) (Ms : list (list (list Scalar))) :=
  Ms ++ map (cp_matrix n mp alpha) (unique_commitment_indices mp).

(** C_w + sum_k alpha^(k+1) C_k *)
Definition cp_agg (alpha : Scalar) (Cw : Point) (Cs : list Point) : Point :=
  (Cw + sum_P (length Cs) (fun k => spow alpha (S k) *: pt Cs k))%P.

(** the vector committed to by commitment number k: at generator i the message entries
    whose index is i *)
Definition cp_opened (sets : list (list N)) (msgs : list (list Scalar)) (k i : nat) : Scalar :=
  sum_S (length (nth k sets [])) (fun j =>
    if N.to_nat (nth j (nth k sets []) 0%N) =? i then sc (nth k msgs []) j else s0).
(** the vector committed to by C_w + sum_k alpha^(k+1) C_k when C_w commits to v *)
Definition cp_final (n : nat) (sets : list (list N)) (msgs : list (list Scalar)) (v : list Scalar)
    (alpha : Scalar) : list Scalar :=
  tab (n - 2) (fun i => sc v i + sum_S (length sets) (fun k => spow alpha (S k) * cp_opened sets msgs k i))%S.

End CopySpec.
