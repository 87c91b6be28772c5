(** Base vocabulary for the model: results with explicit panic and
    non-termination, and the Rust slice/iterator operations used by /repo. *)
From Coq Require Export List Arith NArith ZArith Lia Bool.
Export ListNotations.

(** Outcome of running a Rust function: a value, a panic (assert!, unwrap on
    None, index out of bounds, arithmetic underflow with overflow checks on,
    division by zero), or a loop that has used up its fuel. *)
Inductive res (A : Type) : Type :=
| Ok (a : A)
| Panic
| Diverge.
Arguments Ok {A} a.
Arguments Panic {A}.
Arguments Diverge {A}.

Definition bind {A B} (x : res A) (f : A -> res B) : res B :=
  match x with Ok a => f a | Panic => Panic | Diverge => Diverge end.

Declare Scope res_scope.
Delimit Scope res_scope with res.
Notation "x <- e ;; k" := (bind e (fun x => k))
  (at level 61, e at next level, right associativity) : res_scope.
Notation "' pat <- e ;; k" := (bind e (fun x => match x with pat => k end))
  (at level 61, pat pattern, e at next level, right associativity) : res_scope.
Notation "e ;;; k" := (bind e (fun _ => k))
  (at level 61, right associativity) : res_scope.
Open Scope res_scope.

(** assert! / assert_eq! on an already computed condition *)
Definition assertb (b : bool) : res unit := if b then Ok tt else Panic.

(** usize subtraction, debug profile: underflow panics *)
Definition usub (a b : nat) : res nat := if b <=? a then Ok (a - b) else Panic.
(** usize division and remainder: division by zero panics *)
Definition udiv (a b : nat) : res nat := if b =? 0 then Panic else Ok (a / b).
Definition urem (a b : nat) : res nat := if b =? 0 then Panic else Ok (a mod b).

(** usize::is_power_of_two *)
Definition is_power_of_two (n : nat) : bool := 2 ^ Nat.log2 n =? n.

(** slice indexing v[i] (read) *)
Definition idx {A} (l : list A) (i : nat) : res A :=
  match nth_error l i with Some a => Ok a | None => Panic end.

(** the list with position [i] replaced; unchanged when out of range *)
Fixpoint set_at {A} (l : list A) (i : nat) (v : A) : list A :=
  match l, i with
  | [], _ => []
  | _ :: l', O => v :: l'
  | a :: l', S i' => a :: set_at l' i' v
  end.

(** slice indexing v[i] = x (write) *)
Definition upd {A} (l : list A) (i : nat) (v : A) : res (list A) :=
  if i <? length l then Ok (set_at l i v) else Panic.

(** slice::split_at: panics when the index is past the end *)
Definition split_at {A} (n : nat) (l : list A) : res (list A * list A) :=
  if n <=? length l then Ok (firstn n l, skipn n l) else Panic.

(** a.iter().zip(b.iter()).map(f).collect(): stops at the shorter one *)
Fixpoint map2 {A B C} (f : A -> B -> C) (l : list A) (l' : list B) : list C :=
  match l, l' with
  | a :: l, b :: l' => f a b :: map2 f l l'
  | _, _ => []
  end.

(** iter().map(f).collect() where f may panic *)
Fixpoint mapM {A B} (f : A -> res B) (l : list A) : res (list B) :=
  match l with
  | [] => Ok []
  | a :: l => b <- f a ;; bs <- mapM f l ;; Ok (b :: bs)
  end.

Fixpoint map2M {A B C} (f : A -> B -> res C) (l : list A) (l' : list B) : res (list C) :=
  match l, l' with
  | a :: l, b :: l' => c <- f a b ;; cs <- map2M f l l' ;; Ok (c :: cs)
  | _, _ => Ok []
  end.

(** for x in l { acc = f acc x } where the body may panic *)
Fixpoint foldM {A B} (f : A -> B -> res A) (l : list B) (acc : A) : res A :=
  match l with
  | [] => Ok acc
  | b :: l => acc' <- f acc b ;; foldM f l acc'
  end.

(** iter().enumerate() *)
Definition enumerate {A} (l : list A) : list (nat * A) := combine (seq 0 (length l)) l.

(** unwrap *)
Definition unwrap {A} (o : option A) : res A :=
  match o with Some a => Ok a | None => Panic end.

(** slice::chunks(c) for c >= 1: consecutive pieces of length c, the last one
    possibly shorter (fuel [length l] suffices since every piece is non-empty). *)
Fixpoint chunks_aux {A} (fuel c : nat) (l : list A) : list (list A) :=
  match fuel with
  | O => []
  | S f => match l with
           | [] => []
           | _ => firstn c l :: chunks_aux f c (skipn c l)
           end
  end.
Definition chunks {A} (c : nat) (l : list A) : list (list A) := chunks_aux (length l) c l.
