(** Model of src/copy/mapping.rs. u16 and usize values are [N] here, u16
    arithmetic is exact. A BTreeSet<u16> is the strictly increasing list of its
    elements (its iteration order). *)
From Verif Require Export Crypto.
Local Open Scope N_scope.

(** BTreeSet::insert *)
Fixpoint btree_insert (x : N) (s : list N) : list N :=
  match s with
  | [] => [x]
  | y :: s' => if x <? y then x :: s
               else if x =? y then s
               else y :: btree_insert x s'
  end.

(** collect::<BTreeSet<_>>() *)
Definition btree_collect (l : list N) : list N := fold_left (fun s x => btree_insert x s) l [].

(** BTreeSet::contains *)
Definition btree_contains (s : list N) (x : N) : bool := existsb (N.eqb x) s.

(** "as u16" *)
Definition as_u16 (x : N) : N := x mod 65536.

(** u16 subtraction with overflow checks *)
Definition u16_sub (a b : N) : res N := if b <=? a then Ok (a - b) else Panic.

(** the range lo..hi *)
Definition range_N (lo hi : N) : list N :=
  map (fun i => lo + N.of_nat i) (seq 0 (N.to_nat (hi - lo))).

(** src/copy/mapping.rs:56-63 *)
Record MessageMap := mkMessageMap {
  msg_id : nat;
  commitment_index : N;
  commitment_crs_id : N;
  position_in_witness : N
}.

(** src/copy/mapping.rs:48-54 *)
Record Mapping := mkMapping {
  num_commitments : nat;
  msgs_map : list MessageMap;
  unique_commitment_indices : list N;
  last_index : N
}.

Definition set_position (m : MessageMap) (p : N) : MessageMap :=
  mkMessageMap (msg_id m) (commitment_index m) (commitment_crs_id m) p.
Definition set_commitment_index (m : MessageMap) (i : N) : MessageMap :=
  mkMessageMap (msg_id m) i (commitment_crs_id m) (position_in_witness m).
Definition set_crs_id (m : MessageMap) (c : N) : MessageMap :=
  mkMessageMap (msg_id m) (commitment_index m) c (position_in_witness m).

(** for (m, p) in ms.iter_mut().zip(ps.iter()) { m = f(m,p) }: surplus entries of
    [ms] are left unchanged *)
Fixpoint zip_mut {A B} (f : A -> B -> A) (ms : list A) (ps : list B) : list A :=
  match ms, ps with
  | m :: ms', p :: ps' => f m p :: zip_mut f ms' ps'
  | _, _ => ms
  end.

(** let it = ms.iter_mut(); for p in ps { it.next().unwrap() = f(.., p) } *)
Fixpoint next_mut {A B} (f : A -> B -> A) (ms : list A) (ps : list B) : res (list A) :=
  match ps with
  | [] => Ok ms
  | p :: ps' => match ms with
                | [] => Panic
                | m :: ms' => r <- next_mut f ms' ps' ;; Ok (f m p :: r)
                end
  end.

(** src/copy/mapping.rs:64-145. Line 81 (unique_indices.contains(&0);) computes a
    boolean and drops it, so it has no counterpart. Shadowing of n (69) kept. *)
Definition compute_mapping (n witness_size : N) (sets_of_indices : list (list N)) : res Mapping :=
  let n := as_u16 n in
  let num_commitments := length sets_of_indices in
  let unique_indices := btree_collect (concat sets_of_indices) in
  let total_messages := fold_left Nat.add (map (@length N) sets_of_indices) 0%nat in
  let position := as_u16 witness_size in
  hi <- u16_sub n 2 ;;
  let available_positions :=
    firstn total_messages
      (filter (fun x => negb (btree_contains unique_indices x)) (range_N position hi)) in
  last_index <- unwrap (nth_error available_positions (length available_positions - 1)) ;;
  assertb (total_messages =? length available_positions)%nat ;;;
  let msgs_map := map (fun i => mkMessageMap i 0 0 0) (seq 0 total_messages) in
  let msgs_map := zip_mut set_position msgs_map available_positions in
  msgs_map <- next_mut set_commitment_index msgs_map (concat sets_of_indices) ;;
  msgs_map <- next_mut set_crs_id msgs_map
    (concat (map (fun '(crs_id, set_of_indices) =>
                    map (fun _ => as_u16 (N.of_nat crs_id)) set_of_indices)
                 (enumerate sets_of_indices))) ;;
  Ok (mkMapping num_commitments msgs_map unique_indices last_index).

Section Commit.
Context {C : Crypto}.

(** src/copy/mapping.rs:31-47 *)
Definition commit (G_Vec : list Point) (indices : list N) (msg : list Scalar) (rand : Scalar)
  : res Point :=
  assertb (length indices =? length msg)%nat ;;;
  points <- mapM (fun i => idx G_Vec (N.to_nat i)) indices ;;
  commitment <- msm msg points ;;
  g_last <- unwrap (nth_error G_Vec (length G_Vec - 1)) ;;
  Ok (commitment + rand *: g_last)%P.

End Commit.
