(** Model of unit tests that build statements themselves: src/copy/mapping.rs
    (test_random_compute_mapping), src/ipa/qesa_inner.rs (the helpers creating
    equation systems and their tests), src/copy/copy.rs (both tests). An assertion is [assertb]; random draws are
    parameters. *)
From Verif Require Export Mapping QesaInner GramSchmidt Matrix Copy.
Local Open Scope nat_scope.
Local Open Scope list_scope.

(** for x in l { f(x) } *)
Definition for_each {A} (f : A -> res unit) (l : list A) : res unit := foldM (fun _ x => f x) l tt.

(** src/copy/mapping.rs:158-172: for every commitment a BTreeSet of [per] draws;
    draw number c * per + i is the i-th one of set c *)
Definition test_sets (num per : nat) (draws : nat -> N) : list (list N) :=
  map (fun c => fold_left (fun set i => btree_insert (draws (c * per + i)) set) (seq 0 per) []) (seq 0 num).

(** src/copy/mapping.rs:201-212: split_at by the sizes of the sets *)
Fixpoint chunk_maps (sets : list (list N)) (map_msg : list MessageMap) : res (list (list MessageMap)) :=
  match sets with
  | [] => Ok []
  | set_of_indice :: sets' =>
    '(head, tail) <- split_at (length set_of_indice) map_msg ;;
    rest <- chunk_maps sets' tail ;;
    Ok (head :: rest)
  end.

(** src/copy/mapping.rs:147-219 with n, the number of commitments (4) and the
    number of indices per commitment (2) as parameters *)
Definition test_random_compute_mapping (n : N) (num per : nat) (draws : nat -> N) : res unit :=
  let sets_of_indices := test_sets num per draws in
  mp <- compute_mapping n 1 sets_of_indices ;;
  assertb (num =? num_commitments mp) ;;;
  let total_messages := fold_left Nat.add (map (@length N) sets_of_indices) 0 in
  for_each (fun id => assertb (existsb (fun x => msg_id x =? id) (msgs_map mp))) (seq 0 total_messages) ;;;
  last_msg_id <- usub total_messages 1 ;;
  m <- idx (msgs_map mp) last_msg_id ;;
  assertb (position_in_witness m =? last_index mp)%N ;;;
  chunked_maps <- chunk_maps sets_of_indices (msgs_map mp) ;;
  for_each (fun '(crs_id, maps) =>
              for_each (fun m => assertb (commitment_crs_id m =? as_u16 (N.of_nat crs_id))%N) maps)
           (enumerate chunked_maps).

Section Helpers.
Context {C : Crypto}.

(** src/ipa/qesa_inner.rs:248-271. [rng] from [pos] on supplies the draws: first
    the n entries of the witness, then n for each row. *)
Definition helper_row (rng : nat -> Scalar) (witness : list Scalar) (n : nat) (st : list (list Scalar) * nat)
  : res (list (list Scalar) * nat) :=
  let '(gamma_i, pos) := st in
  let x := map (fun i => rng (pos + i)) (seq 0 n) in
  row <- orth witness x ;;
  assertb (seqb s0 (inner_product witness row)) ;;;
  Ok (gamma_i ++ [row], pos + n).
Definition helper_create_solutions (rng : nat -> Scalar) (pos n num : nat) : res (list Scalar * BlockMatrix * nat) :=
  let witness := map (fun i => rng (pos + i)) (seq 0 n) in
  let pos := pos + n in
  witness <- upd witness 0 s1 ;;
  '(bm, pos) <- foldM (fun '(bm, pos) _ =>
       '(gamma_i, pos) <- foldM (fun st _ => helper_row rng witness n st) (seq 0 n) ([], pos) ;;
       Ok (BlockMatrix_push bm gamma_i, pos)) (seq 0 num) (BlockMatrix_new, pos) ;;
  Ok (witness, bm, pos).

(** src/ipa/qesa_inner.rs:273-286, with 14 - 2 and 3 as parameters *)
Definition test_helper_solutions (rng : nat -> Scalar) (n num : nat) : res unit :=
  '(witness, matrix, _) <- helper_create_solutions rng 0 n num ;;
  for_each (fun gamma_i => assertb (seqb s0 (inner_product witness (matrix_vector_mul gamma_i witness))))
           (block matrix).

(** Scalar::from(3u64), Scalar::from(9u64) *)
Definition s3 : Scalar := (s1 + s1 + s1)%S.
Definition s9 : Scalar := (s3 + s3 + s3)%S.

(** gamma[i][j] = v *)
Definition set_entry (M : list (list Scalar)) (i j : nat) (v : Scalar) : res (list (list Scalar)) :=
  row <- idx M i ;; row <- upd row j v ;; upd M i row.

(** src/ipa/qesa_inner.rs:290-310 *)
Definition helper_create_solutions_vitalik_g1 (rng : nat -> Scalar) (n num : nat) : res (list Scalar * BlockMatrix) :=
  let witness := map rng (seq 0 n) in
  witness <- upd witness 0 s1 ;;
  witness <- upd witness 1 s3 ;;
  witness <- upd witness 3 s9 ;;
  n1 <- usub n 1 ;;
  witness <- upd witness n1 s0 ;;
  w3 <- idx witness 3 ;; w1 <- idx witness 1 ;;
  assertb (seqb w3 (w1 * w1)%S) ;;;
  bm <- foldM (fun bm _ =>
       let gamma_i := repeat (repeat s0 n) n in
       gamma_i <- set_entry gamma_i 1 1 s1 ;;
       gamma_i <- set_entry gamma_i 3 0 (- s1)%S ;;
       Ok (BlockMatrix_push bm gamma_i)) (seq 0 num) BlockMatrix_new ;;
  Ok (witness, bm).

(** src/ipa/qesa_inner.rs:312-325 (println! dropped) *)
Definition test_helper_solutions_vitalik_g1 (rng : nat -> Scalar) (n num : nat) : res unit :=
  '(witness, matrix) <- helper_create_solutions_vitalik_g1 rng n num ;;
  for_each (fun gamma_i =>
     gamma_i_T <- matrix_transpose gamma_i ;;
     assertb (seqb s0 (inner_product witness (matrix_vector_mul gamma_i_T witness)))) (block matrix).

(** src/ipa/qesa_inner.rs:219-247, with the number of matrices as a parameter; [tr] is
    Transcript::new(b"qesa_inner") on both sides *)
Definition test_create_qesa_inner_proof (ro : oracle) (rng : nat -> Scalar) (tr : transcript)
    (G H : list Point) (Q : Point) (num : nat) : res unit :=
  let n := length G in
  n2 <- usub n 2 ;;
  '(witness, matrix, pos) <- helper_create_solutions rng 0 n2 num ;;
  let r_prime := [rng pos; rng (pos + 1)] in
  '(proof, _, _) <- inner_create ro rng (pos + 2) tr G H Q matrix witness r_prime ;;
  '(accepted, _) <- inner_verify ro tr proof G H Q matrix ;;
  assertb accepted.

(** src/ipa/qesa_inner.rs:327-357 *)
Definition test_create_qesa_inner_proof_vitalik_g1 (ro : oracle) (rng : nat -> Scalar) (tr : transcript)
    (G H : list Point) (Q : Point) (num : nat) : res unit :=
  let n := length G in
  n2 <- usub n 2 ;;
  '(witness, matrix) <- helper_create_solutions_vitalik_g1 rng n2 num ;;
  let pos := n2 in
  let r_prime := [rng pos; rng (pos + 1)] in
  '(proof, _, _) <- inner_create ro rng (pos + 2) tr G H Q matrix witness r_prime ;;
  '(accepted, _) <- inner_verify ro tr proof G H Q matrix ;;
  assertb accepted.

(** src/copy/copy.rs:391-409; the two results in the order (messages, randomness), the
    randomness is drawn first *)
Fixpoint rand_messages (rng : nat -> Scalar) (pos : nat) (k : list nat) : list (list Scalar) :=
  match k with
  | [] => []
  | num_messages :: k => map (fun i => rng (pos + i)) (seq 0 num_messages) :: rand_messages rng (pos + num_messages) k
  end.
Definition helper_create_scalar_pair (rng : nat -> Scalar) (pos n : nat) (k : list nat)
  : res (list (list Scalar) * list Scalar * nat) :=
  assertb (n =? length k) ;;;
  let randomness := map (fun i => rng (pos + i)) (seq 0 n) in
  let messages := rand_messages rng (pos + n) k in
  Ok (messages, randomness, pos + n + list_sum k).

(** indices 1, ..., num_indices: src/copy/copy.rs:275-279, 357-360 *)
Definition first_indices (num_indices : nat) : list N :=
  fold_left (fun b i => btree_insert (as_u16 (N.of_nat (i + 1))) b) (seq 0 num_indices) [].

(** the part shared by both tests: sets of indices, commitments, mapping, proof,
    verification (src/copy/copy.rs:269-331, 355-389). In the second test the single
    commitment is computed without the map over sets. *)
Definition copy_test_body (ro : oracle) (rng : nat -> Scalar) (pos : nat) (tr : transcript)
    (G H : list Point) (Q : Point) (messages : list (list Scalar)) (rand_values : list Scalar) : res unit :=
  let witness := [s1] in
  let sets_of_indices := map (fun msg : list Scalar => first_indices (length msg)) messages in
  commitments <- mapM (fun '(i, indices) =>
                         msg <- idx messages i ;;
                         rnd <- idx rand_values i ;;
                         commit G indices msg rnd) (enumerate sets_of_indices) ;;
  mp <- compute_mapping (N.of_nat (length G)) (N.of_nat (length witness)) sets_of_indices ;;
  let openings := combine messages rand_values in
  '(proof, _, _) <- copy_create ro rng pos tr G H Q mp BlockMatrix_new witness openings ;;
  '(accepted, _) <- copy_verify ro tr proof G H Q BlockMatrix_new mp commitments ;;
  assertb accepted.

(** src/copy/copy.rs:242-331, with the message sizes [2, 3] as a parameter *)
Definition test_copy_proof_creation (ro : oracle) (rng : nat -> Scalar) (tr : transcript)
    (G H : list Point) (Q : Point) (k : list nat) : res unit :=
  let n := length G in
  let num_commitments := length k in
  '(messages, rand_values, pos) <- helper_create_scalar_pair rng 0 num_commitments k ;;
  let total_messages := list_sum (map (@length Scalar) messages) in
  n2 <- usub n 2 ;; n3 <- usub n2 1 ;;
  assertb (total_messages <? n3) ;;;
  copy_test_body ro rng pos tr G H Q messages rand_values.

(** src/copy/copy.rs:333-389 *)
Definition test_copy_proof_creation_single_commit (ro : oracle) (rng : nat -> Scalar) (tr : transcript)
    (G H : list Point) (Q : Point) : res unit :=
  copy_test_body ro rng 0 tr G H Q [[s1; s1]] [s1].

End Helpers.
