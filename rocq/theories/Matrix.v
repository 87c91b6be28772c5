(** Model of src/matrix.rs *)
From Verif Require Export MathUtils.

Section Matrix.
Context {C : Crypto}.
Local Open Scope S_scope.

(** src/matrix.rs:11-16 *)
Definition matrix_scalar_mul (matrix : list (list Scalar)) (x : Scalar) : list (list Scalar) :=
  map (fun row => map (fun elem => elem * x) row) matrix.

(** src/matrix.rs:19-21 *)
Definition matrix_vector_mul (matrix : list (list Scalar)) (vec : list Scalar) : list Scalar :=
  map (fun row => inner_product row vec) matrix.

(** src/matrix.rs:25-29 *)
Definition row_row_add (row_a row_b : list Scalar) : res (list Scalar) :=
  assertb (length row_a =? length row_b) ;;;
  Ok (map2 sadd row_a row_b).

(** src/matrix.rs:33-37 *)
Definition row_row_sub (row_a row_b : list Scalar) : res (list Scalar) :=
  assertb (length row_a =? length row_b) ;;;
  Ok (map2 ssub row_a row_b).

(** src/matrix.rs:41-48 *)
Definition matrix_matrix_add (A B : list (list Scalar)) : res (list (list Scalar)) :=
  assertb (length A =? length B) ;;;
  map2M row_row_add A B.

(** The two nested loops shared in shape by matrix_transpose (54-58) and
    matrixpoint_transpose (277-281): push element i of every row on column i;
    [transpose[i]] panics when a row is longer than the first one. *)
Definition transpose_push {T} (transpose : list (list T)) (ie : nat * T) : res (list (list T)) :=
  let '(i, element) := ie in
  col <- idx transpose i ;;
  upd transpose i (col ++ [element]).

Definition transpose_loop {T} (matrix : list (list T)) (transpose : list (list T))
  : res (list (list T)) :=
  foldM (fun transpose row => foldM transpose_push (enumerate row) transpose) matrix transpose.

(** src/matrix.rs:51-61; matrix[0] panics on the empty matrix *)
Definition matrix_transpose (matrix : list (list Scalar)) : res (list (list Scalar)) :=
  row0 <- idx matrix 0 ;;
  transpose_loop matrix (repeat [] (length row0)).

(** src/matrix.rs:63-65 *)
Record BlockMatrix := mkBlockMatrix { block : list (list (list Scalar)) }.

(** src/matrix.rs:68-70 *)
Definition BlockMatrix_new : BlockMatrix := mkBlockMatrix [].
(** src/matrix.rs:71-73 *)
Definition BlockMatrix_push (b : BlockMatrix) (matrix : list (list Scalar)) : BlockMatrix :=
  mkBlockMatrix (block b ++ [matrix]).
(** src/matrix.rs:74-79 *)
Definition BlockMatrix_with (matrix : list (list Scalar)) : BlockMatrix :=
  mkBlockMatrix ([] ++ [matrix]).

(** src/matrix.rs:82-98 *)
Definition block_matrix_batch (b : BlockMatrix) (challenges : list Scalar)
  : res (list (list Scalar)) :=
  let block_challenge := map2 matrix_scalar_mul (block b) challenges in
  sum_block <- idx block_challenge 0 ;;
  foldM (fun sum_block i =>
           m <- idx block_challenge i ;;
           matrix_matrix_add sum_block m)
        (seq 1 (length block_challenge - 1)) sum_block.

(** src/matrix.rs:105-113 *)
Definition matrixpoint_scalar_mul (matrix : list (list Point)) (x : Scalar) : list (list Point) :=
  map (fun row => map (fun elem => pmul x elem) row) matrix.

(** src/matrix.rs:116-134 *)
Definition matrixpoint_vector_mul (matrix : list (list Point)) (vec : list Scalar) : list Point :=
  map (fun row =>
         let vals := map2 (fun a b => pmul b a) row vec in
         fold_left padd vals p0) matrix.

(** src/matrix.rs:139-161 *)
Definition matrix_vector_mul_general {T} (mul add : T -> T -> T)
    (matrix : list (list T)) (vec : list T) (identity : T) : list T :=
  map (fun row =>
         let vals := map2 mul row vec in
         fold_left add vals identity) matrix.

(** src/matrix.rs:166-177 *)
Definition matrix_scalar_mul_general {T} (mul : T -> T -> T)
    (matrix : list (list T)) (x : T) : list (list T) :=
  map (fun row => map (fun elem => mul elem x) row) matrix.

(** src/matrix.rs:182-193 *)
Definition vector_scalar_mul_general {T} (mul : T -> T -> T) (in_vec : list T) (x : T) : list T :=
  map (fun elem => mul elem x) in_vec.

(** src/matrix.rs:197-206 *)
Definition vectorpoint_scalar_mul (in_vec : list Point) (x : Scalar) : list Point :=
  map (fun elem => pmul x elem) in_vec.

(** src/matrix.rs:211-219 *)
Definition row_row_add_general {T} (add : T -> T -> T) (row_a row_b : list T) : res (list T) :=
  assertb (length row_a =? length row_b) ;;;
  Ok (map2 add row_a row_b).

(** src/matrix.rs:224-234 *)
Definition matrix_matrix_add_general {T} (add : T -> T -> T) (A B : list (list T))
  : res (list (list T)) :=
  assertb (length A =? length B) ;;;
  map2M (row_row_add_general add) A B.

(** src/matrix.rs:238-245 *)
Definition rowpoint_rowpoint_add (row_a row_b : list Point) : res (list Point) :=
  assertb (length row_a =? length row_b) ;;;
  Ok (map2 padd row_a row_b).

(** src/matrix.rs:248-258 *)
Definition matrixpoint_matrix_add (A B : list (list Point)) : res (list (list Point)) :=
  assertb (length A =? length B) ;;;
  map2M rowpoint_rowpoint_add A B.

(** src/matrix.rs:261-283 *)
Definition matrixpoint_transpose (matrix : list (list Point)) : res (list (list Point)) :=
  assertb (0 <? length matrix) ;;;
  row0 <- idx matrix 0 ;;
  transpose_loop matrix (repeat [] (length row0)).

(** src/matrix.rs:285-305 *)
Definition matrix_split {T} (matrix : list (list T)) (chunk_size : nat)
  : res (list (list (list T))) :=
  assertb (0 <? length matrix) ;;;
  row0 <- idx matrix 0 ;;
  let n := length row0 in
  r <- urem n chunk_size ;;
  assertb (r =? 0) ;;;
  q <- udiv n chunk_size ;;
  foldM (fun matrix_splited row =>
           foldM (fun matrix_splited (ic : nat * list T) =>
                    let '(i, r_chunk) := ic in
                    part <- idx matrix_splited i ;;
                    upd matrix_splited i (part ++ [r_chunk]))
                 (enumerate (chunks chunk_size row)) matrix_splited)
        matrix (repeat [] q).

(** src/matrix.rs:324-332 *)
Definition vandemonde_vector (x : Scalar) (n : nat) : res (list Scalar) :=
  let challenges := [s1] in
  bound <- usub n 1 ;;
  foldM (fun challenges i =>
           c <- idx challenges i ;;
           Ok (challenges ++ [c * x]))
        (seq 0 bound) challenges.

(** src/matrix.rs:334-345 *)
Definition vandemonde_vector_general {T} (mul : T -> T -> T) (x : T) (n : nat) (one : T)
  : res (list T) :=
  let challenges := [one] in
  bound <- usub n 1 ;;
  foldM (fun challenges i =>
           c <- idx challenges i ;;
           Ok (challenges ++ [mul c x]))
        (seq 0 bound) challenges.

(** src/matrix.rs:309-322. The random source is the tape [rng]; draw number i
    is [rng i]. *)
Definition vandemonde_matrix (rng : nat -> Scalar) (m n : nat) : res (list (list Scalar)) :=
  foldM (fun matrix i =>
           a <- vandemonde_vector (rng i) n ;;
           Ok (matrix ++ [a]))
        (seq 0 m) [].

(** src/matrix.rs:347-359. [rng] is the tape of RistrettoPoint::random draws. *)
Definition rand_matrix (rng : nat -> Point) (m n : nat) : list (list Point) :=
  map (fun i => map (fun j => rng (i * n + j)%nat) (seq 0 n)) (seq 0 m).

End Matrix.
