(** Model of the three f64 experiments of src/lmpa/no_zk.rs: protocol 3.9
    (test_lmpa_noZK_float) and protocol 3.14 (test_lmpa_almSnd_float_1 and _2). The code
    only uses + * / on the numbers, conversions from usize and comparison; these are the
    operations of class [Num]. [num64] is IEEE 754 binary64 (round to nearest even), as
    specified by the standard library's SpecFloat; [num_scalar] is exact arithmetic in the
    scalar field. The sizes and the constant x = 2.0 of the tests are parameters. *)
From Coq Require Import Floats.SpecFloat ZArith.
From Verif Require Export LmpaNoZK.
Local Open Scope nat_scope.
Local Open Scope list_scope.

Class Num (T : Type) : Type := mkNum {
  nmul : T -> T -> T;
  nadd : T -> T -> T;
  ndiv : T -> T -> T;
  n0 : T;
  n1 : T;
  nnat : nat -> T;                     (* i as f64 *)
  neqb : T -> T -> bool                (* == *)
}.

(** f64 *)
Definition f64_of_Z (z : Z) : spec_float := binary_normalize 53 1024 z 0 false.
Definition num64 : Num spec_float := {|
  nmul := SFmul 53 1024;
  nadd := SFadd 53 1024;
  ndiv := SFdiv 53 1024;
  n0 := S754_zero false;
  n1 := f64_of_Z 1;
  nnat := fun n => f64_of_Z (Z.of_nat n);
  neqb := SFeqb
|}.

(** exact arithmetic *)
Fixpoint s_of_nat {C : Crypto} (n : nat) : Scalar :=
  match n with O => s0 | S n' => (s_of_nat n' + s1)%S end.
Definition num_scalar (C : Crypto) : Num Scalar := {|
  nmul := smul;
  nadd := sadd;
  ndiv := fun a b => (a * sinv b)%S;
  n0 := s0;
  n1 := s1;
  nnat := s_of_nat;
  neqb := seqb
|}.

Section FloatTests.
Context {T : Type} {NT : Num T}.

(** assert_eq! on vectors *)
Definition vec_eqb (a b : list T) : bool :=
  (length a =? length b) && forallb (fun '(x, y) => neqb x y) (combine a b).

Definition f_mv (A : list (list T)) (w : list T) : list T := matrix_vector_mul_general nmul nadd A w n0.

(** the double loop filling u_vec, no_zk.rs:463-480; in 678-695 and 897-914 the branch
    using t is switched off by the constant condition [true]: there [t] is [None]. The
    blocks of the witness are [w_vec[0]] in 467 and 682, [w_vec] itself in 901. *)
Definition f_u_loop (shift : nat) (A_T : list (list (list T))) (w_T : list (list T)) (t : option (list T))
    (u_vec : list (list T)) : res (list (list T)) :=
  foldM (fun u_vec '(i, A_t) =>
    foldM (fun u_vec '(j, w_vec) =>
      l <- usub (shift + j) i ;;
      match t with
      | Some t => if negb (l =? shift) then
                    u_l <- idx u_vec l ;;
                    s <- row_row_add_general nadd u_l (f_mv A_t w_vec) ;;
                    upd u_vec l s
                  else upd u_vec l t
      | None => u_l <- idx u_vec l ;;
                s <- row_row_add_general nadd u_l (f_mv A_t w_vec) ;;
                upd u_vec l s
      end)
      (enumerate w_T) u_vec)
    (enumerate A_T) u_vec.

(** the double loop filling z_vec, no_zk.rs:498-511, 739-752, 932-945 *)
Definition f_z_loop (shift : nat) (x_vec y_vec z_vec : list T) : res (list T) :=
  foldM (fun z_vec '(i, x) =>
    foldM (fun z_vec '(j, y) =>
      l <- usub (shift + j) i ;;
      if negb (l =? shift) then upd z_vec l (nmul x y) else Ok z_vec)
      (enumerate y_vec) z_vec)
    (enumerate x_vec) z_vec.

(** the three folding loops, no_zk.rs:516-557, 757-798, 950-995 *)
Definition f_fold_A (A_T : list (list (list T))) (x_vec : list T) (k : nat) : res (list (list T)) :=
  sum_loop (fun i => A_i <- idx A_T i ;; x_i <- idx x_vec i ;; Ok (matrix_scalar_mul_general nmul A_i x_i))
           (matrix_matrix_add_general nadd) k.
Definition f_fold_t (u_vec : list (list T)) (z_vec : list T) (vec_len : nat) : res (list T) :=
  sum_loop (fun i => u_i <- idx u_vec i ;; z_i <- idx z_vec i ;; Ok (vector_scalar_mul_general nmul u_i z_i))
           (row_row_add_general nadd) vec_len.
(** new_w.pop().unwrap().pop().unwrap() *)
Definition f_fold_w (w_T : list (list (list T))) (y_vec : list T) (k : nat) : res (list T) :=
  w_m <- f_fold_A w_T y_vec k ;;
  unwrap (nth_error w_m (length w_m - 1)).

(** w_vec[0] for every block *)
Definition f_heads (w_T : list (list (list T))) : res (list (list T)) := mapM (fun w_vec => idx w_vec 0) w_T.

(** ** protocol 3.9 *)
(** the while loop, no_zk.rs:452-563 *)
Fixpoint float39_loop (fuel : nat) (x : T) (A : list (list T)) (w t : list T) (n m k : nat)
  : res (list (list T) * list T * list T) :=
  match fuel with
  | O => Diverge
  | S f =>
    if k <=? n then
      chunk_size <- udiv n k ;;
      A_T <- matrix_split A chunk_size ;;
      w_T <- matrix_split [w] chunk_size ;;
      shift <- usub k 1 ;;
      let vec_len := 2 * shift + 1 in
      w_h <- f_heads w_T ;;
      u_vec <- f_u_loop shift A_T w_h (Some t) (repeat (repeat n0 m) vec_len) ;;
      x_vec <- vandemonde_vector_general nmul x k n1 ;;
      y_vec <- vandemonde_vector_general nmul (ndiv n1 x) k n1 ;;
      z_vec <- f_z_loop shift x_vec y_vec (repeat n1 vec_len) ;;
      A <- f_fold_A A_T x_vec k ;;
      w <- f_fold_w w_T y_vec k ;;
      t <- f_fold_t u_vec z_vec vec_len ;;
      float39_loop f x A w t (n / k) m k
    else Ok (A, w, t)
  end.

(** rows i*n .. (i+1)*n - 1, no_zk.rs:438-442 *)
Definition f_row (n i : nat) : list T := map nnat (seq (i * n) n).

(** no_zk.rs:450-568 from a given matrix, witness and target *)
Definition float39 (x : T) (k n m : nat) (A : list (list T)) (w t : list T) : res unit :=
  '(A, w, t) <- float39_loop (S n) x A w t n m k ;;
  let verifier_t := f_mv A w in
  assertb (vec_eqb verifier_t t).

(** no_zk.rs:420-568; k = 4, d = 3, m = 1, x = 2.0 *)
Definition test_lmpa_noZK_float (x : T) (k d m : nat) : res unit :=
  let n := k ^ d in
  let A := map (f_row n) (seq 0 m) in
  let w := map nnat (seq 0 n) in
  float39 x k n m A w (f_mv A w).

(** ** protocol 3.14 *)
(** the data of both tests, no_zk.rs:611-659, 833-881: H, w_all, t_expected *)
Definition alm_snd_data (n m : nat) : res (list (list (list T)) * list (list T) * list T) :=
  let A := map (f_row n) (seq 0 m) in
  let w := map nnat (seq 0 n) in
  '(H, r, t_all) <- foldM (fun '(H, r, t_all) i =>
       tmp <- upd (repeat (repeat n0 n) m) i (f_row n i) ;;
       let r_i := map (fun j => nnat (j + i)) (seq 0 n) in
       let t_i := f_mv tmp r_i in
       Ok (H ++ [tmp], r ++ [r_i], t_all ++ [t_i]))
     (seq 0 m) ([A], [w], [f_mv A w]) ;;
  let x_challenge_vec := map (fun j => nnat (j + 2)) (seq 0 (m + 1)) in
  w_all <- mapM (fun i => r_i <- idx r i ;; x_i <- idx x_challenge_vec i ;;
                          Ok (vector_scalar_mul_general nmul r_i x_i)) (seq 0 (m + 1)) ;;
  t_expected <- foldM (fun t i => t_i <- idx t_all i ;; x_i <- idx x_challenge_vec i ;;
                                  row_row_add_general nadd t (vector_scalar_mul_general nmul t_i x_i))
                      (seq 0 (m + 1)) (repeat n0 m) ;;
  Ok (H, w_all, t_expected).

(** first while loop of _1, no_zk.rs:669-703. A and w are not folded in it. *)
Fixpoint alm1_u_loop (fuel : nat) (A : list (list T)) (w : list T) (n m k shift vec_len : nat)
    (u_block : list (list (list T))) : res (list (list (list T))) :=
  match fuel with
  | O => Diverge
  | S f =>
    if k <=? n then
      chunk_size <- udiv n k ;;
      A_T <- matrix_split A chunk_size ;;
      w_T <- matrix_split [w] chunk_size ;;
      w_h <- f_heads w_T ;;
      u_vec <- f_u_loop shift A_T w_h None (repeat (repeat n0 m) vec_len) ;;
      alm1_u_loop f A w (n / k) m k shift vec_len (u_block ++ [u_vec])
    else Ok u_block
  end.

(** second while loop of _1, no_zk.rs:721-804 *)
Fixpoint alm1_fold_loop (fuel : nat) (x : T) (A : list (list T)) (w t : list T) (n k shift vec_len : nat)
    (u_all : list (list T)) : res (list (list T) * list T * list T) :=
  match fuel with
  | O => Diverge
  | S f =>
    if k <=? n then
      chunk_size <- udiv n k ;;
      A_T <- matrix_split A chunk_size ;;
      w_T <- matrix_split [w] chunk_size ;;
      x_vec <- vandemonde_vector_general nmul x k n1 ;;
      y_vec <- vandemonde_vector_general nmul (ndiv n1 x) k n1 ;;
      z_vec <- f_z_loop shift x_vec y_vec (repeat n1 vec_len) ;;
      A <- f_fold_A A_T x_vec k ;;
      w <- f_fold_w w_T y_vec k ;;
      t <- f_fold_t u_all z_vec vec_len ;;
      alm1_fold_loop f x A w t (n / k) k shift vec_len u_all
    else Ok (A, w, t)
  end.

(** no_zk.rs:661-821 *)
Definition alm_snd_1 (x : T) (k cols m : nat) (H : list (list (list T))) (w_all : list (list T)) (t : list T)
  : res unit :=
  shift <- usub k 1 ;;
  let vec_len := 2 * shift + 1 in
  u_block <- foldM (fun u_block '(m_index, h) =>
                      w <- idx w_all m_index ;;
                      alm1_u_loop (S cols) h w cols m k shift vec_len u_block)
                   (enumerate H) [] ;;
  u_all <- foldM (matrix_matrix_add_general nadd) u_block (repeat (repeat n0 m) vec_len) ;;
  '(proof_A_vec, proof_w_vec, t) <-
     foldM (fun '(As, ws, t) '(m_index, h) =>
              w <- idx w_all m_index ;;
              '(A, w, t) <- alm1_fold_loop (S cols) x h w t cols k shift vec_len u_all ;;
              Ok (As ++ [A], ws ++ [w], t))
           (enumerate H) ([], [], t) ;;
  verifier_t <- foldM (fun v '(a, b) => row_row_add_general nadd v (f_mv a b))
                      (combine proof_A_vec proof_w_vec) (repeat n0 m) ;;
  assertb (vec_eqb verifier_t t).

(** no_zk.rs:602-821; k = 7, d = 1, m = 3, x = 2.0 *)
Definition test_lmpa_almSnd_float_1 (x : T) (k d m : nat) : res unit :=
  let cols := k ^ d in
  '(H, w_all, t_expected) <- alm_snd_data cols m ;;
  alm_snd_1 x k cols m H w_all t_expected.

(** the while loop of _2, no_zk.rs:886-1001: A_T and w_T are H and w_all in every round *)
Fixpoint alm2_loop (fuel : nat) (x : T) (H : list (list (list T))) (w_all : list (list T))
    (A : list (list T)) (w t : list T) (n m k : nat) : res (list (list T) * list T * list T) :=
  match fuel with
  | O => Diverge
  | S f =>
    if k <=? n then
      shift <- usub k 1 ;;
      let vec_len := 2 * shift + 1 in
      u_vec <- f_u_loop shift H w_all None (repeat (repeat n0 m) vec_len) ;;
      x_vec <- vandemonde_vector_general nmul x k n1 ;;
      y_vec <- vandemonde_vector_general nmul (ndiv n1 x) k n1 ;;
      z_vec <- f_z_loop shift x_vec y_vec (repeat n1 vec_len) ;;
      A <- f_fold_A H x_vec k ;;
      w <- f_fold_w (map (fun w => [w]) w_all) y_vec k ;;
      t <- f_fold_t u_vec z_vec vec_len ;;
      alm2_loop f x H w_all A w t (n / k) m k
    else Ok (A, w, t)
  end.

(** no_zk.rs:883-1006. [A], [w]: the values of those variables before the loop. *)
Definition alm_snd_2 (x : T) (n m : nat) (H : list (list (list T))) (w_all : list (list T))
    (A : list (list T)) (w t : list T) : res unit :=
  let n := n + m * n in
  let k := m + 1 in
  '(A, w, t) <- alm2_loop (S n) x H w_all A w t n m k ;;
  assertb (vec_eqb (f_mv A w) t).

(** no_zk.rs:824-1006; k = 4, d = 1, m = 3, x = 2.0 *)
Definition test_lmpa_almSnd_float_2 (x : T) (k d m : nat) : res unit :=
  let n := k ^ d in
  '(H, w_all, t_expected) <- alm_snd_data n m ;;
  alm_snd_2 x n m H w_all (map (f_row n) (seq 0 m)) (map nnat (seq 0 n)) t_expected.

End FloatTests.
