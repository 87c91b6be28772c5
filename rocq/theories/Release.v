(** The functions of /repo with usize arithmetic that can overflow, compiled without overflow
    checks (cargo build --release). With [bits] the width of usize: a subtraction below zero wraps
    around, and 1 << l shifts by l mod bits. No vector has more than [cap] entries: growing one
    beyond that panics (capacity overflow) or aborts (out of memory); both are [Panic] here.
    Functions without such arithmetic are those of the checked model. The u16 subtraction of
    mapping.rs is in [MappingRelease]. *)
From Coq Require Import String.
From Verif Require Export Copy LmpaNoZK.
Local Open Scope string_scope.
Local Open Scope nat_scope.
Local Open Scope list_scope.

Section Release.
Context {C : Crypto}.
Context (bits cap : nat).

(** usize::wrapping_sub *)
Definition usub_wrap (a b : nat) : nat := if b <=? a then a - b else 2 ^ bits - (b - a).
(** 1 << l (wrapping_shl) *)
Definition shl1_wrap (l : nat) : nat := 2 ^ (l mod bits).
(** a vector of k copies: vec![x; k] and (0..k).map(|_| x).collect() *)
Definition alloc {T} (x : T) (k : nat) : res (list T) := if k <=? cap then Ok (repeat x k) else Panic.

(** src/math_utils.rs:13-20: one push per i in 0..n-1 after the first *)
Definition vandemonde_challenge_release (x : Scalar) (n : nat) : res (list Scalar) :=
  let challenges := [x] in
  let bound := usub_wrap n 1 in
  assertb (S bound <=? cap) ;;;
  foldM (fun challenges i =>
           c <- idx challenges i ;;
           Ok (challenges ++ [(c * x)%S]))
        (seq 0 bound) challenges.
(** src/matrix.rs:324-332 *)
Definition vandemonde_vector_release (x : Scalar) (n : nat) : res (list Scalar) :=
  let challenges := [s1] in
  let bound := usub_wrap n 1 in
  assertb (S bound <=? cap) ;;;
  foldM (fun challenges i =>
           c <- idx challenges i ;;
           Ok (challenges ++ [(c * x)%S]))
        (seq 0 bound) challenges.

(** src/matrix.rs:334-345 *)
Definition vandemonde_vector_general_release {T} (mul : T -> T -> T) (x : T) (n : nat) (one : T) : res (list T) :=
  let challenges := [one] in
  let bound := usub_wrap n 1 in
  assertb (S bound <=? cap) ;;;
  foldM (fun challenges i =>
           c <- idx challenges i ;;
           Ok (challenges ++ [mul c x]))
        (seq 0 bound) challenges.

(** src/ipa/gramschmidt.rs:4-26 *)
Definition sample_m_n_plus_release (rng : nat -> Scalar) (pos : nat) (n : nat) : res (list Scalar * nat) :=
  let r := repeat s0 n in
  r <- upd r 0 (rng pos) ;;
  r <- upd r 1 (rng (S pos)) ;;
  '(r, pos) <- sample_loop (S n) rng n 4 (S (S pos)) r ;;
  r <- upd r (usub_wrap n 2) (rng pos) ;;
  r <- upd r (usub_wrap n 1) (rng (S pos)) ;;
  assertb (n =? length r)%nat ;;;
  Ok (r, S (S pos)).

(** src/ipa/no_zk.rs:112-158, the shifts of lines 127 and 129 wrapping *)
Definition no_zk_verify_release (ro : oracle) (tr : transcript) (proof : NoZK)
    (G_Vec H_Vec : list Point) (Q : Point) (n : nat) (P : Point) (t : Scalar)
  : res (bool * transcript) :=
  Ls <- mapM (fun L => unwrap (decompress L)) (L_vec proof) ;;
  Rs <- mapM (fun R => unwrap (decompress R)) (R_vec proof) ;;
  assertb (n =? shl1_wrap (length Ls)) ;;;
  let n := shl1_wrap (length Ls) in
  let tr := append_u64 tr "n" n in
  let '(alpha, tr) := challenge_scalar ro tr "alpha" in
  let Q := pmul (sinv alpha) Q in
  let P := (P - ((alpha - s1) * t)%S *: Q)%P in
  let '(challenges, tr) := generate_challenges ro proof tr in
  let P := fold_left (fun P '((L, R), challenge) =>
                        let challenge_sq := (challenge * challenge)%S in
                        (challenge_sq *: L + challenge *: P + R)%P)
                     (combine (combine Ls Rs) challenges) P in
  '(n, G, H) <- foldM (fun '(n, G, H) challenge =>
                 let n := n / 2 in
                 '(G_L, G_R) <- split_at n G ;;
                 '(H_L, H_R) <- split_at n H ;;
                 let G := vector_vector_add G_L (vector_scalar_mul G_R challenge) in
                 let H := vector_vector_add (vector_scalar_mul H_L challenge) H_R in
                 Ok (n, G, H))
              challenges (n, G_Vec, H_Vec) ;;
  G_0 <- idx G 0 ;;
  H_0 <- idx H 0 ;;
  let exp_P := (nz_a proof *: G_0 + nz_b proof *: H_0 + (nz_a proof * nz_b proof)%S *: Q)%P in
  Ok (peqb exp_P P, tr).

(** src/ipa/alm_zk.rs:80-112 *)
Definition alm_zk_verify_release (ro : oracle) (tr : transcript) (proof : AlmZK)
    (G_Vec H_Vec : list Point) (Q : Point) (n : nat) (C_w : Point) (t : Scalar)
  : res (bool * transcript) :=
  let tr := append_message tr "C_r" (C_r proof) in
  Cr <- unwrap (decompress (C_r proof)) ;;
  let '(beta, tr) := challenge_scalar ro tr "beta" in
  let beta_sq_t := (beta * beta * t)%S in
  let P := (beta *: C_w + Cr + beta_sq_t *: Q)%P in
  let tr := append_message tr "P" (compress P) in
  no_zk_verify_release ro tr (az_NoZK proof) G_Vec H_Vec Q n P beta_sq_t.

(** src/ipa/qesa_inner.rs:188-212 *)
Definition compute_gamma_prime_release (gamma : list (list Scalar)) (n : nat)
  : res (list (list Scalar)) :=
  let gamma_prime := map (fun row => (row ++ [s0]) ++ [s0]) gamma in
  zeroes <- alloc s0 (usub_wrap n 2) ;;
  let row_n_minus_two := (zeroes ++ [s0]) ++ [(- s1)%S] in
  let gamma_prime := gamma_prime ++ [row_n_minus_two] in
  let row_n_minus_one := (zeroes ++ [s1]) ++ [s0] in
  Ok (gamma_prime ++ [row_n_minus_one]).

(** src/ipa/qesa_inner.rs:20-114 *)
Definition inner_create_release (ro : oracle) (rng : nat -> Scalar) (pos : nat) (tr : transcript)
    (G_Vec H_Vec : list Point) (Q : Point) (gamma_i : BlockMatrix)
    (w r_prime : list Scalar) : res (Inner * transcript * nat) :=
  let n := length G_Vec in
  let n2 := usub_wrap n 2 in
  assertb (length w =? n2) ;;;
  assertb (length r_prime =? 2) ;;;
  let w_prime := w ++ r_prime in
  cpw <- msm w_prime G_Vec ;;
  let tr := append_message tr "c_prime_w" (compress cpw) in
  let '(x, tr) := challenge_scalar ro tr "x" in
  x_challenges <- vandemonde_challenge_release x n ;;
  assertb (length x_challenges =? n) ;;;
  gamma <- block_matrix_batch gamma_i x_challenges ;;
  beta <- idx x_challenges 1 ;;
  G_0 <- idx G_Vec 0 ;;
  G_Vec <- upd G_Vec 0 (pmul (sinv beta) G_0) ;;
  r_1 <- idx r_prime 1 ;;
  r_0 <- idx r_prime 0 ;;
  let r_prime_prime := [(- r_1)%S; r_0] in
  let gamma_w := matrix_vector_mul gamma w in
  let w_prime_prime := gamma_w ++ r_prime_prime in
  cppw <- msm w_prime_prime H_Vec ;;
  let tr := append_message tr "c_prime_prime_w" (compress cppw) in
  let '(s, tr) := challenge_scalar ro tr "s" in
  s_challenges <- vandemonde_challenge_release s n2 ;;
  let '(b, tr) := challenge_scalar ro tr "b" in
  b_challenges <- vandemonde_challenge_release b 2 ;;
  let s_prime := s_challenges ++ b_challenges in
  assertb (length s_prime =? n) ;;;
  gamma_prime <- compute_gamma_prime_release gamma n ;;
  gamma_prime_t <- matrix_transpose gamma_prime ;;
  let gamma_prime_t_s_prime := matrix_vector_mul gamma_prime_t s_prime in
  a <- row_row_sub w_prime s_prime ;;
  b <- row_row_add w_prime_prime gamma_prime_t_s_prime ;;
  let t := inner_product a b in
  C_w <- msm (a ++ b) (G_Vec ++ H_Vec) ;;
  let tr := append_message tr "c_w" (compress C_w) in
  '(alm_zk_proof, tr, pos) <- alm_zk_create ro rng pos tr G_Vec H_Vec Q C_w a b t ;;
  Ok (mkInner alm_zk_proof (compress cpw) (compress cppw), tr, pos).

(** src/ipa/qesa_inner.rs:117-185 *)
Definition inner_verify_release (ro : oracle) (tr : transcript) (proof : Inner)
    (G_Vec H_Vec : list Point) (Q : Point) (gamma_i : BlockMatrix)
  : res (bool * transcript) :=
  let n := length H_Vec in
  let tr := append_message tr "c_prime_w" (c_prime_w proof) in
  cpw <- unwrap (decompress (c_prime_w proof)) ;;
  let '(x, tr) := challenge_scalar ro tr "x" in
  x_challenges <- vandemonde_challenge_release x n ;;
  gamma <- block_matrix_batch gamma_i x_challenges ;;
  beta <- idx x_challenges 1 ;;
  G_0 <- idx G_Vec 0 ;;
  G_Vec <- upd G_Vec 0 (pmul (sinv beta) G_0) ;;
  cppw <- unwrap (decompress (c_prime_prime_w proof)) ;;
  G_0 <- idx G_Vec 0 ;;
  let cpw := (cpw - (beta - s1)%S *: G_0)%P in
  let tr := append_message tr "c_prime_prime_w" (compress cppw) in
  let n2 := usub_wrap n 2 in
  let '(s, tr) := challenge_scalar ro tr "s" in
  s_challenges <- vandemonde_challenge_release s n2 ;;
  let '(b, tr) := challenge_scalar ro tr "b" in
  b_challenges <- vandemonde_challenge_release b 2 ;;
  let s_prime := s_challenges ++ b_challenges in
  assertb (length s_prime =? n) ;;;
  gamma_prime <- compute_gamma_prime_release gamma n ;;
  gamma_prime_t <- matrix_transpose gamma_prime ;;
  let gamma_prime_t_s_prime := matrix_vector_mul gamma_prime_t s_prime in
  gamma_t <- matrix_transpose gamma ;;
  let gamma_t_s := matrix_vector_mul gamma_t s_challenges in
  let t := (- inner_product s_challenges gamma_t_s)%S in
  m1 <- msm gamma_prime_t_s_prime H_Vec ;;
  let C_w := (cpw + cppw + m1)%P in
  m2 <- msm s_prime G_Vec ;;
  let C_w := (C_w - m2)%P in
  let tr := append_message tr "c_w" (compress C_w) in
  alm_zk_verify_release ro tr (alm_zk proof) G_Vec H_Vec Q n C_w t.

(** src/copy/copy.rs:118-148, the vectors of line 121 allocated with length n2 *)
Definition create_copy_matrix_release (n2 : nat) (zeroes : list Scalar) (mm : list MessageMap)
    (alpha_challenges : list Scalar) (commitment_idx : N) : res (list (list Scalar)) :=
  new_eqn <- alloc s0 n2 ;;
  new_eqn <- upd new_eqn (N.to_nat commitment_idx) (- s1)%S ;;
  let msgs_for_comm_index := filter (fun x => N.eqb (commitment_index x) commitment_idx) mm in
  new_eqn <- foldM (fun new_eqn msg =>
                      alpha <- idx alpha_challenges (N.to_nat (commitment_crs_id msg)) ;;
                      upd new_eqn (N.to_nat (position_in_witness msg)) alpha)
                   msgs_for_comm_index new_eqn ;;
  pad_rows (S n2) n2 zeroes [new_eqn].

(** src/copy/copy.rs:23-161 *)
Definition copy_create_release (ro : oracle) (rng : nat -> Scalar) (pos : nat) (tr : transcript)
    (G_Vec H_Vec : list Point) (Q : Point) (mp : Mapping) (gamma_i : BlockMatrix)
    (w : list Scalar) (openings : list (list Scalar * Scalar))
  : res (Copy * transcript * nat) :=
  let n := length G_Vec in
  assertb (num_commitments mp =? length openings)%nat ;;;
  w_0 <- idx w 0 ;;
  assertb (seqb w_0 s1) ;;;
  let n2 := usub_wrap n 2 in
  let pad_by := usub_wrap n2 (length w) in
  zeroes <- alloc s0 pad_by ;;
  let w := w ++ zeroes in
  let r_prime := [rng pos; rng (S pos)] in
  let pos := S (S pos) in
  let w_prime := w ++ r_prime in
  let all_messages := concat (map fst openings) in
  w_prime <- foldM (fun w_prime '(msg, msg_map) =>
                      upd w_prime (N.to_nat (position_in_witness msg_map)) msg)
                   (combine all_messages (msgs_map mp)) w_prime ;;
  C_w <- msm w_prime G_Vec ;;
  let tr := append_message tr "c_w" (compress C_w) in
  let '(alpha, tr) := challenge_scalar ro tr "alpha" in
  alpha_challenges <- vandemonde_challenge_release alpha (length openings) ;;
  let all_rand_openings := map snd openings in
  let aggregated_rand := ssum (map2 smul all_rand_openings alpha_challenges) in
  let n1 := usub_wrap n 1 in
  last <- idx w_prime n1 ;;
  w_prime <- upd w_prime n1 (last + aggregated_rand)%S ;;
  w_prime <- foldM (fun w_prime msg_map =>
                      msg <- idx w_prime (N.to_nat (position_in_witness msg_map)) ;;
                      alpha <- idx alpha_challenges (N.to_nat (commitment_crs_id msg_map)) ;;
                      old <- idx w_prime (N.to_nat (commitment_index msg_map)) ;;
                      upd w_prime (N.to_nat (commitment_index msg_map)) (old + msg * alpha)%S)
                   (msgs_map mp) w_prime ;;
  zeroes <- alloc s0 n2 ;;
  gamma_i <- foldM (fun gamma_i ci =>
                      matrix <- create_copy_matrix_release n2 zeroes (msgs_map mp) alpha_challenges ci ;;
                      Ok (BlockMatrix_push gamma_i matrix))
                   (unique_commitment_indices mp) gamma_i ;;
  '(w_prime, r_prime) <- split_at n2 w_prime ;;
  '(proof, tr, pos) <- inner_create_release ro rng pos tr G_Vec H_Vec Q gamma_i w_prime r_prime ;;
  Ok (mkCopy (compress C_w) proof, tr, pos).

(** src/copy/copy.rs:196-224 *)
Definition verify_copy_matrix_release (n2 : nat) (zeroes : list Scalar) (mm : list MessageMap)
    (alpha_challenges : list Scalar) (key_id : N) : res (list (list Scalar)) :=
  new_eqn <- alloc s0 n2 ;;
  new_eqn <- upd new_eqn (N.to_nat key_id) (- s1)%S ;;
  let msgs_for_comm_index := filter (fun x => N.eqb (commitment_index x) key_id) mm in
  new_eqn <- foldM (fun new_eqn msg =>
                      alpha <- idx alpha_challenges (N.to_nat (commitment_crs_id msg)) ;;
                      upd new_eqn (N.to_nat (position_in_witness msg)) alpha)
                   msgs_for_comm_index new_eqn ;;
  pad_rows (S n2) n2 zeroes [new_eqn].

(** src/copy/copy.rs:164-234 *)
Definition copy_verify_release (ro : oracle) (tr : transcript) (proof : Copy)
    (G_Vec H_Vec : list Point) (Q : Point) (gamma_i : BlockMatrix) (mp : Mapping)
    (commitments : list Point) : res (bool * transcript) :=
  let n := length G_Vec in
  let tr := append_message tr "c_w" (cp_C_w proof) in
  let '(alpha, tr) := challenge_scalar ro tr "alpha" in
  alpha_challenges <- vandemonde_challenge_release alpha (length commitments) ;;
  let commitment := psum (map2 (fun alpha commitment => alpha *: commitment)%P
                               alpha_challenges commitments) in
  C_w <- unwrap (decompress (cp_C_w proof)) ;;
  let commitment := (commitment + C_w)%P in
  let n2 := usub_wrap n 2 in
  zeroes <- alloc s0 n2 ;;
  gamma_i <- foldM (fun gamma_i key_id =>
                      matrix <- verify_copy_matrix_release n2 zeroes (msgs_map mp) alpha_challenges key_id ;;
                      Ok (BlockMatrix_push gamma_i matrix))
                   (unique_commitment_indices mp) gamma_i ;;
  let proof_inner := mkInner (alm_zk (cp_inner proof)) (compress commitment)
                             (c_prime_prime_w (cp_inner proof)) in
  inner_verify_release ro tr proof_inner G_Vec H_Vec Q gamma_i.

(** the double loops of the k-ary argument, src/lmpa/no_zk.rs:107-127, 149-161 and 325-337, for
    a given shift = k - 1 (k >= 1, since n / k comes first) *)
Definition u_vec_loop_release (shift : nat) (A_T : list (list (list Point))) (w_T : list (list (list Scalar)))
    (t : list Point) (u_vec : list (list Point)) : res (list (list Point)) :=
  foldM (fun u_vec '(i, A_t) =>
    foldM (fun u_vec '(j, w_vec) =>
      let l := usub_wrap (shift + j) i in
      if negb (l =? shift) then
        w_0 <- idx w_vec 0 ;;
        let u_l_t := matrixpoint_vector_mul A_t w_0 in
        u_l <- idx u_vec l ;;
        s <- rowpoint_rowpoint_add u_l u_l_t ;;
        upd u_vec l s
      else upd u_vec l t)
      (enumerate w_T) u_vec)
    (enumerate A_T) u_vec.
Definition z_vec_loop_release (shift : nat) (x_vec y_vec : list Scalar) (z_vec : list Scalar)
  : res (list Scalar) :=
  foldM (fun z_vec '(i, x) =>
    foldM (fun z_vec '(j, y) =>
      let l := usub_wrap (shift + j) i in
      if negb (l =? shift) then upd z_vec l (x * y)%S else Ok z_vec)
      (enumerate y_vec) z_vec)
    (enumerate x_vec) z_vec.
(** The while loop of create_lmpa_noZK, src/lmpa/no_zk.rs:101-220. k = 0 panics in n / k before k - 1. *)
Fixpoint kary_create_loop_release (fuel : nat) (ro : oracle) (tr : transcript)
    (A : list (list Point)) (w : list Scalar) (t : list Point) (n m k : nat)
    (one : Scalar) (zero : Point) (u_proof : list (list (list Point)))
  : res (LmpaKary * transcript) :=
  match fuel with
  | O => Diverge
  | S f =>
    if k <=? n then
      chunk_size <- udiv n k ;;
      A_T <- matrix_split A chunk_size ;;
      w_T <- matrix_split [w] chunk_size ;;
      let shift := usub_wrap k 1 in
      let vec_len := (2 * shift + 1) mod 2 ^ bits in
      zeroes <- alloc zero m ;;
      u_vec <- alloc zeroes vec_len ;;
      u_vec <- u_vec_loop_release shift A_T w_T t u_vec ;;
      let tr := fold_left (fun tr u_v => append_points tr "u_l" u_v) u_vec tr in
      let u_proof := u_proof ++ [u_vec] in
      let '(x, tr) := challenge_scalar ro tr "challenge_x" in
      x_vec <- vandemonde_vector_release x k ;;
      y_vec <- vandemonde_vector_release (sinv x) k ;;
      z_vec <- alloc one vec_len ;;
      z_vec <- z_vec_loop_release shift x_vec y_vec z_vec ;;
      A <- sum_loop (fun i => A_i <- idx A_T i ;; x_i <- idx x_vec i ;;
                              Ok (matrixpoint_scalar_mul A_i x_i)) matrixpoint_matrix_add k ;;
      w_m <- sum_loop (fun i => w_i <- idx w_T i ;; y_i <- idx y_vec i ;;
                                Ok (matrix_scalar_mul w_i y_i)) matrix_matrix_add k ;;
      w <- unwrap (nth_error w_m (length w_m - 1)) ;;
      t <- sum_loop (fun i => u_i <- idx u_vec i ;; z_i <- idx z_vec i ;;
                              Ok (vectorpoint_scalar_mul u_i z_i)) rowpoint_rowpoint_add vec_len ;;
      kary_create_loop_release f ro tr A w t (n / k) m k one zero u_proof
    else Ok (mkLmpaKary A t w u_proof, tr)
  end.
(** src/lmpa/no_zk.rs:88-221 *)
Definition create_lmpa_noZK_release (ro : oracle) (tr : transcript)
    (A : list (list Point)) (w : list Scalar) (t : list Point) (n m k : nat)
    (one : Scalar) (zero : Point) : res (LmpaKary * transcript) :=
  kary_create_loop_release (S n) ro tr A w t n m k one zero [].
(** The while loop of verify_lmpa_noZK, src/lmpa/no_zk.rs:299-381 *)
Fixpoint kary_verify_loop_release (fuel : nat) (ro : oracle) (tr : transcript) (proof : LmpaKary)
    (A : list (list Point)) (t : list Point) (n m k : nat) (one : Scalar) (zero : Point)
    (challenge_index : nat) : res (bool * transcript) :=
  match fuel with
  | O => Diverge
  | S f =>
    if k <=? n then
      chunk_size <- udiv n k ;;
      A_T <- matrix_split A chunk_size ;;
      let shift := usub_wrap k 1 in
      let vec_len := (2 * shift + 1) mod 2 ^ bits in
      u_b <- idx (u_proof_Block proof) challenge_index ;;
      let tr := fold_left (fun tr u_v => append_points tr "u_l" u_v) u_b tr in
      let '(x, tr) := challenge_scalar ro tr "challenge_x" in
      x_vec <- vandemonde_vector_release x k ;;
      y_vec <- vandemonde_vector_release (sinv x) k ;;
      z_vec <- alloc one vec_len ;;
      z_vec <- z_vec_loop_release shift x_vec y_vec z_vec ;;
      A <- sum_loop (fun i => A_i <- idx A_T i ;; x_i <- idx x_vec i ;;
                              Ok (matrixpoint_scalar_mul A_i x_i)) matrixpoint_matrix_add k ;;
      t <- sum_loop (fun i => u_i <- idx u_b i ;; z_i <- idx z_vec i ;;
                              Ok (vectorpoint_scalar_mul u_i z_i)) rowpoint_rowpoint_add vec_len ;;
      kary_verify_loop_release f ro tr proof A t (n / k) m k one zero (S challenge_index)
    else
      let expected_t := matrixpoint_vector_mul (A_Matrix proof) (w_Vec proof) in
      e_0 <- idx expected_t 0 ;;
      t_0 <- idx t 0 ;;
      Ok (peqb e_0 t_0, tr)
  end.
(** src/lmpa/no_zk.rs:288-382 *)
Definition verify_lmpa_noZK_release (ro : oracle) (tr : transcript) (proof : LmpaKary)
    (A : list (list Point)) (t : list Point) (n m k : nat) (one : Scalar) (zero : Point)
  : res (bool * transcript) :=
  kary_verify_loop_release (S (S (length (u_proof_Block proof)))) ro tr proof A t n m k one zero 0.
End Release.
