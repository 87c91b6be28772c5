(** Model of src/lmpa/no_zk.rs (linear map preimage argument, binary and k-ary) *)
From Coq Require Import String.
From Verif Require Export Matrix.
Local Open Scope string_scope.
Local Open Scope nat_scope.
Local Open Scope list_scope.

Section LmpaNoZK.
Context {C : Crypto}.

(** for u in us { transcript.append_message(label, u.compress().as_bytes()) } *)
Definition append_points (tr : transcript) (label : string) (us : list Point) : transcript :=
  fold_left (fun tr u => append_message tr label (compress u)) us tr.

(** src/lmpa/no_zk.rs:12-16 *)
Record LmpaNoZK := mkLmpaNoZK {
  lm_L : list (list Point);
  lm_R : list (list Point);
  lm_w : Scalar
}.

(** rows cut at half their own length, src/lmpa/no_zk.rs:32-45 and 241-254
    (row.len()/2 <= row.len(), so split_at does not panic) *)
Definition halve_rows (A : list (list Point)) : list (list Point * list Point) :=
  map (fun row => (firstn (length row / 2) row, skipn (length row / 2) row)) A.

(** The while loop of create, src/lmpa/no_zk.rs:30-78 *)
Fixpoint lmpa_create_loop (fuel : nat) (ro : oracle) (tr : transcript) (n : nat)
    (A : list (list Point)) (w : list Scalar) (Ls Rs : list (list Point))
  : res (LmpaNoZK * transcript) :=
  match fuel with
  | O => Diverge
  | S f =>
    if n =? 1 then
      w_0 <- idx w 0 ;;
      Ok (mkLmpaNoZK Ls Rs w_0, tr)
    else
      let n := n / 2 in
      let A_0_1 := halve_rows A in
      let A_0 := map fst A_0_1 in
      let A_1 := map snd A_0_1 in
      let w_0 := firstn (length w / 2) w in
      let w_1 := skipn (length w / 2) w in
      let L := matrixpoint_vector_mul A_0 w_1 in
      let tr := append_points tr "L" L in
      let R := matrixpoint_vector_mul A_1 w_0 in
      let tr := append_points tr "R" R in
      let '(challenge, tr) := challenge_scalar ro tr "challenge" in
      let challenge_matrix := matrixpoint_scalar_mul A_1 challenge in
      A <- matrixpoint_matrix_add A_0 challenge_matrix ;;
      let w := map2 (fun a b => a * challenge + b)%S w_0 w_1 in
      lmpa_create_loop f ro tr n A w (Ls ++ [L]) (Rs ++ [R])
  end.

(** src/lmpa/no_zk.rs:17-79. H_Vec and Q are never used. Fuel: for n >= 1 the
    loop runs at most log2 n + 1 <= n times; for n = 0 it never reaches 1, and panics
    only when some row has an odd length, at the latest after log2 |row| rounds. *)
Definition lmpa_create (ro : oracle) (tr : transcript) (A : list (list Point))
    (G_Vec H_Vec : list Point) (Q : Point) (w : list Scalar) : res (LmpaNoZK * transcript) :=
  let n := length G_Vec in
  lmpa_create_loop (S (n + list_max (map (@length Point) A))) ro tr n A w [] [].

(** The while loop of verify, src/lmpa/no_zk.rs:236-283 *)
Fixpoint lmpa_verify_loop (fuel : nat) (ro : oracle) (tr : transcript) (proof : LmpaNoZK)
    (n : nat) (A : list (list Point)) (t : list Point) (challenge_index : nat)
  : res (bool * transcript) :=
  match fuel with
  | O => Diverge
  | S f =>
    if n =? 1 then
      let base_witnes := [lm_w proof] in
      let expected_t := matrixpoint_vector_mul A base_witnes in
      e_0 <- idx expected_t 0 ;;
      t_0 <- idx t 0 ;;
      Ok (peqb e_0 t_0, tr)
    else
      let n := n / 2 in
      let A_0_1 := halve_rows A in
      let A_0 := map fst A_0_1 in
      let A_1 := map snd A_0_1 in
      L <- idx (lm_L proof) challenge_index ;;
      let tr := append_points tr "L" L in
      R <- idx (lm_R proof) challenge_index ;;
      let tr := append_points tr "R" R in
      let '(challenge, tr) := challenge_scalar ro tr "challenge" in
      let challenge_matrix := matrixpoint_scalar_mul A_1 challenge in
      A <- matrixpoint_matrix_add A_0 challenge_matrix ;;
      let t := map2 (fun '(l, r) t => l + challenge *: t + (challenge * challenge)%S *: r)%P
                    (combine L R) t in
      lmpa_verify_loop f ro tr proof n A t (S challenge_index)
  end.

(** src/lmpa/no_zk.rs:224-284. Fuel: every iteration reads L_Vec[challenge_index]
    with increasing index, so |L_Vec| + 1 iterations suffice. *)
Definition lmpa_verify (ro : oracle) (tr : transcript) (proof : LmpaNoZK)
    (A : list (list Point)) (G_Vec H_Vec : list Point) (Q : Point) (n : nat) (t : list Point)
  : res (bool * transcript) :=
  assertb (n =? length G_Vec) ;;;
  lmpa_verify_loop (S (S (length (lm_L proof)))) ro tr proof n A t 0.

(** ** k-ary version (protocol 3.9) *)

(** src/lmpa/no_zk.rs:82-87 *)
Record LmpaKary := mkLmpaKary {
  A_Matrix : list (list Point);
  t_Vec : list Point;
  w_Vec : list Scalar;
  u_proof_Block : list (list (list Point))
}.

(** the double loop filling u_vec, src/lmpa/no_zk.rs:107-127 *)
Definition u_vec_loop (shift : nat) (A_T : list (list (list Point))) (w_T : list (list (list Scalar)))
    (t : list Point) (u_vec : list (list Point)) : res (list (list Point)) :=
  foldM (fun u_vec '(i, A_t) =>
    foldM (fun u_vec '(j, w_vec) =>
      l <- usub (shift + j) i ;;
      if negb (l =? shift) then
        w_0 <- idx w_vec 0 ;;
        let u_l_t := matrixpoint_vector_mul A_t w_0 in
        u_l <- idx u_vec l ;;
        s <- rowpoint_rowpoint_add u_l u_l_t ;;
        upd u_vec l s
      else upd u_vec l t)
      (enumerate w_T) u_vec)
    (enumerate A_T) u_vec.

(** the double loop filling z_vec, src/lmpa/no_zk.rs:149-161 and 325-337 *)
Definition z_vec_loop (shift : nat) (x_vec y_vec : list Scalar) (z_vec : list Scalar)
  : res (list Scalar) :=
  foldM (fun z_vec '(i, x) =>
    foldM (fun z_vec '(j, y) =>
      l <- usub (shift + j) i ;;
      if negb (l =? shift) then upd z_vec l (x * y)%S else Ok z_vec)
      (enumerate y_vec) z_vec)
    (enumerate x_vec) z_vec.

(** acc = Vec::new(); while i < k { tmp = f(i); if acc empty then push else
    acc[0] = add(acc[0], tmp) }; acc.pop().unwrap()
    (src/lmpa/no_zk.rs:166-178, 181-193, 196-207 and 342-354, 359-370) *)
Definition sum_loop {T} (f : nat -> res T) (add : T -> T -> res T) (k : nat) : res T :=
  acc <- foldM (fun acc i =>
           tmp <- f i ;;
           match acc with
           | None => Ok (Some tmp)
           | Some a => s <- add a tmp ;; Ok (Some s)
           end) (seq 0 k) None ;;
  unwrap acc.

(** The while loop of create_lmpa_noZK, src/lmpa/no_zk.rs:101-220 *)
Fixpoint kary_create_loop (fuel : nat) (ro : oracle) (tr : transcript)
    (A : list (list Point)) (w : list Scalar) (t : list Point) (n m k : nat)
    (one : Scalar) (zero : Point) (u_proof : list (list (list Point)))
  : res (LmpaKary * transcript) :=
  match fuel with
  | O => Diverge
  | S f =>
    if k <=? n then
      chunk_size <- udiv n k ;;
      A_T <- matrix_split A chunk_size ;;
      w_T <- matrix_split [w] chunk_size ;;
      shift <- usub k 1 ;;
      let vec_len := 2 * shift + 1 in
      u_vec <- u_vec_loop shift A_T w_T t (repeat (repeat zero m) vec_len) ;;
      let tr := fold_left (fun tr u_v => append_points tr "u_l" u_v) u_vec tr in
      let u_proof := u_proof ++ [u_vec] in
      let '(x, tr) := challenge_scalar ro tr "challenge_x" in
      x_vec <- vandemonde_vector x k ;;
      y_vec <- vandemonde_vector (sinv x) k ;;
      z_vec <- z_vec_loop shift x_vec y_vec (repeat one vec_len) ;;
      A <- sum_loop (fun i => A_i <- idx A_T i ;; x_i <- idx x_vec i ;;
                              Ok (matrixpoint_scalar_mul A_i x_i)) matrixpoint_matrix_add k ;;
      w_m <- sum_loop (fun i => w_i <- idx w_T i ;; y_i <- idx y_vec i ;;
                                Ok (matrix_scalar_mul w_i y_i)) matrix_matrix_add k ;;
      w <- unwrap (nth_error w_m (length w_m - 1)) ;;
      t <- sum_loop (fun i => u_i <- idx u_vec i ;; z_i <- idx z_vec i ;;
                              Ok (vectorpoint_scalar_mul u_i z_i)) rowpoint_rowpoint_add vec_len ;;
      kary_create_loop f ro tr A w t (n / k) m k one zero u_proof
    else Ok (mkLmpaKary A t w u_proof, tr)
  end.

(** src/lmpa/no_zk.rs:88-221. Fuel: for k >= 2 the loop runs at most
    log2 n + 1 <= n times. *)
Definition create_lmpa_noZK (ro : oracle) (tr : transcript)
    (A : list (list Point)) (w : list Scalar) (t : list Point) (n m k : nat)
    (one : Scalar) (zero : Point) : res (LmpaKary * transcript) :=
  kary_create_loop (S n) ro tr A w t n m k one zero [].

(** The while loop of verify_lmpa_noZK, src/lmpa/no_zk.rs:299-381 *)
Fixpoint kary_verify_loop (fuel : nat) (ro : oracle) (tr : transcript) (proof : LmpaKary)
    (A : list (list Point)) (t : list Point) (n m k : nat) (one : Scalar) (zero : Point)
    (challenge_index : nat) : res (bool * transcript) :=
  match fuel with
  | O => Diverge
  | S f =>
    if k <=? n then
      chunk_size <- udiv n k ;;
      A_T <- matrix_split A chunk_size ;;
      shift <- usub k 1 ;;
      let vec_len := 2 * shift + 1 in
      u_b <- idx (u_proof_Block proof) challenge_index ;;
      let tr := fold_left (fun tr u_v => append_points tr "u_l" u_v) u_b tr in
      let '(x, tr) := challenge_scalar ro tr "challenge_x" in
      x_vec <- vandemonde_vector x k ;;
      y_vec <- vandemonde_vector (sinv x) k ;;
      z_vec <- z_vec_loop shift x_vec y_vec (repeat one vec_len) ;;
      A <- sum_loop (fun i => A_i <- idx A_T i ;; x_i <- idx x_vec i ;;
                              Ok (matrixpoint_scalar_mul A_i x_i)) matrixpoint_matrix_add k ;;
      t <- sum_loop (fun i => u_i <- idx u_b i ;; z_i <- idx z_vec i ;;
                              Ok (vectorpoint_scalar_mul u_i z_i)) rowpoint_rowpoint_add vec_len ;;
      kary_verify_loop f ro tr proof A t (n / k) m k one zero (S challenge_index)
    else
      let expected_t := matrixpoint_vector_mul (A_Matrix proof) (w_Vec proof) in
      e_0 <- idx expected_t 0 ;;
      t_0 <- idx t 0 ;;
      Ok (peqb e_0 t_0, tr)
  end.

(** src/lmpa/no_zk.rs:288-382. Fuel: every iteration reads
    u_proof_Block[challenge_index] with increasing index. *)
Definition verify_lmpa_noZK (ro : oracle) (tr : transcript) (proof : LmpaKary)
    (A : list (list Point)) (t : list Point) (n m k : nat) (one : Scalar) (zero : Point)
  : res (bool * transcript) :=
  kary_verify_loop (S (S (length (u_proof_Block proof)))) ro tr proof A t n m k one zero 0.

End LmpaNoZK.
