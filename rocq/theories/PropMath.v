(** Properties C01-C09: src/math_utils.rs and src/matrix.rs *)
From Verif Require Import MatrixFacts Ex.

Section C01.
Context {C : Crypto} {L : CryptoLaws C}.
Add Field SfC01 : (@S_field C L).

Theorem C01_inner_product_sum (a b : list Scalar) :
  inner_product a b = sum_S (min (length a) (length b)) (fun i => sc a i * sc b i)%S.
Proof. rewrite inner_product_dot. apply dot_sum_min. Qed.

Theorem C01_inner_product_comm (a b : list Scalar) : inner_product a b = inner_product b a.
Proof. rewrite !inner_product_dot. apply dot_comm. Qed.

Theorem C01_inner_product_linear (a a' c b : list Scalar) (u v : Scalar) :
  length a = length b -> length a' = length b -> length c = length b ->
  (forall i, i < length b -> sc c i = (u * sc a i + v * sc a' i)%S) ->
  inner_product c b = (u * inner_product a b + v * inner_product a' b)%S /\
  inner_product b c = (u * inner_product b a + v * inner_product b a')%S.
Proof.
  intros Ha Ha' Hc H. rewrite (C01_inner_product_comm b c), (C01_inner_product_comm b a),
    (C01_inner_product_comm b a').
  enough (E : inner_product c b = (u * inner_product a b + v * inner_product a' b)%S) by now split.
  rewrite !inner_product_dot, !(dot_sum (length b)) by lia.
  rewrite <- !sum_S_mul, <- sum_S_add. apply sum_S_ext. intros i Hi. rewrite H by auto. ring.
Qed.
End C01.

(** a case with different lengths: <(2,3,5),(7,11)> = 47 *)
Example C01_case :
  zs (inner_product [sN 2; sN 3; sN 5] [sN 7; sN 11]) = 47%Z.
Proof. vm_compute. reflexivity. Qed.

Section C02.
Context {C : Crypto} {L : CryptoLaws C}.
Theorem C02_vandemonde_challenge (x : Scalar) (n : nat) : 1 <= n ->
  exists v, vandemonde_challenge x n = Ok v /\ length v = n /\
            forall i, i < n -> sc v i = spow x (i + 1).
Proof.
  intros H. exists (powers x n). split; [now apply vandemonde_challenge_eq|].
  split; [apply powers_length|]. intros i Hi. rewrite Nat.add_1_r. now apply powers_nth.
Qed.
Theorem C02_vandemonde_challenge_panic (x : Scalar) (n : nat) :
  vandemonde_challenge x n = Panic <-> n = 0.
Proof.
  split; [|now intros ->]. intros H. destruct n; auto.
  rewrite vandemonde_challenge_eq in H by lia. discriminate.
Qed.
End C02.
Example C02_case : rmap (map zs) (vandemonde_challenge (sN 3) 4) = Ok [3; 9; 27; 81]%Z.
Proof. vm_compute. reflexivity. Qed.

Section C03.
Context {C : Crypto} {L : CryptoLaws C}.
Theorem C03_vandemonde_vector (x : Scalar) (n : nat) : 1 <= n ->
  exists v, vandemonde_vector x n = Ok v /\ length v = n /\ forall i, i < n -> sc v i = spow x i.
Proof.
  intros H. exists (powers0 x n). split; [now apply vandemonde_vector_eq|].
  split; [apply powers0_length|]. intros i Hi. now apply powers0_nth.
Qed.
Theorem C03_vandemonde_vector_panic (x : Scalar) (n : nat) :
  vandemonde_vector x n = Panic <-> n = 0.
Proof.
  split; [|now intros ->]. intros H. destruct n; auto.
  rewrite vandemonde_vector_eq in H by lia. discriminate.
Qed.
(** the generic version over any multiplication: entry i is ((one*x)*x)*...*x *)
Theorem C03_vandemonde_vector_general {T} (mul : T -> T -> T) (x one : T) (n : nat) : 1 <= n ->
  exists v, vandemonde_vector_general mul x n one = Ok v /\ length v = n /\
    nth_error v 0 = Some one /\
    forall i y, S i < n -> nth_error v i = Some y -> nth_error v (S i) = Some (mul y x).
Proof.
  intros H. exists (tab n (gpow mul one x)). split.
  - unfold vandemonde_vector_general. rewrite usub_le by lia. cbn [bind].
    rewrite powers_loop. now replace (S (n - 1)) with n by lia.
  - split; [apply tab_length|].
    assert (E : forall i, i < n -> nth_error (tab n (gpow mul one x)) i = Some (gpow mul one x i)).
    { intros i Hi. rewrite (nth_error_nth' _ one) by now rewrite tab_length. now rewrite tab_nth. }
    split; [rewrite E by lia; reflexivity|].
    intros i y Hi Hy. rewrite E in Hy |- * by lia. inversion Hy. reflexivity.
Qed.
Theorem C03_vandemonde_vector_general_panic {T} (mul : T -> T -> T) (x one : T) (n : nat) :
  vandemonde_vector_general mul x n one = Panic <-> n = 0.
Proof.
  split; [|now intros ->]. intros H. destruct n; auto.
  unfold vandemonde_vector_general in H. rewrite usub_le in H by lia. cbn [bind] in H.
  rewrite powers_loop in H. discriminate.
Qed.
Theorem C03_vandemonde_matrix (rng : nat -> Scalar) (m n : nat) : 1 <= n ->
  exists M, vandemonde_matrix rng m n = Ok M /\ rect m n M /\
    forall i j, i < m -> j < n -> ent M i j = spow (rng i) j.
Proof.
  intros Hn. exists (mat m n (fun i j => spow (rng i) j)). split; [|split].
  - unfold vandemonde_matrix. induction m as [|m IH]; [reflexivity|].
    rewrite seq_S, foldM_app, IH. cbn [bind foldM Nat.add].
    rewrite vandemonde_vector_eq by auto. cbn [bind]. unfold mat. now rewrite tab_S.
  - apply mat_rect.
  - intros i j Hi Hj. unfold ent, sc. now rewrite mat_nth.
Qed.
Theorem C03_vandemonde_matrix_panic (rng : nat -> Scalar) (m n : nat) :
  vandemonde_matrix rng m n = Panic <-> 1 <= m /\ n = 0.
Proof.
  split.
  - intros H. destruct n as [|n].
    + split; auto. destruct m; [discriminate|lia].
    + destruct (C03_vandemonde_matrix rng m (S n)) as [M [E _]]; [lia|]. congruence.
  - intros [Hm ->]. destruct m; [lia|]. reflexivity.
Qed.
(** the random matrix of the provers: m rows of n drawn points, in the order of the draws *)
Theorem C03_rand_matrix (rng : nat -> Point) (m n : nat) :
  rect m n (rand_matrix rng m n) /\ concat (rand_matrix rng m n) = map rng (seq 0 (m * n)).
Proof.
  unfold rand_matrix. split.
  - split; [now rewrite map_length, seq_length|]. apply Forall_forall. intros r Hr. apply in_map_iff in Hr as (i & <- & _).
    now rewrite map_length, seq_length.
  - induction m as [|m IH]; [reflexivity|]. rewrite seq_S, map_app, concat_app, IH. cbn [map concat Nat.add]. rewrite app_nil_r.
    replace (S m * n) with (m * n + n) by lia. rewrite seq_app, map_app. f_equal. cbn [Nat.add].
    assert (K : forall a b, map (fun j => rng (b + j)) (seq a n) = map rng (seq (b + a) n)).
    { clear. induction n as [|n IH]; intros a b; [reflexivity|]. cbn [seq map]. f_equal. now rewrite IH, Nat.add_succ_r. }
    now rewrite K, Nat.add_0_r.
Qed.
End C03.
Example C03_case_rand : map (map zp) (rand_matrix (fun i => pN (Z.of_nat i + 5)) 2 3) = [[5; 6; 7]; [8; 9; 10]]%Z.
Proof. vm_compute. reflexivity. Qed.
Example C03_case :
  rmap (map (map zs)) (vandemonde_matrix (fun i => sN (Z.of_nat i + 2)) 2 3) = Ok [[1; 2; 4]; [1; 3; 9]]%Z.
Proof. vm_compute. reflexivity. Qed.

Section C04.
Context {C : Crypto} {L : CryptoLaws C}.
Add Field SfC04 : (@S_field C L).
Theorem C04_matrix_vector_mul (M : list (list Scalar)) (v : list Scalar) :
  length (matrix_vector_mul M v) = length M /\
  forall i, i < length M ->
    sc (matrix_vector_mul M v) i =
    sum_S (min (length (nth i M [])) (length v)) (fun j => ent M i j * sc v j)%S.
Proof.
  split; [apply map_length|]. intros i Hi. unfold sc at 1.
  rewrite matrix_vector_mul_nth by auto. apply dot_sum_min.
Qed.
Theorem C04_matrixpoint_vector_mul (M : list (list Point)) (v : list Scalar) :
  length (matrixpoint_vector_mul M v) = length M /\
  forall i, i < length M ->
    pt (matrixpoint_vector_mul M v) i =
    sum_P (min (length (nth i M [])) (length v)) (fun j => sc v j *: pent M i j)%P.
Proof.
  split; [apply map_length|]. intros i Hi. unfold pt at 1.
  rewrite matrixpoint_vector_mul_nth by auto. rewrite Nat.min_comm. apply lin_sum_min.
Qed.
(** generic version: a left fold of [add] from [identity] over the products *)
Theorem C04_matrix_vector_mul_general {T} (mul add : T -> T -> T) (M : list (list T)) (v : list T)
    (identity : T) (d : T) :
  length (matrix_vector_mul_general mul add M v identity) = length M /\
  forall i, i < length M -> exists acc : nat -> T,
    nth i (matrix_vector_mul_general mul add M v identity) d = acc (min (length (nth i M [])) (length v)) /\
    acc 0 = identity /\
    forall j, j < min (length (nth i M [])) (length v) ->
      acc (S j) = add (acc j) (mul (nth j (nth i M []) d) (nth j v d)).
Proof.
  split; [apply map_length|]. intros i Hi. set (row := nth i M []).
  exists (fun k => fold_left add (firstn k (map2 mul row v)) identity).
  split; [|split].
  - unfold matrix_vector_mul_general.
    rewrite (nth_indep _ d (fold_left add (map2 mul [] v) identity)) by now rewrite map_length.
    rewrite (map_nth (fun row => fold_left add (map2 mul row v) identity)).
    rewrite firstn_all2; [reflexivity|]. rewrite map2_length. reflexivity.
  - reflexivity.
  - intros j Hj. assert (E : firstn (S j) (map2 mul row v) =
      firstn j (map2 mul row v) ++ [mul (nth j row d) (nth j v d)]).
    { rewrite <- (map2_nth mul row v j d d d) by lia.
      assert (Hj' : j < length (map2 mul row v)) by (rewrite map2_length; lia).
      revert Hj'. clear. generalize (map2 mul row v) as l. intros l. revert j.
      induction l as [|x l IH]; intros [|j] H; cbn in *; try lia; auto.
      f_equal. apply IH. lia. }
    now rewrite E, fold_left_app.
Qed.
Theorem C04_linear (M : list (list Scalar)) (N : list (list Point)) (u v w : list Scalar) (x y : Scalar) :
  length u = length w -> length v = length w ->
  (forall j, j < length w -> sc w j = (x * sc u j + y * sc v j)%S) ->
  (forall i, i < length M ->
     sc (matrix_vector_mul M w) i =
     (x * sc (matrix_vector_mul M u) i + y * sc (matrix_vector_mul M v) i)%S) /\
  (forall i, i < length N ->
     pt (matrixpoint_vector_mul N w) i =
     (x *: pt (matrixpoint_vector_mul N u) i + y *: pt (matrixpoint_vector_mul N v) i)%P).
Proof.
  intros Hu Hv H. assert (E : w = map2 (fun a b => x * a + y * b)%S u v).
  { apply (list_eq_nth s0); [rewrite map2_length_eq; lia|]. intros j Hj.
    rewrite (map2_nth _ _ _ _ s0 s0) by lia. now apply H. }
  split; intros i Hi.
  - unfold sc. rewrite !matrix_vector_mul_nth by auto. rewrite E. apply dot_affine_r. lia.
  - unfold pt. rewrite !matrixpoint_vector_mul_nth by auto. rewrite E. apply lin_affine_s. lia.
Qed.
End C04.
Example C04_case :
  map zs (matrix_vector_mul [[sN 1; sN 2]; [sN 3; sN 4]] [sN 5; sN 6]) = [17; 39]%Z /\
  map zp (matrixpoint_vector_mul [[pN 1; pN 2]; [pN 3; pN 4]] [sN 5; sN 6]) = [17; 39]%Z.
Proof. vm_compute. auto. Qed.

Section C05.
Context {C : Crypto} {L : CryptoLaws C}.
Add Field SfC05 : (@S_field C L).

Theorem C05_row_row_add (a b c : list Scalar) :
  (row_row_add a b = Ok c <->
     length a = length b /\ length c = length a /\
     forall i, i < length a -> sc c i = (sc a i + sc b i)%S) /\
  (row_row_add a b = Panic <-> length a <> length b).
Proof. split; [apply (rra_spec sadd s0)|symmetry; apply (rra_panic sadd)]. Qed.
Theorem C05_row_row_sub (a b c : list Scalar) :
  (row_row_sub a b = Ok c <->
     length a = length b /\ length c = length a /\
     forall i, i < length a -> sc c i = (sc a i - sc b i)%S) /\
  (row_row_sub a b = Panic <-> length a <> length b).
Proof. split; [apply (rra_spec ssub s0)|symmetry; apply (rra_panic ssub)]. Qed.
Theorem C05_rowpoint_rowpoint_add (a b c : list Point) :
  (rowpoint_rowpoint_add a b = Ok c <->
     length a = length b /\ length c = length a /\
     forall i, i < length a -> pt c i = (pt a i + pt b i)%P) /\
  (rowpoint_rowpoint_add a b = Panic <-> length a <> length b).
Proof. split; [apply (rra_spec padd p0)|symmetry; apply (rra_panic padd)]. Qed.
Theorem C05_row_row_add_general {T} (add : T -> T -> T) (d : T) (a b c : list T) :
  (row_row_add_general add a b = Ok c <->
     length a = length b /\ length c = length a /\
     forall i, i < length a -> nth i c d = add (nth i a d) (nth i b d)) /\
  (row_row_add_general add a b = Panic <-> length a <> length b).
Proof. split; [apply (rra_spec add d)|symmetry; apply (rra_panic add)]. Qed.

(** "same shape": as many rows, and row by row as many entries *)
Theorem C05_matrix_matrix_add (A B M : list (list Scalar)) :
  (matrix_matrix_add A B = Ok M <->
     same_shape A B /\ same_shape A M /\
     forall i j, i < length A -> j < length (nth i A []) -> ent M i j = (ent A i j + ent B i j)%S) /\
  (matrix_matrix_add A B = Panic <-> ~ same_shape A B).
Proof. split; [apply (mma_spec sadd s0)|symmetry; apply (mma_panic sadd s0)]. Qed.
Theorem C05_matrixpoint_matrix_add (A B M : list (list Point)) :
  (matrixpoint_matrix_add A B = Ok M <->
     same_shape A B /\ same_shape A M /\
     forall i j, i < length A -> j < length (nth i A []) -> pent M i j = (pent A i j + pent B i j)%P) /\
  (matrixpoint_matrix_add A B = Panic <-> ~ same_shape A B).
Proof. split; [apply (mma_spec padd p0)|symmetry; apply (mma_panic padd p0)]. Qed.
Theorem C05_matrix_matrix_add_general {T} (add : T -> T -> T) (d : T) (A B M : list (list T)) :
  (matrix_matrix_add_general add A B = Ok M <->
     same_shape A B /\ same_shape A M /\
     forall i j, i < length A -> j < length (nth i A []) ->
       nth j (nth i M []) d = add (nth j (nth i A []) d) (nth j (nth i B []) d)) /\
  (matrix_matrix_add_general add A B = Panic <-> ~ same_shape A B).
Proof. split; [apply (mma_spec add d)|symmetry; apply (mma_panic add d)]. Qed.

Lemma map_map_shape {T X} (f : T -> X) (M : list (list T)) i : i < length M ->
  length (map (map f) M) = length M /\ length (nth i (map (map f) M) []) = length (nth i M []).
Proof.
  intros Hi. split; [apply map_length|].
  change (@nil X) with (map f []) at 1. now rewrite map_nth, map_length.
Qed.
Lemma map_map_nth {T X} (f : T -> X) (M : list (list T)) i j d d' :
  j < length (nth i M []) -> nth j (nth i (map (map f) M) []) d' = f (nth j (nth i M []) d).
Proof.
  intros Hj. change (@nil X) with (map f []) at 1. rewrite map_nth.
  rewrite (nth_indep _ d' (f d)) by now rewrite map_length. apply map_nth.
Qed.

Theorem C05_matrix_scalar_mul (M : list (list Scalar)) (x : Scalar) :
  length (matrix_scalar_mul M x) = length M /\
  (forall i, i < length M -> length (nth i (matrix_scalar_mul M x) []) = length (nth i M [])) /\
  forall i j, i < length M -> j < length (nth i M []) -> ent (matrix_scalar_mul M x) i j = (x * ent M i j)%S.
Proof.
  unfold matrix_scalar_mul. split; [apply map_length|]. split; [intros i Hi; apply (map_map_shape (fun e => e * x)%S M i Hi)|].
  intros i j Hi Hj. unfold ent, sc. etransitivity; [exact (map_map_nth (fun e => e * x)%S M i j s0 s0 Hj)|]. cbn. ring.
Qed.
Theorem C05_matrixpoint_scalar_mul (M : list (list Point)) (x : Scalar) :
  length (matrixpoint_scalar_mul M x) = length M /\
  (forall i, i < length M -> length (nth i (matrixpoint_scalar_mul M x) []) = length (nth i M [])) /\
  forall i j, i < length M -> j < length (nth i M []) -> pent (matrixpoint_scalar_mul M x) i j = (x *: pent M i j)%P.
Proof.
  unfold matrixpoint_scalar_mul. split; [apply map_length|]. split; [intros i Hi; apply (map_map_shape (fun e => x *: e)%P M i Hi)|].
  intros i j Hi Hj. unfold pent, pt. exact (map_map_nth (fun e => x *: e)%P M i j p0 p0 Hj).
Qed.
Theorem C05_matrix_scalar_mul_general {T} (mul : T -> T -> T) (M : list (list T)) (x d : T) :
  length (matrix_scalar_mul_general mul M x) = length M /\
  (forall i, i < length M -> length (nth i (matrix_scalar_mul_general mul M x) []) = length (nth i M [])) /\
  forall i j, i < length M -> j < length (nth i M []) -> nth j (nth i (matrix_scalar_mul_general mul M x) []) d = mul (nth j (nth i M []) d) x.
Proof.
  unfold matrix_scalar_mul_general. split; [apply map_length|]. split; [intros i Hi; apply (map_map_shape (fun e => mul e x) M i Hi)|].
  intros i j Hi Hj. exact (map_map_nth (fun e => mul e x) M i j d d Hj).
Qed.
Theorem C05_vector_scalar_mul {T} (mul : T -> T -> T) (v : list T) (vp : list Point) (y d : T) (x : Scalar) :
  length (vector_scalar_mul_general mul v y) = length v /\
  length (vectorpoint_scalar_mul vp x) = length vp /\
  (forall i, i < length v -> nth i (vector_scalar_mul_general mul v y) d = mul (nth i v d) y) /\
  (forall i, i < length vp -> pt (vectorpoint_scalar_mul vp x) i = (x *: pt vp i)%P).
Proof.
  unfold vector_scalar_mul_general, vectorpoint_scalar_mul.
  split; [apply map_length|]. split; [apply map_length|]. split.
  - intros i Hi. rewrite (nth_indep _ d (mul d y)) by now rewrite map_length.
    apply (map_nth (fun e => mul e y)).
  - intros i Hi. unfold pt. rewrite (nth_indep _ p0 (x *: p0)%P) by now rewrite map_length.
    apply (map_nth (fun e => x *: e)%P).
Qed.
End C05.
(** ragged matrices of the same shape can be added; different shapes panic *)
Example C05_case :
  rmap (map (map zs)) (matrix_matrix_add [[sN 1; sN 2]; [sN 3]] [[sN 10; sN 20]; [sN 30]])
    = Ok [[11; 22]; [33]]%Z /\
  rmap (map (map zs)) (matrix_matrix_add [[sN 1; sN 2]; [sN 3]] [[sN 10; sN 20]; [sN 30; sN 40]]) = Panic.
Proof. vm_compute. auto. Qed.

Section C06.
Context {C : Crypto} {L : CryptoLaws C}.

Theorem C06_transpose r c (M : list (list Scalar)) : rect r c M -> 1 <= r ->
  exists N, matrix_transpose M = Ok N /\ rect c r N /\
    forall i j, i < r -> j < c -> ent N j i = ent M i j.
Proof.
  intros HM Hr. exists (mat c r (fun j i => ent M i j)). split; [now apply matrix_transpose_rect|].
  split; [apply mat_rect|]. intros i j Hi Hj. unfold ent at 1, sc. now rewrite mat_nth.
Qed.
Theorem C06_transpose_point r c (M : list (list Point)) : rect r c M -> 1 <= r ->
  exists N, matrixpoint_transpose M = Ok N /\ rect c r N /\
    forall i j, i < r -> j < c -> pent N j i = pent M i j.
Proof.
  intros HM Hr. exists (mat c r (fun j i => pent M i j)). split; [now apply matrixpoint_transpose_rect|].
  split; [apply mat_rect|]. intros i j Hi Hj. unfold pent at 1, pt. now rewrite mat_nth.
Qed.
Theorem C06_transpose_involution r c (M : list (list Scalar)) : rect r c M -> 1 <= r -> 1 <= c ->
  (N <- matrix_transpose M ;; matrix_transpose N) = Ok M.
Proof.
  intros HM Hr Hc. rewrite (matrix_transpose_rect r c) by auto. cbn [bind].
  rewrite (matrix_transpose_rect c r) by (auto; apply mat_rect). f_equal.
  symmetry. etransitivity; [apply (mat_eta s0 r c M HM)|]. apply mat_ext. intros i j Hi Hj.
  unfold ent at 1, sc. now rewrite mat_nth.
Qed.
Theorem C06_transpose_point_involution r c (M : list (list Point)) : rect r c M -> 1 <= r -> 1 <= c ->
  (N <- matrixpoint_transpose M ;; matrixpoint_transpose N) = Ok M.
Proof.
  intros HM Hr Hc. rewrite (matrixpoint_transpose_rect r c) by auto. cbn [bind].
  rewrite (matrixpoint_transpose_rect c r) by (auto; apply mat_rect). f_equal.
  symmetry. etransitivity; [apply (mat_eta p0 r c M HM)|]. apply mat_ext. intros i j Hi Hj.
  unfold pent at 1, pt. now rewrite mat_nth.
Qed.
(** exact panic condition, for arbitrary (also ragged) input *)
Theorem C06_transpose_panic (M : list (list Scalar)) :
  matrix_transpose M = Panic <->
  M = [] \/ Exists (fun row => length (nth 0 M []) < length row) M.
Proof.
  unfold matrix_transpose. destruct M as [|row0 M]; [cbn; split; auto|].
  cbn [idx nth_error bind]. rewrite transpose_loop_panic, repeat_length. cbn [nth].
  split; [now right|]. now intros [|].
Qed.
Theorem C06_transpose_point_panic (M : list (list Point)) :
  matrixpoint_transpose M = Panic <->
  M = [] \/ Exists (fun row => length (nth 0 M []) < length row) M.
Proof.
  unfold matrixpoint_transpose. destruct M as [|row0 M]; [cbn; split; auto|].
  cbn [length Nat.ltb Nat.leb assertb idx nth_error bind].
  rewrite transpose_loop_panic, repeat_length. cbn [nth].
  split; [now right|]. now intros [|].
Qed.
End C06.
Example C06_case :
  rect 2 3 [[sN 1; sN 2; sN 3]; [sN 4; sN 5; sN 6]] /\
  rmap (map (map zs)) (matrix_transpose [[sN 1; sN 2; sN 3]; [sN 4; sN 5; sN 6]])
    = Ok [[1; 4]; [2; 5]; [3; 6]]%Z /\
  rmap (map (map zs)) (matrix_transpose [[sN 1]; [sN 4; sN 5]]) = Panic.
Proof. split; [split; [reflexivity|repeat constructor]|]. vm_compute. auto. Qed.

Section C07.
Context {C : Crypto} {L : CryptoLaws C}.
Add Field SfC07 : (@S_field C L).
Lemma dot_mat_l r c f s w : length s = r -> length w = c ->
  dot s (matrix_vector_mul (mat r c f) w) =
  sum_S r (fun i => sum_S c (fun j => sc s i * f i j * sc w j)%S).
Proof.
  intros Hs Hw. rewrite (dot_sum r) by (rewrite ?matrix_vector_mul_length; unfold mat; rewrite ?tab_length; lia).
  apply sum_S_ext. intros i Hi. unfold sc at 2.
  rewrite matrix_vector_mul_nth by (unfold mat; now rewrite tab_length).
  unfold mat. rewrite tab_nth by auto. rewrite (dot_sum c) by (rewrite ?tab_length; lia).
  rewrite <- sum_S_mul. apply sum_S_ext. intros j Hj. unfold sc at 2. rewrite tab_nth by auto. ring.
Qed.
Theorem C07_transpose_adjoint r c (M : list (list Scalar)) (s w : list Scalar) :
  rect r c M -> 1 <= r -> length s = r -> length w = c ->
  exists Mt, matrix_transpose M = Ok Mt /\
    inner_product s (matrix_vector_mul M w) = inner_product (matrix_vector_mul Mt s) w.
Proof.
  intros HM Hr Hs Hw. exists (mat c r (fun j i => ent M i j)).
  split; [now apply matrix_transpose_rect|].
  rewrite !inner_product_dot, (dot_comm _ w). rewrite (mat_eta s0 r c M HM) at 1.
  rewrite (dot_mat_l c r), (dot_mat_l r c) by auto. rewrite sum_S_swap.
  apply sum_S_ext. intros j Hj. apply sum_S_ext. intros i Hi. unfold ent, sc. ring.
Qed.
End C07.
Example C07_case :
  rect 2 1 [[sN 2]; [sN 3]] /\
  zs (inner_product [sN 5; sN 7] (matrix_vector_mul [[sN 2]; [sN 3]] [sN 11])) = 341%Z.
Proof. split; [split; [reflexivity|repeat constructor]|]. vm_compute. auto. Qed.

Section C08.
Context {C : Crypto} {L : CryptoLaws C}.
Theorem C08_block_matrix_batch r c (Ms : list (list (list Scalar))) (ch : list Scalar) :
  1 <= length Ms -> 1 <= length ch -> Forall (rect r c) Ms ->
  exists N, block_matrix_batch (mkBlockMatrix Ms) ch = Ok N /\ rect r c N /\
    forall i j, i < r -> j < c ->
      ent N i j = sum_S (min (length Ms) (length ch)) (fun t => sc ch t * ent (nth t Ms []) i j)%S.
Proof.
  intros H1 H2 H3. eexists. split; [apply (block_matrix_batch_eq r c); auto|].
  split; [apply mat_rect|]. intros i j Hi Hj. unfold ent at 1, sc at 1. now rewrite mat_nth.
Qed.
Theorem C08_block_matrix_batch_panic (Ms : list (list (list Scalar))) (ch : list Scalar) :
  Ms = [] \/ ch = [] -> block_matrix_batch (mkBlockMatrix Ms) ch = Panic.
Proof.
  unfold block_matrix_batch. cbn [block]. intros [-> | ->]; [reflexivity|].
  now rewrite map2_nil_r.
Qed.
(** the builders put the matrices in the order pushed *)
Theorem C08_block_matrix_build (m0 : list (list Scalar)) (ms : list (list (list Scalar))) :
  fold_left BlockMatrix_push ms (BlockMatrix_with m0) = mkBlockMatrix (m0 :: ms) /\
  fold_left BlockMatrix_push ms BlockMatrix_new = mkBlockMatrix ms.
Proof.
  assert (E : forall b, fold_left BlockMatrix_push ms b = mkBlockMatrix (block b ++ ms)).
  { induction ms as [|m ms IH]; intros b; cbn.
    - rewrite app_nil_r. now destruct b.
    - rewrite IH. cbn. now rewrite <- app_assoc. }
  now rewrite !E.
Qed.
End C08.
(** three matrices, two challenges: the third matrix does not contribute *)
Example C08_case :
  Forall (rect 1 2) [[[sN 1; sN 2]]; [[sN 3; sN 4]]; [[sN 5; sN 6]]] /\
  rmap (map (map zs)) (block_matrix_batch (mkBlockMatrix [[[sN 1; sN 2]]; [[sN 3; sN 4]]; [[sN 5; sN 6]]])
                         [sN 10; sN 100]) = Ok [[310; 420]]%Z.
Proof. split; [repeat constructor|]. vm_compute. auto. Qed.

Section C09.
Context {T : Type}.
Theorem C09_matrix_split m c q (M : list (list T)) :
  rect m (q * c) M -> 1 <= m -> 1 <= c ->
  exists parts, matrix_split M c = Ok parts /\ length parts = q /\ Forall (rect m c) parts /\
    forall i, i < m -> concat (map (fun part => nth i part []) parts) = nth i M [].
Proof.
  intros HM Hm Hc. exists (tab q (part_of M c)). split; [now apply (matrix_split_eq m)|].
  split; [apply tab_length|]. split.
  - apply Forall_forall. intros x Hx. unfold tab in Hx. apply in_map_iff in Hx as [p [<- Hp]].
    apply in_seq in Hp. apply (part_of_rect m c q); auto. lia.
  - intros i Hi. rewrite map_tab. now apply (part_of_concat m c q).
Qed.
Theorem C09_matrix_split_panic m n c (M : list (list T)) :
  rect m n M -> m = 0 \/ c = 0 \/ n mod c <> 0 -> matrix_split M c = Panic.
Proof.
  intros HM H. assert (HM' := HM). destruct HM as [HM1 HM2]. unfold matrix_split.
  destruct (Nat.ltb_spec 0 (length M)) as [Hl|]; [|reflexivity]. cbn [assertb bind].
  rewrite (idx_lt _ _ []) by lia. cbn [bind]. rewrite (rect_row m n) by (auto; lia).
  unfold urem. destruct (Nat.eqb_spec c 0) as [|Hc]; [reflexivity|]. cbn [bind].
  destruct (Nat.eqb_spec (n mod c) 0); [lia|]. reflexivity.
Qed.
End C09.
Example C09_case :
  rect 2 4 [[1; 2; 3; 4]; [5; 6; 7; 8]] /\
  matrix_split [[1; 2; 3; 4]; [5; 6; 7; 8]] 2 = Ok [[[1; 2]; [5; 6]]; [[3; 4]; [7; 8]]] /\
  matrix_split [[1; 2; 3; 4]; [5; 6; 7; 8]] 3 = Panic.
Proof. split; [split; [reflexivity|repeat constructor]|]. vm_compute. auto. Qed.
