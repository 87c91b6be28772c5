(** C94: systems of equations of any shape. Nothing in the library checks that the matrices of a
    system are square, or even that their rows have the same length. Here: what transposing and
    batching do with matrices of any shape, exactly which shapes the quadratic-equation prover
    and the verifiers accept, and what they then prove and check. *)
From Coq Require Import String.
From Verif Require Export PropProver PropPanic.
From Verif Require Import PropMath PropIpa IpaSound ListFacts CopyFacts Ex ExSmall.
Local Open Scope string_scope.
Local Open Scope nat_scope.
Local Open Scope list_scope.

Section Shape.
Context {C : Crypto} {L : CryptoLaws C}.
Add Field SfC94 : (@S_field C L).
Notation matrix := (list (list Scalar)).

(** ** Vocabulary *)
(** the lengths of the rows *)
Definition shape (M : matrix) : list nat := map (@length Scalar) M.
(** the entries in column j, top to bottom; rows without one are left out *)
Definition col (j : nat) (M : matrix) : list Scalar := map (fun r => sc r j) (filter (fun r => j <? length r) M).
(** the r x c matrix with these columns, moved up where entries are missing, zeros below *)
Definition packed (r c : nat) (M : matrix) : matrix := mat r c (fun i j => sc (col j M) i).

(** the shapes the verifiers accept: the first matrix has a first row of length n - 2 and no longer
    one, and those of the first n matrices all have its shape *)
Definition fits (n : nat) (Ms : list matrix) : Prop :=
  Ms <> [] /\ nth 0 Ms [] <> [] /\ length (nth 0 (nth 0 Ms []) []) = n - 2 /\
  (forall row, In row (nth 0 Ms []) -> length row <= n - 2) /\
  (forall M, In M (firstn n Ms) -> shape M = shape (nth 0 Ms [])).

(** the sum of the first n matrices weighted with x, x^2, ..., in the shape of the first one *)
Definition g_gamma (n : nat) (Ms : list matrix) (x : Scalar) : matrix :=
  let M0 := nth 0 Ms [] in
  tab (length M0) (fun i => tab (length (nth i M0 [])) (fun j =>
    sum_S (min (length Ms) n) (fun t => spow x (S t) * ent (nth t Ms []) i j)%S)).
(** two zeros behind every row, and two further rows *)
Definition g_gamma' (n : nat) (Gm : matrix) : matrix :=
  map (fun r => r ++ [s0; s0]) Gm ++ [repeat s0 (n - 2) ++ [s0; (- s1)%S]; repeat s0 (n - 2) ++ [s1; s0]].
(** the matrices the verifier really works with *)
Definition g_E (n : nat) (Ms : list matrix) (x : Scalar) : matrix := packed n n (g_gamma' n (g_gamma n Ms x)).
Definition g_E2 (n : nat) (Ms : list matrix) (x : Scalar) : matrix := packed (n - 2) (n - 2) (g_gamma n Ms x).
Definition g_Cw (n : nat) (G H : list Point) (Ms : list matrix) (x s b : Scalar) (P1 P2 : Point) : Point :=
  let beta := (x * x)%S in
  (P1 - (beta - s1)%S *: pt (q_G beta G) 0 + P2 + comb (mtv n (g_E n Ms x) (q_s' n s b)) H - comb (q_s' n s b) (q_G beta G))%P.
Definition g_t (n : nat) (Ms : list matrix) (x s : Scalar) : Scalar :=
  (- quad (g_E2 n Ms x) (tab (n - 2) (fun i => spow s (S i))))%S.
(** the second vector of the prover *)
Definition g_bv (n : nat) Ms x (w r' : list Scalar) (s b : Scalar) : list Scalar :=
  tab n (fun i => sc (q_w'' n Ms x w r') i + sc (mtv n (g_E n Ms x) (q_s' n s b)) i)%S.

Lemma nth_firstn_lt {T} k (l : list T) i d : i < k -> nth i (firstn k l) d = nth i l d.
Proof. revert k i; induction l as [|a l IH]; intros [|k] [|i] H; cbn; auto; try lia. apply IH. lia. Qed.

(** ** Transposing *)
Lemma col_cons j row M : col j (row :: M) = if j <? length row then sc row j :: col j M else col j M.
Proof. unfold col. cbn [filter]. now destruct (j <? length row). Qed.
Lemma transpose_loop_any (M : matrix) : forall cols, (forall row, In row M -> length row <= length cols) ->
  transpose_loop M cols = Ok (tab (length cols) (fun j => nth j cols [] ++ col j M)).
Proof.
  unfold transpose_loop. induction M as [|row M IH]; intros cols HM.
  - cbn. f_equal. apply (tab_eq []); auto. intros. now rewrite app_nil_r.
  - cbn [foldM]. assert (Hr : length row <= length cols) by (apply HM; now left).
    rewrite push_row by lia. cbn [bind].
    assert (LC : length (map2 snoc cols row ++ skipn (length row) cols) = length cols).
    { rewrite app_length, map2_length, skipn_length. lia. }
    rewrite IH by (rewrite LC; intros r Hi; apply HM; now right). rewrite LC. f_equal. apply tab_ext. intros j Hj.
    rewrite col_cons. destruct (Nat.ltb_spec j (length row)).
    + rewrite app_nth1 by (rewrite map2_length; lia). rewrite (map2_nth _ _ _ _ [] s0) by lia. unfold snoc.
      now rewrite <- app_assoc.
    + rewrite app_nth2 by (rewrite map2_length; lia). rewrite map2_length. rewrite nth_skipn'. f_equal. f_equal. lia.
Qed.
Theorem C94_transpose (M T : matrix) :
  matrix_transpose M = Ok T <->
  M <> [] /\ (forall row, In row M -> length row <= length (nth 0 M [])) /\
  T = tab (length (nth 0 M [])) (fun j => col j M).
Proof.
  unfold matrix_transpose. destruct M as [|row0 M]; [cbn; split; [discriminate|intros [X _]; now destruct X]|].
  cbn [idx nth_error bind nth].
  assert (E : (forall row, In row (row0 :: M) -> length row <= length row0) ->
    transpose_loop (row0 :: M) (repeat [] (length row0)) = Ok (tab (length row0) (fun j => col j (row0 :: M)))).
  { intros HM. rewrite transpose_loop_any by (now rewrite repeat_length). rewrite repeat_length. f_equal.
    apply tab_ext. intros j Hj. now rewrite nth_repeat. }
  split.
  - intros ET. split; [discriminate|].
    assert (HM : forall row, In row (row0 :: M) -> length row <= length row0).
    { intros row Hi. destruct (Nat.le_gt_cases (length row) (length row0)) as [|Hgt]; auto. exfalso.
      assert (X : transpose_loop (row0 :: M) (repeat [] (length row0)) = Panic).
      { apply transpose_loop_panic. rewrite repeat_length. apply Exists_exists. eauto. }
      rewrite X in ET. discriminate. }
    split; [exact HM|]. rewrite (E HM) in ET. now injection ET.
  - intros (_ & HM & ->). now apply E.
Qed.

(** ** Batching *)
Lemma shape_length M : length (shape M) = length M.
Proof. apply map_length. Qed.
Lemma shape_nth M i : nth i (shape M) 0 = length (nth i M []).
Proof. unfold shape. exact (map_nth (@length Scalar) M [] i). Qed.
Lemma same_shape_shape A B : same_shape A B <-> shape A = shape B.
Proof.
  split.
  - intros [H1 H2]. apply (list_eq_nth 0); [now rewrite !shape_length|]. intros i Hi. rewrite shape_length in Hi.
    rewrite !shape_nth. auto.
  - intros E. split; [now rewrite <- !shape_length, E|]. intros i _. now rewrite <- !shape_nth, E.
Qed.
Lemma shape_scaled M x : shape (matrix_scalar_mul M x) = shape M.
Proof. unfold shape, matrix_scalar_mul. rewrite map_map. apply map_ext. intros r. apply map_length. Qed.
(** a matrix of shape sh with given entries *)
Definition shaped (sh : list nat) (f : nat -> nat -> Scalar) : matrix := tab (length sh) (fun i => tab (nth i sh 0) (f i)).
Lemma shaped_shape sh f : shape (shaped sh f) = sh.
Proof.
  apply (list_eq_nth 0); [rewrite shape_length; apply tab_length|]. intros i Hi. rewrite shape_length in Hi. unfold shaped in Hi. rewrite tab_length in Hi.
  rewrite shape_nth. unfold shaped. rewrite tab_nth by auto. apply tab_length.
Qed.
Lemma shaped_ext sh f g : (forall i j, i < length sh -> j < nth i sh 0 -> f i j = g i j) -> shaped sh f = shaped sh g.
Proof. intros H. apply tab_ext. intros i Hi. apply tab_ext. auto. Qed.
Lemma shaped_ent sh f i j : i < length sh -> j < nth i sh 0 -> ent (shaped sh f) i j = f i j.
Proof. intros Hi Hj. unfold ent, sc, shaped. rewrite tab_nth by auto. now rewrite tab_nth. Qed.
Lemma shaped_eta M : M = shaped (shape M) (fun i j => ent M i j).
Proof.
  apply (tab_eq []); [now rewrite shape_length|]. intros i Hi. apply (tab_eq s0); [now rewrite shape_nth|]. reflexivity.
Qed.
Lemma scaled_shaped M x : matrix_scalar_mul M x = shaped (shape M) (fun i j => x * ent M i j)%S.
Proof.
  rewrite (shaped_eta M) at 1. unfold matrix_scalar_mul, shaped. rewrite map_tab. apply tab_ext. intros i Hi. rewrite map_tab.
  apply tab_ext. intros j Hj. ring.
Qed.
Lemma add_shaped sh f g : matrix_matrix_add (shaped sh f) (shaped sh g) = Ok (shaped sh (fun i j => f i j + g i j)%S).
Proof.
  change (@matrix_matrix_add C) with (matrix_matrix_add_general sadd). rewrite mma_map2.
  - f_equal. unfold shaped. rewrite map2_tab. apply tab_ext. intros i Hi. apply map2_tab.
  - apply same_shape_shape. now rewrite !shaped_shape.
Qed.
Lemma batch_loop_any (bl : list matrix) sh (f : nat -> nat -> nat -> Scalar) k : k < length bl ->
  (forall t, t < length bl -> nth t bl [] = shaped (shape (nth t bl [])) (f t)) -> shape (nth 0 bl []) = sh ->
  forall S, foldM (fun sum_block i => m <- idx bl i ;; matrix_matrix_add sum_block m) (seq 1 k) (nth 0 bl []) = Ok S <->
    (forall t, t <= k -> shape (nth t bl []) = sh) /\ S = shaped sh (fun i j => sum_S (Datatypes.S k) (fun t => f t i j)).
Proof.
  intros Hk Hf H0. induction k as [|k IH]; intros S.
  - cbn [seq foldM]. assert (E0 : shaped sh (fun i j => sum_S 1 (fun t => f t i j)) = nth 0 bl []).
    { rewrite (Hf 0) by lia. rewrite H0. apply shaped_ext. intros i j _ _. cbn. ring. }
    rewrite E0. split; [intros E; injection E as <-; split; [intros [|t] Ht; [exact H0|lia]|reflexivity]|intros [_ ->]; reflexivity].
  - rewrite seq_S, foldM_app. cbn [foldM Nat.add]. 
    assert (IH' := IH ltac:(lia)). clear IH. set (F := foldM _ (seq 1 k) _) in *.
    assert (EN : idx bl (Datatypes.S k) = Ok (nth (Datatypes.S k) bl [])) by (apply idx_lt; lia).
    split.
    + intros E. destruct F as [S1| |]; cbn [bind] in E; try discriminate.
      destruct (proj1 (IH' S1) eq_refl) as [HS ->]. rewrite EN in E. cbn [bind] in E.
      assert (X := E). apply bind_Ok_inv in E as (S2 & E & EO). injection EO as ->.
      apply C05_matrix_matrix_add in E as [E _]. apply same_shape_shape in E. rewrite shaped_shape in E.
      assert (Hall : forall t, t <= Datatypes.S k -> shape (nth t bl []) = sh).
      { intros t Ht. destruct (Nat.eq_dec t (Datatypes.S k)) as [->|]; [now symmetry|apply HS; lia]. }
      split; [exact Hall|]. rewrite (Hf (Datatypes.S k)) in X by lia. rewrite <- E in X. rewrite add_shaped in X.
      cbn [bind] in X. now injection X as <-.
    + intros [Hall ->]. rewrite (proj2 (IH' _) (conj (fun t Ht => Hall t (Nat.le_trans _ _ _ Ht (Nat.le_succ_diag_r k))) eq_refl)).
      cbn [bind]. rewrite EN. cbn [bind]. rewrite (Hf (Datatypes.S k)) by lia. rewrite Hall by lia.
      rewrite add_shaped. reflexivity.
Qed.
Theorem C94_batch (Ms : list matrix) (ch : list Scalar) (N : matrix) :
  block_matrix_batch (mkBlockMatrix Ms) ch = Ok N <->
  Ms <> [] /\ ch <> [] /\ (forall M, In M (firstn (length ch) Ms) -> shape M = shape (nth 0 Ms [])) /\
  shape N = shape (nth 0 Ms []) /\
  forall i j, i < length (nth 0 Ms []) -> j < length (nth i (nth 0 Ms []) []) ->
    ent N i j = sum_S (min (length Ms) (length ch)) (fun t => sc ch t * ent (nth t Ms []) i j)%S.
Proof.
  destruct Ms as [|M0 Ms'].
  { split; [intros E; now rewrite C08_block_matrix_batch_panic in E by auto|intros [X _]; now destruct X]. }
  destruct ch as [|c ch'].
  { split; [intros E; now rewrite C08_block_matrix_batch_panic in E by auto|intros (_ & X & _); now destruct X]. }
  set (Ms := M0 :: Ms') in *. set (cs := c :: ch') in *.
  unfold block_matrix_batch. cbn [block]. set (bl := map2 matrix_scalar_mul Ms cs).
  set (K := min (length Ms) (length cs)). assert (LB : length bl = K) by apply map2_length.
  assert (HK : 1 <= K) by (unfold K, Ms, cs; cbn; lia).
  assert (NB : forall t, t < K -> nth t bl [] = matrix_scalar_mul (nth t Ms []) (sc cs t)).
  { intros t Ht. unfold bl. unfold K in Ht. now rewrite (map2_nth _ _ _ _ [] s0) by lia. }
  assert (SB : forall t, t < K -> shape (nth t bl []) = shape (nth t Ms [])) by (intros t Ht; rewrite NB by auto; apply shape_scaled).
  rewrite (idx_lt _ _ []) by lia. cbn [bind].
  rewrite (batch_loop_any bl (shape M0) (fun t i j => sc cs t * ent (nth t Ms []) i j)%S (length bl - 1)).
  2:{ lia. }
  2:{ intros t Ht. rewrite LB in Ht. rewrite SB by auto. rewrite NB by auto. apply scaled_shaped. }
  2:{ rewrite SB by lia. reflexivity. }
  replace (S (length bl - 1)) with K by lia. change (nth 0 Ms []) with M0.
  split.
  - intros [Hs ->]. split; [discriminate|]. split; [discriminate|]. split; [|split; [apply shaped_shape|]].
    + intros M HM. apply (In_nth _ _ []) in HM as (t & Ht & <-). rewrite firstn_length in Ht.
      rewrite nth_firstn_lt by lia. rewrite <- SB by (unfold K; lia). apply Hs. unfold K in LB. lia.
    + intros i j Hi Hj. rewrite shaped_ent; [reflexivity|now rewrite shape_length|now rewrite shape_nth].
  - intros (_ & _ & Hs & HN & HE). split.
    + intros t Ht. rewrite SB by lia. apply Hs. rewrite <- (nth_firstn_lt (length cs) Ms t []) by (unfold K in LB; lia).
      apply nth_In. rewrite firstn_length. unfold K in LB. lia.
    + rewrite (shaped_eta N), HN. apply shaped_ext. intros i j Hi Hj. rewrite shape_length in Hi. rewrite shape_nth in Hj. now apply HE.
Qed.

(** ** The quadratic-equation verifier *)
Lemma g_gamma_shaped n Ms x : g_gamma n Ms x = shaped (shape (nth 0 Ms [])) (fun i j =>
  sum_S (min (length Ms) n) (fun t => spow x (S t) * ent (nth t Ms []) i j)%S).
Proof. unfold g_gamma, shaped. cbv zeta. rewrite shape_length. apply tab_ext. intros i Hi. now rewrite shape_nth. Qed.
Lemma g_gamma_shape n Ms x : shape (g_gamma n Ms x) = shape (nth 0 Ms []).
Proof. rewrite g_gamma_shaped. apply shaped_shape. Qed.
Lemma g_batch n Ms x N : 1 <= n ->
  (block_matrix_batch (mkBlockMatrix Ms) (powers x n) = Ok N <->
   Ms <> [] /\ (forall M, In M (firstn n Ms) -> shape M = shape (nth 0 Ms [])) /\ N = g_gamma n Ms x).
Proof.
  intros Hn. rewrite C94_batch, powers_length.
  assert (E : forall i j, sum_S (min (length Ms) n) (fun t => sc (powers x n) t * ent (nth t Ms []) i j)%S =
    sum_S (min (length Ms) n) (fun t => spow x (S t) * ent (nth t Ms []) i j)%S).
  { intros i j. apply sum_S_ext. intros t Ht. now rewrite powers_nth by lia. }
  split.
  - intros (A1 & _ & A2 & A3 & A4). split; [exact A1|]. split; [exact A2|].
    rewrite g_gamma_shaped, (shaped_eta N), A3. apply shaped_ext. intros i j Hi Hj. rewrite shape_length in Hi. rewrite shape_nth in Hj.
    rewrite A4 by auto. apply E.
  - intros (A1 & A2 & ->). split; [exact A1|]. split; [|split; [exact A2|split; [apply g_gamma_shape|]]].
    + intros Z. apply (f_equal (@length Scalar)) in Z. rewrite powers_length in Z. cbn in Z. lia.
    + intros i j Hi Hj. rewrite g_gamma_shaped, shaped_ent by (rewrite ?shape_length, ?shape_nth; auto). symmetry. apply E.
Qed.
Lemma g_gamma'_eq n Gm : 2 <= n -> compute_gamma_prime Gm n = Ok (g_gamma' n Gm).
Proof.
  intros Hn. unfold compute_gamma_prime. rewrite usub_le by lia. cbn [bind]. f_equal. unfold g_gamma'.
  rewrite <- !app_assoc. cbn [app]. f_equal. apply map_ext. intros r. now rewrite <- app_assoc.
Qed.
Lemma dot_pad a v : dot a v = sum_S (length v) (fun i => sc v i * sc a i)%S.
Proof.
  revert a. induction v as [|y v IH]; intros a; [rewrite dot_nil_r; reflexivity|]. cbn [length]. rewrite sum_S_shift.
  destruct a as [|z a].
  - cbn [dot]. rewrite sum_S_0; [cbn; ring|]. intros i Hi. unfold sc. cbn. destruct i; ring.
  - cbn [dot]. rewrite IH. unfold sc. cbn [nth]. ring.
Qed.
Lemma cols_mul c M v : matrix_vector_mul (tab c (fun j => col j M)) v = mtv c (packed (length v) c M) v.
Proof.
  apply (tab_eq s0); [rewrite matrix_vector_mul_length; apply tab_length|]. intros j Hj.
  rewrite matrix_vector_mul_nth by (now rewrite tab_length). rewrite tab_nth by auto. rewrite dot_pad.
  apply sum_S_ext. intros i Hi. unfold packed. now rewrite ent_mat by auto.
Qed.
Lemma g_rows n Ms x row : fits n Ms -> 2 <= n -> In row (g_gamma' n (g_gamma n Ms x)) -> length row <= n.
Proof.
  intros (F1 & F2 & F3 & F4 & _) Hn HI. unfold g_gamma' in HI. apply in_app_iff in HI as [HI|HI].
  - apply in_map_iff in HI as (r & <- & HI). rewrite app_length. cbn [length]. 
    assert (X : In (length r) (shape (g_gamma n Ms x))) by (now apply in_map). rewrite g_gamma_shape in X.
    apply in_map_iff in X as (r0 & <- & X). apply F4 in X. lia.
  - cbn [In] in HI. destruct HI as [<-|[<-|[]]]; rewrite app_length, repeat_length; cbn [length]; lia.
Qed.
Lemma shape_hd M : length (nth 0 M []) = nth 0 (shape M) 0.
Proof. symmetry. apply shape_nth. Qed.
Lemma g_hd n Ms x : fits n Ms -> length (nth 0 (g_gamma n Ms x) []) = n - 2 /\ g_gamma n Ms x <> [].
Proof.
  intros (F1 & F2 & F3 & _). split; [now rewrite shape_hd, g_gamma_shape, <- shape_hd|].
  intros Z. apply (f_equal shape) in Z. rewrite g_gamma_shape in Z. cbn in Z. apply F2. now destruct (nth 0 Ms []).
Qed.
Lemma g_hd' n Ms x : fits n Ms -> 2 <= n -> length (nth 0 (g_gamma' n (g_gamma n Ms x)) []) = n /\ g_gamma' n (g_gamma n Ms x) <> [].
Proof.
  intros F Hn. destruct (g_hd n Ms x F) as [H1 H2]. destruct (g_gamma n Ms x) as [|r M]; [now destruct H2|].
  cbn [nth] in H1. unfold g_gamma'. cbn [map app nth]. rewrite app_length. cbn [length]. split; [lia|discriminate].
Qed.
Lemma g_transposes n Ms x : fits n Ms -> 2 <= n ->
  matrix_transpose (g_gamma' n (g_gamma n Ms x)) = Ok (tab n (fun j => col j (g_gamma' n (g_gamma n Ms x)))) /\
  matrix_transpose (g_gamma n Ms x) = Ok (tab (n - 2) (fun j => col j (g_gamma n Ms x))).
Proof.
  intros F Hn. destruct (g_hd n Ms x F) as [H1 H2]. destruct (g_hd' n Ms x F Hn) as [H3 H4]. split; apply C94_transpose.
  - split; [exact H4|]. rewrite H3. split; [|reflexivity]. intros row. now apply g_rows.
  - split; [exact H2|]. rewrite H1. split; [|reflexivity]. intros row HI.
    assert (X : In (length row) (shape (g_gamma n Ms x))) by (now apply in_map). rewrite g_gamma_shape in X.
    apply in_map_iff in X as (r0 & <- & X). destruct F as (_ & _ & _ & F4 & _). now apply F4.
Qed.

Theorem C94_qesa_verifies ro tr pf (G H : list Point) Q Ms n P1 P2 :
  3 <= n -> length G = n -> length H = n -> fits n Ms ->
  decompress (c_prime_w pf) = Some P1 -> decompress (c_prime_prime_w pf) = Some P2 ->
  let x := q_x ro tr pf in
  let s := q_s ro tr pf in
  let b := q_b ro tr pf in
  let Cw := g_Cw n G H Ms x s b P1 P2 in
  inner_verify ro tr pf G H Q (mkBlockMatrix Ms) =
  alm_zk_verify ro (q_hist_w tr (c_prime_w pf) (c_prime_prime_w pf) (compress Cw))
    (alm_zk pf) (q_G (x * x)%S G) H Q n Cw (g_t n Ms x s).
Proof.
  intros Hn HG HH HF D1 D2 x s b Cw. unfold inner_verify. rewrite D1, D2, HH. cbn [unwrap bind].
  unfold append_message, challenge_scalar.
  replace ((tr ++ [EvMsg "c_prime_w" (c_prime_w pf)]) ++ [EvChal "x"]) with (q_hist_x tr (c_prime_w pf))
    by (unfold q_hist_x; now rewrite <- app_assoc).
  fold x. change (ro (q_hist_x tr (c_prime_w pf))) with x.
  rewrite vandemonde_challenge_eq by lia. cbn [bind].
  assert (EB := HF). destruct EB as (F1 & _ & _ & _ & F5).
  rewrite (proj2 (g_batch n Ms x _ ltac:(lia)) (conj F1 (conj F5 eq_refl))). cbn [bind].
  rewrite (idx_lt _ _ s0) by (rewrite powers_length; lia). cbn [bind].
  change (nth 1 (powers x n) s0) with (sc (powers x n) 1). rewrite powers_nth by lia.
  replace (spow x 2) with (x * x)%S by (cbn; ring).
  rewrite (idx_lt _ _ p0) by lia. cbn [bind].
  rewrite upd_lt by lia. cbn [bind]. rewrite q_G_eq by lia.
  rewrite (idx_lt _ _ p0) by (rewrite q_G_length; lia). cbn [bind].
  rewrite usub_le by lia. cbn [bind].
  rewrite (compress_decompress _ _ D2).
  replace ((q_hist_x tr (c_prime_w pf) ++ [EvMsg "c_prime_prime_w" (c_prime_prime_w pf)]) ++ [EvChal "s"])
    with (q_hist_s tr (c_prime_w pf) (c_prime_prime_w pf))
    by (unfold q_hist_s; now rewrite <- app_assoc).
  change (ro (q_hist_s tr (c_prime_w pf) (c_prime_prime_w pf))) with s.
  rewrite vandemonde_challenge_eq by lia. cbn [bind].
  change (q_hist_s tr (c_prime_w pf) (c_prime_prime_w pf) ++ [EvChal "b"])
    with (q_hist_b tr (c_prime_w pf) (c_prime_prime_w pf)).
  change (ro (q_hist_b tr (c_prime_w pf) (c_prime_prime_w pf))) with b.
  rewrite vandemonde_challenge_eq by lia. cbn [bind].
  rewrite q_s'_eq by lia. rewrite q_s'_length, Nat.eqb_refl. cbn [assertb bind].
  rewrite g_gamma'_eq by lia. cbn [bind]. destruct (g_transposes n Ms x HF ltac:(lia)) as [T1 T2].
  rewrite T1, T2. cbn [bind]. rewrite !cols_mul, q_s'_length, powers_length.
  rewrite inner_product_dot, dot_mtv by apply powers_length.
  rewrite msm_Ok by (rewrite mtv_length; lia). cbn [bind].
  rewrite msm_Ok by (rewrite q_s'_length, q_G_length; lia). cbn [bind].
  rewrite !lin_comb by (rewrite ?mtv_length, ?q_s'_length, ?q_G_length; lia).
  reflexivity.
Qed.

(** a verdict exactly for these shapes and proofs, a panic otherwise *)
Theorem C94_qesa_verdict ro tr pf (G H : list Point) Q Ms :
  let n := length H in
  verdict (inner_verify ro tr pf G H Q (mkBlockMatrix Ms)) <->
  3 <= n /\ length G = n /\ fits n Ms /\
  decompress (c_prime_w pf) <> None /\ decompress (c_prime_prime_w pf) <> None /\ alm_shape n (alm_zk pf).
Proof.
  intros n.
  assert (K : 3 <= n -> length G = n -> fits n Ms -> decompress (c_prime_w pf) <> None -> decompress (c_prime_prime_w pf) <> None ->
    (verdict (inner_verify ro tr pf G H Q (mkBlockMatrix Ms)) <-> alm_shape n (alm_zk pf))).
  { intros Hn HG HF X1 X2. destruct (decompress (c_prime_w pf)) as [P1|] eqn:D1; [|congruence].
    destruct (decompress (c_prime_prime_w pf)) as [P2|] eqn:D2; [|congruence].
    assert (VE := C94_qesa_verifies ro tr pf G H Q Ms n P1 P2 Hn HG eq_refl HF D1 D2). cbv zeta in VE. rewrite VE.
    apply C58_almzk_verdict_sized; auto. now rewrite q_G_length. }
  split; [|intros (A1 & A2 & A3 & A4 & A5 & A6); now apply K].
  intros V. destruct (inner_verify_decodes _ _ _ _ _ _ _ V) as [D1 D2].
  enough (X : 3 <= n /\ length G = n /\ fits n Ms).
  { destruct X as (X1 & X2 & X3). repeat (split; [assumption|]). now apply K. }
  clear K. destruct V as [v E]. unfold inner_verify, challenge_scalar in E. cbv zeta in E. fold n in E.
  inv_ok E. clear E0. inv_ok E. apply vandemonde_challenge_Ok_inv in E0 as [A1 ->].
  inv_ok E. rename E0 into EB. apply (g_batch n) in EB as (B1 & B2 & ->); [|exact A1].
  inv_ok E. clear E0. inv_ok E. clear E0. inv_ok E. apply upd_Ok in E0 as [_ ->]. inv_ok E. clear E0. inv_ok E. clear E0.
  inv_ok E. apply usub_Ok in E0 as [A2 ->]. inv_ok E. apply vandemonde_challenge_Ok_inv in E0 as [A3 ->].
  inv_ok E. apply vandemonde_challenge_Ok_inv in E0 as [_ ->]. inv_ok E. clear E0. rewrite g_gamma'_eq in E by lia. cbn [bind] in E. inv_ok E. rename E0 into T1. inv_ok E. rename E0 into T2.
  inv_ok E. apply msm_Ok_inv in E0 as [A4 _]. inv_ok E. apply msm_Ok_inv in E0 as [A5 _].
  clear E. rewrite matrix_vector_mul_length in A4. apply C94_transpose in T1 as (S1 & S2 & ->). apply C94_transpose in T2 as (S3 & S4 & ->).
  rewrite tab_length in A4. rewrite set_at_length, app_length, !powers_length in A5.
  set (Gm := g_gamma n Ms _) in *. assert (SH : shape Gm = shape (nth 0 Ms [])) by apply g_gamma_shape.
  fold n in A4. assert (A6 : length (nth 0 Gm []) = n - 2).
  { clearbody Gm. destruct Gm as [|r Gm]; [now destruct S3|]. unfold g_gamma' in A4. cbn [map app nth] in A4 |- *.
    rewrite app_length in A4. cbn [length] in A4. lia. }
  split; [lia|]. split; [lia|]. split; [exact B1|]. split; [|split; [|split; [|exact B2]]].
  - intros Z. rewrite Z in SH. apply S3. destruct Gm; [reflexivity|discriminate SH].
  - now rewrite shape_hd, <- SH, <- shape_hd.
  - intros row HI. assert (X : In (length row) (shape Gm)) by (rewrite SH; now apply in_map).
    apply in_map_iff in X as (r0 & <- & X). apply S4 in X. lia.
Qed.
Corollary C94_qesa_zk_verdict ro tr pf (G H : list Point) Q Ms :
  let n := length H in
  verdict (zk_verify ro tr pf G H Q (mkBlockMatrix Ms)) <->
  3 <= n /\ length G = n /\ fits n Ms /\
  decompress (c_prime_w (zk_inner pf)) <> None /\ decompress (c_prime_prime_w (zk_inner pf)) <> None /\
  alm_shape n (alm_zk (zk_inner pf)).
Proof. apply C94_qesa_verdict. Qed.

(** ** The quadratic-equation prover *)
(** reading a missing entry as zero: batching commutes with it *)
Lemma ent_beyond (M : matrix) i j : nth i (shape M) 0 <= j -> ent M i j = s0.
Proof. rewrite shape_nth. intros Hj. unfold ent. now apply nth_overflow. Qed.
Lemma g_gamma_ent n Ms x i j : fits n Ms ->
  ent (g_gamma n Ms x) i j = sum_S (min (length Ms) n) (fun t => spow x (S t) * ent (nth t Ms []) i j)%S.
Proof.
  intros (_ & _ & _ & _ & F5).
  destruct (Nat.lt_ge_cases j (nth i (shape (nth 0 Ms [])) 0)) as [Hj|Hj].
  - rewrite g_gamma_shaped. apply shaped_ent; [|exact Hj].
    destruct (Nat.lt_ge_cases i (length (shape (nth 0 Ms [])))) as [Hi|Hi]; [exact Hi|]. rewrite nth_overflow in Hj by exact Hi. lia.
  - rewrite ent_beyond by (now rewrite g_gamma_shape). symmetry. apply sum_S_0. intros t Ht.
    rewrite (ent_beyond (nth t Ms [])); [ring|]. rewrite F5; [exact Hj|].
    rewrite <- (nth_firstn_lt n) by lia. apply nth_In. rewrite firstn_length. lia.
Qed.
Lemma g_mv n Ms x w : fits n Ms -> length (nth 0 Ms []) = n - 2 -> length w = n - 2 ->
  matrix_vector_mul (g_gamma n Ms x) w = mv (n - 2) (q_gamma n Ms x) w.
Proof.
  intros F HR Hw.
  assert (LG : length (g_gamma n Ms x) = n - 2) by (unfold g_gamma; cbv zeta; rewrite tab_length; exact HR).
  apply (tab_eq s0); [now rewrite matrix_vector_mul_length|]. intros i Hi.
  rewrite matrix_vector_mul_nth by (now rewrite LG). rewrite dot_pad. apply sum_S_ext. intros j Hj. rewrite Hw in Hj.
  change (sc (nth i (g_gamma n Ms x) []) j) with (ent (g_gamma n Ms x) i j). rewrite g_gamma_ent by exact F.
  unfold q_gamma. rewrite ent_mat by auto. ring.
Qed.

Lemma g_bv_eq n Ms x w r' s b :
  map2 sadd (q_w'' n Ms x w r') (mtv n (g_E n Ms x) (q_s' n s b)) = g_bv n Ms x w r' s b.
Proof.
  apply (tab_eq s0).
  - unfold q_w''. rewrite map2_length, mv_length, mtv_length. lia.
  - intros i Hi. unfold q_w''. rewrite (map2_nth _ _ _ _ s0 s0) by (rewrite ?mv_length, ?mtv_length; lia). reflexivity.
Qed.
Lemma g_create_eq ro rng pos tr G H Q Ms w r' n :
  3 <= n -> length G = n -> length H = n -> length w = n - 2 -> length r' = 2 ->
  fits n Ms -> length (nth 0 Ms []) = n - 2 ->
  let c1 := compress (lin (w ++ r') G) in
  let x := ro (q_hist_x tr c1) in
  let c2 := compress (lin (q_w'' n Ms x w r') H) in
  let s := ro (q_hist_s tr c1 c2) in
  let b := ro (q_hist_b tr c1 c2) in
  let G' := q_G (x * x)%S G in
  let a := q_a n w r' s b in
  let bv := g_bv n Ms x w r' s b in
  let Cw := (lin a G' + lin bv H)%P in
  inner_create ro rng pos tr G H Q (mkBlockMatrix Ms) w r' =
  ('(p, tr, pos) <- alm_zk_create ro rng pos (q_hist_w tr c1 c2 (compress Cw)) G' H Q Cw a bv (dot a bv) ;;
   Ok (mkInner p c1 c2, tr, pos)).
Proof.
  intros Hn HG HH Hw Hr HF HR c1 x c2 s b G' a bv Cw. unfold inner_create.
  destruct r' as [|r0 [|r1 [|]]]; try discriminate.
  rewrite HG, usub_le by lia. cbn [bind]. rewrite Hw, Nat.eqb_refl. cbn [assertb bind length Nat.eqb].
  assert (Hwr : length (w ++ [r0; r1]) = n) by (rewrite app_length; cbn; lia).
  rewrite msm_Ok by lia. cbn [bind]. fold c1. unfold append_message, challenge_scalar.
  replace ((tr ++ [EvMsg "c_prime_w" c1]) ++ [EvChal "x"]) with (q_hist_x tr c1)
    by (unfold q_hist_x; now rewrite <- app_assoc).
  fold x.
  rewrite vandemonde_challenge_eq by lia. cbn [bind]. rewrite powers_length, Nat.eqb_refl. cbn [assertb bind].
  assert (EB := HF). destruct EB as (F1 & _ & _ & _ & F5).
  rewrite (proj2 (g_batch n Ms x _ ltac:(lia)) (conj F1 (conj F5 eq_refl))). cbn [bind].
  rewrite (idx_lt _ _ s0) by (rewrite powers_length; lia). cbn [bind].
  change (nth 1 (powers x n) s0) with (sc (powers x n) 1). rewrite powers_nth by lia.
  replace (spow x 2) with (x * x)%S by (cbn; ring).
  rewrite (idx_lt _ _ p0) by lia. cbn [bind].
  rewrite upd_lt by lia. cbn [bind]. rewrite q_G_eq by lia. fold G'.
  cbn [idx nth_error bind]. change (idx [r0; r1] 1) with (Ok r1). change (idx [r0; r1] 0) with (Ok r0).
  cbn [bind]. rewrite g_mv by auto. rewrite <- (mv_eq (n - 2)) by auto using q_gamma_rect. rewrite q_w''_eq by (auto; lia).
  assert (Hw2 : length (q_w'' n Ms x w [r0; r1]) = n) by (unfold q_w''; apply mv_length).
  rewrite msm_Ok by lia. cbn [bind]. fold c2.
  replace ((q_hist_x tr c1 ++ [EvMsg "c_prime_prime_w" c2]) ++ [EvChal "s"])
    with (q_hist_s tr c1 c2) by (unfold q_hist_s; now rewrite <- app_assoc).
  fold s.
  rewrite vandemonde_challenge_eq by lia. cbn [bind].
  change (q_hist_s tr c1 c2 ++ [EvChal "b"]) with (q_hist_b tr c1 c2).
  fold b.
  rewrite vandemonde_challenge_eq by lia. cbn [bind].
  rewrite q_s'_eq by lia. rewrite q_s'_length, Nat.eqb_refl. cbn [assertb bind].
  rewrite g_gamma'_eq by lia. cbn [bind]. destruct (g_transposes n Ms x HF ltac:(lia)) as [T1 _].
  rewrite T1. cbn [bind]. rewrite cols_mul, q_s'_length. fold (g_E n Ms x).
  rewrite row_row_sub_Ok by (rewrite q_s'_length; lia). cbn [bind].
  rewrite row_row_add_Ok by (rewrite mtv_length; lia). cbn [bind].
  fold (q_av n w [r0; r1] s b). rewrite <- q_a_eq by (cbn [length]; lia). fold a. rewrite g_bv_eq. fold bv.
  assert (Ha : length a = n) by apply tab_length.
  assert (Hb : length bv = n) by apply tab_length.
  assert (HG' : length G' = n) by (unfold G'; rewrite q_G_length; lia).
  rewrite msm_Ok by (rewrite !app_length; lia). rewrite lin_app by lia. cbn [bind].
  fold Cw. rewrite inner_product_dot. reflexivity.
Qed.

Theorem C94_qesa_prover_returns_iff ro rng pos tr (G H : list Point) Q Ms w r' :
  let n := length G in
  let c1 := compress (lin (w ++ r') G) in
  let x := ro (q_hist_x tr c1) in
  let c2 := compress (lin (q_w'' n Ms x w r') H) in
  let s := ro (q_hist_s tr c1 c2) in
  let b := ro (q_hist_b tr c1 c2) in
  (exists out, inner_create ro rng pos tr G H Q (mkBlockMatrix Ms) w r' = Ok out) <->
  (exists d, n = 2 ^ S (S d)) /\ length H = n /\ length w = n - 2 /\ length r' = 2 /\
  fits n Ms /\ length (nth 0 Ms []) = n - 2 /\
  exists m1 p1 m2 p2, sample_m_n_plus rng pos n = Ok (m1, p1) /\ sample_m_n_plus rng p1 n = Ok (m2, p2) /\
    alm_draws_ok (q_a n w r' s b) (g_bv n Ms x w r' s b) m1 m2.
Proof.
  intros n c1 x c2 s b.
  assert (K : (exists d, n = 2 ^ S (S d)) -> length H = n -> length w = n - 2 -> length r' = 2 ->
    fits n Ms -> length (nth 0 Ms []) = n - 2 ->
    ((exists out, inner_create ro rng pos tr G H Q (mkBlockMatrix Ms) w r' = Ok out) <->
     exists m1 p1 m2 p2, sample_m_n_plus rng pos n = Ok (m1, p1) /\ sample_m_n_plus rng p1 n = Ok (m2, p2) /\
       alm_draws_ok (q_a n w r' s b) (g_bv n Ms x w r' s b) m1 m2)).
  { intros [d Hd] HH Hw Hr HF HR.
    assert (Hn : 3 <= n) by (rewrite Hd, !pow2_S; assert (P := pow2_pos d); lia).
    assert (E := g_create_eq ro rng pos tr G H Q Ms w r' n Hn eq_refl HH Hw Hr HF HR). cbv zeta in E.
    fold c1 in E. fold x in E. fold c2 in E. fold s in E. fold b in E. rewrite E. clear E.
    match goal with |- (exists out, bind ?X _ = Ok out) <-> _ => set (A := X) end.
    transitivity (exists r, A = Ok r).
    { split.
      - intros [out E]. apply bind_Ok_inv in E as (r & E & _). eauto.
      - intros [[[p t'] p'] E]. rewrite E. cbn [bind]. eauto. }
    unfold A. rewrite (C59_almzk_create_returns_iff _ _ _ _ _ _ _ _ _ _ _ n).
    2:{ now rewrite q_G_length. }
    2:{ auto. }
    2:{ apply tab_length. }
    2:{ apply tab_length. }
    split.
    - intros (d' & m1 & p1 & m2 & p2 & _ & R). exists m1, p1, m2, p2. exact R.
    - intros (m1 & p1 & m2 & p2 & R). exists (S d), m1, p1, m2, p2. split; auto. }
  split.
  - intros HO. assert (HO' := HO). destruct HO' as [out E].
    apply inner_create_shape in E as (d & HG & HH & Hw & Hr & x' & gm & T & EB & Lg & (gp & EG & ET) & LT).
    assert (P := pow2_pos d). assert (Hn : 4 <= n) by (unfold n; rewrite HG, !pow2_S; lia).
    fold n in EB, EG, HH, Hw. apply g_batch in EB as (B1 & B2 & ->); [|lia].
    assert (HR : length (nth 0 Ms []) = n - 2).
    { assert (X := f_equal (@length nat) (g_gamma_shape n Ms x')). rewrite !shape_length in X. lia. }
    rewrite g_gamma'_eq in EG by lia. injection EG as <-. apply C94_transpose in ET as (S1 & S2 & ->).
    rewrite tab_length in LT.
    assert (S3 : g_gamma n Ms x' <> []) by (intros Z; rewrite Z in Lg; cbn in Lg; lia).
    assert (SH := g_gamma_shape n Ms x').
    assert (A6 : length (nth 0 (g_gamma n Ms x') []) = n - 2).
    { rewrite Lg, HH in LT. clear - LT S3. destruct (g_gamma n Ms x') as [|r Gm]; [now destruct S3|].
      unfold g_gamma' in LT. cbn [map app nth] in LT |- *. rewrite app_length in LT. cbn [length] in LT. lia. }
    assert (HF : fits n Ms).
    { split; [exact B1|]. split; [|split; [|split; [|exact B2]]].
      - intros Z. rewrite Z in HR. cbn in HR. lia.
      - now rewrite shape_hd, <- SH, <- shape_hd.
      - intros row HI. assert (X : In (length row) (shape (g_gamma n Ms x'))) by (rewrite SH; now apply in_map).
        apply in_map_iff in X as (r0 & <- & X).
        assert (Y : In (r0 ++ [s0; s0]) (g_gamma' n (g_gamma n Ms x'))).
        { unfold g_gamma'. apply in_app_iff. left. apply in_map_iff. exists r0. auto. }
        apply S2 in Y. rewrite LT, Lg, HH, app_length in Y. cbn [length] in Y. lia. }
    assert (HG' : exists d0, n = 2 ^ S (S d0)) by (exists d; exact HG).
    assert (R := proj1 (K HG' HH Hw Hr HF HR) HO). repeat (split; [assumption|]). exact R.
  - intros (Hd & HH & Hw & Hr & HF & HR & R). exact (proj2 (K Hd HH Hw Hr HF HR) R).
Qed.

(** ** Honest runs: the verifier recomputes the prover's commitment, but not its inner product *)
Lemma g_commit n G H Ms x s b w r' : 3 <= n -> length G = n -> length H = n ->
  length w = n - 2 -> length r' = 2 -> x <> s0 -> sc w 0 = s1 ->
  g_Cw n G H Ms x s b (lin (w ++ r') G) (lin (q_w'' n Ms x w r') H) =
  (lin (q_a n w r' s b) (q_G (x * x)%S G) + lin (g_bv n Ms x w r' s b) H)%P.
Proof.
  intros Hn HG HH Hw Hr Hx H0.
  assert (Hwr : length (w ++ r') = n) by (rewrite app_length; lia).
  assert (Hsp : length (q_s' n s b) = n) by apply q_s'_length.
  assert (Hu : length (q_w'' n Ms x w r') = n) by (unfold q_w''; apply mv_length).
  rewrite q_a_eq by lia. unfold q_av. rewrite <- g_bv_eq.
  rewrite lin_sub_s by (rewrite ?q_G_length; lia). rewrite lin_add_s by (rewrite mtv_length; lia).
  assert (Hxx : (x * x)%S <> s0) by (intros E; apply smul_eq_0 in E; tauto).
  unfold g_Cw. cbv zeta. rewrite q_shift by (auto; lia). rewrite sc_app_l by lia. rewrite H0.
  rewrite <- !lin_comb by (rewrite ?mtv_length, ?q_G_length; lia). pring.
Qed.

Theorem C94_honest_run (ro : oracle) rng pos tr (G H : list Point) (Q : Point) Ms (w r' : list Scalar) n pf tr' pos' :
  3 <= n -> length G = n -> length H = n -> length w = n - 2 -> length r' = 2 -> fits n Ms -> length (nth 0 Ms []) = n - 2 ->
  sc w 0 = s1 -> inner_create ro rng pos tr G H Q (mkBlockMatrix Ms) w r' = Ok (pf, tr', pos') ->
  let x := q_x ro tr pf in
  let s := q_s ro tr pf in
  let a := q_a n w r' s (q_b ro tr pf) in
  let b := g_bv n Ms x w r' s (q_b ro tr pf) in
  let G' := q_G (x * x)%S G in
  let Cw := (comb a G' + comb b H)%P in
  let tr1 := q_hist_w tr (c_prime_w pf) (c_prime_prime_w pf) (compress Cw) in
  x <> s0 ->
  alm_zk_create ro rng pos tr1 G' H Q Cw a b (dotp a b) = Ok (alm_zk pf, tr', pos') /\
  inner_verify ro tr pf G H Q (mkBlockMatrix Ms) = alm_zk_verify ro tr1 (alm_zk pf) G' H Q n Cw (g_t n Ms x s) /\
  dotp a b = (quad (q_gamma n Ms x) w
              + dotp (tab n (fun i => sc (mv n (g_E n Ms x) (w ++ r')) i - sc (q_w'' n Ms x w r') i)%S) (q_s' n s (q_b ro tr pf))
              - quad (g_E n Ms x) (q_s' n s (q_b ro tr pf)))%S.
Proof.
  intros Hn HG HH Hw Hr HF HR H0 E x s a b G' Cw tr1 Hx.
  assert (Hwr : length (w ++ r') = n) by (rewrite app_length; lia).
  assert (CE := g_create_eq ro rng pos tr G H Q Ms w r' n Hn HG HH Hw Hr HF HR).
  cbv zeta in CE. rewrite CE in E. clear CE.
  set (c1 := compress (lin (w ++ r') G)) in *.
  set (x1 := ro (q_hist_x tr c1)) in *.
  set (c2 := compress (lin (q_w'' n Ms x1 w r') H)) in *.
  apply bind_Ok_inv in E as [[[p trx] posx] [EA E]]. injection E as <- <- <-.
  unfold q_x, q_s, q_b in *. cbn [c_prime_w c_prime_prime_w alm_zk] in *.
  fold x1 in x. subst x. set (bb := ro (q_hist_b tr c1 c2)) in *. fold s in EA. fold a in EA. fold b in EA. fold G' in EA.
  assert (Hla : length a = n) by apply tab_length.
  assert (Hlb : length b = n) by apply tab_length.
  assert (HG' : length G' = n) by (unfold G'; rewrite q_G_length; lia).
  assert (D1 : decompress c1 = Some (lin (w ++ r') G)) by apply decompress_compress.
  assert (D2 : decompress c2 = Some (lin (q_w'' n Ms x1 w r') H)) by apply decompress_compress.
  rewrite !lin_comb in EA by lia. fold Cw in EA. fold tr1 in EA. rewrite (dot_dotp a b) in EA by lia.
  split; [exact EA|]. split.
  - assert (VE := C94_qesa_verifies ro tr (mkInner p c1 c2) G H Q Ms n _ _ Hn HG HH HF D1 D2).
    cbv zeta in VE. rewrite VE. clear VE. unfold q_x, q_s, q_b. cbn [c_prime_w c_prime_prime_w alm_zk].
    fold x1 s bb. rewrite g_commit by (auto; lia). fold a. fold b. fold G'. rewrite !lin_comb by lia. reflexivity.
  - assert (Hu : length (q_w'' n Ms x1 w r') = n) by (unfold q_w''; apply mv_length).
    rewrite <- dot_dotp by lia. unfold a, b. rewrite q_a_eq by lia. rewrite <- g_bv_eq. unfold q_av.
    rewrite q_inner by (auto; apply q_s'_length).
    replace (dot (w ++ r') (q_w'' n Ms x1 w r')) with (quad (q_gamma n Ms x1) w).
    2:{ unfold q_w''. rewrite dot_mv_quad by auto. rewrite quad_gamma'_firstn by (auto; lia).
        rewrite firstn_app, Hw, Nat.sub_diag, firstn_O, app_nil_r, <- Hw, firstn_all. reflexivity. }
    f_equal. f_equal. rewrite <- dot_dotp by (rewrite tab_length, q_s'_length; reflexivity).
    rewrite !(dot_sum n) by (rewrite ?mv_length, ?tab_length, ?q_s'_length; auto).
    rewrite <- sum_S_sub. apply sum_S_ext. intros i Hi. rewrite sc_tab by exact Hi. ring.
Qed.

(** where the inner products agree the run is accepted *)
Corollary C94_honest_accepted (ro : oracle) rng pos tr (G H : list Point) (Q : Point) Ms (w r' : list Scalar) n pf tr' pos' :
  3 <= n -> length G = n -> length H = n -> length w = n - 2 -> length r' = 2 -> fits n Ms -> length (nth 0 Ms []) = n - 2 ->
  sc w 0 = s1 -> inner_create ro rng pos tr G H Q (mkBlockMatrix Ms) w r' = Ok (pf, tr', pos') ->
  let x := q_x ro tr pf in
  let s := q_s ro tr pf in
  let a := q_a n w r' s (q_b ro tr pf) in
  let b := g_bv n Ms x w r' s (q_b ro tr pf) in
  let G' := q_G (x * x)%S G in
  let Cw := (comb a G' + comb b H)%P in
  let tr1 := q_hist_w tr (c_prime_w pf) (c_prime_prime_w pf) (compress Cw) in
  x <> s0 -> dotp a b = g_t n Ms x s ->
  dotp a a <> s0 -> dotp b b <> s0 ->
  (forall r p ob, sample_gram_schmidt rng pos b = Ok (r, p) -> orth a r = Ok ob -> dotp ob ob <> s0) ->
  (forall Cr, decompress (C_r (alm_zk pf)) = Some Cr ->
     ro (ipa_start (alm_ipa_hist tr1 (C_r (alm_zk pf))
           (alm_P (ro (alm_beta_hist tr1 (C_r (alm_zk pf)))) (dotp a b) Cw Cr Q)) n) <> s0) ->
  inner_verify ro tr pf G H Q (mkBlockMatrix Ms) = Ok (true, tr').
Proof.
  intros Hn HG HH Hw Hr HF HR H0 E x s a b G' Cw tr1 Hx Ht Haa Hbb Hob Hal.
  destruct (C94_honest_run ro rng pos tr G H Q Ms w r' n pf tr' pos' Hn HG HH Hw Hr HF HR H0 E Hx) as (E1 & E2 & _).
  rewrite E2. fold x s. rewrite <- Ht.
  refine (C18_almzk_completeness ro rng pos _ _ H Q _ _ n _ tr' pos' _ HH _ _ E1 Haa Hbb Hob Hal); [|apply tab_length..].
  now rewrite q_G_length.
Qed.

(** ** Uneven rows: the inner products differ for almost every challenge *)
Lemma col_app j (A B : matrix) : col j (A ++ B) = col j A ++ col j B.
Proof. induction A as [|r A IH]; [reflexivity|]. cbn [app]. rewrite !col_cons, IH. now destruct (j <? length r). Qed.
(** rows of at least this length *)
Definition rows_ge (k : nat) (M : matrix) : nat := length (filter (fun r => k <=? length r) M).
Lemma rows_ge_shape k M : rows_ge k M = length (filter (fun l => k <=? l) (shape M)).
Proof. unfold rows_ge, shape. induction M as [|r M IH]; [reflexivity|]. cbn [filter map]. destruct (k <=? length r); cbn [length]; congruence. Qed.
Lemma col_ext_last n (M : matrix) : 2 <= n -> (forall r, In r M -> length r <= n - 2) ->
  col (n - 1) (map (fun r => r ++ [s0; s0]) M) = repeat s0 (rows_ge (n - 2) M) /\
  (3 <= n -> col (n - 2) (map (fun r => r ++ [s0; s0]) M) = repeat s0 (rows_ge (n - 3) M)).
Proof.
  intros Hn. induction M as [|r M IH]; intros HM; [split; reflexivity|].
  destruct IH as [I1 I2]; [intros; apply HM; now right|]. assert (Hr : length r <= n - 2) by (apply HM; now left).
  unfold rows_ge in *. cbn [map filter]. rewrite !col_cons, app_length. cbn [length]. split.
  - destruct (Nat.ltb_spec (n - 1) (length r + 2)), (Nat.leb_spec (n - 2) (length r)); try lia; [|exact I1].
    cbn [length repeat]. rewrite I1. f_equal. rewrite sc_app_r by lia. replace (n - 1 - length r) with 1 by lia. reflexivity.
  - intros H3. destruct (Nat.ltb_spec (n - 2) (length r + 2)), (Nat.leb_spec (n - 3) (length r)); try lia; [|apply I2; lia].
    cbn [length repeat]. rewrite I2 by lia. f_equal. rewrite sc_app_r by lia.
    destruct (n - 2 - length r) as [|[|k]] eqn:Z; [reflexivity..|lia].
Qed.
Lemma bottom_cols n : 2 <= n ->
  let B := [repeat s0 (n - 2) ++ [s0; (- s1)%S]; repeat s0 (n - 2) ++ [s1; s0]] in
  col (n - 1) B = [(- s1)%S; s0] /\ col (n - 2) B = [s0; s1] /\ forall j, j < n - 2 -> col j B = [s0; s0].
Proof.
  intros Hn B. unfold B. rewrite !col_cons, !app_length, !repeat_length. cbn [length].
  replace (n - 1 <? n - 2 + 2) with true by (symmetry; apply Nat.ltb_lt; lia).
  replace (n - 2 <? n - 2 + 2) with true by (symmetry; apply Nat.ltb_lt; lia).
  rewrite !sc_app_r by (rewrite repeat_length; lia). rewrite !repeat_length, Nat.sub_diag.
  replace (n - 1 - (n - 2)) with 1 by lia. split; [reflexivity|]. split; [reflexivity|]. intros j Hj.
  rewrite !col_cons, !app_length, !repeat_length. cbn [length].
  replace (j <? n - 2 + 2) with true by (symmetry; apply Nat.ltb_lt; lia).
  rewrite !sc_app_l by (rewrite repeat_length; lia). unfold sc. rewrite !nth_repeat. reflexivity.
Qed.
Lemma col_length j (M : matrix) : length (col j M) <= length M.
Proof. unfold col. rewrite map_length. induction M as [|r M IH]; [reflexivity|]. cbn [filter]. destruct (j <? length r); cbn [length]; lia. Qed.
Lemma sc_repeat0 k i : sc (repeat s0 k) i = s0.
Proof. unfold sc. apply nth_repeat. Qed.
Lemma E_last n Ms x i : 3 <= n -> fits n Ms -> length (nth 0 Ms []) = n - 2 -> i < n ->
  ent (g_E n Ms x) i (n - 1) = (if i =? rows_ge (n - 2) (nth 0 Ms []) then - s1 else s0)%S /\
  ent (g_E n Ms x) i (n - 2) = (if i =? S (rows_ge (n - 3) (nth 0 Ms [])) then s1 else s0)%S /\
  (n - 2 <= i -> forall j, j < n - 2 -> ent (g_E n Ms x) i j = s0).
Proof.
  intros Hn HF HR Hi. unfold g_E, packed. destruct (bottom_cols n ltac:(lia)) as (B1 & B2 & B3).
  assert (RL : forall r, In r (g_gamma n Ms x) -> length r <= n - 2).
  { intros r HI. assert (X : In (length r) (shape (g_gamma n Ms x))) by (now apply in_map). rewrite g_gamma_shape in X.
    apply in_map_iff in X as (r0 & <- & X). destruct HF as (_ & _ & _ & F4 & _). now apply F4. }
  destruct (col_ext_last n (g_gamma n Ms x) ltac:(lia) RL) as [X1 X2]. specialize (X2 Hn).
  rewrite rows_ge_shape, g_gamma_shape, <- rows_ge_shape in X1, X2.
  set (f := rows_ge (n - 2) (nth 0 Ms [])) in *. set (g := rows_ge (n - 3) (nth 0 Ms [])) in *.
  assert (pick : forall k (u v : Scalar), sc (repeat s0 k ++ [u; v]) i = if i =? k then u else if i =? S k then v else s0).
  { intros k u v. destruct (Nat.lt_ge_cases i k) as [H|H].
    - rewrite sc_app_l by (rewrite repeat_length; lia). rewrite sc_repeat0.
      destruct (Nat.eqb_spec i k); [lia|]. destruct (Nat.eqb_spec i (S k)); [lia|]. reflexivity.
    - rewrite sc_app_r by (rewrite repeat_length; lia). rewrite repeat_length. unfold sc.
      destruct (Nat.eqb_spec i k) as [->|N1]; [now rewrite Nat.sub_diag|].
      destruct (Nat.eqb_spec i (S k)) as [->|N2]; [now replace (S k - k) with 1 by lia|].
      destruct (i - k) as [|[|t]] eqn:Z; [lia|lia|]. now destruct t. }
  split; [|split].
  - rewrite ent_mat by lia. unfold g_gamma'. rewrite col_app, X1, B1, pick. destruct (i =? f); [reflexivity|]. now destruct (i =? S f).
  - rewrite ent_mat by lia. unfold g_gamma'. rewrite col_app, X2, B2, pick. destruct (Nat.eqb_spec i g); [|reflexivity].
    destruct (Nat.eqb_spec i (S g)); [lia|reflexivity].
  - intros Hi2 j Hj. rewrite ent_mat by lia. unfold g_gamma'. rewrite col_app, (B3 j Hj).
    assert (LC := col_length j (map (fun r => r ++ [s0; s0]) (g_gamma n Ms x))). rewrite map_length in LC.
    assert (LG : length (g_gamma n Ms x) = n - 2) by (unfold g_gamma; cbv zeta; rewrite tab_length; exact HR).
    rewrite sc_app_r by lia. unfold sc. now destruct (i - _) as [|[|[|t]]].
Qed.

Lemma sc_q_s' n s b i : i < n -> sc (q_s' n s b) i = if i <? n - 2 then spow s (S i) else if i =? n - 2 then b else (b * b)%S.
Proof. intros Hi. unfold q_s'. now rewrite sc_tab. Qed.
Lemma sum_pick n k (c : Scalar) (f : nat -> Scalar) : k < n -> sum_S n (fun i => f i * (if i =? k then c else s0))%S = (f k * c)%S.
Proof.
  revert k. induction n as [|n IH]; intros k Hk; [lia|]. cbn [sum_S]. destruct (Nat.eq_dec k n) as [->|Hne].
  - rewrite Nat.eqb_refl. rewrite sum_S_0; [ring|]. intros i Hi. destruct (Nat.eqb_spec i n); [lia|ring].
  - rewrite IH by lia. destruct (Nat.eqb_spec n k); [lia|ring].
Qed.
(** the prover's inner product as a function of the last challenge *)
Lemma g_inner_product n Ms x w r' s : 3 <= n -> length w = n - 2 -> length r' = 2 -> fits n Ms -> length (nth 0 Ms []) = n - 2 ->
  let f := rows_ge (n - 2) (nth 0 Ms []) in
  let g := rows_ge (n - 3) (nth 0 Ms []) in
  f <= g <= n - 2 /\
  exists c, forall b, dotp (q_a n w r' s b) (g_bv n Ms x w r' s b) =
    (c + (sc r' 0 - b) * (sc (q_s' n s b) (S g) - sc r' 1) + (sc r' 1 - b * b) * (sc r' 0 - sc (q_s' n s b) f))%S.
Proof.
  intros Hn Hw Hr HF HR f g.
  assert (FG : f <= g <= n - 2).
  { rewrite <- HR. unfold f, g, rows_ge. clear. induction (nth 0 Ms []) as [|r M IH]; [cbn; lia|]. cbn [filter length].
    destruct (Nat.leb_spec (n - 2) (length r)), (Nat.leb_spec (n - 3) (length r)); cbn [length]; lia. }
  split; [exact FG|].
  assert (Hwr : length (w ++ r') = n) by (rewrite app_length; lia).
  set (u := q_w'' n Ms x w r').
  set (Kj := fun j => sum_S (n - 2) (fun i => spow s (S i) * ent (g_E n Ms x) i j)%S).
  exists (sum_S (n - 2) (fun j => (sc (w ++ r') j - spow s (S j)) * (sc u j + Kj j))%S). intros b.
  assert (MT : forall j, j < n -> sc (mtv n (g_E n Ms x) (q_s' n s b)) j =
    if j <? n - 2 then Kj j else if j =? n - 2 then sc (q_s' n s b) (S g) else (- sc (q_s' n s b) f)%S).
  { intros j Hj. unfold mtv. rewrite sc_tab by exact Hj. rewrite q_s'_length. destruct (Nat.ltb_spec j (n - 2)) as [H|H].
    - rewrite sum_split2 by lia. rewrite (proj2 (proj2 (E_last n Ms x (n - 2) Hn HF HR ltac:(lia))) ltac:(lia) j H).
      rewrite (proj2 (proj2 (E_last n Ms x (n - 1) Hn HF HR ltac:(lia))) ltac:(lia) j H).
      unfold Kj. rewrite (sum_S_ext (n - 2) _ (fun i => spow s (S i) * ent (g_E n Ms x) i j)%S); [ring|].
      intros i Hi. rewrite sc_q_s' by lia. destruct (Nat.ltb_spec i (n - 2)); [reflexivity|lia].
    - destruct (Nat.eqb_spec j (n - 2)) as [->|Hne].
      + rewrite (sum_S_ext n _ (fun i => sc (q_s' n s b) i * (if i =? S g then s1 else s0))%S).
        * rewrite sum_pick by lia. ring.
        * intros i Hi. destruct (E_last n Ms x i Hn HF HR Hi) as (_ & -> & _). reflexivity.
      + replace j with (n - 1) by lia. rewrite (sum_S_ext n _ (fun i => sc (q_s' n s b) i * (if i =? f then - s1 else s0))%S).
        * rewrite sum_pick by lia. ring.
        * intros i Hi. destruct (E_last n Ms x i Hn HF HR Hi) as (-> & _ & _). reflexivity. }
  unfold dotp. unfold q_a at 1. rewrite tab_length. rewrite sum_split2 by lia. unfold q_a, g_bv. fold u.
  rewrite !sc_tab by lia. rewrite !MT by lia. rewrite !sc_q_s' at 1 by lia.
  assert (U1 : sc u (n - 2) = (- sc r' 1)%S).
  { unfold u, q_w''. rewrite mv_gamma'_last2 by (auto; lia). rewrite sc_app_r by lia. rewrite Hw. now replace (n - 1 - (n - 2)) with 1 by lia. }
  assert (U2 : sc u (n - 1) = sc r' 0).
  { unfold u, q_w''. rewrite mv_gamma'_last1 by (auto; lia). rewrite sc_app_r by lia. now rewrite Hw, Nat.sub_diag. }
  rewrite U1, U2. rewrite !sc_app_r by lia. rewrite Hw, Nat.sub_diag. replace (n - 1 - (n - 2)) with 1 by lia.
  rewrite !Nat.ltb_irrefl, !Nat.eqb_refl.
  replace (n - 1 <? n - 2) with false by (symmetry; apply Nat.ltb_ge; lia).
  replace (n - 1 =? n - 2) with false by (symmetry; apply Nat.eqb_neq; lia).
  rewrite (sum_S_ext (n - 2) _ (fun j => (sc (w ++ r') j - spow s (S j)) * (sc u j + Kj j))%S).
  2:{ intros j Hj. rewrite !sc_tab by lia. rewrite MT, sc_q_s' by lia. destruct (Nat.ltb_spec j (n - 2)); [reflexivity|lia]. }
  ring.
Qed.

Theorem C94_uneven_rows_fail n Ms x (w r' : list Scalar) s : 3 <= n -> length w = n - 2 -> length r' = 2 ->
  fits n Ms -> length (nth 0 Ms []) = n - 2 -> (exists row, In row (nth 0 Ms []) /\ length row < n - 2) ->
  let f := rows_ge (n - 2) (nth 0 Ms []) in
  spow s (S f) <> sc r' 0 -> spow s (S f) <> (sc r' 0 + s1)%S ->
  forall bs, NoDup bs -> (forall b, In b bs -> dotp (q_a n w r' s b) (g_bv n Ms x w r' s b) = g_t n Ms x s) ->
  length bs <= 3.
Proof.
  intros Hn Hw Hr HF HR (row & HI & HL) f N1 N2 bs ND HB.
  destruct (g_inner_product n Ms x w r' s Hn Hw Hr HF HR) as [FG [c HC]]. fold f in FG, HC.
  set (g := rows_ge (n - 3) (nth 0 Ms [])) in *. set (t := g_t n Ms x s) in *.
  assert (Hf : f < n - 2).
  { rewrite <- HR. unfold f, rows_ge. clear - HI HL. induction (nth 0 Ms []) as [|r M IH]; [destruct HI|].
    cbn [filter length]. assert (X : length (filter (fun r => n - 2 <=? length r) M) <= length M).
    { clear. induction M as [|r M IH]; [reflexivity|]. cbn [filter]. destruct (n - 2 <=? length r); cbn [length]; lia. }
    destruct HI as [->|HI]; [destruct (Nat.leb_spec (n - 2) (length row)); [lia|lia]|].
    specialize (IH HI). destruct (n - 2 <=? length r); cbn [length]; lia. }
  destruct (Nat.le_gt_cases (length bs) 3) as [?|Hbig]; [assumption|exfalso].
  destruct bs as [|b1 [|b2 [|b3 [|b4 bs]]]]; cbn [length] in Hbig; try lia.
  assert (ND4 : NoDup [b1; b2; b3; b4]).
  { clear - ND. inversion ND as [|? ? M1 ND1]; subst. inversion ND1 as [|? ? M2 ND2]; subst. inversion ND2 as [|? ? M3 ND3]; subst.
    cbn [In] in M1, M2, M3. repeat constructor; cbn [In]; tauto. }
  assert (E : forall b, In b [b1; b2; b3; b4] ->
    (c + (sc r' 0 - b) * (sc (q_s' n s b) (S g) - sc r' 1) + (sc r' 1 - b * b) * (sc r' 0 - spow s (S f)) - t = s0)%S).
  { intros b Hb. rewrite <- (HB b) by (cbn [In] in Hb |- *; tauto). rewrite HC. rewrite !(sc_q_s' n s b f) by lia.
    destruct (Nat.ltb_spec f (n - 2)); [|lia]. ring. }
  set (P := spow s (S f)) in *. set (r0 := sc r' 0) in *. set (r1 := sc r' 1) in *.
  destruct (Nat.eq_dec g (n - 2)) as [Eg|Eg]; [|destruct (Nat.eq_dec g (n - 3)) as [Eg'|Eg']].
  - destruct (cubic_roots (- s1) P r1 (c - r1 * P - t)%S b1 b2 b3 b4 ND4) as [Z _].
    + intros b Hb. specialize (E b Hb). rewrite sc_q_s' in E by lia.
      destruct (Nat.ltb_spec (S g) (n - 2)); [lia|]. destruct (Nat.eqb_spec (S g) (n - 2)); [lia|].
      etransitivity; [|exact E]. ring.
    + apply s1_neq_s0. transitivity (- - s1)%S; [ring|]. rewrite Z. ring.
  - destruct (cubic_roots s0 (P - r0 - s1)%S (r0 + r1)%S (c - r1 * P - t)%S b1 b2 b3 b4 ND4) as (_ & Z & _).
    + intros b Hb. specialize (E b Hb). rewrite sc_q_s' in E by lia.
      destruct (Nat.ltb_spec (S g) (n - 2)); [lia|]. destruct (Nat.eqb_spec (S g) (n - 2)); [|lia].
      etransitivity; [|exact E]. ring.
    + apply N2. transitivity (P - r0 - s1 + (r0 + s1))%S; [ring|]. rewrite Z. ring.
  - destruct (cubic_roots s0 (P - r0)%S (r1 - spow s (S (S g)))%S (c + r0 * spow s (S (S g)) - r1 * P - t)%S b1 b2 b3 b4 ND4) as (_ & Z & _).
    + intros b Hb. specialize (E b Hb). rewrite sc_q_s' in E by lia.
      destruct (Nat.ltb_spec (S g) (n - 2)); [|lia]. etransitivity; [|exact E]. ring.
    + apply N1. transitivity (P - r0 + r0)%S; [ring|]. rewrite Z. ring.
Qed.

(** ** The copy verifier, for any mapping *)
(** the positions a mapping refers to are inside the matrices and the list of commitments *)
Definition map_fits (n K : nat) (mp : Mapping) : Prop :=
  forall c, In c (unique_commitment_indices mp) -> N.to_nat c < n - 2 /\
    forall m, In m (msgs_map mp) -> commitment_index m = c ->
      N.to_nat (commitment_crs_id m) < K /\ N.to_nat (position_in_witness m) < n - 2.
Definition blank (n : nat) : matrix := mat (n - 2) (n - 2) (fun _ _ => s0).

Lemma upd_loop al k : forall (ms : list MessageMap) (e : list Scalar), length e = k ->
  (exists e', foldM (fun new_eqn msg =>
      alpha <- idx al (N.to_nat (commitment_crs_id msg)) ;;
      upd new_eqn (N.to_nat (position_in_witness msg)) alpha) ms e = Ok e' /\ length e' = k) /\
    (forall m, In m ms -> N.to_nat (commitment_crs_id m) < length al /\ N.to_nat (position_in_witness m) < k) \/
  ~ verdict (foldM (fun new_eqn msg =>
      alpha <- idx al (N.to_nat (commitment_crs_id msg)) ;;
      upd new_eqn (N.to_nat (position_in_witness msg)) alpha) ms e) /\
    ~ (forall m, In m ms -> N.to_nat (commitment_crs_id m) < length al /\ N.to_nat (position_in_witness m) < k).
Proof.
  induction ms as [|m ms IH]; intros e He.
  - left. split; [exists e; auto|]. intros m [].
  - cbn [foldM]. destruct (Nat.lt_ge_cases (N.to_nat (commitment_crs_id m)) (length al)) as [H1|H1].
    2:{ right. split; [|intros X; destruct (X m (or_introl eq_refl)); lia].
        intros [v E]. inv_ok E. inv_ok E0. apply idx_Ok in E1. apply nth_error_None in H1. congruence. }
    destruct (Nat.lt_ge_cases (N.to_nat (position_in_witness m)) k) as [H2|H2].
    2:{ right. split; [|intros X; destruct (X m (or_introl eq_refl)); lia].
        intros [v E]. inv_ok E. inv_ok E0. apply upd_Ok in E0 as [E0 _]. lia. }
    rewrite (idx_lt _ _ s0) by exact H1. cbn [bind]. rewrite upd_lt by lia. cbn [bind].
    destruct (IH (set_at e (N.to_nat (position_in_witness m)) (nth (N.to_nat (commitment_crs_id m)) al s0))) as [[I1 I2]|[I1 I2]].
    { now rewrite set_at_length. }
    + left. split; [exact I1|]. intros m' [<-|HI]; [auto|now apply I2].
    + right. split; [exact I1|]. intros X. apply I2. intros m' HI. apply X. now right.
Qed.

Lemma copy_matrix_any n2 mm al c :
  (exists M, verify_copy_matrix n2 (map (fun _ => s0) (seq 0 n2)) mm al c = Ok M /\ shape M = repeat n2 n2) /\
    (N.to_nat c < n2 /\ forall m, In m mm -> commitment_index m = c -> N.to_nat (commitment_crs_id m) < length al /\ N.to_nat (position_in_witness m) < n2) \/
  ~ verdict (verify_copy_matrix n2 (map (fun _ => s0) (seq 0 n2)) mm al c) /\
    ~ (N.to_nat c < n2 /\ forall m, In m mm -> commitment_index m = c -> N.to_nat (commitment_crs_id m) < length al /\ N.to_nat (position_in_witness m) < n2).
Proof.
  unfold verify_copy_matrix. cbv zeta.
  destruct (Nat.lt_ge_cases (N.to_nat c) n2) as [Hc|Hc].
  2:{ right. split; [|intros [? _]; lia]. intros [v E]. inv_ok E. apply upd_Ok in E0 as [E0 _]. rewrite map_length, seq_length in E0. lia. }
  rewrite upd_lt by (rewrite map_length, seq_length; exact Hc). cbn [bind].
  set (ms := filter (fun x => N.eqb (commitment_index x) c) mm).
  assert (FI : forall P : MessageMap -> Prop, (forall m, In m ms -> P m) <-> (forall m, In m mm -> commitment_index m = c -> P m)).
  { intros P. unfold ms. split; intros X m.
    - intros HI HE. apply X. apply filter_In. split; [exact HI|]. now apply N.eqb_eq.
    - intros HI. apply filter_In in HI as [HI HE]. apply N.eqb_eq in HE. auto. }
  destruct (upd_loop al n2 ms (set_at (map (fun _ : nat => s0) (seq 0 n2)) (N.to_nat c) (- s1)%S)) as [[(e & E & Le) I2]|[I1 I2]].
  { now rewrite set_at_length, map_length, seq_length. }
  - left. split; [|split; [exact Hc|]; now apply FI]. rewrite E. cbn [bind]. rewrite pad_rows_eq by (cbn [length]; lia).
    eexists. split; [reflexivity|]. cbn [length app]. unfold shape. cbn [map]. rewrite Le.
    transitivity (repeat n2 (S (n2 - 1))); [|f_equal; lia]. cbn [repeat]. f_equal.
    assert (LZ : length (map (fun _ : nat => s0) (seq 0 n2)) = n2) by (now rewrite map_length, seq_length).
    generalize (n2 - 1). intros k. induction k as [|k IHk]; [reflexivity|]. cbn [repeat map]. now rewrite LZ, IHk.
  - right. split; [|intros [_ X]; apply I2; apply FI; exact X].
    intros V. apply I1. destruct V as [v E]. inv_ok E. eexists. exact E0.
Qed.

Lemma copy_matrices_any n2 mm al : forall keys Ms,
  (exists Ns, foldM (fun gamma_i key_id =>
       matrix <- verify_copy_matrix n2 (map (fun _ => s0) (seq 0 n2)) mm al key_id ;;
       Ok (BlockMatrix_push gamma_i matrix)) keys (mkBlockMatrix Ms) = Ok (mkBlockMatrix (Ms ++ Ns)) /\
     map shape Ns = repeat (repeat n2 n2) (length keys)) /\
    (forall c, In c keys -> N.to_nat c < n2 /\ forall m, In m mm -> commitment_index m = c ->
       N.to_nat (commitment_crs_id m) < length al /\ N.to_nat (position_in_witness m) < n2) \/
  ~ verdict (foldM (fun gamma_i key_id =>
       matrix <- verify_copy_matrix n2 (map (fun _ => s0) (seq 0 n2)) mm al key_id ;;
       Ok (BlockMatrix_push gamma_i matrix)) keys (mkBlockMatrix Ms)) /\
    ~ (forall c, In c keys -> N.to_nat c < n2 /\ forall m, In m mm -> commitment_index m = c ->
       N.to_nat (commitment_crs_id m) < length al /\ N.to_nat (position_in_witness m) < n2).
Proof.
  induction keys as [|c keys IH]; intros Ms.
  - left. split; [|intros c []]. exists []. rewrite app_nil_r. split; reflexivity.
  - cbn [foldM]. destruct (copy_matrix_any n2 mm al c) as [[(M & E & SM) I2]|[I1 I2]].
    + rewrite E. cbn [bind]. change (BlockMatrix_push (mkBlockMatrix Ms) M) with (mkBlockMatrix (Ms ++ [M])).
      destruct (IH (Ms ++ [M])) as [[(Ns & EN & SN) J2]|[J1 J2]].
      * left. split; [|intros c' [<-|HI]; auto]. exists (M :: Ns). rewrite <- app_assoc in EN. split; [exact EN|].
        cbn [map length repeat]. now rewrite SM, SN.
      * right. split; [exact J1|]. intros X. apply J2. intros c' HI. apply X. now right.
    + right. split; [|intros X; apply I2; apply X; now left].
      intros V. apply I1. destruct V as [v E]. inv_ok E. inv_ok E0. eexists. exact E1.
Qed.

Lemma shape_mat r c f : shape (mat r c f) = repeat c r.
Proof.
  unfold shape, mat, tab. rewrite map_map. rewrite (map_ext _ (fun _ => c)).
  - generalize 0. induction r as [|r IH]; intros k; [reflexivity|]. cbn [seq map repeat]. now rewrite IH.
  - intros i. now rewrite map_length, seq_length.
Qed.
(** only the shapes matter *)
Lemma fits_shapes n Ms Ms' : map shape Ms = map shape Ms' -> fits n Ms -> fits n Ms'.
Proof.
  intros E (F1 & F2 & F3 & F4 & F5).
  assert (N : forall t, shape (nth t Ms []) = shape (nth t Ms' [])).
  { intros t. change (@nil nat) with (shape []) in *. rewrite <- !(map_nth shape). now rewrite E. }
  assert (LE : length Ms = length Ms') by (rewrite <- (map_length shape Ms), E; apply map_length).
  split; [intros ->; destruct Ms; [now apply F1|discriminate E]|].
  split; [intros Z; apply F2; specialize (N 0); rewrite Z in N; now destruct (nth 0 Ms [])|].
  split; [now rewrite shape_hd, <- N, <- shape_hd|]. split.
  - intros row HI. assert (X : In (length row) (shape (nth 0 Ms []))) by (rewrite N; now apply in_map).
    apply in_map_iff in X as (r0 & <- & X). now apply F4.
  - intros M HI. apply (In_nth _ _ []) in HI as (t & Ht & <-). rewrite firstn_length in Ht. rewrite nth_firstn_lt by lia.
    rewrite <- !N. apply F5. rewrite <- (nth_firstn_lt n) by lia. apply nth_In. rewrite firstn_length. lia.
Qed.

Theorem C94_copy_verdict ro tr pf (G H : list Point) Q Ms mp Cs :
  let n := length G in
  verdict (copy_verify ro tr pf G H Q (mkBlockMatrix Ms) mp Cs) <->
  3 <= n /\ length H = n /\ 1 <= length Cs /\ map_fits n (length Cs) mp /\
  fits n (Ms ++ repeat (blank n) (length (unique_commitment_indices mp))) /\
  decompress (cp_C_w pf) <> None /\ decompress (c_prime_prime_w (cp_inner pf)) <> None /\ alm_shape n (alm_zk (cp_inner pf)).
Proof.
  intros n.
  assert (K : forall Ns k, map shape Ns = repeat (repeat (n - 2) (n - 2)) k ->
    map shape (Ms ++ Ns) = map shape (Ms ++ repeat (blank n) k)).
  { intros Ns k E. rewrite !map_app, E. f_equal. clear. induction k as [|k IH]; [reflexivity|]. cbn [repeat map].
    rewrite <- IH. f_equal. symmetry. apply shape_mat. }
  split.
  - intros [v E]. unfold copy_verify, challenge_scalar in E. cbv zeta in E. fold n in E.
    inv_ok E. apply vandemonde_challenge_Ok_inv in E0 as [A1 ->]. inv_ok E. rename E0 into D. inv_ok E. apply usub_Ok in E0 as [A2 ->].
    inv_ok E. destruct (copy_matrices_any (n - 2) (msgs_map mp) (powers (ro (append_message tr "c_w" (cp_C_w pf) ++ [EvChal "alpha"])) (length Cs))
      (unique_commitment_indices mp) Ms) as [[(Ns & EN & SN) J2]|[J1 _]]; [|exfalso; apply J1; eexists; exact E0].
    rewrite EN in E0. injection E0 as <-. rewrite powers_length in J2.
    assert (V := proj1 (C94_qesa_verdict _ _ _ _ _ _ _) (ex_intro (fun w => _ = Ok w) v E)). cbv zeta in V.
    cbn [c_prime_w c_prime_prime_w alm_zk] in V. fold n in V. destruct V as (V1 & V2 & V3 & _ & V5 & V6).
    rewrite <- V2 in V1, V3, V6. split; [exact V1|]. split; [auto|]. split; [exact A1|]. split; [exact J2|].
    split; [apply (fits_shapes n (Ms ++ Ns)); auto|]. split; [intros Z; rewrite Z in D; discriminate|]. split; assumption.
  - intros (A1 & A2 & A3 & A4 & A5 & A6 & A7 & A8). unfold copy_verify, challenge_scalar. cbv zeta. fold n.
    rewrite vandemonde_challenge_eq by lia. cbn [bind]. destruct (decompress (cp_C_w pf)) as [Cw|]; [|now destruct A6]. cbn [unwrap bind].
    rewrite usub_le by lia. cbn [bind].
    destruct (copy_matrices_any (n - 2) (msgs_map mp) (powers (ro (append_message tr "c_w" (cp_C_w pf) ++ [EvChal "alpha"])) (length Cs))
      (unique_commitment_indices mp) Ms) as [[(Ns & EN & SN) _]|[_ J2]]; [|rewrite powers_length in J2; exfalso; exact (J2 A4)].
    rewrite EN. cbn [bind]. apply C94_qesa_verdict. cbv zeta. cbn [c_prime_w c_prime_prime_w alm_zk]. rewrite A2.
    split; [exact A1|]. split; [reflexivity|]. split; [apply (fits_shapes n (Ms ++ repeat (blank n) (length (unique_commitment_indices mp)))); auto; symmetry; now apply K|].
    split; [rewrite decompress_compress; discriminate|]. split; assumption.
Qed.
End Shape.

(** transposing moves entries of uneven rows up; a later row longer than the first is out of range;
    batching wants one common shape among the matrices it reads *)
Example C94_case_transpose :
  let z M := rmap (map (map zs)) M in
  z (matrix_transpose [[sN 1; sN 2; sN 3]; [sN 4]; [sN 5; sN 6]]) = Ok [[1; 4; 5]; [2; 6]; [3]]%Z /\
  z (matrix_transpose [[sN 1]; [sN 4; sN 5]]) = Panic /\
  z (block_matrix_batch (mkBlockMatrix [[[sN 1; sN 2]; [sN 3]]; [[sN 5; sN 6]; [sN 7]]]) [sN 10; sN 1]) = Ok [[15; 26]; [37]]%Z /\
  z (block_matrix_batch (mkBlockMatrix [[[sN 1; sN 2]; [sN 3]]; [[sN 5; sN 6]; [sN 7; sN 8]]]) [sN 10; sN 1]) = Panic /\
  z (block_matrix_batch (mkBlockMatrix [[[sN 1; sN 2]; [sN 3]]; [[sN 5; sN 6]; [sN 7; sN 8]]]) [sN 10]) = Ok [[10; 20]; [30]]%Z.
Proof. vm_compute. repeat split. Qed.

(** n = 4, the equation 2 w_0^2 - w_0 w_1 = 0 and the witness (1, 2). Written as the rows (2,-1), (0,0) it
    is proved and accepted. Written as (2,-1), (0) the prover returns a proof the verifier refuses.
    With a third row, or with the second row left out, only the verifier gets to a verdict.
    A first row of the wrong length, or a later longer one, are panics for both. *)
Example C94_case_runs :
  let run M := rmap (fun '(pf, _, _) => rmap fst (inner_verify ro1 [] pf G4 H4 (pN 17) (mkBlockMatrix [M])))
     (inner_create ro1 rng1 0 [] G4 H4 (pN 17) (mkBlockMatrix [M]) [sN 1; sN 2] [sN 5; sN 9]) in
  let see M := rmap (fun '(pf, _, _) => rmap fst (inner_verify ro1 [] pf G4 H4 (pN 17) (mkBlockMatrix [M])))
     (inner_create ro1 rng1 0 [] G4 H4 (pN 17) (mkBlockMatrix [[[sN 2; sN (-1)]; [sN 0; sN 0]]]) [sN 1; sN 2] [sN 5; sN 9]) in
  let r0 := [sN 2; sN (-1)] in
  map zs [quad [r0; [sN 0; sN 0]] [sN 1; sN 2]; quad [r0; [sN 0]] [sN 1; sN 2]] = [0; 0]%Z /\
  run [r0; [sN 0; sN 0]] = Ok (Ok true) /\ run [r0; [sN 0]] = Ok (Ok false) /\
  run [r0; [sN 0; sN 0]; [sN 0; sN 0]] = Panic /\ run [r0] = Panic /\
  see [r0; [sN 0; sN 0]] = Ok (Ok true) /\ see [r0; [sN 0]] = Ok (Ok false) /\
  see [r0; [sN 0; sN 0]; [sN 0; sN 0]] = Ok (Ok false) /\ see [r0] = Ok (Ok false) /\
  see [[sN 2]; [sN 0; sN 0]] = Ok Panic /\ see [r0 ++ [sN 0]; [sN 0; sN 0]] = Ok Panic /\ see [r0; r0 ++ [sN 0]] = Ok Panic.
Proof. vm_compute. repeat split. Qed.
