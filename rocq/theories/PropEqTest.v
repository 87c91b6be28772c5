(** C66: the equation systems that the tests of qesa_inner.rs build, and those tests *)
From Verif Require Export UnitTests PropQesa PropAlmFail PropTotal.
From Verif Require Import ExSmall.
Local Open Scope nat_scope.
Local Open Scope list_scope.

Section C66.
Context {C : Crypto} {L : CryptoLaws C}.
Add Field SfC66 : (@S_field C L).

(** the draws [lo], ..., [lo+n-1] *)
Definition draw_vec (rng : nat -> Scalar) (lo n : nat) : list Scalar := tab n (fun i => rng (lo + i)).
(** the witness: first entry 1, the others drawn *)
Definition drawn_witness (rng : nat -> Scalar) (pos n : nat) : list Scalar :=
  tab n (fun i => if i =? 0 then s1 else rng (pos + i)).

Lemma map_draw_vec rng pos n : map (fun i => rng (pos + i)) (seq 0 n) = draw_vec rng pos n.
Proof. reflexivity. Qed.
Lemma draw_vec_length rng pos n : length (draw_vec rng pos n) = n.
Proof. apply tab_length. Qed.
Lemma set_at_nth {A} (l : list A) i v j d : nth j (set_at l i v) d = if (j =? i) && (j <? length l) then v else nth j l d.
Proof.
  revert i j; induction l as [|a l IH]; intros [|i] [|j]; cbn [set_at nth Nat.eqb length andb]; auto.
  - rewrite andb_false_r. reflexivity.
  - rewrite IH. reflexivity.
Qed.
Lemma set_at_len {A} (l : list A) i v : length (set_at l i v) = length l.
Proof. revert i; induction l as [|a l IH]; intros [|i]; cbn [set_at length]; auto. Qed.

Lemma set_first_witness rng pos n : 1 <= n -> upd (draw_vec rng pos n) 0 s1 = Ok (drawn_witness rng pos n).
Proof.
  intros Hn. rewrite upd_lt by (rewrite draw_vec_length; lia). f_equal. apply (tab_eq s0); [now rewrite set_at_len, draw_vec_length|].
  intros i Hi. rewrite set_at_nth, draw_vec_length. unfold draw_vec.
  destruct (Nat.eqb_spec i 0) as [->|Hne]; cbn [andb]; [destruct (Nat.ltb_spec 0 n); [reflexivity|lia]|now rewrite tab_nth].
Qed.

Lemma helper_row_eq rng w n g pos : length w = n -> helper_row rng w n (g, pos) =
  (if seqb (dotp w (draw_vec rng pos n)) s0 || seqb (dotp w w) s0 then Panic
   else Ok (g ++ [away w (draw_vec rng pos n)], pos + n)).
Proof.
  intros Hw. unfold helper_row. rewrite map_draw_vec. set (x := draw_vec rng pos n).
  assert (Hx : length w = length x) by (unfold x; rewrite draw_vec_length; auto).
  destruct (S_eq_dec (dotp w x) s0) as [E|E].
  - rewrite orth_away_panic by auto. rewrite E, seqb_refl. reflexivity.
  - rewrite orth_away by auto. cbn [bind]. assert (Ex : seqb (dotp w x) s0 = false).
    { destruct (seqb (dotp w x) s0) eqn:Q; auto. apply seqb_eq in Q. contradiction. }
    rewrite Ex. cbn [orb]. rewrite inner_product_dot, dot_dotp by now rewrite away_length.
    assert (D : dotp w (away w x) = (dotp w x - dotp w x * sinv (dotp w w) * dotp w w)%S).
    { unfold dotp at 1. rewrite (sum_S_ext _ _ (fun i => sc w i * sc x i - dotp w x * sinv (dotp w w) * (sc w i * sc w i))%S).
      - rewrite sum_S_sub, sum_S_mul. reflexivity.
      - intros i Hi. unfold away, sc at 2. rewrite tab_nth by auto. ring. }
    rewrite D. destruct (seqb (dotp w w) s0) eqn:Q.
    + apply seqb_eq in Q. rewrite Q, sinv_0. destruct (seqb s0 _) eqn:Z; auto. apply seqb_eq in Z. exfalso. apply E.
      rewrite Z. ring.
    + assert (Hww : dotp w w <> s0) by (intros Z; rewrite Z, seqb_refl in Q; discriminate).
      replace (dotp w x - dotp w x * sinv (dotp w w) * dotp w w)%S with s0 by (field; auto). now rewrite seqb_refl.
Qed.

(** the rows of one matrix, then of all of them: row number r takes the draws lo + r * n .. *)
Definition rows_fine rng (w : list Scalar) (lo m : nat) : Prop :=
  (1 <= m -> dotp w w <> s0) /\ forall r, r < m -> dotp w (draw_vec rng (lo + r * length w) (length w)) <> s0.
Definition rows_of rng (w : list Scalar) (lo m : nat) : list (list Scalar) :=
  tab m (fun r => away w (draw_vec rng (lo + r * length w) (length w))).

Lemma helper_rows_eq rng (w : list Scalar) m : forall k g lo,
  (rows_fine rng w lo m -> foldM (fun st _ => helper_row rng w (length w) st) (seq k m) (g, lo) = Ok (g ++ rows_of rng w lo m, lo + m * length w)) /\
  (~ rows_fine rng w lo m -> foldM (fun st _ => helper_row rng w (length w) st) (seq k m) (g, lo) = Panic).
Proof.
  induction m as [|m IH]; intros k g lo.
  - split; [intros _; cbn; now rewrite app_nil_r, Nat.add_0_r|]. intros H. exfalso. apply H. split; intros; lia.
  - cbn [seq foldM]. rewrite helper_row_eq by auto.
    assert (S1 : rows_fine rng w lo (S m) <-> (dotp w (draw_vec rng lo (length w)) <> s0 /\ dotp w w <> s0) /\ rows_fine rng w (lo + length w) m).
    { unfold rows_fine. split.
      - intros [H1 H2]. split; [split|split].
        + specialize (H2 0 ltac:(lia)). now rewrite Nat.mul_0_l, Nat.add_0_r in H2.
        + apply H1. lia.
        + intros _. apply H1. lia.
        + intros r Hr. specialize (H2 (S r) ltac:(lia)). now replace (lo + length w + r * length w) with (lo + S r * length w) by lia.
      - intros [[H1 H2] [H3 H4]]. split; auto. intros [|r] Hr; [now rewrite Nat.mul_0_l, Nat.add_0_r|].
        replace (lo + S r * length w) with (lo + length w + r * length w) by lia. apply H4. lia. }
    destruct (IH (S k) (g ++ [away w (draw_vec rng lo (length w))]) (lo + length w)) as [I1 I2].
    destruct (seqb (dotp w (draw_vec rng lo (length w))) s0 || seqb (dotp w w) s0) eqn:Q.
    + split; intros H; [|reflexivity]. exfalso. apply S1 in H as [[H1 H2] _]. apply orb_true_iff in Q as [Q|Q]; apply seqb_eq in Q; contradiction.
    + apply orb_false_iff in Q as [Q1 Q2].
      assert (N1 : dotp w (draw_vec rng lo (length w)) <> s0) by (intros Z; rewrite Z, seqb_refl in Q1; discriminate).
      assert (N2 : dotp w w <> s0) by (intros Z; rewrite Z, seqb_refl in Q2; discriminate).
      cbn [bind]. split; intros H.
      * rewrite I1 by tauto. do 2 f_equal; [|lia]. unfold rows_of. rewrite tab_S_l, <- app_assoc, Nat.mul_0_l, Nat.add_0_r. cbn [app].
        do 2 f_equal. apply tab_ext. intros r Hr. do 2 f_equal. lia.
      * apply I2. tauto.
Qed.
Lemma rows_fine_dec rng (w : list Scalar) lo m : rows_fine rng w lo m \/ ~ rows_fine rng w lo m.
Proof.
  assert (D : forall k, (forall r, r < k -> dotp w (draw_vec rng (lo + r * length w) (length w)) <> s0) \/
                    ~ (forall r, r < k -> dotp w (draw_vec rng (lo + r * length w) (length w)) <> s0)).
  { induction k as [|k IH]; [left; intros; lia|]. destruct IH as [IH|IH].
    - destruct (S_eq_dec (dotp w (draw_vec rng (lo + k * length w) (length w))) s0) as [Z|Z].
      + right. intros H. apply (H k); auto.
      + left. intros r Hr. destruct (Nat.eq_dec r k) as [->|]; auto. apply IH. lia.
    - right. intros H. apply IH. intros r Hr. apply H. lia. }
  unfold rows_fine. destruct (S_eq_dec (dotp w w) s0) as [Z|Z].
  - destruct m as [|m]; [left; split; intros; lia|]. right. intros [H _]. apply H; auto. lia.
  - destruct (D m) as [Q|Q]; [left; split; auto|right; tauto].
Qed.
Definition mats_of rng (w : list Scalar) (lo num : nat) : list (list (list Scalar)) :=
  tab num (fun k => rows_of rng w (lo + k * (length w * length w)) (length w)).
Lemma helper_mats_eq rng (w : list Scalar) num : forall k bs lo,
  let body := (fun '(bm, pos) (_ : nat) => '(gamma_i, pos) <- foldM (fun st _ => helper_row rng w (length w) st) (seq 0 (length w)) ([], pos) ;;
       Ok (BlockMatrix_push bm gamma_i, pos)) in
  (rows_fine rng w lo (num * length w) ->
   foldM body (seq k num) (mkBlockMatrix bs, lo) = Ok (mkBlockMatrix (bs ++ mats_of rng w lo num), lo + num * (length w * length w))) /\
  (~ rows_fine rng w lo (num * length w) -> foldM body (seq k num) (mkBlockMatrix bs, lo) = Panic).
Proof.
  induction num as [|m IH]; intros k bs lo body.
  - split; [intros _; cbn; now rewrite app_nil_r, Nat.add_0_r|]. intros H. exfalso. apply H. split; intros; cbn in *; lia.
  - cbn [seq foldM]. unfold body at 1 3. cbv beta iota.
    assert (S1 : rows_fine rng w lo (S m * length w) <-> rows_fine rng w lo (length w) /\ rows_fine rng w (lo + length w * length w) (m * length w)).
    { unfold rows_fine. split.
      - intros [H1 H2]. split; split; intros.
        + apply H1. nia.
        + apply H2. nia.
        + apply H1. nia.
        + replace (lo + length w * length w + r * length w) with (lo + (length w + r) * length w) by nia. apply H2. nia.
      - intros [[H1 H2] [H3 H4]]. split.
        + intros H. apply H1. destruct (length w); lia.
        + intros r Hr. destruct (Nat.lt_ge_cases r (length w)) as [Q|Q]; [now apply H2|].
          replace (lo + r * length w) with (lo + length w * length w + (r - length w) * length w) by nia. apply H4. nia. }
    destruct (helper_rows_eq rng w (length w) 0 [] lo) as [R1 R2].
    destruct (IH (S k) (bs ++ [rows_of rng w lo (length w)]) (lo + length w * length w)) as [I1 I2]. fold body in I1, I2.
    split; intros H.
    + apply S1 in H as [H1 H2]. rewrite R1 by auto. cbn [bind app]. unfold BlockMatrix_push. cbn [block]. rewrite I1 by auto.
      do 2 f_equal; [|nia]. f_equal. unfold mats_of. rewrite tab_S_l, <- app_assoc, Nat.mul_0_l, Nat.add_0_r. cbn [app]. do 2 f_equal.
      apply tab_ext. intros r Hr. f_equal. nia.
    + destruct (rows_fine_dec rng w lo (length w)) as [Q|Q].
      * rewrite R1 by auto. cbn [bind app]. unfold BlockMatrix_push. cbn [block]. apply I2. tauto.
      * rewrite R2 by auto. reflexivity.
Qed.


(** the helper returns exactly when the witness is not isotropic and no drawn row is orthogonal to it *)
Theorem C66_helper_outcome rng pos n num :
  let w := drawn_witness rng pos n in
  let fine := 1 <= n /\ (1 <= num -> dotp w w <> s0) /\
              (forall r, r < num * n -> dotp w (draw_vec rng (pos + n + r * n) n) <> s0) in
  (fine -> exists bm, helper_create_solutions rng pos n num = Ok (w, bm, pos + n + num * (n * n))) /\
  (~ fine -> helper_create_solutions rng pos n num = Panic).
Proof.
  intros w fine. unfold helper_create_solutions. cbv zeta. rewrite map_draw_vec.
  destruct n as [|n].
  { split; [intros [H _]; lia|]. reflexivity. }
  rewrite set_first_witness by lia. cbn [bind]. fold w.
  assert (Hw : length w = S n) by apply tab_length.
  destruct (helper_mats_eq rng w num 0 [] (pos + S n)) as [M1 M2]. cbv zeta in M1, M2. rewrite Hw in M1, M2.
  assert (F : fine <-> rows_fine rng w (pos + S n) (num * S n)).
  { unfold fine, rows_fine. rewrite Hw. split.
    - intros (_ & H1 & H2). split; auto. intros H. apply H1. destruct num; lia.
    - intros (H1 & H2). split; [lia|]. split; auto. intros H. apply H1. destruct num; lia. }
  unfold BlockMatrix_new. split; intros H.
  - apply F in H. specialize (M1 H). rewrite M1. cbn [bind]. eauto.
  - rewrite M2 by tauto. reflexivity.
Qed.

Lemma dotp_comm (a b : list Scalar) : length a = length b -> dotp a b = dotp b a.
Proof. intros H. rewrite <- !dot_dotp by auto. apply dot_comm. Qed.
(** what it returns: every row of every matrix vanishes on the witness *)
Theorem C66_helper_rows_vanish rng pos n num w bm pos' :
  helper_create_solutions rng pos n num = Ok (w, bm, pos') ->
  w = drawn_witness rng pos n /\ length w = n /\ sc w 0 = s1 /\
  length (block bm) = num /\ Forall (rect n n) (block bm) /\
  (forall k i, k < num -> i < n -> sum_S n (fun j => ent (nth k (block bm) []) i j * sc w j)%S = s0) /\
  (forall k, k < num -> quad (nth k (block bm) []) w = s0).
Proof.
  intros E. unfold helper_create_solutions in E. cbv zeta in E. rewrite map_draw_vec in E.
  destruct n as [|n]; [discriminate|]. rewrite set_first_witness in E by lia. cbn [bind] in E.
  set (w0 := drawn_witness rng pos (S n)) in *.
  assert (Hw : length w0 = S n) by apply tab_length.
  destruct (helper_mats_eq rng w0 num 0 [] (pos + S n)) as [M1 M2]. cbv zeta in M1, M2. rewrite Hw in M1, M2.
  destruct (rows_fine_dec rng w0 (pos + S n) (num * S n)) as [F|F].
  2:{ unfold BlockMatrix_new in E. rewrite (M2 F) in E. discriminate. }
  unfold BlockMatrix_new in E. rewrite (M1 F) in E. cbn [bind app] in E. injection E as <- <- <-. cbn [block].
  assert (V : forall k i, k < num -> i < S n -> sum_S (S n) (fun j => ent (nth k (mats_of rng w0 (pos + S n) num) []) i j * sc w0 j)%S = s0).
  { intros k i Hk Hi. unfold mats_of, ent. rewrite tab_nth by auto. unfold rows_of. rewrite tab_nth by (rewrite Hw; auto).
    set (x := draw_vec rng _ _). assert (Hx : length x = S n) by (unfold x; now rewrite draw_vec_length).
    transitivity (dotp w0 (away w0 x)).
    - unfold dotp. rewrite Hw. apply sum_S_ext. intros j Hj. ring.
    - apply dotp_away; [lia|]. destruct F as [F _]. apply F. nia. }
  split; [reflexivity|]. split; [auto|]. split; [reflexivity|]. split; [apply tab_length|]. split; [|split; [exact V|]].
  - apply Forall_forall. intros M HM. apply in_map_iff in HM as (k & <- & Hk). rewrite Hw. unfold rows_of. split; [rewrite tab_length; auto|].
    apply Forall_forall. intros row Hrow. apply in_map_iff in Hrow as (r & <- & Hr). now rewrite away_length.
  - intros k Hk. unfold quad. rewrite Hw. apply sum_S_0. intros i Hi.
    rewrite (sum_S_ext _ _ (fun j => sc w0 i * (ent (nth k (mats_of rng w0 (pos + S n) num) []) i j * sc w0 j))%S) by (intros; ring).
    rewrite sum_S_mul, V by auto. ring.
Qed.

Lemma for_each_all {A} (f : A -> res unit) l : (forall x, In x l -> f x = Ok tt) -> for_each f l = Ok tt.
Proof.
  unfold for_each. induction l as [|x l IH]; intros H; [reflexivity|]. cbn [foldM].
  rewrite H by now left. cbn [bind]. apply IH. intros y Hy. apply H. now right.
Qed.
(** so the test of the helper cannot fail once the helper returns *)
Theorem C66_helper_test_outcome rng n num :
  test_helper_solutions rng n num = rmap (fun _ => tt) (helper_create_solutions rng 0 n num).
Proof.
  unfold test_helper_solutions. destruct (helper_create_solutions rng 0 n num) as [[[w bm] p]| |] eqn:E; cbn [bind rmap]; auto.
  apply C66_helper_rows_vanish in E as (_ & Hw & _ & Hl & HF & V & _).
  apply for_each_all. intros M HM. apply (In_nth _ _ []) in HM as (k & Hk & <-). rewrite Hl in Hk.
  assert (Z : dot w (matrix_vector_mul (nth k (block bm) []) w) = s0).
  { rewrite Forall_forall in HF. destruct (HF _ (nth_In (block bm) [] (n := k) ltac:(lia))) as [R1 R2].
    rewrite dot_dotp by (rewrite matrix_vector_mul_length; lia). unfold dotp. apply sum_S_0. intros i Hi. rewrite Hw in Hi.
    unfold sc at 2. rewrite matrix_vector_mul_nth by lia. rewrite Forall_forall in R2.
    rewrite dot_dotp by (rewrite R2; [lia|apply nth_In; lia]). unfold dotp. rewrite R2 by (apply nth_In; lia).
    specialize (V k i Hk Hi). unfold ent in V. rewrite V. ring. }
  rewrite inner_product_dot, Z, seqb_refl. reflexivity.
Qed.

(** the other helper: one constant matrix saying w_1 w_1 = w_3 w_0 *)
Definition g1_witness rng (n : nat) : list Scalar :=
  tab n (fun i => if i =? 0 then s1 else if i =? 1 then s3 else if i =? 3 then s9 else if i =? n - 1 then s0 else rng i).
Definition g1_matrix (n : nat) : list (list Scalar) :=
  mat n n (fun i j => if (i =? 1) && (j =? 1) then s1 else if (i =? 3) && (j =? 0) then (- s1)%S else s0).

Lemma set_entry_mat n f i j v : i < n -> j < n ->
  set_entry (mat n n f) i j v = Ok (mat n n (fun a b => if (a =? i) && (b =? j) then v else f a b)).
Proof.
  intros Hi Hj. unfold set_entry, mat. rewrite (idx_lt _ _ []) by now rewrite tab_length. cbn [bind]. rewrite tab_nth by auto.
  rewrite upd_lt by now rewrite tab_length. cbn [bind]. rewrite upd_lt by now rewrite tab_length. f_equal.
  apply (tab_eq []); [now rewrite set_at_len, tab_length|]. intros a Ha. rewrite set_at_nth, tab_length.
  destruct (Nat.eqb_spec a i) as [->|]; cbn [andb].
  - destruct (Nat.ltb_spec i n); [|lia]. apply (tab_eq s0); [now rewrite set_at_len, tab_length|].
    intros b Hb. rewrite set_at_nth, tab_length. destruct (Nat.eqb_spec b j) as [->|]; cbn [andb]; [destruct (Nat.ltb_spec j n); [auto|lia]|].
    now rewrite tab_nth.
  - rewrite tab_nth by auto. reflexivity.
Qed.
Lemma zero_mat n : repeat (repeat s0 n) n = mat n n (fun _ _ => s0).
Proof.
  unfold mat. apply (tab_eq []); [apply repeat_length|]. intros i Hi. 
  rewrite (nth_indep _ _ (repeat s0 n)) by now rewrite repeat_length. rewrite nth_repeat.
  apply (tab_eq s0); [apply repeat_length|]. intros j Hj. apply nth_repeat.
Qed.
Lemma g1_fold n num : 4 <= n -> forall k bs,
  foldM (fun bm (_ : nat) => gamma_i <- set_entry (repeat (repeat s0 n) n) 1 1 s1 ;; gamma_i <- set_entry gamma_i 3 0 (- s1)%S ;; Ok (BlockMatrix_push bm gamma_i))
    (seq k num) (mkBlockMatrix bs) = Ok (mkBlockMatrix (bs ++ repeat (g1_matrix n) num)).
Proof.
  intros Hn k bs. rewrite (foldM_ext _ (fun bm _ => Ok (BlockMatrix_push bm (g1_matrix n)))).
  - revert k bs. induction num as [|m IH]; intros k bs; [cbn; now rewrite app_nil_r|]. cbn [seq foldM bind]. unfold BlockMatrix_push at 2.
    cbn [block]. rewrite IH. cbn [repeat]. now rewrite <- app_assoc.
  - intros bm i _. rewrite zero_mat, set_entry_mat by lia. cbn [bind]. rewrite set_entry_mat by lia. cbn [bind].
    do 2 f_equal. unfold g1_matrix. apply mat_ext.
    intros a b Ha Hb. destruct (Nat.eqb_spec a 1) as [->|]; cbn [andb]; [|reflexivity]. destruct (Nat.eqb_spec b 1); cbn; auto.
Qed.
Lemma s9_sq : s9 = (s3 * s3)%S.
Proof. unfold s9, s3. ring. Qed.

(** n is the size of the witness: at least five entries are needed, with four the last
    write erases witness[3] *)
Theorem C66_g1_helper_outcome rng n num :
  (5 <= n -> helper_create_solutions_vitalik_g1 rng n num = Ok (g1_witness rng n, mkBlockMatrix (repeat (g1_matrix n) num))) /\
  (n = 4 -> s3 <> s0 -> helper_create_solutions_vitalik_g1 rng n num = Panic) /\
  (n < 4 -> helper_create_solutions_vitalik_g1 rng n num = Panic).
Proof.
  unfold helper_create_solutions_vitalik_g1. cbv zeta. change (map rng (seq 0 n)) with (tab n rng). split; [|split].
  - intros Hn. rewrite !upd_lt by (rewrite ?set_at_len, tab_length; lia). cbn [bind].
    rewrite !upd_lt by (rewrite ?set_at_len, tab_length; lia). cbn [bind].
    rewrite !upd_lt by (rewrite ?set_at_len, tab_length; lia). cbn [bind]. unfold usub. destruct (Nat.leb_spec 1 n); [|lia]. cbn [bind].
    rewrite !upd_lt by (rewrite ?set_at_len, tab_length; lia). cbn [bind].
    assert (E : set_at (set_at (set_at (set_at (tab n rng) 0 s1) 1 s3) 3 s9) (n - 1) s0 = g1_witness rng n).
    { apply (tab_eq s0); [now rewrite !set_at_len, tab_length|]. intros i Hi. rewrite !set_at_nth, !set_at_len, !tab_length, tab_nth by auto.
      destruct (Nat.ltb_spec i n); [|lia]. rewrite !andb_true_r.
      destruct (Nat.eqb_spec i 0), (Nat.eqb_spec i 1), (Nat.eqb_spec i 3), (Nat.eqb_spec i (n - 1)); try lia; reflexivity. }
    rewrite E. rewrite !(idx_lt _ _ s0) by (unfold g1_witness; rewrite tab_length; lia). cbn [bind].
    unfold g1_witness at 1 2 3. rewrite !tab_nth by lia. cbn [Nat.eqb]. rewrite s9_sq, seqb_refl. cbn [assertb bind].
    unfold BlockMatrix_new. rewrite g1_fold by lia. reflexivity.
  - intros -> H3. cbn [tab seq map upd length Nat.ltb Nat.leb set_at bind usub Nat.sub idx nth_error].
    replace (seqb s0 (s3 * s3)%S) with false; [reflexivity|]. symmetry. destruct (seqb s0 (s3 * s3)%S) eqn:Q; auto.
    apply seqb_eq in Q. symmetry in Q. apply smul_eq_0 in Q. tauto.
  - intros Hn. assert (L3 : forall l : list Scalar, length l = n -> upd l 3 s9 = Panic) by (intros l Hl; apply upd_ge; lia).
    destruct (upd (tab n rng) 0 s1) as [l1| |] eqn:E1; cbn [bind]; auto.
    2:{ unfold upd in E1. destruct (_ <? _); discriminate. }
    apply upd_Ok in E1 as [_ ->].
    destruct (upd (set_at (tab n rng) 0 s1) 1 s3) as [l2| |] eqn:E2; cbn [bind]; auto.
    2:{ unfold upd in E2. destruct (_ <? _); discriminate. }
    apply upd_Ok in E2 as [_ ->]. rewrite L3 by now rewrite !set_at_len, tab_length. reflexivity.
Qed.

(** the system it makes is satisfied, and means w_1^2 = w_3 w_0 for every vector *)
Theorem C66_g1_system (w : list Scalar) n : 4 <= n -> length w = n ->
  quad (g1_matrix n) w = (sc w 1 * sc w 1 - sc w 3 * sc w 0)%S.
Proof.
  intros Hn Hw. unfold quad. rewrite Hw.
  assert (E : forall i j, i < n -> j < n -> ent (g1_matrix n) i j = if (i =? 1) && (j =? 1) then s1 else if (i =? 3) && (j =? 0) then (- s1)%S else s0).
  { intros i j Hi Hj. unfold ent, g1_matrix, sc. now rewrite mat_nth. }
  rewrite (sum_S_ext _ _ (fun i => (if i =? 1 then sc w 1 * sc w 1 else s0) + (if i =? 3 then - (sc w 3 * sc w 0) else s0))%S).
  - rewrite sum_S_add, (sum_S_single n 1), (sum_S_single n 3); try lia; [cbn [Nat.eqb]; ring| |].
    + intros j _ Hj. destruct (Nat.eqb_spec j 3); [lia|reflexivity].
    + intros j _ Hj. destruct (Nat.eqb_spec j 1); [lia|reflexivity].
  - intros i Hi. destruct (Nat.eqb_spec i 1) as [->|H1].
    + rewrite (sum_S_single n 1); [|lia|intros j Hj Hne; rewrite E by lia; destruct (Nat.eqb_spec j 1); [lia|]; cbn; ring].
      rewrite E by lia. cbn. ring.
    + destruct (Nat.eqb_spec i 3) as [->|H3].
      * rewrite (sum_S_single n 0); [|lia|intros j Hj Hne; rewrite E by lia; destruct (Nat.eqb_spec j 0); [lia|]; cbn; ring].
        rewrite E by lia. cbn. ring.
      * rewrite sum_S_0; [ring|]. intros j Hj. rewrite E by lia. destruct (Nat.eqb_spec i 1); [lia|]. destruct (Nat.eqb_spec i 3); [lia|]. cbn. ring.
Qed.
Lemma g1_witness_satisfies rng n : 5 <= n -> quad (g1_matrix n) (g1_witness rng n) = s0.
Proof.
  intros Hn. rewrite C66_g1_system by (unfold g1_witness; rewrite ?tab_length; lia). unfold g1_witness, sc. rewrite !tab_nth by lia.
  cbn [Nat.eqb]. rewrite s9_sq. ring.
Qed.
Theorem C66_g1_test_passes rng n num : 5 <= n -> test_helper_solutions_vitalik_g1 rng n num = Ok tt.
Proof.
  intros Hn. unfold test_helper_solutions_vitalik_g1. rewrite (proj1 (C66_g1_helper_outcome rng n num)) by auto. cbn [bind block].
  apply for_each_all. intros M HM. apply repeat_spec in HM as ->. 
  assert (R : rect n n (g1_matrix n)) by apply mat_rect.
  rewrite (matrix_transpose_rect n n) by (auto; lia). cbn [bind].
  assert (Hw : length (g1_witness rng n) = n) by apply tab_length.
  assert (Z : dot (g1_witness rng n) (matrix_vector_mul (mat n n (fun j i => ent (g1_matrix n) i j)) (g1_witness rng n)) = s0).
  { rewrite <- (g1_witness_satisfies rng n Hn). assert (RM := mat_rect n n (fun j i => ent (g1_matrix n) i j)). destruct RM as [R1 R2].
    rewrite dot_dotp by (rewrite matrix_vector_mul_length; lia). unfold dotp, quad. rewrite Hw. rewrite (sum_S_swap n n). apply sum_S_ext.
    intros j Hj. unfold sc at 2. rewrite matrix_vector_mul_nth by lia. rewrite Forall_forall in R2.
    assert (LR : length (nth j (mat n n (fun j i => ent (g1_matrix n) i j)) []) = n) by (apply R2, nth_In; lia).
    rewrite dot_dotp by lia. unfold dotp. rewrite LR, <- sum_S_mul. apply sum_S_ext. intros i Hi.
    unfold sc at 2. rewrite mat_nth by auto. ring. }
  rewrite inner_product_dot, Z, seqb_refl. reflexivity.
Qed.

(** the proof tests: when the prover returns and none of the exceptional values occurs they pass *)
Definition exceptional (ro : oracle) rng pos tr (G H : list Point) (Q : Point) Ms (w r' : list Scalar) (pf : Inner) : Prop :=
  let n := length G in
  let x := q_x ro tr pf in
  let a := q_a n w r' (q_s ro tr pf) (q_b ro tr pf) in
  let b := q_bv n Ms x w r' (q_s ro tr pf) (q_b ro tr pf) in
  x = s0 \/ ro (q_alpha_hist ro tr pf G H Q Ms) = s0 \/ dotp a a = s0 \/ dotp b b = s0 \/
  (exists r p ob, sample_gram_schmidt rng pos b = Ok (r, p) /\ orth a r = Ok ob /\ dotp ob ob = s0).
Lemma accepted_or_exceptional ro rng pos tr (G H : list Point) Q Ms w r' pf tr' pos' n :
  3 <= n -> length G = n -> length H = n -> length w = n - 2 -> length r' = 2 -> 1 <= length Ms -> Forall (rect (n - 2) (n - 2)) Ms ->
  sc w 0 = s1 -> (forall i, i < length Ms -> quad (nth i Ms []) w = s0) ->
  inner_create ro rng pos tr G H Q (mkBlockMatrix Ms) w r' = Ok (pf, tr', pos') ->
  ~ exceptional ro rng pos tr G H Q Ms w r' pf ->
  inner_verify ro tr pf G H Q (mkBlockMatrix Ms) = Ok (true, tr').
Proof.
  intros Hn HG HH Hw Hr HM HF H0 Hsat E Hex. unfold exceptional in Hex. rewrite HG in Hex. cbv zeta in Hex.
  eapply C22_qesa_inner_completeness; eauto; try (intros Z; apply Hex; tauto).
  intros r p ob H1 H2 Z. apply Hex. right. right. right. right. eauto 10.
Qed.

Theorem C66_inner_proof_test_passes (ro : oracle) rng tr (G H : list Point) (Q : Point) num n :
  3 <= n -> 1 <= num -> length G = n -> length H = n ->
  (exists w bm pos pf tr' pos', helper_create_solutions rng 0 (n - 2) num = Ok (w, bm, pos) /\
     inner_create ro rng (pos + 2) tr G H Q bm w [rng pos; rng (pos + 1)] = Ok (pf, tr', pos') /\
     ~ exceptional ro rng (pos + 2) tr G H Q (block bm) w [rng pos; rng (pos + 1)] pf) ->
  test_create_qesa_inner_proof ro rng tr G H Q num = Ok tt.
Proof.
  intros Hn Hnum HG HH (w & [Ms] & pos & pf & tr' & pos' & EH & EC & Hex). unfold test_create_qesa_inner_proof.
  unfold usub. destruct (Nat.leb_spec 2 (length G)) as [_|]; [|lia]. cbn [bind]. rewrite HG, EH. cbn [bind]. rewrite EC. cbn [bind block] in *.
  apply C66_helper_rows_vanish in EH as (_ & Hw & H0 & Hl & HF & _ & Hq). cbn [block] in *.
  rewrite (accepted_or_exceptional ro rng (pos + 2) tr G H Q Ms w [rng pos; rng (pos + 1)] pf tr' pos' n); auto; try lia.
  intros i Hi. apply Hq. lia.
Qed.
Theorem C66_g1_proof_test_passes (ro : oracle) rng tr (G H : list Point) (Q : Point) num n :
  7 <= n -> 1 <= num -> length G = n -> length H = n ->
  let w := g1_witness rng (n - 2) in
  let Ms := repeat (g1_matrix (n - 2)) num in
  let r' := [rng (n - 2); rng (n - 2 + 1)] in
  (exists pf tr' pos', inner_create ro rng (n - 2 + 2) tr G H Q (mkBlockMatrix Ms) w r' = Ok (pf, tr', pos') /\
     ~ exceptional ro rng (n - 2 + 2) tr G H Q Ms w r' pf) ->
  test_create_qesa_inner_proof_vitalik_g1 ro rng tr G H Q num = Ok tt.
Proof.
  intros Hn Hnum HG HH w Ms r' (pf & tr' & pos' & EC & Hex). unfold test_create_qesa_inner_proof_vitalik_g1.
  unfold usub. destruct (Nat.leb_spec 2 (length G)) as [_|]; [|lia]. cbn [bind]. rewrite HG, (proj1 (C66_g1_helper_outcome rng (n - 2) num)) by lia.
  cbn [bind]. fold w Ms r'. rewrite EC. cbn [bind].
  assert (R : rect (n - 2) (n - 2) (g1_matrix (n - 2))) by apply mat_rect.
  rewrite (accepted_or_exceptional ro rng (n - 2 + 2) tr G H Q Ms w r' pf tr' pos' n); auto; try lia.
  - apply tab_length.
  - unfold Ms. rewrite repeat_length. auto.
  - unfold Ms. apply Forall_forall. intros M HM. apply repeat_spec in HM as ->. exact R.
  - unfold w, g1_witness, sc. rewrite tab_nth by lia. reflexivity.
  - intros i Hi. unfold Ms in *. rewrite repeat_length in Hi.
    rewrite (nth_indep _ _ (g1_matrix (n - 2))) by now rewrite repeat_length. rewrite nth_repeat. apply g1_witness_satisfies. lia.
Qed.
End C66.

Section C66case.
Let rng66 (i : nat) : @Scalar FS := fN (Z.of_nat (i * i + 3)).
Let G8' : list (@Point FS) := map (fun i => qN (Z.of_nat (7 * i + 1))) (seq 0 8).
Let H8' : list (@Point FS) := map (fun i => qN (Z.of_nat (11 * i + 5))) (seq 0 8).
Let ro66 (tr : @transcript FS) : @Scalar FS := fN (Z.of_nat (length tr) * 7 + 2).
(** the two tests on one tape each, the helpers, and the four-entry witness *)
Example C66_case :
  rmap (fun '(w, bm, pos) => (map zf w, length (block bm), pos)) (helper_create_solutions rng66 0 2 2) = Ok ([1; 4]%Z, 2, 10) /\
  rmap (fun '(w, bm, pos) => map (map (fun r => negb (forallb (fun x => zf x =? 0)%Z r))) (block bm)) (helper_create_solutions rng66 0 2 2)
    = Ok [[true; true]; [true; true]] /\
  test_helper_solutions rng66 12 3 = Ok tt /\
  test_helper_solutions rng66 0 3 = Panic /\
  test_helper_solutions (fun i => fN (if i <? 12 then 1 else 0)) 12 3 = Panic /\
  rmap (fun '(w, bm) => map zf w) (helper_create_solutions_vitalik_g1 rng66 6 2) = Ok [1; 3; 7; 9; 19; 0]%Z /\
  rmap (fun _ => tt) (helper_create_solutions_vitalik_g1 rng66 4 2) = Panic /\
  rmap (fun _ => tt) (helper_create_solutions_vitalik_g1 rng66 3 2) = Panic /\
  test_helper_solutions_vitalik_g1 rng66 6 1 = Ok tt /\
  test_create_qesa_inner_proof ro66 rng66 [] (firstn 4 G8') (firstn 4 H8') (qN 17) 2 = Ok tt /\
  test_create_qesa_inner_proof_vitalik_g1 ro66 rng66 [] G8' H8' (qN 17) 2 = Ok tt /\
  test_create_qesa_inner_proof ro66 rng66 [] (firstn 3 (firstn 4 G8')) (firstn 3 (firstn 4 H8')) (qN 17) 2 = Panic.
Proof. vm_compute. repeat split. Qed.
End C66case.
