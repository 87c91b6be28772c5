(** Closed forms of the functions of math_utils.rs and matrix.rs. *)
From Verif Require Export Vec Matrix.

Section Tab.
Context {T : Type}.
Lemma tab_length n (f : nat -> T) : length (tab n f) = n.
Proof. unfold tab. now rewrite map_length, seq_length. Qed.
Lemma tab_nth n (f : nat -> T) i d : i < n -> nth i (tab n f) d = f i.
Proof.
  intros H. unfold tab. rewrite (nth_indep _ d (f 0)) by now rewrite map_length, seq_length.
  rewrite map_nth. now rewrite seq_nth.
Qed.
Lemma tab_ext n (f g : nat -> T) : (forall i, i < n -> f i = g i) -> tab n f = tab n g.
Proof. intros H. apply map_ext_in. intros i Hi. apply in_seq in Hi. apply H. lia. Qed.
Lemma tab_S n (f : nat -> T) : tab (S n) f = tab n f ++ [f n].
Proof. unfold tab. rewrite seq_S, map_app. reflexivity. Qed.
Lemma tab_S_l n (f : nat -> T) : tab (S n) f = f 0 :: tab n (fun i => f (S i)).
Proof. unfold tab. cbn. f_equal. now rewrite <- seq_shift, map_map. Qed.
Lemma tab_eta (d : T) l : tab (length l) (fun i => nth i l d) = l.
Proof.
  apply (list_eq_nth d).
  - apply tab_length.
  - intros i Hi. rewrite tab_length in Hi. now rewrite tab_nth.
Qed.
Lemma tab_eq (d : T) l n (f : nat -> T) :
  length l = n -> (forall i, i < n -> nth i l d = f i) -> l = tab n f.
Proof.
  intros Hl H. apply (list_eq_nth d); [now rewrite tab_length|].
  intros i Hi. rewrite Hl in Hi. rewrite H, tab_nth; auto.
Qed.
Lemma map_tab {X} (g : T -> X) n f : map g (tab n f) = tab n (fun i => g (f i)).
Proof. unfold tab. now rewrite map_map. Qed.
End Tab.
Lemma map2_tab {A B X} (g : A -> B -> X) n f1 f2 :
  map2 g (tab n f1) (tab n f2) = tab n (fun i => g (f1 i) (f2 i)).
Proof.
  unfold tab. generalize (seq 0 n) as l. induction l as [|a l IH]; cbn; auto. now rewrite IH.
Qed.

Section Mat.
Context {T : Type}.
Lemma mat_rect r c (f : nat -> nat -> T) : rect r c (mat r c f).
Proof.
  split; [apply tab_length|]. apply Forall_forall. intros row H.
  unfold mat, tab in H. apply in_map_iff in H as [i [<- _]]. apply tab_length.
Qed.
Lemma rect_row r c (M : list (list T)) i : rect r c M -> i < r -> length (nth i M []) = c.
Proof.
  intros [H1 H2] Hi. rewrite Forall_forall in H2. apply H2. apply nth_In. lia.
Qed.
Lemma mat_nth r c (f : nat -> nat -> T) i j d : i < r -> j < c -> nth j (nth i (mat r c f) []) d = f i j.
Proof. intros Hi Hj. unfold mat. now rewrite tab_nth, tab_nth. Qed.
Lemma mat_ext r c (f g : nat -> nat -> T) :
  (forall i j, i < r -> j < c -> f i j = g i j) -> mat r c f = mat r c g.
Proof. intros H. apply tab_ext. intros i Hi. apply tab_ext. auto. Qed.
Lemma mat_eta d r c (M : list (list T)) : rect r c M ->
  M = mat r c (fun i j => nth j (nth i M []) d).
Proof.
  intros HM. apply (tab_eq []); [apply HM|]. intros i Hi.
  apply (tab_eq d); auto. now apply (rect_row r c).
Qed.
End Mat.

(** ** powers *)
Section Powers.
Context {T : Type} (mul : T -> T -> T).
Definition gpow (one x : T) (k : nat) : T := Nat.iter k (fun c => mul c x) one.
Lemma powers_loop (one x : T) m :
  foldM (fun challenges i => c <- idx challenges i ;; Ok (challenges ++ [mul c x])) (seq 0 m) [one]
  = Ok (tab (S m) (gpow one x)).
Proof.
  induction m as [|m IH]; [reflexivity|].
  rewrite seq_S, foldM_app, IH. cbn [bind foldM Nat.add].
  rewrite (idx_lt _ _ one) by (rewrite tab_length; lia).
  cbn [bind]. f_equal. rewrite (tab_S (S m)). f_equal. rewrite tab_nth by lia. reflexivity.
Qed.
End Powers.

(** ** transpose *)
Section Transpose.
Context {T : Type}.
Definition snoc {X} (l : list X) (x : X) : list X := l ++ [x].

Lemma push_loop (row : list T) : forall k T1 T2,
  length T1 = k -> length row <= length T2 ->
  foldM transpose_push (combine (seq k (length row)) row) (T1 ++ T2) =
  Ok (T1 ++ map2 snoc T2 row ++ skipn (length row) T2).
Proof.
  induction row as [|e row IH]; intros k T1 T2 HT1 HT2; cbn.
  - now rewrite map2_nil_r.
  - destruct T2 as [|t T2]; cbn in HT2; [lia|].
    rewrite (idx_lt _ _ []) by (rewrite app_length; cbn; lia). cbn [bind].
    rewrite app_nth2 by lia. rewrite HT1, Nat.sub_diag. cbn [nth].
    rewrite upd_lt by (rewrite app_length; cbn; lia). cbn [bind].
    replace k with (length T1 + 0) at 2 by lia. rewrite set_at_app_r. cbn [set_at].
    replace (T1 ++ (t ++ [e]) :: T2) with ((T1 ++ [t ++ [e]]) ++ T2) by now rewrite <- app_assoc.
    rewrite IH; [|rewrite app_length; cbn; lia|lia].
    f_equal. rewrite <- app_assoc. reflexivity.
Qed.
Lemma push_loop_panic (row : list T) : forall k T1 T2,
  length T1 = k -> length T2 < length row ->
  foldM transpose_push (combine (seq k (length row)) row) (T1 ++ T2) = Panic.
Proof.
  induction row as [|e row IH]; intros k T1 T2 HT1 HT2; cbn in *; [lia|].
  destruct T2 as [|t T2]; cbn in HT2.
  - rewrite idx_ge by (rewrite app_length; cbn; lia). reflexivity.
  - rewrite (idx_lt _ _ []) by (rewrite app_length; cbn; lia). cbn [bind].
    rewrite app_nth2 by lia. rewrite HT1, Nat.sub_diag. cbn [nth].
    rewrite upd_lt by (rewrite app_length; cbn; lia). cbn [bind].
    replace k with (length T1 + 0) at 2 by lia. rewrite set_at_app_r. cbn [set_at].
    replace (T1 ++ (t ++ [e]) :: T2) with ((T1 ++ [t ++ [e]]) ++ T2) by now rewrite <- app_assoc.
    apply IH; [rewrite app_length; cbn; lia|lia].
Qed.

Lemma push_row (row : list T) cols : length row <= length cols ->
  foldM transpose_push (enumerate row) cols = Ok (map2 snoc cols row ++ skipn (length row) cols).
Proof. intros H. exact (push_loop row 0 [] cols eq_refl H). Qed.
Lemma push_row_panic (row : list T) cols : length cols < length row ->
  foldM transpose_push (enumerate row) cols = Panic.
Proof. intros H. exact (push_loop_panic row 0 [] cols eq_refl H). Qed.

Lemma transpose_loop_rect c (M : list (list T)) d : forall cols k,
  length cols = c -> Forall (fun row => length row = c) M ->
  Forall (fun col => length col = k) cols ->
  transpose_loop M cols =
  Ok (tab c (fun j => nth j cols [] ++ tab (length M) (fun i => nth j (nth i M []) d))).
Proof.
  unfold transpose_loop. induction M as [|row M IH]; intros cols k Hc HM Hk.
  - cbn. f_equal. apply (tab_eq []); auto. intros. now rewrite app_nil_r.
  - inversion HM as [|? ? Hrow HM']; subst. cbn [foldM].
    rewrite push_row by lia. cbn [bind].
    rewrite skipn_all2 by lia. rewrite app_nil_r.
    rewrite (IH _ (S k)).
    + f_equal. apply tab_ext. intros j Hj.
      rewrite (map2_nth _ _ _ _ [] d) by lia. unfold snoc.
      rewrite <- app_assoc. cbn [length]. rewrite tab_S_l. reflexivity.
    + rewrite map2_length. lia.
    + exact HM'.
    + clear -Hk. revert row. induction Hk as [|col cols E Hk IH]; intros [|e row]; cbn; constructor; auto.
      unfold snoc. rewrite app_length; cbn; lia.
Qed.
Lemma transpose_loop_not_Diverge (M cols : list (list T)) : transpose_loop M cols <> Diverge.
Proof.
  apply foldM_not_Diverge. intros a row _. apply foldM_not_Diverge.
  intros a' [i e] _. cbn. destruct (idx_cases a' i) as [[x ->]| ->]; cbn; [|congruence].
  unfold upd. now destruct (i <? length a').
Qed.
Lemma transpose_loop_panic (M cols : list (list T)) :
  transpose_loop M cols = Panic <-> Exists (fun row => length cols < length row) M.
Proof.
  unfold transpose_loop. revert cols. induction M as [|row M IH]; intros cols; cbn [foldM].
  - split; [discriminate|]. intros H; inversion H.
  - destruct (Nat.le_gt_cases (length row) (length cols)) as [Hle|Hgt].
    + rewrite push_row by lia. cbn [bind].
      rewrite IH. rewrite app_length, map2_length, skipn_length.
      replace (Init.Nat.min (length cols) (length row) + (length cols - length row))
        with (length cols) by lia.
      split; [now right|]. intros H; inversion H; subst; auto. lia.
    + rewrite push_row_panic by lia. cbn.
      split; auto. 
Qed.
End Transpose.

(** ** scalar multiplication, addition *)
Section MF.
Context {C : Crypto} {L : CryptoLaws C}.
Add Field SfieldMF : (@S_field C L).

Lemma gpow_spow e x k : gpow smul e x k = (e * spow x k)%S.
Proof.
  induction k as [|k IH]; [cbn; ring|].
  change (gpow smul e x (S k)) with (gpow smul e x k * x)%S. rewrite IH. cbn. ring.
Qed.

Definition powers (x : Scalar) (n : nat) : list Scalar := tab n (fun i => spow x (S i)).
Definition powers0 (x : Scalar) (n : nat) : list Scalar := tab n (fun i => spow x i).

Lemma vandemonde_challenge_eq x n : 1 <= n -> vandemonde_challenge x n = Ok (powers x n).
Proof.
  intros H. unfold vandemonde_challenge. rewrite usub_le by lia. cbn [bind].
  rewrite powers_loop. replace (S (n - 1)) with n by lia. f_equal.
  apply tab_ext. intros i _. rewrite gpow_spow. cbn. ring.
Qed.
Lemma vandemonde_vector_eq x n : 1 <= n -> vandemonde_vector x n = Ok (powers0 x n).
Proof.
  intros H. unfold vandemonde_vector. rewrite usub_le by lia. cbn [bind].
  rewrite powers_loop. replace (S (n - 1)) with n by lia. f_equal.
  apply tab_ext. intros i _. rewrite gpow_spow. ring.
Qed.
Lemma vandemonde_challenge_Ok_inv x n v : vandemonde_challenge x n = Ok v -> 1 <= n /\ v = powers x n.
Proof.
  intros H. destruct n as [|n]; [discriminate|].
  rewrite vandemonde_challenge_eq in H by lia. split; [lia|]. congruence.
Qed.
Lemma vandemonde_challenge_0 x : vandemonde_challenge x 0 = Panic.
Proof. reflexivity. Qed.
Lemma vandemonde_vector_0 x : vandemonde_vector x 0 = Panic.
Proof. reflexivity. Qed.
Lemma powers_length x n : length (powers x n) = n.
Proof. apply tab_length. Qed.
Lemma powers0_length x n : length (powers0 x n) = n.
Proof. apply tab_length. Qed.
Lemma powers_nth x n i : i < n -> sc (powers x n) i = spow x (S i).
Proof. intros H. unfold sc, powers. now rewrite tab_nth. Qed.
Lemma powers0_nth x n i : i < n -> sc (powers0 x n) i = spow x i.
Proof. intros H. unfold sc, powers0. now rewrite tab_nth. Qed.

Lemma matrix_vector_mul_nth M v i : i < length M ->
  nth i (matrix_vector_mul M v) s0 = dot (nth i M []) v.
Proof.
  intros H. unfold matrix_vector_mul.
  rewrite (nth_indep _ s0 (inner_product [] v)) by now rewrite map_length.
  rewrite (map_nth (fun row => inner_product row v)). apply inner_product_dot.
Qed.
Lemma matrix_vector_mul_length M v : length (matrix_vector_mul M v) = length M.
Proof. apply map_length. Qed.
Lemma mp_row row vec : fold_left padd (map2 (fun a b => (b *: a)%P) row vec) p0 = lin vec row.
Proof.
  rewrite <- psum_lin. unfold psum. f_equal. rewrite map2_swap. apply map2_ext. reflexivity.
Qed.
Lemma matrixpoint_vector_mul_eq M v : matrixpoint_vector_mul M v = map (fun row => lin v row) M.
Proof. unfold matrixpoint_vector_mul. apply map_ext. intros row. apply mp_row. Qed.
Lemma matrixpoint_vector_mul_nth M v i : i < length M ->
  nth i (matrixpoint_vector_mul M v) p0 = lin v (nth i M []).
Proof.
  intros H. rewrite matrixpoint_vector_mul_eq.
  rewrite (nth_indep _ p0 (lin v [])) by now rewrite map_length.
  now rewrite (map_nth (fun row => lin v row)).
Qed.

Lemma row_row_sub_Ok a b : length a = length b -> row_row_sub a b = Ok (map2 ssub a b).
Proof. intros H. unfold row_row_sub. now rewrite H, Nat.eqb_refl. Qed.
Lemma row_row_add_Ok a b : length a = length b -> row_row_add a b = Ok (map2 sadd a b).
Proof. intros H. unfold row_row_add. now rewrite H, Nat.eqb_refl. Qed.

Lemma matrix_transpose_rect r c M : rect r c M -> 1 <= r ->
  matrix_transpose M = Ok (mat c r (fun j i => ent M i j)).
Proof.
  intros [HM1 HM2] Hr. unfold matrix_transpose.
  rewrite (idx_lt _ _ []) by lia. cbn [bind].
  assert (H0 : length (nth 0 M []) = c) by (apply (rect_row r c); [split; auto|lia]).
  rewrite H0.
  rewrite (transpose_loop_rect c M s0 _ 0); auto.
  - f_equal. unfold mat. rewrite HM1. apply tab_ext. intros j Hj.
    rewrite nth_repeat. cbn. apply tab_ext. reflexivity.
  - apply repeat_length.
  - apply Forall_forall. intros x Hx. apply repeat_spec in Hx. now subst.
Qed.
Lemma matrixpoint_transpose_rect r c M : rect r c M -> 1 <= r ->
  matrixpoint_transpose M = Ok (mat c r (fun j i => pent M i j)).
Proof.
  intros [HM1 HM2] Hr. unfold matrixpoint_transpose.
  destruct (Nat.ltb_spec 0 (length M)) as [_|]; [|lia]. cbn [assertb bind].
  rewrite (idx_lt _ _ []) by lia. cbn [bind].
  assert (H0 : length (nth 0 M []) = c) by (apply (rect_row r c); [split; auto|lia]).
  rewrite H0.
  rewrite (transpose_loop_rect c M p0 _ 0); auto.
  - f_equal. unfold mat. rewrite HM1. apply tab_ext. intros j Hj.
    rewrite nth_repeat. cbn. apply tab_ext. reflexivity.
  - apply repeat_length.
  - apply Forall_forall. intros x Hx. apply repeat_spec in Hx. now subst.
Qed.
End MF.

(** ** entrywise operations *)
Section Entrywise.
Context {T : Type} (add : T -> T -> T) (d : T).

Lemma rra_spec a b c : row_row_add_general add a b = Ok c <->
  length a = length b /\ length c = length a /\
  forall i, i < length a -> nth i c d = add (nth i a d) (nth i b d).
Proof.
  unfold row_row_add_general. destruct (Nat.eqb_spec (length a) (length b)) as [E|E]; cbn.
  - split.
    + intros H. inversion H; subst. split; [auto|]. split; [now apply map2_length_eq|].
      intros i Hi. apply map2_nth; lia.
    + intros [_ [Hl H]]. f_equal. apply (list_eq_nth d).
      * rewrite map2_length_eq; auto.
      * intros i Hi. rewrite map2_length_eq in Hi by auto. rewrite H by auto.
        apply map2_nth; lia.
  - split; [discriminate|]. intros [H _]; contradiction.
Qed.
Lemma rra_panic a b : length a <> length b <-> row_row_add_general add a b = Panic.
Proof.
  unfold row_row_add_general. destruct (Nat.eqb_spec (length a) (length b)); cbn; split; congruence.
Qed.

Definition same_shape (A B : list (list T)) : Prop :=
  length A = length B /\ forall i, i < length A -> length (nth i A []) = length (nth i B []).

Lemma mma_map2 A B : same_shape A B ->
  matrix_matrix_add_general add A B = Ok (map2 (map2 add) A B).
Proof.
  intros [H1 H2]. unfold matrix_matrix_add_general. rewrite H1, Nat.eqb_refl. cbn.
  apply map2M_map2. intros a b Hin. apply In_nth_error in Hin as [i Hi].
  assert (Hl : i < length (combine A B)) by (apply nth_error_Some; congruence).
  rewrite combine_length in Hl.
  apply nth_error_nth with (d := ([], [])) in Hi. rewrite combine_nth in Hi by auto.
  inversion Hi; subst. unfold row_row_add_general.
  rewrite H2 by lia. now rewrite Nat.eqb_refl.
Qed.
Lemma mma_spec A B M : matrix_matrix_add_general add A B = Ok M <->
  same_shape A B /\ same_shape A M /\
  forall i j, i < length A -> j < length (nth i A []) ->
    nth j (nth i M []) d = add (nth j (nth i A []) d) (nth j (nth i B []) d).
Proof.
  split.
  - intros H. assert (HS : same_shape A B).
    { unfold matrix_matrix_add_general in H.
      destruct (Nat.eqb_spec (length A) (length B)) as [E|E]; cbn in H; [|discriminate].
      split; auto. intros i Hi.
      destruct (map2M_Ok_Forall _ _ _ _ H (nth i A []) (nth i B [])) as [x Hx].
      - rewrite <- (combine_nth A B i [] []) by auto. apply nth_In. rewrite combine_length. lia.
      - destruct (Nat.eq_dec (length (nth i A [])) (length (nth i B []))); auto.
        apply rra_panic in n. congruence. }
    rewrite mma_map2 in H by auto. inversion H; subst. destruct HS as [H1 H2].
    split; [now split|]. split.
    + split; [now rewrite map2_length_eq|]. intros i Hi. rewrite (map2_nth _ _ _ _ [] []) by lia.
      rewrite map2_length_eq; auto.
    + intros i j Hi Hj. rewrite (map2_nth _ _ _ _ [] []) by lia.
      apply map2_nth; auto. rewrite <- H2; auto.
  - intros [HS [[H1 H2] H3]]. rewrite mma_map2 by auto. destruct HS as [H4 H5]. f_equal.
    apply (list_eq_nth []); [rewrite map2_length_eq; auto|].
    intros i Hi. rewrite map2_length_eq in Hi by auto. rewrite (map2_nth _ _ _ _ [] []) by lia.
    apply (list_eq_nth d); [rewrite map2_length_eq; auto|].
    intros j Hj. rewrite map2_length_eq in Hj by auto. rewrite H3 by auto.
    apply map2_nth; auto. rewrite <- H5; auto.
Qed.
Lemma mma_panic A B : ~ same_shape A B <-> matrix_matrix_add_general add A B = Panic.
Proof.
  split.
  - intros H. destruct (matrix_matrix_add_general add A B) eqn:E; auto.
    + exfalso. apply H. now apply mma_spec in E.
    + exfalso. revert E. unfold matrix_matrix_add_general.
      destruct (Nat.eqb_spec (length A) (length B)) as [E|E]; cbn; [|discriminate].
      clear H E. revert B. induction A as [|a A IH]; intros [|b B]; cbn; try discriminate.
      unfold row_row_add_general at 1. destruct (length a =? length b); cbn; [|discriminate].
      destruct (map2M _ A B) eqn:E; cbn; try discriminate. intros _. now apply (IH B).
  - intros H HS. rewrite mma_map2 in H by auto. discriminate.
Qed.
End Entrywise.

(** ** chunks and matrix_split *)
Section Split.
Context {T : Type}.
Lemma chunks_aux_eq c q : 1 <= c -> forall fuel (l : list T),
  q <= fuel -> length l = q * c ->
  chunks_aux fuel c l = tab q (fun p => firstn c (skipn (p * c) l)).
Proof.
  intros Hc. induction q as [|q IH]; intros fuel l Hf Hl.
  - destruct l; [|cbn in Hl; lia]. destruct fuel; reflexivity.
  - destruct fuel as [|fuel]; [lia|]. cbn [chunks_aux].
    destruct l as [|e l]; [cbn in Hl; nia|].
    rewrite tab_S_l. cbn [Nat.mul skipn]. f_equal.
    rewrite IH; [|lia|rewrite skipn_length; rewrite Hl; lia].
    apply tab_ext. intros p _. f_equal. rewrite skipn_skipn. f_equal. lia.
Qed.
Lemma chunks_eq c q (l : list T) : 1 <= c -> length l = q * c ->
  chunks c l = tab q (fun p => firstn c (skipn (p * c) l)).
Proof. intros Hc Hl. unfold chunks. apply chunks_aux_eq; nia. Qed.

Definition part_of (M : list (list T)) (c p : nat) : list (list T) :=
  map (fun row => firstn c (skipn (p * c) row)) M.

Lemma matrix_split_eq m c q (M : list (list T)) :
  rect m (q * c) M -> 1 <= m -> 1 <= c ->
  matrix_split M c = Ok (tab q (part_of M c)).
Proof.
  intros HM Hm Hc. assert (HM' := HM). destruct HM as [HM1 HM2]. unfold matrix_split.
  destruct (Nat.ltb_spec 0 (length M)) as [_|]; [|lia]. cbn [assertb bind].
  rewrite (idx_lt _ _ []) by lia. cbn [bind].
  rewrite (rect_row m (q * c)) by (auto; lia).
  unfold urem, udiv. destruct (Nat.eqb_spec c 0) as [|_]; [lia|]. cbn [bind].
  rewrite Nat.mod_mul by lia. cbn [Nat.eqb assertb bind]. rewrite Nat.div_mul by lia.
  transitivity (transpose_loop (map (chunks c) M) (repeat [] q)).
  { unfold transpose_loop. rewrite foldM_map. reflexivity. }
  rewrite (transpose_loop_rect q _ [] _ 0).
  - f_equal. apply tab_ext. intros p Hp. rewrite nth_repeat. cbn [app].
    rewrite map_length. unfold part_of. symmetry. apply (tab_eq []); [now rewrite map_length|].
    intros i Hi. rewrite (nth_indep _ [] (firstn c (skipn (p * c) []))) by now rewrite map_length.
    rewrite (map_nth (fun row => firstn c (skipn (p * c) row))).
    rewrite (nth_indep _ [] (chunks c [])) by now rewrite map_length.
    rewrite map_nth.
    rewrite (chunks_eq c q); auto.
    + now rewrite tab_nth.
    + apply (rect_row m (q * c)); auto. lia.
  - apply repeat_length.
  - apply Forall_forall. intros x Hx. apply in_map_iff in Hx as [row [<- Hr]].
    rewrite Forall_forall in HM2. rewrite (chunks_eq c q); auto. apply tab_length.
  - apply Forall_forall. intros x Hx. apply repeat_spec in Hx. now subst.
Qed.
Lemma part_of_rect m c q p (M : list (list T)) : rect m (q * c) M -> p < q -> rect m c (part_of M c p).
Proof.
  intros [H1 H2] Hp. split; [unfold part_of; now rewrite map_length|].
  apply Forall_forall. intros x Hx. apply in_map_iff in Hx as [row [<- Hr]].
  rewrite Forall_forall in H2. rewrite firstn_length, skipn_length, H2 by auto. nia.
Qed.
Lemma concat_chunks c q : forall (l : list T), length l = q * c ->
  concat (tab q (fun p => firstn c (skipn (p * c) l))) = l.
Proof.
  induction q as [|q IH]; intros l Hl.
  - destruct l; [reflexivity|cbn in Hl; lia].
  - rewrite tab_S_l. cbn [concat Nat.mul skipn].
    rewrite (tab_ext _ _ (fun p => firstn c (skipn (p * c) (skipn c l)))).
    + rewrite IH by (rewrite skipn_length, Hl; lia). apply firstn_skipn.
    + intros p _. rewrite skipn_skipn. f_equal. f_equal. lia.
Qed.
Lemma part_of_concat m c q i (M : list (list T)) : rect m (q * c) M -> i < m ->
  concat (tab q (fun p => nth i (part_of M c p) [])) = nth i M [].
Proof.
  intros HM Hi. destruct HM as [HM1 HM2] eqn:E. rewrite <- (concat_chunks c q (nth i M [])).
  - f_equal. apply tab_ext. intros p Hp. unfold part_of.
    rewrite (nth_indep _ [] (firstn c (skipn (p * c) []))) by (rewrite map_length; lia).
    now rewrite (map_nth (fun row => firstn c (skipn (p * c) row))).
  - apply (rect_row m (q * c)); auto.
Qed.
End Split.

(** ** batching *)
Section Batch.
Context {C : Crypto} {L : CryptoLaws C}.
Add Field SfieldB : (@S_field C L).

Lemma matrix_scalar_mul_mat r c M x : rect r c M ->
  matrix_scalar_mul M x = mat r c (fun i j => x * ent M i j)%S.
Proof.
  intros HM. rewrite (mat_eta s0 r c M HM) at 1. unfold matrix_scalar_mul, mat.
  rewrite map_tab. apply tab_ext. intros i Hi. rewrite map_tab. apply tab_ext. intros j Hj.
  unfold ent, sc. ring.
Qed.
Lemma matrix_matrix_add_mat r c f g :
  matrix_matrix_add (mat r c f) (mat r c g) = Ok (mat r c (fun i j => f i j + g i j)%S).
Proof.
  change (@matrix_matrix_add C) with (matrix_matrix_add_general sadd). rewrite mma_map2.
  - f_equal. unfold mat. rewrite map2_tab. apply tab_ext. intros i Hi. apply map2_tab.
  - split; unfold mat; rewrite !tab_length; auto. intros i Hi.
    rewrite !tab_nth by auto. now rewrite !tab_length.
Qed.
Lemma batch_loop r c (f : nat -> nat -> nat -> Scalar) N : 1 <= N ->
  foldM (fun sum_block i => m <- idx (tab N (fun t => mat r c (f t))) i ;; matrix_matrix_add sum_block m)
    (seq 1 (N - 1)) (mat r c (f 0)) = Ok (mat r c (fun i j => sum_S N (fun t => f t i j))).
Proof.
  intros HN. enough (H : forall m, m < N ->
    foldM (fun sum_block i => m <- idx (tab N (fun t => mat r c (f t))) i ;; matrix_matrix_add sum_block m)
    (seq 1 m) (mat r c (f 0)) = Ok (mat r c (fun i j => sum_S (S m) (fun t => f t i j)))).
  { rewrite H by lia. now replace (S (N - 1)) with N by lia. }
  induction m as [|m IH]; intros Hm.
  - cbn. f_equal. apply mat_ext. intros. ring.
  - rewrite seq_S, foldM_app, IH by lia. cbn [bind foldM Nat.add].
    rewrite (idx_lt _ _ []) by (rewrite tab_length; lia). cbn [bind].
    rewrite tab_nth by lia. rewrite matrix_matrix_add_mat. cbn [bind]. reflexivity.
Qed.
Lemma block_matrix_batch_eq r c Ms ch : 1 <= length Ms -> 1 <= length ch ->
  Forall (rect r c) Ms ->
  block_matrix_batch (mkBlockMatrix Ms) ch =
  Ok (mat r c (fun i j => sum_S (min (length Ms) (length ch))
                            (fun t => sc ch t * ent (nth t Ms []) i j)%S)).
Proof.
  intros HM Hc HF. unfold block_matrix_batch. cbn [block].
  set (N := min (length Ms) (length ch)).
  assert (E : map2 matrix_scalar_mul Ms ch =
              tab N (fun t => mat r c (fun i j => sc ch t * ent (nth t Ms []) i j)%S)).
  { apply (tab_eq []); [apply map2_length|]. intros t Ht.
    rewrite (map2_nth _ _ _ _ [] s0) by lia. apply matrix_scalar_mul_mat.
    rewrite Forall_forall in HF. apply HF. apply nth_In. lia. }
  rewrite E. rewrite (idx_lt _ _ []) by (rewrite tab_length; lia). cbn [bind].
  rewrite tab_nth by lia. rewrite tab_length.
  apply (batch_loop r c (fun t i j => (sc ch t * ent (nth t Ms []) i j)%S)). lia.
Qed.
End Batch.
