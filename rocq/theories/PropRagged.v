(** C96: matrix_split, the point transpose and the k-ary functions on matrices whose rows have any
    lengths, and for every k, including 0 and 1. *)
From Coq Require Import String.
From Verif Require Export PropInputs.
From Verif Require Import PropMath PropIpa PropLmpa LmpaFacts KaryFacts PropKary ListFacts Ex ExSmall.
Local Open Scope string_scope.
Local Open Scope nat_scope.
Local Open Scope list_scope.

Section Split.
Context {T : Type}.
(** entry j of the rows that have one, top to bottom *)
Definition gcol (d : T) (j : nat) (M : list (list T)) : list T :=
  map (fun r => nth j r d) (filter (fun r => j <? length r) M).
(** piece i of the rows that have one; the last piece of a row may be short *)
Definition piece (c i : nat) (M : list (list T)) : list (list T) :=
  map (fun r => firstn c (skipn (i * c) r)) (filter (fun r => i * c <? length r) M).
Definition full_rows (M : list (list T)) : list (list T) := filter (fun r => 0 <? length r) M.

Lemma gtranspose_any d (M : list (list T)) : forall cols, (forall row, In row M -> length row <= length cols) ->
  transpose_loop M cols = Ok (tab (length cols) (fun j => nth j cols [] ++ gcol d j M)).
Proof.
  unfold transpose_loop. induction M as [|row M IH]; intros cols HM.
  - cbn. f_equal. apply (tab_eq []); auto. intros. now rewrite app_nil_r.
  - cbn [foldM]. assert (Hr : length row <= length cols) by (apply HM; now left).
    rewrite push_row by lia. cbn [bind].
    assert (LC : length (map2 snoc cols row ++ skipn (length row) cols) = length cols).
    { rewrite app_length, map2_length, skipn_length. lia. }
    rewrite IH by (rewrite LC; intros r Hi; apply HM; now right). rewrite LC. f_equal. apply tab_ext. intros j Hj.
    unfold gcol. cbn [filter]. destruct (Nat.ltb_spec j (length row)); cbn [map].
    + rewrite app_nth1 by (rewrite map2_length; lia). rewrite (map2_nth _ _ _ _ [] d) by lia. unfold snoc.
      now rewrite <- app_assoc.
    + rewrite app_nth2 by (rewrite map2_length; lia). rewrite map2_length. rewrite nth_skipn'. f_equal. f_equal. lia.
Qed.
Lemma gtranspose_iff d (M : list (list T)) cols r :
  transpose_loop M cols = r <->
  (forall row, In row M -> length row <= length cols) /\ r = Ok (tab (length cols) (fun j => nth j cols [] ++ gcol d j M)) \/
  ~ (forall row, In row M -> length row <= length cols) /\ r = Panic.
Proof.
  destruct (Exists_dec (fun row : list T => length cols < length row) M (fun row => lt_dec _ _)) as [X|X].
  - assert (P := proj2 (transpose_loop_panic M cols) X). rewrite P. apply Exists_exists in X as (row & Hi & Hl). split.
    + intros <-. right. split; auto. intros H. specialize (H row Hi). lia.
    + intros [[H _]|[_ ->]]; auto. specialize (H row Hi). lia.
  - assert (H : forall row, In row M -> length row <= length cols).
    { intros row Hi. destruct (Nat.le_gt_cases (length row) (length cols)); auto. exfalso. apply X, Exists_exists. eauto. }
    rewrite (gtranspose_any d) by auto. split; [intros <-; auto|]. intros [[_ ->]|[N _]]; auto. contradiction.
Qed.

End Split.

Section Split2.
Context {T : Type}.
Lemma chunks_any c : 1 <= c -> forall f (l : list T), length l <= f ->
  let ch := chunks_aux f c l in
  (forall i, i * c < length l -> nth_error ch i = Some (firstn c (skipn (i * c) l))) /\
  (forall i, length l <= i * c -> nth_error ch i = None).
Proof.
  intros Hc. induction f as [|f IH]; intros l Hl.
  - destruct l; [|cbn in Hl; lia]. cbn. split; [intros; lia|]. intros i _. now destruct i.
  - destruct l as [|e l]; [cbn; split; [intros; lia|]; intros i _; now destruct i|].
    cbn [chunks_aux]. set (l' := e :: l) in *. assert (H1 : 1 <= length l') by (cbn; lia).
    destruct (IH (skipn c l')) as [I1 I2]; [rewrite skipn_length; lia|]. rewrite skipn_length in I1, I2. cbv zeta. split.
    + intros [|i] Hi; [reflexivity|]. cbn [nth_error]. rewrite I1 by lia. rewrite skipn_skipn. do 3 f_equal. lia.
    + intros [|i] Hi; [lia|]. cbn [nth_error]. apply I2. lia.
Qed.
Lemma chunks_lt c (l : list T) i : 1 <= c -> (i <? length (chunks c l)) = (i * c <? length l).
Proof.
  intros Hc. destruct (chunks_any c Hc (length l) l (le_n _)) as [I1 I2]. unfold chunks.
  destruct (Nat.ltb_spec (i * c) (length l)) as [H|H].
  - apply Nat.ltb_lt, nth_error_Some. rewrite I1 by auto. discriminate.
  - apply Nat.ltb_ge, nth_error_None. auto.
Qed.
Lemma chunks_nth c (l : list T) i : 1 <= c -> i * c < length l -> nth i (chunks c l) [] = firstn c (skipn (i * c) l).
Proof.
  intros Hc Hi. destruct (chunks_any c Hc (length l) l (le_n _)) as [I1 _].
  apply nth_error_nth. now apply I1.
Qed.
Lemma gcol_chunks c i (M : list (list T)) : 1 <= c -> gcol [] i (map (chunks c) M) = piece c i M.
Proof.
  intros Hc. unfold gcol, piece. induction M as [|r M IH]; [reflexivity|]. cbn [map filter]. rewrite chunks_lt by auto.
  destruct (Nat.ltb_spec (i * c) (length r)); [|exact IH]. cbn [map]. rewrite IH, chunks_nth by auto. reflexivity.
Qed.
Lemma chunks_le c (l : list T) q : 1 <= c -> (length (chunks c l) <= q <-> length l <= q * c).
Proof.
  intros Hc. assert (X := chunks_lt c l q Hc).
  destruct (Nat.ltb_spec q (length (chunks c l))), (Nat.ltb_spec (q * c) (length l)); try discriminate; lia.
Qed.
(** *** matrix_split on any list of rows *)
Theorem C96_matrix_split (M : list (list T)) c :
  let ok := M <> [] /\ 1 <= c /\ Nat.divide c (length (nth 0 M [])) /\
            (forall row, In row M -> length row <= length (nth 0 M [])) in
  (ok -> matrix_split M c = Ok (tab (length (nth 0 M []) / c) (fun i => piece c i M))) /\
  (~ ok -> matrix_split M c = Panic).
Proof.
  cbv zeta. unfold matrix_split. destruct M as [|r0 M]; [split; [intros [X _]; now destruct X|reflexivity]|].
  set (A := r0 :: M). cbn [length Nat.ltb Nat.leb assertb bind]. change (idx A 0) with (Ok r0). cbn [bind nth].
  change (nth 0 A []) with r0.
  unfold urem, udiv. destruct (Nat.eqb_spec c 0) as [->|Hc]; [split; [lia|reflexivity]|]. cbn [bind].
  destruct (Nat.eqb_spec (length r0 mod c) 0) as [Hd|Hd].
  2:{ split; [|reflexivity]. intros (_ & _ & X & _). apply Nat.mod_divide in X; auto. contradiction. }
  cbn [assertb bind]. assert (Q := Nat.div_mod (length r0) c Hc). rewrite Hd, Nat.add_0_r, Nat.mul_comm in Q. set (q := length r0 / c) in *.
  match goal with |- (_ -> ?F = _) /\ _ => assert (EF : F = transpose_loop (map (chunks c) A) (repeat [] q)) end.
  { unfold transpose_loop. rewrite foldM_map. reflexivity. }
  rewrite EF. clear EF.
  assert (TR := proj1 (gtranspose_iff [] (map (chunks c) A) (repeat [] q) _) eq_refl). rewrite repeat_length in TR.
  assert (EQ : (forall row, In row (map (chunks c) A) -> length row <= q) <-> (forall row, In row A -> length row <= length r0)).
  { rewrite Q. split.
    - intros H row Hi. apply chunks_le; [lia|]. apply H. now apply in_map.
    - intros H row Hi. apply in_map_iff in Hi as (r & <- & Hi). apply chunks_le; [lia|]. auto. }
  rewrite EQ in TR. destruct TR as [[H E]|[H E]]; rewrite E; split.
  - intros _. f_equal. apply tab_ext. intros i Hi. rewrite nth_repeat. cbn [app]. apply gcol_chunks. lia.
  - intros N. exfalso. apply N. split; [discriminate|]. split; [lia|]. split; [now exists q|exact H].
  - intros (_ & _ & _ & X). contradiction.
  - reflexivity.
Qed.
Lemma split_ok_dec (M : list (list T)) c :
  (M <> [] /\ 1 <= c /\ Nat.divide c (length (nth 0 M [])) /\ (forall row, In row M -> length row <= length (nth 0 M []))) \/
  ~ (M <> [] /\ 1 <= c /\ Nat.divide c (length (nth 0 M [])) /\ (forall row, In row M -> length row <= length (nth 0 M []))).
Proof.
  destruct M as [|r M]; [right; intros [X _]; now destruct X|].
  destruct (le_dec 1 c); [|right; tauto].
  destruct (Nat.eq_dec (length (nth 0 (r :: M) []) mod c) 0) as [D|D].
  2:{ right. intros (_ & _ & X & _). apply D, Nat.mod_divide; [lia|exact X]. }
  destruct (Forall_dec (fun row : list T => length row <= length (nth 0 (r :: M) [])) (fun row => le_dec _ _) (r :: M)) as [F|F].
  - left. split; [discriminate|]. split; [auto|]. split; [apply Nat.mod_divide; [lia|exact D]|]. now apply Forall_forall.
  - right. intros (_ & _ & _ & X). now apply F, Forall_forall.
Qed.
(** rows without entries are dropped *)
Lemma filter_filter_lt a b (M : list (list T)) : b <= a ->
  filter (fun r => a <? length r) (filter (fun r => b <? length r) M) = filter (fun r => a <? length r) M.
Proof.
  intros Hb. induction M as [|r M IH]; [reflexivity|]. cbn [filter].
  destruct (Nat.ltb_spec b (length r)); cbn [filter]; [now rewrite IH|].
  destruct (Nat.ltb_spec a (length r)); [lia|exact IH].
Qed.
Lemma piece_full c i (M : list (list T)) : piece c i (full_rows M) = piece c i M.
Proof. unfold piece, full_rows. rewrite filter_filter_lt by lia. reflexivity. Qed.
Lemma split_full (M : list (list T)) c : 1 <= length (nth 0 M []) -> matrix_split M c = matrix_split (full_rows M) c.
Proof.
  intros H1. assert (E0 : nth 0 (full_rows M) [] = nth 0 M []).
  { destruct M as [|r M]; [reflexivity|]. cbn [nth] in H1. unfold full_rows. cbn [filter]. destruct (Nat.ltb_spec 0 (length r)); [reflexivity|lia]. }
  assert (N0 : M <> []) by (intros ->; cbn in H1; lia).
  assert (N1 : full_rows M <> []) by (intros Z; rewrite Z in E0; cbn in E0; rewrite <- E0 in H1; cbn in H1; lia).
  destruct (C96_matrix_split M c) as [S1 S2], (C96_matrix_split (full_rows M) c) as [S3 S4]. rewrite E0 in S3, S4.
  assert (EQ : (forall row, In row (full_rows M) -> length row <= length (nth 0 M [])) <-> (forall row, In row M -> length row <= length (nth 0 M []))).
  { unfold full_rows. split; intros H row Hi.
    - destruct (Nat.eq_dec (length row) 0); [lia|]. apply H, filter_In. split; auto. apply Nat.ltb_lt. lia.
    - apply filter_In in Hi as [Hi _]. auto. }
  destruct (split_ok_dec M c) as [D|D].
  - rewrite S1, S3 by tauto. f_equal. apply tab_ext. intros i _. symmetry. apply piece_full.
  - rewrite S2, S4 by tauto. reflexivity.
Qed.
End Split2.

Section Ragged.
Context {C : Crypto} {L : CryptoLaws C}.

(** *** the transpose of a matrix of points *)
Theorem C96_point_transpose (M T : list (list Point)) :
  matrixpoint_transpose M = Ok T <->
  M <> [] /\ (forall row, In row M -> length row <= length (nth 0 M [])) /\
  T = tab (length (nth 0 M [])) (fun j => gcol p0 j M).
Proof.
  unfold matrixpoint_transpose. destruct M as [|row0 M]; [cbn; split; [discriminate|intros [X _]; now destruct X]|].
  cbn [length Nat.ltb Nat.leb assertb bind idx nth_error nth].
  rewrite (gtranspose_iff p0), repeat_length.
  assert (E : tab (length row0) (fun j => nth j (repeat [] (length row0)) [] ++ gcol p0 j (row0 :: M)) = tab (length row0) (fun j => gcol p0 j (row0 :: M))).
  { apply tab_ext. intros j Hj. now rewrite nth_repeat. }
  rewrite E. split.
  - intros [[H X]|[_ X]]; [|discriminate]. injection X as ->. split; [discriminate|auto].
  - intros (_ & H & ->). left. auto.
Qed.

Definition gshape {X} (M : list (list X)) : list nat := map (@length X) M.
Lemma mpsm_gshape M x : gshape (matrixpoint_scalar_mul M x) = gshape M.
Proof. unfold gshape, matrixpoint_scalar_mul. rewrite map_map. apply map_ext. intros r. apply map_length. Qed.
Lemma mpma_gshape A B : (gshape A = gshape B /\ exists X, matrixpoint_matrix_add A B = Ok X /\ gshape X = gshape A) \/
  (gshape A <> gshape B /\ matrixpoint_matrix_add A B = Panic).
Proof.
  unfold matrixpoint_matrix_add. destruct (Nat.eqb_spec (length A) (length B)) as [HL|HL]; cbn [assertb bind].
  2:{ right. split; auto. intros X. apply HL. apply (f_equal (@length nat)) in X. unfold gshape in X. now rewrite !map_length in X. }
  revert B HL. induction A as [|a A IH]; intros [|b B] HL; try discriminate; [left; split; auto; now exists []|].
  cbn [map2M gshape map].
  assert (ER : rowpoint_rowpoint_add a b = (assertb (length a =? length b) ;;; Ok (map2 padd a b))) by reflexivity. rewrite ER. clear ER.
  destruct (Nat.eqb_spec (length a) (length b)) as [H|H]; cbn [assertb bind].
  2:{ right. split; [intros X; injection X as X _; contradiction|reflexivity]. }
  destruct (IH B ltac:(cbn in HL; lia)) as [[E (X & EX & SX)]|[E EX]]; rewrite EX; cbn [bind].
  - left. split; [f_equal; auto|]. eexists. split; [reflexivity|]. cbn [gshape map]. f_equal; [rewrite map2_length; lia|exact SX].
  - right. split; auto. intros Y. injection Y as _ Y. contradiction.
Qed.
Definition A_sum (parts : list (list (list Point))) (x : Scalar) (K k : nat) : res (list (list Point)) :=
  sum_loop (fun i => A_i <- idx parts i ;; x_i <- idx (powers0 x K) i ;; Ok (matrixpoint_scalar_mul A_i x_i)) matrixpoint_matrix_add k.
Lemma A_sum_shape parts x K k : 1 <= k -> k <= K ->
  let ok := k <= length parts /\ forall i, i < k -> gshape (nth i parts []) = gshape (nth 0 parts []) in
  (ok /\ exists A', A_sum parts x K k = Ok A' /\ gshape A' = gshape (nth 0 parts [])) \/
  (~ ok /\ A_sum parts x K k = Panic).
Proof.
  intros Hk HK. cbv zeta. unfold A_sum, sum_loop.
  set (step := fun (acc : option (list (list Point))) i => _).
  assert (ST : forall i acc, i < K -> step acc i =
    match nth_error parts i with
    | None => Panic
    | Some p => match acc with None => Ok (Some (matrixpoint_scalar_mul p (sc (powers0 x K) i)))
                | Some a => s <- matrixpoint_matrix_add a (matrixpoint_scalar_mul p (sc (powers0 x K) i)) ;; Ok (Some s) end end).
  { intros i acc Hi. unfold step, idx at 1. destruct (nth_error parts i); [|reflexivity]. cbn [bind].
    rewrite (idx_lt _ _ s0) by (rewrite powers0_length; lia). reflexivity. }
  assert (G : forall j, 1 <= j <= K ->
    (j <= length parts /\ (forall i, i < j -> gshape (nth i parts []) = gshape (nth 0 parts [])) /\
     exists a, foldM step (seq 0 j) None = Ok (Some a) /\ gshape a = gshape (nth 0 parts [])) \/
    (~ (j <= length parts /\ forall i, i < j -> gshape (nth i parts []) = gshape (nth 0 parts [])) /\ foldM step (seq 0 j) None = Panic)).
  { induction j as [|j IH]; intros Hj; [lia|]. destruct j as [|j].
    - cbn [seq foldM]. rewrite ST by lia. destruct parts as [|p parts]; cbn [nth_error bind].
      + right. split; [cbn; lia|reflexivity].
      + left. cbn [length nth]. split; [lia|]. split; [intros i Hi; now replace i with 0 by lia|]. eexists. split; [reflexivity|]. apply mpsm_gshape.
    - rewrite seq_S, foldM_app. cbn [Nat.add]. destruct IH as [(I1 & I2 & a & I3 & I4)|[I1 I2]]; [lia| |].
      2:{ rewrite I2. cbn [bind]. right. split; [|reflexivity]. intros [X1 X2]. apply I1. split; [lia|]. intros i Hi. apply X2. lia. }
      rewrite I3. cbn [bind foldM]. rewrite ST by lia. destruct (nth_error parts (S j)) as [p|] eqn:E; cbn [bind].
      2:{ apply nth_error_None in E. right. split; [lia|reflexivity]. }
      assert (E1 : S j < length parts) by (apply nth_error_Some; congruence). apply (nth_error_nth _ _ []) in E.
      destruct (mpma_gshape a (matrixpoint_scalar_mul p (sc (powers0 x K) (S j)))) as [[M1 (X & M2 & M3)]|[M1 M2]]; rewrite M2; cbn [bind];
        rewrite mpsm_gshape in M1.
      + left. split; [lia|]. split; [|exists X; split; [reflexivity|congruence]].
        intros i Hi. destruct (Nat.eq_dec i (S j)) as [->|]; [rewrite E; congruence|apply I2; lia].
      + right. split; [|reflexivity]. intros [_ X]. apply M1. rewrite I4, <- E. symmetry. apply X. lia. }
  destruct (G k) as [(I1 & I2 & a & I3 & I4)|[I1 I2]]; [lia| |].
  - left. split; [auto|]. exists a. rewrite I3. cbn [bind unwrap]. auto.
  - right. split; [auto|]. rewrite I2. reflexivity.
Qed.

(** the first k pieces of every row have the same size exactly when every row is empty or has k full pieces *)
Lemma filter_same {X} (p q : X -> bool) l : (forall a, p a = true -> q a = true) -> length (filter p l) = length (filter q l) ->
  forall a, In a l -> q a = true -> p a = true.
Proof.
  intros H. assert (LE : forall l', length (filter p l') <= length (filter q l')).
  { induction l' as [|b l' IH]; [auto|]. cbn [filter]. specialize (H b). destruct (p b), (q b); cbn [length]; try lia; now specialize (H eq_refl). }
  induction l as [|b l IH]; intros E a [].
  - subst b. intros Q. cbn [filter] in E. destruct (p a); auto. rewrite Q in E. cbn [length] in E. specialize (LE l). lia.
  - apply IH; auto. cbn [filter] in E. assert (Hb := H b). destruct (p b), (q b); cbn [length] in E; specialize (LE l); try lia; now specialize (Hb eq_refl).
Qed.
Lemma map_eq_In {X Y} (f g : X -> Y) l : map f l = map g l -> forall a, In a l -> f a = g a.
Proof. induction l as [|b l IH]; intros E a []; cbn [map] in E; injection E as E1 E2; [congruence|auto]. Qed.
Lemma gshape_piece {X} c i (M : list (list X)) :
  gshape (piece c i M) = map (fun r => Nat.min c (length r - i * c)) (filter (fun r => i * c <? length r) M).
Proof. unfold gshape, piece. rewrite map_map. apply map_ext. intros r. now rewrite firstn_length, skipn_length. Qed.
Lemma pieces_even {X} k c (M : list (list X)) : 2 <= k -> 1 <= c ->
  ((forall i, i < k -> gshape (piece c i M) = gshape (piece c 0 M)) <-> forall row, In row M -> length row = 0 \/ k * c <= length row).
Proof.
  intros Hk Hc. split.
  - intros H row Hi. destruct (Nat.eq_dec (length row) 0) as [Z|Z]; [auto|right].
    assert (E := H (k - 1) ltac:(lia)). rewrite !gshape_piece in E.
    assert (IMP : forall r, In r M -> (0 * c <? length r) = true -> ((k - 1) * c <? length r) = true).
    { apply filter_same.
      - intros r Hr. apply Nat.ltb_lt in Hr. apply Nat.ltb_lt. nia.
      - apply (f_equal (@length nat)) in E. now rewrite !map_length in E. }
    assert (FE : filter (fun r => (k - 1) * c <? length r) M = filter (fun r => 0 * c <? length r) M).
    { apply filter_ext_in. intros r Hr. specialize (IMP r Hr).
      destruct (Nat.ltb_spec (0 * c) (length r)), (Nat.ltb_spec ((k - 1) * c) (length r)); auto; nia. }
    rewrite FE in E. assert (IN : In row (filter (fun r => 0 * c <? length r) M)) by (apply filter_In; split; auto; apply Nat.ltb_lt; lia).
    assert (E1 := map_eq_In _ _ _ E row IN). cbv beta in E1.
    assert (I2 := IMP row Hi ltac:(apply Nat.ltb_lt; lia)). apply Nat.ltb_lt in I2. nia.
  - intros H i Hi. rewrite !gshape_piece.
    assert (FE : filter (fun r => i * c <? length r) M = filter (fun r => 0 * c <? length r) M).
    { apply filter_ext_in. intros r Hr. destruct (H r Hr) as [Z|Z].
      - destruct (Nat.ltb_spec (0 * c) (length r)), (Nat.ltb_spec (i * c) (length r)); auto; lia.
      - destruct (Nat.ltb_spec (0 * c) (length r)), (Nat.ltb_spec (i * c) (length r)); auto; nia. }
    rewrite FE. apply map_ext_in. intros r Hr. apply filter_In in Hr as [Hr P]. apply Nat.ltb_lt in P.
    destruct (H r Hr) as [Z|Z]; nia.
Qed.
Lemma gshape_rect {X} m n (M : list (list X)) : gshape M = repeat n m -> rect m n M.
Proof.
  intros E. split; [apply (f_equal (@length nat)) in E; unfold gshape in E; now rewrite map_length, repeat_length in E|].
  apply Forall_forall. intros r Hr. assert (X1 : In (length r) (gshape M)) by (unfold gshape; now apply in_map).
  rewrite E in X1. now apply repeat_spec in X1.
Qed.
Lemma piece0_shape {X} k c (M : list (list X)) : 2 <= k -> 1 <= c -> (forall row, In row M -> length row = 0 \/ k * c <= length row) ->
  gshape (piece c 0 M) = repeat c (length (full_rows M)).
Proof.
  intros Hk Hc H. rewrite gshape_piece. unfold full_rows. change (0 * c) with 0.
  assert (K : forall row, In row (filter (fun r => 0 <? length r) M) -> c <= length row).
  { intros row Hi. apply filter_In in Hi as [Hi P]. apply Nat.ltb_lt in P. destruct (H row Hi); nia. }
  revert K. generalize (filter (fun r : list X => 0 <? length r) M). intros l K. induction l as [|r l IH]; [reflexivity|].
  cbn [map length repeat]. f_equal; [assert (Z := K r (or_introl eq_refl)); lia|apply IH; intros; apply K; now right].
Qed.

Definition rows_fit (k c : nat) (A : list (list Point)) : Prop :=
  A <> [] /\ Nat.divide c (length (nth 0 A [])) /\ k * c <= length (nth 0 A []) /\
  forall row, In row A -> length row = 0 \/ k * c <= length row <= length (nth 0 A []).

Lemma full_rows_pos (A : list (list Point)) : 1 <= length (nth 0 A []) -> 1 <= length (full_rows A).
Proof.
  destruct A as [|r A]; [cbn; lia|]. cbn [nth]. intros H. unfold full_rows. cbn [filter].
  destruct (Nat.ltb_spec 0 (length r)); [cbn [length]; lia|lia].
Qed.
(** what the rest of a round needs from the matrix *)
Lemma A_round k c A x : 2 <= k -> 1 <= c ->
  (rows_fit k c A /\ exists A_T A', matrix_split A c = Ok A_T /\ A_sum A_T x k k = Ok A' /\ rect (length (full_rows A)) c A' /\ 1 <= length (full_rows A)) \/
  (~ rows_fit k c A /\ (matrix_split A c = Panic \/ exists A_T, matrix_split A c = Ok A_T /\ A_sum A_T x k k = Panic)).
Proof.
  intros Hk Hc. destruct (C96_matrix_split A c) as [S1 S2].
  destruct (split_ok_dec A c) as [D|D].
  2:{ right. rewrite S2 by exact D. split; [|auto]. intros (X1 & X2 & X3 & X4). apply D. split; [auto|]. split; [auto|]. split; [auto|].
      intros row Hi. destruct (X4 row Hi); lia. }
  rewrite S1 by exact D. destruct D as (D1 & _ & D3 & D4). destruct D3 as [q Q]. rewrite Q, Nat.div_mul by lia.
  assert (NT : forall i, i < q -> nth i (tab q (fun i => piece c i A)) [] = piece c i A) by (intros; now rewrite tab_nth).
  destruct (A_sum_shape (tab q (fun i => piece c i A)) x k k) as [[[O1 O2] (A' & E & EA)]|[O E]]; try lia.
  - rewrite tab_length in O1. assert (PE : forall i, i < k -> gshape (piece c i A) = gshape (piece c 0 A)).
    { intros i Hi. rewrite <- (NT i), <- (NT 0) by lia. auto. }
    rewrite (pieces_even k c A Hk Hc) in PE.
    left. split.
    + split; [auto|]. split; [now exists q|]. split; [nia|]. intros row Hi. destruct (PE row Hi) as [|]; [auto|right]. split; auto.
    + exists (tab q (fun i => piece c i A)), A'. split; [auto|]. split; [auto|].
      split; [|apply full_rows_pos; nia]. apply gshape_rect. rewrite EA, (NT 0) by lia. now apply (piece0_shape k).
  - right. split; [|right; eexists; split; [reflexivity|exact E]].
    intros (X1 & X2 & X3 & X4). apply O. rewrite tab_length. assert (K : k <= q) by nia. split; [exact K|].
    intros i Hi. rewrite !NT by lia. apply (pieces_even k c A Hk Hc); [|exact Hi]. intros row Hr. destruct (X4 row Hr); [auto|right; lia].
Qed.

(** *** the k-ary verifier *)
Theorem C96_kary_verdict ro tr pf A t n d k m' zero : 2 <= k -> n < k ^ S d -> (d = 0 \/ k ^ d <= n) ->
  (verdict (verify_lmpa_noZK ro tr pf A t n m' k s1 zero) <->
   (d = 0 \/ rows_fit k (n / k) A) /\
   (forall i, 1 <= i < d -> Nat.divide (n / k ^ S i) (n / k ^ i)) /\
   d <= length (u_proof_Block pf) /\
   (forall j, j < d -> kary_block k (nth j (u_proof_Block pf) [])) /\
   A_Matrix pf <> [] /\ kary_last d t (u_proof_Block pf) <> []).
Proof.
  intros Hk H1 H2. destruct d as [|d].
  { (* no round: the matrix is not read *)
    unfold verify_lmpa_noZK. cbn [kary_verify_loop]. rewrite Nat.pow_1_r in H1. destruct (Nat.leb_spec k n); [lia|]. cbv zeta. unfold kary_last.
    split.
    - intros V. apply verdict_bind in V as (e0 & E & V). apply verdict_bind in V as (t0 & E' & _).
      split; [auto|]. split; [intros; lia|]. split; [lia|]. split; [intros; lia|]. split; [intros HN; rewrite HN in E; discriminate|intros ->; discriminate].
    - intros (_ & _ & _ & _ & X1 & X2). destruct (A_Matrix pf) as [|a0 As]; [now destruct X1|].
      destruct t as [|t0 t]; [now destruct X2|]. cbn. apply verdict_Ok. }
  destruct H2 as [|H2]; [lia|].
  assert (P1 : 1 <= k ^ d) by (assert (X := Nat.pow_nonzero k d); lia).
  assert (Ek : k ^ S d = k * k ^ d) by apply Nat.pow_succ_r'. assert (Ek2 : k ^ S (S d) = k * k ^ S d) by apply Nat.pow_succ_r'.
  assert (Hkn : k <= n) by nia.
  assert (Hc1 : k ^ d <= n / k) by (apply Nat.div_le_lower_bound; lia).
  assert (Hc2 : n / k < k ^ S d) by (apply Nat.div_lt_upper_bound; lia).
  assert (K : forall i, n / k / k ^ i = n / k ^ S i).
  { intros i. rewrite Nat.pow_succ_r', Nat.div_div; auto; [lia|apply Nat.pow_nonzero; lia]. }
  unfold verify_lmpa_noZK. set (f := S (length (u_proof_Block pf))). cbn [kary_verify_loop]. destruct (Nat.leb_spec k n); [|lia].
  unfold udiv. destruct (Nat.eqb_spec k 0); [lia|]. cbn [bind]. set (c := n / k) in *.
  assert (W : widths k d c c <-> (forall i, 1 <= i < S d -> Nat.divide (n / k ^ S i) (n / k ^ i))).
  { rewrite (widths_self k Hk). split.
    - intros X [|i] Hi; [lia|]. rewrite <- !K. apply X. lia.
    - intros X i Hi. rewrite !K. apply X. lia. }
  destruct (nth_error (u_proof_Block pf) 0) as [u|] eqn:EU.
  2:{ split.
      - intros V. exfalso. apply verdict_bind in V as (A_T & _ & V). rewrite usub_le in V by lia. cbn [bind] in V.
        unfold idx at 1 in V. rewrite EU in V. destruct V; discriminate.
      - intros (_ & _ & X & _). apply nth_error_None in EU. lia. }
  assert (BU : 0 < length (u_proof_Block pf)) by (apply nth_error_Some; congruence).
  assert (EU' := nth_error_nth _ _ [] EU).
  set (tr1 := tr ++ ka_round u). set (x := ro tr1).
  destruct (A_round k c A x Hk) as [[RF (A_T & A' & S1 & S2 & S3 & S4)]|[RF S0]]; [lia| |].
  2:{ split; [|intros ([X|X] & _); [lia|contradiction]].
      intros V. exfalso. destruct S0 as [S0|(A_T & S0 & S1)]; rewrite S0 in V; [destruct V; discriminate|].
      cbn [bind] in V. rewrite usub_le in V by lia. cbn [bind] in V. unfold idx at 1 in V. rewrite EU in V. cbn [bind] in V.
      unfold challenge_scalar in V. rewrite fold_append in V. fold tr1 x in V.
      rewrite !vandemonde_vector_eq in V by lia. cbn [bind] in V. rewrite z_vec_loop_ok in V by lia. cbn [bind] in V.
      fold (A_sum A_T x k k) in V. rewrite S1 in V. destruct V; discriminate. }
  rewrite S1. cbn [bind]. rewrite usub_le by lia. cbn [bind]. unfold idx at 1. rewrite EU. cbn [bind].
  unfold challenge_scalar. rewrite fold_append. fold tr1 x.
  rewrite !vandemonde_vector_eq by lia. cbn [bind]. rewrite z_vec_loop_ok by lia. cbn [bind].
  fold (A_sum A_T x k k). rewrite S2. cbn [bind].
  destruct (fold_t_verdict u (2 * (k - 1) + 1) (kzf k x)) as [F1 F2]; [lia|].
  assert (HR : kary_rounds k c d) by (split; [exact Hc2|right; exact Hc1]).
  rewrite verdict_bind. unfold kary_last. split.
  - intros (t' & Et & V). apply (kary_loop_any pf ro k zero m' Hk d _ _ (length (full_rows A)) c) in V; [|auto|auto|auto|unfold f; lia|lia].
    destruct V as (V0 & V1 & V2 & V3 & V4).
    assert (B : kary_block k u) by (apply F1; now exists t').
    split; [auto|]. split; [now apply W|]. split; [lia|]. split; [|split; [auto|]].
    + intros [|j] Hj; [now rewrite EU'|apply V2; lia].
    + destruct d as [|d].
      * rewrite EU'. apply F2 in Et. intros Z0. rewrite Z0 in Et. destruct t'; [now destruct V4|discriminate].
      * exact V4.
  - intros (_ & V0 & V1 & V2 & V3 & V4).
    assert (B : kary_block k u) by (rewrite <- EU'; apply V2; lia).
    destruct (proj2 F1 B) as [t' Et]. exists t'. split; auto.
    apply (kary_loop_any pf ro k zero m' Hk d _ _ (length (full_rows A)) c); [auto|auto|auto|unfold f; lia|lia|].
    split; [now apply W|]. split; [lia|]. split; [|split; [auto|]].
    + intros j Hj. apply V2. lia.
    + destruct d as [|d].
      * rewrite EU' in V4. apply F2 in Et. intros ->. cbn [length] in Et. symmetry in Et.
        apply length_zero_iff_nil in Et. contradiction.
      * exact V4.
Qed.
(** k = 0 and k = 1 *)
Theorem C96_kary_verdict_small ro tr pf A t n k m' zero : k <= 1 ->
  (verdict (verify_lmpa_noZK ro tr pf A t n m' k s1 zero) <-> k = 1 /\ n = 0 /\ A_Matrix pf <> [] /\ t <> []).
Proof.
  intros Hk. destruct k as [|[|k]]; [|clear Hk|lia].
  { split; [intros [v E]; discriminate|lia]. }
  unfold verify_lmpa_noZK. destruct (Nat.eq_dec n 0) as [->|Hn].
  - cbn [kary_verify_loop Nat.leb]. cbv zeta. split.
    + intros V. apply verdict_bind in V as (e0 & E & V). apply verdict_bind in V as (t0 & E' & _).
      split; [auto|]. split; [auto|]. split; [intros HN; rewrite HN in E; discriminate|intros ->; discriminate].
    + intros (_ & _ & X1 & X2). destruct (A_Matrix pf) as [|a0 As]; [now destruct X1|].
      destruct t as [|t0 t]; [now destruct X2|]. cbn. apply verdict_Ok.
  - split; [|lia]. intros V. exfalso.
    assert (G : forall f tr A t i, ~ verdict (kary_verify_loop f ro tr pf A t n m' 1 s1 zero i)).
    { clear V. induction f as [|f IH]; intros tr0 A0 t0 i [v V]; [discriminate|].
      cbn [kary_verify_loop] in V. destruct (Nat.leb_spec 1 n); [|lia]. unfold udiv in V. rewrite Nat.div_1_r in V.
      cbn [Nat.eqb] in V. cbn [bind] in V. do 3 inv_ok V. destruct (challenge_scalar _ _ _) as [x tr1]. do 5 inv_ok V.
      eapply IH. exists v. exact V. }
    exact (G _ _ _ _ _ V).
Qed.

(** ** The k-ary prover *)
Lemma bind_ND {X Y} (x : res X) (f : X -> res Y) : x <> Diverge -> (forall v, x = Ok v -> f v <> Diverge) -> bind x f <> Diverge.
Proof. destruct x; cbn [bind]; intros H1 H2; auto; discriminate. Qed.
Lemma idx_ND {X} (l : list X) i : idx l i <> Diverge.
Proof. unfold idx. destruct (nth_error l i); discriminate. Qed.
Lemma upd_ND {X} (l : list X) i v : upd l i v <> Diverge.
Proof. unfold upd. destruct (_ <? _); discriminate. Qed.
Lemma usub_ND a b : usub a b <> Diverge.
Proof. unfold usub. destruct (_ <=? _); discriminate. Qed.
Lemma rra_ND a b : rowpoint_rowpoint_add a b <> Diverge.
Proof. unfold rowpoint_rowpoint_add. destruct (_ =? _); discriminate. Qed.
Lemma map2M_ND {X Y Z} (f : X -> Y -> res Z) : (forall a b, f a b <> Diverge) -> forall l1 l2, map2M f l1 l2 <> Diverge.
Proof.
  intros H. induction l1 as [|a l1 IH]; intros [|b l2]; cbn [map2M]; try discriminate.
  apply bind_ND; [apply H|]. intros c _. apply bind_ND; [apply IH|]. discriminate.
Qed.
Lemma mpma_ND A B : matrixpoint_matrix_add A B <> Diverge.
Proof. unfold matrixpoint_matrix_add. destruct (_ =? _); cbn [assertb bind]; [|discriminate]. apply map2M_ND, rra_ND. Qed.
Lemma mma_ND A B : matrix_matrix_add A B <> Diverge.
Proof.
  unfold matrix_matrix_add. destruct (_ =? _); cbn [assertb bind]; [|discriminate]. apply map2M_ND.
  intros a b. unfold row_row_add. destruct (_ =? _); discriminate.
Qed.
Lemma u_loop_ND shift A_T w_T t u : u_vec_loop shift A_T w_T t u <> Diverge.
Proof.
  unfold u_vec_loop. apply foldM_not_Diverge. intros v [i A_t] _. apply foldM_not_Diverge. intros v' [j w_vec] _.
  apply bind_ND; [apply usub_ND|]. intros l _. destruct (negb _); [|apply upd_ND].
  apply bind_ND; [apply idx_ND|]. intros w0 _. cbv zeta. apply bind_ND; [apply idx_ND|]. intros ul _.
  apply bind_ND; [apply rra_ND|]. intros. apply upd_ND.
Qed.
Lemma sum_loop_ND {X} (f : nat -> res X) add k : (forall i, f i <> Diverge) -> (forall a b, add a b <> Diverge) -> sum_loop f add k <> Diverge.
Proof.
  intros Hf Ha. unfold sum_loop. apply bind_ND.
  - apply foldM_not_Diverge. intros acc i _. apply bind_ND; [apply Hf|]. intros v _. destruct acc; [|discriminate].
    apply bind_ND; [apply Ha|discriminate].
  - intros [v|] _; discriminate.
Qed.
Lemma split_ND {X} (M : list (list X)) c : matrix_split M c <> Diverge.
Proof. destruct (C96_matrix_split M c) as [S1 S2]. destruct (split_ok_dec M c) as [D|D]; [rewrite S1 by exact D|rewrite S2 by exact D]; discriminate. Qed.

Lemma split_row c (w : list Scalar) :
  (1 <= c /\ exists q, length w = q * c /\ matrix_split [w] c = Ok (tab q (fun i => piece c i [w]))) \/ matrix_split [w] c = Panic.
Proof.
  destruct (C96_matrix_split [w] c) as [S1 S2]. destruct (split_ok_dec [w] c) as [D|D]; [|right; auto]. left.
  rewrite S1 by exact D. destruct D as (_ & D2 & (q & Q) & _). cbn [nth] in Q |- *. split; [auto|]. exists q. split; [auto|]. now rewrite Q, Nat.div_mul by lia.
Qed.

(** k >= 2: the loop ends *)
Lemma kary_create_ND ro k : 2 <= k -> forall n f tr A w t m us, n < f ->
  kary_create_loop f ro tr A w t n m k s1 p0 us <> Diverge.
Proof.
  intros Hk. induction n as [n IH] using lt_wf_ind. intros f tr A w t m us Hf. destruct f as [|f]; [lia|]. cbn [kary_create_loop].
  destruct (Nat.leb_spec k n); [|discriminate]. unfold udiv. destruct (Nat.eqb_spec k 0); [lia|]. cbn [bind].
  apply bind_ND; [apply split_ND|]. intros A_T _. apply bind_ND; [apply split_ND|]. intros w_T _.
  rewrite usub_le by lia. cbn [bind]. apply bind_ND; [apply u_loop_ND|]. intros u _. cbv zeta.
  destruct (challenge_scalar _ _ _) as [x tr1]. rewrite !vandemonde_vector_eq by lia. cbn [bind]. rewrite z_vec_loop_ok by lia. cbn [bind].
  apply bind_ND; [apply sum_loop_ND; [|apply mpma_ND]|].
  { intros i. apply bind_ND; [apply idx_ND|]. intros. apply bind_ND; [apply idx_ND|]. discriminate. }
  intros A' _. apply bind_ND; [apply sum_loop_ND; [|apply mma_ND]|].
  { intros i. apply bind_ND; [apply idx_ND|]. intros. apply bind_ND; [apply idx_ND|]. discriminate. }
  intros wm _. apply bind_ND; [unfold unwrap; destruct (nth_error _ _); discriminate|]. intros w' _.
  apply bind_ND; [apply sum_loop_ND; [|apply rra_ND]|].
  { intros i. apply bind_ND; [apply idx_ND|]. intros. apply bind_ND; [apply idx_ND|]. discriminate. }
  intros t' _. assert (n / k < n) by (apply Nat.div_lt; lia). apply IH; lia.
Qed.

(** the matrix of the prover may have rows without entries; they are not counted in m *)
Theorem C96_kary_prover_returns_iff ro tr A w t n m k : 2 <= k ->
  (verdict (create_lmpa_noZK ro tr A w t n m k s1 p0) <->
   n < k \/
   (length (nth 0 A []) = k * (n / k) /\ (forall row, In row A -> length row = 0 \/ length row = k * (n / k)) /\
    length w = k * (n / k) /\ m = length (full_rows A) /\ length t = m /\ exists r d, 1 <= r < k /\ n / k = r * k ^ d)).
Proof.
  intros Hk. destruct (Nat.lt_ge_cases n k) as [Hn|Hn].
  { split; [auto|]. intros _. unfold create_lmpa_noZK. cbn [kary_create_loop]. destruct (Nat.leb_spec k n); [lia|]. apply verdict_Ok. }
  assert (Hc : 1 <= n / k) by (apply Nat.div_le_lower_bound; lia).
  assert (FULL : 1 <= length (nth 0 A []) ->
    create_lmpa_noZK ro tr A w t n m k s1 p0 = create_lmpa_noZK ro tr (full_rows A) w t n m k s1 p0).
  { intros H1. unfold create_lmpa_noZK. cbn [kary_create_loop]. destruct (Nat.leb_spec k n); [|lia].
    destruct (udiv n k) as [c| |]; [|reflexivity|reflexivity]. cbn [bind]. now rewrite (split_full A) by exact H1. }
  assert (RECT : length (nth 0 A []) = k * (n / k) -> (forall row, In row A -> length row = 0 \/ length row = k * (n / k)) ->
    rect (length (full_rows A)) (k * (n / k)) (full_rows A)).
  { intros _ H. split; [reflexivity|]. apply Forall_forall. intros row Hi. apply filter_In in Hi as [Hi P]. apply Nat.ltb_lt in P. destruct (H row Hi); lia. }
  split.
  - intros V. right. unfold create_lmpa_noZK in V. assert (V0 := V). cbn [kary_create_loop] in V. destruct (Nat.leb_spec k n); [|lia].
    unfold udiv in V. destruct (Nat.eqb_spec k 0); [lia|]. cbn [bind] in V. set (c := n / k) in *.
    destruct V as [v V]. inv_ok V. rename v0 into A_T. rename E into EA.
    destruct (split_row c w) as [[_ (q' & En' & E1)]|E1]; rewrite E1 in V; cbn [bind] in V; [|discriminate].
    rewrite usub_le in V by lia. cbn [bind] in V. inv_ok V. rename v0 into u. rename E into EU.
    unfold challenge_scalar in V. rewrite fold_append in V. set (x := ro (tr ++ ka_round u)) in V.
    rewrite !vandemonde_vector_eq in V by lia. cbn [bind] in V. rewrite z_vec_loop_ok in V by lia. cbn [bind] in V.
    inv_ok V. rename v0 into A'. inv_ok V. rename v0 into wm.
    fold (A_sum A_T x k k) in E. destruct (A_round k c A x Hk Hc) as [[RF (A_T0 & A0 & S1 & S2 & S3 & S4)]|[RF [S0|(A_T0 & S1 & S2)]]];
      [|congruence|rewrite EA in S1; injection S1 as <-; congruence].
    rewrite EA in S1. injection S1 as <-. destruct RF as (R1 & (q & R2) & R3 & R4).
    assert (Q : matrix_split A c = Ok (tab q (fun i => piece c i A))).
    { rewrite (proj1 (C96_matrix_split A c)); [now rewrite R2, Nat.div_mul by lia|]. split; [auto|]. split; [auto|]. split; [now exists q|].
      intros row Hi. destruct (R4 row Hi); lia. }
    rewrite EA in Q. injection Q as ->.
    assert (Q1 : k <= q) by nia.
    assert (Q2 : k <= q').
    { destruct (Nat.le_gt_cases k q') as [X|X]; [exact X|exfalso]. assert (Y := sum_loop_all _ _ _ (ex_intro _ wm E0) q' X).
      cbv beta in Y. rewrite idx_ge in Y by (rewrite tab_length; lia). destruct Y; discriminate. }
    apply (u_vec_shape k m Hk) in EU; [|now rewrite tab_length|now rewrite tab_length].
    rewrite !tab_length in EU. destruct EU as (-> & -> & U3 & U4 & U5).
    assert (H0 : forall row, In row A -> length row = 0 \/ length row = k * c) by (intros row Hi; destruct (R4 row Hi); lia).
    assert (FA := V0). fold (create_lmpa_noZK ro tr A w t n m k s1 p0) in FA. rewrite FULL in FA by lia.
    apply (C95_kary_prover_returns_iff ro tr (full_rows A) w t n m k _ (k * c) Hk S4 (RECT R2 H0)) in FA.
    destruct FA as [|(_ & F2 & F3 & F4 & F5)]; [lia|]. fold c in F2, F5. repeat split; auto. congruence.
  - intros [X|(X1 & X2 & X3 & X4 & X5 & X6)]; [lia|]. rewrite FULL by nia.
    assert (X7 : 1 <= length (full_rows A)) by (apply full_rows_pos; nia).
    apply (C95_kary_prover_returns_iff ro tr (full_rows A) w t n m k _ (k * (n / k)) Hk X7 (RECT X1 X2)). right. repeat split; auto. congruence.
Qed.

(** k = 1: one block, which never gets shorter *)
Definition k1_fit (n : nat) (A : list (list Point)) (w : list Scalar) : Prop :=
  length (nth 0 A []) = n /\ (forall row, In row A -> length row <= n) /\ length w = n.
Lemma piece0_first {X} c (A : list (list X)) : 1 <= length (nth 0 A []) -> nth 0 (piece c 0 A) [] = firstn c (nth 0 A []).
Proof.
  destruct A as [|r A]; [cbn; lia|]. cbn [nth]. intros H. unfold piece. cbn [filter Nat.mul]. destruct (Nat.ltb_spec 0 (length r)); [reflexivity|lia].
Qed.
Lemma k1_step f ro tr n A w t m us : 1 <= n -> k1_fit n A w ->
  exists tr' A' w' t' us', kary_create_loop (S f) ro tr A w t n m 1 s1 p0 us = kary_create_loop f ro tr' A' w' t' n m 1 s1 p0 us' /\ k1_fit n A' w'.
Proof.
  intros Hn (F1 & F2 & F3). cbn [kary_create_loop]. destruct (Nat.leb_spec 1 n); [|lia].
  unfold udiv. rewrite Nat.div_1_r. cbn [Nat.eqb bind].
  assert (N0 : A <> []) by (intros ->; cbn in F1; lia).
  rewrite (proj1 (C96_matrix_split A n)).
  2:{ split; [auto|]. split; [auto|]. split; [exists 1; lia|]. now rewrite F1. }
  rewrite (proj1 (C96_matrix_split [w] n)).
  2:{ split; [discriminate|]. split; [auto|]. cbn [nth]. split; [exists 1; lia|]. intros row [<-|[]]. lia. }
  cbn [nth]. rewrite F1, F3, Nat.div_same by lia. cbn [bind].
  assert (EW : piece n 0 [w] = [w]).
  { unfold piece. cbn [filter Nat.mul]. destruct (Nat.ltb_spec 0 (length w)); [|lia]. cbn [map skipn]. now rewrite firstn_all2 by lia. }
  assert (T1 : forall {X} (g : nat -> X), tab 1 g = [g 0]) by reflexivity.
  rewrite !T1, EW. set (P := piece n 0 A).
  assert (U1 : u_vec_loop 0 [P] [[w]] t (repeat (repeat p0 m) 1) = Ok [t]) by reflexivity.
  change (usub 1 1) with (Ok 0). cbn [bind]. change (2 * 0 + 1) with 1. rewrite U1. cbn [bind].
  destruct (challenge_scalar _ _ _) as [x tr1].
  assert (V1 : forall y, vandemonde_vector y 1 = Ok [s1]) by reflexivity. rewrite !V1. cbn [bind].
  assert (Z1 : z_vec_loop 0 [s1] [s1] (repeat s1 1) = Ok [s1]) by reflexivity. rewrite Z1. cbn [bind].
  unfold sum_loop. cbn [seq foldM idx nth_error bind unwrap matrix_scalar_mul map length Nat.sub].
  eexists _, _, _, _, _. split; [reflexivity|].
  assert (L1 : 1 <= length (nth 0 A [])) by lia.
  assert (G : gshape (matrixpoint_scalar_mul P s1) = gshape P) by apply mpsm_gshape.
  split; [|split].
  - assert (Y : forall M : list (list Point), length (nth 0 M []) = nth 0 (gshape M) 0) by (intros [|r M]; reflexivity).
    rewrite Y, G, <- Y. unfold P. rewrite piece0_first, firstn_length by lia. lia.
  - intros row Hi. assert (Y : In (length row) (gshape P)) by (rewrite <- G; now apply in_map).
    unfold P, gshape, piece in Y. rewrite map_map in Y. apply in_map_iff in Y as (r & <- & _). rewrite firstn_length. lia.
  - now rewrite map_length.
Qed.
Lemma k1_reach f ro tr n A w t m us : 1 <= n -> kary_create_loop (S f) ro tr A w t n m 1 s1 p0 us = Panic \/ k1_fit n A w.
Proof.
  intros Hn. cbn [kary_create_loop]. destruct (Nat.leb_spec 1 n); [|lia]. unfold udiv. rewrite Nat.div_1_r. cbn [Nat.eqb bind].
  destruct (split_ok_dec A n) as [D|D]; [|left; now rewrite (proj2 (C96_matrix_split A n)) by exact D].
  rewrite (proj1 (C96_matrix_split A n)) by exact D. destruct D as (D1 & _ & (q & D2) & D3). rewrite D2, Nat.div_mul by lia. cbn [bind].
  destruct (split_row n w) as [[_ (q' & En' & E1)]|E1]; rewrite E1; cbn [bind]; [|now left].
  change (usub 1 1) with (Ok 0). cbn [bind]. change (2 * 0 + 1) with 1.
  set (A_T := tab q (fun i => piece n i A)). set (w_T := tab q' (fun i => piece n i [w])).
  assert (LA : length A_T = q) by apply tab_length. assert (LW : length w_T = q') by apply tab_length.
  destruct (u_vec_loop 0 A_T w_T t (repeat (repeat p0 m) 1)) as [u| |] eqn:EU; cbn [bind]; [|now left|now apply u_loop_ND in EU].
  destruct (challenge_scalar _ _ _) as [x tr1].
  assert (V1 : forall y, vandemonde_vector y 1 = Ok [s1]) by reflexivity. rewrite !V1. cbn [bind].
  assert (Z1 : z_vec_loop 0 [s1] [s1] (repeat s1 1) = Ok [s1]) by reflexivity. rewrite Z1. cbn [bind].
  destruct q as [|q]; [left; reflexivity|]. destruct q' as [|q'].
  { left. unfold sum_loop at 1. cbn [seq foldM]. rewrite (idx_lt A_T 0 []) by lia. reflexivity. }
  right.
  assert (Q : S q <= 1 /\ S q' <= 1).
  { unfold u_vec_loop in EU.
    set (inner := fun (A_t : list (list Point)) (i : nat) (u_vec : list (list Point)) (jw : nat * list (list Scalar)) =>
      let '(j, w_vec) := jw in
      l <- usub (0 + j) i ;;
      if negb (l =? 0) then
        w_0 <- idx w_vec 0 ;;
        let u_l_t := matrixpoint_vector_mul A_t w_0 in
        u_l <- idx u_vec l ;;
        s <- rowpoint_rowpoint_add u_l u_l_t ;;
        upd u_vec l s
      else upd u_vec l t).
    set (outer := fun (u_vec : list (list Point)) (iA : nat * list (list Point)) => let '(i, A_t) := iA in foldM (inner A_t i) (enumerate w_T) u_vec).
    change (foldM outer (enumerate A_T) (repeat (repeat p0 m) 1) = Ok u) in EU.
    assert (K : forall A_t i v jw v', length v = 1 -> inner A_t i v jw = Ok v' -> length v' = 1).
    { intros A_t i v [j wv] v' Hv E. unfold inner in E. inv_ok E. destruct (negb _).
      - inv_ok E. cbv zeta in E. inv_ok E. inv_ok E. apply upd_Ok in E as [_ ->]. now rewrite set_at_length.
      - apply upd_Ok in E as [_ ->]. now rewrite set_at_length. }
    assert (KO : forall v iA v', length v = 1 -> outer v iA = Ok v' -> length v' = 1).
    { intros v [i A_t] v' Hv. unfold outer. apply (foldM_inv (fun v => length v = 1)); [exact Hv|]. intros a jw a' _. apply K. }
    assert (ALL : forall i A_t j w_vec, nth_error A_T i = Some A_t -> nth_error w_T j = Some w_vec -> exists v v', length v = 1 /\ inner A_t i v (j, w_vec) = Ok v').
    { intros i A_t j w_vec Hi Hj.
      destruct (foldM_all (fun v => length v = 1) outer _ (repeat (repeat p0 m) 1) _ eq_refl (fun a y a' _ => KO a y a') EU (i, A_t)) as (a & a' & Ia & Ea); [now apply enumerate_In|].
      unfold outer in Ea.
      destruct (foldM_all (fun v => length v = 1) (inner A_t i) _ _ _ Ia (fun a y a' _ => K A_t i a y a') Ea (j, w_vec)) as (b & b' & Ib & Eb); [now apply enumerate_In|].
      eauto. }
    assert (GA : forall i, i < length A_T -> nth_error A_T i = Some (nth i A_T [])) by (intros; now apply nth_error_nth').
    assert (GW : forall i, i < length w_T -> nth_error w_T i = Some (nth i w_T [])) by (intros; now apply nth_error_nth').
    split.
    - destruct (Nat.le_gt_cases (S q) 1) as [|H1]; [auto|exfalso].
      destruct (ALL 1 _ 0 _ (GA 1 ltac:(lia)) (GW 0 ltac:(lia))) as (v & v' & _ & E). unfold inner in E. discriminate E.
    - destruct (Nat.le_gt_cases (S q') 1) as [|H1]; [auto|exfalso].
      destruct (ALL 0 _ 1 _ (GA 0 ltac:(lia)) (GW 1 ltac:(lia))) as (v & v' & Hv & E). unfold inner in E. change (usub (0 + 1) 0) with (Ok 1) in E.
      cbn [bind Nat.eqb negb] in E. inv_ok E. cbv zeta in E. apply bind_Ok_inv in E as (ul & E2 & _). apply idx_Ok_lt in E2. lia. }
  destruct Q as [Q1 Q2]. assert (q = 0) by lia. assert (q' = 0) by lia. subst q q'.
  split; [lia|]. split; [intros row Hi; specialize (D3 row Hi); lia|lia].
Qed.
Theorem C96_kary_prover_k1 ro tr A w t n m : 1 <= n ->
  let fits := length (nth 0 A []) = n /\ (forall row, In row A -> length row <= n) /\ length w = n in
  (fits -> forall fuel, kary_create_loop fuel ro tr A w t n m 1 s1 p0 [] = Diverge) /\
  (~ fits -> create_lmpa_noZK ro tr A w t n m 1 s1 p0 = Panic).
Proof.
  intros Hn. cbv zeta. fold (k1_fit n A w). split.
  - intros F fuel. revert tr A w t F. generalize (@nil (list (list Point))). induction fuel as [|f IH]; intros us tr A w t F; [reflexivity|].
    destruct (k1_step f ro tr n A w t m us Hn F) as (tr' & A' & w' & t' & us' & E & F'). rewrite E. now apply IH.
  - intros F. unfold create_lmpa_noZK. destruct (k1_reach n ro tr n A w t m [] Hn); [assumption|contradiction].
Qed.
(** for every k: a run that never ends *)
Theorem C96_kary_prover_loops ro tr A w t n m k :
  ((forall fuel, kary_create_loop fuel ro tr A w t n m k s1 p0 [] = Diverge) <->
   k = 1 /\ 1 <= n /\ length (nth 0 A []) = n /\ (forall row, In row A -> length row <= n) /\ length w = n) /\
  (create_lmpa_noZK ro tr A w t n m k s1 p0 = Diverge <->
   k = 1 /\ 1 <= n /\ length (nth 0 A []) = n /\ (forall row, In row A -> length row <= n) /\ length w = n).
Proof.
  assert (X : create_lmpa_noZK ro tr A w t n m k s1 p0 = Diverge ->
   k = 1 /\ 1 <= n /\ length (nth 0 A []) = n /\ (forall row, In row A -> length row <= n) /\ length w = n).
  { intros E. destruct k as [|[|k]]; [discriminate| |].
    - split; [auto|]. destruct n as [|n]; [discriminate|]. split; [lia|].
      destruct (k1_reach (S n) ro tr (S n) A w t m [] ltac:(lia)) as [P|P]; [|exact P]. unfold create_lmpa_noZK in E. congruence.
    - exfalso. revert E. apply kary_create_ND; lia. }
  assert (Y : k = 1 /\ 1 <= n /\ length (nth 0 A []) = n /\ (forall row, In row A -> length row <= n) /\ length w = n ->
    forall fuel, kary_create_loop fuel ro tr A w t n m k s1 p0 [] = Diverge).
  { intros (-> & Hn & F). apply (proj1 (C96_kary_prover_k1 ro tr A w t n m Hn) F). }
  split; split; auto.
  - intros H. apply X. apply H.
  - intros H. apply (Y H).
Qed.

Theorem C96_kary_prover_any_k ro tr A w t n m k :
  verdict (create_lmpa_noZK ro tr A w t n m k s1 p0) <->
  n < k \/
  (2 <= k /\ length (nth 0 A []) = k * (n / k) /\ (forall row, In row A -> length row = 0 \/ length row = k * (n / k)) /\
   length w = k * (n / k) /\ m = length (full_rows A) /\ length t = m /\ exists r d, 1 <= r < k /\ n / k = r * k ^ d).
Proof.
  destruct (Nat.le_gt_cases 2 k) as [Hk|Hk]; [rewrite C96_kary_prover_returns_iff by exact Hk; tauto|].
  destruct k as [|[|k]]; [|clear Hk|lia].
  { rewrite C45_kary_k0_panics. split; [intros [v E]; discriminate|lia]. }
  destruct (Nat.eq_dec n 0) as [->|Hn]; [split; [lia|intros _; apply verdict_Ok]|].
  destruct (C96_kary_prover_k1 ro tr A w t n m) as [K1 K2]; [lia|]. split; [|lia]. intros [v E]. exfalso.
  destruct (k1_reach n ro tr n A w t m []) as [P|P]; [lia|unfold create_lmpa_noZK in E; congruence|].
  unfold create_lmpa_noZK in E. rewrite (K1 P) in E. discriminate.
Qed.

(** *** the wrappers create_general and verify_general *)
Lemma create_general_split ro rng pos tr A w t n m k : exists tr1,
  create_general ro rng pos tr A w t n m k =
  ('(p, tr') <- create_lmpa_noZK ro tr1 A w t n m k s1 p0 ;; Ok (mkSimpleZKGeneral p (matrixpoint_vector_mul A (draw rng pos n)), tr')).
Proof. unfold create_general. cbv zeta. destruct (challenge_scalar _ _ _) as [be tr1]. now exists tr1. Qed.
Theorem C96_general_prover_returns_iff ro rng pos tr A w t n m k :
  (verdict (create_general ro rng pos tr A w t n m k) <->
   n < k \/
   (2 <= k /\ length (nth 0 A []) = k * (n / k) /\ (forall row, In row A -> length row = 0 \/ length row = k * (n / k)) /\
    length w = k * (n / k) /\ m = length (full_rows A) /\ length t = m /\ exists r d, 1 <= r < k /\ n / k = r * k ^ d)) /\
  (create_general ro rng pos tr A w t n m k = Diverge <->
   k = 1 /\ 1 <= n /\ length (nth 0 A []) = n /\ (forall row, In row A -> length row <= n) /\ length w = n).
Proof.
  destruct (create_general_split ro rng pos tr A w t n m k) as [tr1 ->].
  rewrite <- (C96_kary_prover_any_k ro tr1 A w t n m k), <- (proj2 (C96_kary_prover_loops ro tr1 A w t n m k)).
  destruct (create_lmpa_noZK ro tr1 A w t n m k s1 p0) as [[p tr']| |]; cbn [bind]; split; split; intros X; auto; try discriminate;
    try (apply verdict_Ok); destruct X; discriminate.
Qed.
Theorem C96_general_verdict ro tr pf A t n d k m' : 2 <= k -> n < k ^ S d -> (d = 0 \/ k ^ d <= n) ->
  let U := u_proof_Block (lamp_no_zk pf) in
  (verdict (verify_general ro tr pf A t n m' k) <->
   (d = 0 \/ rows_fit k (n / k) A) /\
   (forall i, 1 <= i < d -> Nat.divide (n / k ^ S i) (n / k ^ i)) /\
   d <= length U /\ (forall j, j < d -> kary_block k (nth j U [])) /\ A_Matrix (lamp_no_zk pf) <> [] /\
   (d = 0 -> t <> [] /\ szg_a pf <> []) /\ (1 <= d -> nth 0 (nth (d - 1) U []) [] <> [])).
Proof.
  intros Hk H1 H2 U. unfold verify_general. cbv zeta. destruct (challenge_scalar _ _ _) as [be tr1].
  rewrite (C96_kary_verdict ro tr1 (lamp_no_zk pf) A _ n d k m' p0 Hk H1 H2). fold U.
  assert (X : kary_last d (map2 (fun t_i a_i => be *: t_i + a_i)%P t (szg_a pf)) U <> [] <->
    (d = 0 -> t <> [] /\ szg_a pf <> []) /\ (1 <= d -> nth 0 (nth (d - 1) U []) [] <> [])).
  { destruct d as [|d]; cbn [kary_last].
    - split.
      + intros X. split; [|lia]. intros _. split; intros Z; apply X; rewrite Z; [reflexivity|now destruct t].
      + intros [X _] Z. destruct (X eq_refl) as [X1 X2]. destruct t; [congruence|]. destruct (szg_a pf); [congruence|discriminate].
    - replace (S d - 1) with d by lia. split; [intros X; split; [discriminate|auto]|]. intros [_ X]. apply X. lia. }
  rewrite X. tauto.
Qed.
End Ragged.

(** ** Cases *)
Example C96_case_split :
  matrix_split [[1; 2; 3; 4]; []; [5; 6; 7]; [8]] 2 = Ok [[[1; 2]; [5; 6]; [8]]; [[3; 4]; [7]]] /\
  matrix_split [[1; 2]; [3; 4; 5]] 2 = Panic /\ matrix_split [[1; 2; 3]] 2 = Panic /\ matrix_split [[]; []] 3 = Ok (@nil (list (list nat))).
Proof. vm_compute. auto. Qed.
Example C96_case_transpose :
  let tr M := rmap (map (map zp)) (matrixpoint_transpose M) in
  tr [[pN 1; pN 2; pN 3]; [pN 4]; [pN 5; pN 6]] = Ok [[1; 4; 5]; [2; 6]; [3]]%Z /\
  tr [[pN 1]; [pN 4; pN 5]] = Panic /\ tr [] = Panic /\ tr [[]; []] = Ok [].
Proof. vm_compute. auto. Qed.
(** an empty row is dropped by prover and verifier; a short one is refused; the verifier also reads
    rows that are longer than it needs; k = 1 runs for ever on fitting input *)
Example C96_case_kary :
  let W k := [repeat (pN 5) k] in
  let pf := mkLmpaKary (C := EX) [[pN 1]] [] [sN 2] (repeat [[pN 1]; [pN 2]; [pN 3]] 3) in
  let ve A n k := rmap fst (verify_lmpa_noZK ro1 [] pf A [pN 7] n 1 k s1 p0) in
  let cr A nw n m k := rmap (fun '(p, _) => length (u_proof_Block p))
     (create_lmpa_noZK ro1 [] A (repeat (sN 2) nw) (repeat (pN 7) m) n m k s1 p0) in
  ve (W 2 ++ W 0) 2 2 = Ok false /\ ve (W 2 ++ W 1) 2 2 = Panic /\ ve (W 0 ++ W 2) 2 2 = Panic /\ ve (W 4 ++ W 3 ++ W 2) 2 2 = Ok false /\
  ve (W 4 ++ W 5) 2 2 = Panic /\ ve (W 2 ++ W 1) 1 2 = Ok false /\ ve (W 2) 2 1 = Panic /\ ve (W 2) 0 1 = Ok false /\ ve (W 2) 0 0 = Panic /\
  cr (W 2 ++ W 0) 2 2 1 2 = Ok 1 /\ cr (W 2 ++ W 0) 2 2 2 2 = Panic /\ cr (W 2 ++ W 2) 2 2 2 2 = Ok 1 /\ cr (W 4 ++ W 3) 4 4 2 2 = Panic /\
  cr (W 0 ++ W 2) 2 2 1 2 = Panic /\ cr (W 3 ++ W 1) 3 3 9 1 = Diverge /\ cr (W 3 ++ W 4) 3 3 9 1 = Panic /\ cr (W 3) 0 0 1 1 = Ok 0 /\
  cr (W 3) 0 0 1 0 = Panic.
Proof. vm_compute. repeat split. Qed.
