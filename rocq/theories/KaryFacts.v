(** Closed form of one round of the k-ary linear-map preimage argument. *)
From Coq Require Import String.
From Verif Require Export KarySpec LmpaFacts.
Local Open Scope nat_scope.
Local Open Scope list_scope.

Lemma nth_firstn_lt {T} c (l : list T) s d : s < c -> nth s (firstn c l) d = nth s l d.
Proof.
  revert l s; induction c as [|c IH]; intros [|a l] [|s] H; cbn; auto; try lia.
  apply IH. lia.
Qed.
Lemma nth_skipn_eq {T} c (l : list T) s d : nth s (skipn c l) d = nth (c + s) l d.
Proof.
  revert l; induction c as [|c IH]; intros [|a l]; cbn; auto. now destruct s.
Qed.
Lemma enumerate_tab {T} k (f : nat -> T) : enumerate (tab k f) = map (fun i => (i, f i)) (seq 0 k).
Proof.
  unfold enumerate. rewrite tab_length. unfold tab. generalize (seq 0 k). intros l.
  induction l as [|a l IH]; cbn; auto. now rewrite IH.
Qed.
Lemma list_prod_map {A B A' B'} (f : A -> A') (g : B -> B') l l' :
  list_prod (map f l) (map g l') = map (fun p => (f (fst p), g (snd p))) (list_prod l l').
Proof.
  induction l as [|a l IH]; cbn; auto. rewrite map_app, IH, !map_map. reflexivity.
Qed.
Lemma foldM_nested {A X Y} (h : A -> X -> Y -> res A) xs ys a :
  foldM (fun a x => foldM (fun a y => h a x y) ys a) xs a =
  foldM (fun a p => h a (fst p) (snd p)) (list_prod xs ys) a.
Proof.
  revert a; induction xs as [|x xs IH]; intros a; cbn [foldM list_prod]; auto.
  rewrite foldM_app, foldM_map. cbn [fst snd].
  destruct (foldM _ ys a); cbn [bind]; auto.
Qed.
Lemma set_at_tab {T} N (f : nat -> T) l v : set_at (tab N f) l v = tab N (fun i => if i =? l then v else f i).
Proof.
  assert (D : N = 0 \/ 0 < N) by lia. destruct D as [->|D]; [now destruct l|].
  apply (tab_eq (f 0)).
  - now rewrite set_at_length, tab_length.
  - intros i Hi. rewrite nth_set_at, tab_length, tab_nth by auto.
    rewrite (Nat.eqb_sym i l). destruct (Nat.eqb_spec l i) as [->|]; cbn [andb]; auto.
    destruct (Nat.ltb_spec i N); [reflexivity|lia].
Qed.

Section KaryFacts.
Context {C : Crypto} {L : CryptoLaws C}.
Add Field SfKF : (@S_field C L).

(** ** list sums *)
Definition Lsum {T} (f : T -> Point) (l : list T) : Point := fold_right (fun p acc => f p + acc)%P p0 l.
Lemma Lsum_app {T} (f : T -> Point) l l' : Lsum f (l ++ l') = (Lsum f l + Lsum f l')%P.
Proof. unfold Lsum. induction l as [|a l IH]; cbn [app fold_right]; [pring|]. rewrite IH. pring. Qed.
Lemma Lsum_map {T T'} (f : T -> Point) (g : T' -> T) l : Lsum f (map g l) = Lsum (fun x => f (g x)) l.
Proof. unfold Lsum. induction l as [|a l IH]; cbn [map fold_right]; auto. now rewrite IH. Qed.
Lemma Lsum_seq f k : Lsum f (seq 0 k) = sum_P k f.
Proof.
  induction k as [|k IH]; [reflexivity|]. rewrite seq_S, Lsum_app, IH. unfold Lsum. cbn [fold_right sum_P Nat.add]. pring.
Qed.
Lemma Lsum_prod {A B} (f : A * B -> Point) l l' :
  Lsum f (list_prod l l') = Lsum (fun a => Lsum (fun b => f (a, b)) l') l.
Proof.
  induction l as [|a l IH]; cbn [list_prod]; [reflexivity|].
  rewrite Lsum_app, IH, Lsum_map. reflexivity.
Qed.
Lemma Lsum_ext {T} (f g : T -> Point) l : (forall x, In x l -> f x = g x) -> Lsum f l = Lsum g l.
Proof.
  unfold Lsum. induction l as [|a l IH]; cbn [fold_right In]; intros H; auto. rewrite H by auto. now rewrite IH by auto.
Qed.
Lemma sum_P_single n i f : i < n -> (forall j, j < n -> j <> i -> f j = p0) -> sum_P n f = f i.
Proof.
  revert i; induction n as [|n IH]; intros i Hi H; [lia|]. cbn.
  destruct (Nat.eq_dec i n) as [->|Hn].
  - rewrite sum_P_0; [pring|]. intros j Hj. apply H; lia.
  - rewrite (IH i) by (try lia; intros; apply H; lia). rewrite (H n) by lia. pring.
Qed.
Lemma sum_P_blocks k c f : sum_P (k * c) f = sum_P k (fun i => sum_P c (fun s => f (i * c + s))).
Proof.
  induction k as [|k IH]; [reflexivity|]. cbn [sum_P].
  replace (S k * c) with (k * c + c) by lia. rewrite sum_P_app, IH. reflexivity.
Qed.
Lemma pmul_sum_S n f (P : Point) : (sum_S n f *: P = sum_P n (fun i => f i *: P))%P.
Proof. symmetry. apply sum_P_mul_s. Qed.

(** ** generic loops *)
Lemma sum_loop_spec {T} (f : nat -> res T) add (R g : nat -> T) k : 1 <= k ->
  (forall i, i < k -> f i = Ok (g i)) -> R 1 = g 0 ->
  (forall i, 1 <= i < k -> add (R i) (g i) = Ok (R (S i))) ->
  sum_loop f add k = Ok (R k).
Proof.
  intros Hk Hf H1 Hs. unfold sum_loop.
  enough (E : forall j, 1 <= j <= k -> foldM (fun acc i =>
           tmp <- f i ;;
           match acc with
           | None => Ok (Some tmp)
           | Some a => s <- add a tmp ;; Ok (Some s)
           end) (seq 0 j) None = Ok (Some (R j))).
  { rewrite E by lia. reflexivity. }
  induction j as [|j IH]; intros Hj; [lia|]. rewrite seq_S, foldM_app. cbn [Nat.add].
  destruct j as [|j].
  - cbn [seq foldM bind]. rewrite Hf by lia. cbn [bind]. now rewrite H1.
  - rewrite IH by lia. cbn [foldM bind]. rewrite Hf by lia. cbn [bind]. rewrite Hs by lia. reflexivity.
Qed.
Lemma mpsm_mat r c M x : rect r c M ->
  matrixpoint_scalar_mul M x = mat r c (fun i j => x *: pent M i j)%P.
Proof.
  intros HM. rewrite (mat_eta p0 r c M HM) at 1. unfold matrixpoint_scalar_mul, mat.
  rewrite map_tab. apply tab_ext. intros i Hi. rewrite map_tab. reflexivity.
Qed.
Lemma rpa_tab n f g : rowpoint_rowpoint_add (tab n f) (tab n g) = Ok (tab n (fun i => f i + g i)%P).
Proof. unfold rowpoint_rowpoint_add. rewrite !tab_length, Nat.eqb_refl. cbn [assertb bind]. now rewrite map2_tab. Qed.
Lemma mpma_mat r c f g :
  matrixpoint_matrix_add (mat r c f) (mat r c g) = Ok (mat r c (fun i j => f i j + g i j)%P).
Proof.
  change (@matrixpoint_matrix_add C) with (matrix_matrix_add_general padd). rewrite mma_map2.
  - f_equal. unfold mat. rewrite map2_tab. apply tab_ext. intros i Hi. apply map2_tab.
  - split; unfold mat; rewrite !tab_length; auto. intros i Hi.
    rewrite !tab_nth by auto. now rewrite !tab_length.
Qed.
Lemma pent_mat m n f i j : i < m -> j < n -> pent (mat m n f) i j = f i j.
Proof. intros. unfold pent, pt. now apply mat_nth. Qed.
Lemma sc_tab' n f i : i < n -> sc (tab n f) i = f i.
Proof. intros. unfold sc. now apply tab_nth. Qed.
Lemma pt_tab' n f i : i < n -> pt (tab n f) i = f i.
Proof. intros. unfold pt. now apply tab_nth. Qed.

(** ** pieces *)
Lemma pent_part m q c A i r s : rect m (q * c) A -> r < m -> s < c ->
  pent (part_of A c i) r s = pent A r (i * c + s).
Proof.
  intros [HA _] Hr Hs. unfold pent, pt, part_of.
  rewrite (nth_indep _ [] (firstn c (skipn (i * c) []))) by (rewrite map_length; lia).
  rewrite (map_nth (fun row => firstn c (skipn (i * c) row))).
  now rewrite nth_firstn_lt, nth_skipn_eq by auto.
Qed.
Lemma part_of_row q c (w : list Scalar) j : length w = q * c -> j < q ->
  part_of [w] c j = [tab c (fun s => sc w (j * c + s))].
Proof.
  intros Hw Hj. unfold part_of. cbn [map]. f_equal. apply (tab_eq s0).
  - rewrite firstn_length, skipn_length. nia.
  - intros s Hs. now rewrite nth_firstn_lt, nth_skipn_eq by auto.
Qed.
Lemma rect1 {T} (w : list T) n : length w = n -> rect 1 n [w].
Proof. intros H. split; auto. Qed.

(** row r of (piece i of A) (piece j of w) *)
Lemma part_lin m q c A (w : list Scalar) i j : rect m (q * c) A -> length w = q * c -> i < q -> j < q ->
  matrixpoint_vector_mul (part_of A c i) (tab c (fun s => sc w (j * c + s))) =
  tab m (fun r => ka_cross c A w i j r).
Proof.
  intros HA Hw Hi Hj. assert (HP := part_of_rect m c q i A HA Hi).
  rewrite mpv_lin. apply (tab_eq p0); [rewrite map_length; apply HP|].
  intros r Hr. rewrite (nth_indep _ p0 (lin (tab c (fun s => sc w (j * c + s))) [])) by (rewrite map_length; destruct HP; lia).
  rewrite (map_nth (fun row => lin _ row)).
  rewrite (lin_sum c); [|apply tab_length|rewrite (rect_row m c); auto].
  unfold ka_cross. apply sum_P_ext. intros s Hs. rewrite sc_tab' by auto.
  f_equal. apply (pent_part m q); auto.
Qed.

(** ** the u messages *)
Section U.
Context (k c m : nat) (A : list (list Point)) (w : list Scalar) (t : list Point).
Context (Hk : 1 <= k) (HA : rect m (k * c) A) (Hw : length w = k * c) (Ht : length t = m).
Let N := 2 * (k - 1) + 1.
Definition ustep (uf : nat -> nat -> Point) (p : nat * nat) : nat -> nat -> Point :=
  let '(i, j) := p in
  fun l r => if l =? k - 1 + j - i then
               (if k - 1 + j - i =? k - 1 then pt t r else uf l r + ka_cross c A w i j r)%P
             else uf l r.

Lemma upd_mat (uf : nat -> nat -> Point) l (row : nat -> Point) : l < N -> upd (mat N m uf) l (tab m row) =
  Ok (mat N m (fun l' r => if l' =? l then row r else uf l' r)).
Proof.
  intros Hl. rewrite upd_lt by (unfold mat; now rewrite tab_length). f_equal.
  unfold mat. rewrite set_at_tab. apply tab_ext. intros i Hi. destruct (i =? l); reflexivity.
Qed.
Lemma ustep_ok (uf : nat -> nat -> Point) i j : i < k -> j < k ->
  (l <- usub (k - 1 + j) i ;;
      if negb (l =? k - 1) then
        w_0 <- idx (part_of [w] c j) 0 ;;
        let u_l_t := matrixpoint_vector_mul (part_of A c i) w_0 in
        u_l <- idx (mat N m uf) l ;;
        s <- rowpoint_rowpoint_add u_l u_l_t ;;
        upd (mat N m uf) l s
      else upd (mat N m uf) l t) = Ok (mat N m (ustep uf (i, j))).
Proof.
  intros Hi Hj. rewrite usub_le by lia. cbn [bind]. set (l := k - 1 + j - i).
  assert (Hl : l < N) by (unfold l, N; lia).
  assert (Et : t = tab m (pt t)) by (apply (tab_eq p0); auto).
  destruct (Nat.eqb_spec l (k - 1)) as [E|E]; cbn [negb].
  - rewrite Et at 1. rewrite upd_mat by auto. f_equal. apply mat_ext. intros l' r _ _.
    unfold ustep. fold l. destruct (l' =? l); auto.
    destruct (Nat.eqb_spec l (k - 1)); [reflexivity|contradiction].
  - rewrite (part_of_row k) by auto. cbn [idx nth_error bind]. cbv zeta.
    rewrite (part_lin m k) by auto.
    rewrite (idx_lt _ _ []) by (unfold mat; now rewrite tab_length). cbn [bind].
    unfold mat at 1. rewrite tab_nth by auto. rewrite rpa_tab. cbn [bind].
    rewrite upd_mat by auto. f_equal. apply mat_ext. intros l' r _ _.
    unfold ustep. fold l. destruct (Nat.eqb_spec l' l) as [->|]; auto.
    destruct (Nat.eqb_spec l (k - 1)); [contradiction|reflexivity].
Qed.
Definition ubody (u_vec : list (list Point)) (iA : nat * list (list Point)) (jw : nat * list (list Scalar)) :=
  let '(i, A_t) := iA in let '(j, w_vec) := jw in
  l <- usub (k - 1 + j) i ;;
  if negb (l =? k - 1) then
    w_0 <- idx w_vec 0 ;;
    let u_l_t := matrixpoint_vector_mul A_t w_0 in
    u_l <- idx u_vec l ;;
    s <- rowpoint_rowpoint_add u_l u_l_t ;;
    upd u_vec l s
  else upd u_vec l t.
Lemma u_loop_fold (uf : nat -> nat -> Point) :
  u_vec_loop (k - 1) (tab k (part_of A c)) (tab k (part_of [w] c)) t (mat N m uf) =
  Ok (mat N m (fold_left ustep (list_prod (seq 0 k) (seq 0 k)) uf)).
Proof.
  unfold u_vec_loop.
  transitivity (foldM (fun u_vec p => ubody u_vec (fst p) (snd p))
     (list_prod (enumerate (tab k (part_of A c))) (enumerate (tab k (part_of [w] c)))) (mat N m uf)).
  { rewrite <- (foldM_nested ubody). apply foldM_ext. intros u [i A_t] _. apply foldM_ext. intros u' [j w_vec] _. reflexivity. }
  rewrite !enumerate_tab, list_prod_map, foldM_map.
  assert (Hin : forall p, In p (list_prod (seq 0 k) (seq 0 k)) -> fst p < k /\ snd p < k).
  { intros [i j] H. apply in_prod_iff in H as [H1 H2]. apply in_seq in H1, H2. cbn. lia. }
  revert Hin uf. generalize (list_prod (seq 0 k) (seq 0 k)). intros ps.
  induction ps as [|[i j] ps IH]; intros Hin uf; cbn [foldM fold_left]; [reflexivity|].
  destruct (Hin (i, j) (or_introl eq_refl)) as [H1 H2]. cbn [fst snd] in H1, H2 |- *.
  unfold ubody at 1. rewrite ustep_ok by auto. cbn [bind]. apply IH. intros p Hp. apply Hin. now right.
Qed.
Lemma ustep_fold ps : (forall p, In p ps -> fst p < k) -> forall uf l r,
  fold_left ustep ps uf l r =
  if l =? k - 1 then (if existsb (fun p => fst p =? snd p) ps then pt t r else uf l r)
  else (uf l r + Lsum (fun p => if k - 1 + snd p =? l + fst p then ka_cross c A w (fst p) (snd p) r else p0) ps)%P.
Proof.
  induction ps as [|[i j] ps IH]; intros Hin uf l r; cbn [fold_left existsb Lsum fold_right].
  - destruct (l =? k - 1); [reflexivity|pring].
  - assert (Hi : i < k) by exact (Hin (i, j) (or_introl eq_refl)).
    rewrite IH by (intros p Hp; apply Hin; now right). unfold ustep. cbn [fst snd].
    destruct (Nat.eqb_spec l (k - 1)) as [E|E].
    + destruct (existsb _ ps); [now rewrite orb_true_r|]. rewrite orb_false_r.
      destruct (Nat.eqb_spec l (k - 1 + j - i)); destruct (Nat.eqb_spec i j); try lia; auto.
      destruct (Nat.eqb_spec (k - 1 + j - i) (k - 1)); [reflexivity|lia].
    + fold (@Lsum (nat * nat)).
      destruct (Nat.eqb_spec l (k - 1 + j - i)); destruct (Nat.eqb_spec (k - 1 + j) (l + i)); try lia.
      * destruct (Nat.eqb_spec (k - 1 + j - i) (k - 1)); [lia|]. unfold Lsum. pring.
      * unfold Lsum. pring.
Qed.
Lemma u_vec_loop_eq :
  u_vec_loop (k - 1) (tab k (part_of A c)) (tab k (part_of [w] c)) t (repeat (repeat p0 m) N) =
  Ok (ka_u k c m A w t).
Proof.
  assert (E : repeat (repeat p0 m) N = mat N m (fun _ _ => p0)).
  { apply (tab_eq []); [apply repeat_length|]. intros i Hi.
    rewrite (nth_indep _ [] (repeat p0 m)) by (now rewrite repeat_length). rewrite nth_repeat.
    apply (tab_eq p0); [apply repeat_length|]. intros s Hs. apply nth_repeat. }
  rewrite E, u_loop_fold. f_equal. unfold ka_u. fold N. apply mat_ext. intros l r Hl Hr.
  rewrite ustep_fold.
  - destruct (l =? k - 1).
    + replace (existsb _ _) with true; [reflexivity|]. symmetry. apply existsb_exists.
      exists (0, 0). split; [|reflexivity]. apply in_prod_iff. rewrite !in_seq. lia.
    + rewrite Lsum_prod, Lsum_seq, padd_0_l. apply sum_P_ext. intros i Hi. rewrite Lsum_seq. reflexivity.
  - intros [i j] H. apply in_prod_iff in H as [H1 _]. apply in_seq in H1. cbn. lia.
Qed.
End U.

(** ** the z vector *)
Section Z.
Context (k : nat) (x : Scalar) (Hk : 1 <= k).
Let N := 2 * (k - 1) + 1.
Let y := sinv x.
Definition zstep (zf : nat -> Scalar) (p : nat * nat) : nat -> Scalar :=
  let '(i, j) := p in
  fun l => if (l =? k - 1 + j - i) && negb (l =? k - 1) then (spow x i * spow (sinv x) j)%S else zf l.
Lemma zstep_ok (zf : nat -> Scalar) i j : i < k -> j < k ->
  (l <- usub (k - 1 + j) i ;;
   if negb (l =? k - 1) then upd (tab N zf) l (spow x i * spow (sinv x) j)%S else Ok (tab N zf))
  = Ok (tab N (zstep zf (i, j))).
Proof.
  intros Hi Hj. rewrite usub_le by lia. cbn [bind]. set (l := k - 1 + j - i).
  assert (Hl : l < N) by (unfold l, N; lia).
  destruct (Nat.eqb_spec l (k - 1)) as [E|E]; cbn [negb].
  - f_equal. apply tab_ext. intros l' _. unfold zstep. fold l.
    destruct (Nat.eqb_spec l' l) as [->|]; cbn [andb]; auto.
    destruct (Nat.eqb_spec l (k - 1)); [reflexivity|contradiction].
  - rewrite upd_lt by (now rewrite tab_length). f_equal. rewrite set_at_tab. apply tab_ext. intros l' _.
    unfold zstep. fold l. destruct (Nat.eqb_spec l' l) as [->|]; cbn [andb]; auto.
    destruct (Nat.eqb_spec l (k - 1)); [contradiction|reflexivity].
Qed.
Definition zbody (z_vec : list Scalar) (ix jy : nat * Scalar) :=
  let '(i, x) := ix in let '(j, y) := jy in
  l <- usub (k - 1 + j) i ;;
  if negb (l =? k - 1) then upd z_vec l (x * y)%S else Ok z_vec.
Lemma z_loop_fold (zf : nat -> Scalar) :
  z_vec_loop (k - 1) (powers0 x k) (powers0 (sinv x) k) (tab N zf) =
  Ok (tab N (fold_left zstep (list_prod (seq 0 k) (seq 0 k)) zf)).
Proof.
  unfold z_vec_loop, powers0.
  transitivity (foldM (fun z_vec p => zbody z_vec (fst p) (snd p))
     (list_prod (enumerate (tab k (fun i => spow x i))) (enumerate (tab k (fun i => spow (sinv x) i)))) (tab N zf)).
  { rewrite <- (foldM_nested zbody). apply foldM_ext. intros u [i X] _. apply foldM_ext. intros u' [j Y] _. reflexivity. }
  rewrite !enumerate_tab, list_prod_map, foldM_map.
  assert (Hin : forall p, In p (list_prod (seq 0 k) (seq 0 k)) -> fst p < k /\ snd p < k).
  { intros [i j] H. apply in_prod_iff in H as [H1 H2]. apply in_seq in H1, H2. cbn. lia. }
  revert Hin zf. generalize (list_prod (seq 0 k) (seq 0 k)). intros ps.
  induction ps as [|[i j] ps IH]; intros Hin zf; cbn [foldM fold_left]; [reflexivity|].
  destruct (Hin (i, j) (or_introl eq_refl)) as [H1 H2]. cbn [fst snd] in H1, H2 |- *.
  unfold zbody at 1. rewrite zstep_ok by auto. cbn [bind]. apply IH. intros p Hp. apply Hin. now right.
Qed.
Lemma spow_cancel a : x <> s0 -> forall b, (spow x (a + b) * spow (sinv x) a = spow x b)%S.
Proof.
  intros Hx. induction a as [|a IH]; intros b; cbn [spow Nat.add]; [ring|].
  transitivity (spow x (a + b) * spow (sinv x) a * (x * sinv x))%S; [ring|].
  rewrite IH, sinv_r by auto. ring.
Qed.
Lemma spow_cancel' a : x <> s0 -> forall b, (spow x a * spow (sinv x) (a + b) = spow (sinv x) b)%S.
Proof.
  intros Hx. induction a as [|a IH]; intros b; cbn [spow Nat.add]; [ring|].
  transitivity (spow x a * spow (sinv x) (a + b) * (x * sinv x))%S; [ring|].
  rewrite IH, sinv_r by auto. ring.
Qed.
Lemma ka_z_pair l i j : x <> s0 -> i < k -> j < k -> k - 1 + j = l + i ->
  (spow x i * spow (sinv x) j)%S = ka_z k x l.
Proof.
  intros Hx Hi Hj E. unfold ka_z. destruct (Nat.le_ge_cases j i) as [H|H].
  - replace (l - (k - 1)) with 0 by lia. replace (k - 1 - l) with (i - j) by lia. cbn [spow].
    replace i with (j + (i - j)) at 1 by lia. rewrite spow_cancel by auto. ring.
  - replace (k - 1 - l) with 0 by lia. replace (l - (k - 1)) with (j - i) by lia. cbn [spow].
    replace j with (i + (j - i)) at 1 by lia. rewrite spow_cancel' by auto. ring.
Qed.
Lemma ka_z_mid : ka_z k x (k - 1) = s1.
Proof. unfold ka_z. rewrite Nat.sub_diag. cbn. ring. Qed.
Lemma zstep_fold ps : x <> s0 -> (forall p, In p ps -> fst p < k /\ snd p < k) -> forall zf l,
  fold_left zstep ps zf l =
  if (l =? k - 1) || negb (existsb (fun p => k - 1 + snd p =? l + fst p) ps) then zf l else ka_z k x l.
Proof.
  intros Hx. induction ps as [|[i j] ps IH]; intros Hin zf l; cbn [fold_left existsb].
  - cbn [negb]. now rewrite orb_true_r.
  - destruct (Hin (i, j) (or_introl eq_refl)) as [Hi Hj]. cbn [fst snd] in Hi, Hj |- *.
    rewrite IH by (intros p Hp; apply Hin; now right). unfold zstep.
    destruct (Nat.eqb_spec l (k - 1)) as [E|E]; cbn [orb negb].
    + now rewrite andb_false_r.
    + rewrite andb_true_r. destruct (existsb _ ps); [now rewrite orb_true_r|]. rewrite orb_false_r. cbn [negb].
      destruct (Nat.eqb_spec l (k - 1 + j - i)); destruct (Nat.eqb_spec (k - 1 + j) (l + i)); try lia; cbn [negb]; auto.
      now apply ka_z_pair.
Qed.
Lemma repeat_tab {T} (a : T) n : repeat a n = tab n (fun _ => a).
Proof. apply (tab_eq a); [apply repeat_length|]. intros i _. apply nth_repeat. Qed.
(** the z vector computed by the loop, for any x *)
Definition kzf : nat -> Scalar := fold_left zstep (list_prod (seq 0 k) (seq 0 k)) (fun _ => s1).
Lemma z_vec_loop_ok :
  z_vec_loop (k - 1) (powers0 x k) (powers0 (sinv x) k) (repeat s1 N) = Ok (tab N kzf).
Proof. rewrite repeat_tab. apply z_loop_fold. Qed.
Lemma kzf_eq l : x <> s0 -> l < N -> kzf l = ka_z k x l.
Proof.
  intros Hx Hl. unfold kzf. rewrite zstep_fold; auto.
  - destruct (Nat.eqb_spec l (k - 1)) as [->|E]; cbn [orb]; [now rewrite ka_z_mid|].
    replace (existsb _ _) with true; [reflexivity|]. symmetry. apply existsb_exists.
    destruct (Nat.lt_ge_cases l (k - 1)).
    + exists (k - 1 - l, 0). split; [|apply Nat.eqb_eq; cbn; lia]. apply in_prod_iff. rewrite !in_seq. lia.
    + exists (0, l - (k - 1)). split; [|apply Nat.eqb_eq; cbn; lia]. apply in_prod_iff. rewrite !in_seq. unfold N in Hl. lia.
  - intros [i j] H. apply in_prod_iff in H as [H1 H2]. apply in_seq in H1, H2. cbn. lia.
Qed.
End Z.

(** ** the folded matrix, witness and target *)
Lemma fold_A_loop m q c k x A : 1 <= k -> k <= q -> rect m (q * c) A ->
  sum_loop (fun i => A_i <- idx (tab q (part_of A c)) i ;; x_i <- idx (powers0 x k) i ;;
                     Ok (matrixpoint_scalar_mul A_i x_i)) matrixpoint_matrix_add k
  = Ok (ka_A k c m x A).
Proof.
  intros Hk Hq HA.
  rewrite (sum_loop_spec _ _ (fun j => mat m c (fun r s => sum_P j (fun i => spow x i *: pent A r (i * c + s))%P))
            (fun i => mat m c (fun r s => spow x i *: pent A r (i * c + s))%P)); auto.
  - intros i Hi. rewrite (idx_lt _ _ []) by (rewrite tab_length; lia). cbn [bind].
    rewrite (idx_lt _ _ s0) by (rewrite powers0_length; lia). cbn [bind]. f_equal.
    rewrite tab_nth by lia. rewrite (mpsm_mat m c) by (apply (part_of_rect m c q); auto; lia).
    apply mat_ext. intros r s Hr Hs. rewrite (pent_part m q) by auto. f_equal. now apply powers0_nth.
  - apply mat_ext. intros. cbn [sum_P]. pring.
  - intros i Hi. rewrite mpma_mat. reflexivity.
Qed.
Lemma fold_w_loop q c k x (w : list Scalar) : 1 <= k -> k <= q -> length w = q * c ->
  sum_loop (fun i => w_i <- idx (tab q (part_of [w] c)) i ;; y_i <- idx (powers0 (sinv x) k) i ;;
                     Ok (matrix_scalar_mul w_i y_i)) matrix_matrix_add k
  = Ok [ka_w k c x w].
Proof.
  intros Hk Hq Hw.
  rewrite (sum_loop_spec _ _ (fun j => mat 1 c (fun _ s => sum_S j (fun i => spow (sinv x) i * sc w (i * c + s))%S))
            (fun i => mat 1 c (fun _ s => spow (sinv x) i * sc w (i * c + s))%S)); auto.
  - intros i Hi. rewrite (idx_lt _ _ []) by (rewrite tab_length; lia). cbn [bind].
    rewrite (idx_lt _ _ s0) by (rewrite powers0_length; lia). cbn [bind]. f_equal.
    rewrite tab_nth by lia. rewrite (part_of_row q) by (auto; lia).
    rewrite (matrix_scalar_mul_mat 1 c) by (apply rect1, tab_length).
    apply mat_ext. intros r s Hr Hs. assert (r = 0) by lia. subst r. unfold ent. cbn [nth].
    rewrite sc_tab' by auto. f_equal. now apply powers0_nth.
  - apply mat_ext. intros. cbn [sum_S]. ring.
  - intros i Hi. rewrite matrix_matrix_add_mat. reflexivity.
Qed.
Lemma fold_t_loop N m (u : list (list Point)) zf : 1 <= N -> N <= length u -> Forall (fun r => length r = m) u ->
  sum_loop (fun i => u_i <- idx u i ;; z_i <- idx (tab N zf) i ;;
                     Ok (vectorpoint_scalar_mul u_i z_i)) rowpoint_rowpoint_add N
  = Ok (tab m (fun r => sum_P N (fun l => zf l *: pent u l r)%P)).
Proof.
  intros HN Hu HF.
  rewrite (sum_loop_spec _ _ (fun j => tab m (fun r => sum_P j (fun l => zf l *: pent u l r)%P))
            (fun l => tab m (fun r => zf l *: pent u l r)%P)); auto.
  - intros i Hi. rewrite (idx_lt _ _ []) by lia. cbn [bind].
    rewrite (idx_lt _ _ s0) by (rewrite tab_length; lia). cbn [bind]. f_equal. rewrite tab_nth by auto.
    unfold vectorpoint_scalar_mul. apply (tab_eq p0).
    + rewrite map_length. rewrite Forall_forall in HF. apply HF, nth_In. lia.
    + intros r Hr. assert (Hl : length (nth i u []) = m) by (rewrite Forall_forall in HF; apply HF, nth_In; lia).
      rewrite (nth_indep _ p0 (zf i *: p0)%P) by (rewrite map_length; lia).
      now rewrite (map_nth (fun p => zf i *: p)%P).
  - apply tab_ext. intros. cbn [sum_P]. pring.
  - intros i Hi. rewrite rpa_tab. reflexivity.
Qed.

(** ** the round identity *)
Lemma ka_A_rect k c m x A : rect m c (ka_A k c m x A).
Proof. apply mat_rect. Qed.
Lemma ka_w_length k c x w : length (ka_w k c x w) = c.
Proof. apply tab_length. Qed.
Lemma ka_u_rect k c m A w t : rect (2 * (k - 1) + 1) m (ka_u k c m A w t).
Proof. apply mat_rect. Qed.
Lemma ka_t_length k m x u : length (ka_t k m x u) = m.
Proof. apply tab_length. Qed.
Lemma pmv_pt m n A w r : rect m n A -> length w = n -> r < m ->
  pt (pmv A w) r = sum_P n (fun s => sc w s *: pent A r s)%P.
Proof.
  intros [HA _] Hw Hr. unfold pt, pmv. rewrite (nth_indep _ p0 (comb w [])) by (rewrite map_length; lia).
  rewrite (map_nth (fun row => comb w row)). unfold comb. now rewrite Hw.
Qed.
Lemma round_id k c m x A w : 1 <= k -> x <> s0 -> rect m (k * c) A -> length w = k * c ->
  pmv (ka_A k c m x A) (ka_w k c x w) = ka_t k m x (ka_u k c m A w (pmv A w)).
Proof.
  intros Hk Hx HA Hw. apply (tab_eq p0).
  { unfold pmv. rewrite map_length. apply ka_A_rect. }
  intros r Hr. change (nth r (pmv (ka_A k c m x A) (ka_w k c x w)) p0) with (pt (pmv (ka_A k c m x A) (ka_w k c x w)) r).
  rewrite (pmv_pt m c) by auto using ka_A_rect, ka_w_length.
  transitivity (sum_P k (fun i => sum_P k (fun j => (spow x i * spow (sinv x) j)%S *: ka_cross c A w i j r)%P)).
  - rewrite (sum_P_ext c _ (fun s => sum_P k (fun i => sum_P k (fun j =>
        (spow x i * spow (sinv x) j)%S *: (sc w (j * c + s) *: pent A r (i * c + s))))%P)).
    + rewrite (sum_P_swap c k). apply sum_P_ext. intros i Hi. rewrite (sum_P_swap c k). apply sum_P_ext. intros j Hj.
      rewrite sum_P_mul. reflexivity.
    + intros s Hs. unfold ka_w, ka_A. rewrite sc_tab', pent_mat by auto.
      rewrite <- sum_P_mul. apply sum_P_ext. intros i Hi. rewrite pmul_sum_S.
      apply sum_P_ext. intros j Hj. pring.
  - symmetry.
    rewrite (sum_P_ext _ _ (fun l => sum_P k (fun i => sum_P k (fun j =>
       if k - 1 + j =? l + i then ((spow x i * spow (sinv x) j)%S *: ka_cross c A w i j r)%P else p0)))).
    + rewrite sum_P_swap. apply sum_P_ext. intros i Hi. rewrite sum_P_swap. apply sum_P_ext. intros j Hj.
      rewrite (sum_P_single _ (k - 1 + j - i)); [|lia|].
      * destruct (Nat.eqb_spec (k - 1 + j) (k - 1 + j - i + i)); [reflexivity|lia].
      * intros l Hl Hne. destruct (Nat.eqb_spec (k - 1 + j) (l + i)); [lia|reflexivity].
    + intros l Hl. unfold ka_u. rewrite pent_mat by auto.
      transitivity (ka_z k x l *: sum_P k (fun i => sum_P k (fun j =>
           if k - 1 + j =? l + i then ka_cross c A w i j r else p0)))%P.
      * destruct (Nat.eqb_spec l (k - 1)) as [->|]; [|reflexivity]. f_equal.
        rewrite (pmv_pt m (k * c)) by auto. rewrite sum_P_blocks. apply sum_P_ext. intros i Hi.
        rewrite (sum_P_single k i); auto.
        -- rewrite Nat.eqb_refl. reflexivity.
        -- intros j Hj Hne. destruct (Nat.eqb_spec (k - 1 + j) (k - 1 + i)); [lia|reflexivity].
      * rewrite <- sum_P_mul. apply sum_P_ext. intros i Hi. rewrite <- sum_P_mul. apply sum_P_ext. intros j Hj.
        destruct (Nat.eqb_spec (k - 1 + j) (l + i)); [|pring].
        rewrite (ka_z_pair k x Hk l i j); auto.
Qed.

(** ** one iteration of each loop *)
Lemma fold_append tr (u : list (list Point)) :
  fold_left (fun tr u_v => append_points tr "u_l" u_v) u tr ++ [EvChal "challenge_x"] = tr ++ ka_round u.
Proof.
  unfold ka_round. rewrite app_assoc. f_equal. revert tr; induction u as [|v u IH]; intros tr; cbn [fold_left map concat].
  - now rewrite app_nil_r.
  - rewrite IH, append_points_eq. now rewrite <- app_assoc.
Qed.
(** the new target computed from the messages *)
Definition ktgt (k m : nat) (x : Scalar) (u : list (list Point)) : list Point :=
  tab m (fun r => sum_P (2 * (k - 1) + 1) (fun l => kzf k x l *: pent u l r)%P).
Lemma ktgt_eq k m x u : 1 <= k -> x <> s0 -> ktgt k m x u = ka_t k m x u.
Proof.
  intros Hk Hx. apply tab_ext. intros r _. apply sum_P_ext. intros l Hl. now rewrite kzf_eq.
Qed.
Lemma ktgt_length k m x u : length (ktgt k m x u) = m.
Proof. apply tab_length. Qed.
Lemma kary_create_step f ro tr A w t m k c us : 1 <= k -> 1 <= m -> 1 <= c ->
  rect m (k * c) A -> length w = k * c -> length t = m ->
  let u := ka_u k c m A w t in let tr1 := tr ++ ka_round u in let x := ro tr1 in
  kary_create_loop (S f) ro tr A w t (k * c) m k s1 p0 us =
  kary_create_loop f ro tr1 (ka_A k c m x A) (ka_w k c x w)
    (ktgt k m x u) c m k s1 p0 (us ++ [u]).
Proof.
  intros Hk Hm Hc HA Hw Ht u tr1 x.
  cbn [kary_create_loop]. destruct (Nat.leb_spec k (k * c)); [|nia].
  unfold udiv. destruct (Nat.eqb_spec k 0); [lia|]. cbn [bind].
  assert (Ec : k * c / k = c) by (rewrite Nat.mul_comm; apply Nat.div_mul; lia).
  rewrite Ec. rewrite (matrix_split_eq m c k) by auto. cbn [bind].
  rewrite (matrix_split_eq 1 c k) by (auto using rect1). cbn [bind].
  rewrite usub_le by auto. cbn [bind].
  rewrite u_vec_loop_eq by auto. cbn [bind]. fold u.
  unfold challenge_scalar. rewrite fold_append. fold tr1. fold x.
  rewrite !vandemonde_vector_eq by auto. cbn [bind]. rewrite z_vec_loop_ok by auto. cbn [bind].
  rewrite (fold_A_loop m k) by auto. cbn [bind].
  rewrite (fold_w_loop k) by auto. cbn [bind length Nat.sub nth_error unwrap].
  rewrite (fold_t_loop _ m) by (try lia; destruct (ka_u_rect k c m A w t); auto; unfold u; lia).
  reflexivity.
Qed.
Lemma kary_verify_step f ro tr proof A t m k c i u : 1 <= k -> 1 <= m -> 1 <= c ->
  rect m (k * c) A -> nth_error (u_proof_Block proof) i = Some u ->
  rect (2 * (k - 1) + 1) m u ->
  let tr1 := tr ++ ka_round u in let x := ro tr1 in
  kary_verify_loop (S f) ro tr proof A t (k * c) m k s1 p0 i =
  kary_verify_loop f ro tr1 proof (ka_A k c m x A)
    (ktgt k m x u) c m k s1 p0 (S i).
Proof.
  intros Hk Hm Hc HA Hu Hru tr1 x.
  cbn [kary_verify_loop]. destruct (Nat.leb_spec k (k * c)); [|nia].
  unfold udiv. destruct (Nat.eqb_spec k 0); [lia|]. cbn [bind].
  assert (Ec : k * c / k = c) by (rewrite Nat.mul_comm; apply Nat.div_mul; lia).
  rewrite Ec. rewrite (matrix_split_eq m c k) by auto. cbn [bind].
  rewrite usub_le by auto. cbn [bind]. unfold idx at 1. rewrite Hu. cbn [bind].
  unfold challenge_scalar. rewrite fold_append. fold tr1. fold x.
  rewrite !vandemonde_vector_eq by auto. cbn [bind]. rewrite z_vec_loop_ok by auto. cbn [bind].
  rewrite (fold_A_loop m k) by auto. cbn [bind].
  rewrite (fold_t_loop _ m) by (try lia; destruct Hru; auto; lia).
  reflexivity.
Qed.

End KaryFacts.
