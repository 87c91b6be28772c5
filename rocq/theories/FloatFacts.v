(** The exact-arithmetic version of the f64 experiments: the scalars, seen as points over
    themselves, make the k-ary argument the same computation. *)
From Coq Require Import String.
From Verif Require Export FloatTests KaryFacts.
From Verif Require Import PropKary.
Local Open Scope nat_scope.
Local Open Scope list_scope.

(** scalars as points over themselves *)
Definition SelfC (C : Crypto) : Crypto := {|
  Scalar := @Scalar C; s0 := s0; s1 := s1; sadd := sadd; ssub := ssub; smul := smul; sopp := sopp;
  sinv := sinv; seqb := seqb;
  Point := @Scalar C; p0 := s0; padd := sadd; psub := ssub; popp := sopp; pmul := smul; peqb := seqb;
  Compressed := @Scalar C; compress := fun x => x; decompress := fun x => Some x |}.
Lemma SelfL (C : Crypto) (L : CryptoLaws C) : CryptoLaws (SelfC C).
Proof.
  constructor; try apply L; cbn; try reflexivity.
  - intros s x y. rewrite (smul_comm s), (smul_comm s x), (smul_comm s y). apply L.
  - intros c P H. now injection H.
Qed.

Section Self.
Context {C0 : Crypto} {L0 : CryptoLaws C0}.
Local Instance D : Crypto := SelfC C0.
Local Instance LD : CryptoLaws D := SelfL C0 L0.
Local Instance ND : Num (@Scalar D) := num_scalar D.
Add Field SfFl : (@S_field D LD).

Lemma f_mv_eq (A : list (list Scalar)) w : f_mv A w = matrixpoint_vector_mul (C := D) A w.
Proof.
  unfold f_mv, matrix_vector_mul_general, matrixpoint_vector_mul. apply map_ext. intros row. cbv zeta. f_equal.
  apply map2_ext. intros a b. apply (@smul_comm D LD).
Qed.
Lemma enumerate_map {A B} (f : A -> B) l : enumerate (map f l) = map (fun p => (fst p, f (snd p))) (enumerate l).
Proof.
  unfold enumerate. rewrite map_length. generalize (seq 0 (length l)). induction l as [|a l IH]; intros [|i s]; cbn; auto.
  now rewrite IH.
Qed.
Lemma f_u_loop_t shift (A_T : list (list (list Scalar))) hs t u :
  f_u_loop shift A_T hs (Some t) u = u_vec_loop (C := D) shift A_T (map (fun h => [h]) hs) t u.
Proof.
  unfold f_u_loop, u_vec_loop. apply foldM_ext. intros u1 [i A_t] _. rewrite enumerate_map, foldM_map.
  apply foldM_ext. intros u2 [j w_vec] _. cbn [fst snd]. destruct (usub (shift + j) i) as [l| |]; cbn [bind]; auto.
  destruct (negb (l =? shift)); auto. cbn [idx nth_error bind]. cbv zeta. now rewrite f_mv_eq.
Qed.
(** the c-columns pieces of w *)
Definition heads (k c : nat) (w : list (@Scalar D)) : list (list Scalar) := tab k (fun j => tab c (fun s => sc w (j * c + s))).
Lemma parts_heads k c (w : list Scalar) : length w = k * c -> tab k (part_of [w] c) = map (fun h => [h]) (heads k c w).
Proof.
  intros Hw. unfold heads. rewrite map_tab. apply tab_ext. intros j Hj. now apply (part_of_row k).
Qed.
Lemma f_heads_eq (hs : list (list (@Scalar D))) : f_heads (map (fun h => [h]) hs) = Ok hs.
Proof. unfold f_heads. induction hs as [|h hs IH]; cbn; auto. cbn in IH. now rewrite IH. Qed.

Lemma msmg_eq (M : list (list Scalar)) x : matrix_scalar_mul_general nmul M x = matrixpoint_scalar_mul (C := D) M x.
Proof.
  unfold matrix_scalar_mul_general, matrixpoint_scalar_mul. apply map_ext. intros row. apply map_ext. intros e.
  apply (@smul_comm D LD).
Qed.
Lemma vsmg_eq (v : list Scalar) x : vector_scalar_mul_general nmul v x = vectorpoint_scalar_mul (C := D) v x.
Proof. unfold vector_scalar_mul_general, vectorpoint_scalar_mul. apply map_ext. intros e. apply (@smul_comm D LD). Qed.
Lemma sum_loop_ext {T} (f g : nat -> res T) add k : (forall i, f i = g i) -> sum_loop f add k = sum_loop g add k.
Proof.
  intros H. unfold sum_loop. rewrite (foldM_ext _ (fun acc i =>
           tmp <- g i ;; match acc with None => Ok (Some tmp) | Some a => s <- add a tmp ;; Ok (Some s) end)); auto.
  intros a b _. now rewrite H.
Qed.
Lemma f_fold_A_eq m q c k x A : 1 <= k -> k <= q -> rect m (q * c) A ->
  f_fold_A (tab q (part_of A c)) (powers0 x k) k = Ok (ka_A (C := D) k c m x A).
Proof.
  intros Hk Hq HA. unfold f_fold_A. rewrite <- (fold_A_loop (C := D) m q c k x A) by auto.
  apply sum_loop_ext. intros i. destruct (idx _ i) as [Ai| |]; cbn [bind]; auto. destruct (idx _ i); cbn [bind]; auto.
  now rewrite msmg_eq.
Qed.
Lemma f_fold_w_eq k c x (w : list Scalar) : 1 <= k -> length w = k * c ->
  f_fold_w (tab k (part_of [w] c)) (powers0 (C := D) (sinv x) k) k = Ok (ka_w (C := D) k c x w).
Proof.
  intros Hk Hw. unfold f_fold_w, f_fold_A.
  assert (E := fold_w_loop (C := D) k c k x w Hk (le_n _) Hw).
  match type of E with ?X = _ => match goal with |- bind ?Y _ = _ => change Y with X end end.
  rewrite E. reflexivity.
Qed.
Lemma f_fold_t_eq N m (u : list (list Scalar)) zf : 1 <= N -> N <= length u -> Forall (fun r => length r = m) u ->
  f_fold_t u (tab N zf) N = Ok (tab m (fun r => sum_P (C := D) N (fun l => pmul (zf l) (pent (C := D) u l r)))).
Proof.
  intros HN Hu HF. unfold f_fold_t. rewrite <- (fold_t_loop (C := D) N m u zf) by auto.
  apply sum_loop_ext. intros i. change (@idx (list (@Point D)) u i) with (@idx (list (@Scalar D)) u i).
  destruct (idx u i) as [ui| |]; cbn [bind]; auto. destruct (idx _ i); cbn [bind]; auto.
  now rewrite vsmg_eq.
Qed.
Lemma f_z_loop_eq k x : 1 <= k ->
  f_z_loop (k - 1) (powers0 (C := D) x k) (powers0 (C := D) (sinv x) k) (repeat n1 (2 * (k - 1) + 1)) = Ok (tab (2 * (k - 1) + 1) (kzf (C := D) k x)).
Proof. intros Hk. exact (z_vec_loop_ok (C := D) k x Hk). Qed.
Lemma f_vand x k : 1 <= k -> vandemonde_vector_general nmul x k n1 = Ok (powers0 (C := D) x k).
Proof. intros Hk. exact (vandemonde_vector_eq (C := D) x k Hk). Qed.
Lemma f_inv x : ndiv n1 x = sinv (Crypto := D) x.
Proof. exact (@smul_1_l D LD (sinv x)). Qed.

Local Ltac rwb E := match type of E with ?X = ?Y => match goal with |- bind ?Z _ = _ => replace Z with Y by (symmetry; exact E) end end.

(** ** protocol 3.9 *)
Lemma float39_step f x A w t m k c : 1 <= k -> 1 <= m -> 1 <= c ->
  rect m (k * c) A -> length w = k * c -> length t = m ->
  float39_loop (S f) x A w t (k * c) m k =
  float39_loop f x (ka_A (C := D) k c m x A) (ka_w (C := D) k c x w) (ktgt (C := D) k m x (ka_u (C := D) k c m A w t)) c m k.
Proof.
  intros Hk Hm Hc HA Hw Ht. cbn [float39_loop]. destruct (Nat.leb_spec k (k * c)); [|nia].
  unfold udiv. destruct (Nat.eqb_spec k 0); [lia|]. cbn [bind].
  assert (Ec : k * c / k = c) by (rewrite Nat.mul_comm; apply Nat.div_mul; lia).
  rewrite Ec. rewrite (matrix_split_eq m c k) by auto. cbn [bind].
  rewrite (matrix_split_eq 1 c k) by (auto using rect1). cbn [bind].
  rewrite usub_le by auto. cbn [bind]. rewrite parts_heads by auto. rewrite f_heads_eq. cbn [bind].
  rewrite f_u_loop_t, <- parts_heads by auto.
  assert (EU := u_vec_loop_eq (C := D) k c m A w t Hk HA Hw Ht). rwb EU. clear EU. cbn [bind].
  rewrite f_vand by auto. cbn [bind]. rewrite f_inv, f_vand by auto. cbn [bind].
  rewrite f_z_loop_eq by auto. cbn [bind]. rewrite (f_fold_A_eq m) by auto. cbn [bind].
  rewrite f_fold_w_eq by auto. cbn [bind].
  destruct (ka_u_rect (C := D) k c m A w t) as [R1 R2].
  rewrite (f_fold_t_eq _ m); [reflexivity|lia|exact (Nat.eq_le_incl _ _ (eq_sym R1))|exact R2].
Qed.

(** a wrong target stays wrong by the same amount *)
Lemma ka_t_mid k c m x A w t t' r : 1 <= k -> r < m ->
  (pt (ka_t (C := D) k m x (ka_u (C := D) k c m A w t)) r - pt (ka_t (C := D) k m x (ka_u (C := D) k c m A w t')) r =
   pt t r - pt t' r)%P.
Proof.
  intros Hk Hr. unfold ka_t. rewrite !pt_tab' by auto.
  set (N := 2 * (k - 1) + 1).
  transitivity (sum_P (C := D) N (fun l => if l =? k - 1 then pt t r - pt t' r else p0)%P).
  - set (f := fun l => pmul (ka_z (C := D) k x l) (pent (C := D) (ka_u (C := D) k c m A w t) l r)).
    set (g := fun l => pmul (ka_z (C := D) k x l) (pent (C := D) (ka_u (C := D) k c m A w t') l r)).
    assert (E : forall l, l < N -> f l = padd (g l) (if l =? k - 1 then psub (pt t r) (pt t' r) else p0)).
    { intros l Hl. unfold f, g, ka_u. fold N. rewrite !pent_mat by auto. destruct (Nat.eqb_spec l (k - 1)) as [->|].
      - rewrite ka_z_mid. pring.
      - pring. }
    rewrite (sum_P_ext N f _ E). rewrite sum_P_add. pring.
  - rewrite (sum_P_single N (k - 1)); [now rewrite Nat.eqb_refl|unfold N; lia|].
    intros j Hj Hne. destruct (Nat.eqb_spec j (k - 1)); [contradiction|reflexivity].
Qed.

Lemma mid_diff k c m x A w t r : 1 <= k -> x <> s0 (Crypto := D) -> rect m (k * c) A -> length w = k * c -> r < m ->
  (pt (ktgt (C := D) k m x (ka_u (C := D) k c m A w t)) r - pt (pmv (C := D) (ka_A (C := D) k c m x A) (ka_w (C := D) k c x w)) r =
   pt t r - pt (pmv (C := D) A w) r)%P.
Proof.
  intros Hk Hx HA Hw Hr. rewrite ktgt_eq by auto. rewrite (round_id (C := D)) by auto. now apply ka_t_mid.
Qed.

Lemma float39_run d : forall f x m k r A w t, 2 <= k -> 1 <= m -> 1 <= r -> r < k -> d < f -> x <> s0 (Crypto := D) ->
  rect m (r * k ^ d) A -> length w = r * k ^ d -> length t = m ->
  exists A' w' t', float39_loop f x A w t (r * k ^ d) m k = Ok (A', w', t') /\
    rect m r A' /\ length w' = r /\ length t' = m /\
    forall i, i < m -> (pt t' i - pt (pmv (C := D) A' w') i = pt t i - pt (pmv (C := D) A w) i)%P.
Proof.
  induction d as [|d IH]; intros f x m k r A w t Hk Hm Hr Hrk Hf Hx HA Hw Ht; destruct f as [|f]; try lia.
  - cbn [Nat.pow] in *. rewrite Nat.mul_1_r in *. exists A, w, t. cbn [float39_loop].
    destruct (Nat.leb_spec k r); [lia|]. auto.
  - rewrite (kpow_S r k d) in *. set (c := r * k ^ d) in *.
    assert (Hc : 1 <= c) by (unfold c; assert (H := kpow_pos k d ltac:(lia)); nia).
    rewrite float39_step by (auto; lia).
    destruct (IH f x m k r (ka_A (C := D) k c m x A) (ka_w (C := D) k c x w)
                (ktgt (C := D) k m x (ka_u (C := D) k c m A w t))) as (A' & w' & t' & E & R1 & R2 & R3 & R4);
      try (auto; lia).
    + exact (ka_A_rect (C := D) k c m x A).
    + exact (ka_w_length (C := D) k c x w).
    + exact (ktgt_length (C := D) k m x _).
    + exists A', w', t'. split; [exact E|]. repeat (split; [assumption|]). intros i Hi. rewrite R4 by auto.
      apply mid_diff; auto; lia.
Qed.
Lemma vec_eqb_iff (a b : list (@Scalar D)) : vec_eqb a b = true <-> a = b.
Proof.
  unfold vec_eqb. rewrite andb_true_iff, Nat.eqb_eq. revert b. induction a as [|x a IH]; intros [|y b]; cbn.
  - tauto.
  - split; [now intros [H _]|discriminate].
  - split; [now intros [H _]|discriminate].
  - rewrite andb_true_iff. assert (E := @seqb_eq D LD x y). cbn in E. specialize (IH b). split.
    + intros (H1 & H2 & H3). f_equal; [now apply E|]. apply IH. split; [now injection H1|exact H3].
    + intros H. injection H as -> ->. destruct IH as [_ IH]. destruct (IH eq_refl) as [H1 H2]. repeat split; auto. now apply E.
Qed.
Lemma float39_iff d x m k r A w t : 2 <= k -> 1 <= m -> 1 <= r -> r < k -> x <> s0 (Crypto := D) ->
  rect m (r * k ^ d) A -> length w = r * k ^ d -> length t = m ->
  (t = pmv (C := D) A w -> float39 x k (r * k ^ d) m A w t = Ok tt) /\
  (t <> pmv (C := D) A w -> float39 x k (r * k ^ d) m A w t = Panic).
Proof.
  intros Hk Hm Hr Hrk Hx HA Hw Ht. unfold float39.
  assert (Hd : d < S (r * k ^ d)) by (assert (H := kpow_gt k d Hk); nia).
  destruct (float39_run d _ x m k r A w t Hk Hm Hr Hrk Hd Hx HA Hw Ht) as (A' & w' & t' & E & R1 & R2 & R3 & R4).
  rewrite E. cbn [bind]. cbv zeta. rewrite f_mv_eq, (pmv_lin (C := D) m r) by auto.
  assert (Hl : length (pmv (C := D) A w) = m) by (unfold pmv; rewrite map_length; apply HA).
  assert (Hl' : length (pmv (C := D) A' w') = m) by (unfold pmv; rewrite map_length; apply R1).
  assert (Q : t = pmv (C := D) A w <-> pmv (C := D) A' w' = t').
  { split; intros Q.
    - apply (nth_ext _ _ (p0 (Crypto := D)) (p0 (Crypto := D))); [exact (eq_trans Hl' (eq_sym R3))|]. intros i Hi0. assert (Hi : i < m) by (rewrite <- Hl'; exact Hi0).
      specialize (R4 i Hi). rewrite Q in R4. unfold pt in R4. symmetry. apply (psub_0 (C := D)).
      rewrite R4. pring.
    - apply (nth_ext _ _ (p0 (Crypto := D)) (p0 (Crypto := D))); [exact (eq_trans Ht (eq_sym Hl))|]. intros i Hi.
      assert (Hi' : i < m) by (rewrite <- Ht; exact Hi).
      specialize (R4 i Hi'). rewrite <- Q in R4. unfold pt in R4. apply (psub_0 (C := D)).
      rewrite <- R4. pring. }
  split; intros HQ.
  - apply Q in HQ. apply vec_eqb_iff in HQ. now rewrite HQ.
  - destruct (vec_eqb _ t') eqn:EV; [|reflexivity]. apply vec_eqb_iff in EV. tauto.
Qed.

(** ** the u messages with the middle one computed like the others *)
Section UNone.
Context (k c m : nat) (A : list (list (@Point D))) (w : list (@Scalar D)).
Context (Hk : 1 <= k) (HA : rect m (k * c) A) (Hw : length w = k * c).
Let N := 2 * (k - 1) + 1.
Definition nstep (uf : nat -> nat -> Point) (p : nat * nat) : nat -> nat -> Point :=
  let '(i, j) := p in
  fun l r => if l =? k - 1 + j - i then (uf l r + ka_cross (C := D) c A w i j r)%P else uf l r.
Definition nbody (u_vec : list (list Scalar)) (iA : nat * list (list Scalar)) (jw : nat * list Scalar) :=
  let '(i, A_t) := iA in let '(j, w_vec) := jw in
  l <- usub (k - 1 + j) i ;;
  u_l <- idx u_vec l ;;
  s <- row_row_add_general nadd u_l (f_mv A_t w_vec) ;;
  upd u_vec l s.
Lemma nstep_ok (uf : nat -> nat -> Point) i j : i < k -> j < k ->
  nbody (mat N m uf) (i, part_of A c i) (j, tab c (fun s => sc w (j * c + s))) = Ok (mat N m (nstep uf (i, j))).
Proof.
  intros Hi Hj. unfold nbody. rewrite usub_le by lia. cbn [bind]. set (l := k - 1 + j - i).
  assert (Hl : l < N) by (unfold l, N; lia).
  rewrite f_mv_eq. rewrite (part_lin (C := D) m k c A w i j) by auto.
  rewrite (idx_lt _ _ []) by (unfold mat; rewrite tab_length; exact Hl). cbn [bind].
  unfold mat at 1. rewrite tab_nth by exact Hl.
  assert (E := rpa_tab (C := D) m (uf l) (ka_cross (C := D) c A w i j)). rwb E. clear E. cbn [bind].
  assert (E := upd_mat (C := D) k m uf l (fun r => uf l r + ka_cross (C := D) c A w i j r)%P Hl). fold N in E.
  etransitivity; [exact E|]. f_equal. apply mat_ext. intros l' r _ _. unfold nstep. fold l.
  destruct (Nat.eqb_spec l' l) as [->|]; auto.
Qed.
Lemma n_loop_fold (uf : nat -> nat -> Point) :
  f_u_loop (k - 1) (tab k (part_of A c)) (heads k c w) None (mat N m uf) =
  Ok (mat N m (fold_left nstep (list_prod (seq 0 k) (seq 0 k)) uf)).
Proof.
  unfold f_u_loop.
  transitivity (foldM (fun u_vec p => nbody u_vec (fst p) (snd p))
     (list_prod (enumerate (tab k (part_of A c))) (enumerate (heads k c w))) (mat N m uf)).
  { rewrite <- (foldM_nested nbody). apply foldM_ext. intros u [i A_t] _. apply foldM_ext. intros u' [j w_vec] _. reflexivity. }
  unfold heads. rewrite !enumerate_tab, list_prod_map, foldM_map.
  assert (Hin : forall p, In p (list_prod (seq 0 k) (seq 0 k)) -> fst p < k /\ snd p < k).
  { intros [i j] H. apply in_prod_iff in H as [H1 H2]. apply in_seq in H1, H2. cbn. lia. }
  revert Hin uf. generalize (list_prod (seq 0 k) (seq 0 k)). intros ps.
  induction ps as [|[i j] ps IH]; intros Hin uf; cbn [foldM fold_left]; [reflexivity|].
  destruct (Hin (i, j) (or_introl eq_refl)) as [H1 H2]. cbn [fst snd] in H1, H2 |- *.
  rewrite nstep_ok by auto. cbn [bind]. apply IH. intros p Hp. apply Hin. now right.
Qed.
Lemma nstep_fold ps : (forall p, In p ps -> fst p < k) -> forall uf l r,
  fold_left nstep ps uf l r =
  (uf l r + Lsum (C := D) (fun p => if k - 1 + snd p =? l + fst p then ka_cross (C := D) c A w (fst p) (snd p) r else p0) ps)%P.
Proof.
  induction ps as [|[i j] ps IH]; intros Hin uf l r; cbn [fold_left Lsum fold_right].
  - pring.
  - assert (Hi : i < k) by exact (Hin (i, j) (or_introl eq_refl)).
    rewrite IH by (intros p Hp; apply Hin; now right). unfold nstep. cbn [fst snd].
    fold (@Lsum D (nat * nat)).
    destruct (Nat.eqb_spec l (k - 1 + j - i)); destruct (Nat.eqb_spec (k - 1 + j) (l + i)); try lia; unfold Lsum; pring.
Qed.
Lemma f_u_loop_none :
  f_u_loop (k - 1) (tab k (part_of A c)) (heads k c w) None (repeat (repeat n0 m) N) =
  Ok (ka_u (C := D) k c m A w (pmv (C := D) A w)).
Proof.
  assert (E : repeat (repeat n0 m) N = mat N m (fun _ _ => p0 (Crypto := D))).
  { apply (tab_eq []); [apply repeat_length|]. intros i Hi.
    rewrite (nth_indep _ [] (repeat (p0 (Crypto := D)) m)) by (rewrite repeat_length; exact Hi).
    rewrite nth_repeat.
    apply (tab_eq (p0 (Crypto := D))); [apply repeat_length|]. intros s Hs. apply nth_repeat. }
  rewrite E. etransitivity; [apply n_loop_fold|]. f_equal. unfold ka_u. fold N. apply mat_ext. intros l r Hl Hr.
  rewrite nstep_fold.
  - rewrite Lsum_prod, Lsum_seq, padd_0_l.
    transitivity (sum_P (C := D) k (fun i => sum_P (C := D) k (fun j =>
           if k - 1 + j =? l + i then ka_cross (C := D) c A w i j r else p0))).
    + apply sum_P_ext. intros i Hi. rewrite Lsum_seq. reflexivity.
    + destruct (Nat.eqb_spec l (k - 1)) as [->|]; [|reflexivity]. symmetry.
      rewrite (pmv_pt (C := D) m (k * c)) by auto. rewrite sum_P_blocks. apply sum_P_ext. intros i Hi.
      rewrite (sum_P_single k i); auto.
      * rewrite Nat.eqb_refl. reflexivity.
      * intros j Hj Hne. destruct (Nat.eqb_spec (k - 1 + j) (k - 1 + i)); [lia|reflexivity].
  - intros [i j] H. apply in_prod_iff in H as [H1 _]. apply in_seq in H1. cbn. lia.
Qed.
End UNone.

(** ** protocol 3.14, second version: the blocks glued into one matrix *)
Lemma div_block i s c : s < c -> (i * c + s) / c = i /\ (i * c + s) mod c = s.
Proof.
  intros H. assert (c <> 0) by lia. split.
  - rewrite Nat.div_add_l by auto. rewrite Nat.div_small by auto. lia.
  - rewrite Nat.add_comm, Nat.mod_add by auto. now apply Nat.mod_small.
Qed.
Definition glueA (k c m : nat) (H : list (list (list (@Scalar D)))) : list (list Scalar) :=
  mat m (k * c) (fun r s => pent (C := D) (nth (s / c) H []) r (s mod c)).
Definition gluew (k c : nat) (ws : list (list (@Scalar D))) : list Scalar :=
  tab (k * c) (fun s => sc (nth (s / c) ws []) (s mod c)).
Lemma glueA_parts k c m H : length H = k -> Forall (rect m c) H -> tab k (part_of (glueA k c m H) c) = H.
Proof.
  intros Hl HF. symmetry. apply (tab_eq []); auto. intros i Hi.
  assert (HR : rect m c (nth i H [])) by (rewrite Forall_forall in HF; apply HF, nth_In; lia).
  unfold part_of, glueA, mat. rewrite map_tab. apply (tab_eq []); [apply HR|]. intros r Hr.
  assert (Hc := rect_row _ _ _ _ HR Hr).
  apply (nth_ext _ _ (s0 (Crypto := D)) (s0 (Crypto := D))).
  { rewrite Hc, firstn_length, skipn_length, tab_length. nia. }
  rewrite Hc. intros s Hs. rewrite nth_firstn_lt, nth_skipn_eq by auto.
  rewrite tab_nth by nia. destruct (div_block i s c Hs) as [-> ->]. reflexivity.
Qed.
Lemma gluew_heads k c ws : length ws = k -> Forall (fun w => length w = c) ws -> heads k c (gluew k c ws) = ws.
Proof.
  intros Hl HF. symmetry. apply (tab_eq []); auto. intros i Hi.
  assert (HR : length (nth i ws []) = c) by (rewrite Forall_forall in HF; apply HF, nth_In; lia).
  apply (tab_eq (s0 (Crypto := D))); auto. intros s Hs. unfold gluew, sc. rewrite tab_nth by nia.
  destruct (div_block i s c Hs) as [-> ->]. reflexivity.
Qed.
Lemma alm2_step f x H ws A w t k c m : 1 <= k -> length H = k -> Forall (rect m c) H ->
  length ws = k -> Forall (fun w => length w = c) ws -> forall n, k <= n ->
  alm2_loop (S f) x H ws A w t n m k =
  alm2_loop f x H ws (ka_A (C := D) k c m x (glueA k c m H)) (ka_w (C := D) k c x (gluew k c ws))
     (ktgt (C := D) k m x (ka_u (C := D) k c m (glueA k c m H) (gluew k c ws) (pmv (C := D) (glueA k c m H) (gluew k c ws)))) (n / k) m k.
Proof.
  intros Hk H1 H2 W1 W2 n Hn. cbn [alm2_loop]. destruct (Nat.leb_spec k n); [|lia]. rewrite usub_le by auto. cbn [bind].
  set (GA := glueA k c m H). set (GW := gluew k c ws).
  assert (RA : rect m (k * c) GA) by apply mat_rect. assert (RW : length GW = k * c) by apply tab_length.
  assert (EH : H = tab k (part_of GA c)) by (symmetry; now apply glueA_parts).
  assert (EW : ws = heads k c GW) by (symmetry; now apply gluew_heads).
  rewrite EH at 1. rewrite EW at 1. rewrite f_u_loop_none by auto. cbn [bind].
  rewrite f_vand by auto. cbn [bind]. rewrite f_inv, f_vand by auto. cbn [bind].
  rewrite f_z_loop_eq by auto. cbn [bind].
  assert (EA : f_fold_A H (powers0 (C := D) x k) k = Ok (ka_A (C := D) k c m x GA)).
  { rewrite EH. now apply (f_fold_A_eq m k). }
  rewrite EA. cbn [bind].
  assert (Ew : f_fold_w (map (fun w => [w]) ws) (powers0 (C := D) (sinv x) k) k = Ok (ka_w (C := D) k c x GW)).
  { rewrite EW, <- parts_heads by auto. now apply f_fold_w_eq. }
  rewrite Ew. cbn [bind].
  destruct (ka_u_rect (C := D) k c m GA GW (pmv (C := D) GA GW)) as [R1 R2].
  rewrite (f_fold_t_eq _ m); [reflexivity|lia|exact (Nat.eq_le_incl _ _ (eq_sym R1))|exact R2].
Qed.
Lemma alm2_run x H ws k c m : 2 <= k -> length H = k -> Forall (rect m c) H ->
  length ws = k -> Forall (fun w => length w = c) ws -> forall f n A w t, n < f ->
  alm2_loop f x H ws A w t n m k =
  Ok (if k <=? n then (ka_A (C := D) k c m x (glueA k c m H), ka_w (C := D) k c x (gluew k c ws),
     ktgt (C := D) k m x (ka_u (C := D) k c m (glueA k c m H) (gluew k c ws) (pmv (C := D) (glueA k c m H) (gluew k c ws))))
      else (A, w, t)).
Proof.
  intros Hk H1 H2 W1 W2. induction f as [|f IH]; intros n A w t Hn; [lia|].
  destruct (Nat.leb_spec k n) as [Hkn|Hkn].
  - rewrite (alm2_step f x H ws A w t k c m) by (auto; lia).
    assert (n / k < n) by (apply Nat.div_lt; lia). rewrite IH by lia. now destruct (k <=? n / k).
  - cbn [alm2_loop]. destruct (Nat.leb_spec k n); [lia|]. reflexivity.
Qed.
Lemma alm_snd_2_ok x c m H ws A w t : 1 <= c -> 1 <= m -> x <> s0 (Crypto := D) ->
  length H = S m -> Forall (rect m c) H -> length ws = S m -> Forall (fun w => length w = c) ws ->
  alm_snd_2 x c m H ws A w t = Ok tt.
Proof.
  intros Hc Hm Hx H1 H2 W1 W2. unfold alm_snd_2. cbv zeta. replace (m + 1) with (S m) by lia.
  rewrite (alm2_run x H ws (S m) c m) by (auto; lia).
  destruct (Nat.leb_spec (S m) (c + m * c)); [|nia]. cbn [bind].
  set (GA := glueA (S m) c m H). set (GW := gluew (S m) c ws).
  assert (RA : rect m (S m * c) GA) by apply mat_rect. assert (RW : length GW = S m * c) by apply tab_length.
  rewrite f_mv_eq, (pmv_lin (C := D) m c) by (apply ka_A_rect || apply ka_w_length).
  rewrite ktgt_eq by (auto; lia). rewrite <- (round_id (C := D)) by (auto; lia).
  replace (vec_eqb _ _) with true; [reflexivity|]. symmetry. now apply vec_eqb_iff.
Qed.
Lemma alm2_m0 x c A0 w0 : forall f n A w t, 1 <= n -> rect 0 c A0 -> length w0 = c ->
  alm2_loop f x [A0] [w0] A w t n 0 1 = Diverge.
Proof.
  induction f as [|f IH]; intros n A w t Hn HA Hw; [reflexivity|].
  rewrite (alm2_step f x _ _ _ _ _ 1 c 0) by auto. rewrite Nat.div_1_r. now apply IH.
Qed.

(** ** protocol 3.14, first version *)
Lemma enum_idx_aux {A B E} (F : A -> B -> E -> res A) (H : list B) : forall (pre ws : list E) acc, length H = length ws ->
  foldM (fun acc '(i, h) => w <- idx (pre ++ ws) i ;; F acc h w) (combine (seq (length pre) (length H)) H) acc =
  foldM (fun acc '(h, w) => F acc h w) (combine H ws) acc.
Proof.
  induction H as [|h H IH]; intros pre ws acc HL; destruct ws as [|w ws]; try discriminate HL; [reflexivity|].
  cbn [length seq combine foldM]. unfold idx at 1. rewrite nth_error_app2, Nat.sub_diag by lia. cbn [nth_error bind].
  destruct (F acc h w) as [acc'| |]; cbn [bind]; auto.
  injection HL as HL. specialize (IH (pre ++ [w]) ws acc' HL). rewrite app_length in IH. cbn [length] in IH.
  rewrite Nat.add_1_r, <- app_assoc in IH. exact IH.
Qed.
Lemma enum_idx {A B E} (F : A -> B -> E -> res A) (H : list B) (ws : list E) acc : length H = length ws ->
  foldM (fun acc '(i, h) => w <- idx ws i ;; F acc h w) (enumerate H) acc =
  foldM (fun acc '(h, w) => F acc h w) (combine H ws) acc.
Proof. intros HL. exact (enum_idx_aux F H [] ws acc HL). Qed.
Lemma Lsum_cons {T} (f : T -> @Point D) a l : Lsum (C := D) f (a :: l) = (f a + Lsum (C := D) f l)%P.
Proof. reflexivity. Qed.
Lemma Lsum_P_swap {T} (l : list T) N (f : nat -> T -> @Point D) :
  sum_P (C := D) N (fun i => Lsum (C := D) (f i) l) = Lsum (C := D) (fun x => sum_P (C := D) N (fun i => f i x)) l.
Proof.
  induction l as [|a l IH].
  - cbn [Lsum fold_right]. induction N as [|N IHN]; cbn [sum_P]; [reflexivity|]. rewrite IHN. pring.
  - change (sum_P (C := D) N (fun i => f i a + Lsum (C := D) (f i) l)%P =
            (sum_P (C := D) N (fun i => f i a) + Lsum (C := D) (fun x => sum_P (C := D) N (fun i => f i x)) l)%P).
    rewrite <- IH. rewrite sum_P_add. reflexivity.
Qed.

Section V1.
Context (x : @Scalar D) (k c m : nat) (Hk : 1 <= k) (Hc : 1 <= c) (Hck : c < k) (Hm : 1 <= m) (Hx : x <> s0).
Let N := 2 * (k - 1) + 1.
Let mu (hw : list (list (@Scalar D)) * list (@Scalar D)) := ka_u (C := D) k c m (fst hw) (snd hw) (pmv (C := D) (fst hw) (snd hw)).
Let fa (hw : list (list (@Scalar D)) * list (@Scalar D)) := ka_A (C := D) k c m x (fst hw).
Let fw (hw : list (list (@Scalar D)) * list (@Scalar D)) := ka_w (C := D) k c x (snd hw).
Let good (hw : list (list (@Scalar D)) * list (@Scalar D)) := rect m (k * c) (fst hw) /\ length (snd hw) = k * c.
Lemma v1_div : k * c / k = c.
Proof. rewrite Nat.mul_comm. apply Nat.div_mul. lia. Qed.
Lemma v1_u hw ub : good hw ->
  alm1_u_loop (S (k * c)) (fst hw) (snd hw) (k * c) m k (k - 1) N ub = Ok (ub ++ [mu hw]).
Proof.
  intros [G1 G2]. assert (EF : k * c = S (k * c - 1)) by nia. rewrite EF at 1. cbn [alm1_u_loop].
  destruct (Nat.leb_spec k (k * c)); [|nia].
  unfold udiv. destruct (Nat.eqb_spec k 0); [lia|]. cbn [bind]. rewrite v1_div.
  rewrite (matrix_split_eq m c k) by auto. cbn [bind].
  rewrite (matrix_split_eq 1 c k) by (auto using rect1). cbn [bind].
  rewrite parts_heads by auto. rewrite f_heads_eq. cbn [bind].
  unfold N. rewrite f_u_loop_none by auto. cbn [bind].
  destruct (Nat.leb_spec k c); [lia|]. reflexivity.
Qed.
Lemma v1_fold hw t ua : good hw -> rect N m ua ->
  alm1_fold_loop (S (k * c)) x (fst hw) (snd hw) t (k * c) k (k - 1) N ua = Ok (fa hw, fw hw, ktgt (C := D) k m x ua).
Proof.
  intros [G1 G2] [R1 R2]. assert (EF : k * c = S (k * c - 1)) by nia. rewrite EF at 1. cbn [alm1_fold_loop].
  destruct (Nat.leb_spec k (k * c)); [|nia].
  unfold udiv. destruct (Nat.eqb_spec k 0); [lia|]. cbn [bind]. rewrite v1_div.
  rewrite (matrix_split_eq m c k) by auto. cbn [bind].
  rewrite (matrix_split_eq 1 c k) by (auto using rect1). cbn [bind].
  rewrite f_vand by auto. cbn [bind]. rewrite f_inv, f_vand by auto. cbn [bind].
  unfold N at 1. rewrite f_z_loop_eq by auto. cbn [bind]. rewrite (f_fold_A_eq m) by auto. cbn [bind].
  rewrite f_fold_w_eq by auto. cbn [bind].
  rewrite (f_fold_t_eq _ m) by (auto; unfold N in *; lia). cbn [bind].
  destruct (Nat.leb_spec k c); [lia|]. reflexivity.
Qed.
Lemma v1_ublock l : Forall good l -> forall ub,
  foldM (fun ub '(h, w) => alm1_u_loop (S (k * c)) h w (k * c) m k (k - 1) N ub) l ub = Ok (ub ++ map mu l).
Proof.
  induction 1 as [|hw l G GS IH]; intros ub; cbn [foldM map]; [now rewrite app_nil_r|].
  destruct hw as [h w]. assert (E := v1_u (h, w) ub G). cbn [fst snd] in E. rewrite E. cbn [bind]. rewrite IH, <- app_assoc. reflexivity.
Qed.
Lemma v1_uall l : forall (f : nat -> nat -> @Point D),
  foldM (matrix_matrix_add_general nadd) (map mu l) (mat N m f) =
  Ok (mat N m (fun r s => f r s + Lsum (C := D) (fun hw => pent (C := D) (mu hw) r s) l)%P).
Proof.
  induction l as [|hw l IH]; intros f; cbn [map foldM].
  - f_equal. apply mat_ext. intros r s _ _. cbn. symmetry. apply (padd_0_r (C := D)).
  - assert (E : matrix_matrix_add_general nadd (mat N m f) (mu hw) = Ok (mat N m (fun r s => f r s + pent (C := D) (mu hw) r s)%P)).
    { assert (EM : mu hw = mat N m (fun r s => pent (C := D) (mu hw) r s)).
      { apply mat_ext. intros r s Hr Hs. unfold mu, ka_u. now rewrite pent_mat. }
      rewrite EM at 1. exact (mpma_mat (C := D) N m f (fun r s => pent (C := D) (mu hw) r s)). }
    rewrite E. cbn [bind]. rewrite IH. f_equal. apply mat_ext. intros r s _ _. rewrite Lsum_cons. pring.
Qed.
Lemma v1_folds ua l : rect N m ua -> Forall good l -> forall As ws t,
  foldM (fun '(As, ws, t) '(h, w) =>
              '(A, w, t) <- alm1_fold_loop (S (k * c)) x h w t (k * c) k (k - 1) N ua ;;
              Ok (As ++ [A], ws ++ [w], t)) l (As, ws, t) =
  Ok (As ++ map fa l, ws ++ map fw l, match l with [] => t | _ => ktgt (C := D) k m x ua end).
Proof.
  intros HR. induction 1 as [|hw l G GS IH]; intros As ws t; cbn [foldM map]; [now rewrite !app_nil_r|].
  destruct hw as [h w]. assert (E := v1_fold (h, w) t ua G HR). cbn [fst snd] in E. rewrite E. cbn [bind].
  rewrite IH, <- !app_assoc. cbn [app]. destruct l; reflexivity.
Qed.
Lemma v1_verifier l : forall (f : nat -> @Point D),
  foldM (fun v '(a, b) => row_row_add_general nadd v (f_mv a b)) (combine (map fa l) (map fw l)) (tab m f) =
  Ok (tab m (fun r => f r + Lsum (C := D) (fun hw => pt (pmv (C := D) (fa hw) (fw hw)) r) l)%P).
Proof.
  induction l as [|hw l IH]; intros f; cbn [map combine foldM].
  - f_equal. apply tab_ext. intros r _. cbn. symmetry. apply (padd_0_r (C := D)).
  - rewrite f_mv_eq, (pmv_lin (C := D) m c) by (apply ka_A_rect || apply ka_w_length).
    assert (EP : pmv (C := D) (fa hw) (fw hw) = tab m (pt (pmv (C := D) (fa hw) (fw hw)))).
    { apply (tab_eq (p0 (Crypto := D))); [unfold pmv; rewrite map_length; apply ka_A_rect|reflexivity]. }
    assert (E : row_row_add_general nadd (tab m f) (pmv (C := D) (fa hw) (fw hw)) =
                Ok (tab m (fun r => f r + pt (pmv (C := D) (fa hw) (fw hw)) r)%P)).
    { rewrite EP at 1. exact (rpa_tab (C := D) m f (pt (pmv (C := D) (fa hw) (fw hw)))). }
    rewrite E. cbn [bind]. rewrite IH. f_equal. apply tab_ext. intros r _. rewrite Lsum_cons. pring.
Qed.
Lemma alm_snd_1_ok H ws t : H <> [] -> length H = length ws -> Forall (rect m (k * c)) H ->
  Forall (fun w => length w = k * c) ws -> alm_snd_1 x k (k * c) m H ws t = Ok tt.
Proof.
  intros HN HL HH HW.
  assert (HG : Forall good (combine H ws)).
  { apply Forall_forall. intros [h w] Hin. rewrite Forall_forall in HH, HW.
    split; [apply HH; eapply in_combine_l; eauto|apply HW; eapply in_combine_r; eauto]. }
  unfold alm_snd_1. rewrite usub_le by auto. cbn [bind].
  rewrite (enum_idx (fun ub h w => alm1_u_loop (S (k * c)) h w (k * c) m k (k - 1) (2 * (k - 1) + 1) ub)) by auto.
  assert (E1 := v1_ublock (combine H ws) HG []). fold N. rewrite E1. cbn [bind app]. clear E1.
  assert (E : repeat (repeat n0 m) N = mat N m (fun _ _ => p0 (Crypto := D))).
  { apply (tab_eq []); [apply repeat_length|]. intros i Hi.
    rewrite (nth_indep _ [] (repeat (p0 (Crypto := D)) m)) by (rewrite repeat_length; exact Hi).
    rewrite nth_repeat.
    apply (tab_eq (p0 (Crypto := D))); [apply repeat_length|]. intros s Hs. apply nth_repeat. }
  match goal with |- bind (foldM _ _ ?Z) _ = _ => replace Z with (mat N m (fun _ _ => p0 (Crypto := D))) by (symmetry; exact E) end.
  clear E. assert (E1 := v1_uall (combine H ws) (fun _ _ => p0 (Crypto := D))).
  match type of E1 with _ = Ok ?u => set (ua := u) in * end. rwb E1. cbn [bind]. clear E1.
  assert (HU : rect N m ua) by apply mat_rect.
  assert (E2 := enum_idx (fun (st : list (list (list (@Scalar D))) * list (list (@Scalar D)) * list (@Scalar D)) h w =>
       let '(As, ws', t) := st in '(A, w, t) <- alm1_fold_loop (S (k * c)) x h w t (k * c) k (k - 1) N ua ;;
              Ok (As ++ [A], ws' ++ [w], t)) H ws ([], [], t) HL).
  assert (E3 := v1_folds ua (combine H ws) HU HG [] [] t).
  match goal with |- bind ?Z _ = _ => assert (E4 : Z = Ok ([] ++ map fa (combine H ws), [] ++ map fw (combine H ws),
       match combine H ws with [] => t | _ => ktgt (C := D) k m x ua end)) end.
  { etransitivity; [|exact E3]. etransitivity; [|etransitivity; [exact E2|]].
    - apply foldM_ext. intros [[As ws'] t'] [i h] _. reflexivity.
    - apply foldM_ext. intros [[As ws'] t'] [h w] _. reflexivity. }
  rewrite E4. cbn [bind app]. clear E2 E3 E4.
  assert (E : repeat n0 m = tab m (fun _ => p0 (Crypto := D))).
  { apply (tab_eq (p0 (Crypto := D))); [apply repeat_length|]. intros s Hs. apply nth_repeat. }
  match goal with |- bind (foldM _ _ ?Z) _ = _ => replace Z with (tab m (fun _ => p0 (Crypto := D))) by (symmetry; exact E) end.
  clear E. assert (E := v1_verifier (combine H ws) (fun _ => p0 (Crypto := D))). rwb E. cbn [bind]. clear E.
  assert (EC : match combine H ws with [] => t | _ => ktgt (C := D) k m x ua end = ktgt (C := D) k m x ua).
  { destruct H; [contradiction|]. destruct ws; [discriminate HL|]. reflexivity. }
  replace (vec_eqb _ _) with true; [reflexivity|]. symmetry. apply vec_eqb_iff. etransitivity; [|symmetry; exact EC].
  rewrite ktgt_eq by auto. unfold ka_t. fold N. apply tab_ext. intros r Hr. rewrite padd_0_l.
  transitivity (sum_P (C := D) N (fun l => Lsum (C := D) (fun hw => ka_z (C := D) k x l *: pent (C := D) (mu hw) l r) (combine H ws))%P).
  - rewrite Lsum_P_swap. apply (Lsum_ext (C := D)). intros [h w] Hin. unfold fa, fw, mu. cbn [fst snd].
    assert (G : good (h, w)) by (rewrite Forall_forall in HG; now apply HG). destruct G as [G1 G2]. cbn [fst snd] in G1, G2.
    rewrite (round_id (C := D)) by auto. unfold ka_t. fold N. now rewrite pt_tab'.
  - apply (sum_P_ext (C := D)). intros l Hl. unfold ua. rewrite pent_mat by auto. rewrite padd_0_l.
    generalize (combine H ws). intros L1. induction L1 as [|a L1 IH]; [unfold Lsum; cbn [fold_right]; pring|].
    rewrite !Lsum_cons, IH. pring.
Qed.
End V1.
End Self.
