(** Closed forms of the copy prover and verifier. *)
From Coq Require Import String Sorted.
From Verif Require Export CopySpec MappingFacts PropMapping QesaFacts PropQesa.
Local Open Scope string_scope.
Local Open Scope nat_scope.
Local Open Scope list_scope.

(** what the copy argument needs of a mapping, for n generators and K commitments *)
Record good_map (n K : nat) (mp : Mapping) : Prop := mkGoodMap {
  gm_pos : forall m, In m (msgs_map mp) -> mpos m < n - 2;
  gm_idx : forall m, In m (msgs_map mp) -> midx m < n - 2;
  gm_crs : forall m, In m (msgs_map mp) -> mcrs m < K;
  gm_nodup : NoDup (map mpos (msgs_map mp));
  gm_disj : forall m m', In m (msgs_map mp) -> In m' (msgs_map mp) -> mpos m <> midx m';
  gm_uniq : forall c, In c (unique_commitment_indices mp) <-> exists m, In m (msgs_map mp) /\ commitment_index m = c
}.

Lemma u16_nat : N.of_nat (N.to_nat 65536) = 65536%N.
Proof. apply N2Nat.id. Qed.
Lemma cm_msgs_In sets av m : In m (cm_msgs sets av) ->
  exists i, i < cm_total sets /\ m = mkMessageMap i (nth i (concat sets) 0%N) (nth i (cm_crs sets) 0%N) (nth i av 0%N).
Proof.
  unfold cm_msgs, tab. intros H. apply in_map_iff in H as (i & <- & Hi). apply in_seq in Hi. exists i. split; [lia|auto].
Qed.
Lemma NoDup_map_inj_on {A B} (f : A -> B) l : (forall x y, In x l -> In y l -> f x = f y -> x = y) -> NoDup l -> NoDup (map f l).
Proof.
  intros Hf. induction 1 as [|x l Hx Hl IH]; cbn; constructor.
  - intros Hin. apply in_map_iff in Hin as (y & E & Hy). apply Hx. rewrite <- (Hf y x); auto; [now right|now left].
  - apply IH. intros; apply Hf; auto; now right.
Qed.
Lemma compute_mapping_good n ws sets mp : (N.of_nat n < 65536)%N -> (ws < 65536)%N ->
  compute_mapping (N.of_nat n) ws sets = Ok mp -> (N.of_nat (length sets) <= 65536)%N ->
  (forall s i, In s sets -> In i s -> N.to_nat i < n - 2) ->
  good_map n (length sets) mp /\ (forall m, In m (msgs_map mp) -> N.to_nat ws <= mpos m) /\
  (forall m, In m (msgs_map mp) -> exists s, In s sets /\ In (commitment_index m) s).
Proof.
  intros Hn Hws E HK Hidx.
  destruct (C28_positions _ _ _ _ Hn Hws E) as (Hlen & Hfree & Hsort & _ & _).
  assert (HI : forall m, In m (msgs_map mp) -> exists s, In s sets /\ In (commitment_index m) s).
  { intros m Hm. assert (E' := E). apply compute_mapping_inv in E' as (_ & _ & _ & ->). cbn [msgs_map] in Hm.
    apply cm_msgs_In in Hm as (i & Hi & ->). cbn [commitment_index].
    apply in_concat. apply nth_In. now rewrite total_eq. }
  assert (HP : forall m, In m (msgs_map mp) -> cm_free (N.of_nat n) ws sets (position_in_witness m)).
  { intros m Hm. apply Hfree. now apply in_map. }
  split; [|split; [|exact HI]].
  2:{ intros m Hm. destruct (HP m Hm) as (H1 & _). unfold mpos. lia. }
  constructor.
  - intros m Hm. destruct (HP m Hm) as (_ & H2 & _). unfold mpos. lia.
  - intros m Hm. destruct (HI m Hm) as (s & Hs & Hi). unfold midx. eauto.
  - intros m Hm. assert (E' := E). apply compute_mapping_inv in E' as (_ & _ & _ & ->). cbn [msgs_map] in Hm.
    apply cm_msgs_In in Hm as (i & Hi & ->). unfold mcrs. cbn [commitment_crs_id].
    destruct (msg_split sets i Hi) as (c & j & Hc & Hj & ->). rewrite nth_crs by auto.
    rewrite as_u16_small by lia. lia.
  - rewrite <- (map_map position_in_witness N.to_nat). apply NoDup_map_inj_on.
    + intros x y _ _ H. lia.
    + now apply sorted_NoDup.
  - intros m m' Hm Hm' Heq. destruct (HP m Hm) as (_ & _ & Hno). destruct (HI m' Hm') as (s & Hs & Hi).
    apply (Hno s Hs). unfold mpos, midx in Heq. replace (position_in_witness m) with (commitment_index m') by lia. exact Hi.
  - intros c. assert (E' := E). apply compute_mapping_inv in E' as (_ & _ & _ & Emp).
    assert (HU : In c (unique_commitment_indices mp) <-> In c (concat sets)) by (rewrite Emp; apply btree_collect_In).
    rewrite HU. split.
    + intros Hc. apply (In_nth _ _ 0%N) in Hc as (i & Hi & Hc). rewrite total_eq in Hi.
      exists (mkMessageMap i (nth i (concat sets) 0%N) (nth i (cm_crs sets) 0%N)
               (nth i (firstn (cm_total sets) (cm_avail (N.of_nat n) ws sets)) 0%N)).
      split; [|exact Hc]. rewrite Emp. cbn [msgs_map]. unfold cm_msgs, tab. apply in_map_iff. exists i. split; auto.
      apply in_seq. lia.
    + intros (m & Hm & <-). apply in_concat. destruct (HI m Hm) as (s & Hs & Hi). eauto.
Qed.

Section CopyFacts.
Context {C : Crypto} {L : CryptoLaws C}.
Add Field SfCF : (@S_field C L).

(** ** sums over lists *)
Lemma sum_over_ext {A} (f g : A -> Scalar) l : (forall a, In a l -> f a = g a) -> sum_over f l = sum_over g l.
Proof. induction l as [|a l IH]; intros H; cbn; auto. rewrite H by now left. rewrite IH; auto. intros; apply H; now right. Qed.
Lemma sum_over_0 {A} (f : A -> Scalar) l : (forall a, In a l -> f a = s0) -> sum_over f l = s0.
Proof. induction l as [|a l IH]; intros H; cbn; auto. rewrite H by now left. rewrite IH; [ring|]. intros; apply H; now right. Qed.
Lemma sum_over_add {A} (f g : A -> Scalar) l : sum_over (fun a => f a + g a)%S l = (sum_over f l + sum_over g l)%S.
Proof. induction l as [|a l IH]; cbn; [ring|]. rewrite IH. ring. Qed.
Lemma sum_over_mul {A} (f : A -> Scalar) c l : sum_over (fun a => c * f a)%S l = (c * sum_over f l)%S.
Proof. induction l as [|a l IH]; cbn; [ring|]. rewrite IH. ring. Qed.
Lemma sum_over_app {A} (f : A -> Scalar) l1 l2 : sum_over f (l1 ++ l2) = (sum_over f l1 + sum_over f l2)%S.
Proof. induction l1 as [|a l IH]; cbn; [ring|]. rewrite IH. ring. Qed.
Lemma sum_over_map {A B} (f : B -> Scalar) (g : A -> B) l : sum_over f (map g l) = sum_over (fun a => f (g a)) l.
Proof. induction l as [|a l IH]; cbn; auto. now rewrite IH. Qed.
Lemma sum_over_filter {A} (p : A -> bool) (f : A -> Scalar) l :
  sum_over f (filter p l) = sum_over (fun a => if p a then f a else s0) l.
Proof. induction l as [|a l IH]; cbn; auto. destruct (p a); cbn; rewrite IH; ring. Qed.
Lemma sum_over_single {A} (g : A -> nat) (h : A -> Scalar) l a : NoDup (map g l) -> In a l ->
  sum_over (fun b => if g b =? g a then h b else s0) l = h a.
Proof.
  induction l as [|b l IH]; cbn; intros HN Hin; [contradiction|]. inversion HN as [|? ? H1 H2]; subst.
  destruct Hin as [->|Hin].
  - rewrite Nat.eqb_refl. rewrite sum_over_0; [ring|]. intros b Hb. destruct (Nat.eqb_spec (g b) (g a)) as [E|]; auto.
    exfalso. apply H1. rewrite <- E. now apply in_map.
  - destruct (Nat.eqb_spec (g b) (g a)) as [E|].
    + exfalso. apply H1. rewrite E. now apply in_map.
    + rewrite IH by auto. ring.
Qed.
Lemma sum_over_combine {A B} (f : B -> Scalar) (xs : list A) l : length xs = length l ->
  sum_over (fun '(_, b) => f b) (combine xs l) = sum_over f l.
Proof. revert xs; induction l as [|b l IH]; intros [|x xs] H; cbn in *; try discriminate; auto. rewrite IH; auto. Qed.
Lemma sum_S_over {A} k (f : nat -> A -> Scalar) l :
  sum_S k (fun i => sum_over (f i) l) = sum_over (fun a => sum_S k (fun i => f i a)) l.
Proof.
  induction l as [|a l IH]; cbn [sum_over].
  - apply sum_S_0. auto.
  - rewrite sum_S_add, IH. reflexivity.
Qed.
Fixpoint psum_over {A} (f : A -> Point) (l : list A) : Point :=
  match l with [] => p0 | a :: l' => (f a + psum_over f l')%P end.
Lemma psum_over_ext {A} (f g : A -> Point) l : (forall a, In a l -> f a = g a) -> psum_over f l = psum_over g l.
Proof. induction l as [|a l IH]; intros H; cbn; auto. rewrite H by now left. rewrite IH; auto. intros; apply H; now right. Qed.
Lemma psum_over_app {A} (f : A -> Point) l1 l2 : psum_over f (l1 ++ l2) = (psum_over f l1 + psum_over f l2)%P.
Proof. induction l1 as [|a l IH]; cbn; [pring|]. rewrite IH. pring. Qed.
Lemma psum_over_map {A B} (f : B -> Point) (g : A -> B) l : psum_over f (map g l) = psum_over (fun a => f (g a)) l.
Proof. induction l as [|a l IH]; cbn; auto. now rewrite IH. Qed.
Lemma psum_over_mul {A} (f : A -> Point) (c : Scalar) l : psum_over (fun a => c *: f a)%P l = (c *: psum_over f l)%P.
Proof. induction l as [|a l IH]; cbn; [pring|]. rewrite IH. pring. Qed.
Lemma sum_P_over {A} k (f : nat -> A -> Point) l :
  sum_P k (fun i => psum_over (f i) l) = psum_over (fun a => sum_P k (fun i => f i a)) l.
Proof.
  induction l as [|a l IH]; cbn [psum_over].
  - apply sum_P_0. auto.
  - rewrite sum_P_add, IH. reflexivity.
Qed.
Lemma sum_over_pmul {A} (f : A -> Scalar) l (P : Point) : (sum_over f l *: P)%P = psum_over (fun a => f a *: P)%P l.
Proof. induction l as [|a l IH]; cbn; [pring|]. rewrite <- IH. pring. Qed.

Lemma sum_P_single' n i f : i < n -> (forall j, j < n -> j <> i -> f j = p0) -> sum_P n f = f i.
Proof.
  revert i; induction n as [|n IH]; intros i Hi H; [lia|]. cbn. destruct (Nat.eq_dec i n) as [->|Hn].
  - rewrite sum_P_0 by (intros; apply H; lia). pring.
  - rewrite (IH i) by (try lia; intros; apply H; lia). rewrite (H n) by lia. pring.
Qed.

(** ** the two update loops *)
Lemma place_spec {A} (h : A -> Scalar) (f : A -> res Scalar) (g : A -> nat) l : forall v,
  (forall a, In a l -> f a = Ok (h a)) -> NoDup (map g l) ->
  (forall a, In a l -> g a < length v /\ sc v (g a) = s0) ->
  exists v', foldM (fun v a => x <- f a ;; upd v (g a) x) l v = Ok v' /\ length v' = length v /\
    forall i, sc v' i = (sc v i + sum_over (fun a => if g a =? i then h a else s0) l)%S.
Proof.
  induction l as [|a l IH]; intros v Hf HN Hv; cbn [foldM].
  - exists v. repeat split; auto. intros i. cbn. ring.
  - cbn in HN. inversion HN as [|? ? H1 H2]; subst. destruct (Hv a (or_introl eq_refl)) as [Ha Ha0].
    rewrite (Hf a (or_introl eq_refl)). cbn [bind]. rewrite upd_lt by auto. cbn [bind].
    destruct (IH (set_at v (g a) (h a))) as (v' & E & El & Ev).
    + intros b Hb. apply Hf. now right.
    + auto.
    + intros b Hb. rewrite set_at_length. destruct (Hv b (or_intror Hb)) as [Hb1 Hb2]. split; auto.
      unfold sc. rewrite nth_set_at_neq; auto. intros Eg. apply H1. rewrite Eg. now apply in_map.
    + exists v'. rewrite set_at_length in El. repeat split; auto. intros i. rewrite Ev. cbn [sum_over].
      unfold sc at 1. rewrite nth_set_at. destruct (Nat.eqb_spec (g a) i) as [<-|Hne]; cbn [andb].
      * destruct (Nat.ltb_spec (g a) (length v)); [|lia]. fold (sc v (g a)). rewrite Ha0. ring.
      * fold (sc v i). ring.
Qed.
Lemma agg_spec al l : forall v,
  (forall m, In m l -> mpos m < length v /\ midx m < length v /\ mcrs m < length al) ->
  (forall m m', In m l -> In m' l -> mpos m <> midx m') ->
  exists v', foldM (fun w_prime msg_map =>
                      msg <- idx w_prime (N.to_nat (position_in_witness msg_map)) ;;
                      alpha <- idx al (N.to_nat (commitment_crs_id msg_map)) ;;
                      old <- idx w_prime (N.to_nat (commitment_index msg_map)) ;;
                      upd w_prime (N.to_nat (commitment_index msg_map)) (old + msg * alpha)%S) l v = Ok v' /\
    length v' = length v /\
    forall i, sc v' i = (sc v i + sum_over (fun m => if midx m =? i then sc v (mpos m) * sc al (mcrs m) else s0) l)%S.
Proof.
  induction l as [|m l IH]; intros v Hv Hd; cbn [foldM].
  - exists v. repeat split; auto. intros i. cbn. ring.
  - destruct (Hv m (or_introl eq_refl)) as (H1 & H2 & H3).
    fold (mpos m) (midx m) (mcrs m). rewrite !(idx_lt _ _ s0) by auto. cbn [bind]. rewrite upd_lt by auto. cbn [bind].
    fold (sc v (midx m)) (sc v (mpos m)) (sc al (mcrs m)).
    set (v1 := set_at v (midx m) _).
    destruct (IH v1) as (v' & E & El & Ev).
    + intros m' Hm'. unfold v1. rewrite set_at_length. apply Hv. now right.
    + intros m1 m2 Hm1 Hm2. apply Hd; now right.
    + exists v'. split; [exact E|]. split; [rewrite El; apply set_at_length|]. intros i. rewrite Ev. cbn [sum_over].
      rewrite (sum_over_ext _ (fun m0 => if midx m0 =? i then sc v (mpos m0) * sc al (mcrs m0) else s0)%S).
      2:{ intros m' Hm'. unfold v1, sc at 1. rewrite nth_set_at_neq; auto.
          apply not_eq_sym. apply Hd; [now right|now left]. }
      unfold v1 at 1, sc at 1. rewrite nth_set_at. destruct (Nat.eqb_spec (midx m) i) as [<-|Hne]; cbn [andb].
      * destruct (Nat.ltb_spec (midx m) (length v)); [|lia]. ring.
      * fold (sc v i). ring.
Qed.

(** ** the copy matrices *)
Lemma pad_rows_eq f k zeroes M : length M <= k -> k - length M < f ->
  pad_rows f k zeroes M = Ok (M ++ repeat zeroes (k - length M)).
Proof.
  revert M; induction f as [|f IH]; intros M Hk Hf; [lia|]. cbn [pad_rows].
  destruct (Nat.eqb_spec (length M) k) as [E|E].
  - rewrite E, Nat.sub_diag. cbn. now rewrite app_nil_r.
  - rewrite IH by (rewrite app_length; cbn; lia). rewrite app_length. cbn [length]. rewrite <- app_assoc. cbn [app].
    f_equal. f_equal. replace (k - length M) with (S (k - (length M + 1))) by lia. reflexivity.
Qed.
Lemma map_const_repeat {A} (c : A) k : map (fun _ => c) (seq 0 k) = repeat c k.
Proof. rewrite <- (seq_length k 0) at 2. generalize (seq 0 k). induction l as [|a l IH]; cbn; auto. now rewrite IH. Qed.
Lemma sc_repeat0 k i : sc (repeat s0 k) i = s0.
Proof. unfold sc. apply nth_repeat. Qed.
Lemma sc_powers x k i : i < k -> sc (powers x k) i = spow x (S i).
Proof. intros H. unfold sc, powers. now rewrite tab_nth. Qed.
Lemma filter_map_NoDup {A} (g : A -> nat) p l : NoDup (map g l) -> NoDup (map g (filter p l)).
Proof.
  induction l as [|a l IH]; cbn; intros H; auto. inversion H as [|? ? H1 H2]; subst. destruct (p a); cbn; auto.
  constructor; auto. intros Hin. apply H1. apply in_map_iff in Hin as (b & E & Hb). apply filter_In in Hb as [Hb _].
  rewrite <- E. now apply in_map.
Qed.
Lemma copy_matrix_eq n K mp alpha c : 3 <= n -> good_map n K mp -> N.to_nat c < n - 2 ->
  create_copy_matrix (n - 2) (map (fun _ => s0) (seq 0 (n - 2))) (msgs_map mp) (powers alpha K) c
  = Ok (cp_matrix n mp alpha c).
Proof.
  intros Hn HM Hc. unfold create_copy_matrix. rewrite map_const_repeat.
  rewrite upd_lt by (now rewrite repeat_length). cbn [bind]. set (v := set_at _ _ _). set (fl := filter _ _).
  assert (Hfl : forall m, In m fl -> In m (msgs_map mp) /\ midx m = N.to_nat c).
  { intros m Hm. apply filter_In in Hm as [Hm E]. apply N.eqb_eq in E. split; auto. unfold midx. now rewrite E. }
  assert (Hv : forall i, i < n - 2 -> sc v i = if i =? N.to_nat c then (- s1)%S else s0).
  { intros i Hi. unfold v, sc. rewrite nth_set_at, repeat_length, Nat.eqb_sym.
    destruct (Nat.eqb_spec i (N.to_nat c)); cbn [andb]; [|apply nth_repeat].
    destruct (Nat.ltb_spec (N.to_nat c) (n - 2)); [auto|lia]. }
  assert (Lv : length v = n - 2) by (unfold v; now rewrite set_at_length, repeat_length).
  destruct (place_spec (fun m => spow alpha (S (mcrs m)))
     (fun m => idx (powers alpha K) (N.to_nat (commitment_crs_id m))) mpos fl v) as (v' & E & El & Ev).
  - intros m Hm. destruct (Hfl m Hm) as [Hm' _]. fold (mcrs m).
    assert (Hk := gm_crs _ _ _ HM m Hm'). rewrite (idx_lt _ _ s0) by (now rewrite powers_length).
    fold (sc (powers alpha K) (mcrs m)). now rewrite sc_powers.
  - apply filter_map_NoDup, HM.
  - intros m Hm. destruct (Hfl m Hm) as [Hm' Hmi]. rewrite Lv. assert (Hp := gm_pos _ _ _ HM m Hm'). split; auto.
    rewrite Hv by auto. destruct (Nat.eqb_spec (mpos m) (N.to_nat c)) as [Ee|]; auto.
    exfalso. apply (gm_disj _ _ _ HM m m Hm' Hm'). congruence.
  - unfold mpos in E at 1. rewrite E. cbn [bind]. rewrite pad_rows_eq by (cbn; lia). cbn [length app].
    unfold cp_matrix. replace (n - 2 - 1) with (n - 3) by lia. f_equal. f_equal.
    unfold cp_row. apply (tab_eq s0); [lia|]. intros i Hi. fold (sc v' i). rewrite Ev, Hv by auto.
    unfold fl. rewrite sum_over_filter.
    rewrite (sum_over_ext _ (fun m => if (midx m =? N.to_nat c) && (mpos m =? i) then spow alpha (S (mcrs m)) else s0)).
    2:{ intros m Hm. unfold midx. destruct (N.eqb_spec (commitment_index m) c) as [->|Hne].
        - now rewrite Nat.eqb_refl.
        - destruct (Nat.eqb_spec (N.to_nat (commitment_index m)) (N.to_nat c)); [lia|auto]. }
    destruct (Nat.eqb_spec i (N.to_nat c)) as [->|Hne]; [|ring].
    rewrite sum_over_0; [ring|]. intros m Hm. destruct (Nat.eqb_spec (midx m) (N.to_nat c)) as [Em|]; cbn [andb]; auto.
    destruct (Nat.eqb_spec (mpos m) (N.to_nat c)) as [Ep|]; auto. exfalso.
    apply (gm_disj _ _ _ HM m m Hm Hm). congruence.
Qed.
Lemma copy_matrices_loop n K mp alpha Ms : 3 <= n -> good_map n K mp ->
  foldM (fun gamma_i ci =>
           matrix <- create_copy_matrix (n - 2) (map (fun _ => s0) (seq 0 (n - 2))) (msgs_map mp) (powers alpha K) ci ;;
           Ok (BlockMatrix_push gamma_i matrix)) (unique_commitment_indices mp) (mkBlockMatrix Ms)
  = Ok (mkBlockMatrix (cp_system n mp alpha Ms)).
Proof.
  intros Hn HM. unfold cp_system.
  assert (HU : forall c, In c (unique_commitment_indices mp) -> N.to_nat c < n - 2).
  { intros c Hc. apply HM in Hc as (m & Hm & <-). now apply (gm_idx _ _ _ HM). }
  revert Ms HU. generalize (unique_commitment_indices mp). induction l as [|c l IH]; intros Ms HU; cbn [foldM map].
  - now rewrite app_nil_r.
  - rewrite copy_matrix_eq by (auto; apply HU; now left). cbn [bind]. 
    change (BlockMatrix_push (mkBlockMatrix Ms) (cp_matrix n mp alpha c)) with (mkBlockMatrix (Ms ++ [cp_matrix n mp alpha c])).
    rewrite IH by (intros; apply HU; now right). now rewrite <- app_assoc.
Qed.
Lemma cp_matrix_rect n mp alpha c : 3 <= n -> rect (n - 2) (n - 2) (cp_matrix n mp alpha c).
Proof.
  intros Hn. unfold cp_matrix. split.
  - cbn. rewrite repeat_length. lia.
  - constructor; [apply tab_length|]. apply Forall_forall. intros r Hr. apply repeat_spec in Hr. subst. apply repeat_length.
Qed.
(** its quadratic form *)
Lemma quad_cp_matrix n K mp alpha c w : 3 <= n -> good_map n K mp -> N.to_nat c < n - 2 -> length w = n - 2 ->
  quad (cp_matrix n mp alpha c) w = (sc w 0 * (cp_slot mp alpha w (N.to_nat c) - sc w (N.to_nat c)))%S.
Proof.
  intros Hn HM Hc Hw. unfold quad. rewrite Hw. rewrite (sum_S_single _ 0); [|lia|].
  2:{ intros i Hi Hi0. apply sum_S_0. intros j Hj. unfold ent, cp_matrix. destruct i as [|i]; [lia|]. cbn [nth].
      rewrite (nth_indep _ _ (repeat s0 (n - 2))) by (rewrite repeat_length; lia). rewrite nth_repeat, sc_repeat0. ring. }
  unfold ent, cp_matrix. cbn [nth].
  rewrite (sum_S_ext _ _ (fun j => sc w 0 * (sc (cp_row n mp alpha (N.to_nat c)) j * sc w j))%S) by (intros; ring).
  rewrite sum_S_mul. f_equal.
  rewrite (sum_S_ext _ _ (fun j => (if j =? N.to_nat c then - sc w j else s0)
     + sum_over (fun m => if (midx m =? N.to_nat c) && (mpos m =? j) then spow alpha (S (mcrs m)) * sc w j else s0) (msgs_map mp))%S).
  - rewrite sum_S_add. rewrite (sum_S_single _ (N.to_nat c)) by (auto; intros j _ Hj; now destruct (Nat.eqb_spec j (N.to_nat c))).
    rewrite Nat.eqb_refl. rewrite sum_S_over.
    rewrite (sum_over_ext _ (fun m => if midx m =? N.to_nat c then (spow alpha (S (mcrs m)) * sc w (mpos m))%S else s0)).
    + unfold cp_slot. ring.
    + intros m Hm. destruct (Nat.eqb_spec (midx m) (N.to_nat c)); cbn [andb].
      * rewrite (sum_S_single _ (mpos m)).
        -- now rewrite Nat.eqb_refl.
        -- now apply (gm_pos _ _ _ HM).
        -- intros j _ Hj. destruct (Nat.eqb_spec (mpos m) j); [congruence|auto].
      * now apply sum_S_0.
  - intros j Hj. unfold cp_row. unfold sc at 1. rewrite tab_nth by auto.
    destruct (Nat.eqb_spec j (N.to_nat c)) as [->|Hne].
    + rewrite sum_over_0; [ring|]. intros m Hm. destruct (Nat.eqb_spec (midx m) (N.to_nat c)) as [Em|]; cbn [andb]; auto.
      destruct (Nat.eqb_spec (mpos m) (N.to_nat c)) as [Ep|]; auto. exfalso.
      apply (gm_disj _ _ _ HM m m Hm Hm). congruence.
    + rewrite (sum_over_ext (fun m => if _ && _ then (_ * _)%S else s0)
        (fun m => sc w j * (if (midx m =? N.to_nat c) && (mpos m =? j) then spow alpha (S (mcrs m)) else s0))%S).
      * rewrite sum_over_mul. ring.
      * intros m _. destruct (_ && _); ring.
Qed.

(** ** the prover *)
Lemma nth_firstn_lt' {T} c (l : list T) s d : s < c -> nth s (firstn c l) d = nth s l d.
Proof. revert l s; induction c as [|c IH]; intros [|x l] [|s] H; cbn; auto; try lia. apply IH. lia. Qed.
Lemma nth_skipn' {T} c (l : list T) s d : nth s (skipn c l) d = nth (c + s) l d.
Proof. revert l; induction c as [|c IH]; intros [|x l]; cbn; auto. now destruct s. Qed.
Lemma map_snd_combine {A B} (xs : list A) (ys : list B) : length xs = length ys -> map snd (combine xs ys) = ys.
Proof. revert ys; induction xs as [|x xs IH]; intros [|y ys] H; cbn in *; try discriminate; auto. now rewrite IH by lia. Qed.
Lemma combine_In_r {A B} (xs : list A) (ys : list B) p : In p (combine xs ys) -> In (snd p) ys.
Proof. destruct p. apply in_combine_r. Qed.
Lemma placed_at_pos mp w msgs : length msgs = length (msgs_map mp) -> NoDup (map mpos (msgs_map mp)) ->
  (forall m, In m (msgs_map mp) -> length w <= mpos m) ->
  forall x m, In (x, m) (combine msgs (msgs_map mp)) -> cp_placed mp w msgs (mpos m) = x.
Proof.
  intros Hl HN Hp x m Hin. unfold cp_placed.
  assert (E0 : sc w (mpos m) = s0). { unfold sc. apply nth_overflow. apply Hp. apply (combine_In_r _ _ _ Hin). }
  rewrite E0.
  assert (E := sum_over_single (fun p : Scalar * MessageMap => mpos (snd p)) fst (combine msgs (msgs_map mp)) (x, m)).
  cbn [fst snd] in E. rewrite (sum_over_ext _ (fun b => if mpos (snd b) =? mpos m then fst b else s0)) by (now intros [? ?] _).
  rewrite E; auto; [ring|]. rewrite <- map_map, map_snd_combine by auto. exact HN.
Qed.
Definition cp_rand (openings : list (list Scalar * Scalar)) (alpha : Scalar) : Scalar :=
  sum_S (length openings) (fun k => snd (nth k openings ([], s0)) * spow alpha (S k))%S.
Lemma copy_create_eq ro rng pos tr G H Q mp Ms w openings n :
  3 <= n -> length G = n -> good_map n (length openings) mp -> num_commitments mp = length openings ->
  1 <= length openings -> 1 <= length w -> length w <= n - 2 -> sc w 0 = s1 ->
  (forall m, In m (msgs_map mp) -> length w <= mpos m) ->
  let msgs := concat (map fst openings) in
  length msgs = length (msgs_map mp) ->
  let wp := tab (n - 2) (cp_placed mp w msgs) in
  let Cw := lin (wp ++ [rng pos; rng (pos + 1)]) G in
  let alpha := ro (cp_hist tr (compress Cw)) in
  copy_create ro rng pos tr G H Q mp (mkBlockMatrix Ms) w openings =
  ('(p, tr', pos') <- inner_create ro rng (pos + 2) (cp_hist tr (compress Cw)) G H Q
       (mkBlockMatrix (cp_system n mp alpha Ms)) (cp_witness n mp w msgs alpha)
       [rng pos; (rng (pos + 1)%nat + cp_rand openings alpha)%S] ;;
   Ok (mkCopy (compress Cw) p, tr', pos')).
Proof.
  intros Hn HG HM HK HO Hw1 Hw H0 Hpw msgs Hms wp Cw alpha. unfold copy_create. rewrite HG, HK, Nat.eqb_refl.
  cbn [assertb bind]. rewrite (idx_lt _ _ s0) by lia. cbn [bind]. fold (sc w 0). rewrite H0, seqb_refl. cbn [assertb bind].
  rewrite usub_le by lia. cbn [bind]. rewrite usub_le by lia. cbn [bind]. rewrite map_const_repeat.
  replace (S (S pos)) with (pos + 2) by lia. replace (S pos) with (pos + 1) by lia.
  set (r0 := rng pos) in *. set (r1 := rng (pos + 1)) in *.
  fold msgs. set (v0 := (w ++ repeat s0 (n - 2 - length w)) ++ [r0; r1]).
  assert (Lv0 : length v0 = n) by (unfold v0; rewrite !app_length, repeat_length; cbn; lia).
  assert (Sv0 : forall i, i < n - 2 -> sc v0 i = sc w i).
  { intros i Hi. unfold v0, sc. rewrite app_nth1 by (rewrite app_length, repeat_length; lia).
    destruct (Nat.lt_ge_cases i (length w)).
    - now rewrite app_nth1.
    - rewrite app_nth2, nth_repeat by lia. now rewrite nth_overflow. }
  assert (Rv0 : sc v0 (n - 2) = r0 /\ sc v0 (n - 1) = r1).
  { unfold v0, sc. rewrite !app_nth2; rewrite app_length, repeat_length; try lia.
    replace (n - 2 - _) with 0 by lia. replace (n - 1 - _) with 1 by lia. auto. }
  (* messages placed *)
  destruct (place_spec fst (fun p : Scalar * MessageMap => Ok (fst p)) (fun p => mpos (snd p))
     (combine msgs (msgs_map mp)) v0) as (v1 & E1 & L1 & S1).
  { auto. }
  { rewrite <- map_map, map_snd_combine by auto. apply HM. }
  { intros p Hp. apply combine_In_r in Hp. assert (HP := gm_pos _ _ _ HM _ Hp). split; [lia|].
    rewrite Sv0 by lia. unfold sc. apply nth_overflow. auto. }
  rewrite (foldM_ext _ (fun v a => x <- Ok (fst a) ;; upd v (mpos (snd a)) x)) by (now intros ? [? ?] _).
  rewrite E1. cbn [bind].
  assert (Ev1 : v1 = wp ++ [r0; r1]).
  { apply (list_eq_nth s0); [unfold wp; rewrite app_length, tab_length; cbn; lia|]. intros i Hi. fold (sc v1 i).
    rewrite S1. rewrite (sum_over_ext _ (fun '(x, m) => if mpos m =? i then x else s0)) by (now intros [? ?] _).
    destruct (Nat.lt_ge_cases i (n - 2)) as [Hi2|Hi2].
    - rewrite app_nth1 by (unfold wp; rewrite tab_length; lia). unfold wp. rewrite tab_nth by auto.
      rewrite Sv0 by auto. reflexivity.
    - rewrite sum_over_0.
      2:{ intros [x m] Hp. apply combine_In_r in Hp. cbn [snd] in Hp. assert (HP := gm_pos _ _ _ HM _ Hp).
          destruct (Nat.eqb_spec (mpos m) i); [lia|auto]. }
      rewrite app_nth2 by (unfold wp; rewrite tab_length; lia). unfold wp. rewrite tab_length.
      assert (D : i = n - 2 \/ i = n - 1) by lia. destruct D as [-> | ->].
      + rewrite (proj1 Rv0), Nat.sub_diag. cbn. ring.
      + rewrite (proj2 Rv0). replace (n - 1 - (n - 2)) with 1 by lia. cbn. ring. }
  rewrite msm_Ok by lia. cbn [bind]. rewrite Ev1. fold Cw.
  unfold append_message, challenge_scalar.
  replace ((tr ++ [EvMsg "c_w" (compress Cw)]) ++ [EvChal "alpha"]) with (cp_hist tr (compress Cw))
    by (unfold cp_hist; now rewrite <- app_assoc).
  fold alpha. rewrite vandemonde_challenge_eq by auto. cbn [bind].
  rewrite usub_le by lia. cbn [bind]. rewrite <- Ev1. rewrite (idx_lt _ _ s0) by lia. cbn [bind]. rewrite upd_lt by lia. cbn [bind].
  assert (Er : ssum (map2 smul (map snd openings) (powers alpha (length openings))) = cp_rand openings alpha).
  { change (ssum (map2 smul (map snd openings) (powers alpha (length openings))))
      with (inner_product (map snd openings) (powers alpha (length openings))).
    rewrite inner_product_dot, dot_dotp by (now rewrite map_length, powers_length). unfold dotp, cp_rand. rewrite map_length.
    apply sum_S_ext. intros k Hk. rewrite sc_powers by auto. f_equal. unfold sc.
    change s0 with (snd (@nil Scalar, @s0 C)) at 1. apply map_nth. }
  rewrite Er. set (v2 := set_at v1 (n - 1) _).
  assert (L2 : length v2 = n) by (unfold v2; rewrite set_at_length; lia).
  assert (S2 : forall i, i <> n - 1 -> sc v2 i = sc v1 i) by (intros i Hi; unfold v2, sc; rewrite nth_set_at_neq; auto).
  assert (S2' : sc v2 (n - 1) = (r1 + cp_rand openings alpha)%S).
  { unfold v2, sc. rewrite nth_set_at_eq by lia. f_equal. rewrite Ev1, app_nth2; unfold wp; rewrite tab_length; [|lia].
    replace (n - 1 - (n - 2)) with 1 by lia. reflexivity. }
  destruct (agg_spec (powers alpha (length openings)) (msgs_map mp) v2) as (v3 & E3 & L3 & S3).
  { intros m Hm. rewrite L2, powers_length. assert (A1 := gm_pos _ _ _ HM _ Hm). assert (A2 := gm_idx _ _ _ HM _ Hm).
    assert (A3 := gm_crs _ _ _ HM _ Hm). lia. }
  { apply HM. }
  rewrite E3. cbn [bind]. rewrite copy_matrices_loop by auto. cbn [bind].
  rewrite split_at_le by lia. cbn [bind].
  assert (P1 : forall i, i < n - 2 -> sc v1 i = cp_placed mp w msgs i).
  { intros i Hi. rewrite Ev1. unfold sc. rewrite app_nth1 by (unfold wp; rewrite tab_length; lia). unfold wp. now rewrite tab_nth. }
  assert (EA : forall i, sum_over (fun m => if midx m =? i then (sc v2 (mpos m) * sc (powers alpha (length openings)) (mcrs m))%S else s0) (msgs_map mp)
             = cp_added mp msgs alpha i).
  { intros i. rewrite <- (sum_over_combine _ msgs) by auto. apply sum_over_ext. intros [x m] Hin.
    assert (Hm := combine_In_r _ _ _ Hin). cbn [snd] in Hm. assert (A1 := gm_pos _ _ _ HM _ Hm).
    destruct (midx m =? i); auto. rewrite S2 by lia. rewrite P1 by auto.
    rewrite (placed_at_pos mp w msgs Hms (gm_nodup _ _ _ HM) Hpw x m Hin).
    rewrite sc_powers by (now apply (gm_crs _ _ _ HM)). ring. }
  replace (firstn (n - 2) v3) with (cp_witness n mp w msgs alpha).
  2:{ apply (list_eq_nth s0); [unfold cp_witness; rewrite tab_length, firstn_length_le by lia; auto|].
      unfold cp_witness. rewrite tab_length. intros i Hi. rewrite tab_nth by auto. rewrite nth_firstn_lt' by auto.
      fold (sc v3 i). rewrite S3, S2, P1 by lia. now rewrite EA. }
  replace (skipn (n - 2) v3) with [r0; (r1 + cp_rand openings alpha)%S]; [reflexivity|].
  apply (list_eq_nth s0); [rewrite skipn_length, L3, L2; cbn; lia|]. intros i Hi. cbn in Hi. rewrite nth_skipn'.
  fold (sc v3 (n - 2 + i)). rewrite S3, EA.
  assert (Z : forall j, n - 2 <= j -> cp_added mp msgs alpha j = s0).
  { intros j Hj. apply sum_over_0. intros [x m] Hin. apply combine_In_r in Hin. cbn [snd] in Hin.
    assert (A1 := gm_idx _ _ _ HM _ Hin). destruct (Nat.eqb_spec (midx m) j); [lia|auto]. }
  rewrite Z by lia. assert (D : i = 0 \/ i = 1) by lia. destruct D as [-> | ->].
  - rewrite S2, Nat.add_0_r by lia. rewrite Ev1. unfold sc. rewrite app_nth2; unfold wp; rewrite tab_length; [|lia].
    rewrite Nat.sub_diag. cbn. ring.
  - replace (n - 2 + 1) with (n - 1) by lia. rewrite S2'. cbn. ring.
Qed.

(** ** the verifier *)
Lemma copy_verify_eq ro tr pf G H Q mp Ms Cs n Cw :
  3 <= n -> length G = n -> good_map n (length Cs) mp -> 1 <= length Cs ->
  decompress (cp_C_w pf) = Some Cw ->
  let alpha := ro (cp_hist tr (cp_C_w pf)) in
  copy_verify ro tr pf G H Q (mkBlockMatrix Ms) mp Cs =
  inner_verify ro (cp_hist tr (cp_C_w pf))
    (mkInner (alm_zk (cp_inner pf)) (compress (cp_agg alpha Cw Cs)) (c_prime_prime_w (cp_inner pf)))
    G H Q (mkBlockMatrix (cp_system n mp alpha Ms)).
Proof.
  intros Hn HG HM HC HD alpha. unfold copy_verify, append_message, challenge_scalar. rewrite HG, HD.
  replace ((tr ++ [EvMsg "c_w" (cp_C_w pf)]) ++ [EvChal "alpha"]) with (cp_hist tr (cp_C_w pf))
    by (unfold cp_hist; now rewrite <- app_assoc).
  fold alpha. rewrite vandemonde_challenge_eq by auto. cbn [bind unwrap]. rewrite usub_le by lia. cbn [bind].
  change verify_copy_matrix with create_copy_matrix. rewrite copy_matrices_loop by auto. cbn [bind].
  replace (psum (map2 (fun a c => a *: c)%P (powers alpha (length Cs)) Cs) + Cw)%P with (cp_agg alpha Cw Cs); [reflexivity|].
  change (map2 (fun a c => a *: c)%P (powers alpha (length Cs)) Cs) with (map2 pmul (powers alpha (length Cs)) Cs).
  rewrite psum_lin, lin_comb by (now rewrite powers_length). unfold cp_agg, comb. rewrite powers_length.
  rewrite (sum_P_ext _ (fun k => sc (powers alpha (length Cs)) k *: pt Cs k)%P (fun k => spow alpha (S k) *: pt Cs k)%P).
  - pring.
  - intros k Hk. now rewrite sc_powers.
Qed.

(** ** the aggregated commitment *)
Lemma commit_inv G ix msg r c : commit G ix msg r = Ok c ->
  length ix = length msg /\ (forall i, In i ix -> N.to_nat i < length G) /\ 1 <= length G /\ c = commit_value G ix msg r.
Proof.
  intros E. destruct (C33_commit_value G ix msg r) as [Y Nn].
  destruct (Nat.eq_dec (length ix) (length msg)) as [Hl|Hl].
  2:{ rewrite Nn in E by tauto. discriminate. }
  destruct (Forall_Exists_dec (fun i => N.to_nat i < length G) (fun i => lt_dec _ _) ix) as [Hi|Hi].
  2:{ rewrite Nn in E; [discriminate|]. intros (_ & Hall & _). apply Exists_exists in Hi as (i & Hin & Hc). auto. }
  destruct (le_dec 1 (length G)) as [HG|HG].
  2:{ rewrite Nn in E by tauto. discriminate. }
  rewrite Forall_forall in Hi. rewrite Y in E by auto. injection E as <-. auto.
Qed.
Lemma combine_app {A B} (a a' : list A) (b b' : list B) : length a = length b ->
  combine (a ++ a') (b ++ b') = combine a b ++ combine a' b'.
Proof. revert b; induction a as [|x a IH]; intros [|y b] H; cbn in *; try discriminate; auto. now rewrite IH by lia. Qed.
Lemma agg_one G alpha (k : N) s : forall xs, length s = length xs ->
  psum_over (fun '(x, (c, i)) => (spow alpha (S (N.to_nat c)) * x)%S *: pt G (N.to_nat i))%P
    (combine xs (combine (map (fun _ => k) s) s))
  = (spow alpha (S (N.to_nat k)) *: sum_P (length s) (fun j => sc xs j *: pt G (N.to_nat (nth j s 0%N))))%P.
Proof.
  induction s as [|i s IH]; intros [|x xs] H; cbn in H; try discriminate.
  - cbn [map combine psum_over length sum_P]. pring.
  - cbn [map combine psum_over length]. rewrite sum_P_shift. cbn [nth sc]. rewrite IH by lia.
    change (fun i0 => nth i0 xs s0 *: pt G (N.to_nat (nth i0 s 0%N)))%P with (fun j => sc xs j *: pt G (N.to_nat (nth j s 0%N)))%P. pring.
Qed.
Lemma agg_commit_gen G alpha : forall sets (openings : list (list Scalar * Scalar)) (cf : nat -> Point) k,
  (forall j, j < length sets -> commit G (nth j sets []) (fst (nth j openings ([], s0))) (snd (nth j openings ([], s0))) = Ok (cf j)) ->
  length openings = length sets -> (N.of_nat (k + length sets) <= 65536)%N ->
  (psum_over (fun '(x, (c, i)) => (spow alpha (S (N.to_nat c)) * x)%S *: pt G (N.to_nat i))%P
     (combine (concat (map fst openings))
       (combine (concat (map (fun '(crs_id, s) => map (fun _ => as_u16 (N.of_nat crs_id)) s) (combine (seq k (length sets)) sets)))
                (concat sets)))
   + sum_S (length openings) (fun j => snd (nth j openings ([], s0)) * spow alpha (S (k + j)))%S *: pt G (length G - 1))%P
  = sum_P (length sets) (fun j => spow alpha (S (k + j)) *: cf j)%P.
Proof.
  induction sets as [|s sets IH]; intros [|[xs rd] openings] cf k Hc Hl Hk; cbn in Hl; try discriminate.
  - cbn. pring.
  - assert (H0 := Hc 0 ltac:(cbn; lia)). cbn [nth fst snd] in H0. apply commit_inv in H0 as (Hs & _ & _ & E0).
    cbn [map concat length seq combine fst].
    rewrite combine_app by (now rewrite map_length). rewrite combine_app.
    2:{ rewrite combine_length, map_length. lia. }
    rewrite psum_over_app, agg_one by auto. rewrite sum_S_shift, sum_P_shift. rewrite E0. unfold commit_value.
    rewrite as_u16_small by (cbn in Hk; lia). rewrite Nat2N.id, !Nat.add_0_r. cbn [nth snd].
    replace (sum_P (length sets) (fun i => spow alpha (S (k + S i)) *: cf (S i)))%P
      with (sum_P (length sets) (fun j => spow alpha (S (S k + j)) *: cf (S j)))%P
      by (apply sum_P_ext; intros j _; now rewrite Nat.add_succ_r).
    rewrite <- (IH openings (fun j => cf (S j)) (S k)).
    + rewrite (sum_S_ext _ (fun i => snd (nth i openings ([], s0)) * spow alpha (S (k + S i)))%S
                           (fun j => snd (nth j openings ([], s0)) * spow alpha (S (S k + j)))%S)
        by (intros j _; now rewrite Nat.add_succ_r).
      pring.
    + intros j Hj. apply (Hc (S j)). cbn. lia.
    + lia.
    + cbn in Hk. lia.
Qed.
Lemma agg_commit G alpha sets openings (cf : nat -> Point) av :
  (forall j, j < length sets -> commit G (nth j sets []) (fst (nth j openings ([], s0))) (snd (nth j openings ([], s0))) = Ok (cf j)) ->
  length openings = length sets -> (N.of_nat (length sets) <= 65536)%N ->
  (psum_over (fun '(x, m) => (spow alpha (S (mcrs m)) * x)%S *: pt G (midx m))%P
     (combine (concat (map fst openings)) (cm_msgs sets av))
   + cp_rand openings alpha *: pt G (length G - 1))%P
  = sum_P (length sets) (fun j => spow alpha (S j) *: cf j)%P.
Proof.
  intros Hc Hl Hk. assert (AG := agg_commit_gen G alpha sets openings cf 0 Hc Hl Hk). cbn [Nat.add] in AG.
  rewrite <- AG. clear AG. unfold cp_rand. f_equal.
  assert (E : combine (cm_crs sets) (concat sets) = map (fun m => (commitment_crs_id m, commitment_index m)) (cm_msgs sets av)).
  { unfold cm_msgs, tab. rewrite map_map. cbn [commitment_crs_id commitment_index].
    apply (tab_eq (0%N, 0%N)).
    - rewrite combine_length, cm_crs_length, total_eq. lia.
    - intros i Hi. rewrite combine_nth by (now rewrite cm_crs_length, total_eq). reflexivity. }
  change (concat (map _ (combine (seq 0 (length sets)) sets))) with (cm_crs sets). rewrite E.
  set (ms := cm_msgs sets av). set (xs := concat (map fst openings)). clearbody ms xs. clear.
  revert ms. induction xs as [|x xs IH]; intros [|m ms]; cbn [combine map psum_over]; auto. now rewrite IH.
Qed.
Lemma concat_openings_length sets (openings : list (list Scalar * Scalar)) :
  length openings = length sets ->
  (forall j, j < length sets -> length (fst (nth j openings ([], s0))) = length (nth j sets [])) ->
  length (concat (map fst openings)) = cm_total sets.
Proof.
  revert openings; induction sets as [|s sets IH]; intros [|o openings] Hl H; cbn in Hl; try discriminate; auto.
  cbn [map concat]. rewrite app_length, cm_total_cons. f_equal.
  - apply (H 0). cbn. lia.
  - apply IH; [lia|]. intros j Hj. apply (H (S j)). cbn. lia.
Qed.
End CopyFacts.
