(** C71: how many random tapes make an honest almost zero-knowledge run fail *)
From Verif Require Export Count Poly PropTests.
From Verif Require Import ExSmall.
Local Open Scope nat_scope.
Local Open Scope list_scope.

(** the tape that holds the letters of a word *)
Definition tape {C : Crypto} (w : list Scalar) : nat -> Scalar := fun i => nth i w s0.
Definition is_ok {A} (r : res A) : bool := match r with Ok _ => true | _ => false end.

Section C71.
Context {C : Crypto} {L : CryptoLaws C}.
Add Field SfC71 : (@S_field C L).

Lemma in_mn_plus_dec n i : {in_mn_plus n i} + {~ in_mn_plus n i}.
Proof.
  unfold in_mn_plus. destruct (Nat.eq_dec i 0); [left; auto|]. destruct (Nat.eq_dec i 1); [left; auto|].
  destruct (Nat.eq_dec i (n - 2)); [left; auto|]. destruct (Nat.eq_dec i (n - 1)); [left; auto|].
  assert (X : forall N, {exists k, k < N /\ 1 <= k /\ 2 ^ (k + 1) <= n /\ (i = 2 ^ k \/ i = 2 ^ k + 1)} +
                        {forall k, k < N -> ~ (1 <= k /\ 2 ^ (k + 1) <= n /\ (i = 2 ^ k \/ i = 2 ^ k + 1))}).
  { induction N as [|N [IH|IH]]; [right; intros; lia|left; destruct IH as (k & Hk & X); exists k; split; [lia|auto]|].
    destruct (le_lt_dec 1 N) as [H1|H1].
    - destruct (le_lt_dec (2 ^ (N + 1)) n) as [H2|H2].
      + destruct (Nat.eq_dec i (2 ^ N)) as [H3|H3]; [left; exists N; auto 6|].
        destruct (Nat.eq_dec i (2 ^ N + 1)) as [H4|H4]; [left; exists N; auto 6|].
        right. intros k Hk. destruct (Nat.eq_dec k N) as [->|]; [lia|apply IH; lia].
      + right. intros k Hk. destruct (Nat.eq_dec k N) as [->|]; [lia|apply IH; lia].
    - right. intros k Hk. destruct (Nat.eq_dec k N) as [->|]; [lia|apply IH; lia]. }
  destruct (X (S i)) as [Y|Y].
  - left. right; right; left. destruct Y as (k & _ & Y). now exists k.
  - right. intros [H|[H|[(k & H)|[H|H]]]]; try contradiction. apply (Y k); auto. assert (k < 2 ^ k) by (apply Nat.pow_gt_lin_r; lia). lia.
Qed.

(** ** roots *)
Lemma count_roots (vals c : list Scalar) : NoDup vals -> ~ Forall (fun a => a = s0) c ->
  count (fun v => seqb (peval c v) s0) vals <= length c - 1.
Proof.
  intros HN Hc. destruct (Nat.le_gt_cases (count (fun v => seqb (peval c v) s0) vals) (length c - 1)) as [H|H]; auto.
  exfalso. apply Hc. apply (poly_zero (filter (fun v => seqb (peval c v) s0) vals)).
  - now apply NoDup_filter.
  - unfold count in H. destruct c; cbn [length] in *; lia.
  - intros x Hx. apply filter_In in Hx as [_ Hx]. now apply seqb_eq.
Qed.
(** a test F = 0, guarded by P, where F is a non-zero polynomial of degree at most e in the
    letter at j *)
Lemma count_poly_event (vals : list Scalar) K j e (P : list Scalar -> bool) (F : list Scalar -> Scalar) :
  NoDup vals -> j < K ->
  (forall w, length w = K ->
     (forall v, P (set_at w j v) = false) \/
     exists c, length c <= S e /\ ~ Forall (fun a => a = s0) c /\ forall v, F (set_at w j v) = peval c v) ->
  count (fun w => P w && seqb (F w) s0) (words vals K) <= e * length vals ^ (K - 1).
Proof.
  intros HN Hj H. apply (count_words_letter vals K _ j); auto. intros w Hw. destruct (H w Hw) as [Z|(c & Hc & Nz & E)].
  - rewrite count_none; [lia|]. intros v _. now rewrite Z.
  - transitivity (count (fun v => seqb (peval c v) s0) vals).
    + apply count_le. intros v _ X. apply andb_true_iff in X as [_ X]. now rewrite E in X.
    + assert (X := count_roots vals c HN Nz). lia.
Qed.
Lemma count_linear_event (vals : list Scalar) K j (P : list Scalar -> bool) (F : list Scalar -> Scalar) :
  NoDup vals -> j < K ->
  (forall w, length w = K ->
     (forall v, P (set_at w j v) = false) \/ exists al be : Scalar, be <> s0 /\ forall v, F (set_at w j v) = (al + v * be)%S) ->
  count (fun w => P w && seqb (F w) s0) (words vals K) <= length vals ^ (K - 1).
Proof.
  intros HN Hj H. rewrite <- (Nat.mul_1_l (_ ^ _)). apply (count_poly_event vals K j 1); auto. intros w Hw.
  destruct (H w Hw) as [Z|(al & be & Nz & E)]; [now left|right]. exists [al; be]. split; [cbn; lia|]. split.
  - intros X. inversion X as [|? ? _ X']; subst. inversion X'; subst. contradiction.
  - intros v. rewrite E. cbn. ring.
Qed.

(** ** vectors: x + s y, unit vectors, linearity of [away] *)
Definition vline (x : list Scalar) (s : Scalar) (y : list Scalar) : list Scalar :=
  tab (length x) (fun i => sc x i + s * sc y i)%S.
Definition unit_vec (n k : nat) : list Scalar := tab n (fun i => if i =? k then s1 else s0).
Lemma sc_tab n (f : nat -> Scalar) i : i < n -> sc (tab n f) i = f i.
Proof. intros Hi. unfold sc. now rewrite tab_nth. Qed.
Lemma set_at_vline (m : list Scalar) k v : k < length m ->
  set_at m k v = vline m (v - sc m k) (unit_vec (length m) k).
Proof.
  intros Hk. apply (tab_eq s0); [apply set_at_length|]. intros i Hi. unfold unit_vec. rewrite sc_tab by auto.
  destruct (Nat.eqb_spec i k) as [->|Hn].
  - rewrite nth_set_at_eq by auto. ring.
  - rewrite nth_set_at_neq by auto. unfold sc. ring.
Qed.
Lemma dotp_vline (u x y : list Scalar) s : length u = length x -> dotp u (vline x s y) = (dotp u x + s * dotp u y)%S.
Proof.
  intros Hu. unfold dotp, vline. rewrite <- sum_S_mul, <- sum_S_add. apply sum_S_ext. intros i Hi.
  rewrite sc_tab by lia. ring.
Qed.
Lemma away_vline (a x y : list Scalar) s : length x = length a -> length y = length a ->
  away a (vline x s y) = vline (away a x) s (away a y).
Proof.
  intros Hx Hy. symmetry. apply (tab_eq s0); [unfold vline; now rewrite tab_length, away_length|].
  intros i Hi. unfold vline at 1. rewrite tab_nth by (rewrite away_length; exact Hi). unfold away at 1 2.
  rewrite !sc_tab by auto. rewrite dotp_vline by auto. unfold vline. rewrite sc_tab by lia. ring.
Qed.
Lemma dotp_unit_r (u : list Scalar) n k : length u = n -> k < n -> dotp u (unit_vec n k) = sc u k.
Proof.
  intros Hu Hk. unfold dotp. rewrite Hu. rewrite (sum_S_single n k); auto.
  - unfold unit_vec. rewrite sc_tab by auto. rewrite Nat.eqb_refl. ring.
  - intros j Hj Hn. unfold unit_vec. rewrite sc_tab by auto. destruct (Nat.eqb_spec j k); [contradiction|ring].
Qed.
Lemma unit_vec_length n k : length (unit_vec n k) = n.
Proof. apply tab_length. Qed.
(** <a, m away from b> = <a away from b, m> *)
Lemma dotp_away_swap (a b m : list Scalar) : length a = length b -> length m = length b ->
  dotp a (away b m) = dotp (away b a) m.
Proof.
  intros Ha Hm. rewrite dotp_away_any by auto. rewrite (dotp_comm (away b a) m) by (rewrite away_length; lia).
  rewrite dotp_away_any by auto. rewrite (dotp_comm m a), (dotp_comm m b), (dotp_comm b a) by lia. ring.
Qed.
(** what is left of the k-th unit vector *)
Definition rest_of (a b : list Scalar) (k : nat) : list Scalar := away a (away b (unit_vec (length a) k)).

(** ** the two masks as functions of a word *)
Lemma sample_loop_pos rng d : forall f k hi r r' hi', k <= S d ->
  sample_loop f rng (2 ^ S d) (2 ^ S k) hi r = Ok (r', hi') -> hi' = hi + 2 * (S d - k).
Proof.
  induction f as [|f IH]; intros k hi r r' hi' Hk E; cbn [sample_loop] in E; [discriminate|].
  destruct (Nat.leb_spec (2 ^ S k) (2 ^ S d)) as [Hle|Hgt].
  - assert (Hkd : k <= d).
    { destruct (Nat.le_gt_cases k d) as [|X]; auto. exfalso.
      assert (2 ^ S (S d) <= 2 ^ S k) by (apply Nat.pow_le_mono_r; lia).
      rewrite (Nat.pow_succ_r' 2 (S d)) in H. assert (1 <= 2 ^ S d) by apply pow2_pos. lia. }
    apply bind_Ok_inv in E as (r1 & _ & E). apply bind_Ok_inv in E as (r2 & _ & E).
    replace (2 ^ S k * 2) with (2 ^ S (S k)) in E by (rewrite (Nat.pow_succ_r' 2 (S k)); lia).
    apply IH in E; lia.
  - assert (Hkd : k = S d).
    { destruct (Nat.le_gt_cases k d) as [X|]; [|lia]. exfalso.
      assert (2 ^ S k <= 2 ^ S d) by (apply Nat.pow_le_mono_r; lia). lia. }
    injection E as _ <-. lia.
Qed.
Lemma sample_pos rng pos d m p : sample_m_n_plus rng pos (2 ^ S d) = Ok (m, p) -> p = pos + 2 * d + 4.
Proof.
  unfold sample_m_n_plus. intros E.
  apply bind_Ok_inv in E as (r1 & _ & E). apply bind_Ok_inv in E as (r2 & _ & E). apply bind_Ok_inv in E as ([r3 p3] & E3 & E).
  apply bind_Ok_inv in E as (i2 & _ & E). apply bind_Ok_inv in E as (r4 & _ & E). apply bind_Ok_inv in E as (i1 & _ & E).
  apply bind_Ok_inv in E as (r5 & _ & E). apply bind_Ok_inv in E as (u & _ & E). injection E as _ <-.
  change 4 with (2 ^ 2) in E3 at 1. apply (sample_loop_pos rng d _ 1) in E3; lia.
Qed.
Lemma mask_word pos d : exists g, 
  (forall rng, sample_m_n_plus rng pos (2 ^ S d) = Ok (shown rng g, pos + 2 * d + 4)) /\ length g = 2 ^ S d /\
  (forall i, i < 2 ^ S d -> in_mn_plus (2 ^ S d) i -> exists j, pos <= j < pos + 2 * d + 4 /\
     forall rng rng' v, (forall k, rng' k = if k =? j then v else rng k) -> shown rng' g = set_at (shown rng g) i v) /\
  (forall rng rng', (forall k, pos <= k < pos + 2 * d + 4 -> rng' k = rng k) -> shown rng' g = shown rng g).
Proof.
  assert (Hn : 2 <= 2 ^ S d). { rewrite Nat.pow_succ_r'. assert (1 <= 2 ^ d) by apply pow2_pos. lia. }
  destruct (sample_m_n_plus_uniform pos _ Hn) as (g & p & E & Hl & HP & HR & HI).
  assert (Ep : p = pos + 2 * d + 4) by (apply (sample_pos (fun _ => s0) pos d _ _ (E _))). subst p.
  exists g. split; [exact E|]. split; [exact Hl|]. split.
  - intros i Hi Him. assert (X : nth i g None <> None).
    { apply HP; auto. unfold in_mn_plus, pow_pos_from in *. destruct Him as [H|[H|[(j & J1 & J2 & J3)|H]]]; auto.
      right; right; left. exists j. rewrite Nat.add_1_r in J2. auto. }
    destruct (nth i g None) as [j|] eqn:Ej; [|contradiction]. exists j. split; [now apply (HR i)|].
    assert (S : forall rng k, nth k (shown rng g) s0 = match nth k g None with Some k => rng k | None => s0 end).
    { intros rng k. exact (map_nth (fun o : option nat => match o with Some k => rng k | None => s0 end) g None k). }
    intros rng rng' v Hv. apply (list_eq_nth s0); [unfold shown; rewrite set_at_length, !map_length; auto|].
    intros k Hk. unfold shown in Hk. rewrite map_length in Hk. rewrite nth_set_at, !S.
    destruct (Nat.eqb_spec i k) as [<-|Hne]; cbn [andb].
    + destruct (Nat.ltb_spec i (length (shown rng g))) as [_|Y]; [|unfold shown in Y; rewrite map_length in Y; lia].
      rewrite Ej. rewrite Hv. now rewrite Nat.eqb_refl.
    + destruct (nth k g None) as [j'|] eqn:Ek; auto. rewrite Hv. destruct (Nat.eqb_spec j' j) as [->|]; auto.
      exfalso. apply Hne. now apply (HI i k j).
  - intros rng rng' Hr. unfold shown. apply map_ext_in. intros [k|] Hk; auto. apply Hr.
    apply In_nth with (d := None) in Hk as (i & _ & Hk). now apply HR in Hk.
Qed.
(** a way to read a word as a tape: letter j is the draw number off + j, the other draws
    are the same for all words *)
Definition drives (K off : nat) (rg : list Scalar -> nat -> Scalar) : Prop :=
  forall w j v i, length w = K -> j < K -> rg (set_at w j v) i = if i =? off + j then v else rg w i.
Lemma tape_drives K : drives K 0 tape.
Proof.
  intros w j v i Hw Hj. unfold tape. cbn [plus]. destruct (Nat.eqb_spec i j) as [->|N]; [apply nth_set_at_eq; lia|apply nth_set_at_neq; congruence].
Qed.
Lemma set_at_app_r {A} (u v : list A) j x : set_at (u ++ v) (length u + j) x = u ++ set_at v j x.
Proof. induction u as [|y u IH]; cbn; [reflexivity|]. now rewrite IH. Qed.
Lemma tape_app_drives K u : drives K (length u) (fun w => tape (u ++ w)).
Proof.
  intros w j v i Hw Hj. rewrite <- set_at_app_r.
  apply (tape_drives (length u + K)); [rewrite app_length; lia|lia].
Qed.

(** ** the prover *)
Lemma dotp_ob_mask (a o m : list Scalar) : length o = length a -> length m = length a ->
  (dotp a a <> s0 -> dotp o a = s0) -> dotp o (away a m) = dotp o m.
Proof.
  intros Ho Hm H. rewrite dotp_away_any by auto. destruct (S_eq_dec (dotp a a) s0) as [Z|N].
  - rewrite Z, sinv_0. ring.
  - rewrite H by auto. ring.
Qed.

(** masks with which the run goes through: passing four tests *)
Lemma draws_fail (a b m1 m2 : list Scalar) n : length a = n -> length b = n -> length m1 = n -> length m2 = n ->
  dotp b m1 <> s0 -> dotp (away b a) m1 <> s0 -> dotp a m2 <> s0 ->
  dotp (away a (away b m1)) m2 <> s0 -> alm_draws_ok a b m1 m2.
Proof.
  intros Ha Hb H1 H2 N1 N2 N3 N4. split; [exact N1|]. split; [rewrite dotp_away_swap by lia; exact N2|]. split; [exact N3|].
  rewrite dotp_ob_mask; auto; rewrite ?away_length; try lia.
  intros Naa. rewrite dotp_comm by (rewrite away_length; lia). apply dotp_away; [rewrite away_length; lia|exact Naa].
Qed.

(** the position set, and the directions in which a mask can move what is left of it *)
Definition nonzero_on_mask (n : nat) (v : list Scalar) : Prop := exists i, i < n /\ in_mn_plus n i /\ sc v i <> s0.
Definition mask_moves (n : nat) (a b : list Scalar) : Prop :=
  exists i k, i < n /\ k < n /\ in_mn_plus n i /\ in_mn_plus n k /\ sc (rest_of a b k) i <> s0.

(** the draws: at most five values per letter fail *)
Lemma mask_count5 (rg : list Scalar -> nat -> Scalar) off pos (a b : list Scalar) d (vals : list Scalar) K :
  let n := 2 ^ S d in
  drives K off rg -> length a = n -> length b = n -> NoDup vals -> off <= pos -> pos + 4 * d + 8 <= off + K ->
  nonzero_on_mask n a -> nonzero_on_mask n b -> nonzero_on_mask n (away b a) -> mask_moves n a b ->
  exists bad : list Scalar -> bool, count bad (words vals K) <= 5 * length vals ^ (K - 1) /\
    forall w, bad w = false -> exists m1 p1 m2 p2,
      sample_m_n_plus (rg w) pos n = Ok (m1, p1) /\ sample_m_n_plus (rg w) p1 n = Ok (m2, p2) /\ alm_draws_ok a b m1 m2.
Proof.
  intros n HD Ha Hb HN Hop HK (i3 & Hi3 & Mi3 & N3) (i1 & Hi1 & Mi1 & N1) (i2 & Hi2 & Mi2 & N2) (i4 & k4 & Hi4 & Hk4 & Mi4 & Mk4 & N4).
  destruct (mask_word pos d) as (g1 & E1 & Lg1 & W1 & X1). fold n in E1, Lg1, W1.
  destruct (mask_word (pos + 2 * d + 4) d) as (g2 & E2 & Lg2 & W2 & X2). fold n in E2, Lg2, W2.
  set (m1 := fun w => shown (rg w) g1). set (m2 := fun w => shown (rg w) g2).
  assert (Lm1 : forall w, length (m1 w) = n) by (intros w; unfold m1, shown; now rewrite map_length).
  assert (Lm2 : forall w, length (m2 w) = n) by (intros w; unfold m2, shown; now rewrite map_length).
  set (ob := fun w => away a (away b (m1 w))).
  assert (Lob : forall w, length (ob w) = n) by (intros w; unfold ob; now rewrite away_length).
  set (T := fun _ : list Scalar => true).
  exists (fun w => (T w && seqb (dotp b (m1 w)) s0) || ((T w && seqb (dotp (away b a) (m1 w)) s0) ||
     ((T w && seqb (dotp a (m2 w)) s0) || ((T w && seqb (sc (ob w) i4) s0) ||
      (negb (seqb (sc (ob w) i4) s0) && seqb (dotp (ob w) (m2 w)) s0))))).
  split.
  2:{ intros w F. unfold T in F. cbn [andb] in F.
    apply orb_false_iff in F as [Q1 F]. apply orb_false_iff in F as [Q2 F]. apply orb_false_iff in F as [Q3 F].
    apply orb_false_iff in F as [Q4 Q5]. rewrite Q4 in Q5. cbn [negb andb] in Q5.
    apply seqb_dec_iff in Q1, Q2, Q3, Q4, Q5.
    exists (m1 w), (pos + 2 * d + 4), (m2 w), (pos + 2 * d + 4 + 2 * d + 4). split; [apply E1|]. split; [apply E2|].
    apply (draws_fail a b (m1 w) (m2 w) n); auto. }
  assert (DR : forall w j v, length w = K -> off <= j < off + K -> forall k, rg (set_at w (j - off) v) k = if k =? j then v else rg w k).
  { intros w j v Hw Hj k. rewrite HD by lia. now replace (off + (j - off)) with j by lia. }
  assert (LIN : forall g lo, (forall i, i < n -> in_mn_plus n i -> exists j, lo <= j < lo + 2 * d + 4 /\
       forall rng rng' v, (forall k, rng' k = if k =? j then v else rng k) -> shown rng' g = set_at (shown rng g) i v) ->
       length g = n -> off <= lo -> lo + 2 * d + 4 <= off + K ->
     forall u i, length u = n -> i < n -> in_mn_plus n i -> sc u i <> s0 ->
     count (fun w => T w && seqb (dotp u (shown (rg w) g)) s0) (words vals K) <= length vals ^ (K - 1)).
  { intros g lo W Lg Hlo1 Hlo u i Hu Hi Mi Nu. destruct (W i Hi Mi) as (j & Hj & Ej).
    apply (count_linear_event vals K (j - off)); auto; [lia|]. intros w Hw. right.
    assert (Ls : length (shown (rg w) g) = n) by (unfold shown; now rewrite map_length).
    exists (dotp u (shown (rg w) g) - sc (shown (rg w) g) i * sc u i)%S, (sc u i). split; auto. intros v.
    rewrite (Ej _ _ _ (DR w j v Hw ltac:(lia))). rewrite set_at_vline by lia. rewrite dotp_vline by lia. rewrite Ls, dotp_unit_r by auto. ring. }
  etransitivity; [apply count_or|].
  assert (B1 := LIN g1 pos W1 Lg1 ltac:(lia) ltac:(lia) b i1 Hb Hi1 Mi1 N1).
  assert (B2 := LIN g1 pos W1 Lg1 ltac:(lia) ltac:(lia) (away b a) i2 ltac:(now rewrite away_length) Hi2 Mi2 N2).
  assert (B3 := LIN g2 _ W2 Lg2 ltac:(lia) ltac:(lia) a i3 Ha Hi3 Mi3 N3).
  fold m1 m2 in B1, B2, B3. change (fun w => m1 w) with m1 in *.
  assert (B4 : count (fun w => T w && seqb (sc (ob w) i4) s0) (words vals K) <= length vals ^ (K - 1)).
  { destruct (W1 k4 Hk4 Mk4) as (j & Hj & Ej). apply (count_linear_event vals K (j - off)); auto; [lia|]. intros w Hw. right.
    exists (sc (ob w) i4 - sc (m1 w) k4 * sc (rest_of a b k4) i4)%S, (sc (rest_of a b k4) i4). split; auto. intros v.
    unfold ob at 1, m1 at 1. rewrite (Ej _ _ _ (DR w j v Hw ltac:(lia))). fold (m1 w). rewrite set_at_vline by (rewrite Lm1; auto). rewrite Lm1.
    rewrite away_vline by (rewrite ?Lm1, ?unit_vec_length; lia).
    rewrite away_vline by (rewrite ?away_length; lia). unfold vline. rewrite sc_tab by (rewrite away_length; lia).
    unfold rest_of, ob. rewrite Ha. ring. }
  assert (B5 : count (fun w => negb (seqb (sc (ob w) i4) s0) && seqb (dotp (ob w) (m2 w)) s0) (words vals K) <= length vals ^ (K - 1)).
  { destruct (W2 i4 Hi4 Mi4) as (j & Hj & Ej). apply (count_linear_event vals K (j - off)); auto; [lia|]. intros w Hw.
    assert (Eo : forall v, ob (set_at w (j - off) v) = ob w).
    { intros v. unfold ob, m1. rewrite (X1 (rg w)); [reflexivity|]. intros k Hk. rewrite (DR w j v Hw) by lia.
      destruct (Nat.eqb_spec k j); [lia|reflexivity]. }
    destruct (seqb (sc (ob w) i4) s0) eqn:Z.
    - left. intros v. rewrite Eo, Z. reflexivity.
    - right. apply seqb_dec_iff in Z. exists (dotp (ob w) (m2 w) - sc (m2 w) i4 * sc (ob w) i4)%S, (sc (ob w) i4). split; auto.
      intros v. rewrite Eo. unfold m2 at 1. rewrite (Ej _ _ _ (DR w j v Hw ltac:(lia))). fold (m2 w). rewrite set_at_vline by (rewrite Lm2; auto). rewrite Lm2.
      rewrite dotp_vline by (rewrite Lob, Lm2; auto). rewrite dotp_unit_r by auto. ring. }
  etransitivity; [apply Nat.add_le_mono; [exact B1|]|].
  - etransitivity; [apply count_or|]. apply Nat.add_le_mono; [exact B2|].
    etransitivity; [apply count_or|]. apply Nat.add_le_mono; [exact B3|].
    etransitivity; [apply count_or|]. apply Nat.add_le_mono; [exact B4|exact B5].
  - lia.
Qed.
Theorem C71_prover_failures (ro : oracle) pos tr (G H : list Point) (Q Cw : Point) (a b : list Scalar) t d (vals : list Scalar) K :
  let n := 2 ^ S d in
  length G = n -> length H = n -> length a = n -> length b = n -> NoDup vals -> pos + 4 * d + 8 <= K ->
  nonzero_on_mask n a -> nonzero_on_mask n b -> nonzero_on_mask n (away b a) -> mask_moves n a b ->
  count (fun w => negb (is_ok (alm_zk_create ro (tape w) pos tr G H Q Cw a b t))) (words vals K)
  <= 5 * length vals ^ (K - 1).
Proof.
  intros n HG HH Ha Hb HN HK Na Nb Nc Nm.
  destruct (mask_count5 tape 0 pos a b d vals K (tape_drives K) Ha Hb HN ltac:(lia) HK Na Nb Nc Nm) as (bad & HB & HG').
  etransitivity; [|exact HB]. apply count_le. intros w _ F. apply negb_true_iff in F.
  destruct (bad w) eqn:Z; auto. exfalso. destruct (HG' w Z) as (m1 & p1 & m2 & p2 & R).
  destruct (proj2 (C59_almzk_create_returns_iff ro (tape w) pos tr G H Q Cw a b t n HG HH Ha Hb)) as [r Er].
  - exists d, m1, p1, m2, p2. split; auto.
  - rewrite Er in F. discriminate.
Qed.

(** from size 4 on the masks always move something: the identity is not of rank two *)
Lemma rest_entry (a b : list Scalar) n i k : length a = n -> length b = n -> i < n -> k < n ->
  exists x y, forall i, i < n -> sc (rest_of a b k) i = ((if i =? k then s1 else s0) - x * sc b i - y * sc a i)%S.
Proof.
  intros Ha Hb Hi Hk. exists (dotp b (unit_vec n k) * sinv (dotp b b))%S, (dotp a (away b (unit_vec n k)) * sinv (dotp a a))%S.
  intros j Hj. unfold rest_of. rewrite Ha. unfold away at 1. rewrite sc_tab by lia.
  unfold away at 1. rewrite sc_tab by lia. unfold unit_vec at 1. rewrite sc_tab by auto. reflexivity.
Qed.
Lemma mask_moves_4 (a b : list Scalar) d : 1 <= d -> length a = 2 ^ S d -> length b = 2 ^ S d -> mask_moves (2 ^ S d) a b.
Proof.
  intros Hd. set (n := 2 ^ S d). intros Ha Hb.
  assert (Hn : 4 <= n) by (unfold n; change 4 with (2 ^ 2); apply Nat.pow_le_mono_r; lia).
  assert (D : forall i k, i = 0 \/ i = 1 \/ i = n - 1 -> k = 0 \/ k = 1 \/ k = n - 1 -> mask_moves n a b \/ sc (rest_of a b k) i = s0).
  { intros i k Hi Hk. destruct (S_eq_dec (sc (rest_of a b k) i) s0) as [Z|N]; [now right|left]. exists i, k. unfold in_mn_plus.
    repeat split; auto; try lia; tauto. }
  destruct (rest_entry a b n 0 0 Ha Hb ltac:(lia) ltac:(lia)) as (x0 & y0 & R0).
  destruct (rest_entry a b n 0 1 Ha Hb ltac:(lia) ltac:(lia)) as (x1 & y1 & R1).
  destruct (rest_entry a b n 0 (n - 1) Ha Hb ltac:(lia) ltac:(lia)) as (x2 & y2 & R2).
  destruct (D 0 0) as [|Z00]; auto. destruct (D 1 0) as [|Z10]; auto. destruct (D (n - 1) 0) as [|Z20]; auto.
  destruct (D 0 1) as [|Z01]; auto. destruct (D 1 1) as [|Z11]; auto. destruct (D (n - 1) 1) as [|Z21]; auto.
  destruct (D 0 (n - 1)) as [|Z02]; auto. destruct (D 1 (n - 1)) as [|Z12]; auto. destruct (D (n - 1) (n - 1)) as [|Z22]; auto.
  exfalso.
  rewrite R0 in Z00, Z10, Z20 by lia. rewrite R1 in Z01, Z11, Z21 by lia. rewrite R2 in Z02, Z12, Z22 by lia.
  assert (B0 : (0 =? n - 1) = false) by (apply Nat.eqb_neq; lia). assert (B1 : (n - 1 =? 0) = false) by (apply Nat.eqb_neq; lia).
  assert (B2 : (1 =? n - 1) = false) by (apply Nat.eqb_neq; lia). assert (B3 : (n - 1 =? 1) = false) by (apply Nat.eqb_neq; lia).
  rewrite ?B0, ?B1, ?B2, ?B3, ?Nat.eqb_refl in *. cbn [Nat.eqb] in *.
  set (b0 := sc b 0) in *. set (b1 := sc b 1) in *. set (b2 := sc b (n - 1)) in *.
  set (a0 := sc a 0) in *. set (a1 := sc a 1) in *. set (a2 := sc a (n - 1)) in *.
  assert (Q : forall t x y u v : Scalar, (t - x * u - y * v = s0)%S -> (x * u + y * v = t)%S).
  { intros t x y u v E. transitivity (t - (t - x * u - y * v))%S; [ring|]. rewrite E. ring. }
  apply Q in Z00, Z10, Z20, Z01, Z11, Z21, Z02, Z12, Z22.
  apply (@s1_neq_s0 C L).
  transitivity ((x0*b0+y0*a0) * ((x1*b1+y1*a1) * (x2*b2+y2*a2) - (x2*b1+y2*a1) * (x1*b2+y1*a2))
              - (x1*b0+y1*a0) * ((x0*b1+y0*a1) * (x2*b2+y2*a2) - (x2*b1+y2*a1) * (x0*b2+y0*a2))
              + (x2*b0+y2*a0) * ((x0*b1+y0*a1) * (x1*b2+y1*a2) - (x1*b1+y1*a1) * (x0*b2+y0*a2)))%S; [|ring].
  rewrite Z00, Z10, Z20, Z01, Z11, Z21, Z02, Z12, Z22. ring.
Qed.

(** for size 2 they move something or what is left of every mask is zero *)
Lemma mask_moves_2 (a b : list Scalar) : length a = 2 -> length b = 2 ->
  mask_moves 2 a b \/ forall m v, length m = 2 -> dotp (away a (away b m)) v = s0.
Proof.
  intros Ha Hb.
  assert (D : forall i k, i < 2 -> k < 2 -> mask_moves 2 a b \/ sc (rest_of a b k) i = s0).
  { intros i k Hi Hk. destruct (S_eq_dec (sc (rest_of a b k) i) s0) as [Z|N]; [now right|left]. exists i, k. unfold in_mn_plus.
    repeat split; auto; lia. }
  destruct (D 0 0) as [|Z00]; auto. destruct (D 1 0) as [|Z10]; auto.
  destruct (D 0 1) as [|Z01]; auto. destruct (D 1 1) as [|Z11]; auto.
  right. intros m v Hm.
  destruct a as [|a0 [|a1 [|]]]; try discriminate Ha. destruct b as [|b0 [|b1 [|]]]; try discriminate Hb.
  destruct m as [|m0 [|m1 [|]]]; try discriminate Hm.
  assert (E : forall i, i < 2 -> sc (away [a0; a1] (away [b0; b1] [m0; m1])) i = s0).
  { intros i Hi. transitivity (m0 * sc (rest_of [a0; a1] [b0; b1] 0) i + m1 * sc (rest_of [a0; a1] [b0; b1] 1) i)%S.
    - destruct i as [|[|]]; [| |lia]; unfold rest_of, away, unit_vec, dotp, sc; cbn -[smul sadd ssub sinv]; ring.
    - destruct i as [|[|]]; [| |lia]; rewrite ?Z00, ?Z10, ?Z01, ?Z11; ring. }
  unfold dotp. apply sum_S_0.
  intros i Hi. rewrite away_length in Hi. rewrite E by (cbn in Hi; lia). ring.
Qed.

(** for n >= 2: either no tape at all gets through, or at most five values per letter fail *)
Theorem C71_prover_dichotomy (ro : oracle) pos tr (G H : list Point) (Q Cw : Point) (a b : list Scalar) t d (vals : list Scalar) K :
  let n := 2 ^ S d in
  length G = n -> length H = n -> length a = n -> length b = n -> NoDup vals -> pos + 4 * d + 8 <= K ->
  (forall rng, alm_zk_create ro rng pos tr G H Q Cw a b t = Panic) \/
  count (fun w => negb (is_ok (alm_zk_create ro (tape w) pos tr G H Q Cw a b t))) (words vals K) <= 5 * length vals ^ (K - 1).
Proof.
  intros n HG HH Ha Hb HN HK.
  assert (M : forall v : list Scalar, length v = n -> nonzero_on_mask n v \/ forall rng pos m p, sample_m_n_plus rng pos n = Ok (m, p) -> dotp v m = s0).
  { intros v Hv. assert (X : (exists i, i < n /\ in_mn_plus n i /\ sc v i <> s0) \/ forall i, i < n -> in_mn_plus n i -> sc v i = s0).
    { generalize n at 1 3 as N. induction N as [|N [(i & Hi & X)|IH]].
      - right. intros i Hi. lia.
      - left. exists i. split; [lia|auto].
      - destruct (S_eq_dec (sc v N) s0) as [Z|Nz].
        + right. intros i Hi. destruct (Nat.eq_dec i N) as [->|]; auto. intros Mi. apply IH; [lia|auto].
        + destruct (in_mn_plus_dec n N) as [Y|Y].
          * left. exists N. split; [lia|auto].
          * right. intros i Hi Mi. destruct (Nat.eq_dec i N) as [->|]; [contradiction|]. apply IH; [lia|auto]. }
    destruct X as [X|X]; [now left|right]. intros rng p0 m p E. now apply (mask_dot rng p0 n m p). }
  assert (P : forall rng, ~ (exists r, alm_zk_create ro rng pos tr G H Q Cw a b t = Ok r) -> alm_zk_create ro rng pos tr G H Q Cw a b t = Panic)
    by (intros rng X; apply create_panics; [exact X|apply alm_no_divergence]).
  destruct (M a Ha) as [Na|Za].
  2:{ left. intros rng. apply P. rewrite (C59_almzk_create_returns_iff _ _ _ _ _ _ _ _ _ _ _ n) by auto.
      intros (d' & m1 & p1 & m2 & p2 & _ & M1 & M2 & _ & _ & N3 & _). apply N3. now apply (Za rng p1 m2 p2). }
  destruct (M b Hb) as [Nb|Zb].
  2:{ left. intros rng. apply P. rewrite (C59_almzk_create_returns_iff _ _ _ _ _ _ _ _ _ _ _ n) by auto.
      intros (d' & m1 & p1 & m2 & p2 & _ & M1 & M2 & N1 & _). apply N1. now apply (Zb rng pos m1 p1). }
  destruct (M (away b a) ltac:(now rewrite away_length)) as [Nc|Zc].
  2:{ left. intros rng. apply P. rewrite (C59_almzk_create_returns_iff _ _ _ _ _ _ _ _ _ _ _ n) by auto.
      intros (d' & m1 & p1 & m2 & p2 & _ & M1 & M2 & _ & N2 & _). apply N2.
      assert (Lm1 := sample_m_n_plus_length _ _ _ _ _ M1). rewrite dotp_away_swap by lia. now apply (Zc rng pos m1 p1). }
  assert (V : mask_moves n a b \/ forall m v, length m = n -> dotp (away a (away b m)) v = s0).
  { destruct d as [|d]; [now apply mask_moves_2|left]. apply mask_moves_4; auto; lia. }
  destruct V as [V|V].
  2:{ left. intros rng. apply P. rewrite (C59_almzk_create_returns_iff _ _ _ _ _ _ _ _ _ _ _ n) by auto.
      intros (d' & m1 & p1 & m2 & p2 & _ & M1 & M2 & _ & _ & _ & N4). apply N4.
      apply V. now apply (sample_m_n_plus_length _ _ _ _ _ M1). }
  right. now apply (C71_prover_failures ro pos tr G H Q Cw a b t d vals K).
Qed.

(** ** the whole run: prover and verifier *)
Lemma dotp_vline_sq (x y : list Scalar) s : length y = length x ->
  dotp (vline x s y) (vline x s y) = (dotp x x + (s + s) * dotp x y + s * s * dotp y y)%S.
Proof.
  intros Hy. assert (Lv : length (vline x s y) = length x) by apply tab_length.
  rewrite dotp_vline by auto. rewrite (dotp_comm _ x), (dotp_comm _ y) by lia.
  rewrite !dotp_vline by lia. rewrite (dotp_comm y x) by lia. ring.
Qed.
Lemma monic_not_zero (c : list Scalar) (x : Scalar) : x <> s0 -> ~ Forall (fun a => a = s0) (c ++ [x]).
Proof. intros Nx F. apply Forall_app in F as [_ F]. inversion F; subst. contradiction. Qed.

(** the draws, when the part of the first mask away from a and b must not be isotropic
    either: at most seven values per letter fail *)
Lemma mask_count7 (rg : list Scalar -> nat -> Scalar) off pos (a b : list Scalar) d (vals : list Scalar) K :
  let n := 2 ^ S d in
  drives K off rg -> length a = n -> length b = n -> NoDup vals -> off <= pos -> pos + 4 * d + 8 <= off + K ->
  nonzero_on_mask n a -> nonzero_on_mask n b -> nonzero_on_mask n (away b a) ->
  (exists k, k < n /\ in_mn_plus n k /\ dotp (rest_of a b k) (rest_of a b k) <> s0) ->
  exists bad : list Scalar -> bool, count bad (words vals K) <= 7 * length vals ^ (K - 1) /\
    forall w, bad w = false -> exists m1 p1 m2 p2,
      sample_m_n_plus (rg w) pos n = Ok (m1, p1) /\ sample_m_n_plus (rg w) p1 n = Ok (m2, p2) /\ alm_draws_ok a b m1 m2 /\
      dotp (away a (away b m1)) (away a (away b m1)) <> s0.
Proof.
  intros n HD Ha Hb HN Hop HK Na Nb Nc (k & Hk & Mk & Nk).
  assert (Mv : mask_moves n a b).
  { destruct d as [|d]; [|apply mask_moves_4; auto; lia].
    change n with 2 in *. destruct (mask_moves_2 a b Ha Hb) as [V|V]; auto. exfalso. apply Nk. unfold rest_of at 1.
    apply V. rewrite unit_vec_length. exact Ha. }
  destruct (mask_count5 rg off pos a b d vals K HD Ha Hb HN Hop HK Na Nb Nc Mv) as (bad & HB & HG').
  destruct (mask_word pos d) as (g1 & E1 & Lg1 & W1 & X1). fold n in E1, Lg1, W1, HG'.
  set (m1 := fun w => shown (rg w) g1).
  assert (Lm1 : forall w, length (m1 w) = n) by (intros w; unfold m1, shown; now rewrite map_length).
  set (ob := fun w => away a (away b (m1 w))).
  exists (fun w => bad w || (true && seqb (dotp (ob w) (ob w)) s0)). split.
  2:{ intros w F. apply orb_false_iff in F as [F1 F2]. cbn [andb] in F2. apply seqb_dec_iff in F2.
      destruct (HG' w F1) as (m1' & p1 & m2 & p2 & M1 & M2 & Dr). assert (M1' := M1). rewrite E1 in M1'. injection M1' as <- <-.
      exists (m1 w), (pos + 2 * d + 4), m2, p2. auto. }
  etransitivity; [apply count_or|].
  assert (B2 : count (fun w => true && seqb (dotp (ob w) (ob w)) s0) (words vals K) <= 2 * length vals ^ (K - 1)).
  { destruct (W1 k Hk Mk) as (j & Hj & Ej). apply (count_poly_event vals K (j - off) 2 (fun _ => true)); auto; [lia|]. intros w Hw. right.
    set (R := rest_of a b k) in *. set (mk := sc (m1 w) k). set (o := ob w).
    assert (LR : length R = n) by (unfold R, rest_of; now rewrite away_length).
    assert (Lo : length o = n) by (unfold o, ob; now rewrite away_length).
    exists ([dotp o o - (mk + mk) * dotp o R + mk * mk * dotp R R; (dotp o R + dotp o R) - (mk + mk) * dotp R R] ++ [dotp R R])%S.
    split; [cbn; lia|]. split; [now apply monic_not_zero|]. intros v.
    assert (Eo : ob (set_at w (j - off) v) = vline o (v - mk) R).
    { unfold ob, m1. rewrite (Ej (rg w) _ v). 2:{ intros i. rewrite HD by lia. now replace (off + (j - off)) with j by lia. }
      fold (m1 w). rewrite set_at_vline by (rewrite Lm1; auto). rewrite Lm1.
      rewrite away_vline by (rewrite ?Lm1, ?unit_vec_length; lia). rewrite away_vline by (rewrite ?away_length; lia).
      unfold o, ob, R, rest_of. rewrite Ha. reflexivity. }
    rewrite Eo, dotp_vline_sq by lia. cbn. ring. }
  lia.
Qed.

Theorem C71_run_failures (ro : oracle) tr (G H : list Point) (Q : Point) (a b : list Scalar) d (vals : list Scalar) K :
  let n := 2 ^ S d in
  length G = n -> length H = n -> length a = n -> length b = n -> NoDup vals -> 4 * d + 8 <= K ->
  (forall h, ro h <> s0) ->
  nonzero_on_mask n a -> nonzero_on_mask n b -> nonzero_on_mask n (away b a) -> dotp a a <> s0 -> dotp b b <> s0 ->
  (exists k, k < n /\ in_mn_plus n k /\ dotp (rest_of a b k) (rest_of a b k) <> s0) ->
  count (fun w => negb (is_ok (test_create_almzk_proof ro (tape w) tr G H Q a b n))) (words vals K) <= 7 * length vals ^ (K - 1).
Proof.
  intros n HG HH Ha Hb HN HK Hro Na Nb Nc Naa Nbb Nk.
  destruct (mask_count7 tape 0 0 a b d vals K (tape_drives K) Ha Hb HN ltac:(lia) ltac:(lia) Na Nb Nc Nk) as (bad & HB & HG').
  etransitivity; [|exact HB]. apply count_le. intros w _ F. apply negb_true_iff in F.
  destruct (bad w) eqn:Z; auto. exfalso. destruct (HG' w Z) as (m1 & p1 & m2 & p2 & M1 & M2 & Dr & No).
  assert (PS : test_create_almzk_proof ro (tape w) tr G H Q a b n = Ok tt)
    by (apply (C70_almzk_test_passes ro (tape w) tr G H Q a b d m1 p1 m2 p2 HG HH Ha Hb M1 M2 Dr); auto).
  rewrite PS in F. discriminate.
Qed.

(** ** everything drawn, as in the unit test *)
Lemma count_words_app {A} (vals : list A) K2 : forall K1 f, count f (words vals (K1 + K2)) =
  list_sum (map (fun u => count (fun v => f (u ++ v)) (words vals K2)) (words vals K1)).
Proof.
  induction K1 as [|K1 IH]; intros f; cbn [plus].
  - cbn [words map]. change (list_sum [?x]) with (x + 0). rewrite Nat.add_0_r. reflexivity.
  - rewrite count_words_S. cbn [words].
    rewrite (map_ext _ (fun v => list_sum (map (fun u => count (fun v' => f (v :: u ++ v')) (words vals K2)) (words vals K1))))
      by (intros v; apply IH).
    generalize (words vals K1) as W. intros W. clear IH.
    assert (G : forall l, list_sum (map (fun v => list_sum (map (fun u => count (fun v' => f (v :: u ++ v')) (words vals K2)) W)) l) =
                list_sum (map (fun u => count (fun v => f (u ++ v)) (words vals K2)) (flat_map (fun v => map (cons v) W) l))).
    { induction l as [|v l IHl]; [reflexivity|]. cbn [map flat_map]. change (list_sum (?x :: ?y)) with (x + list_sum y).
      rewrite map_app, list_sum_app, map_map, IHl. reflexivity. }
    apply G.
Qed.
Lemma count_two_stages {A} (vals : list A) K1 K2 (f bad : list A -> bool) c1 c2 : 1 <= K1 -> 1 <= K2 ->
  count bad (words vals K1) <= c1 * length vals ^ (K1 - 1) ->
  (forall u, length u = K1 -> bad u = false -> count (fun v => f (u ++ v)) (words vals K2) <= c2 * length vals ^ (K2 - 1)) ->
  count f (words vals (K1 + K2)) <= (c1 + c2) * length vals ^ (K1 + K2 - 1).
Proof.
  intros H1 H2 Hb Hf. rewrite count_words_app. set (q := length vals) in *.
  assert (HS : forall W, (forall u, In u W -> length u = K1) ->
    list_sum (map (fun u => count (fun v => f (u ++ v)) (words vals K2)) W) <= count bad W * q ^ K2 + length W * (c2 * q ^ (K2 - 1))).
  { induction W as [|u W IH]; intros HW; [cbn; lia|]. cbn [map length]. change (list_sum (?x :: ?y)) with (x + list_sum y).
    rewrite count_cons. specialize (IH ltac:(intros x Hx; apply HW; now right)). specialize (Hf u (HW u (or_introl eq_refl))).
    assert (X := count_all (fun v => f (u ++ v)) (words vals K2)). rewrite words_count in X. fold q in X.
    destruct (bad u); [lia|]. specialize (Hf eq_refl). lia. }
  etransitivity; [apply HS; intros u Hu; now apply words_In in Hu|]. rewrite words_count. fold q.
  destruct K1 as [|K1]; [lia|]. destruct K2 as [|K2]; [lia|].
  replace (S K1 + S K2 - 1) with (K1 + S K2) by lia. replace (S K1 - 1) with K1 in * by lia. replace (S K2 - 1) with K2 in * by lia.
  rewrite Nat.pow_add_r, !Nat.pow_succ_r'. apply Nat.le_trans with (c1 * q ^ K1 * (q * q ^ K2) + q * q ^ K1 * (c2 * q ^ K2)).
  - apply Nat.add_le_mono_r, Nat.mul_le_mono_r, Hb.
  - lia.
Qed.

Lemma firstn_set_at {A} (l : list A) : forall n j v, j < n -> firstn n (set_at l j v) = set_at (firstn n l) j v.
Proof. induction l as [|x l IH]; intros [|n] [|j] v Hj; cbn; auto; try lia. now rewrite IH by lia. Qed.
Lemma firstn_set_at_ge {A} (l : list A) : forall n j v, n <= j -> firstn n (set_at l j v) = firstn n l.
Proof. induction l as [|x l IH]; intros [|n] [|j] v Hj; cbn; auto; try lia. now rewrite IH by lia. Qed.
Lemma skipn_set_at {A} (l : list A) : forall n j v, skipn n (set_at l (n + j) v) = set_at (skipn n l) j v.
Proof. induction l as [|x l IH]; intros [|n] j v; cbn; auto. Qed.
Lemma skipn_set_at_lt {A} (l : list A) : forall n j v, j < n -> skipn n (set_at l j v) = skipn n l.
Proof. induction l as [|x l IH]; intros [|n] [|j] v Hj; cbn; auto; try lia. apply IH. lia. Qed.

(** the unit test with every scalar drawn from one word: a, then b, then the tape of the
    prover *)
Definition almzk_test_drawn (ro : oracle) (tr : transcript) (G H : list Point) (Q : Point) (n : nat) (w : list Scalar) : res unit :=
  test_create_almzk_proof ro (tape (skipn (2 * n) w)) tr G H Q (firstn n w) (firstn n (skipn n w)) n.

Theorem C71_unit_test_failures (ro : oracle) tr (G H : list Point) (Q : Point) d (vals : list Scalar) K :
  let n := 2 ^ S d in
  length G = n -> length H = n -> NoDup vals -> 2 * n + (4 * d + 8) <= K -> (forall h, ro h <> s0) ->
  count (fun w => negb (is_ok (almzk_test_drawn ro tr G H Q n w))) (words vals K) <= 21 * length vals ^ (K - 1).
Proof.
  intros n HG HH HN HK Hro.
  assert (Hn : n = 2 \/ 4 <= n) by (destruct d; [now left|right; unfold n; change 4 with (2 ^ 2); apply Nat.pow_le_mono_r; lia]).
  assert (EK : K = 2 * n + (K - 2 * n)) by lia. revert EK. generalize (K - 2 * n) as K2. intros K2 ->.
  assert (HK2 : 4 * d + 8 <= K2) by lia. clear HK.
  set (A := fun w : list Scalar => firstn n w). set (B := fun w : list Scalar => skipn n w).
  set (T := fun _ : list Scalar => true).
  set (u := fun w => away (B w) (unit_vec n 0)).
  set (F7 := fun w => ((dotp (B w) (B w) - sc (B w) 0 * sc (B w) 0) * dotp (B w) (B w) - sc (B w) 0 * sc (B w) 0 * (sc (B w) 1 * sc (B w) 1))%S).
  set (e1 := fun w => T w && seqb (dotp (A w) (A w)) s0).
  set (e2 := fun w => T w && seqb (dotp (B w) (B w)) s0).
  set (e3 := fun w => T w && seqb (sc (B w) 0) s0).
  set (e4 := fun w => T w && seqb (sc (B w) 1) s0).
  set (e5 := fun w => T w && seqb (sc (A w) 0) s0).
  set (e6 := fun w => negb (seqb (sc (B w) 0) s0 || seqb (sc (B w) 1) s0) &&
                      seqb (sc (A w) 0 * dotp (B w) (B w) - dotp (B w) (A w) * sc (B w) 0)%S s0).
  set (e7 := fun w => T w && seqb (F7 w) s0).
  set (e8 := fun w => negb (seqb (dotp (B w) (B w)) s0 || seqb (F7 w) s0) &&
                      seqb (dotp (u w) (u w) * dotp (A w) (A w) - dotp (A w) (u w) * dotp (A w) (u w))%S s0).
  set (bad := fun w => e1 w || (e2 w || (e3 w || (e4 w || (e5 w || (e6 w || (e7 w || e8 w))))))).
  change 21 with (14 + 7). apply (count_two_stages vals (2 * n) K2 _ bad); try lia.
  - (* the vectors *)
    set (q := length vals ^ (2 * n - 1)).
    assert (LA : forall w, length w = 2 * n -> length (A w) = n) by (intros w Hw; unfold A; rewrite firstn_length; lia).
    assert (LB : forall w, length w = 2 * n -> length (B w) = n) by (intros w Hw; unfold B; rewrite skipn_length; lia).
    assert (SA : forall w j v, length w = 2 * n -> j < n -> A (set_at w j v) = vline (A w) (v - sc (A w) j) (unit_vec n j) /\ B (set_at w j v) = B w).
    { intros w j v Hw Hj. unfold A, B. rewrite firstn_set_at, skipn_set_at_lt by lia. split; auto.
      rewrite set_at_vline by (rewrite firstn_length; lia). fold (A w). now rewrite LA. }
    assert (SB : forall w j v, length w = 2 * n -> j < n -> B (set_at w (n + j) v) = vline (B w) (v - sc (B w) j) (unit_vec n j) /\ A (set_at w (n + j) v) = A w).
    { intros w j v Hw Hj. unfold A, B. rewrite firstn_set_at_ge, skipn_set_at by lia. split; auto.
      rewrite set_at_vline by (rewrite skipn_length; lia). fold (B w). now rewrite LB. }
    assert (UU : forall k, k < n -> dotp (unit_vec n k) (unit_vec n k) = s1).
    { intros k Hk. rewrite dotp_unit_r by (auto; apply unit_vec_length). unfold unit_vec. rewrite sc_tab by auto. now rewrite Nat.eqb_refl. }
    assert (SQ : forall x k v, length x = n -> k < n ->
       dotp (vline x (v - sc x k) (unit_vec n k)) (vline x (v - sc x k) (unit_vec n k)) = (dotp x x - sc x k * sc x k + v * v)%S).
    { intros x k v Hx Hk. rewrite dotp_vline_sq by (rewrite unit_vec_length; lia). rewrite dotp_unit_r, UU by auto. ring. }
    assert (SL : forall x k v, length x = n -> k < n -> sc (vline x (v - sc x k) (unit_vec n k)) k = v).
    { intros x k v Hx Hk. unfold vline. rewrite sc_tab by lia. unfold unit_vec. rewrite sc_tab by auto. rewrite Nat.eqb_refl. ring. }
    assert (SO : forall x k i v, length x = n -> k < n -> i < n -> i <> k -> sc (vline x v (unit_vec n k)) i = sc x i).
    { intros x k i v Hx Hk Hi Hne. unfold vline. rewrite sc_tab by lia. unfold unit_vec. rewrite sc_tab by auto.
      destruct (Nat.eqb_spec i k); [contradiction|ring]. }
    assert (B1 : count e1 (words vals (2 * n)) <= 2 * q).
    { apply (count_poly_event vals (2 * n) 0 2 T); auto; [lia|]. intros w Hw. right.
      exists ([dotp (A w) (A w) - sc (A w) 0 * sc (A w) 0; s0] ++ [s1])%S.
      split; [cbn; lia|]. split; [apply monic_not_zero, s1_neq_s0|]. intros v. destruct (SA w 0 v Hw) as [-> _]; [lia|].
      rewrite SQ by (auto; lia). cbn. ring. }
    assert (B2 : count e2 (words vals (2 * n)) <= 2 * q).
    { apply (count_poly_event vals (2 * n) (n + 0) 2 T); auto; [lia|]. intros w Hw. right.
      exists ([dotp (B w) (B w) - sc (B w) 0 * sc (B w) 0; s0] ++ [s1])%S.
      split; [cbn; lia|]. split; [apply monic_not_zero, s1_neq_s0|]. intros v. destruct (SB w 0 v Hw) as [-> _]; [lia|].
      rewrite SQ by (auto; lia). cbn. ring. }
    assert (B3 : count e3 (words vals (2 * n)) <= q).
    { apply (count_linear_event vals (2 * n) (n + 0) T); auto; [lia|]. intros w Hw. right. exists s0, s1. split; [apply s1_neq_s0|].
      intros v. destruct (SB w 0 v Hw) as [-> _]; [lia|]. rewrite SL by (auto; lia). ring. }
    assert (B4 : count e4 (words vals (2 * n)) <= q).
    { apply (count_linear_event vals (2 * n) (n + 1) T); auto; [lia|]. intros w Hw. right. exists s0, s1. split; [apply s1_neq_s0|].
      intros v. destruct (SB w 1 v Hw) as [-> _]; [lia|]. rewrite SL by (auto; lia). ring. }
    assert (B5 : count e5 (words vals (2 * n)) <= q).
    { apply (count_linear_event vals (2 * n) 0 T); auto; [lia|]. intros w Hw. right. exists s0, s1. split; [apply s1_neq_s0|].
      intros v. destruct (SA w 0 v Hw) as [-> _]; [lia|]. rewrite SL by (auto; lia). ring. }
    assert (B6 : count e6 (words vals (2 * n)) <= q).
    { apply (count_linear_event vals (2 * n) 1); auto; [lia|]. intros w Hw.
      destruct (seqb (sc (B w) 0) s0 || seqb (sc (B w) 1) s0) eqn:Z.
      - left. intros v. destruct (SA w 1 v Hw) as [_ ->]; [lia|]. rewrite Z. reflexivity.
      - right. apply orb_false_iff in Z as [Z0 Z1]. apply seqb_dec_iff in Z0, Z1.
        exists (sc (A w) 0 * dotp (B w) (B w) - (dotp (B w) (A w) - sc (A w) 1 * sc (B w) 1) * sc (B w) 0)%S, (- (sc (B w) 1 * sc (B w) 0))%S.
        split.
        + intros X. assert (Y : (sc (B w) 1 * sc (B w) 0 = s0)%S) by (transitivity (- - (sc (B w) 1 * sc (B w) 0))%S; [ring|rewrite X; ring]).
          apply smul_eq_0 in Y as [Y|Y]; contradiction.
        + intros v. destruct (SA w 1 v Hw) as [-> ->]; [lia|]. rewrite SO by (auto; lia).
          rewrite dotp_vline by (rewrite LA, LB; auto). rewrite dotp_unit_r by (auto; lia). ring. }
    assert (B7 : count e7 (words vals (2 * n)) <= 4 * q).
    { destruct Hn as [E2|Hn].
      { apply (count_poly_event vals (2 * n) (n + 1) 4 T); auto; [lia|]. intros w Hw. right.
        exists ([s0; s0; s0; s0] ++ [s1])%S.
        split; [cbn; lia|]. split; [apply monic_not_zero, s1_neq_s0|]. intros v. unfold F7. destruct (SB w 1 v Hw) as [-> _]; [lia|].
        rewrite SQ, SL by (auto; lia). rewrite !SO by (auto; lia).
        assert (E : dotp (B w) (B w) = (sc (B w) 0 * sc (B w) 0 + sc (B w) 1 * sc (B w) 1)%S).
        { specialize (LB w Hw). rewrite E2 in LB. destruct (B w) as [|b0 [|b1 [|]]]; try discriminate LB.
          unfold dotp, sc. cbn. ring. }
        rewrite E. cbn. ring. }
      apply (count_poly_event vals (2 * n) (n + 2) 4 T); auto; [lia|]. intros w Hw. right.
      set (r := (dotp (B w) (B w) - sc (B w) 2 * sc (B w) 2)%S). set (b0 := sc (B w) 0). set (b1 := sc (B w) 1).
      exists ([(r - b0 * b0) * r - b0 * b0 * (b1 * b1); s0; r + r - b0 * b0; s0] ++ [s1])%S.
      split; [cbn; lia|]. split; [apply monic_not_zero, s1_neq_s0|]. intros v. unfold F7. destruct (SB w 2 v Hw) as [-> _]; [lia|].
      rewrite SQ by (auto; lia). rewrite !SO by (auto; lia). fold b0 b1 r. cbn. ring. }
    assert (B8 : count e8 (words vals (2 * n)) <= 2 * q).
    { apply (count_poly_event vals (2 * n) 1 2); auto; [lia|]. intros w Hw.
      destruct (seqb (dotp (B w) (B w)) s0 || seqb (F7 w) s0) eqn:Z.
      - left. intros v. unfold F7 in *. destruct (SA w 1 v Hw) as [_ ->]; [lia|]. rewrite Z. reflexivity.
      - right. apply orb_false_iff in Z as [Z0 Z1]. apply seqb_dec_iff in Z0, Z1.
        assert (Lu : length (u w) = n) by (unfold u; now rewrite away_length, LB).
        assert (Eu : forall i, i < n -> sc (u w) i = ((if i =? 0 then s1 else s0) - sc (B w) 0 * sinv (dotp (B w) (B w)) * sc (B w) i)%S).
        { intros i Hi. unfold u, away. rewrite LB by auto. rewrite sc_tab by auto. rewrite dotp_unit_r by (auto; lia).
          unfold unit_vec. rewrite sc_tab by auto. reflexivity. }
        assert (Euu : dotp (u w) (u w) = (s1 - sc (B w) 0 * sinv (dotp (B w) (B w)) * sc (B w) 0)%S).
        { unfold u at 2. rewrite dotp_away_any by (rewrite ?Lu, ?unit_vec_length, LB; auto).
          rewrite (dotp_comm (u w) (B w)) by (rewrite Lu, LB; auto).
          assert (X : dotp (B w) (u w) = s0) by (apply dotp_away; [rewrite unit_vec_length, LB; auto|exact Z0]).
          rewrite X, dotp_unit_r by (auto; lia). rewrite Eu by lia. cbn. ring. }
        set (r := (dotp (A w) (A w) - sc (A w) 1 * sc (A w) 1)%S). set (p := (dotp (A w) (u w) - sc (A w) 1 * sc (u w) 1)%S).
        set (uu := dotp (u w) (u w)) in *. set (u1 := sc (u w) 1).
        exists ([uu * r - p * p; - (p * u1 + p * u1)] ++ [uu - u1 * u1])%S.
        split; [cbn; lia|]. split.
        + apply monic_not_zero. intros X. apply Z1. unfold F7.
          set (bb := dotp (B w) (B w)) in *. set (b0 := sc (B w) 0) in *. set (b1 := sc (B w) 1) in *.
          transitivity (bb * bb * (uu - u1 * u1))%S; [|rewrite X; ring].
          rewrite Euu. unfold u1. rewrite Eu by lia. cbn [Nat.eqb]. fold b1. field. exact Z0.
        + intros v. unfold u in *. destruct (SA w 1 v Hw) as [-> ->]; [lia|]. rewrite SQ by (auto; lia).
          rewrite (dotp_comm (vline _ _ _)) by (unfold vline; rewrite tab_length, Lu; auto).
          rewrite dotp_vline by (rewrite Lu, LA; auto). rewrite dotp_unit_r by (auto; lia).
          rewrite (dotp_comm (away (B w) (unit_vec n 0)) (A w)) by (rewrite Lu, LA; auto). fold u1 uu r. unfold p. cbn. fold u1. ring. }
    assert (BB : count bad (words vals (2 * n)) <= 2 * q + (2 * q + (q + (q + (q + (q + (4 * q + 2 * q)))))))
      by (unfold bad; repeat (apply count_or_le; [assumption|]); assumption).
    lia.
  - (* the masks *)
    intros w Hw Hbad. unfold bad in Hbad.
    apply orb_false_iff in Hbad as [Z1 Hbad]. apply orb_false_iff in Hbad as [Z2 Hbad]. apply orb_false_iff in Hbad as [Z3 Hbad].
    apply orb_false_iff in Hbad as [Z4 Hbad]. apply orb_false_iff in Hbad as [Z5 Hbad]. apply orb_false_iff in Hbad as [Z6 Hbad].
    apply orb_false_iff in Hbad as [Z7 Z8]. unfold e1, e2, e3, e4, e5, e6, e7, e8, T in *. cbn [andb] in *.
    rewrite Z3, Z4 in Z6. rewrite Z2, Z7 in Z8. cbn [orb negb andb] in Z6, Z8.
    apply seqb_dec_iff in Z1, Z2, Z3, Z4, Z5, Z6, Z7, Z8.
    assert (LA : length (A w) = n) by (unfold A; rewrite firstn_length; lia).
    assert (LB : length (B w) = n) by (unfold B; rewrite skipn_length; lia).
    assert (Lu : length (u w) = n) by (unfold u; now rewrite away_length, LB).
    assert (M0 : in_mn_plus n 0) by (left; reflexivity).
    rewrite (count_ext _ (fun v => negb (is_ok (test_create_almzk_proof ro (tape v) tr G H Q (A w) (B w) n)))).
    2:{ intros v _. unfold almzk_test_drawn, A, B. do 2 f_equal.
        replace (skipn (2 * n) (w ++ v)) with v by (rewrite skipn_app, skipn_all2 by lia; replace (2 * n - length w) with 0 by lia; reflexivity).
        replace (firstn n (w ++ v)) with (firstn n w) by (rewrite firstn_app; replace (n - length w) with 0 by lia; cbn; now rewrite app_nil_r).
        replace (firstn n (skipn n (w ++ v))) with (skipn n w); auto.
        rewrite skipn_app. replace (n - length w) with 0 by lia. rewrite firstn_app. fold (B w). rewrite LB, Nat.sub_diag.
        rewrite (firstn_all2 (B w)) by lia. cbn. now rewrite app_nil_r. }
    apply C71_run_failures; auto.
    + exists 0. split; [lia|auto].
    + exists 0. split; [lia|auto].
    + exists 0. split; [lia|]. split; auto. unfold away. rewrite LB, sc_tab by lia. intros X. apply Z6.
      transitivity (dotp (B w) (B w) * (sc (A w) 0 - dotp (B w) (A w) * sinv (dotp (B w) (B w)) * sc (B w) 0))%S; [field; exact Z2|].
      rewrite X. ring.
    + exists 0. split; [lia|]. split; auto. unfold rest_of. rewrite LA. fold (u w). intros X. apply Z8.
      assert (Y : dotp (away (A w) (u w)) (away (A w) (u w)) =
                  (dotp (u w) (u w) - dotp (A w) (u w) * sinv (dotp (A w) (A w)) * dotp (A w) (u w))%S).
      { rewrite dotp_away_any by (rewrite ?away_length; lia).
        rewrite (dotp_comm (away (A w) (u w)) (A w)) by now rewrite away_length.
        rewrite (dotp_away (A w)) by (auto; lia).
        rewrite (dotp_comm (away (A w) (u w)) (u w)) by (rewrite away_length; lia). rewrite dotp_away_any by lia.
        rewrite (dotp_comm (u w) (A w)) by lia. ring. }
      rewrite X in Y.
      transitivity (dotp (A w) (A w) * (dotp (u w) (u w) - dotp (A w) (u w) * sinv (dotp (A w) (A w)) * dotp (A w) (u w)))%S; [field; exact Z1|].
      rewrite <- Y. ring.
Qed.

End C71.

(** in the field of 1009 elements, a = (1,2,3,4), b = (5,6,7,9): the values of one
    draw for which the prover panics, the other draws being fixed, among some others, for draw 0
    (first mask), draw 2 (overwritten by a later one) and draw 6 (second mask); and the bound over
    all tapes of twelve draws for the run with verification *)
Definition all_FS : list (@Scalar FS) := map (fun i => fN (Z.of_nat i)) (seq 0 1009).
Definition a71 : list (@Scalar FS) := [fN 1; fN 2; fN 3; fN 4].
Definition b71 : list (@Scalar FS) := [fN 5; fN 6; fN 7; fN 9].
Definition w71 : list (@Scalar FS) := map fN [11; 22; 133; 404; 75; 86; 17; 518; 9; 610; 71; 12]%Z.
Definition ro71 : @oracle FS := fun h => fN 3.
Definition g71 : list (@Point FS) := map qN [2; 3; 5; 7]%Z.
Definition h71 : list (@Point FS) := map qN [11; 13; 17; 19]%Z.
Lemma all_FS_NoDup : NoDup all_FS.
Proof.
  apply (NoDup_map_inv zf). assert (E : map zf all_FS = map Z.of_nat (seq 0 1009)) by (vm_compute; reflexivity).
  rewrite E. apply FinFun.Injective_map_NoDup; [|apply seq_NoDup]. intros x y. apply Nat2Z.inj.
Qed.
Example C71_case_one_draw :
  map (fun j => filter (fun v => negb (is_ok (alm_zk_create ro71 (tape (set_at w71 j (fN v))) 0 [] g71 h71 (qN 77) (qN 1) a71 b71 (fN 1))))
                  [0; 1; 217; 386; 474; 500; 521; 721; 1008]%Z)
      [0; 2; 6] = [[217; 474; 521]; []; [386; 721]]%Z.
Proof. vm_compute. reflexivity. Qed.
Lemma fs_neq (x y : @Scalar FS) : Z.eqb (zf x) (zf y) = false -> x <> y.
Proof. intros H E. rewrite E, Z.eqb_refl in H. discriminate. Qed.
Example C71_case_all_tapes :
  count (fun w => negb (is_ok (test_create_almzk_proof ro71 (tape w) [] g71 h71 (qN 77) a71 b71 4))) (words all_FS 12)
  <= 7 * length all_FS ^ 11.
Proof.
  apply (@C71_run_failures FS FS_laws ro71 [] g71 h71 (qN 77) a71 b71 1 all_FS 12); auto; try apply all_FS_NoDup; try (cbn; lia).
  - intros h. apply fs_neq. vm_compute. reflexivity.
  - exists 0. split; [cbn; lia|]. split; [now left|]. apply fs_neq. vm_compute. reflexivity.
  - exists 0. split; [cbn; lia|]. split; [now left|]. apply fs_neq. vm_compute. reflexivity.
  - exists 0. split; [cbn; lia|]. split; [now left|]. apply fs_neq. vm_compute. reflexivity.
  - apply fs_neq. vm_compute. reflexivity.
  - apply fs_neq. vm_compute. reflexivity.
  - exists 0. split; [cbn; lia|]. split; [now left|]. apply fs_neq. vm_compute. reflexivity.
Qed.
(** n = 2: the bound for the test with every scalar drawn; and, for a = (1,2), b = (5,6), all values
    of each draw for which the prover panics (draws 0, 1, 4, 5 are overwritten) *)
Example C71_case_size_2 :
  count (fun w => negb (is_ok (almzk_test_drawn ro71 [] (firstn 2 g71) (firstn 2 h71) (qN 77) 2 w))) (words all_FS 12)
  <= 21 * length all_FS ^ 11.
Proof.
  apply (@C71_unit_test_failures FS FS_laws ro71 [] (firstn 2 g71) (firstn 2 h71) (qN 77) 0 all_FS 12); auto; try apply all_FS_NoDup; try (cbn; lia).
  intros h. apply fs_neq. vm_compute. reflexivity.
Qed.
Example C71_case_size_2_draw :
  map (fun j => filter (fun v => negb (is_ok (alm_zk_create ro71 (tape (set_at w71 j (fN v))) 0 [] (firstn 2 g71) (firstn 2 h71) (qN 77) (qN 1)
                                                (firstn 2 a71) (firstn 2 b71) (fN 1))))
                  (map Z.of_nat (seq 0 1009)))
      [0; 1; 2; 3; 4; 5; 6; 7; 8] = [[]; []; [673; 726]; [730; 765]; []; []; [259; 982]; [34; 496]; []]%Z.
Proof. vm_compute. reflexivity. Qed.
