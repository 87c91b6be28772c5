(** C76, all challenges and both masks drawn: if one choice of challenges and first mask
    hides the second vector then almost all choices do. *)
From Coq Require Import String Permutation.
From Verif Require Export ZkPoly.
From Verif Require Import Ex ExSmall.
Local Open Scope string_scope.
Local Open Scope nat_scope.
Local Open Scope list_scope.

Section Spec76b.
Context {C : Crypto}.
(** challenges cs = beta, alpha, x_1 ... x_(d+1) and a first mask for which nothing degenerates *)
Definition zk_point (d : nat) (h a b : list Scalar) (q : Scalar) (cs u1 : list Scalar) : Prop :=
  let n := 2 ^ S d in let beta := sc cs 0 in let alpha := sc cs 1 in let xs := skipn 2 cs in
  alpha <> s0 /\ (forall x, In x xs -> x <> s0) /\
  (exists i j, i < n /\ j < n /\ in_mn_plus n i /\ in_mn_plus n j /\
     let l k := last_a d xs (away b (unit_vec n k)) in (sc (l i) 0 * sc (l j) 1 - sc (l i) 1 * sc (l j) 0)%S <> s0) /\
  exists m1 p, sample_m_n_plus (tape u1) 0 n = Ok (m1, p) /\
    let r1 := away b m1 in let ob := away a r1 in
    dotp b m1 <> s0 /\ dotp a r1 <> s0 /\ dotp ob ob <> s0 /\
    hides d xs a ob (tab n (fun i => sc h i + sinv alpha * q * sc (masked beta a r1) i)%S).
End Spec76b.

Section C76b.
Context {C : Crypto} {L : CryptoLaws C}.
Add Field SfC76b : (@S_field C L).

(** ** silent directions as a system of equations *)
Fixpoint srows (d : nat) (xs : list Scalar) (e : nat -> Scalar) : list (nat -> Scalar) :=
  match d with
  | O => [fun i => if i =? 0 then s1 else s0; fun i => if i =? 1 then s1 else s0]
  | S d => let k := 2 ^ S d in let x := hd s0 xs in
      (fun i => if i <? k then s0 else e (i - k)) :: (fun i => if i <? k then e (k + i) else s0) ::
      map (fun r i => if i <? k then r i else (x * r (i - k)%nat)%S) (srows d (tl xs) (fun i => (x * e i + e (k + i)%nat)%S))
  end.
Lemma sum_halves k (f g : nat -> Scalar) : sum_S (2 * k) (fun i => if i <? k then f i else g (i - k)) = (sum_S k f + sum_S k g)%S.
Proof.
  replace (2 * k) with (k + k) by lia. rewrite sum_S_app. f_equal; apply sum_S_ext; intros i Hi.
  - destruct (Nat.ltb_spec i k); [reflexivity|lia].
  - destruct (Nat.ltb_spec (k + i) k); [lia|]. f_equal. lia.
Qed.
Lemma silent_rows d : forall xs (e y : list Scalar) (f : nat -> Scalar), (forall i, i < 2 ^ S d -> f i = sc e i) ->
  silent d xs e y <-> forall r, In r (srows d xs f) -> sum_S (2 ^ S d) (fun i => r i * sc y i)%S = s0.
Proof.
  induction d as [|d IH]; intros xs e y f Hf; cbn [silent srows].
  - change (2 ^ 1) with 2. split.
    + intros [Y0 Y1] r [<-|[<-|[]]]; cbn; rewrite Y0, Y1; ring.
    + intros H. assert (H0 := H _ (or_introl eq_refl)). assert (H1 := H _ (or_intror (or_introl eq_refl))). cbn in H0, H1.
      split; [rewrite <- H0|rewrite <- H1]; ring.
  - assert (E2 : 2 ^ S (S d) = 2 * 2 ^ S d) by apply Nat.pow_succ_r'. rewrite E2 in *. set (k := 2 ^ S d) in *. set (x := hd s0 xs) in *.
    assert (S1 : sum_S (2 * k) (fun i => (if i <? k then s0 else f (i - k)%nat) * sc y i)%S = sum_S k (fun i => sc y (k + i)%nat * sc e i)%S).
    { rewrite (sum_S_ext _ _ (fun i => if i <? k then s0 else (f (i - k)%nat * sc y (k + (i - k))%nat)%S)).
      - rewrite (sum_halves k (fun _ => s0) (fun i => f i * sc y (k + i)%nat)%S). rewrite sum_S_0 by auto.
        rewrite (sum_S_ext k _ (fun i => sc y (k + i)%nat * sc e i)%S) by (intros i Hi; rewrite Hf by lia; ring). ring.
      - intros i Hi. destruct (Nat.ltb_spec i k); [ring|]. replace (k + (i - k)) with i by lia. reflexivity. }
    assert (S2 : sum_S (2 * k) (fun i => (if i <? k then f (k + i)%nat else s0) * sc y i)%S = sum_S k (fun i => sc y i * sc e (k + i)%nat)%S).
    { rewrite (sum_S_ext _ _ (fun i => if i <? k then (f (k + i)%nat * sc y i)%S else s0)).
      - rewrite (sum_halves k (fun i => f (k + i)%nat * sc y i)%S (fun _ => s0)). rewrite (sum_S_0 k (fun _ => s0)) by auto.
        rewrite (sum_S_ext k _ (fun i => sc y i * sc e (k + i)%nat)%S) by (intros i Hi; rewrite Hf by lia; ring). ring.
      - intros i Hi. destruct (Nat.ltb_spec i k); ring. }
    assert (S3 : forall r : nat -> Scalar, sum_S (2 * k) (fun i => (if i <? k then r i else x * r (i - k)%nat) * sc y i)%S =
                 sum_S k (fun i => r i * sc (fold_lo x k y) i)%S).
    { intros r. rewrite (sum_S_ext _ _ (fun i => if i <? k then (r i * sc y i)%S else (x * r (i - k)%nat * sc y (k + (i - k))%nat)%S)).
      - rewrite (sum_halves k (fun i => r i * sc y i)%S (fun i => x * r i * sc y (k + i)%nat)%S). rewrite <- sum_S_add. apply sum_S_ext. intros i Hi.
        unfold fold_lo. rewrite sc_tab by auto. ring.
      - intros i Hi. destruct (Nat.ltb_spec i k); [ring|]. replace (k + (i - k)) with i by lia. reflexivity. }
    assert (I := IH (tl xs) (fold_hi x k e) (fold_lo x k y) (fun i => (x * f i + f (k + i)%nat)%S)).
    assert (Hf' : forall i, i < k -> (x * f i + f (k + i)%nat)%S = sc (fold_hi x k e) i).
    { intros i Hi. unfold fold_hi. rewrite sc_tab by auto. now rewrite !Hf by lia. }
    specialize (I Hf'). rewrite I. split.
    + intros (H1 & H2 & H3) r [<-|[<-|Hr]]; [now rewrite S1|now rewrite S2|].
      apply in_map_iff in Hr as (r' & <- & Hr'). rewrite S3. now apply H3.
    + intros H. split; [|split].
      * rewrite <- S1. apply H. now left.
      * rewrite <- S2. apply H. right. now left.
      * intros r Hr. rewrite <- S3. apply (H (fun i => if i <? k then r i else (x * r (i - k)%nat)%S)). right. right.
        apply in_map_iff. now exists r.
Qed.
Lemma silent_scale d : forall xs (c : Scalar) (e e' y : list Scalar), c <> s0 ->
  (forall i, i < 2 ^ S d -> sc e' i = c * sc e i)%S -> silent d xs e y -> silent d xs e' y.
Proof.
  induction d as [|d IH]; intros xs c e e' y Hc He; cbn [silent]; auto.
  assert (E2 : 2 ^ S (S d) = 2 * 2 ^ S d) by apply Nat.pow_succ_r'. rewrite E2 in *. set (k := 2 ^ S d) in *. set (x := hd s0 xs) in *.
  intros (H1 & H2 & H3). split; [|split].
  - rewrite (sum_S_ext _ _ (fun i => c * (sc y (k + i)%nat * sc e i))%S) by (intros i Hi; rewrite He by lia; ring). rewrite sum_S_mul, H1. ring.
  - rewrite (sum_S_ext _ _ (fun i => c * (sc y i * sc e (k + i)%nat))%S) by (intros i Hi; rewrite He by lia; ring). rewrite sum_S_mul, H2. ring.
  - apply (IH (tl xs) c (fold_hi x k e)); auto. fold k. intros i Hi. unfold fold_hi. rewrite !sc_tab by auto. rewrite !He by lia. ring.
Qed.

(** ** sums over the positions of a mask *)
Lemma sum_S_list n (f : nat -> Scalar) : sum_S n f = fold_right (fun i s => f i + s)%S s0 (seq 0 n).
Proof.
  assert (X : forall n b, sum_S n (fun i => f (b + i)) = fold_right (fun i s => f i + s)%S s0 (seq b n)).
  { clear n. induction n as [|n IH]; intros b; [reflexivity|]. rewrite sum_S_shift. cbn [seq fold_right]. rewrite <- IH.
    f_equal; [f_equal; lia|]. apply sum_S_ext. intros i _. f_equal. lia. }
  rewrite <- (X n 0). apply sum_S_ext. reflexivity.
Qed.
Lemma sum_support n (f : nat -> Scalar) (P : list nat) : NoDup P -> (forall i, In i P -> i < n) ->
  (forall i, i < n -> ~ In i P -> f i = s0) -> sum_S n f = sum_S (length P) (fun j => f (nth j P 0)).
Proof.
  intros HN HP H0.
  set (inP := fun i => if in_dec Nat.eq_dec i P then true else false).
  assert (A : forall l, (forall i, In i l -> i < n) -> fold_right (fun i s => f i + s)%S s0 l = fold_right (fun i s => f i + s)%S s0 (filter inP l)).
  { induction l as [|i l IH]; intros Hl; [reflexivity|]. cbn [filter]. unfold inP at 1. destruct (in_dec Nat.eq_dec i P) as [I|I].
    - cbn [fold_right]. rewrite IH; auto. intros; apply Hl; now right.
    - cbn [fold_right]. rewrite IH by (intros; apply Hl; now right). rewrite H0; [ring| |exact I]. apply Hl. now left. }
  assert (B : Permutation (filter inP (seq 0 n)) P).
  { apply NoDup_Permutation; auto; [apply NoDup_filter, seq_NoDup|]. intros i. rewrite filter_In, in_seq. unfold inP.
    destruct (in_dec Nat.eq_dec i P) as [I|I]; split; auto; try tauto; try (intros [_ X]; discriminate). intros _. split; auto. assert (X := HP i I). lia. }
  assert (Cp : forall l l' : list nat, Permutation l l' -> fold_right (fun i s => f i + s)%S s0 l = fold_right (fun i s => f i + s)%S s0 l').
  { induction 1; cbn; [reflexivity|now rewrite IHPermutation|ring|congruence]. }
  rewrite sum_S_list, A by (intros i Hi; apply in_seq in Hi; lia). rewrite (Cp _ _ B).
  clear -L. induction P as [|i P IH]; [reflexivity|]. cbn [length fold_right]. rewrite sum_S_shift. cbn [nth]. now rewrite IH.
Qed.

Definition mpos (d j : nat) : nat := nth j (mask_positions d) 0.
Definition hide_rows (d : nat) (xs a ob : list Scalar) (e : nat -> Scalar) : list (nat -> Scalar) :=
  map (fun r j => r (mpos d j)) (sc a :: sc ob :: srows d xs e).
Lemma hides_rank d xs a ob e f : 2 <= d -> length a = 2 ^ S d -> length ob = 2 ^ S d -> (forall i, i < 2 ^ S d -> f i = sc e i) ->
  hides d xs a ob e <-> full_rank (2 * d + 4) (hide_rows d xs a ob f) = true.
Proof.
  intros Hd Ha Hob Hf. set (n := 2 ^ S d) in *. rewrite full_rank_spec.
  assert (NP := mask_positions_NoDup d Hd). assert (LP := mask_positions_length d).
  assert (PI : forall i, In i (mask_positions d) -> i < n /\ in_mn_plus n i) by (intros i; now apply mask_positions_In).
  assert (SUM : forall (r : nat -> Scalar) (y : list Scalar), (forall i, i < n -> ~ in_mn_plus n i -> sc y i = s0) ->
     sum_S n (fun i => r i * sc y i)%S = sum_S (2 * d + 4) (fun j => r (mpos d j) * sc y (mpos d j))%S).
  { intros r y Hy. rewrite (sum_support n _ (mask_positions d)); auto.
    - now rewrite LP.
    - intros i Hi. now apply PI.
    - intros i Hi Ni. rewrite Hy; [ring|auto|]. intros X. apply Ni. now apply mask_positions_all. }
  split.
  - intros T z Hz.
    set (find := fun i => match List.find (fun j => mpos d j =? i) (seq 0 (2 * d + 4)) with Some j => z j | None => s0 end).
    assert (Fj : forall j, j < 2 * d + 4 -> find (mpos d j) = z j).
    { intros j Hj. unfold find. destruct (List.find _ _) as [j'|] eqn:E.
      - apply find_some in E as [I E]. apply Nat.eqb_eq in E. apply in_seq in I. f_equal.
        apply (NoDup_nth (mask_positions d) 0); auto; lia.
      - assert (X := find_none _ _ E j ltac:(apply in_seq; lia)). cbn beta in X. rewrite Nat.eqb_refl in X. discriminate. }
    set (y := tab n (fun i => if in_mn_plus_dec n i then find i else s0)).
    assert (Yj : forall j, j < 2 * d + 4 -> sc y (mpos d j) = z j).
    { intros j Hj. assert (I : In (mpos d j) (mask_positions d)) by (apply nth_In; lia). destruct (PI _ I) as [I1 I2].
      unfold y. rewrite sc_tab by auto. destruct (in_mn_plus_dec n (mpos d j)); [now apply Fj|contradiction]. }
    assert (Y0 : forall i, i < n -> ~ in_mn_plus n i -> sc y i = s0).
    { intros i Hi Ni. unfold y. rewrite sc_tab by auto. destruct (in_mn_plus_dec n i); [contradiction|reflexivity]. }
    assert (R : forall r, In r (sc a :: sc ob :: srows d xs f) -> sum_S n (fun i => r i * sc y i)%S = s0).
    { intros r Hr. rewrite SUM by auto. rewrite <- (Hz (fun j => r (mpos d j))).
      - apply sum_S_ext. intros j Hj. now rewrite Yj.
      - unfold hide_rows. apply in_map_iff. now exists r. }
    intros j Hj. rewrite <- Yj by auto. apply T; auto.
    + unfold y. now rewrite tab_length.
    + unfold dotp. rewrite Ha. apply (R (sc a)). now left.
    + unfold dotp. rewrite Hob. apply (R (sc ob)). right. now left.
    + apply (silent_rows d xs e y f Hf). intros r Hr. apply R. right. now right.
    + assert (I : In (mpos d j) (mask_positions d)) by (apply nth_In; lia). now apply PI.
  - intros T y Ly Y0 Ya Yo Ys i Hi. destruct (in_mn_plus_dec n i) as [Mi|Mi]; [|now apply Y0].
    apply mask_positions_all in Mi; auto. apply (In_nth _ _ 0) in Mi as (j & Hj & <-). rewrite LP in Hj.
    apply (T (fun j => sc y (mpos d j))); auto. intros r Hr. unfold hide_rows in Hr. apply in_map_iff in Hr as (r' & <- & Hr').
    rewrite <- (SUM r' y Y0). destruct Hr' as [<-|[<-|Hr']].
    + unfold dotp in Ya. now rewrite Ha in Ya.
    + unfold dotp in Yo. now rewrite Hob in Yo.
    + now apply (proj1 (silent_rows d xs e y f Hf) Ys).
Qed.

(** ** the same in terms of the word of challenges and draws *)
Fixpoint srowsW (d : nat) (X : list (list Scalar -> Scalar)) (E : nat -> list Scalar -> Scalar) : list (list Scalar -> nat -> Scalar) :=
  match d with
  | O => [fun _ i => if i =? 0 then s1 else s0; fun _ i => if i =? 1 then s1 else s0]
  | S d => let k := 2 ^ S d in let x := hd (fun _ => s0) X in
      (fun w i => if i <? k then s0 else E (i - k) w) :: (fun w i => if i <? k then E (k + i) w else s0) ::
      map (fun r w i => if i <? k then r w i else (x w * r w (i - k)%nat)%S) (srowsW d (tl X) (fun i w => (x w * E i w + E (k + i)%nat w)%S))
  end.
Lemma srowsW_at w d : forall X E, srows d (map (fun f => f w) X) (fun i => E i w) = map (fun r => r w) (srowsW d X E).
Proof.
  induction d as [|d IH]; intros X E; [reflexivity|]. cbn [srows srowsW map]. f_equal. f_equal. rewrite map_map.
  assert (Hh : hd s0 (map (fun f => f w) X) = hd (fun _ => s0) X w) by (destruct X; reflexivity).
  assert (Ht : tl (map (fun f => f w) X) = map (fun f => f w) (tl X)) by (destruct X; reflexivity).
  rewrite Hh, Ht. rewrite (IH (tl X) (fun i w => (hd (fun _ => s0) X w * E i w + E (2 ^ S d + i)%nat w)%S)). rewrite map_map. reflexivity.
Qed.
Lemma hd_poly K (X : list (list Scalar -> Scalar)) : (forall f, In f X -> wpoly K 1 f) -> wpoly K 1 (hd (fun _ => s0) X).
Proof. destruct X as [|f X]; intros H; [apply wpoly_const|]. apply H. now left. Qed.
Lemma tl_poly K (X : list (list Scalar -> Scalar)) : (forall f, In f X -> wpoly K 1 f) -> forall f, In f (tl X) -> wpoly K 1 f.
Proof. destruct X as [|f X]; intros H g Hg; [destruct Hg|]. apply H. now right. Qed.
Lemma srowsW_poly K d : forall e X E, (forall f, In f X -> wpoly K 1 f) -> (forall i, wpoly K e (E i)) ->
  forall r, In r (srowsW d X E) -> forall i, wpoly K (e + 2 * d) (fun w => r w i).
Proof.
  induction d as [|d IH]; intros e X E HX HE r Hr i.
  - destruct Hr as [<-|[<-|[]]]; apply wpoly_const.
  - cbn [srowsW] in Hr. set (k := 2 ^ S d) in *. destruct Hr as [<-|[<-|Hr]].
    + destruct (i <? k); [apply wpoly_const|]. apply (wpoly_mono K e); [lia|apply HE].
    + destruct (i <? k); [|apply wpoly_const]. apply (wpoly_mono K e); [lia|apply HE].
    + apply in_map_iff in Hr as (r' & <- & Hr').
      assert (P : forall i, wpoly K (S e + 2 * d) (fun w => r' w i)).
      { apply (IH (S e) (tl X) (fun i w => (hd (fun _ => s0) X w * E i w + E (k + i)%nat w)%S)); auto.
        - now apply tl_poly.
        - intros j. apply wpoly_add; [|apply (wpoly_mono K e); [lia|apply HE]]. apply (wpoly_mul K 1 e); [now apply hd_poly|apply HE]. }
      destruct (i <? k).
      * apply (wpoly_mono K (S e + 2 * d)); [lia|apply P].
      * replace (e + 2 * S d) with (1 + (S e + 2 * d)) by lia. apply (wpoly_mul K 1 (S e + 2 * d)); [now apply hd_poly|apply P].
Qed.
Lemma last_poly K d : forall e X (V : nat -> list Scalar -> Scalar), (forall f, In f X -> wpoly K 1 f) -> (forall i, wpoly K e (V i)) ->
  forall i, i < 2 -> wpoly K (e + d) (fun w => sc (last_a d (map (fun f => f w) X) (tab (2 ^ S d) (fun i => V i w))) i).
Proof.
  induction d as [|d IH]; intros e X V HX HV i Hi.
  - cbn [last_a]. rewrite Nat.add_0_r. apply (wpoly_ext K e (V i)); [|apply HV]. intros w _. change (2 ^ 1) with 2. now rewrite sc_tab.
  - set (k := 2 ^ S d).
    assert (P := IH (S e) (tl X) (fun i w => (hd (fun _ => s0) X w * V i w + V (k + i)%nat w)%S) (tl_poly K X HX)).
    replace (e + S d) with (S e + d) by lia. eapply wpoly_ext; [|apply P; [|exact Hi]].
    + intros w _. cbn [last_a]. fold k.
      assert (Hh : hd s0 (map (fun f => f w) X) = hd (fun _ => s0) X w) by (destruct X; reflexivity).
      assert (Ht : tl (map (fun f => f w) X) = map (fun f => f w) (tl X)) by (destruct X; reflexivity).
      rewrite Hh, Ht. f_equal. f_equal. symmetry. apply (tab_eq s0); [apply fold_hi_length|]. intros j Hj.
      assert (E2 : 2 ^ S (S d) = 2 * k) by apply Nat.pow_succ_r'. rewrite E2. unfold fold_hi. rewrite tab_nth, !sc_tab by lia. reflexivity.
    + intros j. apply wpoly_add; [|apply (wpoly_mono K e); [lia|apply HV]]. apply (wpoly_mul K 1 e); [now apply hd_poly|apply HV].
Qed.
Lemma wpoly_prod K n (F : nat -> list Scalar -> Scalar) : (forall i, wpoly K 1 (F i)) -> wpoly K n (fun w => prod_S n (fun i => F i w)).
Proof.
  intros H. induction n as [|n IH]; cbn [prod_S]; [apply wpoly_const|]. replace (S n) with (n + 1) by lia. apply wpoly_mul; auto.
Qed.
Lemma prod_S_nz n (f : nat -> Scalar) : prod_S n f <> s0 <-> forall i, i < n -> f i <> s0.
Proof.
  induction n as [|n IH]; cbn [prod_S].
  - split; [intros _ i Hi; lia|intros _; apply s1_neq_s0].
  - split.
    + intros H i Hi. destruct (Nat.eq_dec i n) as [->|Hn].
      * intros E. apply H. rewrite E. ring.
      * apply IH; [|lia]. intros E. apply H. rewrite E. ring.
    + intros H E. apply smul_eq_0 in E as [E|E]; [apply (proj2 IH)|apply (H n)]; auto. 
Qed.

(** every vector on the mask positions is drawn by some tape *)
Lemma mask_onto d (v : list Scalar) : 2 <= d -> length v = 2 ^ S d -> (forall i, i < 2 ^ S d -> ~ in_mn_plus (2 ^ S d) i -> sc v i = s0) ->
  exists u, length u = 2 * d + 4 /\ sample_m_n_plus (tape u) 0 (2 ^ S d) = Ok (v, 2 * d + 4).
Proof.
  intros Hd Hv V0. set (n := 2 ^ S d) in *. destruct (mask_draws 0 d Hd) as (src & HM & _ & Inj). fold n in HM, Inj.
  set (u := tab (2 * d + 4) (fun k => match find (fun i => src i =? k) (mask_positions d) with Some i => sc v i | None => s0 end)).
  exists u. split; [apply tab_length|]. destruct (HM (tape u)) as (m & E & Lm & X1 & X2). rewrite E. do 2 f_equal.
  apply (list_eq_nth s0); [lia|]. intros i Hi. change (sc m i = sc v i). rewrite Lm in Hi. destruct (in_mn_plus_dec n i) as [Mi|Mi].
  - destruct (X1 i Hi Mi) as [-> R]. unfold tape. change (nth (src i) u s0) with (sc u (src i)). unfold u. rewrite sc_tab by lia.
    destruct (find _ _) as [i'|] eqn:F.
    + apply find_some in F as [I F]. apply Nat.eqb_eq in F. f_equal. destruct (mask_positions_In d i' Hd I) as [I1 I2]. now apply Inj.
    + assert (I : In i (mask_positions d)) by (now apply mask_positions_all).
      assert (F' := find_none _ _ F i I). cbn beta in F'. rewrite Nat.eqb_refl in F'. discriminate.
  - now rewrite X2, V0.
Qed.
(** two mask positions whose effect on the last two entries is independent give every pair *)
Lemma span_pair d xs b i j (p0 p1 : Scalar) : length b = 2 ^ S d -> i < 2 ^ S d -> j < 2 ^ S d ->
  let n := 2 ^ S d in let l k := last_a d xs (away b (unit_vec n k)) in
  (sc (l i) 0 * sc (l j) 1 - sc (l i) 1 * sc (l j) 0)%S <> s0 ->
  exists s t, last_a d xs (away b (lc (unit_vec n i) (unit_vec n i) (unit_vec n j) s t)) = [p0; p1].
Proof.
  intros Hb Hi Hj n l D. set (D0 := (sc (l i) 0 * sc (l j) 1 - sc (l i) 1 * sc (l j) 0)%S) in *.
  exists (sinv D0 * (p0 * sc (l j) 1 - p1 * sc (l j) 0) - s1)%S, (sinv D0 * (sc (l i) 0 * p1 - sc (l i) 1 * p0))%S.
  assert (Lu : forall k, length (unit_vec n k) = n) by (intros; apply tab_length).
  rewrite away_lc by (rewrite Lu; auto). rewrite last_a_lc by (rewrite away_length; auto). fold (l i) (l j).
  assert (L1 : length (l i) = 2) by (apply last_a_length; now rewrite away_length).
  assert (L2 : length (l j) = 2) by (apply last_a_length; now rewrite away_length).
  unfold D0 in *. clear D0. destruct (l i) as [|x0 [|x1 [|]]]; try discriminate. destruct (l j) as [|y0 [|y1 [|]]]; try discriminate.
  unfold lc, sc in *. cbn [nth length tab map seq] in *. unfold tab. cbn [map seq nth].
  f_equal; [|f_equal]; field; exact D.
Qed.

(** the masked entries of the word and what becomes of them *)
Lemma wpoly_away K e n (b : list Scalar) (M : nat -> list Scalar -> Scalar) : length b = n -> (forall i, wpoly K e (M i)) ->
  forall i, i < n -> wpoly K e (fun w => sc (away b (tab n (fun i => M i w))) i).
Proof.
  intros Hb HM i Hi.
  apply (wpoly_ext K e (fun w => M i w + (- (sinv (dotp b b) * sc b i)) * sum_S n (fun k => sc b k * M k w))%S).
  - intros w _. unfold away. rewrite !sc_tab by lia. unfold dotp at 2. rewrite Hb.
    rewrite (sum_S_ext n (fun i0 => sc b i0 * sc (tab n (fun i1 => M i1 w)) i0)%S (fun k => sc b k * M k w)%S) by (intros k Hk; now rewrite sc_tab).
    ring.
  - apply wpoly_add; auto. apply wpoly_scale. apply wpoly_sum. intros k _. now apply wpoly_scale.
Qed.

Theorem C76_almzk_statistical_zk (vals : list Scalar) tr d (g h : list Scalar) (q : Scalar) (B : Point) (a b : list Scalar)
    (cs0 u0 : list Scalar) (test : list Scalar -> AlmZK -> bool) :
  let n := 2 ^ S d in let K := 2 * d + 4 in
  let G := mulB B g in let H := mulB B h in let Q := (q *: B)%P in
  let Cw := (comb a G + comb b H)%P in let t := dotp a b in
  2 <= d -> length g = n -> length h = n -> length a = n -> length b = n ->
  NoDup vals -> (forall x, In x vals) -> dotp a a <> s0 -> dotp b b <> s0 ->
  length cs0 = d + 3 -> length u0 = K -> zk_point d h a b q cs0 u0 ->
  let real := count (fun w => let cs := firstn (d + 3) w in let u := skipn (d + 3) w in
      on_proof (test cs) (alm_zk_create (coins tr cs) (tape u) 0 tr G H Q Cw a b t)) (words vals (d + 3 + (K + K))) in
  let sim := count (fun w => let cs := firstn (d + 3) w in let v := skipn (d + 3) w in
      test cs (sim_proof d (skipn 2 cs) g h q B (sc cs 0) (sc cs 1) Cw t (firstn 2 v) (skipn 2 v))) (words vals (d + 3 + (2 + (2 * d + 2)))) in
  let N := (length vals - 1) ^ 2 * length vals ^ (2 * d + 2) in
  let slack := (3 * d + 7) * ((2 * d + 1) * (4 * n * n) + d + 5) * length vals ^ (d + 3 + (K + K) - 1) in
  real <= N * sim + slack /\ N * sim <= real + slack.
Proof.
  intros n K G H Q Cw t Hd Hg Hh Ha Hb HN HA Naa Nbb Hcs0 Hu0 (Z1 & Z2 & (i & j & Hi & Hj & Mi & Mj & Z3) & (m0 & p0' & Z4 & Z5 & Z6 & Z7 & Z8)) real sim N slack.
  fold n in Hi, Hj, Mi, Mj, Z3, Z4, Z8. cbv zeta in Z3. set (T := d + 3 + K).
  destruct (mask_draws 0 d Hd) as (src & HM & _). fold n in HM.
  set (M := fun (i : nat) (w : list Scalar) => if in_mn_plus_dec n i then sc w (d + 3 + src i) else s0).
  set (X := map (fun j (w : list Scalar) => sc w (2 + j)) (seq 0 (S d))).
  set (r1 := fun w => away b (tab n (fun i => M i w))). set (ob := fun w => away a (r1 w)).
  set (E := fun i (w : list Scalar) => (sc w 1 * sc h i + q * (sc w 0 * sc a i + (if i <? n then sc (r1 w) i else s0)))%S).
  set (F1 := fun w : list Scalar => (sc w 1 * prod_S (S d) (fun j => sc w (2 + j)%nat))%S).
  set (l := fun w k => last_a d (map (fun f => f w) X) (away b (unit_vec n k))).
  set (F2 := fun w => (sc (l w i) 0 * sc (l w j) 1 - sc (l w i) 1 * sc (l w j) 0)%S).
  set (F3 := fun w => dotp b (tab n (fun i => M i w))). set (F4 := fun w => dotp a (r1 w)). set (F5 := fun w => dotp (ob w) (ob w)).
  set (rows := map (fun (r : list Scalar -> nat -> Scalar) w j => r w (mpos d j)) ((fun _ => sc a) :: (fun w => sc (ob w)) :: srowsW d X E)).
  set (bad := fun w => seqb (F1 w) s0 || seqb (F2 w) s0 || seqb (F3 w) s0 || seqb (F4 w) s0 || seqb (F5 w) s0 ||
                       negb (full_rank K (map (fun r => r w) rows))).
  (* degrees *)
  assert (PX : forall f, In f X -> wpoly T 1 f).
  { intros f Hf. apply in_map_iff in Hf as (k & <- & _). apply wpoly_letter. }
  assert (PM : forall i, wpoly T 1 (M i)).
  { intros k. unfold M. destruct (in_mn_plus_dec n k); [apply wpoly_letter|apply wpoly_const]. }
  assert (Pr : forall k, k < n -> wpoly T 1 (fun w => sc (r1 w) k)) by (intros k Hk; now apply wpoly_away).
  assert (Lr : forall w, length (r1 w) = n) by (intros; unfold r1; now rewrite away_length).
  assert (Lo : forall w, length (ob w) = n) by (intros; unfold ob; now rewrite away_length).
  assert (Po : forall k, k < n -> wpoly T 1 (fun w => sc (ob w) k)).
  { intros k Hk. assert (Y := wpoly_away T 1 n a (fun i w => if i <? n then sc (r1 w) i else s0) Ha).
    apply (wpoly_ext T 1 (fun w => sc (away a (tab n (fun i => if i <? n then sc (r1 w) i else s0))) k)).
    - intros w _. unfold ob. f_equal. f_equal. symmetry. apply (tab_eq s0); [apply Lr|]. intros i0 Hi0. destruct (Nat.ltb_spec i0 n); [reflexivity|lia].
    - apply Y; auto. intros i0. destruct (Nat.ltb_spec i0 n); [now apply Pr|apply wpoly_const]. }
  assert (PE : forall k, wpoly T 1 (E k)).
  { intros k. apply wpoly_add.
    - apply (wpoly_ext T 1 (fun w => sc h k * sc w 1)%S); [intros; ring|]. apply wpoly_scale, wpoly_letter.
    - apply wpoly_scale. apply wpoly_add.
      + apply (wpoly_ext T 1 (fun w => sc a k * sc w 0)%S); [intros; ring|]. apply wpoly_scale, wpoly_letter.
      + destruct (Nat.ltb_spec k n); [now apply Pr|apply wpoly_const]. }
  assert (D1 : wpoly T (d + 2) F1).
  { replace (d + 2) with (1 + S d) by lia. apply wpoly_mul; [apply wpoly_letter|]. apply (wpoly_prod T (S d) (fun j w => sc w (2 + j))). intros; apply wpoly_letter. }
  assert (Dl : forall k i, k < n -> i < 2 -> wpoly T d (fun w => sc (l w k) i)).
  { intros k i0 Hk Hi0. apply (wpoly_ext T d (fun w => sc (last_a d (map (fun f => f w) X) (tab (2 ^ S d) (fun i => sc (away b (unit_vec n k)) i))) i0)).
    - intros w _. unfold l. f_equal. f_equal. symmetry. apply (tab_eq s0); [now rewrite away_length|]. reflexivity.
    - apply (last_poly T d 0 X (fun i _ => sc (away b (unit_vec n k)) i)); auto. intros; apply wpoly_const. }
  assert (D2 : wpoly T (d + d) F2).
  { apply (wpoly_ext T (d + d) (fun w => sc (l w i) 0 * sc (l w j) 1 + (- s1) * (sc (l w i) 1 * sc (l w j) 0))%S); [intros; unfold F2; ring|].
    apply wpoly_add; [|apply wpoly_scale]; apply wpoly_mul; apply Dl; auto. }
  assert (D3 : wpoly T 1 F3).
  { apply (wpoly_ext T 1 (fun w => sum_S n (fun k => sc b k * M k w)%S)).
    - intros w _. unfold F3, dotp. rewrite Hb. apply sum_S_ext. intros k Hk. now rewrite sc_tab.
    - apply wpoly_sum. intros k _. now apply wpoly_scale. }
  assert (D4 : wpoly T 1 F4).
  { unfold F4, dotp. rewrite Ha. apply (wpoly_sum T 1 n (fun k w => sc a k * sc (r1 w) k)%S). intros k Hk. apply wpoly_scale. now apply Pr. }
  assert (D5 : wpoly T 2 F5).
  { apply (wpoly_ext T 2 (fun w => sum_S n (fun k => sc (ob w) k * sc (ob w) k)%S)).
    - intros w _. unfold F5, dotp. now rewrite Lo.
    - apply wpoly_sum. intros k Hk. apply (wpoly_mul T 1 1); now apply Po. }
  assert (Mlt : forall k, k < K -> mpos d k < n).
  { intros k Hk. assert (I : In (mpos d k) (mask_positions d)) by (apply nth_In; rewrite mask_positions_length; exact Hk). now apply mask_positions_In. }
  assert (D6 : forall r, In r rows -> forall k, k < K -> wpoly T (2 * d + 1) (fun w => r w k)).
  { intros r Hr k Hk. apply in_map_iff in Hr as (r' & <- & [<-|[<-|Hr]]).
    - apply wpoly_const.
    - apply (wpoly_mono T 1); [lia|]. apply Po. now apply Mlt.
    - replace (2 * d + 1) with (1 + 2 * d) by lia. exact (srowsW_poly T d 1 X E PX PE r' Hr (mpos d k)). }
  (* a word of challenges and draws *)
  assert (XS : forall cs u, length cs = d + 3 -> map (fun f => f (cs ++ u)) X = skipn 2 cs).
  { intros cs u Hc. unfold X. rewrite map_map. symmetry. change (map (fun x => sc (cs ++ u) (2 + x)) (seq 0 (S d))) with (tab (S d) (fun x => sc (cs ++ u) (2 + x))).
    apply (tab_eq s0); [rewrite skipn_length; lia|]. intros k Hk. change (nth k (skipn 2 cs) s0) with (sc (skipn 2 cs) k). rewrite sc_skipn. unfold sc. now rewrite app_nth1 by lia. }
  assert (MK : forall cs u, length cs = d + 3 -> sample_m_n_plus (tape u) 0 n = Ok (tab n (fun i => M i (cs ++ u)), K)).
  { intros cs u Hc. destruct (HM (tape u)) as (m & Em & Lm & X1 & X2). rewrite Em. do 2 f_equal.
    apply (tab_eq s0); [exact Lm|]. intros k Hk. change (nth k m s0) with (sc m k). unfold M. destruct (in_mn_plus_dec n k) as [I|I].
    - destruct (X1 k Hk I) as [-> _]. unfold tape, sc. rewrite app_nth2 by lia. f_equal. lia.
    - now apply X2. }
  assert (C0 : forall cs u : list Scalar, length cs = d + 3 -> sc (cs ++ u) 0 = sc cs 0) by (intros; unfold sc; now rewrite app_nth1 by lia).
  assert (C1 : forall cs u : list Scalar, length cs = d + 3 -> sc (cs ++ u) 1 = sc cs 1) by (intros; unfold sc; now rewrite app_nth1 by lia).
  assert (RK : forall cs u, length cs = d + 3 -> sc cs 1 <> s0 ->
     (full_rank K (map (fun r => r (cs ++ u)) rows) = true <->
      hides d (skipn 2 cs) a (ob (cs ++ u)) (tab n (fun i => sc h i + sinv (sc cs 1) * q * sc (masked (sc cs 0) a (r1 (cs ++ u))) i)%S))).
  { intros cs u Hc Nal. set (w := cs ++ u).
    assert (Er : map (fun r => r w) rows = hide_rows d (skipn 2 cs) a (ob w) (fun i => E i w)).
    { unfold rows, hide_rows. rewrite map_map. cbn [map]. f_equal. f_equal. rewrite <- (XS cs u Hc). fold w. rewrite (srowsW_at w d X E).
      rewrite map_map. reflexivity. }
    rewrite Er. set (e' := tab n (fun i => E i w)).
    assert (Y := hides_rank d (skipn 2 cs) a (ob w) e' (fun i => E i w) Hd Ha (Lo w)). fold K in Y. rewrite <- Y.
    2:{ intros k Hk. unfold e'. now rewrite sc_tab. }
    set (e := tab n (fun i => (sc h i + sinv (sc cs 1) * q * sc (masked (sc cs 0) a (r1 w)) i)%S)).
    assert (Ee : forall k, k < n -> (sc e' k = sc cs 1 * sc e k)%S).
    { intros k Hk. unfold e', e. rewrite !sc_tab by auto. unfold E, masked. rewrite sc_tab by lia. unfold w. rewrite C0, C1 by auto. fold w.
      destruct (Nat.ltb_spec k n); [|lia]. field. exact Nal. }
    split; intros Hid y Ly Y0 Ya Yo Ys; apply Hid; auto.
    - apply (silent_scale d (skipn 2 cs) (sc cs 1) e e' y); auto.
    - apply (silent_scale d (skipn 2 cs) (sinv (sc cs 1)) e' e y); auto.
      + intros Z. apply Nal. transitivity (sc cs 1 * (sinv (sc cs 1) * sc cs 1))%S; [rewrite sinv_l by auto; ring|rewrite Z; ring].
      + intros k Hk. rewrite Ee by auto. transitivity ((sinv (sc cs 1) * sc cs 1) * sc e k)%S; [rewrite sinv_l by auto; ring|ring]. }
  (* number of bad words *)
  set (w0 := cs0 ++ u0). assert (Lw0 : length w0 = T) by (unfold w0, T; rewrite app_length; lia).
  assert (M0 : m0 = tab n (fun i => M i w0)).
  { assert (Y := MK cs0 u0 Hcs0). rewrite Z4 in Y. now injection Y. }
  assert (CB : count bad (words vals T) <= (3 * d + 7) * ((2 * d + 1) * (4 * n * n) + d + 5) * length vals ^ (T - 1)).
  { assert (B1 := few_roots vals T (d + 2) F1 w0 HN D1 Lw0).
    assert (B2 := few_roots vals T (d + d) F2 w0 HN D2 Lw0).
    assert (B3 := few_roots vals T 1 F3 w0 HN D3 Lw0). assert (B4 := few_roots vals T 1 F4 w0 HN D4 Lw0).
    assert (B5 := few_roots vals T 2 F5 w0 HN D5 Lw0). assert (B6 := few_singular vals T (2 * d + 1) K rows w0 HN D6 Lw0).
    assert (E2K : 2 ^ K = 4 * n * n).
    { unfold K, n. replace (2 * d + 4) with (2 + (S d + S d)) by lia. rewrite Nat.pow_add_r, (Nat.pow_add_r 2 (S d) (S d)). change (2 ^ 2) with 4. lia. }
    rewrite E2K in B6.
    transitivity (T * (d + 2) * length vals ^ (T - 1) + T * (d + d) * length vals ^ (T - 1) + T * 1 * length vals ^ (T - 1) + T * 1 * length vals ^ (T - 1)
       + T * 2 * length vals ^ (T - 1) + T * ((2 * d + 1) * (4 * n * n - 1)) * length vals ^ (T - 1)).
    - unfold bad. repeat apply count_or_le.
      + apply B1. unfold F1, w0. rewrite C1 by auto. intros Y. apply smul_eq_0 in Y as [Y|Y]; [contradiction|]. revert Y. apply prod_S_nz.
        intros k Hk. unfold sc. rewrite app_nth1 by lia. apply Z2. change (nth (2 + k) cs0 s0) with (sc cs0 (2 + k)). rewrite <- sc_skipn. apply nth_In. rewrite skipn_length. lia.
      + apply B2. unfold F2, l, w0. rewrite XS by auto. exact Z3.
      + apply B3. unfold F3. rewrite <- M0. exact Z5.
      + apply B4. unfold F4, r1. rewrite <- M0. exact Z6.
      + apply B5. unfold F5, ob, r1. rewrite <- M0. exact Z7.
      + apply B6. unfold w0. apply RK; auto. unfold ob, r1. fold w0. rewrite <- M0. exact Z8.
    - assert (ET : T = 3 * d + 7) by (unfold T, K; lia). assert (1 <= n) by (unfold n; apply pow2_pos).
      rewrite <- ET. rewrite <- !Nat.mul_add_distr_r. apply Nat.mul_le_mono_r. rewrite <- !Nat.mul_add_distr_l. apply Nat.mul_le_mono_l. nia. }
  (* sum over the challenges *)
  set (Rc := fun cs => count (fun u => on_proof (test cs) (alm_zk_create (coins tr cs) (tape u) 0 tr G H Q Cw a b t)) (words vals (K + K))).
  set (Sc := fun cs => count (fun v => test cs (sim_proof d (skipn 2 cs) g h q B (sc cs 0) (sc cs 1) Cw t (firstn 2 v) (skipn 2 v))) (words vals (2 + (2 * d + 2)))).
  assert (Fa : forall cs u : list Scalar, length cs = d + 3 -> firstn (d + 3) (cs ++ u) = cs).
  { intros cs u Hc. rewrite firstn_app, Hc, Nat.sub_diag, firstn_O, app_nil_r, <- Hc. apply firstn_all. }
  assert (Sa : forall cs u : list Scalar, length cs = d + 3 -> skipn (d + 3) (cs ++ u) = u).
  { intros cs u Hc. rewrite skipn_app, Hc, Nat.sub_diag, skipn_O, <- Hc, skipn_all. reflexivity. }
  assert (Er : real = list_sum (map Rc (words vals (d + 3)))).
  { unfold real. rewrite count_words_app. apply sum_ext. intros cs Hc. apply words_In in Hc as [Hc _]. apply count_ext. intros u _. cbv zeta.
    now rewrite Fa, Sa by auto. }
  assert (Es : sim = list_sum (map Sc (words vals (d + 3)))).
  { unfold sim. rewrite count_words_app. apply sum_ext. intros cs Hc. apply words_In in Hc as [Hc _]. apply count_ext. intros u _. cbv zeta.
    now rewrite Fa, Sa by auto. }
  assert (Eb : count bad (words vals T) = list_sum (map (fun cs => count (fun u => bad (cs ++ u)) (words vals K)) (words vals (d + 3)))).
  { unfold T. apply count_words_app. }
  assert (Lv : 1 <= length vals) by (destruct vals; [destruct (HA s0)|cbn; lia]).
  assert (One : forall cs, length cs = d + 3 -> Rc cs <= N * Sc cs + count (fun u => bad (cs ++ u)) (words vals K) * length vals ^ K /\
                N * Sc cs <= Rc cs + count (fun u => bad (cs ++ u)) (words vals K) * length vals ^ K).
  { intros cs Hc.
    destruct (seqb (F1 (cs ++ u0)) s0 || seqb (F2 (cs ++ u0)) s0) eqn:Zc.
    - (* challenges that degenerate: all words are bad *)
      assert (All : count (fun u => bad (cs ++ u)) (words vals K) = length vals ^ K).
      { rewrite <- words_count. assert (Y : forall u, bad (cs ++ u) = true).
        { intros u. unfold bad. apply orb_prop in Zc as [Zc|Zc].
          - replace (F1 (cs ++ u)) with (F1 (cs ++ u0)); [now rewrite Zc|]. unfold F1. rewrite !C1 by auto. f_equal. apply prod_S_ext. intros k Hk.
            unfold sc. now rewrite !app_nth1 by lia.
          - replace (F2 (cs ++ u)) with (F2 (cs ++ u0)); [rewrite Zc; now rewrite orb_true_r|]. unfold F2, l. now rewrite !XS by auto. }
        clear -Y. induction (words vals K) as [|u l' IH]; [reflexivity|]. rewrite count_cons, Y, IH. reflexivity. }
      rewrite All. rewrite <- Nat.pow_add_r.
      assert (Y1 : Rc cs <= length vals ^ (K + K)) by (unfold Rc; rewrite <- (words_count vals (K + K)); apply count_all).
      assert (Y2 : N * Sc cs <= length vals ^ (K + K)).
      { assert (Y2 : Sc cs <= length vals ^ (2 + (2 * d + 2))) by (unfold Sc; rewrite <- (words_count vals (2 + (2 * d + 2))); apply count_all).
        unfold K. replace (2 * d + 4) with (2 + (2 * d + 2)) by lia. rewrite (Nat.pow_add_r _ (2 + (2 * d + 2))).
        apply Nat.mul_le_mono; [|exact Y2]. unfold N. rewrite (Nat.pow_add_r _ 2). apply Nat.mul_le_mono_r. apply Nat.pow_le_mono_l. lia. }
      lia.
    - apply orb_false_elim in Zc as [N1 N2].
      assert (N1' : F1 (cs ++ u0) <> s0) by (intros Y; apply seqb_eq in Y; congruence).
      assert (N2' : F2 (cs ++ u0) <> s0) by (intros Y; apply seqb_eq in Y; congruence).
      unfold F1 in N1'. rewrite C1 in N1' by auto.
      assert (Nal : sc cs 1 <> s0) by (intros Y; apply N1'; rewrite Y; ring).
      assert (Nx : forall x, In x (skipn 2 cs) -> x <> s0).
      { intros x Hx. apply (In_nth _ _ s0) in Hx as (k & Hk & <-). rewrite skipn_length in Hk. change (sc (skipn 2 cs) k <> s0). rewrite sc_skipn.
        assert (Np : prod_S (S d) (fun j => sc (cs ++ u0) (2 + j)) <> s0) by (intros Y; apply N1'; rewrite Y; ring).
        assert (Y := proj1 (prod_S_nz _ _) Np k ltac:(lia)). cbv beta in Y. unfold sc in Y |- *. now rewrite app_nth1 in Y by lia. }
      unfold F2, l in N2'. rewrite XS in N2' by auto.
      assert (Sp : forall p0 p1 : Scalar, exists w v, sample_m_n_plus (tape w) 0 n = Ok (v, K) /\ last_a d (skipn 2 cs) (away b v) = [p0; p1]).
      { intros p0 p1. destruct (span_pair d (skipn 2 cs) b i j p0 p1 Hb Hi Hj N2') as (s & t' & Ev). fold n in Ev.
        destruct (mask_onto d (lc (unit_vec n i) (unit_vec n i) (unit_vec n j) s t') Hd) as (u & _ & Eu).
        - rewrite lc_length. apply tab_length.
        - fold n. intros k Hk Nk. unfold lc. rewrite sc_tab by (unfold unit_vec; now rewrite tab_length). unfold unit_vec. rewrite !sc_tab by auto.
          destruct (Nat.eqb_spec k i) as [->|_]; [contradiction|]. destruct (Nat.eqb_spec k j) as [->|_]; [contradiction|]. ring.
        - exists u, (lc (unit_vec n i) (unit_vec n i) (unit_vec n j) s t'). auto. }
      destruct (Sp s1 s0) as (w1 & v1 & W1 & A1). destruct (Sp s0 s1) as (w2 & v2 & W2 & A2).
      assert (Hc' : cs = sc cs 0 :: sc cs 1 :: skipn 2 cs).
      { destruct cs as [|c0 [|c1 cs]]; cbn in Hc; try lia. reflexivity. }
      assert (Y := C76_almzk_zero_knowledge vals tr d g h q B a b (sc cs 0) (sc cs 1) (skipn 2 cs) w1 w2 v1 v2 (fun u => bad (cs ++ u)) (test cs)).
      cbv zeta in Y. rewrite <- Hc' in Y. apply Y; auto.
      + rewrite skipn_length. lia.
      + intros u1 m1 Hu1 Hgood Hm1. fold n in Hm1. rewrite (MK cs u1 Hc) in Hm1. injection Hm1 as <-.
        fold (r1 (cs ++ u1)). fold (ob (cs ++ u1)). unfold bad in Hgood. apply orb_false_elim in Hgood as [Hgood G6].
        apply orb_false_elim in Hgood as [Hgood G5]. apply orb_false_elim in Hgood as [Hgood G4]. apply orb_false_elim in Hgood as [_ G3].
        assert (Nz : forall x : Scalar, seqb x s0 = false -> x <> s0) by (intros x Hx Z; apply seqb_eq in Z; congruence).
        split; [exact (Nz _ G3)|]. split; [exact (Nz _ G4)|]. split; [exact (Nz _ G5)|].
        apply RK; auto. now apply negb_false_iff in G6. }
  assert (Sum : forall ll, (forall cs, In cs ll -> length cs = d + 3) ->
     list_sum (map Rc ll) <= N * list_sum (map Sc ll) + list_sum (map (fun cs => count (fun u => bad (cs ++ u)) (words vals K)) ll) * length vals ^ K /\
     N * list_sum (map Sc ll) <= list_sum (map Rc ll) + list_sum (map (fun cs => count (fun u => bad (cs ++ u)) (words vals K)) ll) * length vals ^ K).
  { induction ll as [|cs ll IH]; intros Hl; [cbn; lia|]. cbn [map]. change (list_sum (?x :: ?r)) with (x + list_sum r).
    destruct IH as [I1 I2]; [intros; apply Hl; now right|]. destruct (One cs (Hl cs (or_introl eq_refl))) as [O1 O2].
    revert I1 I2 O1 O2. generalize (Rc cs), (Sc cs), (list_sum (map Rc ll)), (list_sum (map Sc ll)), (count (fun u => bad (cs ++ u)) (words vals K)),
      (list_sum (map (fun cs => count (fun u => bad (cs ++ u)) (words vals K)) ll)), (length vals ^ K), N. clear. intros. nia. }
  destruct (Sum (words vals (d + 3))) as [S1 S2]; [intros cs Hc; now apply words_In in Hc|].
  rewrite <- Er, <- Es, <- Eb in S1, S2.
  assert (Sl : count bad (words vals T) * length vals ^ K <= slack).
  { unfold slack. replace (d + 3 + (K + K) - 1) with ((T - 1) + K) by (unfold T, K; lia). rewrite Nat.pow_add_r, Nat.mul_assoc. now apply Nat.mul_le_mono_r. }
  lia.
Qed.
End C76b.

(** ** two witnesses of one statement *)
Section C76c.
Context {C : Crypto} {L : CryptoLaws C}.
Theorem C76_almzk_witness_indistinguishable (vals : list Scalar) tr d (g h : list Scalar) (q : Scalar) (B : Point) (a b a' b' : list Scalar)
    (cs0 u0 cs0' u0' : list Scalar) (test : list Scalar -> AlmZK -> bool) :
  let n := 2 ^ S d in let K := 2 * d + 4 in
  let G := mulB B g in let H := mulB B h in let Q := (q *: B)%P in
  2 <= d -> length g = n -> length h = n -> length a = n -> length b = n -> length a' = n -> length b' = n ->
  NoDup vals -> (forall x, In x vals) ->
  dotp a a <> s0 -> dotp b b <> s0 -> dotp a' a' <> s0 -> dotp b' b' <> s0 ->
  length cs0 = d + 3 -> length u0 = K -> zk_point d h a b q cs0 u0 ->
  length cs0' = d + 3 -> length u0' = K -> zk_point d h a' b' q cs0' u0' ->
  (comb a G + comb b H = comb a' G + comb b' H)%P -> dotp a b = dotp a' b' ->
  let runs := fun a b => count (fun w => let cs := firstn (d + 3) w in let u := skipn (d + 3) w in
      on_proof (test cs) (alm_zk_create (coins tr cs) (tape u) 0 tr G H Q (comb a G + comb b H)%P a b (dotp a b))) (words vals (d + 3 + (K + K))) in
  let slack := (3 * d + 7) * ((2 * d + 1) * (4 * n * n) + d + 5) * length vals ^ (d + 3 + (K + K) - 1) in
  runs a b <= runs a' b' + 2 * slack /\ runs a' b' <= runs a b + 2 * slack.
Proof.
  intros n K G H Q Hd Hg Hh Ha Hb Ha' Hb' HN HA N1 N2 N3 N4 Lc Lu Z Lc' Lu' Z' EC Et runs slack.
  assert (X := C76_almzk_statistical_zk vals tr d g h q B a b cs0 u0 test).
  assert (X' := C76_almzk_statistical_zk vals tr d g h q B a' b' cs0' u0' test).
  cbv zeta in X, X'. fold n K in X, X'. fold G H Q in X, X'. specialize (X Hd Hg Hh Ha Hb HN HA N1 N2 Lc Lu Z).
  specialize (X' Hd Hg Hh Ha' Hb' HN HA N3 N4 Lc' Lu' Z'). rewrite <- EC, <- Et in X'. unfold runs. rewrite <- EC, <- Et. fold slack in X, X'.
  destruct X as [X1 X2], X' as [X1' X2']. split.
  - eapply Nat.le_trans; [exact X1|]. eapply Nat.le_trans; [apply Nat.add_le_mono_r, X2'|]. lia.
  - eapply Nat.le_trans; [exact X1'|]. eapply Nat.le_trans; [apply Nat.add_le_mono_r, X2|]. lia.
Qed.
End C76c.

(** the same elimination on rows stored as lists, for the concrete cases *)
Section RankList.
Context {C : Crypto}.
Fixpoint pivotL (rows : list (list Scalar)) : option (list Scalar * list (list Scalar)) :=
  match rows with
  | [] => None
  | r :: rows => if seqb (sc r 0) s0 then match pivotL rows with Some (p, rest) => Some (p, r :: rest) | None => None end
                 else Some (r, rows)
  end.
Fixpoint full_rankL (K : nat) (rows : list (list Scalar)) : bool :=
  match K with
  | O => true
  | S K => match pivotL rows with
           | Some (p, rest) => full_rankL K (map (fun r => tab K (fun j => (sc p 0 * sc r (S j) - sc r 0 * sc p (S j))%S)) rest)
           | None => false end
  end.
Definition row_as (K : nat) (r : nat -> Scalar) (l : list Scalar) : Prop := forall j, j < K -> r j = sc l j.
Lemma pivotL_as K rows rl : Forall2 (row_as (S K)) rows rl ->
  match find_pivot rows, pivotL rl with
  | Some (p, rest), Some (pl, restl) => row_as (S K) p pl /\ Forall2 (row_as (S K)) rest restl
  | None, None => True | _, _ => False end.
Proof.
  induction 1 as [|r l rows rl H F IH]; [exact I|]. cbn [find_pivot pivotL]. rewrite (H 0) by apply Nat.lt_0_succ.
  destruct (seqb (sc l 0) s0); [|auto]. destruct (find_pivot rows) as [[p rest]|], (pivotL rl) as [[pl restl]|]; auto.
  destruct IH as [I1 I2]. split; auto.
Qed.
Lemma full_rankL_as K : forall rows rl, Forall2 (row_as K) rows rl -> full_rank K rows = full_rankL K rl.
Proof.
  induction K as [|K IH]; intros rows rl F; [reflexivity|]. cbn [full_rank full_rankL]. assert (X := pivotL_as K rows rl F).
  destruct (find_pivot rows) as [[p rest]|], (pivotL rl) as [[pl restl]|]; try easy. destruct X as [X1 X2]. apply IH. clear -X1 X2.
  induction X2 as [|r l rest restl H F IH]; constructor; auto. intros j Hj. unfold elim. rewrite sc_tab by exact Hj.
  rewrite !X1, !H by lia. reflexivity.
Qed.
Lemma full_rank_lists K rows : full_rankL K (map (fun r => tab K r) rows) = true -> full_rank K rows = true.
Proof.
  intros H. rewrite <- H. apply full_rankL_as. clear. induction rows as [|r rows IH]; constructor; auto.
  intros j Hj. now rewrite sc_tab.
Qed.
End RankList.

(** ** a concrete point, in the small field and in the field of the code *)
Definition g76 := map fN [1; 6; 1; 8; 0; 3; 3; 9]%Z.
Definition h76 := map fN [2; 7; 1; 8; 2; 8; 1; 8]%Z.
Definition a76 := map fN [1; 2; 3; 4; 5; 6; 7; 8]%Z.
Definition b76 := map fN [3; 1; 4; 1; 5; 9; 2; 6]%Z.
Definition x76 := map fN [11; 13; 17]%Z.
Definition u76 := map fN [21; 22; 33; 45; 51; 64; 70; 89]%Z.
Definition m76 := match sample_m_n_plus (tape u76) 0 8 with Ok (m, _) => m | _ => [] end.
Lemma m76_drawn : sample_m_n_plus (tape u76) 0 8 = Ok (m76, 8).
Proof.
  destruct (@mask_draws FS 0 2 (le_n 2)) as (src & HM & _). destruct (HM (tape u76)) as (m & E & _). unfold m76.
  change (2 ^ 3) with 8 in E. rewrite E. reflexivity.
Qed.
Definition e76 (be al : @Scalar FS) := tab 8 (fun i => sc h76 i + sinv al * fN 77 * sc (masked be a76 (away b76 m76)) i)%S.
Lemma hides76 : hides 2 x76 a76 (away a76 (away b76 m76)) (e76 (fN 5) (fN 7)).
Proof.
  apply (proj2 (@hides_rank FS FS_laws 2 x76 a76 (away a76 (away b76 m76)) (e76 (fN 5) (fN 7)) (sc (e76 (fN 5) (fN 7)))
           (le_n 2) eq_refl eq_refl (fun i _ => eq_refl))). apply full_rank_lists. vm_compute. reflexivity.
Qed.
(** with challenges 5, 7, 11, 13, 17 and the first mask u76, every outcome of a run on (a76, b76)
    is reached by exactly (1009 - 1)^2 times as many second masks as views of the simulated proof *)
Example C76_case_second_mask (test : @AlmZK FS -> bool) (B : @Point FS) :
  count (fun u2 => on_proof test (alm_zk_create (coins [] (fN 5 :: fN 7 :: x76)) (tape (u76 ++ u2)) 0 [] (mulB B g76) (mulB B h76)
           (fN 77 *: B)%P (comb a76 (mulB B g76) + comb b76 (mulB B h76))%P a76 b76 (dotp a76 b76))) (words all41 8) =
  (length all41 - 1) ^ 2 *
  count (fun ta => test (sim_proof 2 x76 g76 h76 (fN 77) B (fN 5) (fN 7) (comb a76 (mulB B g76) + comb b76 (mulB B h76))%P
           (dotp a76 b76) (last_a 2 x76 (masked (fN 5) a76 (away b76 m76))) ta)) (words all41 6).
Proof.
  assert (X := @C76_second_mask FS FS_laws all41 [] 2 g76 h76 (fN 77) B a76 b76 (fN 5) (fN 7) x76 u76 m76 test). cbv zeta in X.
  apply X; clear X.
  - apply le_n.
  - reflexivity.
  - reflexivity.
  - reflexivity.
  - reflexivity.
  - reflexivity.
  - apply all41_NoDup.
  - apply all41_all.
  - apply fs_neq. vm_compute. reflexivity.
  - intros x [<-|[<-|[<-|[]]]]; apply fs_neq; vm_compute; reflexivity.
  - reflexivity.
  - exact m76_drawn.
  - apply fs_neq. vm_compute. reflexivity.
  - apply fs_neq. vm_compute. reflexivity.
  - apply fs_neq. vm_compute. reflexivity.
  - apply fs_neq. vm_compute. reflexivity.
  - apply fs_neq. vm_compute. reflexivity.
  - exact hides76.
Qed.
(** a simulated proof for the same statement: its messages, and the verdict of the verifier *)
Definition sim76 := sim_proof 2 x76 g76 h76 (fN 77) (qN 1) (fN 5) (fN 7) (comb a76 (mulB (qN 1) g76) + comb b76 (mulB (qN 1) h76))%P
           (dotp a76 b76) [fN 40; fN 41] (map fN [1; 2; 3; 4; 5; 6]%Z).
Example C76_case_simulated :
  rmap fst (alm_zk_verify (coins [] (fN 5 :: fN 7 :: x76)) [] sim76 (mulB (qN 1) g76) (mulB (qN 1) h76) (fN 77 *: qN 1)%P 8
     (comb a76 (mulB (qN 1) g76) + comb b76 (mulB (qN 1) h76))%P (dotp a76 b76)) = Ok true /\
  rmap fst (alm_zk_verify (coins [] (fN 6 :: fN 7 :: x76)) [] sim76 (mulB (qN 1) g76) (mulB (qN 1) h76) (fN 77 *: qN 1)%P 8
     (comb a76 (mulB (qN 1) g76) + comb b76 (mulB (qN 1) h76))%P (dotp a76 b76)) = Ok false.
Proof. split; vm_compute; reflexivity. Qed.

(** the same point in the scalar field of the code *)
Definition sh76 := map sN [2; 7; 1; 8; 2; 8; 1; 8]%Z.
Definition sa76 := map sN [1; 2; 3; 4; 5; 6; 7; 8]%Z.
Definition sb76 := map sN [3; 1; 4; 1; 5; 9; 2; 6]%Z.
Definition sx76 := map sN [11; 13; 17]%Z.
Definition su76 := map sN [21; 22; 33; 45; 51; 64; 70; 89]%Z.
Definition sm76 := match sample_m_n_plus (tape su76) 0 8 with Ok (m, _) => m | _ => [] end.
Lemma sm76_drawn : sample_m_n_plus (tape su76) 0 8 = Ok (sm76, 8).
Proof.
  destruct (@mask_draws EX 0 2 (le_n 2)) as (src & HM & _). destruct (HM (tape su76)) as (m & E & _). unfold sm76.
  change (2 ^ 3) with 8 in E. rewrite E. reflexivity.
Qed.
Lemma zs_neq (x y : @Scalar EX) : Z.eqb (zs x) (zs y) = false -> x <> y.
Proof. intros H E. rewrite E, Z.eqb_refl in H. discriminate. Qed.
Example C76_case_point : @zk_point EX 2 sh76 sa76 sb76 (sN 77) (sN 5 :: sN 7 :: sx76) su76.
Proof.
  unfold zk_point. cbv zeta. split; [|split; [|split]].
  - apply zs_neq. vm_compute. reflexivity.
  - intros x [<-|[<-|[<-|[]]]]; apply zs_neq; vm_compute; reflexivity.
  - exists 0, 7. split; [|split; [|split; [|split]]].
    + apply Nat.ltb_lt. reflexivity.
    + apply Nat.ltb_lt. reflexivity.
    + apply (mask_positions_In 2 0 (le_n 2)). vm_compute. auto.
    + apply (mask_positions_In 2 7 (le_n 2)). vm_compute. auto 20.
    + apply zs_neq. vm_compute. reflexivity.
  - exists sm76, 8. split; [exact sm76_drawn|]. split; [|split; [|split]].
    + apply zs_neq. vm_compute. reflexivity.
    + apply zs_neq. vm_compute. reflexivity.
    + apply zs_neq. vm_compute. reflexivity.
    + set (e := tab _ _).
      apply (proj2 (@hides_rank EX EX_laws 2 (skipn 2 (sN 5 :: sN 7 :: sx76)) sa76 (away sa76 (away sb76 sm76)) e (sc e)
           (le_n 2) eq_refl eq_refl (fun i _ => eq_refl))). apply full_rank_lists. vm_compute. reflexivity.
Qed.
(** over a field of 50 bits (vals is a complete list of it): a test that looks at the
    challenges and the proof cannot tell the 21-word runs from the simulated ones beyond
    16731 parts in |vals| *)
Example C76_case_field (vals : list (@Scalar EX)) (HN : NoDup vals) (HA : forall x, In x vals) (g : list Scalar) (B : Point)
    (test : list Scalar -> AlmZK -> bool) : length g = 8 ->
  let Cw := (comb sa76 (mulB B g) + comb sb76 (mulB B sh76))%P in
  let real := count (fun w => let cs := firstn 5 w in let u := skipn 5 w in
      on_proof (test cs) (alm_zk_create (coins [] cs) (tape u) 0 [] (mulB B g) (mulB B sh76) (sN 77 *: B)%P Cw sa76 sb76 (dotp sa76 sb76)))
      (words vals 21) in
  let sim := count (fun w => let cs := firstn 5 w in let v := skipn 5 w in
      test cs (sim_proof 2 (skipn 2 cs) g sh76 (sN 77) B (sc cs 0) (sc cs 1) Cw (dotp sa76 sb76) (firstn 2 v) (skipn 2 v))) (words vals 13) in
  let N := (length vals - 1) ^ 2 * length vals ^ 6 in
  let slack := 13 * 1287 * length vals ^ 20 in
  real <= N * sim + slack /\ N * sim <= real + slack.
Proof.
  intros Hg Cw real sim N slack.
  assert (X := @C76_almzk_statistical_zk EX EX_laws vals [] 2 g sh76 (sN 77) B sa76 sb76 (sN 5 :: sN 7 :: sx76) su76 test).
  cbv zeta in X.
  apply X; clear X; auto.
  - apply zs_neq. vm_compute. reflexivity.
  - apply zs_neq. vm_compute. reflexivity.
  - exact C76_case_point.
Qed.
