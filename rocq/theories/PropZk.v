(** C76: honest-verifier zero-knowledge of the almost zero-knowledge inner product argument
    from size 8 on, as exact counts of random tapes. *)
From Coq Require Import String Permutation.
From Verif Require Export ZkMask.
From Verif Require Import Ex ExSmall.
Local Open Scope string_scope.
Local Open Scope nat_scope.
Local Open Scope list_scope.

(** counts of words *)
Section CountMore.
Context {A : Type}.
(** an injective map of words of length K *)
Lemma count_inj (vals : list A) K (f : list A -> list A) (P : list A -> bool) :
  NoDup vals -> (forall x, In x vals) ->
  (forall r, length r = K -> length (f r) = K) ->
  (forall r r', length r = K -> length r' = K -> f r = f r' -> r = r') ->
  count (fun r => P (f r)) (words vals K) = count P (words vals K).
Proof.
  intros HN HA Hf Hi. rewrite <- count_map. apply count_perm.
  assert (HW : forall r, In r (words vals K) <-> length r = K).
  { intros r. rewrite words_In. split; [tauto|]. intros H. split; auto. apply Forall_forall. auto. }
  apply NoDup_Permutation_bis.
  - assert (Y : forall l, (forall r, In r l -> length r = K) -> NoDup l -> NoDup (map f l)).
    { clear -Hi. induction l as [|r l IH]; intros HK Hl; cbn; [constructor|]. inversion Hl; subst. constructor.
      - intros Z. apply in_map_iff in Z as (r' & E & Hr'). apply Hi in E; [now subst|apply HK; now right|apply HK; now left].
      - apply IH; auto. intros r' Hr'. apply HK. now right. }
    apply Y; [intros r Hr; now apply HW|now apply words_NoDup].
  - now rewrite map_length.
  - intros r Hr. apply in_map_iff in Hr as (r' & <- & Hr'). apply HW, Hf. now apply HW.
Qed.
(** independent parts *)
Lemma count_and (vals : list A) K1 K2 (f g : list A -> bool) :
  count (fun u => f (firstn K1 u) && g (skipn K1 u)) (words vals (K1 + K2)) = count f (words vals K1) * count g (words vals K2).
Proof.
  rewrite count_words_app. 
  assert (E : forall l, (forall u, In u l -> length u = K1) ->
     list_sum (map (fun u => count (fun v => f (firstn K1 (u ++ v)) && g (skipn K1 (u ++ v))) (words vals K2)) l) =
     count f l * count g (words vals K2)).
  { induction l as [|u l IH]; intros Hl; [reflexivity|]. cbn [map]. change (list_sum (?x :: ?r)) with (x + list_sum r).
    rewrite IH by (intros; apply Hl; now right). rewrite count_cons.
    assert (Hu : length u = K1) by (apply Hl; now left).
    rewrite (count_ext _ (fun v => f u && g v)).
    2:{ intros v _. rewrite firstn_app, skipn_app, Hu, Nat.sub_diag. cbn [firstn skipn]. rewrite app_nil_r.
        rewrite <- Hu, firstn_all, skipn_all. reflexivity. }
    destruct (f u); cbn [andb].
    - change ((1 + count f l) * count g (words vals K2)) with (count g (words vals K2) + count f l * count g (words vals K2)). reflexivity.
    - rewrite (count_none (fun _ => false)) by auto. reflexivity. }
  apply E. intros u Hu. now apply words_In in Hu.
Qed.
End CountMore.

Section Sim.
Context {C : Crypto}.
(** a proof made without the vectors: the rounds and the response come from the two entries
    al of the first vector and the view ta, C_r is what makes the verifier's equation true *)
Definition sim_proof (d : nat) (xs g h : list Scalar) (q : Scalar) (B : Point) (beta alpha : Scalar) (Cw : Point) (t : Scalar)
    (al ta : list Scalar) : AlmZK :=
  let n := 2 ^ S d in
  let '(rs, (a0, b0)) := expand d xs g h (sinv alpha * q)%S al ta in
  let ps := mulBB B rs in
  let last := (a0 *: sum_P n (fun i => coefG (S d) xs i *: pt (mulB B g) i) + b0 *: sum_P n (fun i => coefH (S d) xs i *: pt (mulB B h) i)
               + (a0 * b0)%S *: ((sinv alpha * q)%S *: B))%P in
  let Cr := (unfoldP (combine ps xs) last - (beta * beta * t)%S *: ((sinv alpha * q)%S *: B) - beta *: Cw)%P in
  mkAlmZK (compress Cr) (mkNoZK (map (fun p => compress (fst p)) ps) (map (fun p => compress (snd p)) ps) a0 b0).
(** the first vector after masking *)
Definition masked (beta : Scalar) (a r : list Scalar) : list Scalar := tab (length a) (fun i => beta * sc a i + sc r i)%S.
(** the only direction on the mask positions that is orthogonal to a and to ob and changes
    none of the messages is zero *)
Definition hides (d : nat) (xs a ob e : list Scalar) : Prop :=
  forall y, length y = 2 ^ S d -> (forall i, i < 2 ^ S d -> ~ in_mn_plus (2 ^ S d) i -> sc y i = s0) ->
    dotp a y = s0 -> dotp ob y = s0 -> silent d xs e y -> forall i, i < 2 ^ S d -> sc y i = s0.
Definition on_proof {X Y} (f : X -> bool) (r : res (X * Y * nat)) : bool := match r with Ok (p, _, _) => f p | _ => false end.
End Sim.

Section C76.
Context {C : Crypto} {L : CryptoLaws C}.
Add Field SfC76 : (@S_field C L).

Lemma app_inv_length {A} (l1 l2 r1 r2 : list A) : length l1 = length l2 -> l1 ++ r1 = l2 ++ r2 -> l1 = l2 /\ r1 = r2.
Proof.
  revert l2. induction l1 as [|x l1 IH]; intros [|y l2] Hl E; try discriminate; [auto|].
  injection Hl as Hl. injection E as -> E. destruct (IH l2 Hl E) as [-> ->]. auto.
Qed.
Lemma masked_map2 beta (a r : list Scalar) : length a = length r ->
  map2 (fun a r => beta * a + r)%S a r = masked beta a r.
Proof.
  intros Hl. apply (tab_eq s0); [rewrite map2_length; lia|]. intros i Hi. rewrite (map2_nth _ _ _ _ s0 s0) by lia. reflexivity.
Qed.
Lemma alm_create_forward ro rng pos tr G H Q Cw a b t n m1 p1 m2 p2 :
  length G = n -> length H = n -> length a = n -> length b = n ->
  sample_m_n_plus rng pos n = Ok (m1, p1) -> sample_m_n_plus rng p1 n = Ok (m2, p2) -> alm_draws_ok a b m1 m2 ->
  let r1 := away b m1 in let r2 := away (away a r1) (away a m2) in
  let Cr := (lin r1 G + lin r2 H)%P in
  let beta := ro (alm_beta_hist tr (compress Cr)) in
  alm_zk_create ro rng pos tr G H Q Cw a b t =
  ('(nz, tr') <- no_zk_create ro (alm_ipa_hist tr (compress Cr) (alm_P beta t Cw Cr Q)) G H Q (masked beta a r1) (masked beta b r2) ;;
   Ok (mkAlmZK (compress Cr) nz, tr', p2)).
Proof.
  intros HG HH Ha Hb M1 M2 (N1 & N2 & N3 & N4) r1 r2 Cr beta.
  assert (Lm1 := sample_m_n_plus_length _ _ _ _ _ M1). assert (Lm2 := sample_m_n_plus_length _ _ _ _ _ M2).
  unfold alm_zk_create, sample_gram_schmidt_twice, sample_gram_schmidt. rewrite Ha, Hb, M1. cbn [bind].
  rewrite (orth_away b m1) by (auto; lia). cbn [bind].
  rewrite (orth_away a (away b m1)) by (auto; rewrite away_length; lia). cbn [bind]. rewrite M2. cbn [bind].
  rewrite (orth_away a m2) by (auto; lia). cbn [bind].
  rewrite (orth_away (away a (away b m1))) by (auto; rewrite !away_length; lia). cbn [bind].
  fold r1. fold r2. rewrite msm_Ok by (unfold r1, r2; rewrite !app_length, !away_length; lia). cbn [bind].
  rewrite lin_app by (unfold r1; rewrite away_length; lia). fold Cr. unfold append_message, challenge_scalar.
  replace ((tr ++ [EvMsg "C_r" (compress Cr)]) ++ [EvChal "beta"]) with (alm_beta_hist tr (compress Cr))
    by (unfold alm_beta_hist; now rewrite <- app_assoc). fold beta.
  rewrite !masked_map2 by (unfold r1, r2; rewrite !away_length; lia). reflexivity.
Qed.

Lemma away_vdiff (a x y : list Scalar) : length x = length a -> length y = length a ->
  away a (vdiff x y) = vdiff (away a x) (away a y).
Proof.
  intros Hx Hy. assert (D : dotp a (vdiff x y) = (dotp a x - dotp a y)%S).
  { unfold dotp. rewrite <- sum_S_sub. apply sum_S_ext. intros i Hi. unfold vdiff. rewrite sc_tab by lia. ring. }
  symmetry. apply (tab_eq s0); [unfold vdiff; now rewrite tab_length, away_length|]. intros i Hi.
  unfold vdiff at 1. rewrite tab_nth by (rewrite away_length; exact Hi). unfold away. rewrite !sc_tab by auto. rewrite D.
  unfold vdiff. rewrite sc_tab by lia. ring.
Qed.
Lemma away_orthogonal (a y : list Scalar) : length y = length a -> dotp a y = s0 -> away a y = y.
Proof.
  intros Hl Z. symmetry. apply (tab_eq s0); [exact Hl|]. intros i Hi. rewrite Z. unfold sc. ring.
Qed.
Lemma vdiff_zero (x y : list Scalar) n : length x = n -> length y = n -> (forall i, i < n -> sc (vdiff x y) i = s0) -> x = y.
Proof.
  intros Hx Hy H. apply (list_eq_nth s0); [lia|]. intros i Hi. specialize (H i ltac:(lia)). unfold vdiff in H.
  rewrite sc_tab in H by lia. now apply ssub_0 in H.
Qed.
Lemma dotp_vdiff (a x y : list Scalar) : length x = length a -> dotp a (vdiff x y) = (dotp a x - dotp a y)%S.
Proof.
  intros Hx. unfold dotp. rewrite <- sum_S_sub. apply sum_S_ext. intros i Hi. unfold vdiff. rewrite sc_tab by lia. ring.
Qed.
Lemma masked_vdiff beta (b r r' : list Scalar) : length r = length b ->
  vdiff (masked beta b r) (masked beta b r') = vdiff r r'.
Proof.
  intros Hr. symmetry. apply (tab_eq s0); [unfold vdiff, masked; rewrite !tab_length; exact Hr|].
  unfold masked at 1. rewrite tab_length. intros i Hi. unfold vdiff. rewrite tab_nth by lia. unfold masked. rewrite !sc_tab by lia. ring.
Qed.
Lemma count_nonzero (vals : list Scalar) : NoDup vals -> (forall x, In x vals) ->
  count (fun v => negb (seqb v s0)) vals = length vals - 1.
Proof.
  intros HN HA. destruct (in_split s0 vals (HA s0)) as (l1 & l2 & E). 
  assert (X := HN). rewrite E in X. apply NoDup_remove_2 in X. rewrite E. rewrite count_app, count_cons.
  assert (Y : forall l, (forall x, In x l -> x <> s0) -> count (fun v => negb (seqb v s0)) l = length l).
  { induction l as [|x l IH]; intros Hl; [reflexivity|]. rewrite count_cons, IH by (intros; apply Hl; now right).
    destruct (seqb x s0) eqn:Z; [|reflexivity]. apply seqb_eq in Z. exfalso. apply (Hl x); [now left|exact Z]. }
  rewrite !Y; [|intros x Hx ->; apply X; apply in_or_app; auto|intros x Hx ->; apply X; apply in_or_app; auto].
  assert (Z : seqb s0 s0 = true) by now apply seqb_eq. rewrite Z. rewrite app_length. cbn. lia.
Qed.
Lemma count_two_nonzero (vals : list Scalar) : NoDup vals -> (forall x, In x vals) ->
  count (fun w => negb (seqb (sc w 0) s0) && negb (seqb (sc w 1) s0)) (words vals 2) = (length vals - 1) ^ 2.
Proof.
  intros HN HA. change 2 with (1 + 1) at 1.
  rewrite (count_ext _ (fun w => negb (seqb (sc (firstn 1 w) 0) s0) && negb (seqb (sc (skipn 1 w) 0) s0))).
  2:{ intros w Hw. apply words_In in Hw as [Hw _]. destruct w as [|x [|y [|]]]; try discriminate. reflexivity. }
  rewrite (count_and vals 1 1 (fun w => negb (seqb (sc w 0) s0)) (fun w => negb (seqb (sc w 0) s0))).
  assert (E : count (fun w => negb (seqb (sc w 0) s0)) (words vals 1) = length vals - 1).
  { rewrite <- count_nonzero by auto. cbn [words]. clear. induction vals as [|v vs IH]; [reflexivity|].
    cbn [flat_map map app] in *. rewrite !count_cons. now rewrite IH. }
  rewrite E. cbn. lia.
Qed.

(** the first mask fixed, the second one drawn *)
Theorem C76_second_mask (vals : list Scalar) tr d (g h : list Scalar) (q : Scalar) (B : Point) (a b : list Scalar)
    (beta alpha : Scalar) (xs u1 m1 : list Scalar) (test : AlmZK -> bool) :
  let n := 2 ^ S d in
  let G := mulB B g in let H := mulB B h in let Q := (q *: B)%P in
  let Cw := (comb a G + comb b H)%P in
  let r1 := away b m1 in let ob := away a r1 in
  let am := masked beta a r1 in
  2 <= d -> length g = n -> length h = n -> length a = n -> length b = n -> length xs = S d ->
  NoDup vals -> (forall x, In x vals) ->
  alpha <> s0 -> (forall x, In x xs -> x <> s0) ->
  length u1 = 2 * d + 4 -> sample_m_n_plus (tape u1) 0 n = Ok (m1, 2 * d + 4) ->
  dotp b m1 <> s0 -> dotp a r1 <> s0 -> dotp a a <> s0 -> dotp b b <> s0 -> dotp ob ob <> s0 ->
  hides d xs a ob (tab n (fun i => sc h i + sinv alpha * q * sc am i)%S) ->
  count (fun u2 => on_proof test (alm_zk_create (coins tr (beta :: alpha :: xs)) (tape (u1 ++ u2)) 0 tr G H Q Cw a b (dotp a b)))
        (words vals (2 * d + 4)) =
  (length vals - 1) ^ 2 *
  count (fun ta => test (sim_proof d xs g h q B beta alpha Cw (dotp a b) (last_a d xs am) ta)) (words vals (2 * d + 2)).
Proof.
  intros n G H Q Cw r1 ob am Hd Hg Hh Ha Hb Hxs HN HA Hal Hx Hu1 M1 N1 N2 Naa Nbb Noo Hh1.
  set (q' := (sinv alpha * q)%S) in *. set (e := tab n (fun i => (sc h i + q' * sc am i)%S)) in *.
  set (K := 2 * d + 4).
  assert (Lm1 := sample_m_n_plus_length _ _ _ _ _ M1).
  assert (Lr1 : length r1 = n) by (unfold r1; now rewrite away_length).
  assert (Lob : length ob = n) by (unfold ob; now rewrite away_length).
  assert (Lam : length am = n) by (unfold am, masked; now rewrite tab_length).
  assert (LG : length G = n) by (unfold G; now rewrite mulB_length).
  assert (LH : length H = n) by (unfold H; now rewrite mulB_length).
  assert (Hcs : forall i, sc (beta :: alpha :: xs) (S (S i)) = sc xs i) by reflexivity.
  (* the masks *)
  destruct (mask_draws K d Hd) as (src & HM & Hsrc & _). fold n in HM, Hsrc.
  assert (M1' : forall u2, sample_m_n_plus (tape (u1 ++ u2)) 0 n = Ok (m1, K)).
  { intros u2. destruct (mask_draws 0 d Hd) as (s0' & H0 & _). fold n in H0.
    destruct (H0 (tape (u1 ++ u2))) as (m & E & Lm & X1 & X2). destruct (H0 (tape u1)) as (m' & E' & Lm' & X1' & X2').
    rewrite M1 in E'. injection E' as <-. rewrite E. do 2 f_equal. apply (list_eq_nth s0); [lia|]. intros i Hi.
    change (sc m i = sc m1 i). destruct (in_mn_plus_dec n i) as [Mi|Mi].
    - destruct (X1 i ltac:(lia) Mi) as [-> R]. destruct (X1' i ltac:(lia) Mi) as [-> _]. unfold tape. now rewrite app_nth1 by lia.
    - rewrite X2, X2' by (auto; lia). reflexivity. }
  set (msk u2 := match sample_m_n_plus (tape (u1 ++ u2)) K n with Ok (m, _) => m | _ => [] end).
  assert (MS : forall u2, length u2 = K ->
      sample_m_n_plus (tape (u1 ++ u2)) K n = Ok (msk u2, K + 2 * d + 4) /\ length (msk u2) = n /\
      (forall i, i < n -> in_mn_plus n i -> sc (msk u2) i = sc u2 (src i - K)) /\
      (forall i, i < n -> ~ in_mn_plus n i -> sc (msk u2) i = s0)).
  { intros u2 Hu2. unfold msk. destruct (HM (tape (u1 ++ u2))) as (m & E & Lm & X1 & X2). rewrite E.
    split; [reflexivity|]. split; [exact Lm|]. split; auto.
    intros i Hi Mi. destruct (X1 i Hi Mi) as [-> R]. unfold tape, sc. rewrite app_nth2 by lia. f_equal. lia. }
  set (r2 u2 := away ob (away a (msk u2))). set (bm u2 := masked beta b (r2 u2)).
  assert (Lr2 : forall u2, length (r2 u2) = n) by (intros; unfold r2; now rewrite away_length).
  assert (Lbm : forall u2, length (bm u2) = n) by (intros; unfold bm, masked; now rewrite tab_length).
  set (Phi u2 := tview d xs g h q' am (bm u2) ++ [dotp a (msk u2); dotp ob (msk u2)]).
  assert (Oao : dotp a ob = s0) by (unfold ob; apply dotp_away; [lia|auto]).
  assert (Ooa : dotp ob a = s0) by (rewrite dotp_comm; [exact Oao|lia]).
  assert (Dob : forall u2, length u2 = K -> dotp ob (away a (msk u2)) = dotp ob (msk u2)).
  { intros u2 Hu2. destruct (MS u2 Hu2) as (_ & Lm & _). rewrite dotp_away_any by lia. rewrite Ooa. ring. }
  (* one run *)
  assert (Run : forall u2, length u2 = K ->
     on_proof test (alm_zk_create (coins tr (beta :: alpha :: xs)) (tape (u1 ++ u2)) 0 tr G H Q Cw a b (dotp a b)) =
     test (sim_proof d xs g h q B beta alpha Cw (dotp a b) (last_a d xs am) (firstn (2 * d + 2) (Phi u2))) &&
     (fun w => negb (seqb (sc w 0) s0) && negb (seqb (sc w 1) s0)) (skipn (2 * d + 2) (Phi u2))).
  { intros u2 Hu2. destruct (MS u2 Hu2) as (M2 & Lm2 & X1 & X2).
    unfold Phi. rewrite firstn_app, skipn_app, tview_length, Nat.sub_diag. cbn [firstn skipn]. rewrite app_nil_r.
    rewrite <- (tview_length d xs g h q' am (bm u2)), firstn_all, skipn_all. cbn [app].
    change (sc [dotp a (msk u2); dotp ob (msk u2)] 0) with (dotp a (msk u2)).
    change (sc [dotp a (msk u2); dotp ob (msk u2)] 1) with (dotp ob (msk u2)).
    destruct (seqb (dotp a (msk u2)) s0 || seqb (dotp ob (msk u2)) s0) eqn:Z.
    - (* panic *)
      rewrite <- negb_orb, Z. cbn [negb]. rewrite andb_false_r.
      rewrite create_panics; [reflexivity| |apply alm_no_divergence].
      intros X. apply (C59_almzk_create_returns_iff _ _ _ _ _ _ _ _ _ _ _ n) in X as (d' & m1' & p1 & m2' & p2 & _ & Y1 & Y2 & Y3 & Y4 & Y5 & Y6); auto.
      rewrite M1' in Y1. injection Y1 as <- <-. rewrite M2 in Y2. injection Y2 as <- <-. fold r1 ob in Y6.
      rewrite Dob in Y6 by auto. apply orb_prop in Z as [Z|Z]; apply seqb_eq in Z; contradiction.
    - rewrite <- negb_orb, Z. cbn [negb]. rewrite andb_true_r. apply orb_false_elim in Z as [Z1 Z2].
      assert (N3 : dotp a (msk u2) <> s0) by (intros Z; apply seqb_eq in Z; congruence).
      assert (N4 : dotp ob (msk u2) <> s0) by (intros Z; apply seqb_eq in Z; congruence).
      rewrite (alm_create_forward _ _ _ _ _ _ _ _ _ _ _ n m1 K (msk u2) (K + 2 * d + 4)); auto.
      2:{ unfold alm_draws_ok. fold r1 ob. rewrite Dob by auto. auto. }
      fold r1 ob. fold (r2 u2). set (Cr := (lin r1 G + lin (r2 u2) H)%P).
      rewrite (coins_is 0 tr _ _ beta) by (reflexivity || (unfold alm_beta_hist; rewrite nchal_app; cbn; lia)).
      fold am. fold (bm u2). set (tr1 := alm_ipa_hist tr _ _).
      assert (Ntr1 : nchal tr1 = nchal tr + 1) by (unfold tr1, alm_ipa_hist, alm_beta_hist; rewrite !nchal_app; cbn; lia).
      unfold no_zk_create. rewrite LG, LH, Lam, Lbm, Nat.eqb_refl. cbn [assertb bind].
      assert (P2 : is_power_of_two n = true) by (unfold n; apply is_power_of_two_spec; eauto). rewrite P2. cbn [assertb bind].
      unfold append_u64, challenge_scalar.
      rewrite (coins_is 1 tr _ _ alpha) by (reflexivity || (rewrite !nchal_app; cbn; lia)).
      set (tr2 := (tr1 ++ _) ++ _).
      assert (Ntr2 : nchal tr2 = nchal tr + 2) by (unfold tr2; rewrite !nchal_app; cbn; lia).
      destruct (loop_view (coins tr (beta :: alpha :: xs)) (sinv alpha *: Q)%P (S d) (S n) tr2 xs G H am (bm u2) [] [])
        as ((tr' & Hc) & Hl & Heq); auto.
      { unfold n. apply Nat.lt_lt_succ_r. apply Nat.pow_gt_lin_r. lia. }
      { intros q0 LRs HLR. rewrite (coins_is (S (S (length LRs))) tr _ _ (sc xs (length LRs))); auto.
        rewrite nchal_app, nchal_rounds. cbn [length]. lia. }
      fold n in Hc. rewrite Hc. cbn [bind on_proof app]. f_equal.
      assert (EQ : (sinv alpha *: Q)%P = (q' *: B)%P) by (unfold q', Q; pring).
      rewrite EQ in *.
      destruct (pairs_expand B d xs g h q' am (bm u2)) as [E1 E2]; auto. fold G H in E1.
      rewrite E1, E2 in *. unfold sim_proof. fold q'.
      destruct (expand d xs g h q' (last_a d xs am) (tview d xs g h q' am (bm u2))) as [rs [a0 b0]]. cbn [fst snd] in *.
      assert (El : length (mulBB B rs) = S d) by exact Hl.
      f_equal. f_equal.
      rewrite foldG_closed in Heq by (rewrite Hxs; auto). rewrite foldH_closed in Heq by (rewrite Hxs; auto). rewrite Hxs in Heq.
      fold n. fold n in Heq. fold G H. rewrite Heq. rewrite unfoldP_foldP.
      2:{ intros x Hix. apply Hx. apply in_map_iff in Hix as ([p y] & <- & Hi). now apply in_combine_r in Hi. }
      assert (Ed : dot am (bm u2) = (beta * beta * dotp a b)%S).
      { rewrite (dot_sum _ _ n) by auto.
        assert (D1 : dotp a (r2 u2) = s0).
        { unfold r2. rewrite dotp_away_any by (rewrite ?away_length; lia). rewrite dotp_away by (auto; lia). rewrite Oao. ring. }
        assert (D2 : dotp b r1 = s0) by (unfold r1; apply dotp_away; auto; lia).
        assert (D3 : dotp r1 (r2 u2) = s0).
        { assert (D3 : dotp ob (r2 u2) = s0) by (unfold r2; apply dotp_away; auto; rewrite away_length; lia).
          assert (E3 : dotp (r2 u2) ob = s0) by (rewrite dotp_comm by (rewrite Lr2; lia); exact D3).
          unfold ob in E3. rewrite dotp_away_any in E3 by (rewrite ?Lr2; lia).
          rewrite (dotp_comm (r2 u2) a) in E3 by (rewrite Lr2; lia). rewrite D1 in E3.
          rewrite dotp_comm by (rewrite Lr2; lia). rewrite <- E3. ring. }
        unfold dotp in D1, D2, D3 |- *. rewrite Ha in D1 |- *. rewrite Hb in D2. rewrite Lr1 in D3.
        rewrite (sum_S_ext _ _ (fun i => (beta * beta) * (sc a i * sc b i) + (beta * (sc a i * sc (r2 u2) i) + (beta * (sc b i * sc r1 i) + sc r1 i * sc (r2 u2) i)))%S).
        - rewrite !sum_S_add, !sum_S_mul, D1, D2, D3. ring.
        - intros i Hi. unfold am, bm, masked. rewrite !sc_tab by lia. ring. }
      unfold ipa_com. rewrite Ed.
      assert (LA : lin am G = (beta *: comb a G + lin r1 G)%P).
      { unfold am. rewrite <- masked_map2, lin_masked, lin_comb by lia. reflexivity. }
      assert (LB : lin (bm u2) H = (beta *: comb b H + lin (r2 u2) H)%P).
      { unfold bm. rewrite <- masked_map2, lin_masked, lin_comb by (rewrite ?Lr2; lia). reflexivity. }
      rewrite LA, LB. unfold Cr, Cw. pring. }
  set (F := fun w => test (sim_proof d xs g h q B beta alpha Cw (dotp a b) (last_a d xs am) (firstn (2 * d + 2) w)) &&
      (fun w => negb (seqb (sc w 0) s0) && negb (seqb (sc w 1) s0)) (skipn (2 * d + 2) w)).
  rewrite (count_ext _ (fun u2 => F (Phi u2))).
  2:{ intros u2 Hu2. apply words_In in Hu2 as [Hu2 _]. now apply Run. }
  rewrite (count_inj vals K Phi F); auto.
  - unfold K, F. replace (2 * d + 4) with ((2 * d + 2) + 2) by lia.
    rewrite (count_and vals (2 * d + 2) 2 (fun ta => test (sim_proof d xs g h q B beta alpha Cw (dotp a b) (last_a d xs am) ta))
      (fun w => negb (seqb (sc w 0) s0) && negb (seqb (sc w 1) s0))).
    rewrite count_two_nonzero by auto. lia.
  - intros u2 _. unfold Phi. rewrite app_length, tview_length. cbn. unfold K. lia.
  - intros u2 u2' Hu Hu' E. destruct (MS u2 Hu) as (M2 & Lm2 & X1 & X2). destruct (MS u2' Hu') as (M2' & Lm2' & X1' & X2').
    unfold Phi in E. apply app_inv_length in E as [E1 E2]; [|now rewrite !tview_length]. injection E2 as E2 E3.
    apply tview_silent in E1; auto. fold n in E1. fold e in E1.
    set (y := vdiff (msk u2) (msk u2')).
    assert (Ly : length y = n) by (unfold y, vdiff; now rewrite tab_length).
    assert (Y1 : dotp a y = s0) by (unfold y; rewrite dotp_vdiff by lia; rewrite E2; ring).
    assert (Y2 : dotp ob y = s0) by (unfold y; rewrite dotp_vdiff by lia; rewrite E3; ring).
    assert (Eb : vdiff (bm u2) (bm u2') = y).
    { unfold bm. rewrite masked_vdiff by (rewrite Lr2; lia). unfold r2. rewrite <- !away_vdiff by (rewrite ?away_length; lia).
      fold y. rewrite (away_orthogonal a) by (auto; lia). apply away_orthogonal; auto; lia. }
    rewrite Eb in E1.
    assert (Z : forall i, i < n -> sc y i = s0).
    { apply Hh1; auto. intros i Hi Mi. unfold y, vdiff. rewrite sc_tab by lia. fold n in Hi, Mi. rewrite X2, X2' by auto. ring. }
    assert (Em := vdiff_zero _ _ n Lm2 Lm2' Z).
    apply (list_eq_nth s0); [lia|]. intros k Hk. rewrite Hu in Hk.
    destruct (Hsrc (K + k)) as (i & Hi & Mi & Ei); [unfold K in *; lia|].
    assert (W := X1 i Hi Mi). assert (W' := X1' i Hi Mi). rewrite Em, W' in W. rewrite Ei in W.
    replace (K + k - K) with k in W by lia. now symmetry.
Qed.

(** ** simulated proofs are accepted *)
Lemma expand_length d : forall xs g h q al ta, length (fst (expand d xs g h q al ta)) = S d.
Proof.
  induction d as [|d IH]; intros; [reflexivity|]. cbn [expand].
  specialize (IH (tl xs) (fold_lo (hd s0 xs) (2 ^ S d) g) (fold_hi (hd s0 xs) (2 ^ S d) h) q al (tl (tl ta))).
  destruct (expand d (tl xs) _ _ q al (tl (tl ta))) as [rs fin]. cbn [fst length] in *. now rewrite IH.
Qed.
Lemma decompress_map (f : Point * Point -> Point) ps :
  Forall2 (fun c P => decompress c = Some P) (map (fun p => compress (f p)) ps) (map f ps).
Proof. induction ps as [|p ps IH]; cbn; constructor; auto. apply decompress_compress. Qed.

Theorem C76_simulated_accepted tr d (g h : list Scalar) (q : Scalar) (B Cw : Point) (t beta alpha : Scalar) (xs al ta : list Scalar) :
  let n := 2 ^ S d in
  length g = n -> length h = n -> length xs = S d -> alpha <> s0 -> (forall x, In x xs -> x <> s0) ->
  exists tr', alm_zk_verify (coins tr (beta :: alpha :: xs)) tr (sim_proof d xs g h q B beta alpha Cw t al ta)
                (mulB B g) (mulB B h) (q *: B)%P n Cw t = Ok (true, tr').
Proof.
  intros n Hg Hh Hxs Hal Hx. unfold sim_proof. fold n. assert (Le := expand_length d xs g h (sinv alpha * q)%S al ta).
  destruct (expand d xs g h (sinv alpha * q)%S al ta) as [rs [a0 b0]]. cbn [fst] in Le.
  set (ps := mulBB B rs). assert (Lp : length ps = S d) by (unfold ps, mulBB; now rewrite map_length).
  set (last := (_ + _ + _)%P). set (Cr := (unfoldP (combine ps xs) last - _ - _)%P).
  set (pf := mkAlmZK _ _). set (Q := (q *: B)%P).
  assert (Ebeta : coins tr (beta :: alpha :: xs) (alm_beta_hist tr (C_r pf)) = beta).
  { apply (coins_is 0); [reflexivity|]. unfold alm_beta_hist. rewrite nchal_app. cbn. lia. }
  assert (V := alm_verify_eq (coins tr (beta :: alpha :: xs)) tr pf (mulB B g) (mulB B h) Q n Cw t Cr (decompress_compress Cr)).
  cbv zeta in V. rewrite Ebeta in V. rewrite V. clear V. set (tr1 := alm_ipa_hist tr _ _).
  assert (Ntr1 : nchal tr1 = nchal tr + 1) by (unfold tr1, alm_ipa_hist, alm_beta_hist; rewrite !nchal_app; cbn; lia).
  assert (V := C15_nozk_verification_equation (coins tr (beta :: alpha :: xs)) tr1 (az_NoZK pf) (mulB B g) (mulB B h) Q
     (alm_P beta t Cw Cr Q) (beta * beta * t)%S (S d) (map fst ps) (map snd ps)). cbv zeta in V. fold n in V.
  cbn [az_NoZK L_vec R_vec nz_a nz_b pf] in V.
  assert (Ea : coins tr (beta :: alpha :: xs) (ipa_start tr1 n) = alpha).
  { apply (coins_is 1); [reflexivity|]. unfold ipa_start. rewrite nchal_app. cbn. lia. }
  set (LRs := combine _ _) in V.
  assert (LL : length LRs = S d) by (unfold LRs; rewrite combine_length, !map_length, Lp; lia).
  assert (Ex : forall j, j < S d -> coins tr (beta :: alpha :: xs) (ipa_hist tr1 n LRs (S j)) = sc xs j).
  { intros j Hj. apply (coins_is (S (S j))); [reflexivity|]. rewrite nchal_hist, LL. lia. }
  assert (Et : tab (S d) (fun j => coins tr (beta :: alpha :: xs) (ipa_hist tr1 n LRs (S j))) = xs).
  { symmetry. apply (tab_eq s0); [exact Hxs|]. intros j Hj. symmetry. now apply Ex. }
  rewrite Ea, Et in V.
  destruct V as (res & V1 & V2); auto; try (now rewrite map_length); try (now rewrite mulB_length).
  { apply (decompress_map fst). } { apply (decompress_map snd). }
  exists (ipa_hist tr1 n LRs (S d)). change (az_NoZK pf) with (mkNoZK (map (fun p => compress (fst p)) ps) (map (fun p => compress (snd p)) ps) a0 b0).
  rewrite V1. do 2 f_equal. apply V2. clear V1 V2.
  rewrite (prod_S_ext (S d) _ (sc xs)) by (intros; now apply Ex).
  rewrite (sum_P_ext (S d) _ (fun j => prod_after (S d) xs j *: ((sc xs j * sc xs j)%S *: pt (map fst ps) j + pt (map snd ps) j))%P)
    by (intros; now rewrite Ex).
  assert (F := foldP_closed xs (map fst ps) (map snd ps)
     (alm_P beta t Cw Cr Q - (beta * beta * t)%S *: Q + (sinv alpha * (beta * beta * t))%S *: Q)%P).
  rewrite !map_length, Lp, Hxs in F. rewrite <- F by auto. clear F.
  replace (combine (map fst ps) (map snd ps)) with ps.
  2:{ clear. induction ps as [|[x y] ps IH]; [reflexivity|]. cbn. now rewrite <- IH. }
  replace (alm_P beta t Cw Cr Q - (beta * beta * t)%S *: Q + (sinv alpha * (beta * beta * t))%S *: Q)%P
    with (unfoldP (combine ps xs) last) by (unfold alm_P, Cr, Q; pring).
  rewrite foldP_unfoldP.
  - unfold last, Q. pring.
  - intros x Hix. apply Hx. apply in_map_iff in Hix as ([p y] & <- & Hi). now apply in_combine_r in Hi.
Qed.

(** ** both masks drawn *)
Lemma sum_inj {A} (vals : list A) K (f : list A -> list A) (F : list A -> nat) :
  NoDup vals -> (forall x, In x vals) ->
  (forall r, length r = K -> length (f r) = K) ->
  (forall r r', length r = K -> length r' = K -> f r = f r' -> r = r') ->
  list_sum (map (fun r => F (f r)) (words vals K)) = list_sum (map F (words vals K)).
Proof.
  intros HN HA Hf Hi. rewrite <- (map_map f F).
  assert (HW : forall r, In r (words vals K) <-> length r = K).
  { intros r. rewrite words_In. split; [tauto|]. intros H. split; auto. apply Forall_forall. auto. }
  assert (P : Permutation (map f (words vals K)) (words vals K)).
  { apply NoDup_Permutation_bis.
    - assert (Y : forall l, (forall r, In r l -> length r = K) -> NoDup l -> NoDup (map f l)).
      { clear -Hi. induction l as [|r l IH]; intros HK Hl; cbn; [constructor|]. inversion Hl; subst. constructor.
        - intros Z. apply in_map_iff in Z as (r' & E & Hr'). apply Hi in E; [now subst|apply HK; now right|apply HK; now left].
        - apply IH; auto. intros r' Hr'. apply HK. now right. }
      apply Y; [intros r Hr; now apply HW|now apply words_NoDup].
    - now rewrite map_length.
    - intros r Hr. apply in_map_iff in Hr as (r' & <- & Hr'). apply HW, Hf. now apply HW. }
  apply (Permutation_map F) in P. clear -P. induction P; auto; [|change (y + (x + list_sum l) = x + (y + list_sum l)); lia|congruence].
  change (x + list_sum l = x + list_sum l'). now rewrite IHP.
Qed.
Lemma sum_swap {A A'} (F : A -> A' -> nat) (l : list A) (l' : list A') :
  list_sum (map (fun u => list_sum (map (F u) l')) l) = list_sum (map (fun p => list_sum (map (fun u => F u p) l)) l').
Proof.
  induction l as [|u l IH]; cbn [map].
  - change (list_sum []) with 0. induction l' as [|p l' IH']; [reflexivity|]. cbn [map]. change (0 = 0 + list_sum (map (fun _ : A' => 0) l')). now rewrite <- IH'.
  - change (list_sum (?x :: ?r)) with (x + list_sum r). rewrite IH. clear IH. induction l' as [|p l' IH']; [reflexivity|]. cbn [map].
    change (list_sum (?x :: ?r)) with (x + list_sum r) in *. rewrite <- !IH'. lia.
Qed.
Lemma sum_const {A} (l : list A) c : list_sum (map (fun _ => c) l) = length l * c.
Proof. induction l as [|x l IH]; [reflexivity|]. cbn [map length]. change (list_sum (?x :: ?r)) with (x + list_sum r). rewrite IH. lia. Qed.
Lemma sum_ext {A} (F F' : A -> nat) l : (forall x, In x l -> F x = F' x) -> list_sum (map F l) = list_sum (map F' l).
Proof. intros H. f_equal. now apply map_ext_in. Qed.
Lemma sums_close {A} (bad : A -> bool) (R T : A -> nat) M l :
  (forall u, In u l -> bad u = false -> R u = T u) -> (forall u, R u <= M) -> (forall u, T u <= M) ->
  list_sum (map R l) <= list_sum (map T l) + count bad l * M /\ list_sum (map T l) <= list_sum (map R l) + count bad l * M.
Proof.
  intros H HR HT. induction l as [|u l IH]; [cbn; lia|]. cbn [map]. change (list_sum (?x :: ?r)) with (x + list_sum r). rewrite count_cons.
  destruct IH as [I1 I2]; [intros; apply H; auto; now right|].
  assert (X1 := HR u). assert (X2 := HT u). destruct (bad u) eqn:Eb; [nia|]. rewrite (H u) by (auto; now left). cbn [plus]. lia.
Qed.
(** an affine map onto pairs *)
Definition vadd (u v : list Scalar) : list Scalar := tab (length u) (fun i => sc u i + sc v i)%S.
Lemma vadd_inj u u' v K : length u = K -> length u' = K -> vadd u v = vadd u' v -> u = u'.
Proof.
  intros Hu Hu' E. apply (list_eq_nth s0); [lia|]. intros i Hi. assert (E' := f_equal (fun l => sc l i) E).
  cbn beta in E'. unfold vadd in E'. rewrite !sc_tab in E' by lia. change (sc u i = sc u' i).
  replace (sc u i) with (sc u i + sc v i - sc v i)%S by ring. rewrite E'. ring.
Qed.
Lemma sum_pairs (vals : list Scalar) K (A w : list Scalar -> list Scalar) (F : list Scalar -> nat) :
  NoDup vals -> (forall x, In x vals) ->
  (forall u, length u = K -> length (A u) = 2) ->
  (forall u p, length u = K -> length p = 2 -> A (vadd u (w p)) = vadd (A u) p) ->
  length vals ^ 2 * list_sum (map (fun u => F (A u)) (words vals K)) =
  length vals ^ K * list_sum (map F (words vals 2)).
Proof.
  intros HN HA HL HS.
  rewrite <- (words_count vals 2), <- (words_count vals K).
  transitivity (list_sum (map (fun p => list_sum (map (fun u => F (A (vadd u (w p)))) (words vals K))) (words vals 2))).
  - rewrite <- sum_const. apply sum_ext. intros p Hp. symmetry.
    apply (sum_inj vals K (fun u => vadd u (w p)) (fun u => F (A u))); auto.
    + intros r Hr. unfold vadd. now rewrite tab_length.
    + intros r r' Hr Hr' E. exact (vadd_inj r r' _ K Hr Hr' E).
  - rewrite <- sum_swap. rewrite <- sum_const. apply sum_ext. intros u Hu. apply words_In in Hu as [Hu _].
    rewrite <- (sum_inj vals 2 (fun p => vadd p (A u)) F); auto.
    + apply sum_ext. intros p Hp. apply words_In in Hp as [Hp _]. rewrite HS by auto. f_equal.
      apply (tab_eq s0); [unfold vadd; rewrite tab_length; rewrite Hp; now apply HL|]. intros i Hi. rewrite Hp in Hi.
      unfold vadd. rewrite tab_nth by (rewrite HL; auto). ring.
    + intros r Hr. unfold vadd. now rewrite tab_length.
    + intros r r' Hr Hr' E. exact (vadd_inj r r' _ 2 Hr Hr' E).
Qed.

Definition lc (u v w : list Scalar) (s t : Scalar) : list Scalar := tab (length u) (fun i => sc u i + (s * sc v i + t * sc w i))%S.
Lemma lc_length u v w s t : length (lc u v w s t) = length u.
Proof. apply tab_length. Qed.
Lemma last_a_lc d : forall xs u v w s t, length u = 2 ^ S d -> length v = 2 ^ S d -> length w = 2 ^ S d ->
  last_a d xs (lc u v w s t) = lc (last_a d xs u) (last_a d xs v) (last_a d xs w) s t.
Proof.
  induction d as [|d IH]; intros xs u v w s t Hu Hv Hw; [reflexivity|]. cbn [last_a].
  rewrite <- IH by apply fold_hi_length. f_equal. unfold lc at 2. rewrite fold_hi_length.
  assert (E2 : 2 ^ S (S d) = 2 * 2 ^ S d) by apply Nat.pow_succ_r'. set (k := 2 ^ S d) in *.
  apply (tab_eq s0); [apply fold_hi_length|]. intros i Hi. unfold fold_hi. rewrite tab_nth, !sc_tab by lia.
  unfold lc. rewrite !sc_tab by lia. ring.
Qed.
Lemma away_lc b u v w s t : length u = length b -> length v = length b -> length w = length b ->
  away b (lc u v w s t) = lc (away b u) (away b v) (away b w) s t.
Proof.
  intros Hu Hv Hw. assert (D : dotp b (lc u v w s t) = (dotp b u + (s * dotp b v + t * dotp b w))%S).
  { unfold dotp. rewrite <- !sum_S_mul, <- !sum_S_add. apply sum_S_ext. intros i Hi. unfold lc. rewrite sc_tab by lia. ring. }
  symmetry. apply (tab_eq s0); [now rewrite lc_length, away_length|]. intros i Hi. unfold lc at 1. rewrite tab_nth by (rewrite away_length; exact Hi).
  unfold away. rewrite !sc_tab by auto. rewrite D. unfold lc. rewrite sc_tab by lia. ring.
Qed.
Lemma masked_lc beta a u v w s t : length u = length a ->
  masked beta a (lc u v w s t) = lc (masked beta a u) v w s t.
Proof.
  intros Hu. symmetry. apply (tab_eq s0); [rewrite lc_length; unfold masked; now rewrite tab_length|]. intros i Hi.
  unfold lc, masked. rewrite tab_nth by (now rewrite tab_length). rewrite !sc_tab by lia. ring.
Qed.

Theorem C76_almzk_zero_knowledge (vals : list Scalar) tr d (g h : list Scalar) (q : Scalar) (B : Point) (a b : list Scalar)
    (beta alpha : Scalar) (xs w0 w1 v0 v1 : list Scalar) (bad : list Scalar -> bool) (test : AlmZK -> bool) :
  let n := 2 ^ S d in let K := 2 * d + 4 in
  let G := mulB B g in let H := mulB B h in let Q := (q *: B)%P in
  let Cw := (comb a G + comb b H)%P in let t := dotp a b in
  2 <= d -> length g = n -> length h = n -> length a = n -> length b = n -> length xs = S d ->
  NoDup vals -> (forall x, In x vals) ->
  alpha <> s0 -> (forall x, In x xs -> x <> s0) -> dotp a a <> s0 -> dotp b b <> s0 ->
  sample_m_n_plus (tape w0) 0 n = Ok (v0, K) -> last_a d xs (away b v0) = [s1; s0] ->
  sample_m_n_plus (tape w1) 0 n = Ok (v1, K) -> last_a d xs (away b v1) = [s0; s1] ->
  (forall u1 m1, length u1 = K -> bad u1 = false -> sample_m_n_plus (tape u1) 0 n = Ok (m1, K) ->
     let r1 := away b m1 in let ob := away a r1 in
     dotp b m1 <> s0 /\ dotp a r1 <> s0 /\ dotp ob ob <> s0 /\
     hides d xs a ob (tab n (fun i => sc h i + sinv alpha * q * sc (masked beta a r1) i)%S)) ->
  let real := count (fun u => on_proof test (alm_zk_create (coins tr (beta :: alpha :: xs)) (tape u) 0 tr G H Q Cw a b t)) (words vals (K + K)) in
  let sim := count (fun w => test (sim_proof d xs g h q B beta alpha Cw t (firstn 2 w) (skipn 2 w))) (words vals (2 + (2 * d + 2))) in
  let N := (length vals - 1) ^ 2 * length vals ^ (2 * d + 2) in
  let slack := count bad (words vals K) * length vals ^ K in
  real <= N * sim + slack /\ N * sim <= real + slack.
Proof.
  intros n K G H Q Cw t Hd Hg Hh Ha Hb Hxs HN HA Hal Hx Naa Nbb W0 A0 W1 A1 Hbad real sim N slack.
  destruct (mask_draws 0 d Hd) as (src & HM & _). fold n in HM.
  set (msk u1 := match sample_m_n_plus (tape u1) 0 n with Ok (m, _) => m | _ => [] end).
  assert (MS : forall u1, sample_m_n_plus (tape u1) 0 n = Ok (msk u1, K) /\ length (msk u1) = n /\
      (forall i, i < n -> in_mn_plus n i -> sc (msk u1) i = sc u1 (src i) /\ src i < K) /\
      (forall i, i < n -> ~ in_mn_plus n i -> sc (msk u1) i = s0)).
  { intros u1. unfold msk. destruct (HM (tape u1)) as (m & E & Lm & X1 & X2). rewrite E.
    split; [reflexivity|]. split; [exact Lm|]. split; auto. intros i Hi Mi. destruct (X1 i Hi Mi) as [-> R]. split; [reflexivity|lia]. }
  set (al u1 := last_a d xs (masked beta a (away b (msk u1)))).
  set (S1 := fun al => count (fun ta => test (sim_proof d xs g h q B beta alpha Cw t al ta)) (words vals (2 * d + 2))).
  (* the pairs are evenly distributed *)
  assert (U : length vals ^ 2 * list_sum (map (fun u => S1 (al u)) (words vals K)) = length vals ^ K * sim).
  { unfold sim. rewrite count_words_app.
    rewrite (sum_ext _ S1 (words vals 2)).
    2:{ intros p Hp. apply words_In in Hp as [Hp _]. unfold S1. apply count_ext. intros ta _.
        destruct p as [|p0 [|p1 [|]]]; try discriminate. reflexivity. }
    apply (sum_pairs vals K al (fun p => tab K (fun i => sc p 0 * sc w0 i + sc p 1 * sc w1 i)%S) S1); auto.
    - intros u1 _. unfold al. apply last_a_length. unfold masked. now rewrite tab_length.
    - intros u1 p Hu Hp. destruct (MS u1) as (M & Lm & X1 & X2). destruct (MS w0) as (M0 & Lm0 & X10 & X20).
      destruct (MS w1) as (M1 & Lm1 & X11 & X21). rewrite W0 in M0. injection M0 as M0. rewrite W1 in M1. injection M1 as M1.
      assert (E : msk (vadd u1 (tab K (fun i => sc p 0 * sc w0 i + sc p 1 * sc w1 i)%S)) = lc (msk u1) v0 v1 (sc p 0) (sc p 1)).
      { destruct (MS (vadd u1 (tab K (fun i => sc p 0 * sc w0 i + sc p 1 * sc w1 i)%S))) as (M' & Lm' & X1' & X2').
        apply (tab_eq s0); [lia|]. intros i Hi. rewrite Lm in Hi. change (nth i ?l s0) with (sc l i). rewrite M0, M1.
        destruct (in_mn_plus_dec n i) as [Mi|Mi].
        - destruct (X1' i Hi Mi) as [-> R]. destruct (X1 i Hi Mi) as [-> _]. destruct (X10 i Hi Mi) as [-> _]. destruct (X11 i Hi Mi) as [-> _].
          unfold vadd. rewrite sc_tab by lia. rewrite sc_tab by lia. reflexivity.
        - rewrite X2', X2, X20, X21 by auto. ring. }
      unfold al. rewrite E. rewrite away_lc, masked_lc, last_a_lc, A0, A1; auto.
      all: cycle 1. all: try (rewrite ?away_length; unfold masked; rewrite ?tab_length; fold n; congruence).
      set (l := last_a d xs (masked beta a (away b (msk u1)))).
      assert (Ll : length l = 2) by (apply last_a_length; unfold masked; now rewrite tab_length).
      destruct p as [|p0 [|p1 [|]]]; try discriminate. destruct l as [|l0 [|l1 [|]]]; try discriminate.
      unfold lc, vadd. cbn. unfold sc. cbn. f_equal; [ring|f_equal; ring]. }
  (* one first mask *)
  set (R1 := fun u1 => count (fun u2 => on_proof test (alm_zk_create (coins tr (beta :: alpha :: xs)) (tape (u1 ++ u2)) 0 tr G H Q Cw a b t)) (words vals K)).
  assert (Er : real = list_sum (map R1 (words vals K))) by (unfold real; now rewrite count_words_app).
  set (c := (length vals - 1) ^ 2).
  assert (Good : forall u1, length u1 = K -> bad u1 = false -> R1 u1 = c * S1 (al u1)).
  { intros u1 Hu Hb1. destruct (MS u1) as (M & Lm & _). destruct (Hbad u1 (msk u1) Hu Hb1 M) as (B1 & B2 & B3 & B4).
    unfold R1, S1, al, c. apply (C76_second_mask vals tr d g h q B a b beta alpha xs u1 (msk u1) test); auto. }
  assert (Lv : 1 <= length vals) by (destruct vals; [destruct (HA s0)|cbn; lia]).
  assert (R1le : forall u1, R1 u1 <= length vals ^ K).
  { intros u1. unfold R1. rewrite <- words_count. apply count_all. }
  assert (S1le : forall x, c * S1 x <= length vals ^ K).
  { intros x. unfold S1, c, K. replace (2 * d + 4) with (2 + (2 * d + 2)) by lia. rewrite Nat.pow_add_r.
    apply Nat.mul_le_mono; [apply Nat.pow_le_mono_l; lia|]. rewrite <- words_count. apply count_all. }
  assert (Cmp : real <= c * list_sum (map (fun u => S1 (al u)) (words vals K)) + slack /\
                c * list_sum (map (fun u => S1 (al u)) (words vals K)) <= real + slack).
  { rewrite Er. replace (c * list_sum (map (fun u => S1 (al u)) (words vals K))) with (list_sum (map (fun u => c * S1 (al u)) (words vals K))).
    - apply sums_close; auto. intros u Hu. apply Good. now apply words_In in Hu.
    - clear. induction (words vals K) as [|u l IH]; [cbn; lia|]. cbn [map]. change (list_sum (?x :: ?r)) with (x + list_sum r). rewrite IH. nia. }
  assert (EN : N * sim = c * list_sum (map (fun u => S1 (al u)) (words vals K))).
  { apply (Nat.mul_cancel_l _ _ (length vals ^ 2)); [apply Nat.pow_nonzero; lia|].
    transitivity (c * (length vals ^ K * sim)).
    - unfold N. fold c. unfold K. replace (2 * d + 4) with (2 + (2 * d + 2)) by lia. rewrite (Nat.pow_add_r (length vals) 2 (2 * d + 2)).
      generalize c, sim, (length vals ^ (2 * d + 2)), (length vals ^ 2). clear. intros. nia.
    - rewrite <- U. generalize (list_sum (map (fun u => S1 (al u)) (words vals K))), c, (length vals ^ 2). clear. intros. nia. }
  rewrite EN. exact Cmp.
Qed.
End C76.
