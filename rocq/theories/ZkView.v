(** What the inner-product prover sends, as a function of its vectors, for challenges
    that are fixed beforehand (an interactive verifier); the points are multiples of one
    point B. *)
From Coq Require Import String Permutation.
From Verif Require Export PropCount PropForking PropZkCount.
Local Open Scope string_scope.
Local Open Scope nat_scope.
Local Open Scope list_scope.

Section Spec76.
Context {C : Crypto}.

(** halves of a vector of length 2k combined with the challenge x *)
Definition fold_lo (x : Scalar) (k : nat) (v : list Scalar) : list Scalar := tab k (fun i => sc v i + x * sc v (k + i))%S.
Definition fold_hi (x : Scalar) (k : nat) (v : list Scalar) : list Scalar := tab k (fun i => x * sc v i + sc v (k + i))%S.
(** the messages L and R of a round, as multiples of B *)
Definition roundL (k : nat) (g h : list Scalar) (q : Scalar) (a b : list Scalar) : Scalar :=
  sum_S k (fun i => sc a i * sc g (k + i) + sc b (k + i) * (sc h i + q * sc a i))%S.
Definition roundR (k : nat) (g h : list Scalar) (q : Scalar) (a b : list Scalar) : Scalar :=
  sum_S k (fun i => sc a (k + i) * sc g i + sc b i * (sc h (k + i) + q * sc a (k + i)))%S.
(** vectors of length 2^(d+1): L and R of the first d rounds, then the two entries of b
    that are left before the last round *)
Fixpoint tview (d : nat) (xs g h : list Scalar) (q : Scalar) (a b : list Scalar) : list Scalar :=
  match d with
  | O => [sc b 0; sc b 1]
  | S d => let k := 2 ^ S d in let x := hd s0 xs in
      roundL k g h q a b :: roundR k g h q a b ::
      tview d (tl xs) (fold_lo x k g) (fold_hi x k h) q (fold_hi x k a) (fold_lo x k b)
  end.
(** the two entries of a that are left before the last round *)
Fixpoint last_a (d : nat) (xs a : list Scalar) : list Scalar :=
  match d with
  | O => a
  | S d => last_a d (tl xs) (fold_hi (hd s0 xs) (2 ^ S d) a)
  end.
(** the rounds and the response that belong to the two entries of a and to such a view *)
Fixpoint expand (d : nat) (xs g h : list Scalar) (q : Scalar) (al ta : list Scalar) : list (Scalar * Scalar) * (Scalar * Scalar) :=
  match d with
  | O => let x := hd s0 xs in
      ([(roundL 1 g h q al ta, roundR 1 g h q al ta)], (x * sc al 0 + sc al 1, sc ta 0 + x * sc ta 1)%S)
  | S d => let k := 2 ^ S d in let x := hd s0 xs in
      let '(rs, fin) := expand d (tl xs) (fold_lo x k g) (fold_hi x k h) q al (tl (tl ta)) in
      ((sc ta 0, sc ta 1) :: rs, fin)
  end.
(** a direction y of the second vector that changes none of these values *)
Fixpoint silent (d : nat) (xs e y : list Scalar) : Prop :=
  match d with
  | O => sc y 0 = s0 /\ sc y 1 = s0
  | S d => let k := 2 ^ S d in let x := hd s0 xs in
      sum_S k (fun i => sc y (k + i) * sc e i)%S = s0 /\ sum_S k (fun i => sc y i * sc e (k + i))%S = s0 /\
      silent d (tl xs) (fold_hi x k e) (fold_lo x k y)
  end.
Definition mulB (B : Point) (v : list Scalar) : list Point := map (fun s => s *: B)%P v.
(** the point with which a transcript starts, from the point with which it ends *)
Fixpoint unfoldP (LRx : list ((Point * Point) * Scalar)) (P : Point) : Point :=
  match LRx with
  | [] => P
  | ((l, r), x) :: LRx => (sinv x *: (unfoldP LRx P - (x * x)%S *: l - r))%P
  end.
End Spec76.

Section View.
Context {C : Crypto} {L : CryptoLaws C}.
Add Field SfZV : (@S_field C L).

Lemma foldP_unfoldP LRx : (forall x, In x (map snd LRx) -> x <> s0) -> forall P, foldP LRx (unfoldP LRx P) = P.
Proof.
  induction LRx as [|[[l r] x] LRx IH]; intros Hx P; [reflexivity|]. cbn [foldP unfoldP].
  assert (X : x <> s0) by (apply Hx; now left).
  assert (E : ((x * x)%S *: l + x *: (sinv x *: (unfoldP LRx P - (x * x)%S *: l - r)) + r)%P = unfoldP LRx P).
  { transitivity ((x * x)%S *: l + (sinv x * x)%S *: (unfoldP LRx P - (x * x)%S *: l - r) + r)%P; [pring|].
    rewrite sinv_l by auto. pring. }
  rewrite E. apply IH. intros y Hy. apply Hx. now right.
Qed.
Lemma unfoldP_foldP LRx : (forall x, In x (map snd LRx) -> x <> s0) -> forall P, unfoldP LRx (foldP LRx P) = P.
Proof.
  intros Hx P. apply (foldP_inj LRx); auto. now rewrite foldP_unfoldP.
Qed.

(** ** the loop, points *)
Fixpoint ipa_pairs (d : nat) (xs : list Scalar) (G H : list Point) (Q : Point) (a b : list Scalar) : list (Point * Point) :=
  match d with
  | O => []
  | S d => let k := 2 ^ d in let x := hd s0 xs in
      (ipa_L k G H Q a b, ipa_R k G H Q a b) :: ipa_pairs d (tl xs) (stepG x k G) (stepH x k H) Q (stepa x k a) (stepb x k b)
  end.
Fixpoint ipa_fin (d : nat) (xs a b : list Scalar) : Scalar * Scalar :=
  match d with
  | O => (sc a 0, sc b 0)
  | S d => let k := 2 ^ d in let x := hd s0 xs in ipa_fin d (tl xs) (stepa x k a) (stepb x k b)
  end.
Lemma stepa_length x k (a : list Scalar) : length a = 2 * k -> length (stepa x k a) = k.
Proof. intros H. apply half_len in H as [H1 H2]. unfold stepa. rewrite map2_length. lia. Qed.
Lemma stepb_length x k (b : list Scalar) : length b = 2 * k -> length (stepb x k b) = k.
Proof. intros H. apply half_len in H as [H1 H2]. unfold stepb. rewrite map2_length. lia. Qed.

Definition cps (l : list (Point * Point)) := map (fun p => compress (fst p)) l.
Definition cps2 (l : list (Point * Point)) := map (fun p => compress (snd p)) l.

Lemma ipa_rounds_cons q l : ipa_rounds (q :: l) = ipa_round q ++ ipa_rounds l.
Proof. reflexivity. Qed.

Lemma loop_view ro Q d : forall fuel tr xs G H a b Ls Rs,
  d < fuel -> length G = 2 ^ d -> length H = 2 ^ d -> length a = 2 ^ d -> length b = 2 ^ d -> length xs = d ->
  (forall q LRs, length LRs < d -> ro (tr ++ ipa_rounds (q :: LRs)) = sc xs (length LRs)) ->
  let ps := ipa_pairs d xs G H Q a b in
  (exists tr', no_zk_create_loop fuel ro tr Q (2 ^ d) G H a b Ls Rs =
     Ok (mkNoZK (Ls ++ cps ps) (Rs ++ cps2 ps) (fst (ipa_fin d xs a b)) (snd (ipa_fin d xs a b)), tr')) /\
  length ps = d /\
  (fst (ipa_fin d xs a b) *: nth 0 (foldG xs G) p0 + snd (ipa_fin d xs a b) *: nth 0 (foldH xs H) p0 +
     (fst (ipa_fin d xs a b) * snd (ipa_fin d xs a b))%S *: Q)%P =
    foldP (combine ps xs) (ipa_com G H Q a b).
Proof.
  induction d as [|d IH]; intros fuel tr xs G H a b Ls Rs Hf HG HH Ha Hb Hxs Hro;
    (destruct fuel as [|fuel]; [lia|]); cbn [no_zk_create_loop].
  - change (2 ^ 0) with 1 in *. cbn [Nat.eqb].
    apply length1 in HG as [g ->]. apply length1 in HH as [h ->].
    apply length1 in Ha as [a0 ->]. apply length1 in Hb as [b0 ->].
    destruct xs; [|discriminate]. cbn. rewrite !app_nil_r. split; [eauto|]. split; auto.
    unfold ipa_com. cbn. pring.
  - assert (E2 : 2 ^ S d = 2 * 2 ^ d) by apply Nat.pow_succ_r'.
    assert (Hp := pow2_pos d). destruct xs as [|x xs]; [discriminate|]. injection Hxs as Hxs.
    destruct (Nat.eqb_spec (2 ^ S d) 1) as [|_]; [lia|].
    rewrite pow2_half. cbn [ipa_pairs ipa_fin hd tl]. set (h := 2 ^ d) in *. rewrite E2 in *.
    rewrite !split_at_le by lia. cbn [bind].
    destruct (half_len h a Ha) as [Ha1 Ha2]. destruct (half_len h b Hb) as [Hb1 Hb2].
    destruct (half_len h G HG) as [HG1 HG2]. destruct (half_len h H HH) as [HH1 HH2].
    rewrite !inner_product_dot. rewrite !msm3 by lia. cbn [bind].
    fold (ipa_L h G H Q a b). fold (ipa_R h G H Q a b).
    set (lp := ipa_L h G H Q a b). set (rp := ipa_R h G H Q a b).
    unfold append_message, challenge_scalar.
    replace (((tr ++ [EvMsg "L" (compress lp)]) ++ [EvMsg "R" (compress rp)]) ++ [EvChal "x_i"])
      with (tr ++ ipa_round (compress lp, compress rp)) by (rewrite <- !app_assoc; reflexivity).
    set (tr1 := tr ++ ipa_round (compress lp, compress rp)).
    assert (Ex : ro tr1 = x).
    { unfold tr1. rewrite <- (app_nil_r (ipa_round _)). change (ipa_round ?q ++ []) with (ipa_rounds [q]).
      rewrite (Hro _ []) by (cbn; lia). reflexivity. }
    rewrite Ex. fold (stepa x h a). fold (stepb x h b). fold (stepG x h G). fold (stepH x h H).
    destruct (IH fuel tr1 xs (stepG x h G) (stepH x h H) (stepa x h a) (stepb x h b) (Ls ++ [compress lp]) (Rs ++ [compress rp]))
      as ((tr' & Hc) & Hl & Heq); auto; try lia.
    { now apply stepG_length. } { now apply stepH_length. } { now apply stepa_length. } { now apply stepb_length. }
    { intros q LRs Hl. unfold tr1. rewrite <- app_assoc, <- ipa_rounds_cons. rewrite Hro by (cbn; lia). reflexivity. }
    split; [|split].
    + exists tr'. rewrite Hc. cbn [cps cps2 map fst snd]. now rewrite <- !app_assoc.
    + cbn [length]. now rewrite Hl.
    + cbn [foldG foldH combine foldP]. rewrite Hxs. fold h. rewrite Heq. f_equal. now apply ipa_com_step.
Qed.

(** ** in multiples of B *)
Lemma mulB_length B v : length (mulB B v) = length v.
Proof. apply map_length. Qed.
Lemma pt_mulB B v i : pt (mulB B v) i = (sc v i *: B)%P.
Proof.
  unfold pt, mulB, sc. destruct (Nat.lt_ge_cases i (length v)) as [H|H].
  - rewrite (nth_indep _ p0 ((fun s => s *: B)%P s0)) by (now rewrite map_length). exact (map_nth (fun s => s *: B)%P v s0 i).
  - rewrite !nth_overflow by (rewrite ?map_length; lia). pring.
Qed.
Lemma sum_P_mul B n (f : nat -> Scalar) : sum_P n (fun i => f i *: B)%P = (sum_S n f *: B)%P.
Proof. induction n as [|n IH]; cbn [sum_P sum_S]; [pring|]. rewrite IH. pring. Qed.
Lemma lin_mulB B s v : length s = length v -> lin s (mulB B v) = (sum_S (length v) (fun i => sc s i * sc v i)%S *: B)%P.
Proof.
  intros Hl. rewrite lin_comb by now rewrite mulB_length. unfold comb. rewrite Hl, <- sum_P_mul. apply sum_P_ext. intros i Hi.
  rewrite pt_mulB. pring.
Qed.
Lemma sc_firstn k (v : list Scalar) i : i < k -> sc (firstn k v) i = sc v i.
Proof. unfold sc. revert i v. induction k; intros i v Hi; [lia|]. destruct v; [now destruct i|]. destruct i; [reflexivity|]. cbn. apply IHk. lia. Qed.
Lemma sc_skipn k (v : list Scalar) i : sc (skipn k v) i = sc v (k + i).
Proof. unfold sc. revert v. induction k; intros v; [reflexivity|]. destruct v; cbn; [now destruct i|apply IHk]. Qed.
Lemma mulB_firstn B k v : firstn k (mulB B v) = mulB B (firstn k v).
Proof. apply firstn_map. Qed.
Lemma mulB_skipn B k v : skipn k (mulB B v) = mulB B (skipn k v).
Proof. unfold mulB. revert v. induction k; intros [|x v]; cbn; auto. Qed.
Lemma stepa_fold x k (a : list Scalar) : length a = 2 * k -> stepa x k a = fold_hi x k a.
Proof.
  intros Ha. apply (tab_eq s0); [now apply stepa_length|]. intros i Hi. change (nth i (stepa x k a) s0) with (sc (stepa x k a) i).
  rewrite sc_stepa by auto. ring.
Qed.
Lemma stepb_fold x k (a : list Scalar) : length a = 2 * k -> stepb x k a = fold_lo x k a.
Proof.
  intros Ha. apply (tab_eq s0); [now apply stepb_length|]. intros i Hi. change (nth i (stepb x k a) s0) with (sc (stepb x k a) i).
  rewrite sc_stepb by auto. ring.
Qed.
Lemma stepG_fold B x k g : length g = 2 * k -> stepG x k (mulB B g) = mulB B (fold_lo x k g).
Proof.
  intros Hg. destruct (half_len k g Hg) as [H1 H2]. unfold stepG. rewrite mulB_firstn, mulB_skipn.
  apply (list_eq_nth p0).
  - rewrite map2_length, !mulB_length. unfold fold_lo. rewrite tab_length. lia.
  - intros i Hi. rewrite map2_length, !mulB_length in Hi. rewrite (map2_nth _ _ _ _ p0 p0) by (rewrite mulB_length; lia).
    change (pt (mulB B (firstn k g)) i + x *: pt (mulB B (skipn k g)) i = pt (mulB B (fold_lo x k g)) i)%P.
    rewrite !pt_mulB. unfold fold_lo. rewrite sc_tab, sc_firstn, sc_skipn by lia. pring.
Qed.
Lemma stepH_fold B x k g : length g = 2 * k -> stepH x k (mulB B g) = mulB B (fold_hi x k g).
Proof.
  intros Hg. destruct (half_len k g Hg) as [H1 H2]. unfold stepH. rewrite mulB_firstn, mulB_skipn.
  apply (list_eq_nth p0).
  - rewrite map2_length, !mulB_length. unfold fold_hi. rewrite tab_length. lia.
  - intros i Hi. rewrite map2_length, !mulB_length in Hi. rewrite (map2_nth _ _ _ _ p0 p0) by (rewrite mulB_length; lia).
    change (x *: pt (mulB B (firstn k g)) i + pt (mulB B (skipn k g)) i = pt (mulB B (fold_hi x k g)) i)%P.
    rewrite !pt_mulB. unfold fold_hi. rewrite sc_tab, sc_firstn, sc_skipn by lia. pring.
Qed.
Lemma dot_sum (a b : list Scalar) k : length a = k -> length b = k -> dot a b = sum_S k (fun i => sc a i * sc b i)%S.
Proof. intros Ha Hb. rewrite dot_dotp by lia. unfold dotp. now rewrite Ha. Qed.
Lemma ipa_L_mulB B k g h q a b : length g = 2 * k -> length h = 2 * k -> length a = 2 * k -> length b = 2 * k ->
  ipa_L k (mulB B g) (mulB B h) (q *: B)%P a b = (roundL k g h q a b *: B)%P.
Proof.
  intros Hg Hh Ha Hb. destruct (half_len k g Hg), (half_len k h Hh), (half_len k a Ha), (half_len k b Hb).
  unfold ipa_L, roundL. rewrite mulB_skipn, mulB_firstn, !lin_mulB by lia.
  rewrite (dot_sum _ _ k) by auto. replace (length (skipn k g)) with k by auto. replace (length (firstn k h)) with k by auto.
  assert (E : forall f1 f2 f3 : nat -> Scalar, (sum_S k f1 *: B + sum_S k f2 *: B + sum_S k f3 *: (q *: B))%P =
              (sum_S k (fun i => f1 i + f2 i + q * f3 i)%S *: B)%P).
  { intros. rewrite !sum_S_add, sum_S_mul. pring. }
  rewrite E. f_equal. apply sum_S_ext. intros i Hi. rewrite !sc_firstn, !sc_skipn by auto. ring.
Qed.
Lemma ipa_R_mulB B k g h q a b : length g = 2 * k -> length h = 2 * k -> length a = 2 * k -> length b = 2 * k ->
  ipa_R k (mulB B g) (mulB B h) (q *: B)%P a b = (roundR k g h q a b *: B)%P.
Proof.
  intros Hg Hh Ha Hb. destruct (half_len k g Hg), (half_len k h Hh), (half_len k a Ha), (half_len k b Hb).
  unfold ipa_R, roundR. rewrite mulB_skipn, mulB_firstn, !lin_mulB by lia.
  rewrite (dot_sum _ _ k) by auto. replace (length (skipn k h)) with k by auto. replace (length (firstn k g)) with k by auto.
  assert (E : forall f1 f2 f3 : nat -> Scalar, (sum_S k f1 *: B + sum_S k f2 *: B + sum_S k f3 *: (q *: B))%P =
              (sum_S k (fun i => f1 i + f2 i + q * f3 i)%S *: B)%P).
  { intros. rewrite !sum_S_add, sum_S_mul. pring. }
  rewrite E. f_equal. apply sum_S_ext. intros i Hi. rewrite !sc_firstn, !sc_skipn by auto. ring.
Qed.
Lemma fold_lo_length x k v : length (fold_lo x k v) = k.
Proof. apply tab_length. Qed.
Lemma fold_hi_length x k v : length (fold_hi x k v) = k.
Proof. apply tab_length. Qed.
Lemma last_a_length d : forall xs a, length a = 2 ^ S d -> length (last_a d xs a) = 2.
Proof. induction d as [|d IH]; intros xs a Ha; [exact Ha|]. cbn [last_a]. apply IH, fold_hi_length. Qed.
Lemma tview_length d : forall xs g h q a b, length (tview d xs g h q a b) = 2 * d + 2.
Proof. induction d as [|d IH]; intros; [reflexivity|]. cbn [tview length]. rewrite IH. lia. Qed.

Definition mulBB (B : Point) (l : list (Scalar * Scalar)) : list (Point * Point) := map (fun p => (fst p *: B, snd p *: B)%P) l.
Lemma pairs_expand B d : forall xs g h q a b,
  length g = 2 ^ S d -> length h = 2 ^ S d -> length a = 2 ^ S d -> length b = 2 ^ S d ->
  let ex := expand d xs g h q (last_a d xs a) (tview d xs g h q a b) in
  ipa_pairs (S d) xs (mulB B g) (mulB B h) (q *: B)%P a b = mulBB B (fst ex) /\ ipa_fin (S d) xs a b = snd ex.
Proof.
  induction d as [|d IH]; intros xs g h q a b Hg Hh Ha Hb.
  - change (2 ^ 1) with 2 in *. cbn [tview last_a expand fst snd ipa_pairs ipa_fin mulBB map]. change (2 ^ 0) with 1.
    destruct b as [|b0 [|b1 [|]]]; try discriminate. destruct a as [|a0 [|a1 [|]]]; try discriminate.
    split; [|unfold stepa, stepb, sc; cbn; f_equal; ring].
    f_equal. rewrite ipa_L_mulB, ipa_R_mulB by auto. reflexivity.
  - assert (E2 : 2 ^ S (S d) = 2 * 2 ^ S d) by apply Nat.pow_succ_r'. rewrite E2 in *.
    cbn [tview last_a]. remember (S d) as d1. cbn [ipa_pairs ipa_fin]. subst d1. set (k := 2 ^ S d) in *. set (x := hd s0 xs).
    cbn [expand tl]. fold k x.
    assert (X := IH (tl xs) (fold_lo x k g) (fold_hi x k h) q (fold_hi x k a) (fold_lo x k b)
                   (fold_lo_length _ _ _) (fold_hi_length _ _ _) (fold_hi_length _ _ _) (fold_lo_length _ _ _)). cbv zeta in X.
    rewrite stepG_fold, stepH_fold, stepa_fold, stepb_fold by auto.
    destruct (expand d (tl xs) (fold_lo x k g) (fold_hi x k h) q (last_a d (tl xs) (fold_hi x k a))
               (tview d (tl xs) (fold_lo x k g) (fold_hi x k h) q (fold_hi x k a) (fold_lo x k b))) as [rs fin].
    cbn [fst snd] in *. destruct X as [X1 X2]. split; [|exact X2].
    cbn [mulBB map]. rewrite ipa_L_mulB, ipa_R_mulB by auto. f_equal. exact X1.
Qed.

(** ** two second vectors with the same view *)
Definition vdiff (b b' : list Scalar) : list Scalar := tab (length b) (fun i => sc b i - sc b' i)%S.
Lemma fold_lo_sub x k (b b' : list Scalar) n : length b = n -> length b' = n -> n = 2 * k ->
  fold_lo x k (vdiff b b') = vdiff (fold_lo x k b) (fold_lo x k b').
Proof.
  intros Hb Hb' Hn. symmetry. apply (tab_eq s0); [unfold vdiff; now rewrite tab_length, fold_lo_length|]. intros i Hi.
  unfold vdiff at 1. rewrite tab_nth by (rewrite fold_lo_length; auto). unfold fold_lo. rewrite !sc_tab by auto.
  unfold vdiff. rewrite !sc_tab by lia. ring.
Qed.
Lemma tview_silent d : forall xs g h q a b b',
  length h = 2 ^ S d -> length a = 2 ^ S d -> length b = 2 ^ S d -> length b' = 2 ^ S d ->
  tview d xs g h q a b = tview d xs g h q a b' ->
  silent d xs (tab (2 ^ S d) (fun i => sc h i + q * sc a i)%S) (vdiff b b').
Proof.
  induction d as [|d IH]; intros xs g h q a b b' Hh Ha Hb Hb' E.
  - cbn [tview] in E. injection E as E1 E2. cbn [silent]. change (2 ^ 1) with 2 in *. unfold vdiff. rewrite !sc_tab by lia.
    rewrite E1, E2. split; ring.
  - assert (E2 : 2 ^ S (S d) = 2 * 2 ^ S d) by apply Nat.pow_succ_r'. rewrite E2 in *.
    cbn [tview] in E. set (k := 2 ^ S d) in *. set (x := hd s0 xs) in *. injection E as EL ER E.
    cbn [silent]. fold k x.
    assert (Z : forall u v : Scalar, u = v -> (u - v = s0)%S) by (intros u v ->; ring).
    split; [|split].
    + rewrite <- (Z _ _ EL). unfold roundL. rewrite <- sum_S_sub. apply sum_S_ext. intros i Hi.
      unfold vdiff. rewrite !sc_tab by lia. ring.
    + rewrite <- (Z _ _ ER). unfold roundR. rewrite <- sum_S_sub. apply sum_S_ext. intros i Hi.
      unfold vdiff. rewrite !sc_tab by lia. ring.
    + rewrite (fold_lo_sub _ _ _ _ (2 * k)) by auto.
      apply IH in E; try apply fold_hi_length; try apply fold_lo_length. fold k in E.
      replace (fold_hi x k (tab (2 * k) (fun i => (sc h i + q * sc a i)%S)))
        with (tab k (fun i => (sc (fold_hi x k h) i + q * sc (fold_hi x k a) i)%S)); [exact E|].
      symmetry. apply (tab_eq s0); [apply fold_hi_length|]. intros i Hi. unfold fold_hi. rewrite tab_nth, !sc_tab by lia. ring.
Qed.
End View.
