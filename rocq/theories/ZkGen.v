(** A condition on the second list of generators under which the masks of the almost-zk
    argument hide, whatever the vectors are. *)
From Coq Require Import String.
From Verif Require Export ZkFamily.
Local Open Scope string_scope.
Local Open Scope nat_scope.
Local Open Scope list_scope.

Section SpecGen.
Context {C : Crypto}.
(** h folded down to two entries: at each fold, the first two entries of the lower and of the
    upper half are linearly independent *)
Fixpoint generic (d : nat) (xs h : list Scalar) : Prop :=
  match d with
  | O => True
  | S d => let k := 2 ^ S d in
      (sc h 0 * sc h (S k) - sc h 1 * sc h k)%S <> s0 /\ generic d (tl xs) (fold_hi (hd s0 xs) k h)
  end.
(** h are the logarithms of the second list of generators: for some nonzero challenges *)
Definition zk_generators (d : nat) (h : list Scalar) : Prop :=
  exists xs, length xs = S d /\ (forall x, In x xs -> x <> s0) /\ generic d xs h.
End SpecGen.

Section Gen.
Context {C : Crypto} {L : CryptoLaws C}.
Add Field SfZG : (@S_field C L).

Lemma det_zero (e0 e1 f0 f1 y z : Scalar) : (e0 * f1 - e1 * f0)%S <> s0 ->
  (e0 * y + e1 * z)%S = s0 -> (f0 * y + f1 * z)%S = s0 -> y = s0 /\ z = s0.
Proof.
  intros D E F. split.
  - assert (Y : ((e0 * f1 - e1 * f0) * y = s0)%S).
    { transitivity (f1 * (e0 * y + e1 * z) - e1 * (f0 * y + f1 * z))%S; [ring|]. rewrite E, F. ring. }
    apply smul_eq_0 in Y as [Y|Y]; [contradiction|exact Y].
  - assert (Y : ((e0 * f1 - e1 * f0) * z = s0)%S).
    { transitivity (e0 * (f0 * y + f1 * z) - f0 * (e0 * y + e1 * z))%S; [ring|]. rewrite E, F. ring. }
    apply smul_eq_0 in Y as [Y|Y]; [contradiction|exact Y].
Qed.
Lemma upper_mask d i : 2 ^ d <= i < 2 ^ S d -> in_mn_plus (2 ^ S d) i -> i = 2 ^ d \/ i = S (2 ^ d) \/ i = 2 ^ S d - 2 \/ i = 2 ^ S d - 1.
Proof.
  intros Hi. assert (1 <= 2 ^ d) by apply pow2_pos. assert (E2 : 2 ^ S d = 2 * 2 ^ d) by apply Nat.pow_succ_r'.
  intros [->|[->|[(k & Hk & H2 & E)|[->| ->]]]]; try lia.
  assert (Hkd : k <= d).
  { destruct (Nat.le_gt_cases k d) as [|G]; auto. assert (2 ^ S (S d) <= 2 ^ (k + 1)) by (apply Nat.pow_le_mono_r; lia). rewrite (Nat.pow_succ_r' 2 (S d)) in H0. lia. }
  destruct (Nat.eq_dec k d) as [->|Hne]; [lia|]. exfalso.
  assert (2 ^ S k <= 2 ^ d) by (apply Nat.pow_le_mono_r; lia). rewrite Nat.pow_succ_r' in H0. assert (2 ^ 1 <= 2 ^ k) by (apply Nat.pow_le_mono_r; lia). change (2 ^ 1) with 2 in H1. lia.
Qed.
Lemma lower_mask d i : i < 2 ^ d -> in_mn_plus (2 ^ S d) i -> in_mn_plus (2 ^ d) i.
Proof.
  intros Hi. assert (1 <= 2 ^ d) by apply pow2_pos. assert (E2 : 2 ^ S d = 2 * 2 ^ d) by apply Nat.pow_succ_r'.
  intros [->|[->|[(k & Hk & H2 & E)|[->| ->]]]]; [now left|now (right; left)| |left; lia|lia].
  right; right; left. exists k. split; [exact Hk|]. split; [|exact E].
  apply Nat.pow_le_mono_r; [lia|]. destruct (Nat.le_gt_cases (k + 1) d) as [|G]; auto. exfalso.
  assert (2 ^ d <= 2 ^ k) by (apply Nat.pow_le_mono_r; lia). lia.
Qed.
Lemma no_mask d i : 3 <= d -> (i = 2 ^ d - 2 \/ i = 2 ^ d - 1 \/ i = 2 ^ d + 3) -> ~ in_mn_plus (2 ^ S d) i.
Proof.
  intros Hd Hi. assert (E2 : 2 ^ S d = 2 * 2 ^ d) by apply Nat.pow_succ_r'. assert (E8 : 2 ^ 3 <= 2 ^ d) by (apply Nat.pow_le_mono_r; lia). change (2 ^ 3) with 8 in E8.
  intros M. destruct (Nat.lt_ge_cases i (2 ^ d)) as [G|G].
  - destruct M as [M|[M|[(k & Hk & H2 & E)|[M|M]]]]; try lia.
    assert (Hkd : S k <= d).
    { destruct (Nat.le_gt_cases (S k) d) as [|G1]; auto. assert (2 ^ d <= 2 ^ k) by (apply Nat.pow_le_mono_r; lia). lia. }
    assert (X : 2 ^ S k <= 2 ^ d) by (apply Nat.pow_le_mono_r; lia). rewrite Nat.pow_succ_r' in X. lia.
  - apply upper_mask in M; lia.
Qed.
Lemma silent4 xs (e y : list Scalar) : hd s0 xs <> s0 -> generic 1 xs e -> silent 1 xs e y -> forall i, i < 4 -> sc y i = s0.
Proof.
  intros Nx [D _]. cbn [silent]. change (2 ^ 1) with 2 in *. set (x := hd s0 xs) in *. intros (S1 & S2 & S3 & S4).
  cbn [sum_S] in S1, S2. unfold fold_lo in S3, S4. rewrite sc_tab in S3, S4 by lia.
  change (2 + 0) with 2 in *. change (2 + 1) with 3 in *.
  assert (Y0 : (sc y 0%nat = - (x * sc y 2%nat))%S) by (transitivity (sc y 0%nat + x * sc y 2%nat - x * sc y 2%nat)%S; [ring|rewrite S3; ring]).
  assert (Y1 : (sc y 1%nat = - (x * sc y 3%nat))%S) by (transitivity (sc y 1%nat + x * sc y 3%nat - x * sc y 3%nat)%S; [ring|rewrite S4; ring]).
  rewrite Y0, Y1 in S2.
  assert (Z : (x * (sc e 2%nat * sc y 2%nat + sc e 3%nat * sc y 3%nat) = s0)%S).
  { transitivity (- (s0 + - (x * sc y 2%nat) * sc e 2%nat + - (x * sc y 3%nat) * sc e 3%nat))%S; [ring|]. rewrite S2. ring. }
  apply smul_eq_0 in Z as [Z|Z]; [contradiction|].
  destruct (det_zero (sc e 0) (sc e 1) (sc e 2) (sc e 3) (sc y 2) (sc y 3) D) as [Z2 Z3]; auto.
  { rewrite <- S1. ring. }
  intros i Hi. destruct i as [|[|[|[|]]]]; [rewrite Y0, Z2; ring|rewrite Y1, Z3; ring|exact Z2|exact Z3|lia].
Qed.
(** one fold: the folded direction vanishes, so do its last two entries *)
Lemma silent_step d x (e y : list Scalar) : 2 <= d -> x <> s0 ->
  (forall i, i < 2 ^ S d -> ~ in_mn_plus (2 ^ S d) i -> sc y i = s0) ->
  (sc e 0 * sc e (S (2 ^ d)) - sc e 1 * sc e (2 ^ d)%nat)%S <> s0 ->
  sum_S (2 ^ d) (fun i => sc y (2 ^ d + i) * sc e i)%S = s0 -> sum_S (2 ^ d) (fun i => sc y i * sc e (2 ^ d + i))%S = s0 ->
  (forall i, i < 2 ^ d -> sc (fold_lo x (2 ^ d) y) i = s0) -> sc y (2 ^ S d - 2) = s0 -> sc y (2 ^ S d - 1) = s0 ->
  forall i, i < 2 ^ S d -> sc y i = s0.
Proof.
  intros Hd Nx Y0 D S1 S2 F Za Zb. assert (E2 : 2 ^ S d = 2 * 2 ^ d) by apply Nat.pow_succ_r'. assert (E4 := size8 d Hd).
  assert (Lo : forall i, i < 2 ^ d -> (sc y i = - (x * sc y (2 ^ d + i)%nat))%S).
  { intros i Hi. assert (X := F i Hi). unfold fold_lo in X. rewrite sc_tab in X by auto.
    transitivity (sc y i + x * sc y (2 ^ d + i)%nat - x * sc y (2 ^ d + i)%nat)%S; [ring|rewrite X; ring]. }
  assert (Up : forall i, 2 <= i -> i < 2 ^ d -> sc y (2 ^ d + i)%nat = s0).
  { intros i H2 Hi. destruct (in_mn_plus_dec (2 ^ S d) (2 ^ d + i)) as [M|M]; [|apply Y0; [lia|exact M]].
    apply upper_mask in M as [M|[M|[M|M]]]; try lia; rewrite M; assumption. }
  assert (Two : forall f : nat -> Scalar, (forall i, 2 <= i -> i < 2 ^ d -> f i = s0) -> sum_S (2 ^ d) f = (f 0%nat + f 1%nat)%S).
  { intros f Hf. replace (2 ^ d) with (2 + (2 ^ d - 2)) by lia. rewrite sum_S_app. rewrite (sum_S_0 (2 ^ d - 2)) by (intros i Hi; apply Hf; lia). cbn [sum_S]. ring. }
  rewrite Two in S1 by (intros i H2 Hi; rewrite Up by auto; ring).
  rewrite Two in S2 by (intros i H2 Hi; rewrite Lo, Up by auto; ring).
  rewrite (Lo 0), (Lo 1) in S2 by lia. rewrite Nat.add_0_r in S1, S2. replace (2 ^ d + 1) with (S (2 ^ d)) in S1, S2 by lia.
  assert (Z : (x * (sc e (2 ^ d)%nat * sc y (2 ^ d)%nat + sc e (S (2 ^ d)) * sc y (S (2 ^ d))) = s0)%S).
  { transitivity (- (- (x * sc y (2 ^ d)%nat) * sc e (2 ^ d)%nat + - (x * sc y (S (2 ^ d))) * sc e (S (2 ^ d))))%S; [ring|]. rewrite S2. ring. }
  apply smul_eq_0 in Z as [Z|Z]; [contradiction|].
  destruct (det_zero _ _ _ _ (sc y (2 ^ d)%nat) (sc y (S (2 ^ d))) D) as [Zk Zk1]; auto.
  { rewrite <- S1. ring. }
  assert (Up' : forall i, i < 2 ^ d -> sc y (2 ^ d + i)%nat = s0).
  { intros [|[|i]] Hi; [now rewrite Nat.add_0_r|now replace (2 ^ d + 1) with (S (2 ^ d)) by lia|apply Up; lia]. }
  intros i Hi. destruct (Nat.lt_ge_cases i (2 ^ d)) as [G|G]; [rewrite Lo, Up' by auto; ring|].
  replace i with (2 ^ d + (i - 2 ^ d)) by lia. apply Up'. lia.
Qed.
Lemma fold_mask d x (y : list Scalar) : 3 <= d -> (forall i, i < 2 ^ S d -> ~ in_mn_plus (2 ^ S d) i -> sc y i = s0) ->
  forall i, i < 2 ^ d -> ~ in_mn_plus (2 ^ d) i -> sc (fold_lo x (2 ^ d) y) i = s0.
Proof.
  intros Hd Y0 i Hi M. assert (E2 : 2 ^ S d = 2 * 2 ^ d) by apply Nat.pow_succ_r'. unfold fold_lo. rewrite sc_tab by auto.
  rewrite (Y0 i ltac:(lia)) by (intros M1; apply M; now apply lower_mask).
  rewrite (Y0 (2 ^ d + i) ltac:(lia)); [ring|]. intros M1. apply M. apply upper_mask in M1; [|lia]. unfold in_mn_plus.
  destruct M1 as [M1|[M1|[M1|M1]]]; lia.
Qed.
(** a silent direction on the mask positions is determined by its last two entries ... *)
Lemma silent_zero d : 2 <= d -> forall xs (e y : list Scalar), length xs = S d -> (forall x, In x xs -> x <> s0) ->
  (forall i, i < 2 ^ S d -> ~ in_mn_plus (2 ^ S d) i -> sc y i = s0) ->
  generic d xs e -> silent d xs e y -> sc y (2 ^ S d - 2) = s0 -> sc y (2 ^ S d - 1) = s0 -> forall i, i < 2 ^ S d -> sc y i = s0.
Proof.
  intros Hd. induction d as [|d IH]; [lia|]. intros xs e y Lx Nx Y0 G Hs Za Zb.
  destruct xs as [|x xs]; [discriminate|]. cbn in Lx.
  change (generic (S d) (x :: xs) e) with ((sc e 0 * sc e (S (2 ^ S d)) - sc e 1 * sc e (2 ^ S d)%nat)%S <> s0 /\ generic d xs (fold_hi x (2 ^ S d) e)) in G.
  change (silent (S d) (x :: xs) e y) with (sum_S (2 ^ S d) (fun i => sc y (2 ^ S d + i) * sc e i)%S = s0 /\ sum_S (2 ^ S d) (fun i => sc y i * sc e (2 ^ S d + i))%S = s0 /\
    silent d xs (fold_hi x (2 ^ S d) e) (fold_lo x (2 ^ S d) y)) in Hs.
  destruct G as [D G], Hs as (S1 & S2 & S3). assert (Nx0 : x <> s0) by (apply Nx; now left).
  assert (Nx' : forall z, In z xs -> z <> s0) by (intros z Hz; apply Nx; now right).
  apply (silent_step (S d) x e y Hd Nx0 Y0 D S1 S2); auto.
  destruct (Nat.eq_dec d 1) as [->|Hne].
  - destruct xs as [|x1 xs]; [discriminate|]. apply (silent4 (x1 :: xs) (fold_hi x (2 ^ 2) e) (fold_lo x (2 ^ 2) y)); auto. apply Nx'. now left.
  - assert (E2 : 2 ^ S (S d) = 2 * 2 ^ S d) by apply Nat.pow_succ_r'. assert (E4 := size8 d ltac:(lia)).
    apply (IH ltac:(lia) xs (fold_hi x (2 ^ S d) e)); auto.
    + apply (fold_mask (S d)); [lia|exact Y0].
    + unfold fold_lo. rewrite sc_tab by lia. replace (2 ^ S d + (2 ^ S d - 2)) with (2 ^ S (S d) - 2) by lia. rewrite Za.
      rewrite Y0; [ring|lia|]. apply no_mask; lia.
    + unfold fold_lo. rewrite sc_tab by lia. replace (2 ^ S d + (2 ^ S d - 1)) with (2 ^ S (S d) - 1) by lia. rewrite Zb.
      rewrite Y0; [ring|lia|]. apply no_mask; lia.
Qed.
(** ... and its fourth entry is a multiple of the last one *)
Lemma silent_three d : 2 <= d -> forall xs, length xs = S d -> (forall x, In x xs -> x <> s0) ->
  exists c, c <> s0 /\ forall (e y : list Scalar), (forall i, i < 2 ^ S d -> ~ in_mn_plus (2 ^ S d) i -> sc y i = s0) ->
  generic d xs e -> silent d xs e y -> sc y 3 = (c * sc y (2 ^ S d - 1)%nat)%S.
Proof.
  intros Hd. induction d as [|d IH]; [lia|]. intros xs Lx Nx.
  destruct xs as [|x xs]; [discriminate|]. cbn in Lx. assert (Nx0 : x <> s0) by (apply Nx; now left).
  assert (Nx' : forall z, In z xs -> z <> s0) by (intros z Hz; apply Nx; now right).
  destruct (Nat.eq_dec d 1) as [->|Hne].
  - exists (- x)%S. split; [intros Z; apply Nx0; transitivity (- - x)%S; [ring|rewrite Z; ring]|].
    intros e y Y0 [_ G] (_ & _ & S3). destruct xs as [|x1 xs]; [discriminate|].
    assert (X := silent4 (x1 :: xs) (fold_hi x (2 ^ 2) e) (fold_lo x (2 ^ 2) y) ltac:(apply Nx'; now left) G S3 3 ltac:(lia)).
    change (2 ^ 2) with 4 in X. unfold fold_lo in X. rewrite sc_tab in X by lia. change (4 + 3) with 7 in X. change (2 ^ 3 - 1) with 7.
    transitivity (sc y 3%nat + x * sc y 7%nat - x * sc y 7%nat)%S; [ring|rewrite X; ring].
  - destruct (IH ltac:(lia) xs ltac:(lia) Nx') as (c & Nc & HC). exists (c * x)%S. split; [intros Z; apply smul_eq_0 in Z as [Z|Z]; contradiction|].
    assert (E2 : 2 ^ S (S d) = 2 * 2 ^ S d) by apply Nat.pow_succ_r'. assert (E4 := size8 d ltac:(lia)). assert (E8 : 1 <= 2 ^ d) by apply pow2_pos.
    intros e y Y0 [_ G] (_ & _ & S3). cbn [hd tl] in G, S3.
    assert (X := HC (fold_hi x (2 ^ S d) e) (fold_lo x (2 ^ S d) y) (fold_mask (S d) x y ltac:(lia) Y0) G S3).
    unfold fold_lo in X. rewrite !sc_tab in X by lia. replace (2 ^ S d + (2 ^ S d - 1)) with (2 ^ S (S d) - 1) in X by lia.
    rewrite (Y0 (2 ^ S d + 3)), (Y0 (2 ^ S d - 1)) in X; try (apply no_mask; lia); try lia.
    transitivity (sc y 3%nat + x * s0)%S; [ring|]. rewrite X. ring.
Qed.
(** changing the fourth entry of h *)
Lemma generic_bump d : 1 <= d -> forall xs (h : list Scalar), length xs = S d -> (forall x, In x xs -> x <> s0) -> generic d xs h ->
  exists c, forall t h', t <> c -> (forall i, i < 2 ^ S d -> sc h' i = sc h i + (if i =? 3 then t else s0))%S -> generic d xs h'.
Proof.
  induction d as [|d IH]; [lia|]. intros _ xs h Lx Nx [D G].
  destruct xs as [|x xs]; [discriminate|]. cbn in Lx. assert (Nx0 : x <> s0) by (apply Nx; now left).
  assert (Nx' : forall z, In z xs -> z <> s0) by (intros z Hz; apply Nx; now right). cbn [hd tl] in G. cbv zeta in D.
  assert (E2 : 2 ^ S (S d) = 2 * 2 ^ S d) by apply Nat.pow_succ_r'. destruct d as [|d].
  - change (2 ^ 1) with 2 in D. destruct (S_eq_dec (sc h 0) s0) as [Z|N].
    + exists s0. intros t h' _ Hh. split; [|exact I]. change (2 ^ 1) with 2. rewrite !Hh by (cbn; lia). cbn [Nat.eqb]. rewrite Z in *.
      intros Y. apply D. eapply eq_trans; [|exact Y]. ring.
    + exists (- (sc h 0 * sc h 3 - sc h 1 * sc h 2) * sinv (sc h 0%nat))%S. intros t h' Nt Hh. split; [|exact I]. change (2 ^ 1) with 2.
      rewrite !Hh by (cbn; lia). cbn [Nat.eqb]. intros Y. apply Nt.
      transitivity (((sc h 0 + s0) * (sc h 3 + t) - (sc h 1 + s0) * (sc h 2 + s0) - (sc h 0 * sc h 3 - sc h 1 * sc h 2)) * sinv (sc h 0%nat))%S; [field; exact N|].
      rewrite Y. ring.
  - destruct (IH ltac:(lia) xs _ ltac:(lia) Nx' G) as (c & HC). exists (sinv x * c)%S. intros t h' Nt Hh.
    assert (E4 : 4 <= 2 ^ S (S d)) by (change 4 with (2 ^ 2); apply Nat.pow_le_mono_r; lia).
    split.
    + cbv zeta. rewrite !Hh by lia. destruct (Nat.eqb_spec (S (2 ^ S (S d))) 3), (Nat.eqb_spec (2 ^ S (S d)) 3); try lia. cbn [Nat.eqb].
      intros Y. apply D. eapply eq_trans; [|exact Y]. ring.
    + cbn [hd tl]. apply (HC (x * t)%S).
      * intros Y. apply Nt. rewrite <- Y. field. exact Nx0.
      * intros i Hi. unfold fold_hi. rewrite !sc_tab by lia. rewrite !Hh by lia. destruct (Nat.eqb_spec (2 ^ S (S d) + i) 3); [lia|]. destruct (i =? 3); ring.
Qed.
Lemma generic_ext d : forall xs (h h' : list Scalar), (forall i, i < 2 ^ S d -> sc h' i = sc h i) -> generic d xs h -> generic d xs h'.
Proof.
  induction d as [|d IH]; intros xs h h' E; [easy|]. assert (E2 : 2 ^ S (S d) = 2 * 2 ^ S d) by apply Nat.pow_succ_r'. assert (1 <= 2 ^ d) by apply pow2_pos.
  assert (E3 : 2 ^ S d = 2 * 2 ^ d) by apply Nat.pow_succ_r'.
  intros [D G]. split; [cbv zeta; rewrite !E by lia; exact D|]. apply (IH _ (fold_hi (hd s0 xs) (2 ^ S d) h)); auto. intros i Hi. unfold fold_hi.
  rewrite !sc_tab by lia. now rewrite !E by lia.
Qed.
(** last two entries of a vector folded from its first two *)
Lemma last_low d : forall xs, d <= length xs -> (forall x, In x xs -> x <> s0) ->
  exists c, c <> s0 /\ forall v : list Scalar, (forall i, 2 <= i < 2 ^ S d -> sc v i = s0) ->
    sc (last_a d xs v) 0 = (c * sc v 0%nat)%S /\ sc (last_a d xs v) 1 = (c * sc v 1%nat)%S.
Proof.
  induction d as [|d IH]; intros xs Lx Nx.
  - exists s1. split; [apply s1_neq_s0|]. intros v _. cbn [last_a]. split; ring.
  - destruct xs as [|x xs]; [cbn in Lx; lia|]. cbn in Lx. destruct (IH xs ltac:(lia) (fun z Hz => Nx z (or_intror Hz))) as (c & Nc & HC).
    exists (c * x)%S. split; [intros Z; apply smul_eq_0 in Z as [Z|Z]; [contradiction|exact (Nx x (or_introl eq_refl) Z)]|].
    assert (E2 : 2 ^ S (S d) = 2 * 2 ^ S d) by apply Nat.pow_succ_r'. assert (1 <= 2 ^ d) by apply pow2_pos. assert (E3 : 2 ^ S d = 2 * 2 ^ d) by apply Nat.pow_succ_r'.
    intros v Hv. cbn [last_a hd tl]. destruct (HC (fold_hi x (2 ^ S d) v)) as [H0 H1].
    { intros i Hi. unfold fold_hi. rewrite sc_tab by lia. rewrite !Hv by lia. ring. }
    rewrite H0, H1. unfold fold_hi. rewrite !sc_tab by lia. rewrite !(Hv (2 ^ S d + _)) by lia. split; ring.
Qed.
Lemma silent_lin d xs (e y z : list Scalar) s : length y = 2 ^ S d -> silent d xs e y -> silent d xs e z ->
  silent d xs e (PropCount.vline y s z).
Proof.
  intros Ly Hy Hz. set (f := fun i => sc e i). assert (F : forall i, i < 2 ^ S d -> f i = sc e i) by reflexivity.
  apply (silent_rows d xs e _ f F). rewrite (silent_rows d xs e y f F) in Hy. rewrite (silent_rows d xs e z f F) in Hz.
  intros r Hr. rewrite (sum_S_ext _ _ (fun i => r i * sc y i + s * (r i * sc z i))%S).
  - rewrite sum_S_add, sum_S_mul, Hy, Hz by auto. ring.
  - intros i Hi. unfold PropCount.vline. rewrite sc_tab by lia. ring.
Qed.
Lemma silent_dec d xs (e y : list Scalar) : {silent d xs e y} + {~ silent d xs e y}.
Proof.
  assert (D : {Forall (fun r => sum_S (2 ^ S d) (fun i => r i * sc y i)%S = s0) (srows d xs (sc e))} + {~ Forall (fun r => sum_S (2 ^ S d) (fun i => r i * sc y i)%S = s0) (srows d xs (sc e))}).
  { apply Forall_dec. intros r. apply S_eq_dec. }
  destruct D as [D|D]; [left|right].
  - apply (silent_rows d xs e y (sc e)); [reflexivity|]. intros r Hr. rewrite Forall_forall in D. now apply D.
  - intros H. apply D, Forall_forall. intros r Hr. rewrite (silent_rows d xs e y (sc e)) in H by reflexivity. now apply H.
Qed.
Lemma avoid (vals l : list Scalar) : NoDup vals -> length l < length vals -> exists x, ~ In x l.
Proof.
  intros HN Hl. destruct (Forall_Exists_dec (fun x => In x l) (fun x => in_dec S_eq_dec x l) vals) as [F|E].
  - exfalso. rewrite Forall_forall in F. assert (X := NoDup_incl_length HN F). lia.
  - apply Exists_exists in E as (x & _ & Hx). now exists x.
Qed.
Lemma roots (vals : list Scalar) (c : Scalar) : (forall x, In x vals) -> exists r, forall x, (x * x)%S = c -> x = r \/ x = (- r)%S.
Proof.
  intros HA. destruct (Exists_dec (fun r => (r * r)%S = c) vals (fun r => S_eq_dec _ _)) as [E|E].
  - apply Exists_exists in E as (r & _ & Er). exists r. intros x Ex.
    assert (Y : ((x - r) * (x + r) = s0)%S) by (transitivity (x * x - r * r)%S; [ring|rewrite Ex, Er; ring]).
    apply smul_eq_0 in Y as [Y|Y]; [left|right].
    + transitivity (x - r + r)%S; [ring|rewrite Y; ring].
    + transitivity (x + r - r)%S; [ring|rewrite Y; ring].
  - exists s0. intros x Ex. exfalso. apply E, Exists_exists. exists x. auto.
Qed.
End Gen.

(** ** points of a family whose first vectors end in rho, 0 and whose second vectors are
    0, ..., 0, rho, for every rho *)
Section Points.
Context {C : Crypto} {L : CryptoLaws C}.
Add Field SfZP : (@S_field C L).

Lemma dotp_units n (v : list Scalar) k s l t : length v = n -> k < n -> l < n ->
  dotp v (tab n (fun i => s * sc (unit_vec n k) i + t * sc (unit_vec n l) i)%S) = (s * sc v k + t * sc v l)%S.
Proof.
  intros Lv Hk Hl. rewrite <- (dotp_unit_r v n k Lv Hk), <- (dotp_unit_r v n l Lv Hl). unfold dotp.
  rewrite <- !sum_S_mul, <- sum_S_add. apply sum_S_ext. intros i Hi. rewrite sc_tab by lia. ring.
Qed.
Lemma family_from (vals : list Scalar) d P (h : list Scalar) q (A Bv : list Scalar -> list Scalar) (w : nat -> Scalar) :
  let n := 2 ^ S d in 2 <= d -> length h = n ->
  (forall p, length p = P -> length (A p) = n /\ length (Bv p) = n) ->
  (forall rho, exists p, length p = P /\ (forall i, i < n - 2 -> sc (A p) i = w i) /\ sc (A p) (n - 2) = rho /\ sc (A p) (n - 1) = s0 /\
     (forall i, i < n - 1 -> sc (Bv p) i = s0) /\ sc (Bv p) (n - 1) = rho) ->
  NoDup vals -> (forall x, In x vals) -> 7 <= length vals -> zk_generators d h -> family_points d P h q A Bv.
Proof.
  intros n Hd Hh HL HP HN HA H7 (xs & Lx & Nx & G).
  assert (Hn : 8 <= n) by (unfold n; change 8 with (2 ^ 3); apply Nat.pow_le_mono_r; lia).
  (* alpha *)
  destruct (generic_bump d ltac:(lia) xs h Lx Nx G) as (c & HC). fold n in HC.
  set (ef := fun al => tab n (fun i => sc h i + sinv al * q * sc (unit_vec n 3) i)%S).
  assert (Ef : forall al i, i < n -> (sc (ef al) i = sc h i + (if i =? 3 then sinv al * q else s0))%S).
  { intros al i Hi. unfold ef. rewrite sc_tab by auto. unfold unit_vec. rewrite sc_tab by auto. destruct (i =? 3); ring. }
  assert (Hal : exists al, al <> s0 /\ generic d xs (ef al)).
  { destruct (S_eq_dec q s0) as [->|Nq].
    - exists s1. split; [apply s1_neq_s0|]. apply (generic_ext d xs h); auto. intros i Hi. rewrite Ef by auto. destruct (i =? 3); ring.
    - destruct (avoid vals [s0; (q * sinv c)%S] HN ltac:(cbn; lia)) as (al & Hal). assert (Na : al <> s0) by (intros Z; apply Hal; now left).
      exists al. split; [exact Na|]. apply (HC (sinv al * q)%S); [|now apply Ef].
      intros Y. apply Hal. right; left.
      assert (Nc : c <> s0).
      { intros Z. rewrite Z in Y. apply smul_eq_0 in Y as [Y|Y]; [|contradiction]. apply s1_neq_s0. transitivity (sinv al * al)%S; [now rewrite sinv_l|]. rewrite Y. ring. }
      rewrite <- Y. field. split; assumption. }
  destruct Hal as (al & Nal & Ge). set (e := ef al) in *.
  destruct (silent_three d Hd xs Lx Nx) as (c3 & Nc3 & H3). fold n in H3.
  (* the value of rho at which the mask would not hide *)
  set (wy := fun y => sum_S (n - 2) (fun i => w i * sc y i)%S).
  assert (Hk : exists kap, forall y rho, rho <> kap -> length y = n -> (forall i, i < n -> ~ in_mn_plus n i -> sc y i = s0) -> silent d xs e y -> sc y (n - 1) = s0 ->
     (wy y + rho * sc y (n - 2)%nat)%S = s0 -> sc y (n - 2) = s0).
  { set (Pr := fun y => (forall i, i < n -> ~ in_mn_plus n i -> sc y i = s0) /\ silent d xs e y /\ sc y (n - 1) = s0 /\ sc y (n - 2) <> s0).
    assert (PD : forall y, {Pr y} + {~ Pr y}).
    { intros y. destruct (silent_dec d xs e y) as [D1|D1]; [|right; intros (_ & Y & _); contradiction].
      destruct (S_eq_dec (sc y (n - 1)) s0) as [D2|D2]; [|right; intros (_ & _ & Y & _); contradiction].
      destruct (S_eq_dec (sc y (n - 2)) s0) as [D3|D3]; [right; intros (_ & _ & _ & Y); contradiction|].
      destruct (Forall_dec (fun i => in_mn_plus n i \/ sc y i = s0)
        (fun i => match in_mn_plus_dec n i with left a => left (or_introl a) | right b => match S_eq_dec (sc y i) s0 with left a => left (or_intror a) | right b' => right (fun o => match o with or_introl a => b a | or_intror a => b' a end) end end) (seq 0 n)) as [D4|D4].
      - left. rewrite Forall_forall in D4. split; auto. intros i Hi M. destruct (D4 i) as [Y|Y]; [apply in_seq; lia|contradiction|exact Y].
      - right. intros (Y & _). apply D4, Forall_forall. intros i Hi. apply in_seq in Hi. destruct (in_mn_plus_dec n i); [now left|right; apply Y; [lia|auto]]. }
    destruct (Exists_dec Pr (words vals n) PD) as [E|E].
    - apply Exists_exists in E as (y0 & Iy & S0 & Y1 & Y2 & Y3). apply words_In in Iy as [Ly _].
      exists (- (wy y0) * sinv (sc y0 (n - 2)%nat))%S. intros y rho Nr Lyy Sy Hy Zy Ey.
      set (z := PropCount.vline y (- (sc y (n - 2)%nat * sinv (sc y0 (n - 2)%nat)))%S y0).
      assert (Ez : forall i, i < n -> (sc z i = sc y i - sc y (n - 2)%nat * sinv (sc y0 (n - 2)%nat) * sc y0 i)%S).
      { intros i Hi. unfold z, PropCount.vline. rewrite sc_tab by lia. ring. }
      assert (Z0 : forall i, i < n -> sc z i = s0).
      { apply (silent_zero d Hd xs e z Lx Nx); auto; fold n.
        - intros i Hi M. rewrite Ez, (Sy i), (S0 i) by auto. ring.
        - apply silent_lin; auto.
        - rewrite Ez by lia. field. exact Y3.
        - rewrite Ez, Zy, Y2 by lia. ring. }
      assert (Yi : forall i, i < n -> (sc y i = sc y (n - 2)%nat * sinv (sc y0 (n - 2)%nat) * sc y0 i)%S).
      { intros i Hi. transitivity (sc z i + sc y (n - 2)%nat * sinv (sc y0 (n - 2)%nat) * sc y0 i)%S; [rewrite Ez by auto; ring|rewrite Z0 by auto; ring]. }
      assert (Wy : (wy y = sc y (n - 2)%nat * sinv (sc y0 (n - 2)%nat) * wy y0)%S).
      { unfold wy. rewrite <- sum_S_mul. apply sum_S_ext. intros i Hi. rewrite (Yi i) by lia. ring. }
      rewrite Wy in Ey.
      assert (F : (sc y (n - 2)%nat * (sinv (sc y0 (n - 2)%nat) * wy y0 + rho) = s0)%S) by (rewrite <- Ey; ring).
      apply smul_eq_0 in F as [F|F]; [exact F|]. exfalso. apply Nr.
      transitivity (sinv (sc y0 (n - 2)%nat) * wy y0 + rho - sinv (sc y0 (n - 2)%nat) * wy y0)%S; [ring|]. rewrite F. ring.
    - exists s0. intros y rho _ Ly Sy Hy Zy _. destruct (S_eq_dec (sc y (n - 2)) s0) as [Z|N]; [exact Z|]. exfalso. apply E, Exists_exists.
      exists y. split; [|exact (conj Sy (conj Hy (conj Zy N)))]. apply words_In. split; [exact Ly|]. apply Forall_forall. intros x _. apply HA. }
  destruct Hk as (kap & Hk).
  (* rho *)
  set (cw := sum_S (n - 2) (fun i => w i * w i)%S).
  destruct (roots vals (- cw)%S HA) as (ra & Ra). destruct (roots vals (- (w 0%nat * w 0%nat))%S HA) as (rb & Rb).
  destruct (avoid vals [s0; kap; ra; (- ra)%S; rb; (- rb)%S] HN ltac:(cbn; lia)) as (rho & Hr).
  assert (N0 : rho <> s0) by (intros Z; apply Hr; now left). assert (Nk : rho <> kap) by (intros Z; apply Hr; right; now left).
  assert (Na : (cw + rho * rho)%S <> s0).
  { intros Z. apply Hr. destruct (Ra rho) as [->| ->]; [|cbn; tauto|cbn; tauto]. transitivity (cw + rho * rho - cw)%S; [ring|rewrite Z; ring]. }
  assert (Nb : (w 0%nat * w 0%nat + rho * rho)%S <> s0).
  { intros Z. apply Hr. destruct (Rb rho) as [->| ->]; [|cbn; tauto|cbn; tauto]. transitivity (w 0%nat * w 0%nat + rho * rho - w 0%nat * w 0%nat)%S; [ring|rewrite Z; ring]. }
  destruct (HP rho) as (p & Lp & A1 & A2 & A3 & B1 & B2). destruct (HL p Lp) as (LA & LB). clear HP HL HC Ra Rb Hr.
  set (a := A p) in *. set (b := Bv p) in *.
  assert (AA : dotp a a = (cw + rho * rho)%S).
  { unfold dotp. rewrite LA, sum_split2 by lia. rewrite A2, A3. unfold cw. rewrite (sum_S_ext (n - 2) (fun i => sc a i * sc a i)%S (fun i => w i * w i)%S); [ring|].
    intros i Hi. now rewrite A1. }
  assert (Bm : forall v, dotp b v = (rho * sc v (n - 1)%nat)%S).
  { intros v. unfold dotp. rewrite LB. rewrite (sum_S_single n (n - 1)); [now rewrite B2|lia|]. intros i Hi Ni. rewrite B1 by lia. ring. }
  assert (BB : dotp b b = (rho * rho)%S) by (rewrite Bm, B2; reflexivity).
  assert (NA : dotp a a <> s0) by now rewrite AA. assert (NB : dotp b b <> s0) by (rewrite BB; intros Z; apply smul_eq_0 in Z as [Z|Z]; contradiction).
  assert (Aw : forall v, length v = n -> sc v (n - 1) = s0 -> away b v = v).
  { intros v Lv Zv. unfold away. rewrite LB, Bm, Zv. symmetry. apply (tab_eq s0); [exact Lv|]. intros i Hi. change (nth i v s0) with (sc v i). ring. }
  assert (Un : forall k i, i < n -> sc (unit_vec n k) i = if i =? k then s1 else s0) by (intros k i Hi; unfold unit_vec; now rewrite sc_tab).
  assert (MP : in_mn_plus n 0 /\ in_mn_plus n 1 /\ in_mn_plus n 3 /\ in_mn_plus n (n - 2) /\ in_mn_plus n (n - 1)).
  { unfold in_mn_plus. repeat split; auto. right; right; left. exists 1. change (2 ^ (1 + 1)) with 4. change (2 ^ 1) with 2. split; [lia|]. split; [lia|]. right. reflexivity. }
  destruct MP as (P0 & P1 & P3 & Pa & Pb).
  assert (OM : forall k, k < n -> in_mn_plus n k -> on_mask d (unit_vec n k)).
  { intros k Hkn M. split; [apply tab_length|]. fold n. intros i Hi Ni. rewrite Un by auto. destruct (Nat.eqb_spec i k) as [->|_]; [contradiction|reflexivity]. }
  assert (UL : forall k, length (unit_vec n k) = n) by (intros; apply tab_length).
  assert (U1 : forall k, k < n - 1 -> sc (unit_vec n k) (n - 1) = s0) by (intros k Hkn; rewrite Un by lia; destruct (Nat.eqb_spec (n - 1) k); [lia|reflexivity]).
  split; [|split; [|split; [|split]]].
  - destruct (last_low d xs ltac:(lia) Nx) as (cl & Ncl & Hl). exists p, xs, 0, 1. fold n b.
    split; [exact Lp|]. split; [exact Lx|]. split; [exact NB|]. split; [lia|]. split; [lia|]. split; [exact P0|]. split; [exact P1|].
    cbv beta zeta. fold b n. rewrite !Aw by (auto; apply U1; lia).
    destruct (Hl (unit_vec n 0)) as [Q1 Q2]; [intros i Hi; rewrite Un by (fold n in Hi; lia); destruct (Nat.eqb_spec i 0); [lia|reflexivity]|].
    destruct (Hl (unit_vec n 1)) as [Q3 Q4]; [intros i Hi; rewrite Un by (fold n in Hi; lia); destruct (Nat.eqb_spec i 1); [lia|reflexivity]|].
    rewrite Q1, Q2, Q3, Q4, !Un by lia. cbn [Nat.eqb]. intros Z. assert (Z' : (cl * cl = s0)%S) by (rewrite <- Z; ring). apply smul_eq_0 in Z' as [Z'|Z']; contradiction.
  - exists p, (unit_vec n (n - 1)). fold b. split; [exact Lp|]. split; [apply OM; auto; lia|]. rewrite Bm, Un by lia. rewrite Nat.eqb_refl. intros Z. apply N0. rewrite <- Z. ring.
  - exists p, (unit_vec n (n - 2)). fold a b. split; [exact Lp|]. split; [apply OM; auto; lia|]. split; [exact NA|]. split; [exact NB|].
    rewrite Aw by (auto; apply U1; lia). rewrite dotp_unit_r by (auto; lia). rewrite A2. exact N0.
  - set (m := tab n (fun i => rho * sc (unit_vec n 0) i + (- w 0%nat) * sc (unit_vec n (n - 2)) i)%S). exists p, m. fold a b.
    assert (Lm : length m = n) by apply tab_length.
    assert (Em : forall i, i < n -> (sc m i = rho * sc (unit_vec n 0) i + (- w 0%nat) * sc (unit_vec n (n - 2)) i)%S) by (intros i Hi; unfold m; now rewrite sc_tab).
    split; [exact Lp|]. split.
    { split; [exact Lm|]. fold n. intros i Hi Ni. rewrite Em, !Un by auto. destruct (Nat.eqb_spec i 0) as [->|_]; [contradiction|].
      destruct (Nat.eqb_spec i (n - 2)) as [->|_]; [contradiction|]. ring. }
    split; [exact NA|]. split; [exact NB|]. cbv zeta. rewrite Aw; auto.
    2:{ rewrite Em, !U1 by lia. ring. }
    assert (Am : dotp a m = s0).
    { unfold m. rewrite dotp_units by (auto; lia). rewrite A2, A1 by lia. ring. }
    assert (Ea : away a m = m).
    { unfold away. rewrite LA, Am. symmetry. apply (tab_eq s0); [exact Lm|]. intros i Hi. change (nth i m s0) with (sc m i). ring. }
    rewrite Ea. unfold m at 2. rewrite dotp_units by (auto; lia). rewrite !Em, !Un by lia. rewrite !Nat.eqb_refl.
    destruct (Nat.eqb_spec 0 (n - 2)); [lia|]. destruct (Nat.eqb_spec (n - 2) 0); [lia|]. cbn [Nat.eqb]. intros Z. apply Nb. eapply eq_trans; [|exact Z]. ring.
  - exists p, (unit_vec n 3), s0, al, xs. fold a b. split; [exact Lp|]. split; [apply OM; auto; lia|]. split; [exact NA|]. split; [exact NB|]. split; [exact Nal|]. split; [exact Lx|].
    cbv zeta. rewrite Aw by (auto; apply U1; lia). fold n.
    assert (Ee : tab n (fun i => sc h i + sinv al * q * sc (masked s0 a (unit_vec n 3)) i)%S = e).
    { unfold e, ef. apply tab_ext. intros i Hi. unfold masked. rewrite sc_tab by lia. ring. }
    rewrite Ee. intros y Ly Sy Ya Yo Ys. fold n in Ly, Sy |- *.
    rewrite (dotp_comm _ y) in Yo by (rewrite away_length; lia). rewrite dotp_away_any in Yo by (rewrite ?UL; lia).
    rewrite (dotp_comm y a), Ya, dotp_unit_r in Yo by lia.
    assert (Y3 : sc y 3 = s0) by (rewrite <- Yo; ring).
    assert (Yl : sc y (n - 1) = s0).
    { assert (X := H3 e y Sy Ge Ys). rewrite Y3 in X. symmetry in X. apply smul_eq_0 in X as [X|X]; [contradiction|exact X]. }
    assert (Yl2 : sc y (n - 2) = s0).
    { apply (Hk y rho); auto. rewrite <- Ya. unfold dotp. rewrite LA, sum_split2 by lia. rewrite A2, A3. unfold wy.
      rewrite (sum_S_ext (n - 2) (fun i => sc a i * sc y i)%S (fun i => w i * sc y i)%S); [ring|]. intros i Hi. now rewrite A1. }
    apply (silent_zero d Hd xs e y Lx Nx); auto.
Qed.
End Points.
