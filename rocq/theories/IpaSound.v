(** Correctness of the extractor of the inner product argument. *)
From Verif Require Export IpaFacts.
Local Open Scope nat_scope.
Local Open Scope list_scope.

Section Sound.
Context {C : Crypto} {L : CryptoLaws C}.
Add Field SfIS : (@S_field C L).

(** ** scalars *)
Lemma ssub_neq (x y : Scalar) : x <> y -> (x - y <> s0)%S.
Proof. intros H E. apply H. now apply ssub_0. Qed.
Lemma lag_den_spec x y z : x <> y -> x <> z -> (lag_den x y z * ((x - y) * (x - z)) = s1)%S.
Proof.
  intros H1 H2. unfold lag_den. apply sinv_l. intros E. apply smul_eq_0 in E as [E|E];
    apply ssub_0 in E; auto.
Qed.
Lemma sdist (x y z : Scalar) : x <> y -> x <> z -> y <> z ->
  (x - y <> s0)%S /\ (x - z <> s0)%S /\ (y - x <> s0)%S /\ (y - z <> s0)%S /\ (z - x <> s0)%S /\ (z - y <> s0)%S.
Proof. intros. repeat split; apply ssub_neq; congruence. Qed.
Lemma lag2_quad x1 x2 x3 u v w : x1 <> x2 -> x1 <> x3 -> x2 <> x3 ->
  lc3s (lag2 x1 x2 x3) (x1 * x1 * u + x1 * v + w)%S (x2 * x2 * u + x2 * v + w)%S (x3 * x3 * u + x3 * v + w)%S = u.
Proof.
  intros H1 H2 H3. destruct (sdist _ _ _ H1 H2 H3) as (? & ? & ? & ? & ? & ?).
  unfold lc3s, lag2, lag_den. field. repeat split; auto.
Qed.
Lemma lag1_quad x1 x2 x3 u v w : x1 <> x2 -> x1 <> x3 -> x2 <> x3 ->
  lc3s (lag1 x1 x2 x3) (x1 * x1 * u + x1 * v + w)%S (x2 * x2 * u + x2 * v + w)%S (x3 * x3 * u + x3 * v + w)%S = v.
Proof.
  intros H1 H2 H3. destruct (sdist _ _ _ H1 H2 H3) as (? & ? & ? & ? & ? & ?).
  unfold lc3s, lag1, lag_den. field. repeat split; auto.
Qed.
Lemma lag0_quad x1 x2 x3 u v w : x1 <> x2 -> x1 <> x3 -> x2 <> x3 ->
  lc3s (lag0 x1 x2 x3) (x1 * x1 * u + x1 * v + w)%S (x2 * x2 * u + x2 * v + w)%S (x3 * x3 * u + x3 * v + w)%S = w.
Proof.
  intros H1 H2 H3. destruct (sdist _ _ _ H1 H2 H3) as (? & ? & ? & ? & ? & ?).
  unfold lc3s, lag0, lag_den. field. repeat split; auto.
Qed.
(** the interpolating polynomial takes the prescribed values *)
Lemma lag_interp x1 x2 x3 f1 f2 f3 : x1 <> x2 -> x1 <> x3 -> x2 <> x3 ->
  let p x := (x * x * lc3s (lag2 x1 x2 x3) f1 f2 f3 + x * lc3s (lag1 x1 x2 x3) f1 f2 f3
              + lc3s (lag0 x1 x2 x3) f1 f2 f3)%S in
  p x1 = f1 /\ p x2 = f2 /\ p x3 = f3.
Proof.
  intros H1 H2 H3. destruct (sdist _ _ _ H1 H2 H3) as (? & ? & ? & ? & ? & ?).
  unfold lc3s, lag2, lag1, lag0, lag_den. cbv zeta. repeat split; field; repeat split; auto.
Qed.
Lemma cubic_roots c3 c2 c1 c0 x1 x2 x3 x4 : NoDup [x1; x2; x3; x4] ->
  (forall x, In x [x1; x2; x3; x4] -> c3 * (x * (x * x)) + c2 * (x * x) + c1 * x + c0 = s0)%S ->
  c3 = s0 /\ c2 = s0 /\ c1 = s0 /\ c0 = s0.
Proof.
  intros HN HR.
  assert (E1 := HR x1 ltac:(cbn; auto)). assert (E2 := HR x2 ltac:(cbn; auto)).
  assert (E3 := HR x3 ltac:(cbn; auto)). assert (E4 := HR x4 ltac:(cbn; auto)).
  inversion HN as [|? ? N1 HN1]; subst. inversion HN1 as [|? ? N2 HN2]; subst.
  inversion HN2 as [|? ? N3 HN3]; subst. cbn in N1, N2, N3.
  assert (D12 : (x1 - x2 <> s0)%S) by (apply ssub_neq; intros ->; tauto).
  assert (D13 : (x1 - x3 <> s0)%S) by (apply ssub_neq; intros ->; tauto).
  assert (D14 : (x1 - x4 <> s0)%S) by (apply ssub_neq; intros ->; tauto).
  assert (D23 : (x2 - x3 <> s0)%S) by (apply ssub_neq; intros ->; tauto).
  assert (D24 : (x2 - x4 <> s0)%S) by (apply ssub_neq; intros ->; tauto).
  assert (D34 : (x3 - x4 <> s0)%S) by (apply ssub_neq; intros ->; tauto).
  assert (cancel : forall k y : Scalar, k <> s0 -> (k * y = s0)%S -> y = s0).
  { intros k y Hk E. apply smul_eq_0 in E as [E|E]; [contradiction|exact E]. }
  assert (F : forall x y, (x - y <> s0)%S ->
     (c3 * (x * (x * x)) + c2 * (x * x) + c1 * x + c0 = s0)%S ->
     (c3 * (y * (y * y)) + c2 * (y * y) + c1 * y + c0 = s0)%S ->
     (c3 * (x * x + x * y + y * y) + c2 * (x + y) + c1 = s0)%S).
  { intros x y D E E'. apply (cancel (x - y)%S); auto.
    transitivity ((c3 * (x * (x * x)) + c2 * (x * x) + c1 * x + c0)
                  - (c3 * (y * (y * y)) + c2 * (y * y) + c1 * y + c0))%S; [ring|].
    rewrite E, E'. ring. }
  assert (F12 := F _ _ D12 E1 E2). assert (F13 := F _ _ D13 E1 E3). assert (F14 := F _ _ D14 E1 E4).
  assert (G : forall y z, (y - z <> s0)%S ->
     (c3 * (x1 * x1 + x1 * y + y * y) + c2 * (x1 + y) + c1 = s0)%S ->
     (c3 * (x1 * x1 + x1 * z + z * z) + c2 * (x1 + z) + c1 = s0)%S ->
     (c3 * (x1 + y + z) + c2 = s0)%S).
  { intros y z D E E'. apply (cancel (y - z)%S); auto.
    transitivity ((c3 * (x1 * x1 + x1 * y + y * y) + c2 * (x1 + y) + c1)
                  - (c3 * (x1 * x1 + x1 * z + z * z) + c2 * (x1 + z) + c1))%S; [ring|].
    rewrite E, E'. ring. }
  assert (G23 := G _ _ D23 F12 F13). assert (G24 := G _ _ D24 F12 F14).
  assert (Z3 : c3 = s0).
  { apply (cancel (x3 - x4)%S); auto.
    transitivity ((c3 * (x1 + x2 + x3) + c2) - (c3 * (x1 + x2 + x4) + c2))%S; [ring|].
    rewrite G23, G24. ring. }
  subst c3. assert (Z2 : c2 = s0) by (rewrite <- G23; ring). subst c2.
  assert (Z1 : c1 = s0) by (rewrite <- F12; ring). subst c1.
  repeat split; auto. rewrite <- E1. ring.
Qed.

Lemma nodup4 (x1 x2 x3 x4 : Scalar) : NoDup [x1; x2; x3; x4] -> x1 <> x2 /\ x1 <> x3 /\ x2 <> x3.
Proof.
  intros HN. inversion HN as [|? ? N1 HN1]; subst. inversion HN1 as [|? ? N2 HN2]; subst.
  cbn in N1, N2. repeat split; intros ->; tauto.
Qed.

(** entrywise core of the extraction *)
Lemma extract_entry x1 x2 x3 x4 A1 A2 A3 A4 : NoDup [x1; x2; x3; x4] ->
  let l2 := lag2 x1 x2 x3 in let l1 := lag1 x1 x2 x3 in let l0 := lag0 x1 x2 x3 in
  let u l := lc3s l A1 A2 A3 in let v l := lc3s l (x1 * A1)%S (x2 * A2)%S (x3 * A3)%S in
  (x4 * x4 * u l2 + x4 * u l1 + u l0 = A4)%S ->
  (x4 * x4 * v l2 + x4 * v l1 + v l0 = x4 * A4)%S ->
  A1 = (x1 * u l1 + v l1)%S /\ A2 = (x2 * u l1 + v l1)%S /\ A3 = (x3 * u l1 + v l1)%S /\
  A4 = (x4 * u l1 + v l1)%S.
Proof.
  intros HN l2 l1 l0 u v Hu Hv.
  destruct (nodup4 _ _ _ _ HN) as (D12 & D13 & D23).
  destruct (lag_interp x1 x2 x3 A1 A2 A3 D12 D13 D23) as (U1 & U2 & U3).
  destruct (lag_interp x1 x2 x3 (x1 * A1)%S (x2 * A2)%S (x3 * A3)%S D12 D13 D23) as (V1 & V2 & V3).
  cbv beta in *.
  fold l2 l1 l0 in U1, U2, U3, V1, V2, V3.
  fold (u l2) (u l1) (u l0) in U1, U2, U3. fold (v l2) (v l1) (v l0) in V1, V2, V3.
  destruct (cubic_roots (u l2) (u l1 - v l2)%S (u l0 - v l1)%S (- v l0)%S x1 x2 x3 x4 HN) as (Z3 & Z2 & Z1 & Z0).
  { intros x Hx. cbn in Hx.
    assert (E : exists A, (x * x * u l2 + x * u l1 + u l0 = A)%S /\ (x * x * v l2 + x * v l1 + v l0 = x * A)%S).
    { destruct Hx as [<-|[<-|[<-|[<-|[]]]]]; eauto. }
    destruct E as (A & EA & EB).
    transitivity (x * (x * x * u l2 + x * u l1 + u l0) - (x * x * v l2 + x * v l1 + v l0))%S; [ring|].
    rewrite EA, EB. ring. }
  apply ssub_0 in Z1. rewrite Z3, Z1 in U1, U2, U3, Hu.
  rewrite <- U1 at 1. rewrite <- U2 at 1. rewrite <- U3 at 1. rewrite <- Hu at 1.
  repeat split; ring.
Qed.

(** ** vectors *)
Lemma vscale_length x v : length (vscale x v) = length v.
Proof. apply map_length. Qed.
Lemma vscale_nth x v i : sc (vscale x v) i = (x * sc v i)%S.
Proof.
  unfold sc, vscale. destruct (Nat.lt_ge_cases i (length v)) as [H|H].
  - rewrite nth_indep with (d' := (x * s0)%S) by (now rewrite map_length). now rewrite map_nth.
  - rewrite !nth_overflow by (rewrite ?map_length; auto). ring.
Qed.
Lemma lc3_length l u v w : length u = length v -> length v = length w -> length (lc3 l u v w) = length u.
Proof. intros H1 H2. destruct l as [[l1 l2] l3]. unfold lc3. rewrite !map2_length, !vscale_length. lia. Qed.
Lemma sc_map2 f u v i : i < length u -> i < length v -> sc (map2 f u v) i = f (sc u i) (sc v i).
Proof. intros H1 H2. unfold sc. now rewrite (map2_nth _ _ _ _ s0 s0) by auto. Qed.
Lemma lc3_nth l u v w i : i < length u -> length u = length v -> length v = length w ->
  sc (lc3 l u v w) i = lc3s l (sc u i) (sc v i) (sc w i).
Proof.
  intros Hi H1 H2. destruct l as [[l1 l2] l3]. unfold lc3, lc3s.
  rewrite !sc_map2; rewrite ?map2_length, ?vscale_length; try lia.
  now rewrite !vscale_nth.
Qed.
Lemma lin_vscale x v P : lin (vscale x v) P = (x *: lin v P)%P.
Proof. apply lin_map_s. Qed.
Lemma lin_lc3 l u v w P : length u = length v -> length v = length w ->
  lin (lc3 l u v w) P = (let '(l1, l2, l3) := l in l1 *: lin u P + (l2 *: lin v P + l3 *: lin w P))%P.
Proof.
  intros H1 H2. destruct l as [[l1 l2] l3]. unfold lc3.
  assert (E : forall a a' : list Scalar, length a = length a' -> lin (map2 sadd a a') P = (lin a P + lin a' P)%P).
  { intros. now apply lin_add_s. }
  rewrite !E; rewrite ?map2_length, ?vscale_length; try lia. now rewrite !lin_vscale.
Qed.
Lemma residue_length x u v w z n : length u = n -> length v = n -> length w = n -> length z = n ->
  length (residue x u v w z) = n.
Proof. intros. unfold residue. rewrite map2_length, lc3_length; lia. Qed.
Lemma lin_residue x u v w z P : length u = length v -> length v = length w -> length w = length z ->
  lin (residue x u v w z) P = ((x * x)%S *: lin u P + x *: lin v P + lin w P - lin z P)%P.
Proof.
  intros. unfold residue. rewrite lin_sub_s by (rewrite lc3_length; lia).
  rewrite lin_lc3 by auto. pring.
Qed.
Lemma all_zero_spec v : all_zero v = true <-> forall i, i < length v -> sc v i = s0.
Proof.
  unfold all_zero. rewrite forallb_forall. split.
  - intros H i Hi. apply seqb_eq, H. now apply nth_In.
  - intros H x Hx. apply In_nth with (d := s0) in Hx as (i & Hi & <-). apply seqb_eq, H, Hi.
Qed.
Lemma liftG_length x v : length (liftG x v) = 2 * length v.
Proof. unfold liftG. rewrite app_length, vscale_length. lia. Qed.
Lemma liftH_length x v : length (liftH x v) = 2 * length v.
Proof. unfold liftH. rewrite app_length, vscale_length. lia. Qed.
Lemma liftG_nth x v i : i < length v -> sc (liftG x v) i = sc v i /\ sc (liftG x v) (length v + i) = (x * sc v i)%S.
Proof.
  intros Hi. unfold liftG. split.
  - unfold sc. now rewrite app_nth1.
  - rewrite <- vscale_nth. unfold sc. rewrite app_nth2 by lia. f_equal. lia.
Qed.
Lemma liftH_nth x v i : i < length v -> sc (liftH x v) i = (x * sc v i)%S /\ sc (liftH x v) (length v + i) = sc v i.
Proof.
  intros Hi. unfold liftH. split.
  - rewrite <- vscale_nth. unfold sc. now rewrite app_nth1 by (now rewrite vscale_length).
  - unfold sc. rewrite app_nth2 by (rewrite vscale_length; lia). f_equal. rewrite vscale_length. lia.
Qed.
Lemma lin_liftG x v G : length G = 2 * length v -> lin (liftG x v) G = lin v (stepG x (length v) G).
Proof.
  intros HG. apply half_len in HG as [H1 H2]. unfold liftG, stepG.
  rewrite <- (firstn_skipn (length v) G) at 1. rewrite lin_app by lia. rewrite lin_vscale.
  rewrite (map2_ext (fun l r => l + x *: r)%P (fun l r => s1 *: l + x *: r)%P) by (intros; pring).
  rewrite lin_affine_p by lia. pring.
Qed.
Lemma lin_liftH x v G : length G = 2 * length v -> lin (liftH x v) G = lin v (stepH x (length v) G).
Proof.
  intros HG. apply half_len in HG as [H1 H2]. unfold liftH, stepH.
  rewrite <- (firstn_skipn (length v) G) at 1. rewrite lin_app by (rewrite vscale_length; lia). rewrite lin_vscale.
  rewrite (map2_ext (fun l r => x *: l + r)%P (fun l r => x *: l + s1 *: r)%P) by (intros; pring).
  rewrite lin_affine_p by lia. pring.
Qed.

(** ** validity of a tree, as equations between points *)
Fixpoint tvalid (d : nat) (T : ipa_tree) (G H : list Point) (Q P : Point) : Prop :=
  match T, d with
  | Leaf a b, O => (a *: nth 0 G p0 + b *: nth 0 H p0 + (a * b)%S *: Q)%P = P
  | Node l r x1 T1 x2 T2 x3 T3 x4 T4, S d =>
    let h := 2 ^ d in
    let v x T := tvalid d T (stepG x h G) (stepH x h H) Q ((x * x)%S *: l + x *: P + r)%P in
    v x1 T1 /\ v x2 T2 /\ v x3 T3 /\ v x4 T4
  | _, _ => False
  end.

Definition wit_ok (n : nat) (G H : list Point) (Q P : Point) (e : extracted) : Prop :=
  match e with
  | Wit a b c => length a = n /\ length b = n /\ c = dot a b /\ (lin a G + lin b H + c *: Q = P)%P
  | Rel g h q => length g = n /\ length h = n /\ (lin g G + lin h H + q *: Q = p0)%P /\
                 (all_zero g && all_zero h = true -> q <> s0)
  end.

Lemma all_zero_app u v : all_zero (u ++ v) = all_zero u && all_zero v.
Proof. apply forallb_app. Qed.
Lemma rel_lift d G H Q x g h q P P' :
  length G = 2 * 2 ^ d -> length H = 2 * 2 ^ d ->
  wit_ok (2 ^ d) (stepG x (2 ^ d) G) (stepH x (2 ^ d) H) Q P (Rel g h q) ->
  wit_ok (2 ^ S d) G H Q P' (Rel (liftG x g) (liftH x h) q).
Proof.
  intros HG HH (H1 & H2 & H3 & H4). cbn [wit_ok]. rewrite liftG_length, liftH_length, Nat.pow_succ_r'.
  split; [lia|]. split; [lia|]. split.
  - rewrite lin_liftG, lin_liftH by lia. now rewrite H1, H2.
  - intros E. apply H4. unfold liftG, liftH in E. rewrite !all_zero_app in E.
    apply andb_prop in E as [E1 E2]. apply andb_prop in E1 as [E1 _]. apply andb_prop in E2 as [_ E2].
    now rewrite E1, E2.
Qed.

Lemma seqb_dec_iff x y : seqb x y = false -> x <> y.
Proof. intros H E. apply seqb_eq in E. congruence. Qed.

Lemma extract_ok T : forall d G H Q P,
  length G = 2 ^ d -> length H = 2 ^ d -> distinct_challenges T -> tvalid d T G H Q P ->
  wit_ok (2 ^ d) G H Q P (extract T).
Proof.
  induction T as [a b|l r x1 T1 IH1 x2 T2 IH2 x3 T3 IH3 x4 T4 IH4]; intros d G H Q P HG HH HD HV.
  - destruct d; [|contradiction]. cbn in *. apply length1 in HG as [g ->]. apply length1 in HH as [h ->].
    cbn in *. repeat split; auto; [ring|]. rewrite <- HV. pring.
  - destruct d as [|d]; [contradiction|]. cbn [tvalid] in HV. destruct HV as (V1 & V2 & V3 & V4).
    cbn [distinct_challenges] in HD. destruct HD as (HN & D1 & D2 & D3 & D4).
    rewrite Nat.pow_succ_r' in HG, HH.
    apply IH1 in V1; auto using stepG_length, stepH_length.
    apply IH2 in V2; auto using stepG_length, stepH_length.
    apply IH3 in V3; auto using stepG_length, stepH_length.
    apply IH4 in V4; auto using stepG_length, stepH_length.
    cbn [extract].
    destruct (extract T1) as [a1 b1 c1|g h q]; [|
      destruct (extract T2), (extract T3), (extract T4);
      exact (rel_lift d G H Q x1 g h q _ P HG HH V1)].
    destruct (extract T2) as [a2 b2 c2|g h q]; [|
      destruct (extract T3), (extract T4); exact (rel_lift d G H Q x2 g h q _ P HG HH V2)].
    destruct (extract T3) as [a3 b3 c3|g h q]; [|
      destruct (extract T4); exact (rel_lift d G H Q x3 g h q _ P HG HH V3)].
    destruct (extract T4) as [a4 b4 c4|g h q]; [|exact (rel_lift d G H Q x4 g h q _ P HG HH V4)].
    destruct V1 as (La1 & Lb1 & E1 & P1). destruct V2 as (La2 & Lb2 & E2 & P2).
    destruct V3 as (La3 & Lb3 & E3 & P3). destruct V4 as (La4 & Lb4 & E4 & P4).
    set (n := 2 ^ d) in *.
    destruct (nodup4 _ _ _ _ HN) as (D12 & D13 & D23).
    rewrite <- La1 in P1 at 1. rewrite <- Lb1 in P1 at 1. rewrite <- lin_liftG, <- lin_liftH in P1 by lia.
    rewrite <- La2 in P2 at 1. rewrite <- Lb2 in P2 at 1. rewrite <- lin_liftG, <- lin_liftH in P2 by lia.
    rewrite <- La3 in P3 at 1. rewrite <- Lb3 in P3 at 1. rewrite <- lin_liftG, <- lin_liftH in P3 by lia.
    rewrite <- La4 in P4 at 1. rewrite <- Lb4 in P4 at 1. rewrite <- lin_liftG, <- lin_liftH in P4 by lia.
    cbv zeta.
    set (g := fun l => lc3 l (liftG x1 a1) (liftG x2 a2) (liftG x3 a3)).
    set (h := fun l => lc3 l (liftH x1 b1) (liftH x2 b2) (liftH x3 b3)).
    set (q := fun l => lc3s l c1 c2 c3).
    set (l2 := lag2 x1 x2 x3). set (l1 := lag1 x1 x2 x3). set (l0 := lag0 x1 x2 x3).
    assert (Lg : forall l, length (g l) = 2 * n).
    { intros l'. unfold g. rewrite lc3_length; rewrite ?liftG_length; lia. }
    assert (Lh : forall l, length (h l) = 2 * n).
    { intros l'. unfold h. rewrite lc3_length; rewrite ?liftH_length; lia. }
    assert (Plin : forall l', (lin (g l') G + lin (h l') H + q l' *: Q)%P =
        (let '(m1, m2, m3) := l' in
         m1 *: ((x1 * x1)%S *: l + x1 *: P + r) + (m2 *: ((x2 * x2)%S *: l + x2 *: P + r)
         + m3 *: ((x3 * x3)%S *: l + x3 *: P + r)))%P).
    { intros [[m1 m2] m3]. unfold g, h, q. rewrite !lin_lc3 by (rewrite ?liftG_length, ?liftH_length; lia).
      rewrite <- P1, <- P2, <- P3. unfold lc3s. pring. }
    assert (PP : (lin (g l1) G + lin (h l1) H + q l1 *: Q)%P = P).
    { rewrite Plin. unfold l1, lag1.
      assert (K1 := lag1_quad x1 x2 x3 s1 s0 s0 D12 D13 D23).
      assert (K2 := lag1_quad x1 x2 x3 s0 s1 s0 D12 D13 D23).
      assert (K3 := lag1_quad x1 x2 x3 s0 s0 s1 D12 D13 D23).
      unfold lag1, lc3s in K1, K2, K3. pnorm;
        solve [ etransitivity; [|etransitivity; [exact K1|ring]]; ring
              | etransitivity; [|etransitivity; [exact K2|ring]]; ring
              | etransitivity; [|etransitivity; [exact K3|ring]]; ring ]. }
    assert (PL : (lin (g l2) G + lin (h l2) H + q l2 *: Q)%P = l).
    { rewrite Plin. unfold l2, lag2.
      assert (K1 := lag2_quad x1 x2 x3 s1 s0 s0 D12 D13 D23).
      assert (K2 := lag2_quad x1 x2 x3 s0 s1 s0 D12 D13 D23).
      assert (K3 := lag2_quad x1 x2 x3 s0 s0 s1 D12 D13 D23).
      unfold lag2, lc3s in K1, K2, K3. pnorm;
        solve [ etransitivity; [|etransitivity; [exact K1|ring]]; ring
              | etransitivity; [|etransitivity; [exact K2|ring]]; ring
              | etransitivity; [|etransitivity; [exact K3|ring]]; ring ]. }
    assert (PR : (lin (g l0) G + lin (h l0) H + q l0 *: Q)%P = r).
    { rewrite Plin. unfold l0, lag0.
      assert (K1 := lag0_quad x1 x2 x3 s1 s0 s0 D12 D13 D23).
      assert (K2 := lag0_quad x1 x2 x3 s0 s1 s0 D12 D13 D23).
      assert (K3 := lag0_quad x1 x2 x3 s0 s0 s1 D12 D13 D23).
      unfold lag0, lc3s in K1, K2, K3. pnorm;
        solve [ etransitivity; [|etransitivity; [exact K1|ring]]; ring
              | etransitivity; [|etransitivity; [exact K2|ring]]; ring
              | etransitivity; [|etransitivity; [exact K3|ring]]; ring ]. }
    assert (Lrg : length (residue x4 (g l2) (g l1) (g l0) (liftG x4 a4)) = 2 * n).
    { apply residue_length; auto. rewrite liftG_length; lia. }
    assert (Lrh : length (residue x4 (h l2) (h l1) (h l0) (liftH x4 b4)) = 2 * n).
    { apply residue_length; auto. rewrite liftH_length; lia. }
    set (rg := residue x4 (g l2) (g l1) (g l0) (liftG x4 a4)) in *.
    set (rh := residue x4 (h l2) (h l1) (h l0) (liftH x4 b4)) in *.
    change (wit_ok (2 ^ S d) G H Q P
      (if all_zero rg && all_zero rh then Wit (g l1) (h l1) (q l1)
       else Rel rg rh (lc3s (x4 * x4, x4, s1)%S (q l2) (q l1) (q l0) - c4)%S)).
    destruct (all_zero rg && all_zero rh) eqn:Ez; cbn [wit_ok].
    + rewrite Nat.pow_succ_r'. fold n. split; [auto|]. split; [auto|]. split; [|exact PP].
      apply andb_prop in Ez as [Eg Eh].
      assert (Ha : forall i, i < n ->
        sc a1 i = (x1 * sc (g l1) i + sc (g l1) (n + i))%S /\ sc a2 i = (x2 * sc (g l1) i + sc (g l1) (n + i))%S /\
        sc a3 i = (x3 * sc (g l1) i + sc (g l1) (n + i))%S /\ sc a4 i = (x4 * sc (g l1) i + sc (g l1) (n + i))%S).
      { intros i Hi.
        assert (U : forall l', sc (g l') i = lc3s l' (sc a1 i) (sc a2 i) (sc a3 i)).
        { intros l'. unfold g. rewrite lc3_nth by (rewrite ?liftG_length; lia).
          rewrite (proj1 (liftG_nth x1 a1 i ltac:(lia))), (proj1 (liftG_nth x2 a2 i ltac:(lia))),
            (proj1 (liftG_nth x3 a3 i ltac:(lia))). reflexivity. }
        assert (V : forall l', sc (g l') (n + i) = lc3s l' (x1 * sc a1 i)%S (x2 * sc a2 i)%S (x3 * sc a3 i)%S).
        { intros l'. unfold g. rewrite lc3_nth by (rewrite ?liftG_length; lia).
          rewrite <- (proj2 (liftG_nth x1 a1 i ltac:(lia))), <- (proj2 (liftG_nth x2 a2 i ltac:(lia))),
            <- (proj2 (liftG_nth x3 a3 i ltac:(lia))). now rewrite La1, La2, La3. }
        rewrite U, V. apply extract_entry; auto; fold l2 l1 l0.
        - rewrite <- !U. assert (Z := proj1 (all_zero_spec _) Eg i ltac:(lia)).
          unfold rg, rh, residue in Z. rewrite sc_map2 in Z by (rewrite ?lc3_length; rewrite ?liftG_length, ?Lg; lia).
          rewrite lc3_nth in Z by (rewrite ?Lg; lia). apply ssub_0 in Z.
          rewrite (proj1 (liftG_nth x4 a4 i ltac:(lia))) in Z. rewrite <- Z. unfold lc3s. ring.
        - rewrite <- !V. assert (Z := proj1 (all_zero_spec _) Eg (n + i) ltac:(lia)).
          unfold rg, rh, residue in Z. rewrite sc_map2 in Z by (rewrite ?lc3_length; rewrite ?liftG_length, ?Lg; lia).
          rewrite lc3_nth in Z by (rewrite ?Lg; lia). apply ssub_0 in Z.
          rewrite <- La4 in Z at 4. rewrite (proj2 (liftG_nth x4 a4 i ltac:(lia))) in Z. rewrite <- Z. unfold lc3s. ring. }
      assert (Hb : forall i, i < n ->
        sc b1 i = (x1 * sc (h l1) (n + i) + sc (h l1) i)%S /\ sc b2 i = (x2 * sc (h l1) (n + i) + sc (h l1) i)%S /\
        sc b3 i = (x3 * sc (h l1) (n + i) + sc (h l1) i)%S /\ sc b4 i = (x4 * sc (h l1) (n + i) + sc (h l1) i)%S).
      { intros i Hi.
        assert (U : forall l', sc (h l') (n + i) = lc3s l' (sc b1 i) (sc b2 i) (sc b3 i)).
        { intros l'. unfold h. rewrite lc3_nth by (rewrite ?liftH_length; lia).
          rewrite <- (proj2 (liftH_nth x1 b1 i ltac:(lia))), <- (proj2 (liftH_nth x2 b2 i ltac:(lia))),
            <- (proj2 (liftH_nth x3 b3 i ltac:(lia))). now rewrite Lb1, Lb2, Lb3. }
        assert (V : forall l', sc (h l') i = lc3s l' (x1 * sc b1 i)%S (x2 * sc b2 i)%S (x3 * sc b3 i)%S).
        { intros l'. unfold h. rewrite lc3_nth by (rewrite ?liftH_length; lia).
          rewrite (proj1 (liftH_nth x1 b1 i ltac:(lia))), (proj1 (liftH_nth x2 b2 i ltac:(lia))),
            (proj1 (liftH_nth x3 b3 i ltac:(lia))). reflexivity. }
        rewrite U, V. apply extract_entry; auto; fold l2 l1 l0.
        - rewrite <- !U. assert (Z := proj1 (all_zero_spec _) Eh (n + i) ltac:(lia)).
          unfold rg, rh, residue in Z. rewrite sc_map2 in Z by (rewrite ?lc3_length; rewrite ?liftH_length, ?Lh; lia).
          rewrite lc3_nth in Z by (rewrite ?Lh; lia). apply ssub_0 in Z.
          rewrite <- Lb4 in Z at 4. rewrite (proj2 (liftH_nth x4 b4 i ltac:(lia))) in Z. rewrite <- Z. unfold lc3s. ring.
        - rewrite <- !V. assert (Z := proj1 (all_zero_spec _) Eh i ltac:(lia)).
          unfold rg, rh, residue in Z. rewrite sc_map2 in Z by (rewrite ?lc3_length; rewrite ?liftH_length, ?Lh; lia).
          rewrite lc3_nth in Z by (rewrite ?Lh; lia). apply ssub_0 in Z.
          rewrite (proj1 (liftH_nth x4 b4 i ltac:(lia))) in Z. rewrite <- Z. unfold lc3s. ring. }
      set (gL := firstn n (g l1)). set (gR := skipn n (g l1)). set (hL := firstn n (h l1)). set (hR := skipn n (h l1)).
      destruct (half_len n (g l1) (Lg l1)) as [LgL LgR]. destruct (half_len n (h l1) (Lh l1)) as [LhL LhR].
      fold gL in LgL. fold gR in LgR. fold hL in LhL. fold hR in LhR.
      assert (scL : forall (v : list Scalar) i, i < n -> sc (firstn n v) i = sc v i).
      { intros v i Hi. unfold sc. rewrite <- (firstn_skipn n v) at 2.
        destruct (Nat.lt_ge_cases i (length v)) as [Hv|Hv].
        - rewrite app_nth1; auto. rewrite firstn_length. lia.
        - rewrite firstn_skipn. rewrite !nth_overflow; auto. rewrite firstn_length. lia. }
      assert (scR : forall (v : list Scalar) i, n <= length v -> sc (skipn n v) i = sc v (n + i)).
      { intros v i Hv. unfold sc. rewrite <- (firstn_skipn n v) at 2.
        rewrite app_nth2 by (rewrite firstn_length; lia). f_equal. rewrite firstn_length. lia. }
      assert (Ea : forall x a, length a = n -> (forall i, i < n -> sc a i = (x * sc (g l1) i + sc (g l1) (n + i))%S) ->
                a = map2 (fun u v => x * u + s1 * v)%S gL gR).
      { intros x a Hl Hs. apply (list_eq_nth s0); [rewrite map2_length; lia|]. intros i Hi. fold (sc a i).
        fold (sc (map2 (fun u v => x * u + s1 * v)%S gL gR) i). rewrite sc_map2 by lia. rewrite Hs by lia.
        unfold gL, gR. rewrite scL, scR by (rewrite ?Lg; lia). ring. }
      assert (Eb : forall x b, length b = n -> (forall i, i < n -> sc b i = (x * sc (h l1) (n + i) + sc (h l1) i)%S) ->
                b = map2 (fun u v => s1 * u + x * v)%S hL hR).
      { intros x b Hl Hs. apply (list_eq_nth s0); [rewrite map2_length; lia|]. intros i Hi. fold (sc b i).
        fold (sc (map2 (fun u v => s1 * u + x * v)%S hL hR) i). rewrite sc_map2 by lia. rewrite Hs by lia.
        unfold hL, hR. rewrite scL, scR by (rewrite ?Lh; lia). ring. }
      assert (Ec : forall x a b, a = map2 (fun u v => x * u + s1 * v)%S gL gR -> b = map2 (fun u v => s1 * u + x * v)%S hL hR ->
                dot a b = (x * x * dot gL hR + x * (dot gL hL + dot gR hR) + dot gR hL)%S).
      { intros x a b -> ->. rewrite dot_affine_l, !dot_affine_r by lia. ring. }
      unfold q. rewrite E1, E2, E3.
      rewrite (Ec x1 a1 b1), (Ec x2 a2 b2), (Ec x3 a3 b3);
        try (apply Ea; [lia|]; intros i Hi; apply (Ha i Hi));
        try (apply Eb; [lia|]; intros i Hi; apply (Hb i Hi)).
      unfold l1. rewrite lag1_quad by auto. fold l1. rewrite (dot_split n (g l1) (h l1)). reflexivity.
    + rewrite Nat.pow_succ_r'. fold n. split; [auto|]. split; [auto|]. split.
      * unfold rg, rh. rewrite !lin_residue by (rewrite ?liftG_length, ?liftH_length, ?Lg, ?Lh; lia).
        apply psub_0 in P4 || idtac.
        transitivity (((x4 * x4)%S *: (lin (g l2) G + lin (h l2) H + q l2 *: Q)
                       + x4 *: (lin (g l1) G + lin (h l1) H + q l1 *: Q)
                       + (lin (g l0) G + lin (h l0) H + q l0 *: Q))
                      - (lin (liftG x4 a4) G + lin (liftH x4 b4) H + c4 *: Q))%P.
        { unfold lc3s. pring. }
        rewrite PP, PL, PR, P4. pring.
      * intros E. rewrite E in Ez. discriminate.
Qed.
End Sound.
