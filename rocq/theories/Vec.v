(** Linearity of inner products and multi-scalar multiplications on lists. *)
From Verif Require Export ListFacts Algebra.

Section Vec.
Context {C : Crypto} {L : CryptoLaws C}.
Add Field Sfield3 : (@S_field C L).

(** recursive versions (truncating at the shorter argument) *)
Fixpoint dot (a b : list Scalar) : Scalar :=
  match a, b with
  | x :: a, y :: b => (x * y + dot a b)%S
  | _, _ => s0
  end.
Fixpoint lin (s : list Scalar) (P : list Point) : Point :=
  match s, P with
  | x :: s, p :: P => (x *: p + lin s P)%P
  | _, _ => p0
  end.

Lemma fold_sadd l acc : fold_left sadd l acc = (acc + fold_left sadd l s0)%S.
Proof.
  revert acc; induction l as [|x l IH]; intros acc; cbn; [ring|].
  rewrite IH, (IH (s0 + x)%S). ring.
Qed.
Lemma fold_padd l acc : fold_left padd l acc = (acc + fold_left padd l p0)%P.
Proof.
  revert acc; induction l as [|x l IH]; intros acc; cbn; [pring|].
  rewrite IH, (IH (p0 + x)%P). pring.
Qed.
Lemma ssum_cons x l : ssum (x :: l) = (x + ssum l)%S.
Proof. unfold ssum; cbn. rewrite fold_sadd. ring. Qed.
Lemma psum_cons x l : psum (x :: l) = (x + psum l)%P.
Proof. unfold psum; cbn. rewrite fold_padd. pring. Qed.

Lemma inner_product_dot a b : inner_product a b = dot a b.
Proof.
  unfold inner_product. revert b; induction a as [|x a IH]; intros [|y b]; auto.
  cbn [map2 dot]. rewrite ssum_cons, IH. reflexivity.
Qed.
Lemma psum_lin s P : psum (map2 pmul s P) = lin s P.
Proof.
  revert P; induction s as [|x s IH]; intros [|p P]; auto.
  cbn [map2 lin]. rewrite psum_cons, IH. reflexivity.
Qed.
Lemma msm_Ok s P : length s = length P -> msm s P = Ok (lin s P).
Proof. intros H. unfold msm. rewrite H, Nat.eqb_refl. now rewrite psum_lin. Qed.
Lemma msm_Ok_inv s P r : msm s P = Ok r -> length s = length P /\ r = lin s P.
Proof.
  unfold msm. destruct (Nat.eqb_spec (length s) (length P)); intros H; inversion H.
  now rewrite psum_lin.
Qed.
Lemma msm_Panic s P : length s <> length P -> msm s P = Panic.
Proof. intros H. unfold msm. now destruct (Nat.eqb_spec (length s) (length P)). Qed.

Lemma dot_nil_r a : dot a [] = s0.
Proof. now destruct a. Qed.
Lemma lin_nil_r a : lin a [] = p0.
Proof. now destruct a. Qed.
Lemma dot_comm a b : dot a b = dot b a.
Proof. revert b; induction a as [|x a IH]; intros [|y b]; cbn; auto. rewrite IH; ring. Qed.
Lemma dot_app a a' b b' : length a = length b -> dot (a ++ a') (b ++ b') = (dot a b + dot a' b')%S.
Proof.
  revert b; induction a as [|x a IH]; intros [|y b]; cbn; intros H; try discriminate; [ring|].
  rewrite IH by lia. ring.
Qed.
Lemma lin_app a a' P P' : length a = length P -> lin (a ++ a') (P ++ P') = (lin a P + lin a' P')%P.
Proof.
  revert P; induction a as [|x a IH]; intros [|y P]; cbn; intros H; try discriminate; [pring|].
  rewrite IH by lia. pring.
Qed.
Lemma dot_split k a b : dot a b = (dot (firstn k a) (firstn k b) + dot (skipn k a) (skipn k b))%S.
Proof.
  revert a b; induction k as [|k IH]; intros [|x a] [|y b]; cbn; try ring.
  - rewrite dot_nil_r. ring.
  - rewrite (IH a b). ring.
Qed.
Lemma lin_split k a P : lin a P = (lin (firstn k a) (firstn k P) + lin (skipn k a) (skipn k P))%P.
Proof.
  revert a P; induction k as [|k IH]; intros [|x a] [|y P]; cbn; try pring.
  - rewrite lin_nil_r. pring.
  - rewrite (IH a P). pring.
Qed.

(** affine combinations of vectors *)
Lemma dot_affine_l (u v : Scalar) a a' b : length a = length a' ->
  dot (map2 (fun x y => u * x + v * y)%S a a') b = (u * dot a b + v * dot a' b)%S.
Proof.
  revert a' b; induction a as [|x a IH]; intros [|x' a'] b; cbn; intros H; try discriminate; [ring|].
  destruct b as [|y b]; cbn; [ring|]. rewrite IH by lia. ring.
Qed.
Lemma dot_affine_r (u v : Scalar) a b b' : length b = length b' ->
  dot a (map2 (fun x y => u * x + v * y)%S b b') = (u * dot a b + v * dot a b')%S.
Proof. intros H. rewrite !(dot_comm a). now apply dot_affine_l. Qed.
Lemma lin_affine_s (u v : Scalar) a a' P : length a = length a' ->
  lin (map2 (fun x y => u * x + v * y)%S a a') P = (u *: lin a P + v *: lin a' P)%P.
Proof.
  revert a' P; induction a as [|x a IH]; intros [|x' a'] P; cbn; intros H; try discriminate; [pring|].
  destruct P as [|y P]; cbn; [pring|]. rewrite IH by lia. pring.
Qed.
Lemma lin_affine_p (u v : Scalar) a P P' : length P = length P' ->
  lin a (map2 (fun x y => u *: x + v *: y)%P P P') = (u *: lin a P + v *: lin a P')%P.
Proof.
  revert a P'; induction P as [|x P IH]; intros a [|x' P']; cbn; intros H; try discriminate.
  - rewrite lin_nil_r. pring.
  - destruct a as [|y a]; cbn; [pring|]. rewrite IH by lia. pring.
Qed.

Lemma dot_map_l (u : Scalar) a b : dot (map (fun x => u * x)%S a) b = (u * dot a b)%S.
Proof. revert b; induction a as [|x a IH]; intros [|y b]; cbn; try ring. rewrite IH. ring. Qed.
Lemma dot_map_r (u : Scalar) a b : dot a (map (fun x => u * x)%S b) = (u * dot a b)%S.
Proof. rewrite !(dot_comm a). apply dot_map_l. Qed.
Lemma lin_map_s (u : Scalar) a P : lin (map (fun x => u * x)%S a) P = (u *: lin a P)%P.
Proof. revert P; induction a as [|x a IH]; intros [|y P]; cbn; try pring. rewrite IH. pring. Qed.
Lemma lin_map_p (u : Scalar) a P : lin a (map (fun p => u *: p)%P P) = (u *: lin a P)%P.
Proof. revert P; induction a as [|x a IH]; intros [|y P]; cbn; try pring. rewrite IH. pring. Qed.

Lemma dot_add_l a a' b : length a = length a' ->
  dot (map2 sadd a a') b = (dot a b + dot a' b)%S.
Proof.
  intros H. rewrite <- (map2_ext (fun x y => s1 * x + s1 * y)%S) by (intros; ring).
  rewrite dot_affine_l by auto. ring.
Qed.
Lemma dot_add_r a b b' : length b = length b' ->
  dot a (map2 sadd b b') = (dot a b + dot a b')%S.
Proof. intros H. rewrite !(dot_comm a). now apply dot_add_l. Qed.
Lemma dot_sub_l a a' b : length a = length a' ->
  dot (map2 ssub a a') b = (dot a b - dot a' b)%S.
Proof.
  intros H. rewrite <- (map2_ext (fun x y => s1 * x + (- s1) * y)%S) by (intros; ring).
  rewrite dot_affine_l by auto. ring.
Qed.
Lemma dot_sub_r a b b' : length b = length b' ->
  dot a (map2 ssub b b') = (dot a b - dot a b')%S.
Proof. intros H. rewrite !(dot_comm a). now apply dot_sub_l. Qed.
Lemma lin_add_s a a' P : length a = length a' ->
  lin (map2 sadd a a') P = (lin a P + lin a' P)%P.
Proof.
  intros H. rewrite <- (map2_ext (fun x y => s1 * x + s1 * y)%S) by (intros; ring).
  rewrite lin_affine_s by auto. pring.
Qed.
Lemma lin_sub_s a a' P : length a = length a' ->
  lin (map2 ssub a a') P = (lin a P - lin a' P)%P.
Proof.
  intros H. rewrite <- (map2_ext (fun x y => s1 * x + (- s1) * y)%S) by (intros; ring).
  rewrite lin_affine_s by auto. pring.
Qed.
Lemma lin_add_p a P P' : length P = length P' ->
  lin a (map2 padd P P') = (lin a P + lin a P')%P.
Proof.
  intros H. rewrite <- (map2_ext (fun x y => s1 *: x + s1 *: y)%P) by (intros; pring).
  rewrite lin_affine_p by auto. pring.
Qed.

Lemma dot_zeros n b : dot (repeat s0 n) b = s0.
Proof. revert b; induction n as [|n IH]; intros [|y b]; cbn; auto. rewrite IH; ring. Qed.
Lemma dot_zeros_r a n : dot a (repeat s0 n) = s0.
Proof. rewrite dot_comm. apply dot_zeros. Qed.
Lemma lin_zeros n P : lin (repeat s0 n) P = p0.
Proof. revert P; induction n as [|n IH]; intros [|y P]; cbn; auto. rewrite IH; pring. Qed.
Lemma lin_zeros_p a n : lin a (repeat p0 n) = p0.
Proof. revert a; induction n as [|n IH]; intros [|y a]; cbn; auto. rewrite IH; pring. Qed.

Lemma dot_set_at a i v b : i < length a -> length a <= length b ->
  dot (set_at a i v) b = (dot a b + (v - nth i a s0) * nth i b s0)%S.
Proof.
  revert i b; induction a as [|x a IH]; intros [|i] [|y b]; cbn; intros H H'; try lia; [ring|].
  rewrite IH by lia. ring.
Qed.
Lemma lin_set_at a i v P : i < length a -> length a <= length P ->
  lin (set_at a i v) P = (lin a P + (v - nth i a s0)%S *: nth i P p0)%P.
Proof.
  revert i P; induction a as [|x a IH]; intros [|i] [|y P]; cbn; intros H H'; try lia; [pring|].
  rewrite IH by lia. pring.
Qed.
Lemma lin_set_at_p a i v P : i < length P -> length P <= length a ->
  lin a (set_at P i v) = (lin a P + nth i a s0 *: (v - nth i P p0))%P.
Proof.
  revert i P; induction a as [|x a IH]; intros [|i] [|y P]; cbn; intros H H'; try lia; [pring|].
  rewrite IH by lia. pring.
Qed.

(** ** bridge to the index sums of Spec.v *)
Lemma sum_S_ext n f g : (forall i, i < n -> f i = g i) -> sum_S n f = sum_S n g.
Proof.
  induction n as [|n IH]; cbn; intros H; auto. rewrite IH by (intros; apply H; lia).
  rewrite H by lia. reflexivity.
Qed.
Lemma sum_P_ext n f g : (forall i, i < n -> f i = g i) -> sum_P n f = sum_P n g.
Proof.
  induction n as [|n IH]; cbn; intros H; auto. rewrite IH by (intros; apply H; lia).
  rewrite H by lia. reflexivity.
Qed.
Lemma prod_S_ext n f g : (forall i, i < n -> f i = g i) -> prod_S n f = prod_S n g.
Proof.
  induction n as [|n IH]; cbn; intros H; auto. rewrite IH by (intros; apply H; lia).
  rewrite H by lia. reflexivity.
Qed.
Lemma sum_S_shift n f : sum_S (S n) f = (f 0%nat + sum_S n (fun i => f (S i)))%S.
Proof.
  induction n as [|n IH]; [cbn; ring|].
  change (sum_S (S (S n)) f) with (sum_S (S n) f + f (S n))%S. rewrite IH. cbn. ring.
Qed.
Lemma sum_P_shift n f : sum_P (S n) f = (f 0%nat + sum_P n (fun i => f (S i)))%P.
Proof.
  induction n as [|n IH]; [cbn; pring|].
  change (sum_P (S (S n)) f) with (sum_P (S n) f + f (S n))%P. rewrite IH. cbn. pring.
Qed.
Lemma sum_S_0 n f : (forall i, i < n -> f i = s0) -> sum_S n f = s0.
Proof.
  induction n as [|n IH]; cbn; intros H; auto.
  rewrite IH by (intros; apply H; lia). rewrite H by lia. ring.
Qed.
Lemma sum_P_0 n f : (forall i, i < n -> f i = p0) -> sum_P n f = p0.
Proof.
  induction n as [|n IH]; cbn; intros H; auto.
  rewrite IH by (intros; apply H; lia). rewrite H by lia. pring.
Qed.
Lemma sum_S_add n f g : sum_S n (fun i => f i + g i)%S = (sum_S n f + sum_S n g)%S.
Proof. induction n as [|n IH]; cbn; [ring|]. rewrite IH; ring. Qed.
Lemma sum_P_add n f g : sum_P n (fun i => f i + g i)%P = (sum_P n f + sum_P n g)%P.
Proof. induction n as [|n IH]; cbn; [pring|]. rewrite IH; pring. Qed.
Lemma sum_S_mul n (c : Scalar) f : sum_S n (fun i => c * f i)%S = (c * sum_S n f)%S.
Proof. induction n as [|n IH]; cbn; [ring|]. rewrite IH; ring. Qed.
Lemma sum_P_mul n (c : Scalar) f : sum_P n (fun i => c *: f i)%P = (c *: sum_P n f)%P.
Proof. induction n as [|n IH]; cbn; [pring|]. rewrite IH; pring. Qed.
Lemma sum_P_mul_s n f (P : Point) : sum_P n (fun i => f i *: P)%P = (sum_S n f *: P)%P.
Proof. induction n as [|n IH]; cbn; [pring|]. rewrite IH; pring. Qed.
Lemma sum_S_swap n m (f : nat -> nat -> Scalar) :
  sum_S n (fun i => sum_S m (fun j => f i j)) = sum_S m (fun j => sum_S n (fun i => f i j)).
Proof.
  induction n as [|n IH]; cbn.
  - symmetry. apply sum_S_0. reflexivity.
  - rewrite IH, <- sum_S_add. reflexivity.
Qed.
Lemma sum_P_swap n m (f : nat -> nat -> Point) :
  sum_P n (fun i => sum_P m (fun j => f i j)) = sum_P m (fun j => sum_P n (fun i => f i j)).
Proof.
  induction n as [|n IH]; cbn.
  - symmetry. apply sum_P_0. reflexivity.
  - rewrite IH, <- sum_P_add. reflexivity.
Qed.
Lemma sum_S_app n m f : sum_S (n + m) f = (sum_S n f + sum_S m (fun i => f (n + i)%nat))%S.
Proof.
  induction m as [|m IH]; cbn.
  - rewrite Nat.add_0_r. ring.
  - rewrite Nat.add_succ_r. cbn. rewrite IH. ring.
Qed.
Lemma sum_P_app n m f : sum_P (n + m) f = (sum_P n f + sum_P m (fun i => f (n + i)%nat))%P.
Proof.
  induction m as [|m IH]; cbn.
  - rewrite Nat.add_0_r. pring.
  - rewrite Nat.add_succ_r. cbn. rewrite IH. pring.
Qed.
Lemma sum_S_single n i f : i < n -> (forall j, j < n -> j <> i -> f j = s0) -> sum_S n f = f i.
Proof.
  revert i; induction n as [|n IH]; intros i Hi H; [lia|]. cbn.
  destruct (Nat.eq_dec i n) as [->|Hn].
  - rewrite sum_S_0 by (intros; apply H; lia). ring.
  - rewrite (IH i) by (try lia; intros; apply H; lia). rewrite (H n) by lia. ring.
Qed.

Lemma dot_sum n a b : length a = n -> n <= length b -> dot a b = sum_S n (fun i => sc a i * sc b i)%S.
Proof.
  revert n b; induction a as [|x a IH]; intros n b; cbn; intros <- Hb; auto.
  rewrite sum_S_shift. destruct b as [|y b]; cbn in *; [lia|].
  rewrite (IH (length a)) by lia. reflexivity.
Qed.
Lemma dot_sum_min a b :
  dot a b = sum_S (min (length a) (length b)) (fun i => sc a i * sc b i)%S.
Proof.
  revert b; induction a as [|x a IH]; intros [|y b]; auto.
  cbn [dot]. rewrite IH. cbn [length Nat.min]. rewrite sum_S_shift. reflexivity.
Qed.
Lemma lin_sum n a P : length a = n -> n <= length P -> lin a P = sum_P n (fun i => sc a i *: pt P i)%P.
Proof.
  revert n P; induction a as [|x a IH]; intros n P; cbn; intros <- Hb; auto.
  rewrite sum_P_shift. destruct P as [|y P]; cbn in *; [lia|].
  rewrite (IH (length a)) by lia. reflexivity.
Qed.
Lemma lin_sum_min a P :
  lin a P = sum_P (min (length a) (length P)) (fun i => sc a i *: pt P i)%P.
Proof.
  revert P; induction a as [|x a IH]; intros [|y P]; auto.
  cbn [lin]. rewrite IH. cbn [length Nat.min]. rewrite sum_P_shift. reflexivity.
Qed.
Lemma dot_dotp a b : length a = length b -> dot a b = dotp a b.
Proof. intros H. unfold dotp. apply dot_sum; lia. Qed.
Lemma lin_comb a P : length a = length P -> lin a P = comb a P.
Proof. intros H. unfold comb. apply lin_sum; lia. Qed.

(** ** field facts *)
Lemma sinv_r x : x <> s0 -> (x * sinv x = s1)%S.
Proof. intros H. rewrite smul_comm. now apply sinv_l. Qed.
Lemma smul_eq_0 x y : (x * y = s0)%S -> x = s0 \/ y = s0.
Proof.
  intros H. destruct (seqb x s0) eqn:E.
  - left. now apply seqb_eq.
  - right. assert (Hx : x <> s0) by (intros ->; rewrite (proj2 (seqb_eq s0 s0)) in E; [congruence|auto]).
    replace y with (sinv x * x * y)%S by (rewrite sinv_l by auto; ring).
    replace (sinv x * x * y)%S with (sinv x * (x * y))%S by ring. rewrite H. ring.
Qed.
Lemma S_eq_dec (x y : Scalar) : {x = y} + {x <> y}.
Proof.
  destruct (seqb x y) eqn:E.
  - left. now apply seqb_eq.
  - right. intros H. apply seqb_eq in H. congruence.
Defined.
Lemma P_eq_dec (x y : Point) : {x = y} + {x <> y}.
Proof.
  destruct (peqb x y) eqn:E.
  - left. now apply peqb_eq.
  - right. intros H. apply peqb_eq in H. congruence.
Defined.
Lemma ssub_0 x y : (x - y = s0)%S -> x = y.
Proof. intros H. replace x with (x - y + y)%S by ring. rewrite H. ring. Qed.
Lemma psub_0 x y : (x - y = p0)%P -> x = y.
Proof. intros H. replace x with (x - y + y)%P by pring. rewrite H. pring. Qed.
Lemma smul_cancel_l x y z : x <> s0 -> (x * y = x * z)%S -> y = z.
Proof.
  intros Hx H. apply ssub_0. destruct (smul_eq_0 x (y - z)) as [E|E]; auto.
  - replace (x * (y - z))%S with (x * y - x * z)%S by ring. rewrite H. ring.
  - contradiction.
Qed.
Lemma peqb_refl P : peqb P P = true.
Proof. now apply peqb_eq. Qed.
Lemma seqb_refl P : seqb P P = true.
Proof. now apply seqb_eq. Qed.
Lemma pmul_eq_0 x (P : Point) : (x *: P = p0)%P -> x = s0 \/ P = p0.
Proof.
  intros H. destruct (S_eq_dec x s0) as [E|E]; [now left|right].
  replace P with (sinv x *: (x *: P))%P.
  - rewrite H. pring.
  - rewrite pmul_mul, sinv_l by auto. apply pmul_1.
Qed.

End Vec.
