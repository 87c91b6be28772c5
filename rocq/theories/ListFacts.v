(** Facts about the list/result vocabulary of Base.v (no algebra). *)
From Verif Require Export Base.

(** ** results *)
Lemma bind_Ok_inv {A B} (x : res A) (f : A -> res B) b :
  bind x f = Ok b -> exists a, x = Ok a /\ f a = Ok b.
Proof. destruct x; cbn; intros H; try discriminate. now exists a. Qed.

Lemma assertb_Ok b u : assertb b = Ok u -> b = true.
Proof. destruct b; cbn; congruence. Qed.

Lemma usub_Ok a b c : usub a b = Ok c -> b <= a /\ c = a - b.
Proof. unfold usub. destruct (Nat.leb_spec b a); intros H1; inversion H1; auto. Qed.
Lemma usub_le a b : b <= a -> usub a b = Ok (a - b).
Proof. unfold usub. intros H. now destruct (Nat.leb_spec b a); [|lia]. Qed.
Lemma usub_gt a b : a < b -> usub a b = Panic.
Proof. unfold usub. intros H. now destruct (Nat.leb_spec b a); [lia|]. Qed.

Lemma idx_Ok {A} (l : list A) i a : idx l i = Ok a <-> nth_error l i = Some a.
Proof. unfold idx. destruct (nth_error l i); split; congruence. Qed.
Lemma idx_lt {A} (l : list A) i d : i < length l -> idx l i = Ok (nth i l d).
Proof. intros H. apply idx_Ok. now apply nth_error_nth'. Qed.
Lemma idx_ge {A} (l : list A) i : length l <= i -> idx l i = Panic.
Proof. intros H. unfold idx. apply nth_error_None in H. now rewrite H. Qed.
Lemma idx_Ok_lt {A} (l : list A) i a : idx l i = Ok a -> i < length l.
Proof. rewrite idx_Ok. intros H. apply nth_error_Some. congruence. Qed.
Lemma idx_Ok_nth {A} (l : list A) i a d : idx l i = Ok a -> a = nth i l d.
Proof. rewrite idx_Ok. intros H. symmetry. now apply nth_error_nth. Qed.
Lemma idx_cases {A} (l : list A) i : (exists a, idx l i = Ok a) \/ idx l i = Panic.
Proof. unfold idx. destruct (nth_error l i); eauto. Qed.

Lemma unwrap_Ok {A} (o : option A) a : unwrap o = Ok a <-> o = Some a.
Proof. destruct o; cbn; split; congruence. Qed.

Lemma upd_lt {A} (l : list A) i v : i < length l -> upd l i v = Ok (set_at l i v).
Proof. unfold upd. intros H. now destruct (Nat.ltb_spec i (length l)); [|lia]. Qed.
Lemma upd_ge {A} (l : list A) i v : length l <= i -> upd l i v = Panic.
Proof. unfold upd. intros H. now destruct (Nat.ltb_spec i (length l)); [lia|]. Qed.
Lemma upd_Ok {A} (l : list A) i v l' : upd l i v = Ok l' -> i < length l /\ l' = set_at l i v.
Proof. unfold upd. destruct (Nat.ltb_spec i (length l)); intros E; inversion E; auto. Qed.

Lemma split_at_le {A} n (l : list A) : n <= length l -> split_at n l = Ok (firstn n l, skipn n l).
Proof. unfold split_at. intros H. now destruct (Nat.leb_spec n (length l)); [|lia]. Qed.
Lemma split_at_Ok {A} n (l : list A) a b :
  split_at n l = Ok (a, b) -> n <= length l /\ a = firstn n l /\ b = skipn n l.
Proof. unfold split_at. destruct (Nat.leb_spec n (length l)); intros E; inversion E; auto. Qed.

(** ** set_at *)
Lemma set_at_length {A} (l : list A) i v : length (set_at l i v) = length l.
Proof. revert i; induction l as [|a l IH]; intros [|i]; cbn; auto. Qed.
Lemma nth_set_at_eq {A} (l : list A) i v d : i < length l -> nth i (set_at l i v) d = v.
Proof.
  revert i; induction l as [|a l IH]; intros [|i]; cbn; intros H; try lia; auto.
  apply IH; lia.
Qed.
Lemma nth_set_at_neq {A} (l : list A) i j v d : i <> j -> nth j (set_at l i v) d = nth j l d.
Proof.
  revert i j; induction l as [|a l IH]; intros [|i] [|j]; cbn; intros H; try lia; auto.
Qed.
Lemma nth_set_at {A} (l : list A) i j v d :
  nth j (set_at l i v) d = if (i =? j) && (i <? length l) then v else nth j l d.
Proof.
  destruct (Nat.eqb_spec i j) as [->|Hn]; cbn [andb].
  - destruct (Nat.ltb_spec j (length l)) as [Hl|Hl].
    + now apply nth_set_at_eq.
    + rewrite !nth_overflow; auto. now rewrite set_at_length.
  - now apply nth_set_at_neq.
Qed.
Lemma set_at_ge {A} (l : list A) i v : length l <= i -> set_at l i v = l.
Proof.
  revert i; induction l as [|a l IH]; intros [|i]; cbn; intros H; try lia; auto.
  f_equal; apply IH; lia.
Qed.
Lemma set_at_same {A} (l : list A) i d : set_at l i (nth i l d) = l.
Proof. revert i; induction l as [|a l IH]; intros [|i]; cbn; auto. now rewrite IH. Qed.
Lemma set_at_app_l {A} (l l' : list A) i v :
  i < length l -> set_at (l ++ l') i v = set_at l i v ++ l'.
Proof.
  revert i; induction l as [|a l IH]; intros [|i]; cbn; intros H; try lia; auto.
  f_equal. apply IH; lia.
Qed.
Lemma set_at_app_r {A} (l l' : list A) i v :
  set_at (l ++ l') (length l + i) v = l ++ set_at l' i v.
Proof. induction l as [|a l IH]; cbn; auto. now rewrite IH. Qed.
Lemma map_set_at {A B} (f : A -> B) (l : list A) i v :
  map f (set_at l i v) = set_at (map f l) i (f v).
Proof. revert i; induction l as [|a l IH]; intros [|i]; cbn; auto. now rewrite IH. Qed.

(** ** map2 *)
Section Map2.
Context {A B X : Type} (f : A -> B -> X).

Lemma map2_length l l' : length (map2 f l l') = min (length l) (length l').
Proof. revert l'; induction l as [|a l IH]; intros [|b l']; cbn; auto. Qed.
Lemma map2_length_eq l l' : length l = length l' -> length (map2 f l l') = length l.
Proof. intros H. rewrite map2_length. lia. Qed.
Lemma map2_nil_r l : map2 f l [] = [].
Proof. now destruct l. Qed.
Lemma map2_app l1 l2 l1' l2' : length l1 = length l1' ->
  map2 f (l1 ++ l2) (l1' ++ l2') = map2 f l1 l1' ++ map2 f l2 l2'.
Proof.
  revert l1'; induction l1 as [|a l1 IH]; intros [|b l1']; cbn; intros H; try discriminate; auto.
  rewrite IH; auto.
Qed.
Lemma map2_nth l l' i da db dx : i < length l -> i < length l' ->
  nth i (map2 f l l') dx = f (nth i l da) (nth i l' db).
Proof.
  revert l' i; induction l as [|a l IH]; intros [|b l'] [|i]; cbn; intros H H'; try lia; auto.
  apply IH; lia.
Qed.
Lemma map2_firstn k l l' : firstn k (map2 f l l') = map2 f (firstn k l) (firstn k l').
Proof.
  revert l l'; induction k as [|k IH]; intros [|a l] [|b l']; cbn; auto. now rewrite IH.
Qed.
Lemma map2_skipn k l l' : skipn k (map2 f l l') = map2 f (skipn k l) (skipn k l').
Proof.
  revert l l'; induction k as [|k IH]; intros [|a l] [|b l']; cbn; auto.
  now rewrite map2_nil_r.
Qed.
End Map2.

Lemma map2_ext {A B X} (f g : A -> B -> X) l l' :
  (forall a b, f a b = g a b) -> map2 f l l' = map2 g l l'.
Proof.
  intros H. revert l'; induction l as [|a l IH]; intros [|b l']; cbn; auto.
  now rewrite H, IH.
Qed.
Lemma map2_map_l {A A' B X} (f : A' -> B -> X) (g : A -> A') l l' :
  map2 f (map g l) l' = map2 (fun a b => f (g a) b) l l'.
Proof. revert l'; induction l as [|a l IH]; intros [|b l']; cbn; auto. now rewrite IH. Qed.
Lemma map2_map_r {A B B' X} (f : A -> B' -> X) (g : B -> B') l l' :
  map2 f l (map g l') = map2 (fun a b => f a (g b)) l l'.
Proof. revert l'; induction l as [|a l IH]; intros [|b l']; cbn; auto. now rewrite IH. Qed.
Lemma map_map2 {A B X Y} (g : X -> Y) (f : A -> B -> X) l l' :
  map g (map2 f l l') = map2 (fun a b => g (f a b)) l l'.
Proof. revert l'; induction l as [|a l IH]; intros [|b l']; cbn; auto. now rewrite IH. Qed.
Lemma map2_swap {A B X} (f : A -> B -> X) l l' :
  map2 f l l' = map2 (fun b a => f a b) l' l.
Proof. revert l'; induction l as [|a l IH]; intros [|b l']; cbn; auto. now rewrite IH. Qed.
Lemma map2_combine {A B X} (f : A -> B -> X) l l' :
  map2 f l l' = map (fun p => f (fst p) (snd p)) (combine l l').
Proof. revert l'; induction l as [|a l IH]; intros [|b l']; cbn; auto. now rewrite IH. Qed.
Lemma map2_same {A X} (f : A -> A -> X) l : map2 f l l = map (fun a => f a a) l.
Proof. induction l as [|a l IH]; cbn; auto. now rewrite IH. Qed.

(** ** mapM, map2M, foldM *)
Lemma mapM_Ok_length {A B} (f : A -> res B) l r : mapM f l = Ok r -> length r = length l.
Proof.
  revert r; induction l as [|a l IH]; cbn; intros r H.
  - inversion H; auto.
  - apply bind_Ok_inv in H as [b [_ H]]. apply bind_Ok_inv in H as [bs [E H]].
    inversion H; subst. cbn. f_equal. auto.
Qed.
Lemma mapM_map {A B} (f : A -> res B) (g : A -> B) l :
  (forall a, In a l -> f a = Ok (g a)) -> mapM f l = Ok (map g l).
Proof.
  induction l as [|a l IH]; cbn; intros H; auto.
  rewrite H by auto. cbn. rewrite IH by auto. reflexivity.
Qed.
Lemma mapM_Ok_Forall2 {A B} (f : A -> res B) l r :
  mapM f l = Ok r <-> Forall2 (fun a b => f a = Ok b) l r.
Proof.
  revert r; induction l as [|a l IH]; cbn; intros r; split; intros H.
  - inversion H; constructor.
  - inversion H; auto.
  - apply bind_Ok_inv in H as [b [E H]]. apply bind_Ok_inv in H as [bs [E' H]].
    inversion H; subst. constructor; auto. now apply IH.
  - inversion H as [|x y l1 l2 E H2]; subst. apply IH in H2. now rewrite E, H2.
Qed.
Lemma mapM_not_Diverge {A B} (f : A -> res B) l :
  (forall a, In a l -> f a <> Diverge) -> mapM f l <> Diverge.
Proof.
  induction l as [|a l IH]; cbn; intros H; [congruence|].
  destruct (f a) eqn:E; cbn; try congruence.
  - destruct (mapM f l) eqn:E'; cbn; try congruence. apply IH; auto.
  - now apply (H a) in E; auto.
Qed.

Lemma map2M_map2 {A B X} (f : A -> B -> res X) (g : A -> B -> X) l l' :
  (forall a b, In (a, b) (combine l l') -> f a b = Ok (g a b)) ->
  map2M f l l' = Ok (map2 g l l').
Proof.
  revert l'; induction l as [|a l IH]; intros [|b l']; cbn; intros H; auto.
  rewrite H by auto. cbn. rewrite IH by auto. reflexivity.
Qed.
Lemma map2M_Ok_Forall {A B X} (f : A -> B -> res X) l l' r :
  map2M f l l' = Ok r -> forall a b, In (a, b) (combine l l') -> exists x, f a b = Ok x.
Proof.
  revert l' r; induction l as [|a l IH]; intros [|b l'] r; cbn; intros H a' b' Hin; try tauto.
  apply bind_Ok_inv in H as [x [E H]]. apply bind_Ok_inv in H as [xs [E' H]].
  destruct Hin as [Hin|Hin]; [inversion Hin; subst; eauto|]. eapply IH; eauto.
Qed.

Lemma foldM_app {A B} (f : A -> B -> res A) l1 l2 acc :
  foldM f (l1 ++ l2) acc = bind (foldM f l1 acc) (foldM f l2).
Proof.
  revert acc; induction l1 as [|b l1 IH]; cbn; intros acc; auto.
  destruct (f acc b); cbn; auto.
Qed.
Lemma foldM_fold_left {A B} (f : A -> B -> res A) (g : A -> B -> A) l acc :
  (forall a b, In b l -> f a b = Ok (g a b)) -> foldM f l acc = Ok (fold_left g l acc).
Proof.
  revert acc; induction l as [|b l IH]; cbn; intros acc H; auto.
  rewrite H by auto. cbn. apply IH. auto.
Qed.
Lemma foldM_ext {A B} (f g : A -> B -> res A) l acc :
  (forall a b, In b l -> f a b = g a b) -> foldM f l acc = foldM g l acc.
Proof.
  revert acc; induction l as [|b l IH]; cbn; intros acc H; auto.
  rewrite H by auto. destruct (g acc b); cbn; auto.
Qed.
Lemma foldM_map {A B B'} (f : A -> B -> res A) (h : B' -> B) l acc :
  foldM f (map h l) acc = foldM (fun a b => f a (h b)) l acc.
Proof.
  revert acc; induction l as [|b l IH]; cbn; intros acc; auto.
  destruct (f acc (h b)); cbn; auto.
Qed.
Lemma foldM_not_Diverge {A B} (f : A -> B -> res A) l acc :
  (forall a b, In b l -> f a b <> Diverge) -> foldM f l acc <> Diverge.
Proof.
  revert acc; induction l as [|b l IH]; cbn; intros acc H; [congruence|].
  destruct (f acc b) eqn:E; cbn; try congruence.
  - apply IH; auto.
  - now apply H in E; auto.
Qed.
(** invariant rule *)
Lemma foldM_inv {A B} (I : A -> Prop) (f : A -> B -> res A) l acc r :
  I acc -> (forall a b a', In b l -> I a -> f a b = Ok a' -> I a') ->
  foldM f l acc = Ok r -> I r.
Proof.
  revert acc; induction l as [|b l IH]; cbn; intros acc Hacc Hstep H.
  - now inversion H; subst.
  - apply bind_Ok_inv in H as [acc' [E H]]. apply (IH acc'); auto.
    + eapply Hstep; eauto.
    + intros; eapply Hstep; eauto.
Qed.

(** ** misc lists *)
Lemma nth_error_nth_eq {A} (l : list A) i a d : nth_error l i = Some a -> nth i l d = a.
Proof. apply nth_error_nth. Qed.

Lemma list_eq_nth {A} (d : A) l l' :
  length l = length l' -> (forall i, i < length l -> nth i l d = nth i l' d) -> l = l'.
Proof. intros H1 H2. apply (nth_ext _ _ d d); auto. Qed.

Lemma enumerate_length {A} (l : list A) : length (enumerate l) = length l.
Proof. unfold enumerate. rewrite combine_length, seq_length. lia. Qed.

Lemma combine_seq_nth_error {A} (l : list A) k i :
  nth_error (combine (seq k (length l)) l) i =
  match nth_error l i with Some a => Some (k + i, a) | None => None end.
Proof.
  revert k i; induction l as [|a l IH]; intros k [|i]; cbn; auto.
  - f_equal. f_equal. lia.
  - rewrite IH. destruct (nth_error l i); auto. f_equal. f_equal. lia.
Qed.
Lemma enumerate_nth_error {A} (l : list A) i :
  nth_error (enumerate l) i = match nth_error l i with Some a => Some (i, a) | None => None end.
Proof. apply (combine_seq_nth_error l 0 i). Qed.
Lemma enumerate_In {A} (l : list A) i a :
  In (i, a) (enumerate l) <-> nth_error l i = Some a.
Proof.
  split; intros H.
  - apply In_nth_error in H as [j Hj]. rewrite enumerate_nth_error in Hj.
    destruct (nth_error l j) eqn:E; inversion Hj; subst. exact E.
  - apply (nth_error_In _ i). now rewrite enumerate_nth_error, H.
Qed.
Lemma combine_seq_app {A} (l l' : list A) k :
  combine (seq k (length (l ++ l'))) (l ++ l') =
  combine (seq k (length l)) l ++ combine (seq (k + length l) (length l')) l'.
Proof.
  revert k; induction l as [|a l IH]; cbn; intros k.
  - now rewrite Nat.add_0_r.
  - now rewrite IH, Nat.add_succ_comm.
Qed.
Lemma enumerate_app {A} (l : list A) a :
  enumerate (l ++ [a]) = enumerate l ++ [(length l, a)].
Proof. unfold enumerate. now rewrite combine_seq_app. Qed.

Lemma repeat_length' {A} (a : A) n : length (repeat a n) = n.
Proof. apply repeat_length. Qed.

Lemma is_power_of_two_spec n : is_power_of_two n = true <-> exists d, n = 2 ^ d.
Proof.
  unfold is_power_of_two. rewrite Nat.eqb_eq. split.
  - intros H. now exists (Nat.log2 n).
  - intros [d ->]. now rewrite Nat.log2_pow2 by lia.
Qed.
Lemma pow2_pos d : 1 <= 2 ^ d.
Proof. induction d; cbn; lia. Qed.
Lemma pow2_half d : 2 ^ S d / 2 = 2 ^ d.
Proof. rewrite Nat.pow_succ_r', Nat.mul_comm. now apply Nat.div_mul. Qed.
Lemma pow2_gt d : d < 2 ^ d.
Proof. apply Nat.pow_gt_lin_r. lia. Qed.

Lemma length1 {A} (l : list A) : length l = 1 -> exists a, l = [a].
Proof. destruct l as [|a [|b l]]; cbn; intros H; try lia. now exists a. Qed.
Lemma length2 {A} (l : list A) : length l = 2 -> exists a b, l = [a; b].
Proof. destruct l as [|a [|b [|c l]]]; cbn; intros H; try lia. now exists a, b. Qed.

(** invert a chain of binds that returned Ok *)
Ltac inv_ok H :=
  match type of H with
  | bind _ _ = Ok _ =>
      let a := fresh "v" in let E := fresh "E" in
      apply bind_Ok_inv in H as [a [E H]]
  end.

Lemma skipn_skipn {A} x y (l : list A) : skipn x (skipn y l) = skipn (x + y) l.
Proof.
  revert l; induction y as [|y IH]; intros l; cbn.
  - now rewrite Nat.add_0_r.
  - rewrite Nat.add_succ_r. destruct l as [|a l]; [now rewrite !skipn_nil|]. cbn. apply IH.
Qed.
Lemma map_repeat {A B} (f : A -> B) a n : map f (repeat a n) = repeat (f a) n.
Proof. induction n as [|n IH]; cbn; auto. now rewrite IH. Qed.
