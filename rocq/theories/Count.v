(** Counting words over a finite set of values: all words of a given length, how many of them
    satisfy a test, and bounds obtained by varying one letter. *)
From Coq Require Import List Arith Lia Bool.
From Verif Require Import ListFacts.
Import ListNotations.

(** every word of length [K] over [vals] *)
Fixpoint words {A} (vals : list A) (K : nat) : list (list A) :=
  match K with
  | O => [[]]
  | S K => flat_map (fun v => map (cons v) (words vals K)) vals
  end.
(** how many elements pass the test *)
Definition count {A} (f : A -> bool) (l : list A) : nat := length (filter f l).

Section Count.
Context {A : Type}.

Lemma words_count (vals : list A) K : length (words vals K) = length vals ^ K.
Proof.
  induction K as [|K IH]; cbn [words]; [reflexivity|]. rewrite Nat.pow_succ_r', <- IH.
  clear IH. generalize (words vals K) as W. induction vals as [|v vals IHv]; intros W; [reflexivity|].
  cbn [flat_map length]. rewrite app_length, map_length, IHv. lia.
Qed.
Lemma words_In (vals : list A) K w : In w (words vals K) <-> length w = K /\ Forall (fun v => In v vals) w.
Proof.
  revert w; induction K as [|K IH]; intros w; cbn [words].
  - split; [intros [<-|[]]; auto|]. intros [H _]. destruct w; [now left|discriminate].
  - rewrite in_flat_map. split.
    + intros (v & Hv & H). apply in_map_iff in H as (w' & <- & H). apply IH in H as [H1 H2]. cbn. auto.
    + intros [H1 H2]. destruct w as [|v w]; [discriminate|]. inversion H2; subst. exists v. split; auto.
      apply in_map, IH. cbn in H1. split; auto.
Qed.
Lemma count_app {B} (f : B -> bool) l1 l2 : count f (l1 ++ l2) = count f l1 + count f l2.
Proof. unfold count. now rewrite filter_app, app_length. Qed.
Lemma count_map {B B'} (f : B' -> bool) (h : B -> B') l : count f (map h l) = count (fun x => f (h x)) l.
Proof. unfold count. induction l as [|x l IH]; cbn; [reflexivity|]. destruct (f (h x)); cbn; now rewrite IH. Qed.
Lemma count_cons {B} (f : B -> bool) x l : count f (x :: l) = (if f x then 1 else 0) + count f l.
Proof. unfold count. cbn. now destruct (f x). Qed.
Lemma count_le {B} (f g : B -> bool) l : (forall x, In x l -> f x = true -> g x = true) -> count f l <= count g l.
Proof.
  induction l as [|x l IH]; intros H; [reflexivity|]. rewrite !count_cons.
  specialize (IH ltac:(intros y Hy; apply H; now right)). specialize (H x (or_introl eq_refl)).
  destruct (f x); [rewrite H by reflexivity; lia|]. destruct (g x); lia.
Qed.
Lemma count_ext {B} (f g : B -> bool) l : (forall x, In x l -> f x = g x) -> count f l = count g l.
Proof. intros H. apply Nat.le_antisymm; apply count_le; intros x Hx; now rewrite H. Qed.
Lemma count_or {B} (f g : B -> bool) l : count (fun x => f x || g x) l <= count f l + count g l.
Proof.
  induction l as [|x l IH]; [reflexivity|]. rewrite !count_cons. destruct (f x), (g x); cbn; lia.
Qed.
Lemma count_or_le {B} (f g : B -> bool) l x y : count f l <= x -> count g l <= y -> count (fun z => f z || g z) l <= x + y.
Proof. intros Hf Hg. assert (H := count_or f g l). lia. Qed.
Lemma count_none {B} (f : B -> bool) l : (forall x, In x l -> f x = false) -> count f l = 0.
Proof. induction l as [|x l IH]; intros H; [reflexivity|]. rewrite count_cons, H by (now left). rewrite IH; [reflexivity|]. intros y Hy. apply H. now right. Qed.
Lemma count_all {B} (f : B -> bool) l : count f l <= length l.
Proof. induction l as [|x l IH]; [reflexivity|]. rewrite count_cons. cbn. destruct (f x); lia. Qed.

Lemma count_words_S (vals : list A) K f : count f (words vals (S K)) =
  list_sum (map (fun v => count (fun w => f (v :: w)) (words vals K)) vals).
Proof.
  cbn [words]. generalize (words vals K) as W. intros W. induction vals as [|v vals IH]; [reflexivity|].
  cbn [flat_map map list_sum]. rewrite count_app, count_map, IH. reflexivity.
Qed.
Lemma sum_bound {B} (h : B -> nat) c l : (forall x, In x l -> h x <= c) -> list_sum (map h l) <= length l * c.
Proof.
  induction l as [|x l IH]; intros H; cbn [map length]; [reflexivity|]. change (list_sum (?x :: ?y)) with (x + list_sum y).
  specialize (IH ltac:(intros y Hy; apply H; now right)). specialize (H x (or_introl eq_refl)). lia.
Qed.
Lemma count_swap {B} (vals : list A) (f : A -> B -> bool) W :
  list_sum (map (fun v => count (f v) W) vals) = list_sum (map (fun w => count (fun v => f v w) vals) W).
Proof.
  induction W as [|w W IH]; cbn [map list_sum].
  - induction vals as [|v vals IHv]; [reflexivity|]. exact IHv.
  - change (list_sum (?x :: ?y)) with (x + list_sum y). rewrite <- IH. clear IH.
    induction vals as [|v vals IHv]; [reflexivity|]. cbn [map]. change (list_sum (?x :: ?y)) with (x + list_sum y).
    rewrite !count_cons, IHv. lia.
Qed.

(** if, whatever the other letters are, at most [c] values of the letter at [j] pass the
    test, then at most a fraction c/|vals| of the words does *)
Lemma count_words_letter (vals : list A) K : forall f j c, j < K ->
  (forall w, length w = K -> count (fun v => f (set_at w j v)) vals <= c) ->
  count f (words vals K) <= c * length vals ^ (K - 1).
Proof.
  induction K as [|K IH]; intros f j c Hj H; [lia|]. rewrite count_words_S.
  replace (S K - 1) with K by lia. destruct j as [|j].
  - rewrite count_swap. rewrite (Nat.mul_comm c), <- words_count. apply sum_bound.
    intros w Hw. apply words_In in Hw as [Hw _]. destruct vals as [|v0 vals]; [cbn; lia|].
    apply (H (v0 :: w)). cbn. lia.
  - etransitivity; [apply (sum_bound _ (c * length vals ^ (K - 1)))|].
    + intros v _. apply (IH _ j); [lia|]. intros w Hw. apply (H (v :: w)). cbn. lia.
    + destruct K as [|K]; [lia|]. replace (S K - 1) with K by lia. rewrite Nat.pow_succ_r'. lia.
Qed.
End Count.
