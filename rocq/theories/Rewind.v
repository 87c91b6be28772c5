(** An extractor that rewinds the prover: at every round it starts with a random challenge and,
    if that run can be completed, goes through the following challenges in cyclic order until it
    has the number of answers it needs. How many runs it makes, and how often it succeeds. *)
From Coq Require Import String.
From Verif Require Export Forking.
From Verif Require Import KaryFacts.
From Coq Require Import List Arith Lia Bool Permutation.
Import ListNotations.
Local Open Scope nat_scope.
Local Open Scope list_scope.

Section Rewind.
Context {A : Type}.

(** the words collected, as a tree *)
Inductive wtree : Type := WNode (kids : list (A * wtree)).

(** go through the letters of l until k of them have been answered; the second component counts runs *)
Fixpoint collect {T} (f : A -> option T * nat) (k : nat) (l : list A) : list (A * T) * nat :=
  match l, k with
  | v :: l, S k' =>
    match f v with
    | (Some t, c) => let '(q, c') := collect f k' l in ((v, t) :: q, c + c')
    | (None, c) => let '(q, c') := collect f k l in (q, c + c')
    end
  | _, _ => ([], 0)
  end.
(** the letters in cyclic order, from the i-th one on *)
Definition cyc (i : nat) (vals : list A) : list A := skipn i vals ++ firstn i vals.
(** one round: give up if the first letter is not answered *)
Definition node {T} (f : A -> option T * nat) (k : nat) (l : list A) : option (list (A * T)) * nat :=
  match l with
  | [] => (None, 0)
  | v :: l =>
    match f v with
    | (None, c) => (None, c)
    | (Some t, c) => let '(q, c') := collect f (k - 1) l in
                     (if k - 1 <=? length q then Some ((v, t) :: q) else None, c + c')
    end
  end.
(** [ok w] is one run of the prover with the challenges w; [o] are the random choices *)
Fixpoint rewind (vals : list A) (ks : list nat) (ok : list A -> bool) (o : list nat) : option wtree * nat :=
  match ks with
  | [] => (if ok [] then Some (WNode []) else None, 1)
  | k :: ks =>
    match o with
    | [] => (None, 0)
    | i :: o =>
      let '(r, c) := node (fun v => rewind vals ks (fun w => ok (v :: w)) o) k (cyc i vals) in
      (option_map WNode r, c)
    end
  end.

(** what a tree that was found looks like *)
Fixpoint wgood (vals : list A) (ks : list nat) (ok : list A -> bool) (t : wtree) : Prop :=
  match ks with
  | [] => ok [] = true
  | k :: ks => let 'WNode q := t in
    length q = k /\ NoDup (map fst q) /\ incl (map fst q) vals /\
    forall v t, In (v, t) q -> wgood vals ks (fun w => ok (v :: w)) t
  end.

Definition ans {T} (f : A -> option T * nat) (v : A) : bool := match fst (f v) with Some _ => true | None => false end.

Lemma collect_In {T} (f : A -> option T * nat) l : forall k v t, In (v, t) (fst (collect f k l)) -> In v l /\ fst (f v) = Some t.
Proof.
  induction l as [|u l IH]; intros k v t; [intros []|]. destruct k as [|k]; [intros []|]. cbn [collect].
  destruct (f u) as [[t'|] c] eqn:E.
  - destruct (collect f k l) as [q c'] eqn:Ec. cbn. intros [Q|Q].
    + injection Q as -> ->. rewrite E. auto.
    + specialize (IH k v t). rewrite Ec in IH. destruct (IH Q). auto.
  - destruct (collect f (S k) l) as [q c'] eqn:Ec. cbn. intros Q. specialize (IH (S k) v t). rewrite Ec in IH. destruct (IH Q). auto.
Qed.
Lemma collect_NoDup {T} (f : A -> option T * nat) l : forall k, NoDup l -> NoDup (map fst (fst (collect f k l))).
Proof.
  induction l as [|u l IH]; intros k HN; [constructor|]. destruct k as [|k]; [constructor|]. cbn [collect].
  inversion HN as [|? ? N1 N2]; subst.
  destruct (f u) as [[t'|] c] eqn:E.
  - assert (X := IH k N2). assert (Y := collect_In f l k). destruct (collect f k l) as [q c'] eqn:Ec. cbn in *. constructor; auto.
    intros Z. apply in_map_iff in Z as ([v t] & <- & Z). apply N1. now apply (Y v t).
  - assert (X := IH (S k) N2). destruct (collect f (S k) l) as [q c'] eqn:Ec. exact X.
Qed.
Lemma collect_length {T} (f : A -> option T * nat) l : forall k, length (fst (collect f k l)) = min k (count (ans f) l).
Proof.
  induction l as [|u l IH]; intros k; [cbn; lia|]. destruct k as [|k]; [reflexivity|]. cbn [collect].
  rewrite count_cons. unfold ans at 1. destruct (f u) as [[t'|] c] eqn:E; cbn [fst].
  - specialize (IH k). destruct (collect f k l) as [q c'] eqn:Ec. cbn in *. lia.
  - specialize (IH (S k)). destruct (collect f (S k) l) as [q c'] eqn:Ec. cbn in *. lia.
Qed.
Lemma node_good {T} (f : A -> option T * nat) k l q : 1 <= k -> NoDup l -> fst (node f k l) = Some q ->
  length q = k /\ NoDup (map fst q) /\ incl (map fst q) l /\ forall v t, In (v, t) q -> fst (f v) = Some t.
Proof.
  intros Hk HN. destruct l as [|u l]; [discriminate|]. cbn [node]. inversion HN as [|? ? N1 N2]; subst.
  destruct (f u) as [[t'|] c] eqn:E; [|discriminate].
  assert (X1 := collect_In f l (k - 1)). assert (X2 := collect_NoDup f l (k - 1) N2). assert (X3 := collect_length f l (k - 1)).
  destruct (collect f (k - 1) l) as [q' c'] eqn:Ec. cbn [fst] in *.
  destruct (k - 1 <=? length q') eqn:El; [|discriminate]. apply Nat.leb_le in El. injection 1 as <-.
  split; [cbn; lia|]. split; [|split].
  - cbn. constructor; auto. intros Z. apply in_map_iff in Z as ([v t] & <- & Z). apply N1. now apply (X1 v t).
  - intros v [<-|Z]; [now left|]. apply in_map_iff in Z as ([w t] & <- & Z). right. now apply (X1 w t).
  - intros v t [Q|Q]; [injection Q as -> ->; now rewrite E|]. now apply X1.
Qed.
Lemma cyc_In i vals v : In v (cyc i vals) <-> In v vals.
Proof. unfold cyc. rewrite in_app_iff, <- (firstn_skipn i vals) at 1. rewrite (firstn_skipn i vals). 
  rewrite <- (firstn_skipn i vals) at 3. rewrite in_app_iff. tauto. Qed.
Lemma cyc_NoDup i vals : NoDup vals -> NoDup (cyc i vals).
Proof.
  intros H. apply (Permutation_NoDup (l := vals)); auto. unfold cyc.
  rewrite <- (firstn_skipn i vals) at 1. apply Permutation_app_comm.
Qed.
Lemma cyc_count i vals (g : A -> bool) : count g (cyc i vals) = count g vals.
Proof. unfold cyc. rewrite count_app, Nat.add_comm, <- count_app, firstn_skipn. reflexivity. Qed.

Lemma rewind_good vals ks : NoDup vals -> Forall (fun k => 1 <= k) ks -> forall ok o t,
  fst (rewind vals ks ok o) = Some t -> wgood vals ks ok t.
Proof.
  intros HN. induction 1 as [|k ks Hk HF IH]; intros ok o t; cbn [rewind wgood].
  - cbn. destruct (ok []); [auto|discriminate].
  - destruct o as [|i o]; [discriminate|].
    assert (X := node_good (fun v => rewind vals ks (fun w => ok (v :: w)) o) k (cyc i vals)).
    destruct (node _ k (cyc i vals)) as [r c] eqn:En. cbn [fst]. destruct r as [q|]; [|discriminate]. cbn [option_map]. injection 1 as <-.
    destruct (X q Hk (cyc_NoDup i vals HN) eq_refl) as (X1 & X2 & X3 & X4).
    split; [exact X1|]. split; [exact X2|]. split. { intros v Hv. apply (cyc_In i), X3, Hv. }
    intros v t Hv. apply X4 in Hv. now apply (IH _ o).
Qed.

(** *** how often it succeeds *)
Definition found {T} (r : option T * nat) : bool := match fst r with Some _ => true | None => false end.
Lemma node_found {T} (f : A -> option T * nat) k i vals v l : 1 <= k -> cyc i vals = v :: l ->
  found (node f k (cyc i vals)) = ans f v && (k <=? count (ans f) vals).
Proof.
  intros Hk E. rewrite <- (cyc_count i vals). rewrite E. cbn [node]. rewrite count_cons. unfold found, ans at 1 2.
  assert (X := collect_length f l (k - 1)).
  destruct (f v) as [[t|] c]; cbn [fst andb]; [|reflexivity].
  destruct (collect f (k - 1) l) as [q c'] eqn:Ec. cbn [fst] in *. 
  destruct (k - 1 <=? length q) eqn:E1; [apply Nat.leb_le in E1; symmetry; apply Nat.leb_le; lia|].
  apply Nat.leb_gt in E1. symmetry. apply Nat.leb_gt. lia.
Qed.
Lemma cyc_head i vals : i < length vals -> exists v l, cyc i vals = v :: l /\ nth_error vals i = Some v.
Proof.
  intros H. unfold cyc. destruct (nth_error vals i) as [v|] eqn:E; [|apply nth_error_None in E; lia].
  apply nth_error_split in E as (l1 & l2 & -> & <-). exists v, (l2 ++ l1). split; [|auto].
  rewrite skipn_app, skipn_all, Nat.sub_diag. cbn. rewrite firstn_app, firstn_all, Nat.sub_diag. cbn. now rewrite app_nil_r.
Qed.
Lemma count_nth (g : A -> bool) vals :
  count (fun i => match nth_error vals i with Some v => g v | None => false end) (seq 0 (length vals)) = count g vals.
Proof.
  induction vals as [|v vals IH]; [reflexivity|]. cbn [length seq]. rewrite !count_cons. cbn [nth_error]. f_equal.
  rewrite <- seq_shift, count_map. exact IH.
Qed.
Lemma node_often {T} (f : A -> option T * nat) k vals : 1 <= k ->
  count (ans f) vals <= count (fun i => found (node f k (cyc i vals))) (seq 0 (length vals)) + (k - 1).
Proof.
  intros Hk. destruct (le_lt_dec k (count (ans f) vals)) as [H|H]; [|lia].
  rewrite <- (count_nth (ans f) vals) at 1. etransitivity; [|apply Nat.le_add_r]. apply count_le.
  intros i Hi. apply in_seq in Hi. destruct (cyc_head i vals) as (v & l & E & En); [lia|]. rewrite En. intros Ha.
  rewrite (node_found _ _ _ _ _ _ Hk E), Ha. now apply Nat.leb_le.
Qed.

Lemma sum_add {X} (f g : X -> nat) l : list_sum (map (fun x => f x + g x) l) = list_sum (map f l) + list_sum (map g l).
Proof. induction l as [|x l IH]; [reflexivity|]. cbn [map]. change (list_sum (?x :: ?y)) with (x + list_sum y). rewrite IH. lia. Qed.
Lemma sum_le {X} (f g : X -> nat) l : (forall x, In x l -> f x <= g x) -> list_sum (map f l) <= list_sum (map g l).
Proof.
  induction l as [|x l IH]; intros H; [reflexivity|]. cbn [map]. change (list_sum (?x :: ?y)) with (x + list_sum y).
  assert (H1 := H x (or_introl eq_refl)). specialize (IH ltac:(intros y Hy; apply H; now right)). lia.
Qed.
Lemma sum_mul {X} (f : X -> nat) k l : list_sum (map (fun x => k * f x) l) = k * list_sum (map f l).
Proof. induction l as [|x l IH]; cbn [map]; [cbn; lia|]. change (list_sum (?x :: ?y)) with (x + list_sum y). rewrite IH. lia. Qed.
Lemma sum_swap {X Y} (f : X -> Y -> nat) l m :
  list_sum (map (fun x => list_sum (map (f x) m)) l) = list_sum (map (fun y => list_sum (map (fun x => f x y) l)) m).
Proof.
  induction l as [|x l IH]; cbn [map]. { induction m as [|y m IHm]; [reflexivity|]. exact IHm. }
  change (list_sum (?x :: ?y)) with (x + list_sum y). rewrite IH, <- sum_add. reflexivity.
Qed.
Lemma sum_const {X} c (l : list X) : list_sum (map (fun _ => c) l) = length l * c.
Proof. induction l as [|x l IH]; [reflexivity|]. cbn [map length]. change (list_sum (?x :: ?y)) with (x + list_sum y). rewrite IH. lia. Qed.
Lemma sum_words_S {X} (vs : list X) K (f : list X -> nat) : list_sum (map f (words vs (S K))) =
  list_sum (map (fun v => list_sum (map (fun w => f (v :: w)) (words vs K))) vs).
Proof.
  cbn [words]. generalize (words vs K) as W. intros W. induction vs as [|v vs IH]; [reflexivity|].
  cbn [flat_map map]. change (list_sum (?x :: ?y)) with (x + list_sum y). now rewrite map_app, list_sum_app, map_map, IH.
Qed.
Lemma count_sum {X} (f : X -> bool) l : count f l = list_sum (map (fun x => if f x then 1 else 0) l).
Proof. induction l as [|x l IH]; [reflexivity|]. rewrite count_cons, IH. reflexivity. Qed.

Lemma found_map {T T'} (g : T -> T') (r : option T * nat) : found (let '(x, c) := r in (option_map g x, c)) = found r.
Proof. destruct r as [[t|] c]; reflexivity. Qed.

Lemma rewind_often vals ks : Forall (fun k => 1 <= k) ks -> forall ok,
  count ok (words vals (length ks)) <=
    count (fun o => found (rewind vals ks ok o)) (words (seq 0 (length vals)) (length ks)) +
    slack ks * length vals ^ (length ks - 1).
Proof.
  induction 1 as [|k ks Hk HF IH]; intros ok.
  - cbn. unfold count. cbn. unfold found. cbn. destruct (ok []); cbn; lia.
  - cbn [length]. rewrite !count_words_S. set (N := length vals) in *. set (W := words (seq 0 N) (length ks)).
    set (f := fun o v => rewind vals ks (fun w => ok (v :: w)) o).
    assert (S1 : list_sum (map (fun v => count (fun w => ok (v :: w)) (words vals (length ks))) vals) <=
                 list_sum (map (fun v => count (fun o => found (f o v)) W) vals) + N * (slack ks * N ^ (length ks - 1))).
    { rewrite <- (sum_const (slack ks * N ^ (length ks - 1)) vals : _ = N * _), <- sum_add. apply sum_le. intros v _. apply IH. }
    assert (S2 : list_sum (map (fun v => count (fun o => found (f o v)) W) vals) =
                 list_sum (map (fun o => count (ans (f o)) vals) W)).
    { rewrite count_swap. reflexivity. }
    assert (S3 : list_sum (map (fun o => count (ans (f o)) vals) W) <=
      list_sum (map (fun o => count (fun i => found (node (f o) k (cyc i vals))) (seq 0 N)) W) + length W * (k - 1)).
    { rewrite <- sum_const, <- sum_add. apply sum_le. intros o _. now apply node_often. }
    assert (LW : length W = N ^ length ks) by (unfold W; rewrite words_count, seq_length; reflexivity).
    rewrite LW in S3. rewrite <- (count_swap (seq 0 N) (fun i o => found (node (f o) k (cyc i vals))) W) in S3.
    assert (S4 : list_sum (map (fun v => count (fun w => found (node (f w) k (cyc v vals))) W) (seq 0 N)) =
      list_sum (map (fun v => count (fun w => found (rewind vals (k :: ks) ok (v :: w))) W) (seq 0 N))).
    { f_equal. apply map_ext. intros i. apply count_ext. intros o _. cbn [rewind]. rewrite found_map. reflexivity. }
    rewrite <- S4. replace (S (length ks) - 1) with (length ks) by lia.
    assert (E : slack (k :: ks) * N ^ length ks = (k - 1) * N ^ length ks + N * (slack ks * N ^ (length ks - 1))).
    { unfold slack. cbn [map]. change (list_sum (pred k :: ?l)) with (pred k + list_sum l). fold (slack ks).
      rewrite Nat.mul_add_distr_r. replace (pred k) with (k - 1) by lia. f_equal.
      destruct ks as [|k2 ks2]; [cbn; lia|].
      replace (length (k2 :: ks2)) with (S (length (k2 :: ks2) - 1)) at 1 by (cbn; lia).
      rewrite Nat.pow_succ_r'. lia. }
    rewrite E. lia.
Qed.

(** *** how many runs it makes *)
Definition sumn (n : nat) (f : nat -> nat) : nat := list_sum (map f (seq 0 n)).
Lemma sumn_S n f : sumn (S n) f = f 0 + sumn n (fun i => f (S i)).
Proof. unfold sumn. cbn [seq map]. rewrite <- seq_shift, map_map. reflexivity. Qed.
Lemma sumn_last n f : sumn (S n) f = sumn n f + f n.
Proof. unfold sumn. rewrite seq_S, map_app, list_sum_app. cbn. lia. Qed.
Lemma sumn_ext n f g : (forall i, i < n -> f i = g i) -> sumn n f = sumn n g.
Proof. intros H. unfold sumn. f_equal. apply map_ext_in. intros i Hi. apply in_seq in Hi. apply H. lia. Qed.
Lemma sumn_le n f g : (forall i, i < n -> f i <= g i) -> sumn n f <= sumn n g.
Proof. intros H. unfold sumn. apply sum_le. intros i Hi. apply in_seq in Hi. apply H. lia. Qed.
Lemma sumn_swap n m f : sumn n (fun i => sumn m (f i)) = sumn m (fun j => sumn n (fun i => f i j)).
Proof. unfold sumn. apply sum_swap. Qed.
Lemma sumn_mul n k f : sumn n (fun i => k * f i) = k * sumn n f.
Proof. apply sum_mul. Qed.

Lemma period_shift N (f : nat -> nat) t : (forall i, f (i + N) = f i) -> sumn N (fun i => f (i + t)) = sumn N f.
Proof.
  intros P. induction t as [|t IH]; [apply sumn_ext; intros; f_equal; lia|]. rewrite <- IH.
  assert (X : sumn (S N) (fun i => f (i + t)) = sumn (S N) (fun i => f (i + t))) by reflexivity.
  rewrite sumn_S, sumn_last in X at 1.
  replace (f (N + t)) with (f t) in X by (rewrite <- (P t); f_equal; lia).
  assert (Y := sumn_last N (fun i => f (i + t))). rewrite sumn_S in Y. cbn in Y.
  replace (f (N + t)) with (f t) in Y by (rewrite <- (P t); f_equal; lia).
  rewrite (sumn_ext N (fun i => f (i + S t)) (fun i => f (S (i + t)))); [lia|]. intros i _. f_equal. lia.
Qed.

(** for an endless sequence of letters: how many are answered among the t letters from i on *)
Section Cyclic.
Context (s : nat -> bool).
Definition run_ans (i t : nat) : nat := sumn t (fun j => if s (i + j) then 1 else 0).
(** the letter i + t is tried when starting at i *)
Definition tried (k i t : nat) : nat :=
  match t with O => 1 | S _ => if s i && (run_ans i t <? k) then 1 else 0 end.
Lemma run_ans_back x t : S t <= x -> run_ans (x - S t) (S t) = (if s (x - S t) then 1 else 0) + run_ans (x - t) t.
Proof.
  intros H. unfold run_ans. rewrite sumn_S, Nat.add_0_r. f_equal. apply sumn_ext. intros j Hj.
  replace (x - S t + S j) with (x - t + j) by lia. reflexivity.
Qed.
(** looking back from x, only k starting points lead to x *)
Lemma tried_few k x T : 1 <= k -> T <= x -> sumn (S T) (fun t => tried k (x - t) t) <= 1 + min (k - 1) (run_ans (x - T) T).
Proof.
  intros Hk. induction T as [|T IH]; intros HT; [cbn; lia|]. rewrite sumn_last.
  specialize (IH ltac:(lia)). rewrite run_ans_back by lia. cbn [tried]. rewrite run_ans_back by lia.
  destruct (s (x - S T)); cbn [andb]; [|lia].
  destruct (1 + run_ans (x - T) T <? k) eqn:E; [apply Nat.ltb_lt in E; lia|]. lia.
Qed.
Lemma tried_total N k x : 1 <= k -> N <= S x -> sumn N (fun t => tried k (x - t) t) <= k.
Proof. intros Hk HN. destruct N as [|T]; [cbn; lia|]. assert (X := tried_few k x T Hk ltac:(lia)). lia. Qed.
(** summed over all starting points, every letter is paid at most k times *)
Lemma cyclic_cost N k (c : nat -> nat) : 1 <= k -> (forall i, s (i + N) = s i) -> (forall i, c (i + N) = c i) ->
  sumn N (fun i => sumn N (fun t => c (i + t) * tried k i t)) <= k * sumn N c.
Proof.
  intros Hk Ps Pc. rewrite sumn_swap.
  assert (Pr : forall i t, run_ans (i + N) t = run_ans i t).
  { intros i t. unfold run_ans. apply sumn_ext. intros j _. rewrite <- (Ps (i + j)). replace (i + N + j) with (i + j + N) by lia. reflexivity. }
  assert (Pt : forall i t, tried k (i + N) t = tried k i t).
  { intros i [|t]; [reflexivity|]. cbn [tried]. now rewrite Ps, Pr. }
  rewrite (sumn_ext N _ (fun t => sumn N (fun j => c j * tried k (j + N - t) t))).
  - rewrite sumn_swap, <- sumn_mul. apply sumn_le. intros j Hj. rewrite sumn_mul, Nat.mul_comm. apply Nat.mul_le_mono_r.
    apply tried_total; lia.
  - intros t Ht. rewrite <- (period_shift N (fun j => c j * tried k (j + N - t) t) t).
    + apply sumn_ext. intros i _. f_equal. replace (i + t + N - t) with (i + N) by lia. now rewrite Pt.
    + intros j. rewrite Pc. f_equal. replace (j + N + N - t) with (j + N - t + N) by lia. apply Pt.
Qed.
End Cyclic.

Lemma collect_cost {T} (f : A -> option T * nat) (d : A) l : forall k,
  snd (collect f k l) = sumn (length l) (fun t => if count (ans f) (firstn t l) <? k then snd (f (nth t l d)) else 0).
Proof.
  induction l as [|u l IH]; intros k; [reflexivity|]. destruct k as [|k]; cbn [collect length].
  - unfold sumn. cbn [snd]. symmetry. rewrite (map_ext _ (fun _ => 0)); [rewrite sum_const; lia|]. intros t. now rewrite (proj2 (Nat.ltb_ge _ _)) by lia.
  - rewrite sumn_S. cbn [firstn nth]. change (count (ans f) [] <? S k) with true. cbn match.
    destruct (f u) as [[t'|] c] eqn:E.
    + specialize (IH k). destruct (collect f k l) as [q c'] eqn:Ec. cbn [snd] in *. f_equal. rewrite IH. apply sumn_ext.
      intros t _. rewrite count_cons. unfold ans at 2. rewrite E. reflexivity.
    + specialize (IH (S k)). destruct (collect f (S k) l) as [q c'] eqn:Ec. cbn [snd] in *. f_equal. rewrite IH. apply sumn_ext.
      intros t _. rewrite count_cons. unfold ans at 2. rewrite E. reflexivity.
Qed.
Lemma cyc_nth vals i t d : i < length vals -> t < length vals ->
  nth t (cyc i vals) d = nth ((i + t) mod length vals) vals d.
Proof.
  intros Hi Ht. unfold cyc. destruct (lt_dec t (length vals - i)) as [H|H].
  - rewrite app_nth1 by (rewrite skipn_length; lia). rewrite nth_skipn_eq. rewrite Nat.mod_small by lia. reflexivity.
  - rewrite app_nth2 by (rewrite skipn_length; lia). rewrite skipn_length.
    replace ((i + t) mod length vals) with (t - (length vals - i)).
    + transitivity (nth (t - (length vals - i)) (firstn i vals ++ skipn i vals) d); [|now rewrite firstn_skipn].
      rewrite app_nth1 by (rewrite firstn_length; lia). reflexivity.
    + replace (i + t) with (t - (length vals - i) + 1 * length vals) by lia. rewrite Nat.mod_add by lia.
      symmetry. apply Nat.mod_small. lia.
Qed.
Lemma cyc_length i vals : length (cyc i vals) = length vals.
Proof. unfold cyc. rewrite app_length, Nat.add_comm, <- app_length, firstn_skipn. reflexivity. Qed.
Lemma count_firstn (g : A -> bool) d l t : t <= length l -> count g (firstn t l) = sumn t (fun j => if g (nth j l d) then 1 else 0).
Proof.
  revert t; induction l as [|u l IH]; intros t Ht; [destruct t; [reflexivity|cbn in Ht; lia]|].
  destruct t as [|t]; [reflexivity|]. cbn [firstn]. rewrite count_cons, sumn_S. cbn [nth]. f_equal. apply IH. cbn in Ht. lia.
Qed.
Lemma node_cost {T} (f : A -> option T * nat) k vals d i : 1 <= k -> i < length vals ->
  let e := fun j => nth (j mod length vals) vals d in
  snd (node f k (cyc i vals)) = sumn (length vals) (fun t => snd (f (e (i + t))) * tried (fun j => ans f (e j)) k i t).
Proof.
  intros Hk Hi e. set (N := length vals) in *.
  assert (EN : forall t, t < N -> nth t (cyc i vals) d = e (i + t)) by (intros t Ht; now apply cyc_nth).
  assert (LN : length (cyc i vals) = N) by apply cyc_length.
  destruct (cyc i vals) as [|v l] eqn:E; [cbn in LN; lia|]. cbn [length] in LN. rewrite <- LN, sumn_S.
  cbn [tried]. rewrite Nat.mul_1_r, <- EN by lia. cbn [nth node].
  assert (Ev : e i = v) by (rewrite <- (Nat.add_0_r i), <- EN by lia; reflexivity).
  rewrite (sumn_ext (length l) _ (fun t => if ans f v && (count (ans f) (firstn t l) <? k - 1) then snd (f (nth t l d)) else 0)).
  - unfold ans at 1. destruct (f v) as [[t|] c]; cbn [fst snd andb].
    + assert (X := collect_cost f d l (k - 1)). destruct (collect f (k - 1) l) as [q c']. cbn [snd] in *. rewrite X.
      f_equal.
    + unfold sumn. rewrite sum_const. lia.
  - intros t Ht. cbn [tried]. rewrite Ev. rewrite <- EN by lia. cbn [nth].
    destruct (ans f v) eqn:Ea; cbn [andb]; [|lia].
    assert (R : run_ans (fun j => ans f (e j)) i (S t) = S (count (ans f) (firstn t l))).
    { unfold run_ans. rewrite sumn_S. rewrite Nat.add_0_r, Ev, Ea. cbn. f_equal.
      rewrite (count_firstn _ d) by lia. apply sumn_ext. intros j Hj. rewrite <- EN by lia. reflexivity. }
    rewrite R. destruct (count (ans f) (firstn t l) <? k - 1) eqn:E1.
    + apply Nat.ltb_lt in E1. rewrite (proj2 (Nat.ltb_lt _ _)) by lia. lia.
    + apply Nat.ltb_ge in E1. rewrite (proj2 (Nat.ltb_ge _ _)) by lia. lia.
Qed.
Lemma sumn_nth (g : A -> nat) d vals : sumn (length vals) (fun i => g (nth i vals d)) = list_sum (map g vals).
Proof. induction vals as [|v vals IH]; [reflexivity|]. cbn [length]. rewrite sumn_S. cbn [nth map]. rewrite IH. reflexivity. Qed.
Lemma node_total {T} (f : A -> option T * nat) k vals : 1 <= k ->
  sumn (length vals) (fun i => snd (node f k (cyc i vals))) <= k * list_sum (map (fun v => snd (f v)) vals).
Proof.
  intros Hk. destruct vals as [|d0 vals0] eqn:E0; [cbn; lia|]. rewrite <- E0. set (N := length vals).
  assert (HN : N <> 0) by (unfold N; rewrite E0; cbn; lia).
  set (e := fun j => nth (j mod N) vals d0).
  assert (Pe : forall i, e (i + N) = e i).
  { intros i. unfold e. f_equal. rewrite <- (Nat.mul_1_l N) at 1. now apply Nat.mod_add. }
  rewrite (sumn_ext N _ (fun i => sumn N (fun t => snd (f (e (i + t))) * tried (fun j => ans f (e j)) k i t)))
    by (intros i Hi; now apply node_cost).
  etransitivity.
  - apply (cyclic_cost (fun j => ans f (e j)) N k (fun j => snd (f (e j)))); auto; intros i; now rewrite Pe.
  - apply Nat.mul_le_mono_l. unfold N. rewrite <- (sumn_nth (fun v => snd (f v)) d0). apply Nat.eq_le_incl. apply sumn_ext. intros i Hi. unfold e, N. now rewrite Nat.mod_small by lia.
Qed.

Definition prodn (ks : list nat) : nat := fold_right Nat.mul 1 ks.
Definition total {X} (c : X -> nat) (l : list X) : nat := list_sum (map c l).

Lemma rewind_runs vals ks : Forall (fun k => 1 <= k) ks -> forall ok,
  total (fun o => snd (rewind vals ks ok o)) (words (seq 0 (length vals)) (length ks)) <= prodn ks * length vals ^ length ks.
Proof.
  unfold total. induction 1 as [|k ks Hk HF IH]; intros ok; [cbn; lia|].
  cbn [length]. rewrite sum_words_S. set (N := length vals) in *. set (W := words (seq 0 N) (length ks)) in *.
  set (f := fun o v => rewind vals ks (fun w => ok (v :: w)) o).
  rewrite (map_ext _ (fun i => list_sum (map (fun o => snd (node (f o) k (cyc i vals))) W))).
  2:{ intros i. f_equal. apply map_ext. intros o. cbn [rewind]. fold (f o). now destruct (node (f o) k (cyc i vals)). }
  rewrite sum_swap.
  etransitivity; [apply (sum_le _ (fun o => k * list_sum (map (fun v => snd (f o v)) vals))); intros o _; apply (node_total (f o)); auto|].
  rewrite sum_mul, <- (sum_swap (fun v o => snd (f o v))).
  cbn [prodn fold_right]. fold (prodn ks). rewrite Nat.pow_succ_r'.
  assert (X : list_sum (map (fun v => list_sum (map (fun o => snd (f o v)) W)) vals) <= N * (prodn ks * N ^ length ks)).
  { rewrite <- (sum_const (prodn ks * N ^ length ks) vals : _ = N * _). apply sum_le. intros v _. apply IH. }
  nia.
Qed.
End Rewind.
Arguments wtree : clear implicits.
