(** Closed form of compute_mapping. *)
From Coq Require Import Sorted.
From Verif Require Export CopySpec ListFacts Vec MatrixFacts.
Local Open Scope nat_scope.
Local Open Scope list_scope.

Lemma btree_insert_In x y s : In y (btree_insert x s) <-> y = x \/ In y s.
Proof.
  induction s as [|z s IH]; cbn [btree_insert].
  - cbn. intuition.
  - destruct (N.ltb_spec x z).
    + cbn. intuition.
    + destruct (N.eqb_spec x z).
      * subst. cbn. intuition.
      * cbn. rewrite IH. intuition.
Qed.
Lemma btree_insert_sorted x s : StronglySorted N.lt s -> StronglySorted N.lt (btree_insert x s).
Proof.
  induction s as [|z s IH]; intros H; cbn [btree_insert].
  - repeat constructor.
  - inversion H as [|? ? H1 H2]; subst. destruct (N.ltb_spec x z) as [Hxz|Hxz].
    + constructor; auto. constructor; auto. eapply Forall_impl; [|exact H2]. cbn. intros; lia.
    + destruct (N.eqb_spec x z) as [->|Hne]; auto. constructor; auto.
      apply Forall_forall. intros y Hy. apply btree_insert_In in Hy as [->|Hy]; [lia|].
      rewrite Forall_forall in H2. auto.
Qed.
Lemma btree_collect_acc l : forall acc y,
  In y (fold_left (fun s x => btree_insert x s) l acc) <-> In y acc \/ In y l.
Proof.
  induction l as [|x l IH]; intros acc y; cbn [fold_left].
  - cbn. tauto.
  - rewrite IH, btree_insert_In. cbn. intuition.
Qed.
Lemma btree_collect_In l y : In y (btree_collect l) <-> In y l.
Proof. unfold btree_collect. rewrite btree_collect_acc. cbn. tauto. Qed.
Lemma btree_collect_sorted l : StronglySorted N.lt (btree_collect l).
Proof.
  unfold btree_collect. assert (H : StronglySorted N.lt (@nil N)) by constructor. revert H. generalize (@nil N).
  induction l as [|x l IH]; intros acc H; cbn [fold_left]; auto. apply IH. now apply btree_insert_sorted.
Qed.
Lemma btree_contains_In s x : btree_contains s x = true <-> In x s.
Proof.
  unfold btree_contains. rewrite existsb_exists. split.
  - intros (y & Hy & E). apply N.eqb_eq in E. now subst.
  - intros H. exists x. split; auto. apply N.eqb_refl.
Qed.
Lemma sorted_NoDup (l : list N) : StronglySorted N.lt l -> NoDup l.
Proof.
  induction 1 as [|x l H IH HF]; constructor; auto. intros Hin. rewrite Forall_forall in HF.
  specialize (HF _ Hin). lia.
Qed.

Lemma range_In lo hi x : In x (range_N lo hi) <-> (lo <= x /\ x < hi)%N.
Proof.
  unfold range_N. rewrite in_map_iff. split.
  - intros (i & <- & Hi). apply in_seq in Hi. lia.
  - intros [H1 H2]. exists (N.to_nat (x - lo)). split; [lia|]. apply in_seq. lia.
Qed.
Lemma sorted_map_seq (lo : N) a k : StronglySorted N.lt (map (fun i => lo + N.of_nat i)%N (seq a k)).
Proof.
  revert a; induction k as [|k IH]; intros a; cbn [seq map]; constructor; auto.
  apply Forall_forall. intros x Hx. apply in_map_iff in Hx as (i & <- & Hi). apply in_seq in Hi. lia.
Qed.
Lemma range_sorted lo hi : StronglySorted N.lt (range_N lo hi).
Proof. apply sorted_map_seq. Qed.
Lemma filter_sorted (f : N -> bool) l : StronglySorted N.lt l -> StronglySorted N.lt (filter f l).
Proof.
  induction 1 as [|x l H IH HF]; cbn [filter]; [constructor|]. destruct (f x); auto. constructor; auto.
  apply Forall_forall. intros y Hy. apply filter_In in Hy as [Hy _]. rewrite Forall_forall in HF. auto.
Qed.
Lemma firstn_In {A} k (l : list A) x : In x (firstn k l) -> In x l.
Proof. revert l; induction k as [|k IH]; intros [|y l]; cbn; try tauto. intros [->|H]; auto. Qed.
Lemma firstn_sorted k l : StronglySorted N.lt l -> StronglySorted N.lt (firstn k l).
Proof.
  revert l; induction k as [|k IH]; intros [|x l] H; cbn [firstn]; try constructor; auto.
  - inversion H; subst. auto.
  - inversion H as [|? ? H1 H2]; subst. apply Forall_forall. intros y Hy. apply firstn_In in Hy.
    rewrite Forall_forall in H2. auto.
Qed.
Lemma firstn_smallest k l p q : StronglySorted N.lt l -> In p (firstn k l) -> In q l -> (q < p)%N -> In q (firstn k l).
Proof.
  revert l; induction k as [|k IH]; intros [|x l] H Hp Hq Hlt; cbn [firstn] in *; try contradiction.
  inversion H as [|? ? H1 H2]; subst. rewrite Forall_forall in H2. destruct Hq as [->|Hq]; [now left|]. right.
  destruct Hp as [->|Hp].
  - specialize (H2 _ Hq). lia.
  - auto.
Qed.

Lemma zip_mut_map2 {A B} (f : A -> B -> A) ms ps : length ms = length ps -> zip_mut f ms ps = map2 f ms ps.
Proof.
  unfold map2. revert ps; induction ms as [|m ms IH]; intros [|p ps] H; cbn in *; try discriminate; auto.
  f_equal. apply IH. lia.
Qed.
Lemma next_mut_map2 {A B} (f : A -> B -> A) ms ps : length ms = length ps -> next_mut f ms ps = Ok (map2 f ms ps).
Proof.
  unfold map2. revert ms; induction ps as [|p ps IH]; intros [|m ms] H; cbn in *; try discriminate; auto.
  rewrite IH by lia. reflexivity.
Qed.

(** crs id of each message *)
Definition cm_crs (sets : list (list N)) : list N :=
  concat (map (fun '(crs_id, set_of_indices) =>
                 map (fun _ => as_u16 (N.of_nat crs_id)) set_of_indices) (enumerate sets)).
Lemma concat_length_sum {A} (ls : list (list A)) : length (concat ls) = list_sum (map (@length A) ls).
Proof. induction ls as [|l ls IH]; cbn; auto. rewrite app_length. unfold list_sum in IH. now rewrite IH. Qed.
Lemma total_eq sets : length (concat sets) = cm_total sets.
Proof. apply concat_length_sum. Qed.
Lemma fold_add_sum l a : fold_left Nat.add l a = a + list_sum l.
Proof.
  revert a; induction l as [|x l IH]; intros a; cbn [fold_left]; [cbn; lia|]. rewrite IH. cbn. fold (list_sum l). lia.
Qed.
Lemma crs_gen k (sets : list (list N)) :
  length (concat (map (fun '(crs_id, s) => map (fun _ => as_u16 (N.of_nat crs_id)) s) (combine (seq k (length sets)) sets)))
  = cm_total sets.
Proof.
  revert k; induction sets as [|s sets IH]; intros k; cbn [length seq combine map concat]; auto.
  rewrite app_length, map_length, IH. reflexivity.
Qed.
Lemma cm_crs_length sets : length (cm_crs sets) = cm_total sets.
Proof. apply crs_gen. Qed.

Definition cm_avail (n ws : N) (sets : list (list N)) : list N :=
  filter (fun x => negb (btree_contains (btree_collect (concat sets)) x)) (range_N (as_u16 ws) (as_u16 n - 2)).
Definition cm_msgs (sets : list (list N)) (av : list N) : list MessageMap :=
  tab (cm_total sets) (fun i => mkMessageMap i (nth i (concat sets) 0%N) (nth i (cm_crs sets) 0%N) (nth i av 0%N)).

Lemma map2_tab {A B D} (f : A -> B -> D) k g l d : length l = k ->
  map2 f (tab k g) l = tab k (fun i => f (g i) (nth i l d)).
Proof.
  intros H. unfold map2, tab. revert g l H. induction k as [|k IH]; intros g [|x l] H; cbn in H; try discriminate; auto.
  cbn [seq map combine nth]. f_equal. rewrite <- seq_shift, !map_map. apply (IH (fun i => g (S i))). lia.
Qed.
Lemma compute_mapping_eq n ws sets :
  compute_mapping n ws sets =
  (if (as_u16 n <? 2)%N then Panic
   else let av := firstn (cm_total sets) (cm_avail n ws sets) in
        if ((1 <=? cm_total sets) && (cm_total sets =? length av))%nat
        then Ok (mkMapping (length sets) (cm_msgs sets av) (btree_collect (concat sets)) (nth (cm_total sets - 1) av 0%N))
        else Panic).
Proof.
  unfold compute_mapping. cbv zeta. rewrite fold_add_sum. cbn [Nat.add]. fold (cm_total sets).
  unfold u16_sub. destruct (N.leb_spec 2 (as_u16 n)) as [Hn|Hn]; destruct (N.ltb_spec (as_u16 n) 2); try lia;
    cbn [bind]; auto.
  fold (cm_avail n ws sets). set (av := firstn _ _).
  destruct (Nat.leb_spec 1 (cm_total sets)) as [HT|HT]; cbn [andb].
  2:{ assert (E : av = []) by (unfold av; replace (cm_total sets) with 0 by lia; reflexivity).
      rewrite E. reflexivity. }
  destruct (Nat.eqb_spec (cm_total sets) (length av)) as [El|El].
  2:{ destruct (unwrap _) eqn:EU; cbn [bind]; auto. exfalso. unfold unwrap in EU. destruct (nth_error _ _); discriminate. }
  assert (Eu : nth_error av (length av - 1) = Some (nth (cm_total sets - 1) av 0%N)).
  { rewrite El. apply nth_error_nth'. lia. }
  rewrite Eu. cbn [unwrap bind assertb].
  change (map (fun i => mkMessageMap i 0 0 0) (seq 0 (cm_total sets)))
    with (tab (cm_total sets) (fun i => mkMessageMap i 0 0 0)).
  rewrite zip_mut_map2 by (rewrite tab_length; auto). rewrite (map2_tab _ _ _ _ 0%N) by auto.
  rewrite next_mut_map2 by (rewrite tab_length; now rewrite total_eq). rewrite (map2_tab _ _ _ _ 0%N) by apply total_eq.
  cbn [bind].
  fold (cm_crs sets).
  rewrite next_mut_map2 by (rewrite tab_length; now rewrite cm_crs_length).
  rewrite (map2_tab _ _ _ _ 0%N) by apply cm_crs_length. cbn [bind].
  unfold cm_msgs. reflexivity.
Qed.

(** message j of commitment c *)
Lemma nth_concat (sets : list (list N)) c j : c < length sets -> j < length (nth c sets []) ->
  nth (cm_offset sets c + j) (concat sets) 0%N = nth j (nth c sets []) 0%N /\ cm_offset sets c + j < cm_total sets.
Proof.
  revert c; induction sets as [|s sets IH]; intros c Hc Hj; cbn in Hc; [lia|].
  assert (ET : cm_total (s :: sets) = length s + cm_total sets) by reflexivity.
  destruct c as [|c]; cbn [nth concat] in *.
  - unfold cm_offset. cbn [firstn]. change (cm_total []) with 0. cbn [Nat.add]. rewrite app_nth1 by auto. split; auto. lia.
  - assert (EO : cm_offset (s :: sets) (S c) = length s + cm_offset sets c) by reflexivity.
    destruct (IH c) as [E Hlt]; auto; [lia|]. rewrite EO, app_nth2 by lia. split; [|lia].
    rewrite <- E. f_equal. lia.
Qed.
Lemma nth_crs_gen (sets : list (list N)) : forall k c j, c < length sets -> j < length (nth c sets []) ->
  nth (cm_offset sets c + j)
    (concat (map (fun '(crs_id, s) => map (fun _ => as_u16 (N.of_nat crs_id)) s) (combine (seq k (length sets)) sets))) 0%N
  = as_u16 (N.of_nat (k + c)).
Proof.
  induction sets as [|s sets IH]; intros k c j Hc Hj; cbn in Hc; [lia|].
  cbn [length seq combine map concat]. destruct c as [|c]; cbn [nth] in Hj.
  - unfold cm_offset. cbn [firstn]. change (cm_total []) with 0. cbn [Nat.add].
    rewrite app_nth1 by (now rewrite map_length). rewrite Nat.add_0_r.
    set (g := fun _ : N => as_u16 (N.of_nat k)).
    rewrite (nth_indep _ _ (g 0%N)) by (now rewrite map_length).
    now rewrite map_nth.
  - assert (EO : cm_offset (s :: sets) (S c) = length s + cm_offset sets c) by reflexivity.
    rewrite EO, app_nth2 by (rewrite map_length; lia). rewrite map_length.
    replace (length s + cm_offset sets c + j - length s) with (cm_offset sets c + j) by lia.
    rewrite IH by (auto; lia). f_equal. lia.
Qed.
Lemma nth_crs sets c j : c < length sets -> j < length (nth c sets []) ->
  nth (cm_offset sets c + j) (cm_crs sets) 0%N = as_u16 (N.of_nat c).
Proof. intros H1 H2. apply (nth_crs_gen sets 0 c j H1 H2). Qed.
(** every message number is of that form *)
Lemma msg_split sets i : i < cm_total sets ->
  exists c j, c < length sets /\ j < length (nth c sets []) /\ i = cm_offset sets c + j.
Proof.
  revert i; induction sets as [|s sets IH]; intros i Hi; [cbn in Hi; lia|].
  assert (ET : cm_total (s :: sets) = length s + cm_total sets) by reflexivity.
  destruct (Nat.lt_ge_cases i (length s)) as [H|H].
  - exists 0, i. cbn. repeat split; auto; lia.
  - destruct (IH (i - length s)) as (c & j & Hc & Hj & E); [lia|].
    exists (S c), j. cbn [nth length]. split; [lia|]. split; auto.
    assert (EO : cm_offset (s :: sets) (S c) = length s + cm_offset sets c) by reflexivity. lia.
Qed.
Lemma as_u16_small x : (x < 65536)%N -> as_u16 x = x.
Proof. intros H. unfold as_u16. now apply N.mod_small. Qed.
Lemma cm_avail_In n ws sets p : (2 <= n)%N -> (n < 65536)%N -> (ws < 65536)%N ->
  In p (cm_avail n ws sets) <-> cm_free n ws sets p.
Proof.
  intros H1 H2 H3. unfold cm_avail, cm_free. rewrite filter_In, range_In, !as_u16_small by auto.
  assert (E : negb (btree_contains (btree_collect (concat sets)) p) = true <-> (forall s, In s sets -> ~ In p s)).
  { rewrite Bool.negb_true_iff. split.
    - intros Hf s Hs Hp. assert (Ht : btree_contains (btree_collect (concat sets)) p = true).
      { apply btree_contains_In, btree_collect_In, in_concat. eauto. }
      congruence.
    - intros H. destruct (btree_contains _ p) eqn:E; auto. exfalso.
      apply btree_contains_In, btree_collect_In, in_concat in E as (s & Hs & Hp). eapply H; eauto. }
  rewrite E. tauto.
Qed.
