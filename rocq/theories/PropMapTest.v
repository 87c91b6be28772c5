(** C65: the outcome of test_random_compute_mapping for every sequence of draws *)
From Coq Require Import Sorted Permutation.
From Verif Require Export UnitTests PropMapping.
Local Open Scope nat_scope.
Local Open Scope list_scope.

Lemma for_each_ok {A} (f : A -> res unit) l : (forall x, In x l -> f x = Ok tt) -> for_each f l = Ok tt.
Proof.
  unfold for_each. induction l as [|x l IH]; intros H; [reflexivity|]. cbn [foldM].
  rewrite H by now left. cbn [bind]. apply IH. intros y Hy. apply H. now right.
Qed.

(** the chunks are the consecutive pieces of msgs_map *)
Lemma chunk_maps_eq sets : forall ms, length ms = cm_total sets ->
  exists ch, chunk_maps sets ms = Ok ch /\ length ch = length sets /\
    forall c m, c < length sets -> In m (nth c ch []) ->
      exists j, j < length (nth c sets []) /\ nth_error ms (cm_offset sets c + j) = Some m.
Proof.
  induction sets as [|s sets IH]; intros ms Hl.
  - exists []. split; [reflexivity|]. split; [reflexivity|]. intros c m Hc. cbn in Hc. lia.
  - rewrite cm_total_cons in Hl. cbn [chunk_maps]. unfold split_at.
    destruct (Nat.leb_spec (length s) (length ms)) as [H|H]; [|lia]. cbn [bind].
    destruct (IH (skipn (length s) ms)) as (ch & E & Hch & Hin); [rewrite skipn_length; lia|].
    rewrite E. cbn [bind]. eexists. split; [reflexivity|]. cbn [length]. split; [lia|].
    intros [|c] m Hc Hm; cbn [nth] in *.
    + apply In_nth_error in Hm as [j Hj]. assert (j < length (firstn (length s) ms)) by (apply nth_error_Some; congruence).
      rewrite firstn_length in H0. exists j. split; [lia|]. change (cm_offset (s :: sets) 0) with 0. cbn [Nat.add].
      rewrite <- (firstn_skipn (length s) ms). rewrite nth_error_app1; auto. rewrite firstn_length. lia.
    + destruct (Hin c m) as (j & Hj & Hn); [lia|auto|]. exists j. split; auto.
      assert (EO : cm_offset (s :: sets) (S c) = length s + cm_offset sets c) by reflexivity.
      rewrite EO. rewrite <- Hn. rewrite <- (firstn_skipn (length s) ms) at 1.
      rewrite nth_error_app2 by (rewrite firstn_length; lia). rewrite firstn_length. f_equal. lia.
Qed.

Lemma test_sets_length num per draws : length (test_sets num per draws) = num.
Proof. unfold test_sets. now rewrite map_length, seq_length. Qed.

(** no assertion after the call of compute_mapping can fail *)
Theorem C65_later_assertions_hold (n : N) (num per : nat) (draws : nat -> N) :
  test_random_compute_mapping n num per draws = rmap (fun _ => tt) (compute_mapping n 1 (test_sets num per draws)).
Proof.
  unfold test_random_compute_mapping. cbv zeta. set (sets := test_sets num per draws).
  destruct (compute_mapping n 1 sets) as [mp| |] eqn:E; cbn [bind rmap]; auto.
  apply compute_mapping_inv in E as (H2 & HT & Hav & ->). cbv zeta in Hav.
  set (av := firstn (cm_total sets) (cm_avail n 1 sets)) in *. cbn [num_commitments msgs_map last_index].
  replace (length sets) with num by (unfold sets; now rewrite test_sets_length). rewrite Nat.eqb_refl. cbn [assertb bind].
  rewrite fold_add_sum. cbn [Nat.add]. fold (cm_total sets).
  rewrite for_each_ok.
  2:{ intros i Hi. apply in_seq in Hi. enough (X : existsb (fun x => msg_id x =? i) (cm_msgs sets av) = true) by now rewrite X.
      apply existsb_exists. eexists. split; [eapply nth_error_In; unfold cm_msgs; apply (tab_nth_error _ _ i); lia|].
      cbn [msg_id]. apply Nat.eqb_refl. }
  cbn [bind]. unfold usub. destruct (Nat.leb_spec 1 (cm_total sets)) as [_|]; [|lia]. cbn [bind].
  unfold idx, cm_msgs. rewrite tab_nth_error by lia. cbn [bind position_in_witness]. rewrite N.eqb_refl. cbn [assertb bind].
  destruct (chunk_maps_eq sets (cm_msgs sets av)) as (ch & Ec & Hch & Hin); [unfold cm_msgs; now rewrite tab_length|].
  unfold cm_msgs in Ec. rewrite Ec. cbn [bind]. apply for_each_ok. intros [c maps] Hc. apply for_each_ok. intros m Hm.
  assert (X : c < length sets /\ maps = nth c ch []).
  { unfold enumerate in Hc. apply (In_nth _ _ (0, [])) in Hc as (i & Hi & Ei).
    rewrite combine_length, seq_length in Hi. rewrite combine_nth in Ei by now rewrite seq_length.
    rewrite seq_nth in Ei by lia. injection Ei as <- <-. split; [|reflexivity]. lia. }
  destruct X as [Hlt ->]. destruct (Hin c m Hlt Hm) as (j & Hj & Hn).
  destruct (nth_concat sets c j Hlt Hj) as [_ Hoff]. unfold cm_msgs in Hn. rewrite tab_nth_error in Hn by exact Hoff.
  injection Hn as <-. cbn [commitment_crs_id]. rewrite nth_crs by auto. now rewrite N.eqb_refl.
Qed.

(** the drawn sets *)
Lemma fold_insert_In (draws : nat -> N) (l : list nat) (k : nat) : forall acc y,
  In y (fold_left (fun set i => btree_insert (draws (k + i)) set) l acc) <-> In y acc \/ exists i, In i l /\ y = draws (k + i).
Proof.
  induction l as [|a l IH]; intros acc y; cbn [fold_left].
  - split; [auto|]. intros [H|(i & [] & _)]; auto.
  - rewrite IH, btree_insert_In. split.
    + intros [[->|H]|(i & H & ->)]; [right; exists a; split; [now left|reflexivity]|auto|right; exists i; split; [now right|reflexivity]].
    + intros [H|(i & [->|H] & ->)]; [auto|auto|right; eauto].
Qed.
Lemma fold_insert_sorted (draws : nat -> N) (l : list nat) (k : nat) : forall acc, StronglySorted N.lt acc ->
  StronglySorted N.lt (fold_left (fun set i => btree_insert (draws (k + i)) set) l acc).
Proof.
  induction l as [|a l IH]; intros acc H; cbn [fold_left]; auto. apply IH, btree_insert_sorted, H.
Qed.
(** two duplicate-free lists with the same members have the same length *)
Lemma same_members_length {A} (l l' : list A) : NoDup l -> NoDup l' -> (forall x, In x l <-> In x l') -> length l = length l'.
Proof.
  intros N1 N2 H. apply Nat.le_antisymm; apply NoDup_incl_length; auto; intros x Hx; now apply H.
Qed.
Definition distinct (l : list N) : nat := length (nodup N.eq_dec l).
Lemma distinct_le l : distinct l <= length l.
Proof. apply NoDup_incl_length; [apply NoDup_nodup|]. intros x Hx. now apply nodup_In in Hx. Qed.
Lemma distinct_lt l : ~ NoDup l -> distinct l < length l.
Proof.
  induction l as [|a l IH]; intros H; [exfalso; apply H; constructor|]. unfold distinct. cbn [nodup].
  destruct (in_dec N.eq_dec a l) as [Hi|Hi].
  - apply Nat.lt_succ_r. apply distinct_le.
  - cbn [length]. apply -> Nat.succ_lt_mono. apply IH. intros X. apply H. now constructor.
Qed.
Lemma distinct_NoDup l : NoDup l -> distinct l = length l.
Proof. intros H. apply same_members_length; auto; [apply NoDup_nodup|]. intros x. apply nodup_In. Qed.

(** messages of commitment c, and of all of them *)
Definition drawn (draws : nat -> N) (lo k : nat) : list N := map draws (seq lo k).
Definition test_messages (num per : nat) (draws : nat -> N) : nat :=
  list_sum (map (fun c => distinct (drawn draws (c * per) per)) (seq 0 num)).

Lemma test_set_length per draws k :
  length (fold_left (fun set i => btree_insert (draws (k + i)) set) (seq 0 per) []) = distinct (drawn draws k per).
Proof.
  apply same_members_length; [apply sorted_NoDup, fold_insert_sorted; constructor|apply NoDup_nodup|].
  intros x. rewrite fold_insert_In, nodup_In. unfold drawn. rewrite in_map_iff. split.
  - intros [[]|(i & Hi & ->)]. apply in_seq in Hi. exists (k + i). split; auto. apply in_seq. lia.
  - intros (i & <- & Hi). apply in_seq in Hi. right. exists (i - k). split; [apply in_seq; lia|]. f_equal. lia.
Qed.
Lemma test_sets_total num per draws : cm_total (test_sets num per draws) = test_messages num per draws.
Proof.
  unfold cm_total, test_messages, test_sets. rewrite map_map. f_equal. apply map_ext. intros c. apply test_set_length.
Qed.
Lemma test_sets_In num per draws x :
  (exists s, In s (test_sets num per draws) /\ In x s) <-> In x (drawn draws 0 (num * per)).
Proof.
  unfold test_sets, drawn. rewrite in_map_iff. split.
  - intros (s & Hs & Hx). apply in_map_iff in Hs as (c & <- & Hc). apply in_seq in Hc.
    apply fold_insert_In in Hx as [[]|(i & Hi & ->)]. apply in_seq in Hi. exists (c * per + i). split; auto.
    apply in_seq. assert (c * per + per <= num * per) by (replace (c * per + per) with (S c * per) by lia; apply Nat.mul_le_mono_r; lia). lia.
  - intros (i & <- & Hi). apply in_seq in Hi. assert (per <> 0) by lia.
    eexists. split; [apply in_map, (in_seq num 0 (i / per)); split; [lia|]|].
    { cbn [Nat.add]. apply Nat.div_lt_upper_bound; auto. lia. }
    apply fold_insert_In. right. exists (i mod per). split; [apply in_seq; split; [lia|now apply Nat.mod_upper_bound]|].
    f_equal. rewrite (Nat.div_mod i per) at 1 by auto. lia.
Qed.

(** the free positions are those of 1..n-2 that were not drawn *)
Lemma free_count num per draws (n : N) : (3 <= n)%N -> (n < 65536)%N ->
  (forall i, i < num * per -> (1 <= draws i)%N /\ (draws i < n - 2)%N) ->
  length (cm_avail n 1 (test_sets num per draws)) + distinct (drawn draws 0 (num * per)) = N.to_nat (n - 3).
Proof.
  intros H3 Hn Hd. unfold distinct. rewrite <- app_length.
  transitivity (length (range_N 1 (n - 2))); [|unfold range_N; rewrite map_length, seq_length; lia].
  set (sets := test_sets num per draws).
  assert (HA : forall x, In x (cm_avail n 1 sets) <-> ((1 <= x)%N /\ (x < n - 2)%N) /\ ~ In x (drawn draws 0 (num * per))).
  { intros x. rewrite cm_avail_In by lia. unfold cm_free. split.
    - intros (Hx & Hx2 & Hf). split; [lia|]. intros X. apply test_sets_In in X as (s & Hs & Hx'). apply (Hf s); auto.
    - intros (Hx & Hf). split; [lia|]. split; [lia|]. intros s Hs X. apply Hf. apply test_sets_In. eauto. }
  assert (HD : forall x, In x (drawn draws 0 (num * per)) -> (1 <= x)%N /\ (x < n - 2)%N).
  { intros x Hx. apply in_map_iff in Hx as (i & <- & Hi). apply in_seq in Hi. apply Hd. lia. }
  apply same_members_length.
  - assert (NA : NoDup (cm_avail n 1 sets)) by (apply sorted_NoDup, filter_sorted, range_sorted).
    revert HA NA. generalize (cm_avail n 1 sets) as l. intros l HA NA.
    assert (HH : forall x, In x l -> ~ In x (nodup N.eq_dec (drawn draws 0 (num * per)))).
    { intros x Hx. rewrite nodup_In. now apply HA. }
    clear HA. induction l as [|x l IH]; [apply NoDup_nodup|]. cbn [app]. inversion NA; subst. constructor.
    + rewrite in_app_iff. intros [X|X]; [auto|]. apply (HH x); [now left|auto].
    + apply IH; auto. intros y Hy. apply HH. now right.
  - apply sorted_NoDup, range_sorted.
  - intros x. rewrite in_app_iff, HA, nodup_In, range_In. split.
    + intros [[H _]|H]; [lia|]. apply HD in H. lia.
    + intros H. destruct (in_dec N.eq_dec x (drawn draws 0 (num * per))); [now right|]. left. split; [lia|auto].
Qed.

(** the outcome: the messages and the distinct indices together have to fit into 1..n-2 *)
Theorem C65_mapping_test_outcome (n : N) (num per : nat) (draws : nat -> N) :
  (3 <= n)%N -> (n < 65536)%N ->
  (forall i, i < num * per -> (1 <= draws i)%N /\ (draws i < n - 2)%N) ->
  let need := test_messages num per draws + distinct (drawn draws 0 (num * per)) in
  (test_random_compute_mapping n num per draws = Ok tt <-> 1 <= test_messages num per draws /\ need <= N.to_nat (n - 3)) /\
  (test_random_compute_mapping n num per draws = Panic <-> test_messages num per draws = 0 \/ N.to_nat (n - 3) < need).
Proof.
  intros H3 Hn Hd need. rewrite C65_later_assertions_hold, compute_mapping_eq, as_u16_small by auto.
  destruct (N.ltb_spec n 2); [lia|]. cbv zeta.
  assert (F := free_count num per draws n H3 Hn Hd). rewrite test_sets_total, firstn_length.
  unfold need. clear need. set (T := test_messages num per draws) in *. set (D := distinct _) in *.
  set (A := length (cm_avail n 1 (test_sets num per draws))) in *.
  destruct (Nat.leb_spec 1 T); cbn [andb]; [destruct (Nat.eqb_spec T (min T A))|]; cbn [rmap]; split; split; intros X; try discriminate; try reflexivity; try lia.
Qed.

Lemma test_messages_le num per draws : test_messages num per draws <= num * per.
Proof.
  unfold test_messages. replace (num * per) with (list_sum (map (fun _ => per) (seq 0 num))).
  2:{ generalize 0 as k. induction num as [|m IH]; intros k; cbn [seq map list_sum fold_right]; auto.
      change (fold_right Nat.add 0 ?l) with (list_sum l). now rewrite IH. }
  generalize (seq 0 num) as l. induction l as [|c l IH]; cbn [map list_sum fold_right]; auto.
  change (fold_right Nat.add 0 ?l) with (list_sum l). apply Nat.add_le_mono; auto.
  eapply Nat.le_trans; [apply distinct_le|]. unfold drawn. now rewrite map_length, seq_length.
Qed.
Lemma test_messages_pos num per draws : 1 <= num * per -> 1 <= test_messages num per draws.
Proof.
  intros H. destruct num as [|num]; [lia|]. destruct per as [|per]; [lia|].
  unfold test_messages. cbn [seq map list_sum fold_right]. enough (1 <= distinct (drawn draws (0 * S per) (S per))) by lia.
  unfold distinct. assert (In (draws 0) (nodup N.eq_dec (drawn draws (0 * S per) (S per)))) by (apply nodup_In; now left).
  destruct (nodup N.eq_dec (drawn draws (0 * S per) (S per))); [contradiction|cbn; lia].
Qed.
Lemma drawn_len draws k m : length (drawn draws k m) = m.
Proof. unfold drawn. now rewrite map_length, seq_length. Qed.

(** n = 2 * (number of draws) + 3 is what never fails *)
Corollary C65_enough_room_always_passes (n : N) (num per : nat) (draws : nat -> N) :
  1 <= num * per -> 2 * (num * per) + 3 <= N.to_nat n -> (n < 65536)%N ->
  (forall i, i < num * per -> (1 <= draws i)%N /\ (draws i < n - 2)%N) ->
  test_random_compute_mapping n num per draws = Ok tt.
Proof.
  intros H1 H2 Hn Hd. apply (C65_mapping_test_outcome n num per draws ltac:(lia) Hn Hd).
  split; [now apply test_messages_pos|]. assert (X := test_messages_le num per draws).
  assert (Y := distinct_le (drawn draws 0 (num * per))). rewrite drawn_len in Y. lia.
Qed.

(** FINDING: one less, the size the test's comment calls sufficient, fails exactly
    on pairwise distinct draws *)
Theorem C65_one_less_fails_on_distinct_draws (n : N) (num per : nat) (draws : nat -> N) :
  1 <= num * per -> N.to_nat n = 2 * (num * per) + 2 -> (n < 65536)%N ->
  (forall i, i < num * per -> (1 <= draws i)%N /\ (draws i < n - 2)%N) ->
  (test_random_compute_mapping n num per draws = Panic <-> NoDup (drawn draws 0 (num * per))) /\
  (test_random_compute_mapping n num per draws = Ok tt <-> ~ NoDup (drawn draws 0 (num * per))).
Proof.
  intros H1 H2 Hn Hd. destruct (C65_mapping_test_outcome n num per draws ltac:(lia) Hn Hd) as [O P].
  assert (X := test_messages_le num per draws). assert (X1 := test_messages_pos num per draws H1).
  assert (Y := distinct_le (drawn draws 0 (num * per))). assert (Y2 := distinct_lt (drawn draws 0 (num * per))).
  rewrite drawn_len in Y, Y2.
  assert (T : NoDup (drawn draws 0 (num * per)) -> test_messages num per draws = num * per).
  { intros ND. clear - ND. unfold test_messages.
    assert (G : forall k c, (forall a b, c * per <= a -> a < b -> b < (c + k) * per -> draws a <> draws b) ->
                list_sum (map (fun c => distinct (drawn draws (c * per) per)) (seq c k)) = k * per).
    { induction k as [|k IH]; intros c Hab; [reflexivity|]. cbn [seq map list_sum fold_right].
      change (fold_right Nat.add 0 ?l) with (list_sum l). rewrite IH.
      - rewrite distinct_NoDup, drawn_len; [lia|]. unfold drawn.
        assert (G2 : forall m s, (forall a b, s <= a -> a < b -> b < s + m -> draws a <> draws b) -> NoDup (map draws (seq s m))).
        { induction m as [|m IHm]; intros s Hs; [constructor|]. cbn [seq map]. constructor.
          - intros Hin. apply in_map_iff in Hin as (b & E & Hb). apply in_seq in Hb. apply (Hs s b); lia.
          - apply IHm. intros a b ???. apply (Hs a b); auto; lia. }
        apply G2. intros a b Ha Hb Hc. apply Hab; auto. nia.
      - intros a b Ha Hb Hc. apply Hab; auto; nia. }
    apply G. intros a b _ Hab Hb E. cbn [Nat.add] in Hb.
    assert (Q : a = b); [|lia]. apply (proj1 (NoDup_nth (drawn draws 0 (num * per)) 0%N) ND); rewrite ?drawn_len; try lia.
    unfold drawn. rewrite !(nth_indep _ 0%N (draws 0)) by (rewrite map_length, seq_length; lia).
    rewrite !(map_nth draws), !seq_nth by lia. exact E. }
  assert (DD : NoDup (drawn draws 0 (num * per)) \/ ~ NoDup (drawn draws 0 (num * per))).
  { destruct (ListDec.NoDup_dec N.eq_dec (drawn draws 0 (num * per))); auto. }
  rewrite O, P. destruct DD as [ND|ND].
  - assert (Z := distinct_NoDup _ ND). rewrite drawn_len in Z. rewrite T by auto. split; split; auto; intros; try lia. contradiction.
  - specialize (Y2 ND). split; split; auto; intros Q; try lia. contradiction.
Qed.

(** counting: all sequences of k draws from l *)
Fixpoint tuples {A} (k : nat) (l : list A) : list (list A) :=
  match k with O => [[]] | S k => flat_map (fun x => map (cons x) (tuples k l)) l end.
Fixpoint falling (m k : nat) : N := match k with O => 1 | S k => N.of_nat m * falling (m - 1) k end.
Fixpoint nodupb (l : list N) : bool := match l with [] => true | x :: l => negb (existsb (N.eqb x) l) && nodupb l end.
Lemma nodupb_spec l : nodupb l = true <-> NoDup l.
Proof.
  induction l as [|x l IH]; cbn [nodupb]; [split; auto; constructor|].
  rewrite andb_true_iff, IH, negb_true_iff. split.
  - intros [H1 H2]. constructor; auto. intros Hi. assert (existsb (N.eqb x) l = true) by (apply existsb_exists; exists x; split; auto; apply N.eqb_refl). congruence.
  - intros H. inversion H; subst. split; auto. destruct (existsb (N.eqb x) l) eqn:E; auto.
    apply existsb_exists in E as (y & Hy & E). apply N.eqb_eq in E. now subst.
Qed.
Lemma filter_flat_map {A B} (f : B -> bool) (g : A -> list B) l : filter f (flat_map g l) = flat_map (fun x => filter f (g x)) l.
Proof. induction l as [|x l IH]; cbn; auto. now rewrite filter_app, IH. Qed.
Lemma filter_map {A B} (f : B -> bool) (g : A -> B) l : filter f (map g l) = map g (filter (fun x => f (g x)) l).
Proof. induction l as [|x l IH]; cbn; auto. destruct (f (g x)); cbn; now rewrite IH. Qed.
Lemma filter_filter {A} (f g : A -> bool) l : filter f (filter g l) = filter (fun x => g x && f x) l.
Proof. induction l as [|x l IH]; cbn; auto. destruct (g x); cbn; [destruct (f x)|]; now rewrite IH. Qed.
Lemma filter_tuples {A} (p : A -> bool) k l : filter (forallb p) (tuples k l) = tuples k (filter p l).
Proof.
  induction k as [|k IH]; [reflexivity|]. cbn [tuples]. rewrite filter_flat_map, <- IH.
  generalize (tuples k l) as T. intros T. clear IH. induction l as [|x l IHl]; [reflexivity|]. cbn [flat_map filter].
  rewrite filter_map. cbn [forallb]. destruct (p x); cbn [andb].
  - cbn [flat_map]. rewrite <- IHl. reflexivity.
  - rewrite <- IHl. replace (filter (fun _ => false) T) with (@nil (list A)); auto. clear. induction T; auto.
Qed.
Lemma tuples_length {A} k (l : list A) : N.of_nat (length (tuples k l)) = (N.of_nat (length l) ^ N.of_nat k)%N.
Proof.
  induction k as [|k IH]; [reflexivity|]. rewrite Nat2N.inj_succ, N.pow_succ_r'. cbn [tuples]. rewrite <- IH.
  generalize (tuples k l) as T. intros T. clear IH. induction l as [|x l IHl]; [reflexivity|].
  cbn [flat_map length]. rewrite app_length, map_length. lia.
Qed.
Lemma tuples_In {A} k (l : list A) t : In t (tuples k l) <-> length t = k /\ Forall (fun x => In x l) t.
Proof.
  revert t; induction k as [|k IH]; intros t; cbn [tuples].
  - split; [intros [<-|[]]; auto|]. intros [H _]. destruct t; [now left|discriminate].
  - rewrite in_flat_map. split.
    + intros (x & Hx & Ht). apply in_map_iff in Ht as (t' & <- & Ht). apply IH in Ht as [H1 H2]. cbn. auto.
    + intros [H1 H2]. destruct t as [|x t]; [discriminate|]. inversion H2; subst. exists x. split; auto.
      apply in_map, IH. split; auto.
Qed.
Lemma count_remove x (l : list N) : NoDup l -> In x l -> length (filter (fun y => negb (N.eqb x y)) l) = length l - 1.
Proof.
  induction l as [|y l IH]; intros ND Hi; [contradiction|]. inversion ND; subst. cbn [filter length].
  destruct (N.eqb_spec x y) as [->|Hne]; cbn [negb].
  - replace (filter (fun z => negb (N.eqb y z)) l) with l; [lia|]. symmetry. clear - H1. induction l as [|z l IH]; auto. cbn [filter].
    destruct (N.eqb_spec y z) as [->|]; cbn [negb]; [exfalso; apply H1; now left|]. f_equal. apply IH. intros X. apply H1. now right.
  - destruct Hi as [->|Hi]; [congruence|]. cbn [length]. rewrite IH by auto. destruct l; [contradiction|cbn; lia].
Qed.
Lemma count_nodup k : forall l, NoDup l -> N.of_nat (length (filter nodupb (tuples k l))) = falling (length l) k.
Proof.
  induction k as [|k IH]; intros l ND; [reflexivity|]. cbn [tuples falling]. rewrite filter_flat_map.
  assert (G : forall l', incl l' l ->
    N.of_nat (length (flat_map (fun x => filter nodupb (map (cons x) (tuples k l))) l')) = (N.of_nat (length l') * falling (length l - 1) k)%N).
  { induction l' as [|x l' IHl]; intros Hi; [reflexivity|]. cbn [flat_map length]. rewrite app_length, Nat2N.inj_add, IHl by (intros y Hy; apply Hi; now right).
    rewrite filter_map, map_length. cbn [nodupb].
    assert (E : forall T, filter (fun t => negb (existsb (N.eqb x) t) && nodupb t) T = filter nodupb (filter (forallb (fun y => negb (N.eqb x y))) T)).
    { intros T. rewrite filter_filter. apply filter_ext. intros t. f_equal. clear. induction t as [|y t IHt]; auto. cbn [existsb forallb].
      now rewrite negb_orb, IHt. }
    rewrite E, filter_tuples, IH by now apply NoDup_filter. rewrite count_remove; auto; [|apply Hi; now left]. lia. }
  apply G. intros x Hx. exact Hx.
Qed.

Definition test_fails (n : N) (num per : nat) (ds : list N) : bool :=
  match test_random_compute_mapping n num per (fun i => nth i ds 0%N) with Panic => true | _ => false end.
Lemma drawn_nth ds k : length ds = k -> drawn (fun i => nth i ds 0%N) 0 k = ds.
Proof. intros H. unfold drawn. symmetry. now apply (tab_eq 0%N). Qed.

(** the number of draw sequences on which the test fails, gen_range(2, n - 3) *)
Theorem C65_failing_draws (n : N) (num per : nat) :
  1 <= num * per -> N.to_nat n = 2 * (num * per) + 2 -> (n < 65536)%N ->
  N.of_nat (length (filter (test_fails n num per) (tuples (num * per) (range_N 2 (n - 3))))) = falling (N.to_nat (n - 5)) (num * per).
Proof.
  intros H1 H2 Hn.
  replace (N.to_nat (n - 5)) with (length (range_N 2 (n - 3))) by (unfold range_N; rewrite map_length, seq_length; lia).
  rewrite <- count_nodup by apply sorted_NoDup, range_sorted. do 2 f_equal. apply filter_ext_in. intros ds Hds.
  apply tuples_In in Hds as [Hl Hf]. unfold test_fails.
  assert (R : forall i, i < num * per -> (1 <= nth i ds 0%N)%N /\ (nth i ds 0%N < n - 2)%N).
  { intros i Hi. rewrite Forall_forall in Hf. assert (X := Hf _ (nth_In ds 0%N (n := i) ltac:(lia))). apply range_In in X. lia. }
  destruct (C65_one_less_fails_on_distinct_draws n num per (fun i => nth i ds 0%N) H1 H2 Hn R) as [P O].
  rewrite drawn_nth in P, O by auto. destruct (nodupb ds) eqn:E.
  - apply nodupb_spec in E. now rewrite (proj2 P E).
  - assert (Q : ~ NoDup ds) by (rewrite <- nodupb_spec; congruence). now rewrite (proj2 O Q).
Qed.
(** the test as written: 51891840 of 815730721 draw sequences, more than one run in sixteen *)
Corollary C65_test_as_written :
  N.of_nat (length (tuples 8 (range_N 2 15))) = 815730721%N /\
  N.of_nat (length (filter (test_fails 18 4 2) (tuples 8 (range_N 2 15)))) = 51891840%N /\
  (forall ds, In ds (tuples 8 (range_N 2 15)) -> test_fails 18 4 2 ds = true <-> NoDup ds) /\
  (forall ds, In ds (tuples 8 (range_N 2 16)) -> test_fails 19 4 2 ds = false).
Proof.
  split; [now rewrite tuples_length|]. split.
  { change 8 with (4 * 2) at 1. change 15%N with (18 - 3)%N. rewrite C65_failing_draws by (vm_compute; auto; lia). reflexivity. }
  split.
  - intros ds Hds. apply tuples_In in Hds as [Hl Hf].
    assert (R : forall i, i < 4 * 2 -> (1 <= nth i ds 0%N)%N /\ (nth i ds 0%N < 18 - 2)%N).
    { intros i Hi. rewrite Forall_forall in Hf. assert (X := Hf _ (nth_In ds 0%N (n := i) ltac:(lia))). apply range_In in X. lia. }
    destruct (C65_one_less_fails_on_distinct_draws 18 4 2 (fun i => nth i ds 0%N) ltac:(lia) eq_refl eq_refl R) as [P O].
    rewrite drawn_nth in P, O by auto. unfold test_fails. destruct (ListDec.NoDup_dec N.eq_dec ds) as [Q|Q].
    + rewrite (proj2 P Q). tauto.
    + rewrite (proj2 O Q). split; [discriminate|contradiction].
  - intros ds Hds. apply tuples_In in Hds as [Hl Hf]. unfold test_fails.
    rewrite C65_enough_room_always_passes; auto; try lia.
    intros i Hi. rewrite Forall_forall in Hf. assert (X := Hf _ (nth_In ds 0%N (n := i) ltac:(lia))). apply range_In in X. lia.
Qed.
Example C65_case :
  map (fun ds => test_fails 18 4 2 ds)
    [[2; 3; 4; 5; 6; 7; 8; 9]; [14; 2; 13; 3; 12; 4; 11; 5]; [2; 3; 4; 5; 6; 7; 8; 2]; [2; 2; 4; 5; 6; 7; 8; 9]; [5; 5; 5; 5; 5; 5; 5; 5]]%N
  = [true; true; false; false; false] /\
  test_sets 4 2 (fun i => nth i [14; 2; 13; 3; 12; 12; 11; 5] 0)%N = [[2; 14]; [3; 13]; [12]; [5; 11]]%N /\
  test_messages 4 2 (fun i => nth i [14; 2; 13; 3; 12; 12; 11; 5] 0)%N = 7 /\
  length (filter (test_fails 6 1 2) (tuples 2 (range_N 2 3))) = 0 /\
  length (filter (test_fails 8 1 3) (tuples 3 (range_N 2 5))) = 6.
Proof. vm_compute. auto 10. Qed.
