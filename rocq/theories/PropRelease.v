(** C73: compute_mapping in a build without overflow checks. *)
From Coq Require Import Sorted.
From Verif Require Export PropMapping MappingRelease.
Local Open Scope nat_scope.
Local Open Scope list_scope.

(** a position the message may take when the range is [ws, hi) *)
Definition free_below (hi ws : N) (sets : list (list N)) (p : N) : Prop :=
  (ws <= p)%N /\ (p < hi)%N /\ forall s, In s sets -> ~ In p s.

(** with overflow checks the upper end is n - 2 when 2 <= n mod 2^16, nothing otherwise *)
Theorem C73_release_agrees (n ws : N) (sets : list (list N)) : (2 <= n mod 65536)%N ->
  compute_mapping_release n ws sets = compute_mapping n ws sets.
Proof.
  intros H. unfold compute_mapping_release, compute_mapping, u16_sub, as_u16 at 1 2. cbv zeta.
  fold (as_u16 n) in *. destruct (N.leb_spec 2 (as_u16 n)); [|lia]. cbn [bind].
  replace (u16_wrapping_sub (as_u16 n) 2) with (as_u16 n - 2)%N; [reflexivity|].
  unfold u16_wrapping_sub. assert (as_u16 n < 65536)%N by (unfold as_u16; apply N.mod_lt; discriminate).
  replace (as_u16 n + 65536 - 2)%N with ((as_u16 n - 2) + 1 * 65536)%N by lia.
  rewrite N.mod_add by discriminate. symmetry. apply N.mod_small. lia.
Qed.

Definition rel_avail (hi ws : N) (sets : list (list N)) : list N :=
  filter (fun x => negb (btree_contains (btree_collect (concat sets)) x)) (range_N ws hi).
Lemma rel_avail_In hi ws sets p : In p (rel_avail hi ws sets) <-> free_below hi ws sets p.
Proof.
  unfold rel_avail, free_below. rewrite filter_In, range_In.
  assert (E : negb (btree_contains (btree_collect (concat sets)) p) = true <-> (forall s, In s sets -> ~ In p s)).
  { rewrite Bool.negb_true_iff. split.
    - intros Hf s Hs Hp. assert (Ht : btree_contains (btree_collect (concat sets)) p = true).
      { apply btree_contains_In, btree_collect_In, in_concat. eauto. }
      congruence.
    - intros H. destruct (btree_contains _ p) eqn:E; auto. exfalso.
      apply btree_contains_In, btree_collect_In, in_concat in E as (s & Hs & Hp). eapply H; eauto. }
  rewrite E. tauto.
Qed.
Lemma release_eq n ws sets :
  compute_mapping_release n ws sets =
  (let av := firstn (cm_total sets) (rel_avail (u16_wrapping_sub (as_u16 n) 2) (as_u16 ws) sets) in
   if ((1 <=? cm_total sets) && (cm_total sets =? length av))%nat
   then Ok (mkMapping (length sets) (cm_msgs sets av) (btree_collect (concat sets)) (nth (cm_total sets - 1) av 0%N))
   else Panic).
Proof.
  unfold compute_mapping_release. cbv zeta. rewrite fold_add_sum. cbn [Nat.add]. fold (cm_total sets).
  fold (rel_avail (u16_wrapping_sub (as_u16 n) 2) (as_u16 ws) sets). set (av := firstn _ _).
  destruct (Nat.leb_spec 1 (cm_total sets)) as [HT|HT]; cbn [andb].
  2:{ assert (E : av = []) by (unfold av; replace (cm_total sets) with 0 by lia; reflexivity).
      rewrite E. reflexivity. }
  destruct (Nat.eqb_spec (cm_total sets) (length av)) as [El|El].
  2:{ destruct (unwrap _) eqn:EU; cbn [bind]; auto. exfalso. unfold unwrap in EU. destruct (nth_error _ _); discriminate. }
  assert (Eu : nth_error av (length av - 1) = Some (nth (cm_total sets - 1) av 0%N)).
  { rewrite El. apply nth_error_nth'. lia. }
  rewrite Eu. cbn [unwrap bind assertb].
  change (map (fun i => mkMessageMap i 0 0 0) (seq 0 (cm_total sets)))
    with (tab (cm_total sets) (fun i => mkMessageMap i 0 0 0)).
  rewrite zip_mut_map2 by (rewrite tab_length; auto). rewrite (map2_tab _ _ _ _ 0%N) by auto.
  rewrite next_mut_map2 by (rewrite tab_length; now rewrite total_eq). rewrite (map2_tab _ _ _ _ 0%N) by apply total_eq.
  cbn [bind].
  fold (cm_crs sets).
  rewrite next_mut_map2 by (rewrite tab_length; now rewrite cm_crs_length).
  rewrite (map2_tab _ _ _ _ 0%N) by apply cm_crs_length. cbn [bind].
  unfold cm_msgs. reflexivity.
Qed.
Lemma wrapping_low n : (n mod 65536 < 2)%N -> u16_wrapping_sub (as_u16 n) 2 = (65534 + n mod 65536)%N.
Proof.
  intros H. unfold u16_wrapping_sub, as_u16. revert H. generalize (n mod 65536)%N as r. intros r H. rewrite N.mod_small; lia.
Qed.

(** FINDING: when n is 0 or 1 modulo 2^16 the range does not end at n - 2 but at 65534 or 65535 *)
Theorem C73_release_wraps (n ws : N) (sets : list (list N)) : (n mod 65536 < 2)%N -> (ws < 65536)%N ->
  let hi := (65534 + n mod 65536)%N in
  ((exists mp, compute_mapping_release n ws sets = Ok mp) <->
   (1 <= cm_total sets /\ exists ps, NoDup ps /\ length ps = cm_total sets /\ Forall (free_below hi ws sets) ps)) /\
  (forall mp, compute_mapping_release n ws sets = Ok mp ->
     let ps := map position_in_witness (msgs_map mp) in
     length ps = cm_total sets /\ (forall p, In p ps -> free_below hi ws sets p) /\ StronglySorted N.lt ps /\
     (forall p q, In p ps -> free_below hi ws sets q -> (q < p)%N -> In q ps)).
Proof.
  intros Hn Hws hi. rewrite release_eq, (as_u16_small ws), wrapping_low by auto. fold hi. cbv zeta.
  set (av := firstn (cm_total sets) (rel_avail hi ws sets)).
  assert (Hs : StronglySorted N.lt (rel_avail hi ws sets)) by (apply filter_sorted, range_sorted).
  assert (HF : forall p, In p av -> free_below hi ws sets p).
  { intros p Hp. apply rel_avail_In. now apply firstn_In in Hp. }
  split; [split|].
  - destruct (Nat.leb_spec 1 (cm_total sets)); cbn [andb]; [|intros [mp E]; discriminate].
    destruct (Nat.eqb_spec (cm_total sets) (length av)) as [El|]; [|intros [mp E]; discriminate].
    intros _. split; auto. exists av. split; [apply sorted_NoDup; now apply firstn_sorted|]. split; [auto|].
    now apply Forall_forall.
  - intros [HT (ps & Hnd & Hl & Hf)]. destruct (Nat.leb_spec 1 (cm_total sets)); [|lia]. cbn [andb].
    assert (Hlen : cm_total sets <= length (rel_avail hi ws sets)).
    { rewrite <- Hl. apply NoDup_incl_length; auto. intros p Hp. apply rel_avail_In. rewrite Forall_forall in Hf. auto. }
    unfold av. rewrite firstn_length_le, Nat.eqb_refl by auto. eauto.
  - intros mp E. destruct (_ <=? _); cbn [andb] in E; [|discriminate].
    destruct (Nat.eqb_spec (cm_total sets) (length av)) as [El|]; [|discriminate]. injection E as <-. cbn [msgs_map].
    rewrite positions_eq by auto. split; [auto|]. split; [auto|]. split; [now apply firstn_sorted|].
    intros p q Hp Hq Hlt. apply (firstn_smallest _ _ p); auto. now apply rel_avail_In.
Qed.

(** so for n >= 2^16 the release build answers where the checked build panics, and the positions
    it returns are inside the witness; for n = 0 and n = 1 it returns positions of a witness that
    does not exist *)
Corollary C73_release_large_n (a ws : N) (sets : list (list N)) mp : (1 <= a)%N -> (ws < 65536)%N ->
  compute_mapping_release (65536 * a) ws sets = Ok mp ->
  forall m, In m (msgs_map mp) -> (ws <= position_in_witness m < 65536 * a - 2)%N.
Proof.
  intros Ha Hws E m Hm. assert (X : ((65536 * a) mod 65536 = 0)%N) by (rewrite N.mul_comm; now apply N.mod_mul).
  destruct (C73_release_wraps (65536 * a) ws sets) as [_ P]; [lia|auto|]. specialize (P mp E). cbv zeta in P.
  destruct P as (_ & P & _ & _). specialize (P _ (in_map position_in_witness _ _ Hm)). unfold free_below in P. lia.
Qed.
Corollary C73_release_tiny_n (n ws : N) (sets : list (list N)) : (n < 2)%N ->
  compute_mapping n ws sets = Panic /\
  ((ws + N.of_nat (2 * cm_total sets) <= 65534)%N -> 1 <= cm_total sets ->
   exists mp, compute_mapping_release n ws sets = Ok mp).
Proof.
  intros Hn. assert (X : (n mod 65536 = n)%N) by (apply N.mod_small; lia). split.
  { rewrite compute_mapping_eq. unfold as_u16. rewrite X. now destruct (N.ltb_spec n 2); [|lia]. }
  intros HR HT. apply C73_release_wraps; [lia|lia|]. rewrite X. split; auto.
  set (F := rel_avail (65534 + n) ws sets).
  assert (HF : length (range_N ws (65534 + n)) <= length (concat sets) + length F).
  { rewrite <- app_length. apply NoDup_incl_length; [apply sorted_NoDup, range_sorted|].
    intros x Hx. apply in_or_app. destruct (btree_contains (btree_collect (concat sets)) x) eqn:E.
    - left. apply btree_contains_In in E. now rewrite btree_collect_In in E.
    - right. apply filter_In. now rewrite E. }
  rewrite total_eq in HF. unfold range_N in HF. rewrite map_length, seq_length in HF.
  assert (HS : StronglySorted N.lt (firstn (cm_total sets) F)) by (apply firstn_sorted, filter_sorted, range_sorted).
  exists (firstn (cm_total sets) F). split; [now apply sorted_NoDup|]. split; [apply firstn_length_le; lia|].
  apply Forall_forall. intros p Hp. apply firstn_In in Hp. now apply rel_avail_In.
Qed.

(** n = 2^16 with a witness of 65530 entries, n = 1, and a size where both builds agree *)
Example C73_case :
  let ps := rmap (fun mp => map position_in_witness (msgs_map mp)) in
  ps (compute_mapping 65536 65530 [[7; 65531]]%N) = Panic /\
  ps (compute_mapping_release 65536 65530 [[7; 65531]]%N) = Ok [65530; 65532]%N /\
  ps (compute_mapping 1 65530 [[2; 4]]%N) = Panic /\
  ps (compute_mapping_release 1 65530 [[2; 4]]%N) = Ok [65530; 65531]%N /\
  ps (compute_mapping_release 18 5 [[6; 9]; [5; 9]]%N) = Ok [7; 8; 10; 11]%N /\
  ps (compute_mapping_release 65536 65530 [[7; 8]; [9; 10; 11]]%N) = Panic.
Proof. vm_compute. repeat split. Qed.
