(** C28-C33 (C31's proof-rejection half is in PropCopy): the message mapping and
    the message commitments. *)
From Coq Require Import Sorted.
From Verif Require Export MappingFacts Ex.
Local Open Scope nat_scope.
Local Open Scope list_scope.

Lemma compute_mapping_inv n ws sets mp : compute_mapping n ws sets = Ok mp ->
  (2 <= as_u16 n)%N /\ 1 <= cm_total sets /\
  let av := firstn (cm_total sets) (cm_avail n ws sets) in
  length av = cm_total sets /\
  mp = mkMapping (length sets) (cm_msgs sets av) (btree_collect (concat sets)) (nth (cm_total sets - 1) av 0%N).
Proof.
  rewrite compute_mapping_eq. destruct (N.ltb_spec (as_u16 n) 2); [discriminate|]. cbv zeta.
  destruct (Nat.leb_spec 1 (cm_total sets)); cbn [andb]; [|discriminate].
  destruct (Nat.eqb_spec (cm_total sets) (length (firstn (cm_total sets) (cm_avail n ws sets)))); [|discriminate].
  intros E. injection E as <-. auto.
Qed.
Lemma positions_eq sets av : length av = cm_total sets -> map position_in_witness (cm_msgs sets av) = av.
Proof.
  intros H. unfold cm_msgs, tab. rewrite map_map. cbn [position_in_witness]. symmetry. apply (tab_eq 0%N); auto.
Qed.
Lemma tab_nth_error {T} k (f : nat -> T) i : i < k -> nth_error (tab k f) i = Some (f i).
Proof.
  intros H. unfold tab. rewrite nth_error_map. assert (E : nth_error (seq 0 k) i = Some i).
  { rewrite (nth_error_nth' _ 0) by (rewrite seq_length; auto). now rewrite seq_nth. }
  now rewrite E.
Qed.

(** C28 *)
Theorem C28_positions (n ws : N) (sets : list (list N)) mp :
  (n < 65536)%N -> (ws < 65536)%N -> compute_mapping n ws sets = Ok mp ->
  let ps := map position_in_witness (msgs_map mp) in
  length ps = cm_total sets /\
  (forall p, In p ps -> cm_free n ws sets p) /\
  StronglySorted N.lt ps /\
  (forall p q, In p ps -> cm_free n ws sets q -> (q < p)%N -> In q ps) /\
  nth_error ps (length ps - 1) = Some (last_index mp).
Proof.
  intros Hn Hws E. apply compute_mapping_inv in E as (H2 & HT & Hav & ->). cbv zeta in Hav.
  set (av := firstn (cm_total sets) (cm_avail n ws sets)) in *. cbn [msgs_map last_index].
  rewrite positions_eq by exact Hav. cbv zeta. rewrite as_u16_small in H2 by exact Hn.
  split; [exact Hav|]. split.
  { intros p Hp. apply cm_avail_In; auto. now apply firstn_In in Hp. }
  assert (Hs : StronglySorted N.lt (cm_avail n ws sets)) by (apply filter_sorted, range_sorted).
  split; [now apply firstn_sorted|]. split.
  { intros p q Hp Hq Hlt. apply (firstn_smallest _ _ p); auto. now apply cm_avail_In. }
  rewrite Hav. apply nth_error_nth'. lia.
Qed.
(** n = 18, witness of 5, index sets {6,9}, {9,5}: fresh positions 7, 8, 10, 11 *)
Example C28_case :
  rmap (fun mp => (map position_in_witness (msgs_map mp), last_index mp)) (compute_mapping 18 5 [[6; 9]; [5; 9]]%N)
  = Ok ([7; 8; 10; 11], 11)%N.
Proof. vm_compute. reflexivity. Qed.

(** C29 *)
Theorem C29_metadata (n ws : N) (sets : list (list N)) mp :
  length sets <= N.to_nat 65536 -> compute_mapping n ws sets = Ok mp ->
  num_commitments mp = length sets /\
  length (msgs_map mp) = cm_total sets /\
  (forall c j, c < length sets -> j < length (nth c sets []) ->
     exists m, nth_error (msgs_map mp) (cm_offset sets c + j) = Some m /\
       msg_id m = cm_offset sets c + j /\
       commitment_index m = nth j (nth c sets []) 0%N /\
       commitment_crs_id m = N.of_nat c) /\
  (forall i, i < length (msgs_map mp) -> exists c j, c < length sets /\ j < length (nth c sets []) /\ i = cm_offset sets c + j) /\
  (forall x, In x (unique_commitment_indices mp) <-> exists s, In s sets /\ In x s) /\
  StronglySorted N.lt (unique_commitment_indices mp).
Proof.
  intros Hl E. apply compute_mapping_inv in E as (H2 & HT & Hav & ->). cbv zeta in Hav.
  set (av := firstn (cm_total sets) (cm_avail n ws sets)) in *.
  cbn [msgs_map num_commitments unique_commitment_indices]. unfold cm_msgs. rewrite tab_length.
  split; [reflexivity|]. split; [reflexivity|]. split.
  { intros c j Hc Hj. destruct (nth_concat sets c j Hc Hj) as [E Hlt].
    eexists. split; [now apply tab_nth_error|]. cbn [msg_id commitment_index commitment_crs_id].
    rewrite E, nth_crs by auto. repeat split; auto. apply as_u16_small.
    assert (N.of_nat c < N.of_nat (N.to_nat 65536))%N by lia. now rewrite N2Nat.id in H. }
  split; [apply msg_split|]. split.
  { intros x. rewrite btree_collect_In, in_concat. reflexivity. }
  apply btree_collect_sorted.
Qed.
Example C29_case :
  rmap (fun mp => (num_commitments mp, map msg_id (msgs_map mp), map commitment_index (msgs_map mp),
                   map commitment_crs_id (msgs_map mp), unique_commitment_indices mp))
    (compute_mapping 18 5 [[6; 9]; []; [5; 9]]%N)
  = Ok (3, [0; 1; 2; 3], [6; 9; 5; 9]%N, [0; 0; 2; 2]%N, [5; 6; 9]%N) /\
  cm_offset [[6; 9]; []; [5; 9]]%N 2 = 2.
Proof. vm_compute. auto. Qed.

(** C30 *)
Theorem C30_succeeds_iff_room (n ws : N) (sets : list (list N)) :
  (2 <= n)%N -> (n < 65536)%N -> (ws < 65536)%N ->
  ((exists mp, compute_mapping n ws sets = Ok mp) <->
   (1 <= cm_total sets /\
    exists ps, NoDup ps /\ length ps = cm_total sets /\ Forall (cm_free n ws sets) ps)) /\
  ((exists mp, compute_mapping n ws sets = Ok mp) \/ compute_mapping n ws sets = Panic).
Proof.
  intros H2 Hn Hws. split; [split|].
  - intros [mp E]. destruct (C28_positions n ws sets mp Hn Hws E) as (Hl & Hf & Hs & _ & _).
    apply compute_mapping_inv in E as (_ & HT & _). split; auto.
    exists (map position_in_witness (msgs_map mp)). split; [now apply sorted_NoDup|]. split; auto.
    now apply Forall_forall.
  - intros [HT (ps & Hnd & Hl & Hf)]. rewrite compute_mapping_eq, as_u16_small by auto.
    destruct (N.ltb_spec n 2); [lia|]. cbv zeta. destruct (Nat.leb_spec 1 (cm_total sets)); [|lia]. cbn [andb].
    assert (Hlen : cm_total sets <= length (cm_avail n ws sets)).
    { rewrite <- Hl. apply NoDup_incl_length; auto. intros p Hp. apply cm_avail_In; auto.
      rewrite Forall_forall in Hf. auto. }
    rewrite firstn_length_le, Nat.eqb_refl by auto. eauto.
  - rewrite compute_mapping_eq. destruct (_ <? 2)%N; auto. cbv zeta. destruct (_ && _)%nat; eauto.
Qed.
(** {6,9},{5,9} need four free slots, [5,12) has four by 5, 6, 9; there are only three at n = 13 *)
Example C30_case :
  rmap (fun _ => tt) (compute_mapping 13 5 [[6; 9]; [5; 9]]%N) = Panic /\
  rmap (fun _ => tt) (compute_mapping 14 5 [[6; 9]; [5; 9]]%N) = Ok tt /\
  rmap (fun _ => tt) (compute_mapping 14 5 [[]; []]) = Panic /\
  rmap (fun _ => tt) (compute_mapping 1 0 [[6]]%N) = Panic.
Proof. vm_compute. auto. Qed.

(** C31, first half: with enough room index 0 is accepted, whatever the rest *)
Lemma cm_total_cons s sets : cm_total (s :: sets) = length s + cm_total sets.
Proof. reflexivity. Qed.
Theorem C31_index_zero_accepted (n ws : N) (sets : list (list N)) :
  (n < 65536)%N -> (1 <= ws)%N -> (N.to_nat ws + 2 * cm_total sets + 3 <= N.to_nat n) ->
  exists mp, compute_mapping n ws ([0%N] :: sets) = Ok mp /\ In 0%N (unique_commitment_indices mp).
Proof.
  intros Hn Hws Hroom.
  assert (HC : exists mp, compute_mapping n ws ([0%N] :: sets) = Ok mp).
  { apply (proj1 (C30_succeeds_iff_room n ws ([0%N] :: sets) ltac:(lia) Hn ltac:(lia))).
    rewrite cm_total_cons. cbn [length]. split; [lia|].
    set (U := concat sets). assert (HU : length U = cm_total sets) by apply total_eq.
    (* the free positions *)
    set (F := filter (fun x => negb (btree_contains U x)) (range_N ws (n - 2))).
    assert (HF : length (range_N ws (n - 2)) <= length U + length F).
    { rewrite <- app_length. apply NoDup_incl_length; [apply sorted_NoDup, range_sorted|].
      intros x Hx. apply in_or_app. destruct (btree_contains U x) eqn:E.
      - left. now apply btree_contains_In.
      - right. apply filter_In. now rewrite E. }
    assert (HR : length (range_N ws (n - 2)) = N.to_nat (n - 2 - ws)) by (unfold range_N; now rewrite map_length, seq_length).
    exists (firstn (1 + cm_total sets) F).
    assert (HS : StronglySorted N.lt (firstn (1 + cm_total sets) F)) by (apply firstn_sorted, filter_sorted, range_sorted).
    split; [now apply sorted_NoDup|]. split; [apply firstn_length_le; lia|].
    apply Forall_forall. intros p Hp. apply firstn_In in Hp. unfold F in Hp. apply filter_In in Hp as [Hp Hb].
    apply range_In in Hp. split; [lia|]. split; [lia|]. intros s [<-|Hs] Hin.
    - destruct Hin as [<-|[]]. lia.
    - apply Bool.negb_true_iff in Hb. assert (Ht : btree_contains U p = true).
      { apply btree_contains_In. unfold U. apply in_concat. eauto. }
      congruence. }
  destruct HC as [mp E]. exists mp. split; auto. apply compute_mapping_inv in E as (_ & _ & _ & ->).
  cbn [unique_commitment_indices]. apply btree_collect_In. now left.
Qed.
Example C31_index_case :
  rmap (fun mp => (unique_commitment_indices mp, map position_in_witness (msgs_map mp)))
    (compute_mapping 8 3 [[0; 1]]%N) = Ok ([0; 1], [3; 4])%N.
Proof. vm_compute. reflexivity. Qed.

(** C32 *)
Theorem C32_sizes_truncated (n ws a b : N) (sets : list (list N)) :
  compute_mapping (n + 65536 * a) (ws + 65536 * b) sets = compute_mapping n ws sets.
Proof.
  assert (E : forall x y, as_u16 (x + 65536 * y) = as_u16 x).
  { intros x y. unfold as_u16. rewrite N.mul_comm. apply N.mod_add. discriminate. }
  rewrite !compute_mapping_eq. unfold cm_avail. rewrite !E. reflexivity.
Qed.
Theorem C32_multiple_of_65536_panics (a ws : N) (sets : list (list N)) :
  compute_mapping (65536 * a) ws sets = Panic.
Proof.
  rewrite compute_mapping_eq. unfold as_u16 at 1. rewrite N.mul_comm, N.mod_mul by discriminate. reflexivity.
Qed.
(** every power of two from 2^16 on is such a multiple *)
Corollary C32_large_power_of_two_panics (d ws : N) (sets : list (list N)) :
  (16 <= d)%N -> compute_mapping (2 ^ d) ws sets = Panic.
Proof.
  intros H. replace (2 ^ d)%N with (65536 * 2 ^ (d - 16))%N; [apply C32_multiple_of_65536_panics|].
  change 65536%N with (2 ^ 16)%N. rewrite <- N.pow_add_r. f_equal. lia.
Qed.
(** with a witness of at least 65536 entries every message overwrites one of them *)
Theorem C32_positions_inside_witness (n ws : N) (sets : list (list N)) mp :
  (65536 <= ws)%N -> compute_mapping n ws sets = Ok mp ->
  forall m, In m (msgs_map mp) -> (position_in_witness m < ws)%N.
Proof.
  intros Hws E m Hm. apply compute_mapping_inv in E as (H2 & HT & Hav & ->). cbv zeta in Hav.
  cbn [msgs_map] in Hm. apply (in_map position_in_witness) in Hm. rewrite positions_eq in Hm by exact Hav.
  apply firstn_In in Hm. unfold cm_avail in Hm. apply filter_In in Hm as [Hm _]. apply range_In in Hm.
  assert (as_u16 n < 65536)%N by (unfold as_u16; apply N.mod_lt; discriminate). lia.
Qed.
Example C32_case :
  rmap (fun mp => map position_in_witness (msgs_map mp)) (compute_mapping 131082 65537 [[2; 5]]%N) = Ok [1; 3]%N.
Proof. vm_compute. reflexivity. Qed.

(** C33 *)
Section C33.
Context {C : Crypto} {L : CryptoLaws C}.
Add Field SfC33 : (@S_field C L).

Definition commit_value (G : list Point) (ix : list N) (msg : list Scalar) (r : Scalar) : Point :=
  (sum_P (length ix) (fun j => sc msg j *: pt G (N.to_nat (nth j ix 0%N))) + r *: pt G (length G - 1))%P.
Theorem C33_commit_value (G : list Point) (ix : list N) (msg : list Scalar) (r : Scalar) :
  let ok := length ix = length msg /\ (forall i, In i ix -> N.to_nat i < length G) /\ 1 <= length G in
  (ok -> commit G ix msg r = Ok (commit_value G ix msg r)) /\
  (~ ok -> commit G ix msg r = Panic).
Proof.
  cbv zeta. unfold commit. split.
  - intros (Hl & Hi & HG). rewrite (proj2 (Nat.eqb_eq _ _) Hl). cbn [assertb bind].
    rewrite (mapM_map _ (fun i => pt G (N.to_nat i))) by (intros i Hin; apply (idx_lt _ _ p0); auto).
    cbn [bind]. rewrite msm_Ok by (rewrite map_length; lia). cbn [bind].
    rewrite (nth_error_nth' G p0) by lia. cbn [unwrap bind]. rewrite lin_comb by (rewrite map_length; lia).
    unfold commit_value, comb. rewrite <- Hl. f_equal. f_equal. apply sum_P_ext. intros j Hj. f_equal.
    unfold pt. rewrite (nth_indep _ _ (nth (N.to_nat 0) G p0)) by (now rewrite map_length).
    now rewrite (map_nth (fun i => nth (N.to_nat i) G p0)).
  - intros Hno. destruct (Nat.eqb_spec (length ix) (length msg)) as [Hl|]; cbn [assertb bind]; auto.
    destruct (mapM (fun i => idx G (N.to_nat i)) ix) as [pts| |] eqn:E; cbn [bind]; auto.
    + assert (Hp : length pts = length ix) by (now apply mapM_Ok_length in E).
      rewrite msm_Ok by lia. cbn [bind]. destruct G as [|g G]; [reflexivity|]. exfalso. apply Hno.
      split; auto. split; [|cbn; lia]. intros i Hin. revert E Hin. generalize (g :: G). clear.
      intros G. revert pts. induction ix as [|a ix IH]; intros pts E Hin; [contradiction|]. cbn [mapM] in E.
      apply bind_Ok_inv in E as (q & E1 & E2). apply bind_Ok_inv in E2 as (qs & E2 & _).
      destruct Hin as [<-|Hin]; [now apply idx_Ok_lt in E1|eauto].
    + exfalso. revert E. apply mapM_not_Diverge. intros i _. unfold idx. destruct (nth_error _ _); discriminate.
Qed.
Theorem C33_commit_homomorphic (G : list Point) (ix : list N) (m1 m2 : list Scalar) (r1 r2 a1 a2 : Scalar) c1 c2 :
  commit G ix m1 r1 = Ok c1 -> commit G ix m2 r2 = Ok c2 ->
  commit G ix (tab (length ix) (fun j => a1 * sc m1 j + a2 * sc m2 j)%S) (a1 * r1 + a2 * r2)%S
  = Ok (a1 *: c1 + a2 *: c2)%P.
Proof.
  intros E1 E2.
  assert (D : forall m r c, commit G ix m r = Ok c ->
     (length ix = length m /\ (forall i, In i ix -> N.to_nat i < length G) /\ 1 <= length G) /\ c = commit_value G ix m r).
  { intros m r c E. destruct (C33_commit_value G ix m r) as [Y Nn].
    destruct (Nat.eq_dec (length ix) (length m)) as [Hl|Hl].
    2:{ rewrite Nn in E by tauto. discriminate. }
    destruct (Forall_Exists_dec (fun i => N.to_nat i < length G) (fun i => lt_dec _ _) ix) as [Hi|Hi].
    2:{ rewrite Nn in E; [discriminate|]. intros (_ & Hall & _). apply Exists_exists in Hi as (i & Hin & Hc). auto. }
    destruct (le_dec 1 (length G)) as [HG|HG].
    2:{ rewrite Nn in E by tauto. discriminate. }
    rewrite Forall_forall in Hi. rewrite Y in E by auto. injection E as <-. auto. }
  apply D in E1 as [(Hl1 & Hi & HG) ->]. apply D in E2 as [(Hl2 & _ & _) ->].
  rewrite (proj1 (C33_commit_value _ _ _ _)) by (rewrite tab_length; auto). f_equal. unfold commit_value.
  rewrite (sum_P_ext (length ix) (fun j => sc (tab _ _) j *: _)%P
    (fun j => a1 *: (sc m1 j *: pt G (N.to_nat (nth j ix 0%N))) + a2 *: (sc m2 j *: pt G (N.to_nat (nth j ix 0%N))))%P).
  - rewrite sum_P_add, !sum_P_mul. pring.
  - intros j Hj. unfold sc at 1. rewrite tab_nth by auto. pring.
Qed.
End C33.
Example C33_case :
  rmap zp (commit [pN 2; pN 3; pN 5; pN 7] [0; 2]%N [sN 10; sN 20] (sN 100)) = Ok (20 + 100 + 700)%Z /\
  rmap zp (commit [pN 2; pN 3; pN 5; pN 7] [0; 4]%N [sN 10; sN 20] (sN 100)) = Panic /\
  rmap zp (commit [pN 2; pN 3; pN 5; pN 7] [0; 2]%N [sN 10] (sN 100)) = Panic.
Proof. vm_compute. auto. Qed.
