(** C67: the outcome of the two tests of src/copy/copy.rs *)
From Coq Require Import Sorted.
From Verif Require Export PropMapTest PropEqTest PropCopy.
From Verif Require Import ExSmall.
Local Open Scope nat_scope.
Local Open Scope list_scope.

(** the index set of a message of length k is {1, ..., k} *)
Lemma first_indices_In k x : (N.of_nat k < 65536)%N -> In x (first_indices k) <-> (1 <= x <= N.of_nat k)%N.
Proof.
  intros Hk. unfold first_indices.
  assert (G : forall l acc, In x (fold_left (fun b i => btree_insert (as_u16 (N.of_nat (i + 1))) b) l acc) <->
                            In x acc \/ exists i, In i l /\ x = as_u16 (N.of_nat (i + 1))).
  { induction l as [|a l IH]; intros acc; cbn [fold_left].
    - split; [auto|]. intros [H|(i & [] & _)]; auto.
    - rewrite IH, btree_insert_In. split.
      + intros [[->|H]|(i & H & ->)]; [right; exists a; split; [now left|reflexivity]|auto|right; exists i; split; [now right|reflexivity]].
      + intros [H|(i & [->|H] & ->)]; [auto|auto|right; eauto]. }
  rewrite G. split.
  - intros [[]|(i & Hi & ->)]. apply in_seq in Hi. rewrite as_u16_small by lia. lia.
  - intros Hx. right. exists (N.to_nat x - 1). split; [apply in_seq; lia|]. rewrite as_u16_small by lia. lia.
Qed.
Lemma first_indices_sorted k : StronglySorted N.lt (first_indices k).
Proof.
  unfold first_indices. assert (G : forall l acc, StronglySorted N.lt acc ->
    StronglySorted N.lt (fold_left (fun b i => btree_insert (as_u16 (N.of_nat (i + 1))) b) l acc)).
  { induction l as [|a l IH]; intros acc H; cbn [fold_left]; auto. apply IH, btree_insert_sorted, H. }
  apply G. constructor.
Qed.
Lemma first_indices_length k : (N.of_nat k < 65536)%N -> length (first_indices k) = k.
Proof.
  intros Hk. transitivity (length (range_N 1 (N.of_nat k + 1))).
  - apply same_members_length; [apply sorted_NoDup, first_indices_sorted|apply sorted_NoDup, range_sorted|].
    intros x. rewrite first_indices_In, range_In by auto. lia.
  - unfold range_N. rewrite map_length, seq_length. lia.
Qed.
Lemma list_max_In ks k : In k ks -> k <= list_max ks.
Proof. intros H. assert (X := proj1 (list_max_le ks (list_max ks)) (Nat.le_refl _)). rewrite Forall_forall in X. auto. Qed.
Lemma list_max_attained ks : 1 <= list_max ks -> In (list_max ks) ks.
Proof.
  induction ks as [|k ks IH]; cbn; [lia|]. change (fold_right Init.Nat.max 0 ks) with (list_max ks). intros H.
  destruct (Nat.max_dec k (list_max ks)) as [E|E]; rewrite E; [now left|right]. apply IH. lia.
Qed.
Lemma list_max_le_sum ks : list_max ks <= list_sum ks.
Proof. induction ks as [|k ks IH]; cbn; auto. change (fold_right Init.Nat.max 0 ks) with (list_max ks). change (fold_right Nat.add 0 ks) with (list_sum ks). lia. Qed.
Lemma list_sum_pos ks : 1 <= list_sum ks -> 1 <= list_max ks.
Proof.
  induction ks as [|k ks IH]; cbn; auto. change (fold_right Init.Nat.max 0 ks) with (list_max ks). change (fold_right Nat.add 0 ks) with (list_sum ks). lia.
Qed.

(** the mapping of the test exists exactly when the largest message and all messages
    together fit *)
Theorem C67_mapping_room (n : N) (ks : list nat) : (3 <= n)%N -> (n < 65536)%N -> Forall (fun k => (N.of_nat k < 65536)%N) ks ->
  let room := 1 <= list_sum ks /\ list_max ks + list_sum ks + 3 <= N.to_nat n in
  (room -> exists mp, compute_mapping n 1 (map first_indices ks) = Ok mp) /\
  (~ room -> compute_mapping n 1 (map first_indices ks) = Panic).
Proof.
  intros H3 Hn Hk room. set (sets := map first_indices ks).
  assert (HT : cm_total sets = list_sum ks).
  { unfold cm_total, sets. rewrite map_map. f_equal. rewrite <- (map_id ks) at 2. apply map_ext_in. intros k Hin.
    apply first_indices_length. rewrite Forall_forall in Hk. auto. }
  assert (HF : forall p, 1 <= list_sum ks -> cm_free n 1 sets p <-> (N.of_nat (list_max ks) < p /\ p < n - 2)%N).
  { intros p Hs. assert (Hm := list_max_attained ks (list_sum_pos ks Hs)). unfold cm_free. rewrite Forall_forall in Hk. split.
    - intros (P1 & P2 & P3). split; [|lia]. apply N.nle_gt. intros Hle. apply (P3 (first_indices (list_max ks))).
      + unfold sets. now apply in_map.
      + apply first_indices_In; [auto|lia].
    - intros [P1 P2]. split; [lia|]. split; [lia|]. intros s Hs' Hin. unfold sets in Hs'. apply in_map_iff in Hs' as (k & <- & Hk').
      apply first_indices_In in Hin; auto. assert (X := list_max_In ks k Hk'). lia. }
  destruct (C30_succeeds_iff_room n 1 sets ltac:(lia) Hn ltac:(lia)) as [I D].
  assert (RM : forall a b, length (range_N a b) = N.to_nat (b - a)) by (intros; unfold range_N; now rewrite map_length, seq_length).
  assert (J : (exists mp, compute_mapping n 1 sets = Ok mp) <-> room).
  { rewrite I, HT. unfold room. split.
    - intros (Hs & ps & ND & Hl & Hf). split; auto.
      assert (X : length ps <= length (range_N (N.of_nat (list_max ks) + 1) (n - 2))).
      { apply NoDup_incl_length; auto. intros p Hp. rewrite Forall_forall in Hf. apply Hf in Hp. apply HF in Hp; auto. apply range_In. lia. }
      rewrite RM in X. lia.
    - intros (Hs & Hr). split; auto. exists (firstn (list_sum ks) (range_N (N.of_nat (list_max ks) + 1) (n - 2))).
      split; [apply sorted_NoDup, firstn_sorted, range_sorted|]. split; [apply firstn_length_le; rewrite RM; lia|].
      apply Forall_forall. intros p Hp. apply firstn_In, range_In in Hp. apply HF; auto. lia. }
  split; [apply J|]. intros Hno. destruct D as [D|D]; auto. exfalso. apply Hno, J, D.
Qed.

Section C67.
Context {C : Crypto} {L : CryptoLaws C}.
Add Field SfC67 : (@S_field C L).

Definition sizes (ms : list (list Scalar)) : list nat := map (@length Scalar) ms.

(** the exceptional values of C34 *)
Definition copy_exceptional (ro : oracle) rng pos tr (G H : list Point) (Q : Point) mp (openings : list (list Scalar * Scalar)) (proof : Copy) : Prop :=
  let n := length G in
  let tr1 := cp_hist tr (cp_C_w proof) in
  let alpha := ro tr1 in
  let w' := cp_witness n mp [s1] (concat (map fst openings)) alpha in
  let r' := [rng pos; (rng (pos + 1)%nat + cp_rand openings alpha)%S] in
  exceptional ro rng (pos + 2) tr1 G H Q (cp_system n mp alpha []) w' r' (cp_inner proof).

Lemma copy_test_commits (G : list Point) (ms : list (list Scalar)) (rs : list Scalar) :
  length ms = length rs -> list_max (sizes ms) < length G -> (N.of_nat (length G) < 65536)%N ->
  mapM (fun '(i, indices) => msg <- idx ms i ;; rnd <- idx rs i ;; commit G indices msg rnd)
       (enumerate (map (fun msg => first_indices (length msg)) ms)) =
  Ok (tab (length ms) (fun k => commit_value G (first_indices (length (nth k ms []))) (nth k ms []) (sc rs k))).
Proof.
  intros Hl Hm Hn. set (sets := map (fun msg : list Scalar => first_indices (length msg)) ms).
  assert (Hs : length sets = length ms) by (unfold sets; now rewrite map_length).
  rewrite (mapM_map _ (fun '(i, indices) => commit_value G indices (nth i ms []) (sc rs i))).
  - f_equal. apply (tab_eq p0); [now rewrite map_length, enumerate_length|]. intros k Hk.
    unfold enumerate. set (f := fun '(i, indices) => commit_value G indices (nth i ms []) (sc rs i)).
    rewrite (nth_indep _ p0 (f (0, []))) by (rewrite map_length, combine_length, seq_length; lia). rewrite map_nth.
    rewrite combine_nth by now rewrite seq_length. rewrite seq_nth by lia. unfold f. cbn [Nat.add]. f_equal.
    unfold sets. rewrite (nth_indep _ [] (first_indices (length (@nil Scalar)))) by (rewrite map_length; auto).
    now rewrite (map_nth (fun msg : list Scalar => first_indices (length msg))).
  - intros [i s] Hin. unfold enumerate in Hin. apply (In_nth _ _ (0, [])) in Hin as (k & Hk & E).
    rewrite combine_length, seq_length in Hk. rewrite combine_nth in E by now rewrite seq_length. rewrite seq_nth in E by lia.
    injection E as <- <-. cbn [Nat.add]. rewrite (idx_lt _ _ []) by lia. cbn [bind]. rewrite (idx_lt _ _ s0) by lia. cbn [bind].
    assert (HL : length (nth k ms []) <= list_max (sizes ms)) by (apply list_max_In; unfold sizes; apply in_map, nth_In; lia).
    assert (Es : nth k sets [] = first_indices (length (nth k ms []))).
    { unfold sets. rewrite (nth_indep _ [] (first_indices (length (@nil Scalar)))) by (rewrite map_length; lia).
      now rewrite (map_nth (fun msg : list Scalar => first_indices (length msg))). }
    rewrite Es. rewrite (proj1 (C33_commit_value G _ _ _)); [reflexivity|]. split; [apply first_indices_length; lia|]. split; [|lia].
    intros x Hx. apply first_indices_In in Hx; [|lia]. lia.
Qed.

Theorem C67_copy_test_outcome (ro : oracle) rng pos tr (G H : list Point) (Q : Point) (ms : list (list Scalar)) (rs : list Scalar) n :
  3 <= n -> (N.of_nat n < 65536)%N -> length G = n -> length H = n -> length ms = length rs ->
  (N.of_nat (length ms) <= 65536)%N -> list_max (sizes ms) < n ->
  let room := 1 <= list_sum (sizes ms) /\ list_max (sizes ms) + list_sum (sizes ms) + 3 <= n in
  (~ room -> copy_test_body ro rng pos tr G H Q ms rs = Panic) /\
  (room -> exists mp, compute_mapping (N.of_nat n) 1 (map first_indices (sizes ms)) = Ok mp /\
     ((exists pf tr' pos', copy_create ro rng pos tr G H Q mp (mkBlockMatrix []) [s1] (combine ms rs) = Ok (pf, tr', pos') /\
                       ~ copy_exceptional ro rng pos tr G H Q mp (combine ms rs) pf) ->
      copy_test_body ro rng pos tr G H Q ms rs = Ok tt)).
Proof.
  intros Hn Hn16 HG HH Hl Hl16 Hmax room.
  assert (Esets : map (fun msg : list Scalar => first_indices (length msg)) ms = map first_indices (sizes ms)) by (unfold sizes; now rewrite map_map).
  assert (HK : Forall (fun k => (N.of_nat k < 65536)%N) (sizes ms)).
  { apply Forall_forall. intros k Hk. apply list_max_In in Hk. lia. }
  destruct (C67_mapping_room (N.of_nat n) (sizes ms) ltac:(lia) Hn16 HK) as [R1 R2]. cbv zeta in R1, R2. rewrite Nat2N.id in R1, R2. fold room in R1, R2.
  assert (HC := copy_test_commits G ms rs Hl ltac:(lia) ltac:(lia)). 
  unfold copy_test_body. cbv zeta. rewrite HC. cbn [bind]. rewrite Esets, HG. cbn [length]. change (N.of_nat 1) with 1%N.
  split.
  - intros Hno. rewrite R2 by auto. reflexivity.
  - intros Hr. destruct (R1 Hr) as [mp Emp]. exists mp. split; auto. intros (pf & tr' & pos' & EC & Hex).
    rewrite Emp. cbn [bind]. unfold BlockMatrix_new. rewrite EC. cbn [bind].
    set (Cs := tab (length ms) _) in *.
    set (sets := map first_indices (sizes ms)) in *.
    assert (Ls : length sets = length ms) by (unfold sets, sizes; now rewrite !map_length).
    assert (Lo : length (combine ms rs) = length ms) by (rewrite combine_length; lia).
    unfold copy_exceptional, exceptional in Hex. rewrite HG in Hex. cbv zeta in Hex.
    rewrite (C34_copy_completeness ro rng pos tr G H Q mp [] [s1] sets (combine ms rs) Cs n pf tr' pos'); auto; try lia.
    + intros s i Hs Hi. unfold sets in Hs. apply in_map_iff in Hs as (k & <- & Hk). rewrite Forall_forall in HK.
      apply first_indices_In in Hi; auto. assert (X := list_max_In _ _ Hk). cbn [length]. unfold room in Hr.
      assert (Y := list_max_le_sum (sizes ms)). lia.
    + unfold Cs. rewrite tab_length. auto.
    + intros k Hk. rewrite Ls in Hk. rewrite combine_nth by auto. cbn [fst snd]. unfold Cs, pt. rewrite tab_nth by auto.
      assert (HL : length (nth k ms []) <= list_max (sizes ms)) by (apply list_max_In; unfold sizes; apply in_map, nth_In; lia).
      assert (Es : nth k sets [] = first_indices (length (nth k ms []))).
      { unfold sets, sizes. rewrite map_map. rewrite (nth_indep _ [] (first_indices (length (@nil Scalar)))) by (rewrite map_length; lia).
        now rewrite (map_nth (fun msg : list Scalar => first_indices (length msg))). }
      rewrite Es. fold (sc rs k). apply C33_commit_value. split; [apply first_indices_length; lia|]. split; [|lia].
      intros x Hx. apply first_indices_In in Hx; [|lia]. lia.
    + cbn [length]. lia.
    + cbn [length]. intros i Hi. lia.
    + intros Z. apply Hex. tauto.
    + intros Z. apply Hex. tauto.
    + intros r p ob H1 H2 Z. apply Hex. right. right. right. right. eauto 10.
Qed.

Lemma rand_messages_sizes rng : forall ks pos, sizes (rand_messages rng pos ks) = ks.
Proof.
  induction ks as [|k ks IH]; intros pos; [reflexivity|]. cbn [rand_messages sizes map]. rewrite map_length, seq_length. f_equal. apply IH.
Qed.
(** the first test for all message sizes; its own assertion leaves sizes on which it cannot pass *)
Theorem C67_two_commit_test (ro : oracle) rng tr (G H : list Point) (Q : Point) (ks : list nat) n :
  3 <= n -> (N.of_nat n < 65536)%N -> length G = n -> length H = n -> (N.of_nat (length ks) <= 65536)%N ->
  let ms := rand_messages rng (length ks) ks in
  let rs := tab (length ks) (fun i => rng i) in
  let pos := length ks + list_sum ks in
  (list_sum ks = 0 \/ n < list_max ks + list_sum ks + 3 -> test_copy_proof_creation ro rng tr G H Q ks = Panic) /\
  (1 <= list_sum ks -> list_max ks + list_sum ks + 3 <= n ->
   exists mp, compute_mapping (N.of_nat n) 1 (map first_indices ks) = Ok mp /\
     ((exists pf tr' pos', copy_create ro rng pos tr G H Q mp (mkBlockMatrix []) [s1] (combine ms rs) = Ok (pf, tr', pos') /\
                       ~ copy_exceptional ro rng pos tr G H Q mp (combine ms rs) pf) ->
      test_copy_proof_creation ro rng tr G H Q ks = Ok tt)).
Proof.
  intros Hn Hn16 HG HH Hk ms rs pos. unfold test_copy_proof_creation, helper_create_scalar_pair. cbv zeta.
  rewrite Nat.eqb_refl. cbn [assertb bind Nat.add]. change (map (fun i => rng i) (seq 0 (length ks))) with rs. fold ms pos.
  change (map (@length Scalar) ms) with (sizes ms). assert (Es : sizes ms = ks) by apply rand_messages_sizes. rewrite Es.
  rewrite HG, !usub_le by lia. cbn [bind]. rewrite usub_le by lia. cbn [bind].
  assert (Lm : length ms = length ks) by (transitivity (length (sizes ms)); [unfold sizes; now rewrite map_length|now rewrite Es]).
  assert (Lr : length rs = length ks) by apply tab_length.
  assert (Y := list_max_le_sum ks).
  destruct (Nat.ltb_spec (list_sum ks) (n - 2 - 1)) as [Hlt|Hge]; cbn [assertb bind].
  - assert (O := C67_copy_test_outcome ro rng pos tr G H Q ms rs n Hn Hn16 HG HH ltac:(lia) ltac:(lia)). cbv zeta in O. rewrite Es in O.
    destruct (O ltac:(lia)) as [O1 O2]. split.
    + intros Hz. apply O1. lia.
    + intros H1 H2. apply O2. auto.
  - split; [reflexivity|]. intros H1 H2. assert (1 <= list_max ks) by now apply list_sum_pos. lia.
Qed.
End C67.

Section C67case.
Let rng67 (i : nat) : @Scalar FS := fN (Z.of_nat (i * i + 3)).
Let Gn n : list (@Point FS) := map (fun i => qN (Z.of_nat (7 * i + 1))) (seq 0 n).
Let Hn n : list (@Point FS) := map (fun i => qN (Z.of_nat (11 * i + 5))) (seq 0 n).
Let ro67 (tr : @transcript FS) : @Scalar FS := fN (Z.of_nat (length tr) * 7 + 2).
Example C67_case :
  first_indices 3 = [1; 2; 3]%N /\
  (* the two tests as written *)
  test_copy_proof_creation ro67 rng67 [] (Gn 32) (Hn 32) (qN 17) [2; 3] = Ok tt /\
  test_copy_proof_creation_single_commit ro67 rng67 [] (Gn 16) (Hn 16) (qN 17) = Ok tt /\
  (* sizes 6 and 5 at n = 16: the test's assertion 13 > 11 holds, the mapping panics *)
  test_copy_proof_creation ro67 rng67 [] (Gn 16) (Hn 16) (qN 17) [6; 5] = Panic /\
  test_copy_proof_creation ro67 rng67 [] (Gn 16) (Hn 16) (qN 17) [4; 5] = Panic /\
  test_copy_proof_creation ro67 rng67 [] (Gn 16) (Hn 16) (qN 17) [4; 4] = Ok tt /\
  test_copy_proof_creation ro67 rng67 [] (Gn 16) (Hn 16) (qN 17) [0; 0] = Panic.
Proof. vm_compute. repeat split. Qed.
End C67case.
