(** C68: exactly which inputs the quadratic-equation, zero-knowledge and copy provers accept. *)
From Coq Require Import String.
From Verif Require Export PropTotal PropAlmFail PropQesa PropCopyCases.
From Verif Require Import PropIpa PropMath.
Local Open Scope string_scope.
Local Open Scope nat_scope.
Local Open Scope list_scope.

Section C68.
Context {C : Crypto} {L : CryptoLaws C}.
Add Field SfC68 : (@S_field C L).

Lemma alm_create_lengths ro rng pos tr (G H : list Point) Q Cw a b t r :
  alm_zk_create ro rng pos tr G H Q Cw a b t = Ok r -> length H = length G /\ exists d, length G = 2 ^ d.
Proof.
  intros E. unfold alm_zk_create, challenge_scalar in E. inv_ok E. destruct v as [r1 p1]. inv_ok E. destruct v as [r2 p2].
  inv_ok E. cbv zeta in E. inv_ok E. destruct (proj1 (C14_nozk_create_returns _ _ _ _ _ _ _) (ex_intro _ _ E3)) as (d & A1 & A2 & _).
  split; [congruence|]. now exists d.
Qed.
Lemma transpose_width (M T : list (list Scalar)) : matrix_transpose M = Ok T -> length T = length (nth 0 M []).
Proof.
  intros E. unfold matrix_transpose in E. inv_ok E. destruct M as [|row M]; [discriminate|].
  injection E0 as <-. cbn [nth]. unfold transpose_loop in E.
  refine (foldM_inv (fun t => length t = length row) _ _ _ _ (repeat_length _ _) _ E).
  intros t row' t' _ Ht E'. refine (foldM_inv (fun t => length t = length row) _ _ _ _ Ht _ E').
  intros u [i e] u' _ Hu E2. unfold transpose_push in E2. inv_ok E2. apply upd_Ok in E2 as [_ ->]. now rewrite set_at_length.
Qed.

(** what a returning run of the inner prover says about its inputs, whatever they are *)
Lemma inner_create_shape ro rng pos tr (G H : list Point) Q g w r' out :
  inner_create ro rng pos tr G H Q g w r' = Ok out ->
  exists d, length G = 2 ^ S (S d) /\ length H = length G /\ length w = length G - 2 /\ length r' = 2 /\
    exists (x : Scalar) gamma T, block_matrix_batch g (powers x (length G)) = Ok gamma /\ length gamma + 2 = length H /\
      (exists gp, compute_gamma_prime gamma (length G) = Ok gp /\ matrix_transpose gp = Ok T) /\ length T = length gamma + 2.
Proof.
  intros E. unfold inner_create, challenge_scalar in E. cbv zeta in E.
  inv_ok E. apply usub_Ok in E0 as [A1 ->].
  inv_ok E. apply assertb_Ok, Nat.eqb_eq in E0. inv_ok E. apply assertb_Ok, Nat.eqb_eq in E1.
  inv_ok E. clear E2. inv_ok E. apply vandemonde_challenge_Ok_inv in E2 as [A2 ->].
  inv_ok E. clear E2. inv_ok E. rename E2 into EB. inv_ok E. clear E2. inv_ok E. clear E2. inv_ok E. apply upd_Ok in E2 as [_ ->].
  do 2 (inv_ok E; clear E2). inv_ok E. apply msm_Ok_inv in E2 as [A3 _].
  rewrite app_length, matrix_vector_mul_length in A3. cbn [length] in A3.
  inv_ok E. apply vandemonde_challenge_Ok_inv in E2 as [A4 ->]. do 2 (inv_ok E; clear E2).
  inv_ok E. rename E2 into EG. inv_ok E. rename E2 into ET. inv_ok E. clear E2. inv_ok E.
  unfold row_row_add in E2. inv_ok E2. clear E2. apply assertb_Ok, Nat.eqb_eq in E3.
  rewrite app_length, !matrix_vector_mul_length in E3. cbn [length] in E3.
  inv_ok E. clear E2. inv_ok E. apply alm_create_lengths in E2 as [A5 [d A6]].
  rewrite set_at_length in A5, A6.
  destruct d as [|[|d]]; [cbn in A6; lia|cbn in A6; lia|].
  exists d. split; [exact A6|]. split; [exact A5|]. split; [exact E0|]. split; [exact E1|].
  eexists _, _, _. split; [exact EB|]. split; [exact A3|]. split; [eexists; split; [exact EG|exact ET]|]. lia.
Qed.

Theorem C68_qesa_prover_checks ro rng pos tr (G H : list Point) Q Ms w r' out :
  inner_create ro rng pos tr G H Q (mkBlockMatrix Ms) w r' = Ok out ->
  Ms <> [] /\ length H = length G /\ length w + 2 = length G /\ length r' = 2 /\ exists d, length G = 2 ^ S (S d).
Proof.
  intros E. apply inner_create_shape in E as (d & HG & HH & Hw & Hr & x & gm & T & EB & _).
  assert (P := pow2_pos d). rewrite !pow2_S in HG.
  repeat split; auto; [|lia|exists d; rewrite !pow2_S; auto].
  intros ->. rewrite C08_block_matrix_batch_panic in EB by auto. discriminate.
Qed.

(** for matrices of one common shape: the exact condition *)
Theorem C68_qesa_prover_returns_iff ro rng pos tr (G H : list Point) Q Ms m c w r' :
  Forall (rect m c) Ms ->
  let n := length G in
  let c1 := compress (lin (w ++ r') G) in
  let x := ro (q_hist_x tr c1) in
  let c2 := compress (lin (q_w'' n Ms x w r') H) in
  let s := ro (q_hist_s tr c1 c2) in
  let b := ro (q_hist_b tr c1 c2) in
  (exists out, inner_create ro rng pos tr G H Q (mkBlockMatrix Ms) w r' = Ok out) <->
  (exists d, n = 2 ^ S (S d)) /\ length H = n /\ length w = n - 2 /\ length r' = 2 /\
  1 <= length Ms /\ m = n - 2 /\ c = n - 2 /\
  exists m1 p1 m2 p2, sample_m_n_plus rng pos n = Ok (m1, p1) /\ sample_m_n_plus rng p1 n = Ok (m2, p2) /\
    alm_draws_ok (q_a n w r' s b) (q_bv n Ms x w r' s b) m1 m2.
Proof.
  intros HF n c1 x c2 s b.
  assert (K : (exists d, n = 2 ^ S (S d)) -> length H = n -> length w = n - 2 -> length r' = 2 -> 1 <= length Ms ->
    m = n - 2 -> c = n - 2 ->
    ((exists out, inner_create ro rng pos tr G H Q (mkBlockMatrix Ms) w r' = Ok out) <->
     exists m1 p1 m2 p2, sample_m_n_plus rng pos n = Ok (m1, p1) /\ sample_m_n_plus rng p1 n = Ok (m2, p2) /\
       alm_draws_ok (q_a n w r' s b) (q_bv n Ms x w r' s b) m1 m2)).
  { intros [d Hd] HH Hw Hr HM -> ->.
    assert (Hn : 3 <= n) by (rewrite Hd, !pow2_S; assert (P := pow2_pos d); lia).
    assert (E := inner_create_eq ro rng pos tr G H Q Ms w r' n Hn eq_refl HH Hw Hr HM HF). cbv zeta in E.
    fold c1 in E. fold x in E. fold c2 in E. fold s in E. fold b in E. rewrite E. clear E.
    rewrite <- (q_a_eq n w r' s b) by lia. rewrite <- (q_bv_eq n Ms x w r' s b).
    match goal with |- (exists out, bind ?X _ = Ok out) <-> _ => set (A := X) end.
    transitivity (exists r, A = Ok r).
    { split.
      - intros [out E]. apply bind_Ok_inv in E as (r & E & _). eauto.
      - intros [[[p t'] p'] E]. rewrite E. cbn [bind]. eauto. }
    unfold A. rewrite (C59_almzk_create_returns_iff _ _ _ _ _ _ _ _ _ _ _ n).
    2:{ now rewrite q_G_length. }
    2:{ auto. }
    2:{ apply tab_length. }
    2:{ apply tab_length. }
    split.
    - intros (d' & m1 & p1 & m2 & p2 & _ & R). exists m1, p1, m2, p2. exact R.
    - intros (m1 & p1 & m2 & p2 & R). exists (S d), m1, p1, m2, p2. split; auto. }
  split.
  - intros HO. assert (HO' := HO). destruct HO' as [out E].
    destruct (C68_qesa_prover_checks _ _ _ _ _ _ _ _ _ _ _ E) as (HM & _).
    apply inner_create_shape in E as (d & HG & HH & Hw & Hr & x' & gm & T & EB & Lg & (gp & EG & ET) & LT).
    assert (P := pow2_pos d). assert (Hn : 4 <= n) by (unfold n; rewrite HG, !pow2_S; lia).
    assert (HM1 : 1 <= length Ms) by (destruct Ms; [now destruct HM|cbn; lia]).
    destruct (C08_block_matrix_batch m c Ms (powers x' n)) as (N & EN & [RN1 RN2] & _); auto.
    { rewrite powers_length. lia. }
    unfold n in EN. rewrite EB in EN. injection EN as <-.
    assert (Hm : m = n - 2) by (unfold n; lia).
    assert (Hc : c = n - 2).
    { apply transpose_width in ET. unfold compute_gamma_prime in EG. inv_ok EG. injection EG as <-.
      destruct gm as [|row gm]; [cbn in Lg; unfold n in Hn; lia|]. cbn [map app nth] in ET. rewrite !app_length in ET.
      inversion RN2 as [|? ? Hrow _]. subst. cbn [length] in ET, LT, Lg. unfold n. lia. }
    assert (HH' : length H = n) by exact HH.
    assert (HG' : exists d0, n = 2 ^ S (S d0)) by (exists d; exact HG).
    assert (R := proj1 (K HG' HH' Hw Hr HM1 Hm Hc) HO). repeat (split; [assumption|]). exact R.
  - intros (Hd & HH & Hw & Hr & HM & Hm & Hc & R). exact (proj2 (K Hd HH Hw Hr HM Hm Hc) R).
Qed.

(** every violated condition is a panic, not an endless loop *)
Theorem C68_qesa_prover_rejects ro rng pos tr (G H : list Point) Q Ms w r' :
  Ms = [] \/ length H <> length G \/ length w + 2 <> length G \/ length r' <> 2 \/ (forall d, length G <> 2 ^ S (S d)) ->
  inner_create ro rng pos tr G H Q (mkBlockMatrix Ms) w r' = Panic.
Proof.
  intros Hb. assert (T := C57_qesa_prover_terminates ro rng pos tr G H Q (mkBlockMatrix Ms) w r').
  destruct (inner_create ro rng pos tr G H Q (mkBlockMatrix Ms) w r') as [out| |] eqn:E; [exfalso|auto|now destruct T].
  apply C68_qesa_prover_checks in E as (A1 & A2 & A3 & A4 & d & A5).
  destruct Hb as [B|[B|[B|[B|B]]]]; auto. now apply (B d).
Qed.

(** the zero-knowledge wrapper: two scalars are drawn first, everything else as above *)
Theorem C68_zk_prover_returns_iff ro rng pos tr (G H : list Point) Q g w :
  (exists out, zk_create ro rng pos tr G H Q g w = Ok out) <->
  (exists out, inner_create ro rng (pos + 2) tr G H Q g w [rng pos; rng (pos + 1)] = Ok out).
Proof.
  unfold zk_create. replace (S (S pos)) with (pos + 2) by lia. replace (S pos) with (pos + 1) by lia. split.
  - intros [out E]. apply bind_Ok_inv in E as (r & E & _). eauto.
  - intros [[[p t'] p'] E]. rewrite E. cbn [bind]. eauto.
Qed.
Theorem C68_zk_prover_rejects ro rng pos tr (G H : list Point) Q Ms w :
  Ms = [] \/ length H <> length G \/ length w + 2 <> length G \/ (forall d, length G <> 2 ^ S (S d)) ->
  zk_create ro rng pos tr G H Q (mkBlockMatrix Ms) w = Panic.
Proof.
  intros Hb. unfold zk_create. rewrite C68_qesa_prover_rejects; [reflexivity|]. destruct Hb as [B|[B|[B|B]]]; auto.
Qed.

(** ** the copy prover *)
Theorem C68_copy_prover_checks ro rng pos tr (G H : list Point) Q mp Ms w openings out :
  copy_create ro rng pos tr G H Q mp (mkBlockMatrix Ms) w openings = Ok out ->
  num_commitments mp = length openings /\ 1 <= length openings /\
  (exists w', w = s1 :: w') /\ length w + 2 <= length G /\ length H = length G /\ exists d, length G = 2 ^ S (S d).
Proof.
  intros E. unfold copy_create, challenge_scalar in E. cbv zeta in E.
  inv_ok E. apply assertb_Ok, Nat.eqb_eq in E0.
  inv_ok E. inv_ok E. apply assertb_Ok in E2. apply seqb_eq in E2. subst v0.
  inv_ok E. apply usub_Ok in E2 as [A1 ->]. inv_ok E. apply usub_Ok in E2 as [A2 _].
  do 2 (inv_ok E; clear E2). inv_ok E. apply vandemonde_challenge_Ok_inv in E2 as [A3 _].
  do 4 (inv_ok E; clear E2). inv_ok E. clear E2. match type of E with context [inner_create _ _ _ _ _ _ _ ?g] => destruct g as [Ms'] end.
  inv_ok E. clear E2. match type of E with (let '(_, _) := ?p in _) = _ => destruct p as [w2 r2] end. inv_ok E.
  apply C68_qesa_prover_checks in E2 as (_ & B1 & _ & _ & d & B2).
  split; [exact E0|]. split; [exact A3|]. split.
  { apply idx_Ok in E1. destruct w as [|w0 w']; [discriminate|]. cbn in E1. injection E1 as ->. now exists w'. }
  split; [lia|]. split; [exact B1|]. now exists d.
Qed.

Theorem C68_copy_prover_rejects ro rng pos tr (G H : list Point) Q mp Ms w openings :
  num_commitments mp <> length openings \/ openings = [] \/ w = [] \/ sc w 0 <> s1 \/ length G < length w + 2 \/
  length H <> length G \/ (forall d, length G <> 2 ^ S (S d)) ->
  copy_create ro rng pos tr G H Q mp (mkBlockMatrix Ms) w openings = Panic.
Proof.
  intros Hb. assert (T := C57_copy_prover_terminates ro rng pos tr G H Q mp (mkBlockMatrix Ms) w openings).
  destruct (copy_create ro rng pos tr G H Q mp (mkBlockMatrix Ms) w openings) as [out| |] eqn:E; [exfalso|auto|now destruct T].
  apply C68_copy_prover_checks in E as (A1 & A2 & (w' & ->) & A4 & A5 & d & A6).
  destruct Hb as [B|[B|[B|[B|[B|[B|B]]]]]]; auto.
  - subst openings. cbn in A2. lia.
  - discriminate.
  - lia.
  - now apply (B d).
Qed.

(** for a mapping as [compute_mapping] makes it, and as many messages as it places: exact *)
Theorem C68_copy_prover_returns_iff ro rng pos tr (G H : list Point) Q mp Ms w openings :
  let n := length G in
  let msgs := concat (map fst openings) in
  good_map n (length openings) mp ->
  (forall m, In m (msgs_map mp) -> length w <= mpos m) -> length msgs = length (msgs_map mp) ->
  Forall (rect (n - 2) (n - 2)) Ms -> 1 <= length Ms ->
  let cw := compress (lin (tab (n - 2) (cp_placed mp w msgs) ++ [rng pos; rng (pos + 1)]) G) in
  let alpha := ro (cp_hist tr cw) in
  let Ms' := cp_system n mp alpha Ms in
  let w' := cp_witness n mp w msgs alpha in
  let r' := [rng pos; (rng (pos + 1)%nat + cp_rand openings alpha)%S] in
  let c1 := compress (lin (w' ++ r') G) in
  let x := ro (q_hist_x (cp_hist tr cw) c1) in
  let c2 := compress (lin (q_w'' n Ms' x w' r') H) in
  let s := ro (q_hist_s (cp_hist tr cw) c1 c2) in
  let b := ro (q_hist_b (cp_hist tr cw) c1 c2) in
  (exists out, copy_create ro rng pos tr G H Q mp (mkBlockMatrix Ms) w openings = Ok out) <->
  num_commitments mp = length openings /\ 1 <= length openings /\
  (1 <= length w <= n - 2) /\ sc w 0 = s1 /\ length H = n /\ (exists d, n = 2 ^ S (S d)) /\
  exists m1 p1 m2 p2, sample_m_n_plus rng (pos + 2) n = Ok (m1, p1) /\ sample_m_n_plus rng p1 n = Ok (m2, p2) /\
    alm_draws_ok (q_a n w' r' s b) (q_bv n Ms' x w' r' s b) m1 m2.
Proof.
  intros n msgs HM Hpw Hms HF HM1 cw alpha Ms' w' r' c1 x c2 s b.
  assert (K : num_commitments mp = length openings -> 1 <= length openings -> 1 <= length w <= n - 2 -> sc w 0 = s1 ->
    length H = n -> (exists d, n = 2 ^ S (S d)) ->
    ((exists out, copy_create ro rng pos tr G H Q mp (mkBlockMatrix Ms) w openings = Ok out) <->
     exists m1 p1 m2 p2, sample_m_n_plus rng (pos + 2) n = Ok (m1, p1) /\ sample_m_n_plus rng p1 n = Ok (m2, p2) /\
       alm_draws_ok (q_a n w' r' s b) (q_bv n Ms' x w' r' s b) m1 m2)).
  { intros H1 H2 [H3 H3'] H4 H5 [d Hd].
    assert (Hn : 3 <= n) by (rewrite Hd, !pow2_S; assert (P := pow2_pos d); lia).
    assert (E := copy_create_eq ro rng pos tr G H Q mp Ms w openings n Hn eq_refl HM H1 H2 H3 H3' H4 Hpw Hms). cbv zeta in E.
    fold msgs in E. fold cw in E. fold alpha in E. fold Ms' in E. fold w' in E. fold r' in E. rewrite E. clear E.
    match goal with |- (exists out, bind ?X _ = Ok out) <-> _ => set (A := X) end.
    transitivity (exists r, A = Ok r).
    { split.
      - intros [out E]. apply bind_Ok_inv in E as (r & E & _). eauto.
      - intros [[[p t'] p'] E]. rewrite E. cbn [bind]. eauto. }
    unfold A. assert (R := C68_qesa_prover_returns_iff ro rng (pos + 2) (cp_hist tr cw) G H Q Ms' (n - 2) (n - 2) w' r').
    cbv zeta in R. rewrite R by (now apply cp_system_rect). clear R. split.
    - intros (_ & _ & _ & _ & _ & _ & _ & R). exact R.
    - intros R. split; [now exists d|]. split; [exact H5|]. split; [apply tab_length|]. split; [reflexivity|].
      split; [unfold Ms', cp_system; rewrite app_length; lia|]. split; [reflexivity|]. split; [reflexivity|]. exact R. }
  split.
  - intros HO. destruct HO as [out E]. assert (HO := ex_intro (fun o => _ = Ok o) out E : exists o, _ = Ok o).
    apply C68_copy_prover_checks in E as (A1 & A2 & (wt & A3) & A4 & A5 & A6).
    assert (B1 : 1 <= length w <= n - 2) by (rewrite A3 in *; cbn [length] in *; unfold n; lia).
    assert (B2 : sc w 0 = s1) by (rewrite A3; reflexivity).
    assert (R := proj1 (K A1 A2 B1 B2 A5 A6) HO). repeat (split; [assumption|]). exact R.
  - intros (H1 & H2 & H3 & H4 & H5 & H6 & R). exact (proj2 (K H1 H2 H3 H4 H5 H6) R).
Qed.
End C68.

(** each check on its own: the first run of each list is accepted, the others break one
    condition. The last run has one message too few: the copy prover does not notice. *)
Example C68_case :
  let inn G H Ms w r := rmap (fun _ => tt) (inner_create ro1 rng1 0 [] G H (pN 17) (mkBlockMatrix Ms) w r) in
  let M k c := mat k c (fun i j => sN (Z.of_nat (i + 2 * j + 1))) in
  inn G4 H4 [M 2 2] [sN 1; sN 3] [sN 5; sN 6] = Ok tt /\
  inn G4 H4 [] [sN 1; sN 3] [sN 5; sN 6] = Panic /\
  inn G4 H4 [M 3 2] [sN 1; sN 3] [sN 5; sN 6] = Panic /\
  inn G4 H4 [M 2 3] [sN 1; sN 3] [sN 5; sN 6] = Panic /\
  inn G4 H4 [M 2 2] [sN 1; sN 3; sN 5] [sN 6] = Panic /\
  inn G4 H4 [M 2 2] [sN 1] [sN 3; sN 5; sN 6] = Panic /\
  inn G4 (firstn 3 H4) [M 2 2] [sN 1; sN 3] [sN 5; sN 6] = Panic /\
  inn (firstn 3 G4) (firstn 3 H4) [M 1 1] [sN 1] [sN 5; sN 6] = Panic /\
  inn (firstn 2 G4) (firstn 2 H4) [M 0 0] [] [sN 5; sN 6] = Panic.
Proof. vm_compute. repeat split. Qed.

Example C68_case_copy :
  let M := [mat 6 6 (fun i j => if i =? 0 then nth j (map sN [0; 1; -1; 0; 0; 0]%Z) (sN 0) else sN 0)] in
  let sets := [[3]; [3]]%N in
  let run G H w ops := rmap (fun _ => tt)
    (mp <- compute_mapping 8%N 2%N sets ;; copy_create ro1 rng1 0 [] G H (pN 17) mp (mkBlockMatrix M) w ops) in
  let o1 := ([sN 7], sN 100) in let o2 := ([sN 9], sN 200) in
  run G8 H8 [sN 1; sN 7] [o1; o2] = Ok tt /\
  run G8 H8 [sN 2; sN 7] [o1; o2] = Panic /\
  run G8 H8 [] [o1; o2] = Panic /\
  run G8 H8 [sN 1; sN 7] [o1] = Panic /\
  run G8 H8 [sN 1; sN 7] [o1; o2; o2] = Panic /\
  run G8 H8 (sN 1 :: map sN [2; 3; 4; 5; 6; 7]%Z) [o1; o2] = Panic /\
  run G8 (firstn 7 H8) [sN 1; sN 7] [o1; o2] = Panic /\
  run (firstn 7 G8) (firstn 7 H8) [sN 1; sN 7] [o1; o2] = Panic /\
  run G8 H8 [sN 1; sN 7] [o1; ([], sN 200)] = Ok tt.
Proof. vm_compute. repeat split. Qed.
