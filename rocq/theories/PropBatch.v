(** Row batching of the linear-map argument and Pedersen commitments: C62, C63 *)
From Coq Require Import String.
From Verif Require Import LmpaBatch LmpaFacts Poly KaryFacts PropLmpa PropSimpleZK PropMapping Ex.
Local Open Scope nat_scope.
Local Open Scope list_scope.

(** ** C62 *)
Section C62.
Context {C : Crypto} {L : CryptoLaws C}.
Add Field SfC62 : (@S_field C L).

(** polynomials with point coefficients *)
Fixpoint ppeval (c : list Point) (x : Scalar) : Point :=
  match c with [] => p0 | a :: c' => (a + x *: ppeval c' x)%P end.
Fixpoint ppquot (c : list Point) (r : Scalar) : list Point :=
  match c with [] => [] | [a] => [] | a :: c' => ppeval c' r :: ppquot c' r end.
Lemma ppquot_length c r : length (ppquot c r) = length c - 1.
Proof.
  induction c as [|a [|b c] IH]; auto. change (ppquot (a :: b :: c) r) with (ppeval (b :: c) r :: ppquot (b :: c) r).
  cbn [length] in *. lia.
Qed.
Lemma ppquot_eval c r x : (ppeval c x = ppeval c r + (x - r)%S *: ppeval (ppquot c r) x)%P.
Proof.
  induction c as [|a [|b c] IH].
  - cbn. pring.
  - cbn. pring.
  - change (ppquot (a :: b :: c) r) with (ppeval (b :: c) r :: ppquot (b :: c) r).
    change (ppeval (a :: b :: c) x) with (a + x *: ppeval (b :: c) x)%P.
    change (ppeval (a :: b :: c) r) with (a + r *: ppeval (b :: c) r)%P.
    change (ppeval (ppeval (b :: c) r :: ppquot (b :: c) r) x)
      with (ppeval (b :: c) r + x *: ppeval (ppquot (b :: c) r) x)%P.
    rewrite IH at 1. pring.
Qed.
Lemma ppquot_zero c r : Forall (fun a => a = p0) (ppquot c r) -> ppeval c r = p0 -> Forall (fun a => a = p0) c.
Proof.
  induction c as [|a [|b c] IH]; intros H E; auto.
  - constructor; auto. cbn in E. rewrite <- E. pring.
  - change (ppquot (a :: b :: c) r) with (ppeval (b :: c) r :: ppquot (b :: c) r) in H.
    assert (H1 := Forall_inv H). assert (H2 := Forall_inv_tail H). cbv beta in H1. constructor; [|now apply IH].
    change (ppeval (a :: b :: c) r) with (a + r *: ppeval (b :: c) r)%P in E. rewrite H1 in E.
    rewrite <- E. pring.
Qed.
Lemma ppoly_zero : forall (xs : list Scalar) (c : list Point), NoDup xs -> length c <= length xs ->
  (forall x, In x xs -> ppeval c x = p0) -> Forall (fun a => a = p0) c.
Proof.
  induction xs as [|r xs IH]; intros c HN Hl H.
  - destruct c; auto. cbn in Hl. lia.
  - inversion HN as [|? ? Hr HN']; subst. apply (ppquot_zero c r).
    + apply IH; auto.
      * rewrite ppquot_length. cbn in Hl. lia.
      * intros x Hx. assert (E := ppquot_eval c r x).
        rewrite (H x) in E by now right. rewrite (H r) in E by now left.
        assert (Z : ((x - r)%S *: ppeval (ppquot c r) x = p0)%P).
        { transitivity (p0 + (x - r)%S *: ppeval (ppquot c r) x)%P; [pring|auto]. }
        apply pmul_eq_0 in Z as [Z|Z]; auto. apply ssub_0 in Z. subst. contradiction.
    + apply H. now left.
Qed.
Lemma ppeval_sum c x : ppeval c x = sum_P (length c) (fun i => spow x i *: pt c i)%P.
Proof.
  induction c as [|a c IH]; [reflexivity|]. cbn [length]. rewrite sum_P_shift. cbn [ppeval]. rewrite IH.
  rewrite <- sum_P_mul. f_equal; [unfold pt; cbn; pring|]. apply sum_P_ext. intros i Hi. unfold pt. cbn. pring.
Qed.

(** column j of the batched row is sum_i y^i A_ij *)
Theorem C62_batch_row_value m n (A : list (list Point)) (y : Scalar) : 1 <= m -> rect m n A ->
  batch_row A y m = Ok (tab n (fun j => sum_P m (fun i => spow y i *: pent A i j)%P)).
Proof.
  intros Hm HA. unfold batch_row. rewrite vandemonde_vector_eq by auto. cbn [bind].
  rewrite (matrixpoint_transpose_rect m n) by auto. cbn [bind]. f_equal.
  rewrite (pmv_lin n m) by (auto using mat_rect, powers0_length).
  unfold pmv, mat, tab at 1. rewrite map_map. apply map_ext. intros j. unfold comb. rewrite powers0_length.
  apply sum_P_ext. intros i Hi. rewrite powers0_nth by auto. f_equal. unfold pt. now rewrite tab_nth.
Qed.
Lemma batch_comb m n (A : list (list Point)) (y : Scalar) w : rect m n A -> length w = n ->
  comb w (tab n (fun j => sum_P m (fun i => spow y i *: pent A i j)%P))
  = sum_P m (fun i => spow y i *: pt (pmv A w) i)%P.
Proof.
  intros [HA1 HA2] Hw. unfold comb at 1. rewrite Hw.
  transitivity (sum_P n (fun j => sum_P m (fun i => (sc w j * spow y i)%S *: pent A i j))%P).
  { apply sum_P_ext. intros j Hj. unfold pt at 1. rewrite tab_nth by auto. rewrite <- sum_P_mul.
    apply sum_P_ext. intros i Hi. pring. }
  rewrite sum_P_swap. apply sum_P_ext. intros i Hi.
  replace (pt (pmv A w) i) with (comb w (nth i A [])).
  - unfold comb. rewrite Hw, <- sum_P_mul. apply sum_P_ext. intros j Hj. unfold pent. pring.
  - unfold pt, pmv. rewrite (nth_indep _ p0 (comb w [])) by (rewrite map_length; lia).
    now rewrite (map_nth (fun row => comb w row)).
Qed.
(** batching sends A w to the same combination of its entries *)
Theorem C62_batch_row_equation m n (A : list (list Point)) (y : Scalar) (w : list Scalar) : 1 <= m -> rect m n A ->
  length w = n -> exists row, batch_row A y m = Ok row /\ length row = n /\
    comb w row = sum_P m (fun i => spow y i *: pt (pmv A w) i)%P.
Proof.
  intros Hm HA Hw. eexists. split; [now apply (C62_batch_row_value m n)|].
  split; [apply tab_length|now apply batch_comb].
Qed.
(** the batched equation at m distinct y is equivalent to A w = t *)
Theorem C62_batching_sound m n (A : list (list Point)) (w : list Scalar) (t : list Point) (ys : list Scalar) :
  1 <= m -> rect m n A -> length w = n -> length t = m -> NoDup ys -> m <= length ys ->
  ((forall y, In y ys -> exists row, batch_row A y m = Ok row /\
      comb w row = sum_P m (fun i => spow y i *: pt t i)%P) <-> pmv A w = t).
Proof.
  intros Hm HA Hw Ht HN Hl. split.
  - intros H.
    assert (Z : Forall (fun a => a = p0) (tab m (fun i => pt (pmv A w) i - pt t i)%P)).
    { apply (ppoly_zero ys); auto; [now rewrite tab_length|]. intros y Hy.
      destruct (H y Hy) as (row & E1 & E2). rewrite (C62_batch_row_value m n) in E1 by auto.
      injection E1 as <-. rewrite (batch_comb m n) in E2 by auto.
      rewrite ppeval_sum, tab_length.
      transitivity (sum_P m (fun i => spow y i *: pt (pmv A w) i)
                    + (- s1)%S *: sum_P m (fun i => spow y i *: pt t i))%P.
      - rewrite <- sum_P_mul, <- sum_P_add. apply sum_P_ext. intros i Hi. unfold pt at 1.
        rewrite tab_nth by auto. pring.
      - rewrite E2. pring. }
    assert (Hlen : length (pmv A w) = m) by (unfold pmv; rewrite map_length; apply HA).
    apply (nth_ext _ _ p0 p0); [lia|]. intros i Hi. rewrite Hlen in Hi.
    rewrite Forall_forall in Z. change (pt (pmv A w) i = pt t i).
    assert (Zi : (pt (pmv A w) i - pt t i = p0)%P).
    { apply Z. rewrite <- (tab_nth m (fun i => pt (pmv A w) i - pt t i)%P i p0) by auto.
      apply nth_In. now rewrite tab_length. }
    transitivity ((pt (pmv A w) i - pt t i) + pt t i)%P; [pring|]. rewrite Zi. pring.
  - intros <- y _. eexists. split; [now apply (C62_batch_row_value m n)|]. now apply batch_comb.
Qed.
(** so when A w <> t fewer than m values of y satisfy the batched equation *)
Corollary C62_bad_challenges m n (A : list (list Point)) (w : list Scalar) (t : list Point) (ys : list Scalar) :
  1 <= m -> rect m n A -> length w = n -> length t = m -> NoDup ys -> pmv A w <> t ->
  (forall y, In y ys -> exists row, batch_row A y m = Ok row /\
      comb w row = sum_P m (fun i => spow y i *: pt t i)%P) -> length ys < m.
Proof.
  intros Hm HA Hw Ht HN Hne H. destruct (le_lt_dec m (length ys)) as [Hl|]; auto.
  exfalso. apply Hne. now apply (C62_batching_sound m n A w t ys).
Qed.

(** the target is left as it is: [t] is transposed into a column and zipped with
    the first power y^0 = 1 only *)
Theorem C62_target_not_batched (t : list Point) (y : Scalar) m : 1 <= m -> batch_target t y m = Ok t.
Proof.
  intros Hm. unfold batch_target. rewrite vandemonde_vector_eq by auto. cbn [bind].
  rewrite (matrixpoint_transpose_rect 1 (length t)) by (auto; split; auto). cbn [bind]. f_equal.
  rewrite mpv_lin. unfold mat. unfold tab at 1. rewrite map_map.
  apply (nth_ext _ _ p0 p0); [now rewrite map_length, seq_length|].
  intros j Hj. rewrite map_length, seq_length in Hj.
  change (nth j (tab (length t) (fun j => lin (powers0 y m) (tab 1 (fun i => pent [t] i j)))) p0 = nth j t p0).
  rewrite tab_nth by auto. destruct m as [|m]; [lia|]. unfold powers0, tab. cbn. unfold pent, pt. cbn.
  replace (lin _ []) with p0 by (destruct (map _ _); reflexivity). pring.
Qed.

(** test_lmpa_simple_zk_create_verify_efficient_communication passes for all
    draws and every number of columns that is a power of two *)
Theorem C62_efficient_communication_passes (ro : oracle) (rng : nat -> Scalar) pos tr (G H : list Point) (Q : Point)
    (y : Scalar) (A : list (list Point)) (w : list Scalar) d m :
  1 <= m -> rect m (2 ^ d) A -> length G = 2 ^ d -> length w = 2 ^ d ->
  test_efficient_communication ro rng pos tr G H Q y A w (2 ^ d) m = Ok true.
Proof.
  intros Hm HA HG Hw. unfold test_efficient_communication.
  rewrite (C62_batch_row_value m (2 ^ d)) by auto. cbn [bind].
  set (row := tab _ _). assert (Hrow : length row = 2 ^ d) by apply tab_length.
  rewrite C62_target_not_batched by auto. cbn [bind].
  assert (HR : rect 1 (2 ^ d) [row]) by (split; auto).
  destruct (C40_simple_zk_completeness ro rng pos tr d 1 [row] G H Q w) as (p & tr' & E & V); auto.
  rewrite E. cbn [bind]. rewrite (pmv_lin 1 (2 ^ d)) by auto. now rewrite V.
Qed.
(** and so does test_lmpa_batch when n + 1 is a power of two *)
Theorem C62_lmpa_batch_passes (ro : oracle) (rng : nat -> Scalar) pos tr (G H : list Point) (Q : Point)
    (y : Scalar) (G0 : Point) (A : list (list Point)) (w : list Scalar) (r_w : Scalar) d n m :
  n + 1 = 2 ^ d -> 1 <= m -> rect m n A -> length G = n -> length w = n ->
  test_lmpa_batch ro rng pos tr G H Q y G0 A w r_w n m = Ok true.
Proof.
  intros Hn Hm HA HG Hw. unfold test_lmpa_batch.
  rewrite (C62_batch_row_value m n) by auto. cbn [bind].
  set (row := tab _ _). assert (Hrow : length row = n) by apply tab_length.
  rewrite (proj1 (C48_pedersen_value _ _ _ _)) by lia. cbn [bind].
  rewrite C62_target_not_batched by auto. cbn [bind]. change (idx (batch_matrix G0 G row) 0) with (Ok (G0 :: G)). cbn [bind].
  assert (HR : rect 2 (2 ^ d) (batch_matrix G0 G row)).
  { split; auto. repeat constructor; cbn [length]; lia. }
  destruct (C40_simple_zk_completeness ro rng pos tr d 2 (batch_matrix G0 G row) (G0 :: G) H Q (r_w :: w))
    as (p & tr' & E & V); auto; try (cbn [length]; lia).
  rewrite E. cbn [bind]. rewrite (pmv_lin 1 n) by (auto; split; auto). rewrite Hn.
  assert (Eu : (comb w G + r_w *: G0)%P :: pmv [row] w = pmv (batch_matrix G0 G row) (r_w :: w)).
  2:{ rewrite Eu, V. reflexivity. }
  assert (E1 : forall P l, comb (r_w :: w) (P :: l) = (comb w l + r_w *: P)%P).
  { intros P l. unfold comb. cbn [length]. rewrite sum_P_shift.
    change (sc (r_w :: w) 0) with r_w. change (pt (P :: l) 0) with P.
    change (fun i => (sc (r_w :: w) (S i) *: pt (P :: l) (S i))%P) with (fun i => (sc w i *: pt l i)%P). pring. }
  unfold pmv, batch_matrix. cbn [map]. rewrite !E1. repeat f_equal; pring.
Qed.
(** FINDING: the batched equation is row 1 of B, which verify never looks at: the
    same run accepts every value in its place, so the test only proves knowledge
    of an opening of c_w *)
Theorem C62_batched_equation_not_checked (ro : oracle) (rng : nat -> Scalar) pos tr (G H : list Point) (Q : Point)
    (y : Scalar) (G0 : Point) (A : list (list Point)) (w : list Scalar) (r_w : Scalar) d n m (t' : list Point) :
  n + 1 = 2 ^ d -> 1 <= m -> rect m n A -> length G = n -> length w = n ->
  exists row c_w proof tr', batch_row A y m = Ok row /\ pedersen_commit G0 G w r_w = Ok c_w /\
    simple_zk_create ro rng pos tr (batch_matrix G0 G row) (G0 :: G) H Q (r_w :: w) = Ok (proof, tr') /\
    simple_zk_verify ro tr proof (batch_matrix G0 G row) (G0 :: G) H Q (n + 1) (c_w :: t') = Ok (true, tr').
Proof.
  intros Hn Hm HA HG Hw. eexists. eexists.
  assert (E0 := C62_batch_row_value m n A y Hm HA). revert E0.
  set (row := tab _ _). intros E0. assert (Hrow : length row = n) by apply tab_length.
  assert (HR : rect 2 (2 ^ d) (batch_matrix G0 G row)).
  { split; auto. repeat constructor; cbn [length]; lia. }
  destruct (C40_simple_zk_completeness ro rng pos tr d 2 (batch_matrix G0 G row) (G0 :: G) H Q (r_w :: w))
    as (p & tr' & E & V); auto; try (cbn [length]; lia).
  exists p, tr'. split; [exact E0|]. split; [apply C48_pedersen_value; lia|]. split; [exact E|].
  rewrite Hn. rewrite <- V. unfold pmv, batch_matrix. cbn [map].
  replace (comb (r_w :: w) (G0 :: G)) with (comb w G + r_w *: G0)%P.
  - apply C38_simple_zk_only_first_row.
  - unfold comb. cbn [length]. rewrite sum_P_shift.
    change (sc (r_w :: w) 0) with r_w. change (pt (G0 :: G) 0) with G0.
    change (fun i => (sc (r_w :: w) (S i) *: pt (G0 :: G) (S i))%P) with (fun i => (sc w i *: pt G i)%P). pring.
Qed.
End C62.

(** A = [[1 2 3];[4 5 6]], w = (1,10,100), y = 7: A w = (321, 654), and row 7 -> (29,37,45) *)
Example C62_case :
  let A := [[pN 1; pN 2; pN 3]; [pN 4; pN 5; pN 6]] in
  let w := [sN 1; sN 10; sN 100] in
  rmap (map zp) (batch_row A (sN 7) 2) = Ok [29; 37; 45]%Z /\
  zp (comb w [pN 29; pN 37; pN 45]) = (321 + 7 * 654)%Z /\
  map zp (pmv A w) = [321; 654]%Z /\
  rmap (map zp) (batch_target (pmv A w) (sN 7) 2) = Ok [321; 654]%Z /\
  test_lmpa_batch (fun h => sN (Z.of_nat (length h) + 5)) rngA 0 [] [pN 11; pN 12; pN 13] [] (pN 0) (sN 7)
     (pN 10) A w (sN 9) 3 2 = Ok true /\
  test_efficient_communication (fun h => sN (Z.of_nat (length h) + 5)) rngA 0 [] [pN 11; pN 12] [] (pN 0) (sN 7)
     [[pN 1; pN 2]; [pN 4; pN 5]] [sN 1; sN 10] 2 2 = Ok true /\
  (* n + 1 = 3 is not a power of two *)
  test_lmpa_batch (fun h => sN (Z.of_nat (length h) + 5)) rngA 0 [] [pN 11; pN 12] [] (pN 0) (sN 7)
     (pN 10) [[pN 1; pN 2]; [pN 4; pN 5]] [sN 1; sN 10] (sN 9) 2 2 <> Ok true.
Proof. vm_compute. repeat split; auto; discriminate. Qed.

(** ** C63 *)
Section C63.
Context {C : Crypto} {L : CryptoLaws C}.
Add Field SfC63 : (@S_field C L).

(** H generates the group *)
Definition generates (H : Point) : Prop := H <> p0 /\ forall P, exists s, P = (s *: H)%P.
Lemma generates_inj H s s' : H <> p0 -> (s *: H = s' *: H)%P -> s = s'.
Proof.
  intros HH E. assert (Z : ((s - s')%S *: H = p0)%P).
  { transitivity (s *: H - s' *: H)%P; [pring|]. rewrite E. pring. }
  apply pmul_eq_0 in Z as [Z|Z]; [now apply ssub_0|contradiction].
Qed.

(** perfect hiding: for every message exactly one blinding opens a given point *)
Theorem C63_pedersen_hiding (H : Point) (G : list Point) (c : Point) (msg : list Scalar) :
  generates H -> length msg = length G ->
  exists r, pedersen_commit H G msg r = Ok c /\ forall r', pedersen_commit H G msg r' = Ok c -> r' = r.
Proof.
  intros [HH Hgen] Hl. destruct (Hgen (c - comb msg G)%P) as [r Er]. exists r.
  rewrite (proj1 (C48_pedersen_value _ _ _ _)) by auto. split.
  - f_equal. rewrite <- Er. pring.
  - intros r' E'. rewrite (proj1 (C48_pedersen_value _ _ _ _)) in E' by auto. injection E' as E'.
    apply (generates_inj H); auto. rewrite <- Er, <- E'. pring.
Qed.
(** binding: two different openings give a non-trivial relation between the
    generators, and such a relation gives two openings of every commitment *)
Theorem C63_pedersen_binding (H : Point) (G : list Point) (m1 m2 : list Scalar) (r1 r2 : Scalar) c :
  pedersen_commit H G m1 r1 = Ok c -> pedersen_commit H G m2 r2 = Ok c -> (m1, r1) <> (m2, r2) ->
  let g := map2 ssub m1 m2 in
  length g = length G /\ (comb g G + (r1 - r2)%S *: H = p0)%P /\
  ~ ((forall i, i < length G -> sc g i = s0) /\ (r1 - r2)%S = s0).
Proof.
  intros E1 E2 Hne g.
  destruct (Nat.eq_dec (length m1) (length G)) as [H1|H1];
    [|rewrite (proj2 (C48_pedersen_value _ _ _ _) H1) in E1; discriminate].
  destruct (Nat.eq_dec (length m2) (length G)) as [H2|H2];
    [|rewrite (proj2 (C48_pedersen_value _ _ _ _) H2) in E2; discriminate].
  rewrite (proj1 (C48_pedersen_value _ _ _ _) H1) in E1. rewrite (proj1 (C48_pedersen_value _ _ _ _) H2) in E2.
  assert (Hg : length g = length G) by (unfold g; rewrite map2_length; lia).
  assert (Hn : forall i, i < length G -> sc g i = (sc m1 i - sc m2 i)%S).
  { intros i Hi. unfold g, sc. rewrite (map2_nth _ _ _ _ s0 s0) by lia. reflexivity. }
  split; [auto|]. split.
  - injection E1 as E1. injection E2 as E2.
    assert (Ec : comb g G = (comb m1 G - comb m2 G)%P).
    { transitivity (comb m1 G + (- s1)%S *: comb m2 G)%P; [|pring].
      unfold comb. rewrite Hg, H1, H2, <- sum_P_mul, <- sum_P_add. apply sum_P_ext. intros i Hi.
      rewrite Hn by auto. pring. }
    rewrite Ec. transitivity ((comb m1 G + r1 *: H) - (comb m2 G + r2 *: H))%P; [pring|].
    rewrite E1, E2. pring.
  - intros [Z1 Z2]. apply Hne. f_equal; [|now apply ssub_0].
    apply (nth_ext _ _ s0 s0); [lia|]. intros i Hi. apply ssub_0.
    transitivity (sc g i); [symmetry; apply Hn; lia|apply Z1; lia].
Qed.
(** conversely every relation turns any opening into a second one *)
Theorem C63_relation_equivocates (H : Point) (G : list Point) (g msg : list Scalar) (h r : Scalar) c :
  length g = length G -> (comb g G + h *: H = p0)%P -> pedersen_commit H G msg r = Ok c ->
  pedersen_commit H G (map2 sadd msg g) (r + h)%S = Ok c.
Proof.
  intros Hg Z E.
  destruct (Nat.eq_dec (length msg) (length G)) as [Hl|Hl];
    [|rewrite (proj2 (C48_pedersen_value _ _ _ _) Hl) in E; discriminate].
  rewrite (proj1 (C48_pedersen_value _ _ _ _) Hl) in E. injection E as <-.
  assert (Hm : length (map2 sadd msg g) = length G) by (rewrite map2_length; lia).
  rewrite (proj1 (C48_pedersen_value _ _ _ _)) by auto. f_equal.
  assert (Ec : comb (map2 sadd msg g) G = (comb msg G + comb g G)%P).
  { unfold comb. rewrite Hm, Hl, Hg, <- sum_P_add. apply sum_P_ext. intros i Hi.
    unfold sc at 1. rewrite (map2_nth _ _ _ _ s0 s0) by lia. unfold sc. pring. }
  rewrite Ec. transitivity ((comb msg G + r *: H) + (comb g G + h *: H))%P; [pring|]. rewrite Z. pring.
Qed.

Lemma bounded_dec K (f : nat -> Scalar) :
  (exists j, j < K /\ f j <> s0) \/ (forall j, j < K -> f j = s0).
Proof.
  induction K as [|K [(j & Hj & Hn)|IH]]; [right; lia|left; exists j; auto|].
  destruct (S_eq_dec (f K) s0) as [E|E]; [right|left; eauto].
  intros j Hj. destruct (Nat.eq_dec j K) as [->|]; auto. apply IH. lia.
Qed.
(** the commitments of the copy argument (src/copy/mapping.rs: commit) are blinded
    by the last generator *)
Definition commit_ok (G : list Point) (ix : list N) (msg : list Scalar) : Prop :=
  length ix = length msg /\ (forall i, In i ix -> N.to_nat i < length G) /\ 1 <= length G.
Lemma commit_Ok_inv G ix msg r c : commit G ix msg r = Ok c ->
  commit_ok G ix msg /\ c = commit_value G ix msg r.
Proof.
  intros E. destruct (C33_commit_value G ix msg r) as [Y Nn].
  assert (D : commit_ok G ix msg \/ ~ commit_ok G ix msg).
  { unfold commit_ok.
    destruct (Nat.eq_dec (length ix) (length msg)) as [Hl|Hl]; [|right; tauto].
    destruct (le_dec 1 (length G)) as [HG|HG]; [|right; tauto].
    destruct (Forall_Exists_dec (fun i => N.to_nat i < length G) (fun i => lt_dec _ _) ix) as [Hi|Hi].
    - left. rewrite Forall_forall in Hi. auto.
    - right. intros (_ & Hall & _). apply Exists_exists in Hi as (i & Hin & Hc). auto. }
  destruct D as [D|D]; [|rewrite Nn in E by exact D; discriminate].
  split; auto. rewrite Y in E by exact D. congruence.
Qed.
Theorem C63_commit_hiding (G : list Point) (ix : list N) (msg : list Scalar) (c : Point) :
  length ix = length msg -> (forall i, In i ix -> N.to_nat i < length G) -> 1 <= length G ->
  generates (pt G (length G - 1)) ->
  exists r, commit G ix msg r = Ok c /\ forall r', commit G ix msg r' = Ok c -> r' = r.
Proof.
  intros Hl Hi HG [HH Hgen].
  set (v := sum_P (length ix) (fun j => sc msg j *: pt G (N.to_nat (nth j ix 0%N)))%P).
  destruct (Hgen (c - v)%P) as [r Er]. exists r. split.
  - rewrite (proj1 (C33_commit_value G ix msg r)) by (repeat split; auto).
    f_equal. unfold commit_value. fold v. rewrite <- Er. pring.
  - intros r' E'. rewrite (proj1 (C33_commit_value G ix msg r')) in E' by (repeat split; auto).
    injection E' as E'. apply (generates_inj (pt G (length G - 1))); auto. rewrite <- Er, <- E'.
    unfold commit_value. fold v. pring.
Qed.
(** two openings give a non-trivial relation between the generators with the
    committed indices and the last one, provided these are distinct *)
Theorem C63_commit_binding (G : list Point) (ix : list N) (m1 m2 : list Scalar) (r1 r2 : Scalar) c :
  commit G ix m1 r1 = Ok c -> commit G ix m2 r2 = Ok c -> (m1, r1) <> (m2, r2) ->
  NoDup ix -> ~ In (N.of_nat (length G - 1)) ix ->
  exists g : list Scalar, length g = length G /\ comb g G = p0 /\ exists i, i < length G /\ sc g i <> s0.
Proof.
  intros E1 E2 Hne HN Hlast.
  apply commit_Ok_inv in E1 as ((Hl1 & Hi & HG) & E1). apply commit_Ok_inv in E2 as ((Hl2 & _ & _) & E2).
  set (K := length ix) in *. set (e := length G - 1) in *.
  set (at_ := fun i => sum_S K (fun j => if Nat.eqb (N.to_nat (nth j ix 0%N)) i then (sc m1 j - sc m2 j)%S else s0)).
  set (g := tab (length G) (fun i => (at_ i + if Nat.eqb i e then r1 - r2 else s0)%S)).
  assert (Hg : length g = length G) by apply tab_length.
  assert (Hix : forall j, j < K -> N.to_nat (nth j ix 0%N) < length G) by (intros j Hj; apply Hi, nth_In, Hj).
  assert (Ez : comb g G = p0).
  { unfold comb. rewrite Hg.
    transitivity (sum_P K (fun j => (sc m1 j - sc m2 j)%S *: pt G (N.to_nat (nth j ix 0%N))) + (r1 - r2)%S *: pt G e)%P.
    - transitivity (sum_P (length G) (fun i => sum_P K (fun j =>
          (if Nat.eqb (N.to_nat (nth j ix 0%N)) i then (sc m1 j - sc m2 j)%S else s0) *: pt G i)
          + (if Nat.eqb i e then r1 - r2 else s0)%S *: pt G i))%P.
      { apply sum_P_ext. intros i Hi'. unfold sc at 1, g. rewrite tab_nth by auto. unfold at_.
        rewrite <- pmul_sum_S. pring. }
      rewrite sum_P_add, sum_P_swap. f_equal.
      + apply sum_P_ext. intros j Hj. rewrite (sum_P_single _ (N.to_nat (nth j ix 0%N))); auto.
        * now rewrite Nat.eqb_refl.
        * intros i _ Hne'. destruct (Nat.eqb_spec (N.to_nat (nth j ix 0%N)) i); [congruence|apply pmul_0_l].
      + rewrite (sum_P_single _ e); [now rewrite Nat.eqb_refl|unfold e; lia|].
        intros i _ Hne'. destruct (Nat.eqb_spec i e); [congruence|apply pmul_0_l].
    - transitivity (commit_value G ix m1 r1 + (- s1)%S *: commit_value G ix m2 r2)%P.
      + unfold commit_value. fold K e.
        rewrite (sum_P_ext K _ (fun j => sc m1 j *: pt G (N.to_nat (nth j ix 0%N)) +
           (- s1)%S *: (sc m2 j *: pt G (N.to_nat (nth j ix 0%N))))%P) by (intros; pring).
        rewrite sum_P_add, sum_P_mul. pring.
      + rewrite <- E1, <- E2. pring. }
  exists g. split; [auto|]. split; [auto|].
  (* coefficients at the committed indices and at the end *)
  assert (Hat : forall j, j < K -> sc g (N.to_nat (nth j ix 0%N)) = (sc m1 j - sc m2 j)%S).
  { intros j Hj. unfold sc at 1, g. rewrite tab_nth by auto.
    destruct (Nat.eqb_spec (N.to_nat (nth j ix 0%N)) e) as [Ee|_].
    { exfalso. apply Hlast. rewrite <- Ee, N2Nat.id. apply nth_In, Hj. }
    unfold at_. rewrite (sum_S_single K j); auto.
    - rewrite Nat.eqb_refl. ring.
    - intros k Hk Hkj. destruct (Nat.eqb_spec (N.to_nat (nth k ix 0%N)) (N.to_nat (nth j ix 0%N))) as [Ek|]; auto.
      exfalso. apply Hkj. apply (NoDup_nth ix 0%N); auto. now apply N2Nat.inj. }
  assert (He : sc g e = (r1 - r2)%S).
  { unfold sc, g. rewrite tab_nth by (unfold e; lia). rewrite Nat.eqb_refl. unfold at_.
    rewrite sum_S_0; [ring|]. intros j Hj.
    destruct (Nat.eqb_spec (N.to_nat (nth j ix 0%N)) e) as [Ee|_]; auto.
    exfalso. apply Hlast. rewrite <- Ee, N2Nat.id. apply nth_In, Hj. }
  destruct (S_eq_dec (r1 - r2)%S s0) as [Er|Er].
  2:{ exists e. split; [unfold e; lia|]. now rewrite He. }
  destruct (bounded_dec K (fun j => (sc m1 j - sc m2 j)%S)) as [(j & Hj & Hjn)|Hall].
  { exists (N.to_nat (nth j ix 0%N)). split; auto. now rewrite Hat. }
  exfalso. apply Hne. f_equal; [|now apply ssub_0].
  apply (nth_ext _ _ s0 s0); [lia|]. intros i Hi'. apply ssub_0. apply Hall. lia.
Qed.
(** FINDING: nothing in the code excludes the last generator or repeated indices;
    such commitments open to other messages without any relation *)
Theorem C63_commit_last_index_not_binding (G : list Point) (ix : list N) (msg : list Scalar) (r x : Scalar) j c :
  commit G ix msg r = Ok c -> j < length ix -> nth j ix 0%N = N.of_nat (length G - 1) ->
  commit G ix (tab (length ix) (fun k => (sc msg k + if Nat.eqb k j then x else s0)%S)) (r - x)%S = Ok c.
Proof.
  intros E Hj Ej. apply commit_Ok_inv in E as ((Hl & Hi & HG) & ->).
  rewrite (proj1 (C33_commit_value G ix _ _)) by (repeat split; auto; now rewrite tab_length).
  f_equal. unfold commit_value.
  rewrite (sum_P_ext _ _ (fun k => sc msg k *: pt G (N.to_nat (nth k ix 0%N))
     + (if Nat.eqb k j then x else s0)%S *: pt G (N.to_nat (nth k ix 0%N)))%P).
  2:{ intros k Hk. unfold sc at 1. rewrite tab_nth by auto. pring. }
  rewrite sum_P_add, (sum_P_single _ j (fun i => (if Nat.eqb i j then x else s0)%S *: pt G (N.to_nat (nth i ix 0%N)))%P); auto.
  - rewrite Nat.eqb_refl, Ej, Nat2N.id. pring.
  - intros k _ Hk. destruct (Nat.eqb_spec k j); [congruence|apply pmul_0_l].
Qed.
Theorem C63_commit_repeated_index_not_binding (G : list Point) (ix : list N) (msg : list Scalar) (r x : Scalar) j k c :
  commit G ix msg r = Ok c -> j < length ix -> k < length ix -> j <> k -> nth j ix 0%N = nth k ix 0%N ->
  commit G ix (tab (length ix) (fun i => (sc msg i + (if Nat.eqb i j then x else s0)
     - (if Nat.eqb i k then x else s0))%S)) r = Ok c.
Proof.
  intros E Hj Hk Hjk Ej. apply commit_Ok_inv in E as ((Hl & Hi & HG) & ->).
  rewrite (proj1 (C33_commit_value G ix _ _)) by (repeat split; auto; now rewrite tab_length).
  f_equal. unfold commit_value. f_equal.
  rewrite (sum_P_ext _ _ (fun i => (sc msg i *: pt G (N.to_nat (nth i ix 0%N))
     + (if Nat.eqb i j then x else s0)%S *: pt G (N.to_nat (nth i ix 0%N)))
     + (if Nat.eqb i k then - x else s0)%S *: pt G (N.to_nat (nth i ix 0%N)))%P).
  2:{ intros i Hi'. unfold sc at 1. rewrite tab_nth by auto. destruct (Nat.eqb i k); pring. }
  rewrite !sum_P_add, (sum_P_single _ j (fun i => (if Nat.eqb i j then x else s0)%S *: pt G (N.to_nat (nth i ix 0%N)))%P),
    (sum_P_single _ k (fun i => (if Nat.eqb i k then - x else s0)%S *: pt G (N.to_nat (nth i ix 0%N)))%P); auto.
  - rewrite !Nat.eqb_refl, Ej. pring.
  - intros i _ Hn. destruct (Nat.eqb_spec i k); [congruence|apply pmul_0_l].
  - intros i _ Hn. destruct (Nat.eqb_spec i j); [congruence|apply pmul_0_l].
Qed.
End C63.
Example C63_case :
  (* the point 431 opens to (5,7) with blinding 4 and to (1,1) with a unique other blinding *)
  rmap zp (pedersen_commit (pN 100) [pN 2; pN 3] [sN 5; sN 7] (sN 4)) = Ok 431%Z /\
  rmap zp (pedersen_commit (pN 2) [pN 2; pN 3] [sN 1; sN 2] (sN 3)) =
  rmap zp (pedersen_commit (pN 2) [pN 2; pN 3] [sN 3; sN 2] (sN 1)) /\
  rmap zp (commit [pN 2; pN 3; pN 5; pN 7] [1%N; 2%N] [sN 10; sN 20] (sN 1)) = Ok 137%Z /\
  (* index 3 is the blinding generator *)
  rmap zp (commit [pN 2; pN 3; pN 5; pN 7] [1%N; 3%N] [sN 10; sN 20] (sN 1)) = Ok 177%Z /\
  rmap zp (commit [pN 2; pN 3; pN 5; pN 7] [1%N; 3%N] [sN 10; sN 1] (sN 20)) = Ok 177%Z.
Proof. vm_compute. auto 10. Qed.
(** the hypothesis of hiding holds in the concrete model *)
Example C63_generates_case : generates (pN 1).
Proof.
  split.
  - intros E. apply (f_equal zp) in E. revert E. vm_compute. discriminate.
  - intros P. exists (sN (zp P)). apply zp_inj. change (val pe (ventry pe 1 P 0) = val pe (fmul pe (fp pe (val pe (ventry pe 1 P 0))) (fp pe 1))).
    f_equal. rewrite fp_val. symmetry. rewrite fmul_comm. apply fmul_1_l.
Qed.
