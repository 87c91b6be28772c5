(** C95: the linear-map provers, the k-ary verifier and the copy prover on inputs of any size and
    shape: exactly when they return, when they panic and when they loop. *)
From Coq Require Import String.
From Verif Require Export PropShape.
From Verif Require Import PropMath PropIpa PropLmpa LmpaFacts KaryFacts PropKary ListFacts CopyFacts Ex ExSmall PropAlm PropCopyCases.
Local Open Scope string_scope.
Local Open Scope nat_scope.
Local Open Scope list_scope.

Section Lmpa.
Context {C : Crypto} {L : CryptoLaws C}.

Lemma fwit_length_any c w : length (fwit c w) = length w / 2.
Proof.
  unfold fwit, flo, fhi. rewrite map2_length, firstn_length, skipn_length.
  assert (length w / 2 <= length w) by (apply Nat.div_le_upper_bound; lia).
  assert (length w / 2 * 2 <= length w) by (rewrite Nat.mul_comm; apply Nat.mul_div_le; lia). lia.
Qed.
Lemma even_rows (A : list (list Point)) :
  Forall (fun row => Nat.Even (length row)) A \/ ~ Forall (fun row => Nat.Even (length row)) A.
Proof.
  destruct (Forall_dec (fun row : list Point => Nat.Even (length row))
    (fun row => match Nat.Even_Odd_dec (length row) with
                | left p => left p
                | right q => right (fun p => Nat.Even_Odd_False _ p q) end) A); auto.
Qed.
Lemma lm_create_any ro : forall d n f tr A w Ls Rs, 2 ^ d <= n < 2 ^ S d -> d < f ->
  (verdict (lmpa_create_loop f ro tr n A w Ls Rs) <->
   Forall (fun row => Nat.divide (2 ^ d) (length row)) A /\ 2 ^ d <= length w).
Proof.
  induction d as [|d IH]; intros n f tr A w Ls Rs Hn Hf; (destruct f as [|f]; [lia|]).
  - cbn [lmpa_create_loop]. assert (E : n = 1) by (cbn in Hn; lia). subst n. change (1 =? 1) with true. cbv iota. split.
    + intros V. apply verdict_bind in V as (w0 & E & _). split; [apply Forall_forall; intros; apply Nat.divide_1_l|].
      destruct w; [discriminate|cbn; lia].
    + intros [_ Hw]. destruct w as [|w0 w]; [cbn in Hw; lia|]. cbn [idx nth_error bind]. apply verdict_Ok.
  - assert (Hn1 : n <> 1) by (rewrite pow2_S in Hn; assert (X := pow2_pos d); lia).
    rewrite lm_create_step by auto. cbv zeta. destruct (even_rows A) as [HE|HE].
    2:{ rewrite fold_matrix_panic by auto. cbn [bind]. split; [intros [v E]; discriminate|].
        intros [HD _]. exfalso. apply HE. eapply Forall_impl; [|exact HD]. cbn. intros row Hd.
        now apply divide_half in Hd as [Hd _]. }
    rewrite fold_matrix by auto. cbn [bind]. rewrite IH by (try apply log2_step; auto; lia).
    rewrite fold_divides by auto. rewrite fwit_length_any.
    assert (X : 2 ^ d <= length w / 2 <-> 2 ^ S d <= length w).
    { rewrite pow2_S. split; intros Y.
      - assert (length w / 2 * 2 <= length w) by (rewrite Nat.mul_comm; apply Nat.mul_div_le; lia). lia.
      - apply Nat.div_le_lower_bound; lia. }
    rewrite X. reflexivity.
Qed.
(** without generators the loop runs until some row has an odd length *)
Lemma lm_create_no_generators ro : forall f tr A w Ls Rs,
  (Forall (fun row => row = []) A -> lmpa_create_loop f ro tr 0 A w Ls Rs = Diverge) /\
  (~ Forall (fun row => row = []) A -> (forall row, In row A -> length row < f) -> lmpa_create_loop f ro tr 0 A w Ls Rs = Panic).
Proof.
  assert (EN : forall (A : list (list Point)), {Forall (fun row => row = []) A} + {~ Forall (fun row => row = []) A}).
  { intros A. apply Forall_dec. intros [|? ?]; [now left|right; discriminate]. }
  induction f as [|f IH]; intros tr A w Ls Rs.
  { split; [reflexivity|]. intros HN HB. exfalso. apply HN. apply Forall_forall. intros row HI. specialize (HB row HI). lia. }
  rewrite lm_create_step by lia. cbv zeta. set (c := ro _). split.
  - intros HA. rewrite fold_matrix.
    2:{ eapply Forall_impl; [|exact HA]. cbn. intros row ->. exists 0. reflexivity. }
    cbn [bind]. change (0 / 2) with 0. apply IH. apply Forall_map. eapply Forall_impl; [|exact HA]. cbn. intros row ->. reflexivity.
  - intros HN HB. destruct (even_rows A) as [HE|HE]; [|now rewrite fold_matrix_panic].
    rewrite fold_matrix by auto. cbn [bind]. change (0 / 2) with 0. rewrite Forall_forall in HE.
    apply IH.
    + intros HZ. apply HN. apply Forall_map in HZ. rewrite Forall_forall in HZ |- *. intros row HI. specialize (HZ row HI). specialize (HE row HI).
      apply (f_equal (@length Point)) in HZ. rewrite frow_length_any in HZ by auto. destruct HE as [h Eh].
      rewrite Eh, Nat.mul_comm, Nat.div_mul in HZ by lia. cbn in HZ. destruct row; [reflexivity|cbn in Eh; lia].
    + intros row' HI. apply in_map_iff in HI as (row & <- & HI). rewrite frow_length_any by auto.
      assert (Hrow := HB row HI). destruct (length row) as [|l] eqn:El; [|assert (S l / 2 < S l) by (apply Nat.div_lt; lia); lia].
      cbn. destruct f; [|lia]. exfalso. apply HN. apply Forall_forall. intros r Hr. assert (Y := HB r Hr). destruct r; [reflexivity|cbn in Y; lia].
Qed.
Lemma lm_create_terminates ro : forall f tr n A w Ls Rs, 1 <= n < f -> terminates (lmpa_create_loop f ro tr n A w Ls Rs).
Proof.
  induction f as [|f IH]; intros tr n A w Ls Rs Hn; [lia|]. destruct (Nat.eq_dec n 1) as [->|Hn1].
  - cbn [lmpa_create_loop]. change (1 =? 1) with true. cbv iota. destruct w as [|w0 w]; cbn; discriminate.
  - rewrite lm_create_step by auto. cbv zeta. destruct (even_rows A) as [HE|HE].
    + rewrite fold_matrix by auto. cbn [bind]. apply IH. split; [apply Nat.div_le_lower_bound; lia|].
      assert (n / 2 < n) by (apply Nat.div_lt; lia). lia.
    + rewrite fold_matrix_panic by auto. discriminate.
Qed.

(** *** lmpa::noZK::create returns for exactly these sizes *)
Theorem C95_lmpa_prover_returns_iff ro tr A (G H : list Point) Q w :
  (verdict (lmpa_create ro tr A G H Q w) <->
   1 <= length G /\
   Forall (fun row => Nat.divide (2 ^ Nat.log2 (length G)) (length row)) A /\
   2 ^ Nat.log2 (length G) <= length w) /\
  (lmpa_create ro tr A G H Q w = Diverge <-> G = [] /\ Forall (fun row => row = []) A).
Proof.
  unfold lmpa_create. cbv zeta. set (M := list_max _). destruct G as [|g G].
  - assert (EN : {Forall (fun row : list Point => row = []) A} + {~ Forall (fun row : list Point => row = []) A}).
    { apply Forall_dec. intros [|? ?]; [now left|right; discriminate]. }
    cbn [length Nat.add]. destruct (lm_create_no_generators ro (S M) tr A w [] []) as [D P]. destruct EN as [EN|EN].
    + rewrite (D EN). split; [|now split]. split; [intros [v E]; discriminate|intros [X _]; lia].
    + rewrite P; auto.
      * split; [split; [intros [v E]; discriminate|intros [X _]; lia]|]. split; [discriminate|intros [_ X]; contradiction].
      * intros row HI. subst M. assert (X : list_max (map (@length Point) A) <= list_max (map (@length Point) A)) by lia.
        apply list_max_le in X. rewrite Forall_forall in X. specialize (X (length row)). specialize (X (in_map _ _ _ HI)). lia.
  - set (n := length (g :: G)). assert (Hn : 1 <= n) by (subst n; cbn; lia). clearbody n.
    split.
    + rewrite (lm_create_any ro (Nat.log2 n)); [tauto|apply Nat.log2_spec; lia|].
      assert (X : Nat.log2 n < n) by (apply Nat.log2_lt_lin; lia). lia.
    + split; [|intros [X _]; discriminate]. intros E. exfalso.
      apply (lm_create_terminates ro (S (n + M)) tr n A w [] []); [lia|exact E].
Qed.
(** the loop without generators and without columns never ends, whatever the number of steps allowed *)
Theorem C95_lmpa_prover_loops ro tr A w fuel Ls Rs : Forall (fun row => row = []) A ->
  lmpa_create_loop fuel ro tr 0 A w Ls Rs = Diverge.
Proof. apply lm_create_no_generators. Qed.

(** *** SimpleZK::create: the same sizes *)
Theorem C95_simple_zk_prover_returns_iff ro rng pos tr A (G H : list Point) Q w :
  (verdict (simple_zk_create ro rng pos tr A G H Q w) <->
   1 <= length G /\
   Forall (fun row => Nat.divide (2 ^ Nat.log2 (length G)) (length row)) A /\
   2 ^ Nat.log2 (length G) <= length w) /\
  (simple_zk_create ro rng pos tr A G H Q w = Diverge <-> G = [] /\ Forall (fun row => row = []) A).
Proof.
  unfold simple_zk_create. cbv zeta. destruct (challenge_scalar _ _ _) as [be tr1]. set (w' := map2 _ _ _).
  assert (Lw : length w' = Nat.min (length w) (length G)).
  { subst w'. rewrite map2_length. unfold draw. now rewrite map_length, seq_length. }
  destruct (C95_lmpa_prover_returns_iff ro tr1 A G H Q w') as [V D]. split.
  - rewrite verdict_bind. split.
    + intros ([pf tr'] & E & _). assert (V' := proj1 V (ex_intro _ _ E)). destruct V' as (V1 & V2 & V3). repeat split; auto. lia.
    + intros (V1 & V2 & V3). assert (X := proj1 (Nat.log2_spec (length G) V1)).
      destruct (proj2 V) as [[pf tr'] E]; [repeat split; auto; lia|]. exists (pf, tr'). split; auto. apply verdict_Ok.
  - rewrite <- D. destruct (lmpa_create ro tr1 A G H Q w') as [[pf tr']| |]; cbn [bind]; split; intros E; auto; discriminate.
Qed.
End Lmpa.


Section Kary.
Context {C : Crypto} {L : CryptoLaws C}.

Lemma sum_loop_all {T} (f : nat -> res T) add k : verdict (sum_loop f add k) -> forall i, i < k -> verdict (f i).
Proof.
  unfold sum_loop. intros V i Hi. apply verdict_bind in V as (acc & E & _).
  replace (seq 0 k) with (seq 0 i ++ seq i (k - i)) in E by (rewrite <- seq_app; f_equal; lia).
  rewrite foldM_app in E. apply bind_Ok_inv in E as (a & _ & E). destruct (k - i) as [|j] eqn:Ej; [lia|].
  cbn [seq foldM] in E. apply bind_Ok_inv in E as (b & E & _). apply bind_Ok_inv in E as (v & E & _). now exists v.
Qed.
Fixpoint widths (k d N n : nat) : Prop :=
  match d with O => True | S d => Nat.divide (n / k) N /\ k * (n / k) <= N /\ widths k d (n / k) (n / k) end.
Definition kary_rounds (k n d : nat) : Prop := n < k ^ S d /\ (d = 0 \/ k ^ d <= n).

Lemma kary_loop_any pf ro k zero m' : 2 <= k -> forall d f tr m N n A t i, rect m N A -> 1 <= m -> kary_rounds k n d ->
  length (u_proof_Block pf) < i + f -> i <= length (u_proof_Block pf) ->
  (verdict (kary_verify_loop f ro tr pf A t n m' k s1 zero i) <->
   widths k d N n /\
   i + d <= length (u_proof_Block pf) /\
   (forall j, i <= j < i + d -> kary_block k (nth j (u_proof_Block pf) [])) /\
   A_Matrix pf <> [] /\
   match d with O => t | S d' => nth 0 (nth (i + d') (u_proof_Block pf) []) [] end <> []).
Proof.
  intros Hk. induction d as [|d IH]; intros f tr m N n A t i HA Hm Hn Hf Hi.
  - destruct f as [|f]; [lia|]. cbn [kary_verify_loop]. destruct Hn as [Hn _]. rewrite Nat.pow_1_r in Hn.
    destruct (Nat.leb_spec k n) as [Hkk|_]; [lia|]. cbv zeta. cbn [widths].
    split.
    + intros V. apply verdict_bind in V as (e0 & E & V). apply verdict_bind in V as (t0 & E' & _).
      split; [auto|]. split; [lia|]. split; [intros; lia|]. split; [intros HN; rewrite HN in E; discriminate|intros ->; discriminate].
    + intros (_ & _ & _ & H1 & H2). destruct (A_Matrix pf) as [|a0 As]; [now destruct H1|].
      destruct t as [|t0 t]; [now destruct H2|]. cbn. apply verdict_Ok.
  - destruct f as [|f]; [lia|]. destruct Hn as [Hn1 [Hn2|Hn2]]; [lia|].
    assert (P1 : 1 <= k ^ d) by (assert (X := Nat.pow_nonzero k d); lia).
    assert (Ek : k ^ S d = k * k ^ d) by apply Nat.pow_succ_r'. assert (Ek2 : k ^ S (S d) = k * k ^ S d) by apply Nat.pow_succ_r'.
    assert (Hkn : k <= n) by nia.
    assert (Hc1 : k ^ d <= n / k) by (apply Nat.div_le_lower_bound; lia).
    assert (Hc2 : n / k < k ^ S d) by (apply Nat.div_lt_upper_bound; lia).
    cbn [widths]. cbn [kary_verify_loop]. destruct (Nat.leb_spec k n); [|lia].
    unfold udiv. destruct (Nat.eqb_spec k 0); [lia|]. cbn [bind]. set (c := n / k) in *.
    destruct (matrix_split_shape m N c A A HA HA) as [[E0 _]|(q & En & E0 & _ & _ & Hc)]; rewrite E0; cbn [bind].
    { split; [intros [v E]; discriminate|]. intros (((q & Eq) & W & _) & _). exfalso.
      rewrite (matrix_split_eq m c q) in E0 by (auto; try lia; now rewrite <- Eq). discriminate. }
    rewrite usub_le by lia. cbn [bind].
    destruct (nth_error (u_proof_Block pf) i) as [u|] eqn:EU.
    2:{ unfold idx at 1. rewrite EU. cbn [bind]. apply nth_error_None in EU.
        split; [intros [v E]; discriminate|lia]. }
    assert (BU : i < length (u_proof_Block pf)) by (apply nth_error_Some; congruence).
    assert (EU' := nth_error_nth _ _ [] EU).
    unfold idx at 1. rewrite EU. cbn [bind].
    unfold challenge_scalar. rewrite fold_append. set (tr1 := tr ++ ka_round u). set (x := ro tr1).
    rewrite !vandemonde_vector_eq by lia. cbn [bind]. rewrite z_vec_loop_ok by lia. cbn [bind].
    destruct (Nat.le_gt_cases k q) as [Hq|Hq].
    2:{ split.
        - intros V. exfalso. apply verdict_bind in V as (a & E & _). assert (V := sum_loop_all _ _ _ (ex_intro _ a E) q Hq).
          cbv beta in V. rewrite idx_ge in V by (rewrite tab_length; lia). destruct V as [v E']. discriminate.
        - intros ((_ & W & _) & _). exfalso. nia. }
    assert (HA' : rect m (q * c) A) by (now rewrite <- En).
    rewrite (fold_A_loop m q) by (auto; lia). cbn [bind].
    destruct (fold_t_verdict u (2 * (k - 1) + 1) (kzf k x)) as [F1 F2]; [lia|].
    assert (HR : kary_rounds k c d) by (split; [exact Hc2|right; exact Hc1]).
    assert (HD : Nat.divide c N /\ k * c <= N) by (split; [now exists q|nia]).
    rewrite verdict_bind. split.
    + intros (t' & Et & V). apply (IH _ _ m c) in V; [|apply ka_A_rect|auto|auto|lia|lia]. destruct V as (V0 & V1 & V2 & V3 & V4).
      assert (B : kary_block k u) by (apply F1; now exists t').
      split; [tauto|]. split; [lia|]. split; [|split; [auto|]].
      * intros j Hj. destruct (Nat.eq_dec j i) as [->|]; [now rewrite EU'|apply V2; lia].
      * destruct d as [|d].
        -- rewrite Nat.add_0_r, EU'. apply F2 in Et. intros Z0. rewrite Z0 in Et. destruct t'; [now destruct V4|discriminate].
        -- now replace (i + S d) with (S i + d) by lia.
    + intros ((_ & _ & V0) & V1 & V2 & V3 & V4).
      assert (B : kary_block k u) by (rewrite <- EU'; apply V2; lia).
      destruct (proj2 F1 B) as [t' Et]. exists t'. split; auto.
      apply (IH _ _ m c); [apply ka_A_rect|auto|auto|lia|lia|]. split; [auto|]. split; [lia|]. split; [|split; [auto|]].
      * intros j Hj. apply V2. lia.
      * destruct d as [|d].
        -- rewrite Nat.add_0_r, EU' in V4. apply F2 in Et. intros ->. cbn [length] in Et. symmetry in Et.
           apply length_zero_iff_nil in Et. contradiction.
        -- now replace (S i + d) with (i + S d) by lia.
Qed.
Lemma widths_self k : 2 <= k -> forall d n, widths k d n n <-> (forall i, i < d -> Nat.divide (n / k ^ S i) (n / k ^ i)).
Proof.
  intros Hk. induction d as [|d IH]; intros n; cbn [widths]; [split; [intros; lia|auto]|].
  assert (K : forall i, n / k / k ^ i = n / k ^ S i).
  { intros i. rewrite Nat.pow_succ_r', Nat.div_div; auto; [lia|apply Nat.pow_nonzero; lia]. }
  rewrite IH. split.
  - intros (H1 & _ & H3) [|i] Hi; [now rewrite Nat.pow_1_r, Nat.pow_0_r, Nat.div_1_r|].
    rewrite <- !K. apply H3. lia.
  - intros H. split; [|split].
    + assert (X := H 0). rewrite Nat.pow_1_r, Nat.pow_0_r, Nat.div_1_r in X. apply X. lia.
    + apply Nat.mul_div_le. lia.
    + intros i Hi. rewrite !K. apply H. lia.
Qed.
(** *** the k-ary verifier gives a verdict for exactly these sizes *)
Theorem C95_kary_verdict ro tr pf A t n d m N k m' zero : 2 <= k -> 1 <= m -> rect m N A ->
  n < k ^ S d -> (d = 0 \/ k ^ d <= n) ->
  (verdict (verify_lmpa_noZK ro tr pf A t n m' k s1 zero) <->
   (d = 0 \/ (Nat.divide (n / k) N /\ k * (n / k) <= N)) /\
   (forall i, 1 <= i < d -> Nat.divide (n / k ^ S i) (n / k ^ i)) /\
   d <= length (u_proof_Block pf) /\
   (forall j, j < d -> kary_block k (nth j (u_proof_Block pf) [])) /\
   A_Matrix pf <> [] /\ kary_last d t (u_proof_Block pf) <> []).
Proof.
  intros Hk Hm HA H1 H2. unfold verify_lmpa_noZK.
  rewrite (kary_loop_any pf ro k zero m' Hk d _ tr m N n) by (auto; try lia; now split). cbn [Nat.add].
  assert (K : forall i, n / k / k ^ i = n / k ^ S i).
  { intros i. rewrite Nat.pow_succ_r', Nat.div_div; auto; [lia|apply Nat.pow_nonzero; lia]. }
  assert (W : widths k d N n <-> (d = 0 \/ (Nat.divide (n / k) N /\ k * (n / k) <= N)) /\
     (forall i, 1 <= i < d -> Nat.divide (n / k ^ S i) (n / k ^ i))).
  { destruct d as [|d]; cbn [widths]; [split; [intros _; split; [auto|intros; lia]|auto]|].
    rewrite (widths_self k Hk). split.
    - intros (W1 & W2 & W3). split; [auto|]. intros [|i] Hi; [lia|]. rewrite <- !K. apply W3. lia.
    - intros ([W0|[W1 W2]] & W3); [lia|]. split; [auto|]. split; [auto|]. intros i Hi. rewrite !K. apply W3. lia. }
  rewrite W. unfold kary_last.
  split.
  - intros ((X1 & X2) & X3 & X4 & X5 & X6). split; [auto|]. split; [auto|]. split; [auto|]. split; [intros; apply X4; lia|auto].
  - intros (X1 & X2 & X3 & X4 & X5 & X6). split; [auto|]. split; [auto|]. split; [intros; apply X4; lia|auto].
Qed.

Lemma foldM_all {A X} (I : A -> Prop) (f : A -> X -> res A) l a r : I a ->
  (forall a x a', In x l -> I a -> f a x = Ok a' -> I a') -> foldM f l a = Ok r ->
  forall x, In x l -> exists a' a'', I a' /\ f a' x = Ok a''.
Proof.
  revert a. induction l as [|y l IH]; intros a Ia HS E x; [intros []|]. cbn [foldM] in E. apply bind_Ok_inv in E as (b & E1 & E2).
  intros [<-|HI]; [now exists a, b|].
  apply (IH b); [exact (HS a y b (or_introl eq_refl) Ia E1)| |exact E2|exact HI].
  intros a0 x0 a0' H0. apply HS. now right.
Qed.
Section UShape.
Context (k m : nat) (Hk : 2 <= k) (t : list Point).
Let I (u : list (list Point)) : Prop :=
  length u = 2 * (k - 1) + 1 /\ forall l, l < 2 * (k - 1) + 1 -> l <> k - 1 -> length (nth l u []) = m.
Let inner (A_t : list (list Point)) (i : nat) (u_vec : list (list Point)) (jw : nat * list (list Scalar)) : res (list (list Point)) :=
  let '(j, w_vec) := jw in
  l <- usub (k - 1 + j) i ;;
  if negb (l =? k - 1) then
    w_0 <- idx w_vec 0 ;;
    let u_l_t := matrixpoint_vector_mul A_t w_0 in
    u_l <- idx u_vec l ;;
    s <- rowpoint_rowpoint_add u_l u_l_t ;;
    upd u_vec l s
  else upd u_vec l t.
Lemma u_inner_keeps A_t i u jw u' : I u -> inner A_t i u jw = Ok u' -> I u'.
Proof.
  intros [I1 I2] E. destruct jw as [j w_vec]. unfold inner in E. apply bind_Ok_inv in E as (l & E0 & E).
  destruct (Nat.eqb_spec l (k - 1)) as [El|El]; cbn [negb] in E.
  - apply upd_Ok in E as [Hl ->]. split; [now rewrite set_at_length|]. intros l' Hl' Hk'. rewrite nth_set_at_neq by lia. auto.
  - apply bind_Ok_inv in E as (w_0 & _ & E). cbv zeta in E. apply bind_Ok_inv in E as (u_l & E1 & E). apply bind_Ok_inv in E as (s & E2 & E).
    apply upd_Ok in E as [Hl ->]. split; [now rewrite set_at_length|]. intros l' Hl' Hk'.
    destruct (Nat.eq_dec l' l) as [->|Hn]; [|rewrite nth_set_at_neq by lia; auto].
    rewrite nth_set_at_eq by lia. unfold rowpoint_rowpoint_add in E2. apply bind_Ok_inv in E2 as ([] & EA & E2). apply assertb_Ok, Nat.eqb_eq in EA.
    injection E2 as <-. rewrite map2_length, <- EA, Nat.min_id. apply idx_Ok in E1. apply (nth_error_nth _ _ []) in E1. rewrite <- E1. auto.
Qed.
Lemma u_inner_cond A_t i u j w_vec u' : I u -> inner A_t i u (j, w_vec) = Ok u' ->
  i <= k - 1 + j /\ k - 1 + j - i < 2 * (k - 1) + 1 /\ (i <> j -> length A_t = m).
Proof.
  intros [I1 I2] E. unfold inner in E. apply bind_Ok_inv in E as (l & E0 & E). apply usub_Ok in E0 as [E0 ->].
  split; [exact E0|]. destruct (Nat.eqb_spec (k - 1 + j - i) (k - 1)) as [El|El]; cbn [negb] in E.
  - apply upd_Ok in E as [Hl _]. split; [lia|]. intros; lia.
  - apply bind_Ok_inv in E as (w_0 & _ & E). cbv zeta in E. apply bind_Ok_inv in E as (u_l & E1 & E). apply bind_Ok_inv in E as (s & E2 & E).
    apply upd_Ok in E as [Hl _]. split; [lia|]. intros _. unfold rowpoint_rowpoint_add in E2. apply bind_Ok_inv in E2 as ([] & EA & _).
    apply assertb_Ok, Nat.eqb_eq in EA. rewrite mpv_lin, map_length in EA. rewrite <- EA.
    apply idx_Ok in E1. apply (nth_error_nth _ _ []) in E1. rewrite <- E1. apply I2; lia.
Qed.
Lemma u_vec_shape A_T w_T u : u_vec_loop (k - 1) A_T w_T t (repeat (repeat p0 m) (2 * (k - 1) + 1)) = Ok u -> k <= length A_T -> k <= length w_T ->
  length A_T = k /\ length w_T = k /\ length (nth 0 A_T []) = m /\ length (nth 0 u []) = m /\ length (nth (k - 1) u []) = length t.
Proof.
  intros E HA HW. unfold u_vec_loop in E.
  assert (I0 : I (repeat (repeat p0 m) (2 * (k - 1) + 1))).
  { split; [apply repeat_length|]. intros l Hl _. rewrite (nth_indep _ [] (repeat p0 m)) by (now rewrite repeat_length).
    now rewrite nth_repeat, repeat_length. }
  set (outer := fun (u_vec : list (list Point)) '(i, A_t) => foldM (inner A_t i) (enumerate w_T) u_vec).
  change (foldM outer (enumerate A_T) (repeat (repeat p0 m) (2 * (k - 1) + 1)) = Ok u) in E.
  assert (OK : forall v iA v', I v -> outer v iA = Ok v' -> I v').
  { intros v [i A_t] v' Iv Ev. revert Ev. apply foldM_inv; [exact Iv|]. intros a jw a' _. apply u_inner_keeps. }
  assert (Iu : I u) by (revert E; apply foldM_inv; [exact I0|]; intros a iA a' _; apply OK).
  assert (ALL : forall i A_t j w_vec, nth_error A_T i = Some A_t -> nth_error w_T j = Some w_vec ->
    i <= k - 1 + j /\ k - 1 + j - i < 2 * (k - 1) + 1 /\ (i <> j -> length A_t = m)).
  { intros i A_t j w_vec Hi Hj.
    destruct (foldM_all I outer _ _ _ I0 (fun a x a' _ => OK a x a') E (i, A_t)) as (a & a' & Ia & Ea); [now apply enumerate_In|].
    unfold outer in Ea.
    destruct (foldM_all I (inner A_t i) _ _ _ Ia (fun a x a' _ => u_inner_keeps A_t i a x a') Ea (j, w_vec)) as (b & b' & Ib & Eb); [now apply enumerate_In|].
    exact (u_inner_cond A_t i b j w_vec b' Ib Eb). }
  assert (GA : forall i, i < length A_T -> nth_error A_T i = Some (nth i A_T [])) by (intros; now apply nth_error_nth').
  assert (GW : forall i, i < length w_T -> nth_error w_T i = Some (nth i w_T [])) by (intros; now apply nth_error_nth').
  assert (LA : length A_T = k).
  { destruct (ALL (length A_T - 1) _ 0 _ (GA (length A_T - 1) ltac:(lia)) (GW 0 ltac:(lia))) as (X & _). lia. }
  assert (LW : length w_T = k).
  { destruct (ALL 0 _ (length w_T - 1) _ (GA 0 ltac:(lia)) (GW (length w_T - 1) ltac:(lia))) as (_ & X & _). lia. }
  split; [exact LA|]. split; [exact LW|].
  split; [destruct (ALL 0 _ 1 _ (GA 0 ltac:(lia)) (GW 1 ltac:(lia))) as (_ & _ & X); apply X; lia|].
  split; [apply Iu; lia|].
  destruct (exists_last (l := A_T)) as (A1 & A_t & EA); [intros ->; cbn in LA; lia|].
  destruct (exists_last (l := w_T)) as (w1 & w_t & EW); [intros ->; cbn in LW; lia|].
  rewrite EA, enumerate_app, foldM_app in E. apply bind_Ok_inv in E as (a & Ea & E). cbn [foldM] in E.
  apply bind_Ok_inv in E as (a' & E & E'). injection E' as ->. unfold outer in E. rewrite EW, enumerate_app, foldM_app in E.
  apply bind_Ok_inv in E as (b & Eb & E). cbn [foldM] in E. apply bind_Ok_inv in E as (b' & E & E'). injection E' as ->.
  rewrite EA, app_length in LA. rewrite EW, app_length in LW. cbn [length] in LA, LW.
  unfold inner in E. rewrite usub_le in E by lia. cbn [bind] in E. replace (k - 1 + length w1 - length A1) with (k - 1) in E by lia.
  rewrite Nat.eqb_refl in E. cbn [negb] in E. apply upd_Ok in E as [Hl ->]. now rewrite nth_set_at_eq.
Qed.
End UShape.

Lemma matrix_split_shape1 c (w : list Scalar) :
  matrix_split [w] c = Panic \/ exists q, length w = q * c /\ matrix_split [w] c = Ok (tab q (part_of [w] c)).
Proof.
  destruct (Nat.eq_dec c 0) as [->|Hc]; [left; reflexivity|].
  destruct (Nat.eq_dec (length w mod c) 0) as [Hd|Hd].
  - right. exists (length w / c). assert (En : length w = length w / c * c) by (rewrite (Nat.div_mod (length w) c) at 1 by auto; lia).
    split; [exact En|]. apply (matrix_split_eq 1); [now apply rect1|lia|lia].
  - left. apply (C09_matrix_split_panic 1 (length w)); [now apply rect1|auto].
Qed.
(** *** the k-ary prover returns for exactly these sizes *)
Theorem C95_kary_prover_returns_iff ro tr A w t n m k M N : 2 <= k -> 1 <= M -> rect M N A ->
  (verdict (create_lmpa_noZK ro tr A w t n m k s1 p0) <->
   n < k \/
   (N = k * (n / k) /\ length w = k * (n / k) /\ m = M /\ length t = M /\ exists r d, 1 <= r < k /\ n / k = r * k ^ d)).
Proof.
  intros Hk HM HA. unfold create_lmpa_noZK. destruct (Nat.lt_ge_cases n k) as [Hn|Hn].
  { split; [auto|]. intros _. cbn [kary_create_loop]. destruct (Nat.leb_spec k n); [lia|]. apply verdict_Ok. }
  assert (Hc : 1 <= n / k) by (apply Nat.div_le_lower_bound; lia).
  assert (GOOD : N = k * (n / k) -> length w = k * (n / k) -> m = M -> length t = M ->
    (verdict (kary_create_loop (S n) ro tr A w t n m k s1 p0 []) <-> exists r d, 1 <= r < k /\ n / k = r * k ^ d)).
  { intros EN EW -> ET. assert (Hlt : n / k < n) by (apply Nat.div_lt; lia).
    assert (STEP : kary_create_loop (S n) ro tr A w t n M k s1 p0 [] = kary_create_loop (S n) ro tr A w t (k * (n / k)) M k s1 p0 []).
    { cbn [kary_create_loop]. assert (k <= k * (n / k)) by nia. destruct (Nat.leb_spec k n), (Nat.leb_spec k (k * (n / k))); try lia.
      unfold udiv. replace (k * (n / k) / k) with (n / k) by (rewrite Nat.mul_comm, Nat.div_mul; lia). reflexivity. }
    rewrite STEP. rewrite kary_create_step by (auto; try lia; now rewrite <- EN). cbv zeta.
    match goal with |- verdict (kary_create_loop _ ro ?tr1 ?A1 ?w1 ?t1 _ _ _ _ _ ?us) <-> _ =>
      assert (FU := C45_kary_create_terminates ro k Hk (n / k) n (S (n / k)) tr1 A1 w1 t1 M s1 p0 us); rewrite FU by lia; clear FU;
      assert (HA1 : rect M (n / k) A1) by apply ka_A_rect; assert (HW1 : length w1 = n / k) by apply ka_w_length;
      assert (HT1 : length t1 = M) by apply ktgt_length; generalize tr1, A1, w1, t1, us, HA1, HW1, HT1 end.
    clear STEP. set (c := n / k) in *. clearbody c. intros tr1 A1 w1 t1 us R1 R2 R3. clear HA1 HW1 HT1.
    destruct (kary_form_dec k Hk c) as [(r & d & Hr & Er)|Hno].
    - assert (Hr1 : 1 <= r) by (destruct r; [cbn in Er; lia|lia]).
      split; [intros _; exists r, d; split; [lia|exact Er]|]. intros _. rewrite Er in R1, R2 |- *.
      destruct (kary_run d (S (r * k ^ d)) ro tr1 M k r A1 w1 t1 us) as (l & A' & w' & t' & E' & _); auto; try lia.
      { assert (X := kpow_gt k d Hk). nia. }
      rewrite E'. apply verdict_Ok.
    - rewrite (kary_panic (S c) ro tr1 M k c A1 w1 t1 us) by auto. split; [intros [v E]; discriminate|].
      intros (r & d & Hr & Er). exfalso. apply (Hno r d); [lia|exact Er]. }
  split.
  2:{ intros [X|(EN & EW & Em & Et & X)]; [lia|]. now apply GOOD. }
  intros V. right. assert (V0 := V). cbn [kary_create_loop] in V. destruct (Nat.leb_spec k n); [|lia].
  unfold udiv in V. destruct (Nat.eqb_spec k 0); [lia|]. cbn [bind] in V. set (c := n / k) in *.
  destruct (matrix_split_shape M N c A A HA HA) as [[E0 _]|(q & En & E0 & _ & _ & _)]; rewrite E0 in V; cbn [bind] in V; [destruct V; discriminate|].
  destruct (matrix_split_shape1 c w) as [E1|(q' & En' & E1)]; rewrite E1 in V; cbn [bind] in V; [destruct V; discriminate|].
  rewrite usub_le in V by lia. cbn [bind] in V. destruct V as [v V]. inv_ok V. rename v0 into u. rename E into EU.
  unfold challenge_scalar in V. rewrite fold_append in V. set (x := ro (tr ++ ka_round u)) in V.
  rewrite !vandemonde_vector_eq in V by lia. cbn [bind] in V. rewrite z_vec_loop_ok in V by lia. cbn [bind] in V.
  inv_ok V. rename v0 into A'. inv_ok V. rename v0 into wm. inv_ok V. clear E3. inv_ok V. rename v1 into t'.
  assert (Q1 : k <= q).
  { destruct (Nat.le_gt_cases k q) as [X|X]; [exact X|exfalso]. assert (Y := sum_loop_all _ _ _ (ex_intro _ A' E) q X).
    cbv beta in Y. rewrite idx_ge in Y by (rewrite tab_length; lia). destruct Y; discriminate. }
  assert (Q2 : k <= q').
  { destruct (Nat.le_gt_cases k q') as [X|X]; [exact X|exfalso]. assert (Y := sum_loop_all _ _ _ (ex_intro _ wm E2) q' X).
    cbv beta in Y. rewrite idx_ge in Y by (rewrite tab_length; lia). destruct Y; discriminate. }
  apply (u_vec_shape k m Hk) in EU; [|now rewrite tab_length|now rewrite tab_length].
  rewrite !tab_length in EU. destruct EU as (-> & -> & U3 & U4 & U5).
  destruct (fold_t_verdict u (2 * (k - 1) + 1) (kzf k x)) as [F1 _]; [lia|]. 
  assert (F := proj1 F1 (ex_intro _ t' E3)). destruct F as [F2 F3]. specialize (F3 (k - 1)). rewrite U5, U4 in F3.
  assert (Et : length t = m) by (apply F3; lia).
  assert (Em : m = M).
  { rewrite <- U3, tab_nth by lia. destruct (part_of_rect M c k 0 A) as [X _]; [now rewrite <- En|lia|exact X]. }
  split; [exact En|]. split; [exact En'|]. split; [exact Em|]. split; [congruence|].
  apply GOOD; auto. congruence.
Qed.

(** *** the wrappers create_general and verify_general *)
Theorem C95_general_prover_returns_iff ro rng pos tr A w t n m k M N : 2 <= k -> 1 <= M -> rect M N A ->
  (verdict (create_general ro rng pos tr A w t n m k) <->
   n < k \/
   (N = k * (n / k) /\ length w = k * (n / k) /\ m = M /\ length t = M /\ exists r d, 1 <= r < k /\ n / k = r * k ^ d)).
Proof.
  intros Hk HM HA. unfold create_general. cbv zeta. destruct (challenge_scalar _ _ _) as [be tr1].
  rewrite <- (C95_kary_prover_returns_iff ro tr1 A w t n m k M N Hk HM HA), verdict_bind. split.
  - intros ([p tr'] & E & _). now exists (p, tr').
  - intros [[p tr'] E]. exists (p, tr'). split; [exact E|apply verdict_Ok].
Qed.
Theorem C95_general_verdict ro tr pf A t n d m N k m' : 2 <= k -> 1 <= m -> rect m N A ->
  n < k ^ S d -> (d = 0 \/ k ^ d <= n) ->
  let U := u_proof_Block (lamp_no_zk pf) in
  (verdict (verify_general ro tr pf A t n m' k) <->
   (d = 0 \/ (Nat.divide (n / k) N /\ k * (n / k) <= N)) /\
   (forall i, 1 <= i < d -> Nat.divide (n / k ^ S i) (n / k ^ i)) /\
   d <= length U /\ (forall j, j < d -> kary_block k (nth j U [])) /\ A_Matrix (lamp_no_zk pf) <> [] /\
   (d = 0 -> t <> [] /\ szg_a pf <> []) /\ (1 <= d -> nth 0 (nth (d - 1) U []) [] <> [])).
Proof.
  intros Hk Hm HA H1 H2 U. unfold verify_general. cbv zeta. destruct (challenge_scalar _ _ _) as [be tr1].
  rewrite (C95_kary_verdict ro tr1 (lamp_no_zk pf) A _ n d m N k m' p0 Hk Hm HA H1 H2). fold U.
  assert (X : kary_last d (map2 (fun t_i a_i => be *: t_i + a_i)%P t (szg_a pf)) U <> [] <->
    (d = 0 -> t <> [] /\ szg_a pf <> []) /\ (1 <= d -> nth 0 (nth (d - 1) U []) [] <> [])).
  { destruct d as [|d]; cbn [kary_last].
    - split.
      + intros X. split; [|lia]. intros _. split; intros Z; apply X; rewrite Z; [reflexivity|now destruct t].
      + intros [X _] Z. destruct (X eq_refl) as [X1 X2]. destruct t; [congruence|]. destruct (szg_a pf); [congruence|discriminate].
    - replace (S d - 1) with d by lia. split; [intros X; split; [discriminate|auto]|]. intros [_ X]. apply X. lia. }
  rewrite X. tauto.
Qed.
End Kary.

Section CopyProver.
Context {C : Crypto} {L : CryptoLaws C}.

(** a loop whose steps succeed on exactly the items that satisfy P *)
Lemma guarded {X} n (P : X -> Prop) (f : list Scalar -> X -> list Scalar) (step : list Scalar -> X -> res (list Scalar)) :
  (forall v x, length v = n -> (P x /\ step v x = Ok (f v x) /\ length (f v x) = n) \/ (~ P x /\ ~ verdict (step v x))) ->
  forall l v, length v = n ->
  (forall x, In x l -> P x) /\ foldM step l v = Ok (fold_left f l v) /\ length (fold_left f l v) = n \/
  ~ (forall x, In x l -> P x) /\ ~ verdict (foldM step l v).
Proof.
  intros HS. induction l as [|x l IH]; intros v Hv.
  - left. split; [intros x []|]. split; auto.
  - cbn [foldM fold_left]. destruct (HS v x Hv) as [(HP & E & Lf)|[HP V]].
    + rewrite E. cbn [bind]. destruct (IH (f v x) Lf) as [(I1 & I2 & I3)|[I1 I2]].
      * left. split; [|auto]. intros y [<-|HI]; auto.
      * right. split; [|exact I2]. intros Y. apply I1. intros y HI. apply Y. now right.
    + right. split; [intros Y; apply HP, Y; now left|]. intros V'. apply V. apply verdict_bind in V' as (a & Ea & _). now exists a.
Qed.

(** ** what the prover computes, for any mapping *)
Definition put (v : list Scalar) (p : Scalar * MessageMap) : list Scalar := set_at v (mpos (snd p)) (fst p).
Definition gather (alpha : Scalar) (v : list Scalar) (m : MessageMap) : list Scalar :=
  set_at v (midx m) (sc v (midx m) + sc v (mpos m) * spow alpha (S (mcrs m)))%S.
Definition a_placed (n : nat) (mp : Mapping) (w msgs : list Scalar) (r0 r1 : Scalar) : list Scalar :=
  fold_left put (combine msgs (msgs_map mp)) (w ++ repeat s0 (n - 2 - length w) ++ [r0; r1]).
Definition a_witness (n : nat) (mp : Mapping) (v : list Scalar) (rand alpha : Scalar) : list Scalar :=
  fold_left (gather alpha) (msgs_map mp) (set_at v (n - 1) (sc v (n - 1) + rand)%S).
Definition a_row (n : nat) (mp : Mapping) (alpha : Scalar) (c : N) : list Scalar :=
  fold_left (fun e m => set_at e (mpos m) (spow alpha (S (mcrs m))))
    (filter (fun m => N.eqb (commitment_index m) c) (msgs_map mp)) (set_at (repeat s0 (n - 2)) (N.to_nat c) (- s1)%S).
Definition a_matrix (n : nat) (mp : Mapping) (alpha : Scalar) (c : N) : list (list Scalar) :=
  a_row n mp alpha c :: repeat (repeat s0 (n - 2)) (n - 3).
Definition a_system (n : nat) (mp : Mapping) (alpha : Scalar) (Ms : list (list (list Scalar))) : list (list (list Scalar)) :=
  Ms ++ map (a_matrix n mp alpha) (unique_commitment_indices mp).

Lemma put_step n v p : length v = n ->
  (mpos (snd p) < n /\ upd v (mpos (snd p)) (fst p) = Ok (put v p) /\ length (put v p) = n) \/
  (~ mpos (snd p) < n /\ ~ verdict (upd v (mpos (snd p)) (fst p))).
Proof.
  intros Hv. destruct (Nat.lt_ge_cases (mpos (snd p)) n).
  - left. split; auto. rewrite upd_lt by lia. split; [reflexivity|]. unfold put. now rewrite set_at_length.
  - right. split; [lia|]. rewrite upd_ge by lia. intros [a E]; discriminate.
Qed.
Lemma gather_step n K alpha v m : length v = n ->
  let step := (msg <- idx v (N.to_nat (position_in_witness m)) ;;
               al <- idx (powers alpha K) (N.to_nat (commitment_crs_id m)) ;;
               old <- idx v (N.to_nat (commitment_index m)) ;;
               upd v (N.to_nat (commitment_index m)) (old + msg * al)%S) in
  ((mpos m < n /\ mcrs m < K /\ midx m < n) /\ step = Ok (gather alpha v m) /\ length (gather alpha v m) = n) \/
  (~ (mpos m < n /\ mcrs m < K /\ midx m < n) /\ ~ verdict step).
Proof.
  intros Hv. cbv zeta. fold (mpos m) (mcrs m) (midx m).
  destruct (Nat.lt_ge_cases (mpos m) n) as [H1|H1].
  2:{ right. split; [lia|]. rewrite idx_ge by lia. intros [a E]; discriminate. }
  rewrite (idx_lt _ _ s0) by lia. cbn [bind]. destruct (Nat.lt_ge_cases (mcrs m) K) as [H2|H2].
  2:{ right. split; [lia|]. rewrite (idx_ge (powers alpha K)) by (rewrite powers_length; lia). intros [a E]; discriminate. }
  rewrite (idx_lt (powers alpha K) _ s0) by (rewrite powers_length; lia). cbn [bind].
  destruct (Nat.lt_ge_cases (midx m) n) as [H3|H3].
  2:{ right. split; [lia|]. rewrite idx_ge by lia. intros [a E]; discriminate. }
  rewrite (idx_lt v (midx m) s0) by lia. cbn [bind]. rewrite upd_lt by lia. left. split; auto.
  fold (sc v (midx m)) (sc v (mpos m)) (sc (powers alpha K) (mcrs m)). rewrite sc_powers by auto. split; [reflexivity|].
  unfold gather. now rewrite set_at_length.
Qed.
Definition idx_fits (n K : nat) (mp : Mapping) (c : N) : Prop :=
  N.to_nat c < n - 2 /\ forall m, In m (msgs_map mp) -> commitment_index m = c -> mcrs m < K /\ mpos m < n - 2.
Lemma copy_matrix_eq n K mp alpha c :
  let f := create_copy_matrix (n - 2) (repeat s0 (n - 2)) (msgs_map mp) (powers alpha K) c in
  idx_fits n K mp c /\ f = Ok (a_matrix n mp alpha c) /\ length (a_row n mp alpha c) = n - 2 \/
  ~ idx_fits n K mp c /\ ~ verdict f.
Proof.
  cbv zeta. unfold create_copy_matrix, idx_fits, a_matrix, a_row. rewrite map_const_repeat. cbv zeta.
  destruct (Nat.lt_ge_cases (N.to_nat c) (n - 2)) as [Hc|Hc].
  2:{ right. split; [lia|]. rewrite upd_ge by (now rewrite repeat_length). intros [a E]; discriminate. }
  rewrite upd_lt by (now rewrite repeat_length). cbn [bind].
  set (ms := filter (fun x => N.eqb (commitment_index x) c) (msgs_map mp)).
  assert (FI : forall P : MessageMap -> Prop, (forall m, In m ms -> P m) <-> (forall m, In m (msgs_map mp) -> commitment_index m = c -> P m)).
  { intros P. unfold ms. split; intros X m.
    - intros HI HE. apply X. apply filter_In. split; [exact HI|]. now apply N.eqb_eq.
    - intros HI. apply filter_In in HI as [HI HE]. apply N.eqb_eq in HE. auto. }
  destruct (guarded (n - 2) (fun m => mcrs m < K /\ mpos m < n - 2) (fun e m => set_at e (mpos m) (spow alpha (S (mcrs m))))
    (fun new_eqn msg => al <- idx (powers alpha K) (N.to_nat (commitment_crs_id msg)) ;; upd new_eqn (N.to_nat (position_in_witness msg)) al))
    with (l := ms) (v := set_at (repeat s0 (n - 2)) (N.to_nat c) (- s1)%S) as [(I1 & I2 & I3)|[I1 I2]].
  - intros v m Hv. fold (mpos m) (mcrs m). destruct (Nat.lt_ge_cases (mcrs m) K) as [H2|H2].
    2:{ right. split; [lia|]. rewrite (idx_ge (powers alpha K)) by (rewrite powers_length; lia). intros [a E]; discriminate. }
    rewrite (idx_lt (powers alpha K) _ s0) by (rewrite powers_length; lia). cbn [bind].
    destruct (Nat.lt_ge_cases (mpos m) (n - 2)) as [H1|H1].
    2:{ right. split; [lia|]. rewrite upd_ge by lia. intros [a E]; discriminate. }
    left. split; auto. rewrite upd_lt by lia. fold (sc (powers alpha K) (mcrs m)). rewrite sc_powers by auto. split; auto. now rewrite set_at_length.
  - now rewrite set_at_length, repeat_length.
  - left. split; [split; auto; now apply FI|]. rewrite I2. cbn [bind]. rewrite pad_rows_eq by (cbn [length]; lia). split; [|exact I3].
    cbn [length app]. now replace (n - 2 - 1) with (n - 3) by lia.
  - right. split; [intros [_ X]; apply I1; now apply FI|]. intros V. apply I2. apply verdict_bind in V as (a & E & _). now exists a.
Qed.
Lemma copy_matrices_eq n K mp alpha : forall keys Ms,
  let f := foldM (fun gamma_i ci => matrix <- create_copy_matrix (n - 2) (repeat s0 (n - 2)) (msgs_map mp) (powers alpha K) ci ;;
                                    Ok (BlockMatrix_push gamma_i matrix)) keys (mkBlockMatrix Ms) in
  (forall c, In c keys -> idx_fits n K mp c) /\ f = Ok (mkBlockMatrix (Ms ++ map (a_matrix n mp alpha) keys)) \/
  ~ (forall c, In c keys -> idx_fits n K mp c) /\ ~ verdict f.
Proof.
  cbv zeta. induction keys as [|c keys IH]; intros Ms.
  - left. split; [intros c []|]. cbn [foldM map]. now rewrite app_nil_r.
  - cbn [foldM map]. destruct (copy_matrix_eq n K mp alpha c) as [(I1 & -> & _)|[I1 I2]].
    + cbn [bind]. change (BlockMatrix_push (mkBlockMatrix Ms) (a_matrix n mp alpha c)) with (mkBlockMatrix (Ms ++ [a_matrix n mp alpha c])).
      destruct (IH (Ms ++ [a_matrix n mp alpha c])) as [[J1 J2]|[J1 J2]].
      * left. split; [intros c' [<-|HI]; auto|]. rewrite J2, <- app_assoc. reflexivity.
      * right. split; [|exact J2]. intros X. apply J1. intros c' HI. apply X. now right.
    + right. split; [intros X; apply I1; apply X; now left|]. intros V. apply I2. apply verdict_bind in V as (a & E & _).
      apply bind_Ok_inv in E as (b & E & _). now exists b.
Qed.
Lemma cp_rand_eq (openings : list (list Scalar * Scalar)) alpha :
  ssum (map2 smul (map snd openings) (powers alpha (length openings))) = cp_rand openings alpha.
Proof.
  change (ssum (map2 smul (map snd openings) (powers alpha (length openings))))
    with (inner_product (map snd openings) (powers alpha (length openings))).
  rewrite inner_product_dot, dot_dotp by (now rewrite map_length, powers_length). unfold dotp, cp_rand. rewrite map_length.
  apply sum_S_ext. intros k Hk. rewrite sc_powers by auto. f_equal. unfold sc.
  change s0 with (snd (@nil Scalar, @s0 C)) at 1. apply map_nth.
Qed.

Definition copy_inputs (n : nat) (mp : Mapping) (w : list Scalar) (openings : list (list Scalar * Scalar)) : Prop :=
  num_commitments mp = length openings /\ 1 <= length openings /\ (exists w1, w = s1 :: w1) /\ length w + 2 <= n /\
  (forall m, In m (msgs_map mp) -> mpos m < n /\ mcrs m < length openings /\ midx m < n) /\
  map_fits n (length openings) mp.

(** *** the run of the prover, for any mapping, witness and openings *)
Theorem C95_copy_prover_run ro rng pos tr (G H : list Point) Q mp Ms w openings :
  let n := length G in
  let v := a_placed n mp w (concat (map fst openings)) (rng pos) (rng (pos + 1)) in
  let cw := compress (lin v G) in
  let alpha := ro (cp_hist tr cw) in
  let w' := a_witness n mp v (cp_rand openings alpha) alpha in
  (copy_inputs n mp w openings /\
   copy_create ro rng pos tr G H Q mp (mkBlockMatrix Ms) w openings =
     ('(p, tr', pos') <- inner_create ro rng (pos + 2) (cp_hist tr cw) G H Q (mkBlockMatrix (a_system n mp alpha Ms))
          (firstn (n - 2) w') (skipn (n - 2) w') ;;
      Ok (mkCopy cw p, tr', pos')) /\
   length v = n /\ length w' = n) \/
  (~ copy_inputs n mp w openings /\ copy_create ro rng pos tr G H Q mp (mkBlockMatrix Ms) w openings = Panic).
Proof.
  intros n v cw alpha w'.
  assert (T := C57_copy_prover_terminates ro rng pos tr G H Q mp (mkBlockMatrix Ms) w openings).
  assert (X : forall T' (r : res T'), terminates r -> ~ verdict r -> r = Panic).
  { intros T' r HT HV. destruct r as [u| |]; [exfalso; apply HV; now exists u|reflexivity|now destruct HT]. }
  enough (Y : (copy_inputs n mp w openings /\
   copy_create ro rng pos tr G H Q mp (mkBlockMatrix Ms) w openings =
     ('(p, tr', pos') <- inner_create ro rng (pos + 2) (cp_hist tr cw) G H Q (mkBlockMatrix (a_system n mp alpha Ms))
          (firstn (n - 2) w') (skipn (n - 2) w') ;;
      Ok (mkCopy cw p, tr', pos')) /\
   length v = n /\ length w' = n) \/
   (~ copy_inputs n mp w openings /\ ~ verdict (copy_create ro rng pos tr G H Q mp (mkBlockMatrix Ms) w openings))).
  { destruct Y as [Y|[Y1 Y2]]; [left; exact Y|right; split; auto]. }
  clear T X. unfold copy_create, copy_inputs. cbv zeta. fold n.
  destruct (Nat.eqb_spec (num_commitments mp) (length openings)) as [HK|HK].
  2:{ right. split; [tauto|]. intros [a E]; discriminate. }
  cbn [assertb bind]. destruct w as [|w0 w1].
  { right. split; [intros (_ & _ & (? & ?) & _); discriminate|]. intros [a E]; discriminate. }
  change (idx (w0 :: w1) 0) with (Ok w0). cbn [bind]. destruct (seqb w0 s1) eqn:E0.
  2:{ right. split; [|intros [a E]; discriminate]. intros (_ & _ & (w2 & [= -> _]) & _). rewrite seqb_refl in E0. discriminate. }
  apply seqb_eq in E0. subst w0. cbn [assertb bind]. set (w := s1 :: w1) in *.
  destruct (Nat.lt_ge_cases n (length w + 2)) as [Hw|Hw].
  { right. split; [lia|]. intros [a E]. inv_ok E. apply usub_Ok in E0 as [A1 ->]. inv_ok E. apply usub_Ok in E0 as [A2 _]. lia. }
  assert (Hn : 3 <= n) by (cbn in Hw; lia).
  rewrite usub_le by lia. cbn [bind]. rewrite usub_le by lia. cbn [bind]. rewrite !map_const_repeat.
  replace (S (S pos)) with (pos + 2) by lia. replace (S pos) with (pos + 1) by lia. rewrite <- app_assoc.
  set (v0 := w ++ repeat s0 (n - 2 - length w) ++ [rng pos; rng (pos + 1)]).
  assert (Lv0 : length v0 = n) by (unfold v0; rewrite !app_length, repeat_length; cbn [length]; lia).
  rewrite (foldM_ext _ (fun v a => upd v (mpos (snd a)) (fst a))) by (now intros ? [? ?] _).
  destruct (guarded n (fun p => mpos (snd p) < n) put (fun v a => upd v (mpos (snd a)) (fst a)) (put_step n)
    (combine (concat (map fst openings)) (msgs_map mp)) v0 Lv0) as [(I1 & I2 & I3)|[I1 I2]].
  2:{ right. split.
      - intros (_ & _ & _ & _ & J & _). apply I1. intros [x m] HI. apply combine_In_r in HI. now apply J.
      - intros V. apply I2. apply verdict_bind in V as (a & E & _). now exists a. }
  rewrite I2. change (fold_left put (combine (concat (map fst openings)) (msgs_map mp)) v0) with v in *. cbn [bind].
  rewrite msm_Ok by exact I3. cbn [bind]. unfold append_message, challenge_scalar. fold cw.
  replace ((tr ++ [EvMsg "c_w" cw]) ++ [EvChal "alpha"]) with (cp_hist tr cw) by (unfold cp_hist; now rewrite <- app_assoc).
  fold alpha. destruct (Nat.lt_ge_cases (length openings) 1) as [HO|HO].
  { right. split; [lia|]. intros [a E]. inv_ok E. apply vandemonde_challenge_Ok_inv in E0 as [A3 _]. lia. }
  rewrite vandemonde_challenge_eq by auto. cbn [bind]. rewrite usub_le by lia. cbn [bind].
  rewrite (idx_lt _ _ s0) by lia. cbn [bind]. rewrite upd_lt by lia. cbn [bind]. rewrite cp_rand_eq. fold (sc v (n - 1)).
  set (v2 := set_at v (n - 1) _). assert (L2 : length v2 = n) by (unfold v2; now rewrite set_at_length).
  destruct (guarded n (fun m => mpos m < n /\ mcrs m < length openings /\ midx m < n) (gather alpha)
    (fun v m => msg <- idx v (N.to_nat (position_in_witness m)) ;;
               al <- idx (powers alpha (length openings)) (N.to_nat (commitment_crs_id m)) ;;
               old <- idx v (N.to_nat (commitment_index m)) ;;
               upd v (N.to_nat (commitment_index m)) (old + msg * al)%S) (fun v m => gather_step n _ alpha v m)
    (msgs_map mp) v2 L2) as [(J1 & J2 & J3)|[J1 J2]].
  2:{ right. split; [tauto|]. intros V. apply J2. apply verdict_bind in V as (a & E & _). now exists a. }
  rewrite J2. change (fold_left (gather alpha) (msgs_map mp) v2) with w' in *. cbn [bind].
  destruct (copy_matrices_eq n (length openings) mp alpha (unique_commitment_indices mp) Ms) as [[M1 M2]|[M1 M2]].
  2:{ right. split; [intros (_ & _ & _ & _ & _ & J); exact (M1 J)|]. intros V. apply M2. apply verdict_bind in V as (a & E & _). now exists a. }
  rewrite M2. cbn [bind]. rewrite split_at_le by lia. cbn [bind]. left.
  split; [|split; [reflexivity|auto]].
  split; [exact HK|]. split; [exact HO|]. split; [now exists w1|]. split; [exact Hw|]. split; [exact J1|exact M1].
Qed.

Lemma a_matrix_shape n K mp alpha c : 3 <= n -> idx_fits n K mp c -> shape (a_matrix n mp alpha c) = shape (blank n).
Proof.
  intros Hn HF. destruct (copy_matrix_eq n K mp alpha c) as [(_ & _ & LR)|[X _]]; [|contradiction].
  unfold blank. rewrite shape_mat. unfold a_matrix, shape. cbn [map]. rewrite LR, map_repeat, repeat_length.
  replace (n - 2) with (S (n - 3)) at 4 by lia. reflexivity.
Qed.
(** *** Copy::create returns for exactly these inputs *)
Theorem C95_copy_prover_returns_iff ro rng pos tr (G H : list Point) Q mp Ms w openings :
  let n := length G in
  let v := a_placed n mp w (concat (map fst openings)) (rng pos) (rng (pos + 1)) in
  let cw := compress (lin v G) in
  let alpha := ro (cp_hist tr cw) in
  let wr := a_witness n mp v (cp_rand openings alpha) alpha in
  let Ms' := a_system n mp alpha Ms in
  let w' := firstn (n - 2) wr in
  let r' := skipn (n - 2) wr in
  let c1 := compress (lin (w' ++ r') G) in
  let x := ro (q_hist_x (cp_hist tr cw) c1) in
  let c2 := compress (lin (q_w'' n Ms' x w' r') H) in
  let s := ro (q_hist_s (cp_hist tr cw) c1 c2) in
  let b := ro (q_hist_b (cp_hist tr cw) c1 c2) in
  let Ms0 := Ms ++ repeat (blank n) (length (unique_commitment_indices mp)) in
  (exists out, copy_create ro rng pos tr G H Q mp (mkBlockMatrix Ms) w openings = Ok out) <->
  copy_inputs n mp w openings /\ (exists d, n = 2 ^ S (S d)) /\ length H = n /\
  fits n Ms0 /\ length (nth 0 Ms0 []) = n - 2 /\
  exists m1 p1 m2 p2, sample_m_n_plus rng (pos + 2) n = Ok (m1, p1) /\ sample_m_n_plus rng p1 n = Ok (m2, p2) /\
    alm_draws_ok (q_a n w' r' s b) (g_bv n Ms' x w' r' s b) m1 m2.
Proof.
  intros n v cw alpha wr Ms' w' r' c1 x c2 s b Ms0.
  assert (R := C95_copy_prover_run ro rng pos tr G H Q mp Ms w openings). cbv zeta in R. fold n in R. fold v in R. fold cw in R. fold alpha in R.
  fold wr in R. fold Ms' in R. fold w' in R. fold r' in R.
  destruct R as [(R1 & R2 & R3 & R4)|[R1 R2]].
  2:{ rewrite R2. split; [intros [o E]; discriminate|tauto]. }
  assert (ES : map shape Ms' = map shape Ms0).
  { unfold Ms', Ms0, a_system. rewrite !map_app. f_equal. destruct R1 as (_ & _ & (w1 & Ew) & Hn & _ & MF).
    rewrite map_map, map_repeat. unfold map_fits in MF. revert MF. generalize (unique_commitment_indices mp). intros keys MF.
    assert (Hn3 : 3 <= n) by (rewrite Ew in Hn; cbn [length] in Hn; lia).
    induction keys as [|c keys IH]; [reflexivity|]. cbn [map length repeat]. f_equal.
    - apply (a_matrix_shape n (length openings)); [exact Hn3|]. apply MF. now left.
    - apply IH. intros c' HI. apply MF. now right. }
  assert (LN : length (nth 0 Ms' []) = length (nth 0 Ms0 [])).
  { assert (E : length (nth 0 (map shape Ms') []) = length (nth 0 (map shape Ms0) [])) by (now rewrite ES).
    change (@nil nat) with (shape []) in E. rewrite !map_nth in E. unfold shape in E. now rewrite !map_length in E. }
  assert (LW : length w' = n - 2 /\ length r' = 2).
  { unfold w', r'. rewrite firstn_length, skipn_length, R4. destruct R1 as (_ & _ & _ & Hn & _). lia. }
  assert (I := C94_qesa_prover_returns_iff ro rng (pos + 2) (cp_hist tr cw) G H Q Ms' w' r'). cbv zeta in I.
  fold n in I. fold c1 in I. fold x in I. fold c2 in I. fold s in I. fold b in I.
  rewrite R2. split.
  - intros [o E]. apply bind_Ok_inv in E as ([[p tr'] pos'] & E & _). assert (I' := proj1 I (ex_intro _ _ E)).
    destruct I' as (I1 & I2 & _ & _ & I5 & I6 & I7). split; [exact R1|]. split; [exact I1|]. split; [exact I2|].
    split; [exact (fits_shapes n _ _ ES I5)|]. split; [now rewrite <- LN|exact I7].
  - intros (_ & I1 & I2 & I5 & I6 & I7). destruct (proj2 I) as [[[p tr'] pos'] E].
    + split; [exact I1|]. split; [exact I2|]. split; [apply LW|]. split; [apply LW|].
      split; [exact (fits_shapes n _ _ (eq_sym ES) I5)|]. split; [now rewrite LN|exact I7].
    + rewrite E. cbn [bind]. eexists. reflexivity.
Qed.

End CopyProver.

(** sizes: three generators act like two; too few generators, a short witness or an odd row make the
    provers panic; without generators and columns they loop *)
Example C95_case_lmpa :
  let lm A g w := rmap (fun '(p, _) => length (lm_L p)) (lmpa_create ro1 [] A (repeat (pN 1) g) [] (pN 0) (repeat (sN 3) w)) in
  let sz A g w := rmap (fun '(p, _) => length (lm_L (sz_no_zk p))) (simple_zk_create ro1 rng1 0 [] A (repeat (pN 1) g) [] (pN 0) (repeat (sN 3) w)) in
  let W k := [repeat (pN 5) k] in
  lm (W 2) 2 2 = Ok 1 /\ lm (W 2) 3 2 = Ok 1 /\ lm (W 4 ++ W 2 ++ W 0) 3 5 = Ok 1 /\ lm [] 2 2 = Ok 1 /\ lm (W 2) 2 1 = Panic /\
  lm (W 4 ++ W 3) 2 2 = Panic /\ lm (W 4) 4 4 = Ok 2 /\ lm (W 4 ++ W 2) 4 4 = Panic /\ lm (W 3) 1 1 = Ok 0 /\
  lm (W 2) 0 2 = Panic /\ lm (W 0 ++ W 8) 0 2 = Panic /\ lm (W 0) 0 2 = Diverge /\ lm [] 0 0 = Diverge /\
  sz (W 2) 3 2 = Ok 1 /\ sz (W 2) 2 1 = Panic /\ sz (W 2) 0 2 = Panic /\ sz (W 0) 0 2 = Diverge.
Proof. vm_compute. repeat split. Qed.

(** k = 2: told n = 3 the verifier reads two of three columns and gives a verdict, the prover panics;
    told n = 5 on four columns both run as for n = 4; n = 10 stops the verifier in the second round *)
Example C95_case_kary :
  let pf := mkLmpaKary (C := EX) [[pN 1]] [] [sN 2] (repeat [[pN 1]; [pN 2]; [pN 3]] 3) in
  let ve N n := rmap fst (verify_lmpa_noZK ro1 [] pf [repeat (pN 5) N] [pN 7] n 1 2 s1 p0) in
  let cr N nw n m nt := rmap (fun '(p, _) => length (u_proof_Block p))
     (create_lmpa_noZK ro1 [] [repeat (pN 5) N] (repeat (sN 2) nw) (repeat (pN 7) nt) n m 2 s1 p0) in
  ve 2 2 = Ok false /\ ve 3 3 = Ok false /\ ve 7 2 = Ok false /\ ve 1 2 = Panic /\ ve 4 5 = Ok false /\ ve 5 5 = Panic /\
  ve 6 6 = Ok false /\ ve 12 12 = Ok false /\ ve 10 10 = Panic /\ ve 9 1 = Ok false /\
  cr 2 2 2 1 1 = Ok 1 /\ cr 3 3 3 1 1 = Panic /\ cr 2 2 3 1 1 = Ok 1 /\ cr 4 4 5 1 1 = Ok 2 /\ cr 5 5 5 1 1 = Panic /\
  cr 6 6 6 1 1 = Panic /\ cr 4 4 4 2 1 = Panic /\ cr 4 4 4 1 2 = Panic /\ cr 4 2 4 1 1 = Panic /\ cr 3 9 1 5 7 = Ok 0.
Proof. vm_compute. repeat split. Qed.

(** hand-made mappings over eight generators: a repeated position, a target that overwrites the
    constant 1, positions among the two blinding entries when the index is not listed, and each
    number out of range *)
Example C95_case_copy :
  let M := [mat 6 6 (fun i j => if i =? 0 then nth j (map sN [0; 1; -1; 0; 0; 0]%Z) (sN 0) else sN 0)] in
  let mm ci crs p := mkMessageMap 0 ci crs p in
  let run ms keys := rmap (fun _ => tt) (copy_create ro1 rng1 0 [] G8 H8 (pN 17) (mkMapping 2 ms keys 9%N) (mkBlockMatrix M)
     [sN 1; sN 7] [([sN 7], sN 100); ([sN 9], sN 200)]) in
  run [mm 2 0 4; mm 3 1 5]%N [2; 3]%N = Ok tt /\ run [mm 2 0 4; mm 2 1 4]%N [2]%N = Ok tt /\
  run [mm 0 0 4; mm 3 1 0]%N [0; 3]%N = Ok tt /\ run [mm 2 0 6; mm 7 1 7]%N []%N = Ok tt /\
  run [mm 2 0 6; mm 3 1 5]%N [2; 3]%N = Panic /\ run [mm 2 0 8; mm 3 1 5]%N []%N = Panic /\ run [mm 8 0 4; mm 3 1 5]%N []%N = Panic /\
  run [mm 2 2 4; mm 3 1 5]%N []%N = Panic /\ run [] [6]%N = Panic /\ run [] [5; 5]%N = Ok tt.
Proof. vm_compute. repeat split. Qed.
