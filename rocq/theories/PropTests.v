(** C70: outcomes of the remaining unit tests *)
From Coq Require Import String.
From Verif Require Export UnitTests2 PropEqTest PropKary PropSimpleZK PropMath.
Local Open Scope string_scope.
Local Open Scope nat_scope.
Local Open Scope list_scope.

Section C70.
Context {C : Crypto} {L : CryptoLaws C}.
Add Field SfC70 : (@S_field C L).

Lemma assertb_seqb (x y : Scalar) : (assertb (seqb x y) = Ok tt <-> x = y) /\ (x <> y -> assertb (seqb x y) = Panic).
Proof.
  destruct (seqb x y) eqn:E; cbn.
  - apply seqb_eq in E. split; [tauto|]. congruence.
  - split; auto. split; [discriminate|]. intros <-. rewrite seqb_refl in E. discriminate.
Qed.
Lemma assertb_Ok_or_Panic b : assertb b = Ok tt \/ assertb b = Panic.
Proof. destruct b; auto. Qed.

(** ** math_utils.rs: the test holds for every base and every positive size *)
Theorem C70_vandermonde_test (x : Scalar) (n : nat) :
  test_vandermonde x n = if n =? 0 then Panic else Ok tt.
Proof.
  unfold test_vandermonde. destruct n as [|n]; [reflexivity|]. cbn [Nat.eqb].
  destruct (C02_vandemonde_challenge x (S n)) as (v & E & Hl & Hv); [lia|]. rewrite E. cbn [bind].
  rewrite Hl, Nat.eqb_refl. cbn [assertb bind].
  set (f := fun two_n i => _).
  assert (F : forall k lo, lo + k <= S n -> foldM f (seq lo k) (spow x (lo + 1)) = Ok (spow x (lo + k + 1))).
  { induction k as [|k IH]; intros lo Hk; cbn [seq foldM]; [now rewrite Nat.add_0_r|].
    unfold f at 1. rewrite (idx_lt _ _ s0) by lia. cbn [bind].
    change (nth lo v s0) with (sc v lo). rewrite Hv by lia. rewrite seqb_refl. cbn [assertb bind].
    replace (spow x (lo + 1) * x)%S with (spow x (S lo + 1)) by (cbn; ring).
    rewrite IH by lia. do 2 f_equal. lia. }
  specialize (F (S n) 0 ltac:(lia)). replace (spow x (0 + 1)) with x in F by (cbn; ring). rewrite F. reflexivity.
Qed.

(** ** gramschmidt.rs *)
Lemma away_isotropic (a v : list Scalar) : length v = length a -> dotp a a = s0 -> away a v = v.
Proof.
  intros Hl Z. symmetry. apply (tab_eq s0); [lia|]. intros i Hi. rewrite Z, sinv_0. unfold sc. ring.
Qed.
Lemma dotp_away_any (u a v : list Scalar) : length u = length a -> length v = length a ->
  dotp u (away a v) = (dotp u v - dotp a v * sinv (dotp a a) * dotp u a)%S.
Proof.
  intros Hu Hv. unfold dotp at 1 2 5. rewrite Hu.
  rewrite (sum_S_ext _ _ (fun i => sc u i * sc v i + - (dotp a v * sinv (dotp a a)) * (sc u i * sc a i))%S).
  - rewrite sum_S_add, sum_S_mul. ring.
  - intros i Hi. unfold away, sc at 2. rewrite tab_nth by exact Hi. fold (sc v i). ring.
Qed.
Theorem C70_orth_test (a b : list Scalar) : length a = length b ->
  (test_orth a b = Ok tt <-> dotp a b <> s0 /\ dotp a a <> s0) /\
  (test_orth a b = Ok tt \/ test_orth a b = Panic).
Proof.
  intros Hl. unfold test_orth.
  destruct (S_eq_dec (dotp a b) s0) as [Z|N].
  { rewrite orth_away_panic by auto. cbn [bind]. split; [|auto]. split; [discriminate|]. tauto. }
  rewrite orth_away by auto. cbn [bind]. rewrite inner_product_dot, dot_comm, dot_dotp by now rewrite away_length.
  split; [|apply assertb_Ok_or_Panic]. rewrite (proj1 (assertb_seqb _ _)). split.
  - intros E. split; auto. intros Z. rewrite away_isotropic in E by auto. contradiction.
  - intros [_ H]. now apply dotp_away.
Qed.

Lemma mask_total (rng : nat -> Scalar) pos n : 2 <= n -> exists m p, sample_m_n_plus rng pos n = Ok (m, p) /\ length m = n.
Proof.
  intros Hn. destruct (sample_m_n_plus_spec rng pos n Hn) as (g & p & E & _). exists (shown rng g), p. split; auto.
  now apply sample_m_n_plus_length in E.
Qed.
Theorem C70_sample_test (rng : nat -> Scalar) (a m : list Scalar) p :
  sample_m_n_plus rng 0 (length a) = Ok (m, p) ->
  (test_sample_gram_schmidt rng a = Ok tt <-> dotp a m <> s0 /\ dotp a a <> s0) /\
  (test_sample_gram_schmidt rng a = Ok tt \/ test_sample_gram_schmidt rng a = Panic).
Proof.
  intros E. assert (Lm := sample_m_n_plus_length _ _ _ _ _ E).
  assert (X := C70_orth_test a m (eq_sym Lm)). unfold test_orth in X. unfold test_sample_gram_schmidt, sample_gram_schmidt.
  rewrite E. cbn [bind]. destruct (orth a m) as [v| |]; cbn [bind] in *; exact X.
Qed.
Theorem C70_sample_tests_small_panic (rng : nat -> Scalar) (a b : list Scalar) : length a < 2 ->
  test_sample_gram_schmidt rng a = Panic /\ test_sample_gram_schmidt_twice rng a b = Panic.
Proof.
  intros Ha. unfold test_sample_gram_schmidt, test_sample_gram_schmidt_twice, sample_gram_schmidt_twice, sample_gram_schmidt.
  rewrite sample_m_n_plus_panic by auto. split; [reflexivity|].
  destruct (S_eq_dec (dot a b) s0) as [Z|N]; [now rewrite (proj2 (orth_panic a b) Z)|now rewrite orth_eq].
Qed.
(** two directions: the result is orthogonal to both exactly when the three products the
    code asserts on are non-zero and neither a nor the part of b away from a is isotropic;
    an isotropic a passes by accident only *)
Theorem C70_sample_twice_test (rng : nat -> Scalar) (a b m : list Scalar) p :
  length a = length b -> sample_m_n_plus rng 0 (length a) = Ok (m, p) ->
  let ob := away a b in
  (test_sample_gram_schmidt_twice rng a b = Ok tt <->
   (dotp a b <> s0 /\ dotp a m <> s0 /\ dotp ob (away a m) <> s0) /\
   ((dotp a a <> s0 /\ dotp ob ob <> s0) \/
    (dotp a a = s0 /\ dotp b b <> s0 /\ (dotp a m * dotp b b = dotp b m * dotp a b)%S))) /\
  (test_sample_gram_schmidt_twice rng a b = Ok tt \/ test_sample_gram_schmidt_twice rng a b = Panic).
Proof.
  intros Hl E ob. assert (Lm := sample_m_n_plus_length _ _ _ _ _ E).
  unfold test_sample_gram_schmidt_twice, sample_gram_schmidt_twice, sample_gram_schmidt.
  destruct (S_eq_dec (dotp a b) s0) as [Z1|N1].
  { rewrite orth_away_panic by auto. cbn [bind]. split; [|auto]. split; [discriminate|]. tauto. }
  rewrite orth_away by auto. cbn [bind]. rewrite E. cbn [bind]. fold ob.
  destruct (S_eq_dec (dotp a m) s0) as [Z2|N2].
  { rewrite (orth_away_panic a m) by auto. cbn [bind]. split; [|auto]. split; [discriminate|]. tauto. }
  rewrite (orth_away a m) by auto. cbn [bind]. set (m' := away a m).
  assert (Lo : length ob = length a) by apply away_length. assert (Lm' : length m' = length a) by apply away_length.
  destruct (S_eq_dec (dotp ob m') s0) as [Z3|N3].
  { rewrite (orth_away_panic ob m') by (auto; lia). cbn [bind]. split; [|auto]. split; [discriminate|]. tauto. }
  rewrite (orth_away ob m') by (auto; lia). cbn [bind]. set (v := away ob m').
  assert (Lv : length v = length a) by (unfold v; now rewrite away_length).
  rewrite !inner_product_dot, (dot_comm v a), (dot_comm v b), !dot_dotp by lia.
  split; [|destruct (seqb (dotp a v) s0); cbn; auto; apply assertb_Ok_or_Panic].
  assert (R : (assertb (seqb (dotp a v) s0) ;;; assertb (seqb (dotp b v) s0)) = Ok tt <-> dotp a v = s0 /\ dotp b v = s0).
  { destruct (seqb (dotp a v) s0) eqn:Q; cbn [assertb bind].
    - apply seqb_eq in Q. rewrite (proj1 (assertb_seqb _ _)). tauto.
    - split; [discriminate|]. intros [H _]. rewrite H, seqb_refl in Q. discriminate. }
  rewrite R. clear R.
  assert (Dv : forall u, length u = length a -> dotp u v = (dotp u m' - dotp ob m' * sinv (dotp ob ob) * dotp u ob)%S).
  { intros u Hu. unfold v. apply dotp_away_any; lia. }
  assert (Dob : forall u, length u = length a -> dotp u ob = (dotp u b - dotp a b * sinv (dotp a a) * dotp u a)%S)
    by (intros u Hu; apply dotp_away_any; lia).
  destruct (S_eq_dec (dotp a a) s0) as [Za|Na].
  - assert (Eo : ob = b) by (apply away_isotropic; auto). assert (Em : m' = m) by (apply away_isotropic; auto).
    rewrite !Dv by lia. rewrite Eo, Em in *. split.
    + intros [Ha Hb]. split; [auto|]. right. split; [auto|].
      assert (Nb : dotp b b <> s0).
      { intros Z. rewrite Z in Hb. apply N3. rewrite <- Hb. ring. }
      split; auto. apply ssub_0 in Ha. rewrite Ha. field. exact Nb.
    + intros [_ [[H _]|(_ & Nb & H)]]; [contradiction|]. split; [|field; exact Nb].
      assert (X : dotp a m = (dotp b m * dotp a b * sinv (dotp b b))%S) by (rewrite <- H; field; exact Nb). rewrite X. ring.
  - assert (Aob : dotp a ob = s0) by (apply dotp_away; [lia|auto]).
    assert (Am : dotp a m' = s0) by (apply dotp_away; [lia|auto]).
    assert (Eb : forall u, length u = length a -> dotp u b = (dotp u ob + dotp a b * sinv (dotp a a) * dotp u a)%S)
      by (intros u Hu; rewrite Dob by auto; ring).
    assert (Av : dotp a v = s0) by (rewrite Dv by auto; rewrite Aob, Am; ring).
    assert (Bv : dotp b v = dotp ob v).
    { rewrite (dotp_comm b v), (dotp_comm ob v) by lia. rewrite Eb by lia. rewrite (dotp_comm v a) by lia. rewrite Av. ring. }
    rewrite Bv. split.
    + intros [_ H]. split; [auto|]. left. split; auto. intros Z. rewrite Dv, Z, sinv_0 in H by lia. apply N3. rewrite <- H. ring.
    + intros [_ [[_ H]|[H _]]]; [|contradiction]. split; auto. unfold v. apply dotp_away; [lia|auto].
Qed.

(** ** ipa/no_zk.rs *)
Lemma test_nozk_eq (ro : oracle) tr (G H : list Point) (Q : Point) (a b : list Scalar) n :
  length G = n -> length H = n -> length a = n -> length b = n ->
  let tr1 := append_message tr "P" (compress (comb a G + comb b H + dotp a b *: Q)%P) in
  test_create_nozk_proof ro tr G H Q a b n =
  ('(proof, _) <- no_zk_create ro tr1 G H Q a b ;;
   '(accepted, _) <- no_zk_verify ro tr1 proof G H Q n (comb a G + comb b H + dotp a b *: Q)%P (dotp a b) ;;
   assertb accepted).
Proof.
  intros HG HH Ha Hb tr1. unfold test_create_nozk_proof. rewrite inner_product_dot, dot_dotp by lia.
  rewrite msm_Ok by (rewrite !app_length; cbn [length]; lia). cbn [bind].
  rewrite !lin_app by lia. rewrite !lin_comb by lia.
  replace (comb a G + (comb b H + lin [dotp a b] [Q]))%P with (comb a G + comb b H + dotp a b *: Q)%P; [reflexivity|].
  cbn. pring.
Qed.
(** the history from which the first challenge alpha of the test is derived *)
Definition nozk_test_start (tr : transcript) (G H : list Point) (Q : Point) (a b : list Scalar) (n : nat) : transcript :=
  tr ++ [EvMsg "P" (compress (comb a G + comb b H + dotp a b *: Q)%P); EvU64 "n" n; EvChal "alpha"].

Theorem C70_nozk_test (ro : oracle) tr (G H : list Point) (Q : Point) (a b : list Scalar) n :
  length G = n -> length H = n -> length a = n -> length b = n ->
  ((exists d, n = 2 ^ d) -> ro (nozk_test_start tr G H Q a b n) <> s0 -> test_create_nozk_proof ro tr G H Q a b n = Ok tt) /\
  (~ (exists d, n = 2 ^ d) -> test_create_nozk_proof ro tr G H Q a b n = Panic).
Proof.
  intros HG HH Ha Hb. rewrite test_nozk_eq by auto. cbv zeta. set (tr1 := append_message _ _ _). split.
  - intros [d Hd] Hal. destruct (C13_nozk_completeness ro tr1 d G H Q a b) as (pf & tr' & E & V); try congruence.
    { unfold ipa_start, tr1, append_message. rewrite <- app_assoc, <- Hd. exact Hal. }
    rewrite E. cbn [bind]. rewrite Hd. rewrite V. reflexivity.
  - intros Hd. destruct (no_zk_create ro tr1 G H Q a b) as [r| |] eqn:E; cbn [bind].
    + exfalso. apply Hd. destruct (proj1 (C14_nozk_create_returns ro tr1 G H Q a b)) as (d & X); [eauto|]. exists d. lia.
    + reflexivity.
    + exfalso. exact (C57_ipa_prover_terminates _ _ _ _ _ _ _ E).
Qed.
(** alpha = 0: the test passes only when the claimed product adds nothing to P *)
Theorem C70_nozk_test_alpha_zero (ro : oracle) tr (G H : list Point) (Q : Point) (a b : list Scalar) d :
  let n := 2 ^ d in
  length G = n -> length H = n -> length a = n -> length b = n ->
  ro (nozk_test_start tr G H Q a b n) = s0 -> (forall h, h <> nozk_test_start tr G H Q a b n -> ro h <> s0) ->
  test_create_nozk_proof ro tr G H Q a b n = (if peqb (dotp a b *: Q)%P p0 then Ok tt else Panic).
Proof.
  intros n HG HH Ha Hb Hal Hx. rewrite test_nozk_eq by auto. cbv zeta. set (tr1 := append_message _ _ _).
  assert (Es : ipa_start tr1 n = nozk_test_start tr G H Q a b n).
  { unfold ipa_start, tr1, append_message. rewrite <- app_assoc. reflexivity. }
  destruct (no_zk_complete ro tr1 G H Q a b d HG HH Ha Hb) as (pf & tr' & E & L1 & L2 & Et & V1 & V2).
  rewrite E. cbn [bind]. fold n in V1, V2.
  assert (Eal : ipa_alpha ro tr1 n = s0) by (unfold ipa_alpha; now rewrite Es).
  rewrite Eal in V1, V2. set (P := (comb a G + comb b H + dotp a b *: Q)%P) in *. specialize (V1 P (dotp a b)). specialize (V2 P (dotp a b)).
  assert (EP : P_alpha s0 (dotp a b) P Q = ipa_com G H (sinv s0 *: Q)%P a b <-> (dotp a b *: Q)%P = p0).
  { unfold P_alpha, ipa_com, P. rewrite sinv_0, !lin_comb, dot_dotp by lia. split; intros X.
    - transitivity ((comb a G + comb b H + dotp a b *: Q - ((s0 - s1) * dotp a b)%S *: (s0 *: Q)) - (comb a G + comb b H))%P; [pring|].
      rewrite X. pring.
    - rewrite X. pring. }
  destruct (peqb (dotp a b *: Q)%P p0) eqn:Q0.
  - apply peqb_eq in Q0. rewrite V1 by now apply EP. reflexivity.
  - destruct (no_zk_verify ro tr1 pf G H Q n P (dotp a b)) as [[ok r]| |] eqn:Ev; cbn [bind].
    + destruct ok; [|reflexivity]. exfalso. enough (X : (dotp a b *: Q)%P = p0) by (apply peqb_eq in X; congruence).
      apply EP. apply (V2 r); auto. intros j Hj. apply Hx. rewrite <- Es. intros X. apply (f_equal (@length _)) in X.
      unfold ipa_hist in X. rewrite app_length in X. assert (Lc : length (combine (L_vec pf) (R_vec pf)) = d) by (rewrite combine_length; lia).
      destruct (combine (L_vec pf) (R_vec pf)) as [|[l0 r0] LR]; cbn [length] in Lc; [lia|]. cbn in X. lia.
    + reflexivity.
    + exfalso. exact (C57_ipa_verifier_terminates _ _ _ _ _ _ _ _ _ Ev).
Qed.

(** ** ipa/alm_zk.rs *)
Lemma test_almzk_eq (ro : oracle) rng tr (G H : list Point) (Q : Point) (a b : list Scalar) n :
  length G = n -> length H = n -> length a = n -> length b = n ->
  test_create_almzk_proof ro rng tr G H Q a b n =
  ('(proof, _, _) <- alm_zk_create ro rng 0 tr G H Q (comb a G + comb b H)%P a b (dotp a b) ;;
   '(accepted, _) <- alm_zk_verify ro tr proof G H Q n (comb a G + comb b H)%P (dotp a b) ;;
   assertb accepted).
Proof.
  intros HG HH Ha Hb. unfold test_create_almzk_proof. rewrite inner_product_dot, dot_dotp by lia.
  rewrite msm_Ok by (rewrite !app_length; lia). cbn [bind]. rewrite lin_app by lia. now rewrite !lin_comb by lia.
Qed.
(** no draw outside [alm_draws_ok] passes, and the size has to be a power of two above one *)
Theorem C70_almzk_test_panics (ro : oracle) rng tr (G H : list Point) (Q : Point) (a b : list Scalar) n :
  length G = n -> length H = n -> length a = n -> length b = n ->
  ~ (exists d m1 p1 m2 p2, n = 2 ^ S d /\
       sample_m_n_plus rng 0 n = Ok (m1, p1) /\ sample_m_n_plus rng p1 n = Ok (m2, p2) /\ alm_draws_ok a b m1 m2) ->
  test_create_almzk_proof ro rng tr G H Q a b n = Panic.
Proof.
  intros HG HH Ha Hb N. rewrite test_almzk_eq by auto. rewrite create_panics; [reflexivity| |apply alm_no_divergence].
  intros X. apply N. revert X. now apply C59_almzk_create_returns_iff.
Qed.
(** the test passes when a, b and the part of the first mask away from a and b are not
    isotropic and the first challenge of the inner proof is not zero *)
Theorem C70_almzk_test_passes (ro : oracle) rng tr (G H : list Point) (Q : Point) (a b : list Scalar) d m1 p1 m2 p2 :
  let n := 2 ^ S d in
  length G = n -> length H = n -> length a = n -> length b = n ->
  sample_m_n_plus rng 0 n = Ok (m1, p1) -> sample_m_n_plus rng p1 n = Ok (m2, p2) -> alm_draws_ok a b m1 m2 ->
  let r' := away b m1 in
  let ob := away a r' in
  let r'' := away ob (away a m2) in
  dotp a a <> s0 -> dotp b b <> s0 -> dotp ob ob <> s0 ->
  let Cw := (comb a G + comb b H)%P in
  let Cr := (comb r' G + comb r'' H)%P in
  let beta := ro (alm_beta_hist tr (compress Cr)) in
  ro (ipa_start (alm_ipa_hist tr (compress Cr) (alm_P beta (dotp a b) Cw Cr Q)) n) <> s0 ->
  test_create_almzk_proof ro rng tr G H Q a b n = Ok tt.
Proof.
  intros n HG HH Ha Hb M1 M2 Dr r' ob r'' Naa Nbb Noo Cw Cr beta Hal.
  assert (Lm1 := sample_m_n_plus_length _ _ _ _ _ M1). assert (Lm2 := sample_m_n_plus_length _ _ _ _ _ M2).
  assert (Lr' : length r' = n) by (unfold r'; now rewrite away_length).
  assert (Lob : length ob = n) by (unfold ob; now rewrite away_length).
  assert (Lr2 : length r'' = n) by (unfold r''; now rewrite away_length).
  destruct Dr as (N1 & N2 & N3 & N4). fold r' in N2, N4. fold ob in N4.
  assert (S1 : sample_gram_schmidt rng 0 b = Ok (r', p1)).
  { unfold sample_gram_schmidt. rewrite Hb, M1. cbn [bind]. rewrite orth_away by (auto; lia). reflexivity. }
  assert (O1 : orth a r' = Ok ob) by (apply orth_away; auto; lia).
  assert (S2 : sample_gram_schmidt_twice rng p1 a r' = Ok (r'', p2)).
  { unfold sample_gram_schmidt_twice. rewrite O1. cbn [bind]. unfold sample_gram_schmidt. rewrite Ha, M2. cbn [bind].
    rewrite (orth_away a m2) by (auto; lia). cbn [bind]. rewrite (orth_away ob) by (auto; rewrite away_length; lia). reflexivity. }
  rewrite test_almzk_eq by auto.
  destruct (proj2 (C59_almzk_create_returns_iff ro rng 0 tr G H Q (comb a G + comb b H)%P a b (dotp a b) n HG HH Ha Hb)) as [[[pf tr'] pos'] E].
  { exists d, m1, p1, m2, p2. repeat split; auto. }
  rewrite E. cbn [bind].
  assert (EC : C_r pf = compress Cr).
  { destruct (alm_create_inv _ _ _ _ _ _ _ _ _ _ _ _ _ _ n HG HH Ha Hb E) as (d' & x' & x'' & pos1 & _ & _ & _ & X1 & X2 & X3 & _).
    rewrite S1 in X1. injection X1 as <- <-. rewrite S2 in X2. injection X2 as <- <-. rewrite X3. unfold Cr.
    now rewrite <- !lin_comb by lia. }
  rewrite (C18_almzk_completeness ro rng 0 tr G H Q a b n pf tr' pos' HG HH Ha Hb E Naa Nbb); [reflexivity| |].
  - intros x p o X1 X2. rewrite S1 in X1. injection X1 as <- <-. rewrite O1 in X2. injection X2 as <-. exact Noo.
  - intros Cr0. rewrite EC, decompress_compress. intros [= <-]. exact Hal.
Qed.

(** ** lmpa/no_zk.rs and lmpa/simple_zk.rs *)
Theorem C70_lmpa_tests (ro : oracle) rng tr d m (A : list (list Point)) (G H : list Point) (Q : Point) (w : list Scalar) :
  1 <= m -> rect m (2 ^ d) A -> length G = 2 ^ d -> length w = 2 ^ d ->
  test_lmpa_no_zk_create_verify ro tr A G H Q w (2 ^ d) = Ok tt /\
  test_lmpa_simple_zk_create_verify ro rng tr A G H Q w (2 ^ d) = Ok tt.
Proof.
  intros Hm HA HG Hw. unfold test_lmpa_no_zk_create_verify, test_lmpa_simple_zk_create_verify.
  rewrite !(pmv_lin m (2 ^ d)) by auto. split.
  - destruct (C36_lmpa_completeness ro tr d m A G H Q w) as (pf & tr' & E & V); auto.
    rewrite E. cbn [bind]. rewrite V. reflexivity.
  - destruct (C40_simple_zk_completeness ro rng 0 tr d m A G H Q w) as (pf & tr' & E & V); auto.
    rewrite E. cbn [bind]. rewrite V. reflexivity.
Qed.
Theorem C70_kary_tests (ro : oracle) rng tr k d m (A : list (list Point)) (w : list Scalar) :
  2 <= k -> 1 <= d -> 1 <= m -> rect m (k ^ d) A -> length w = k ^ d -> (forall h, ro h <> s0) ->
  test_lmpa_noZK_merlin ro tr A w k d m = Ok tt /\ test_lmpa_ZK_merlin ro rng tr A w k d m = Ok tt.
Proof.
  intros Hk Hd Hm HA Hw Hx. unfold test_lmpa_noZK_merlin, test_lmpa_ZK_merlin. cbv zeta. rewrite !(pmv_lin m (k ^ d)) by auto.
  assert (E1 : k ^ d = 1 * k ^ d) by lia. split.
  - destruct (C43_kary_completeness ro tr m k 1 d A w) as (pf & tr' & E & _ & _ & _ & _ & V); try lia; try now rewrite <- E1.
    cbv zeta in *. rewrite <- E1 in *. rewrite E. cbn [bind]. rewrite V by auto. reflexivity.
  - destruct (C46_general_completeness ro rng 0 tr m k 1 d A w) as (pf & tr' & E & _ & V); try lia; try now rewrite <- E1.
    cbv zeta in *. rewrite <- E1 in *. rewrite E. cbn [bind]. rewrite V by auto. reflexivity.
Qed.
Theorem C70_commitment_test (G : list Point) (G0 : Point) (w1 w2 r1 r2 a1 a2 : Scalar) :
  test_commitment_combination G G0 w1 w2 r1 r2 a1 a2 = if length G =? 1 then Ok tt else Panic.
Proof.
  unfold test_commitment_combination. destruct (Nat.eqb_spec (length G) 1) as [E|E].
  - rewrite !(proj1 (C48_pedersen_value _ _ _ _)) by (cbn [length]; lia). cbn [bind].
    destruct G as [|g [|]]; try discriminate. unfold comb. cbn.
    match goal with |- assertb (peqb ?x ?y) = _ => assert (X : x = y) by pring; rewrite X end.
    now rewrite (proj2 (peqb_eq _ _)).
  - rewrite (proj2 (C48_pedersen_value _ _ _ _)) by (cbn [length]; lia). reflexivity.
Qed.

End C70.

(** concrete runs of every test, and of the failing branches: a vector of length 3, a
    vector orthogonal to a, an isotropic vector *)
Example C70_case :
  test_vandermonde (sN 2) 32 = Ok tt /\
  test_orth [sN 1; sN 2; sN 3; sN 4] [sN 5; sN 6; sN 7; sN 8] = Ok tt /\
  test_orth [sN 1; sN 2] [sN 4; sN (-2)] = Panic /\
  test_orth [sR 1; sR sqrt_m1] [sR 4; sR 3] = Panic /\
  test_sample_gram_schmidt rngA [sN 1; sN 2; sN 3; sN 4] = Ok tt /\
  test_sample_gram_schmidt_twice rngA [sN 1; sN 2; sN 3; sN 4] [sN 5; sN 9; sN 7; sN 8] = Ok tt /\
  test_sample_gram_schmidt_twice rngA [sN 1; sN 2; sN 3; sN 4] [sN 2; sN 4; sN 6; sN 8] = Panic.
Proof. vm_compute. repeat split. Qed.
Example C70_case_args :
  test_create_nozk_proof ro1 [] G4 H4 (pN 77) [sN 1; sN 2; sN 3; sN 4] [sN 5; sN 6; sN 7; sN 8] 4 = Ok tt /\
  test_create_nozk_proof ro1 [] [pN 2; pN 3; pN 5] [pN 7; pN 11; pN 13] (pN 77) [sN 1; sN 2; sN 3] [sN 5; sN 6; sN 7] 3 = Panic /\
  test_create_nozk_proof (fun h => if length h =? 3 then s0 else ro1 h) [] G4 H4 (pN 77) [sN 1; sN 2; sN 3; sN 4] [sN 5; sN 6; sN 7; sN 8] 4 = Panic /\
  test_create_almzk_proof ro1 rng1 [] G4 H4 (pN 77) [sN 1; sN 2; sN 3; sN 4] [sN 5; sN 6; sN 7; sN 9] 4 = Ok tt /\
  test_create_almzk_proof ro1 rng1 [] G4 H4 (pN 77) [sN 1; sN 2; sN 3; sN 4] [sN 1; sN 2; sN 3; sN 4] 4 = Panic /\
  test_commitment_combination [pN 3] (pN 5) (sN 1) (sN 2) (sN 3) (sN 4) (sN 5) (sN 6) = Ok tt /\
  test_commitment_combination [pN 3; pN 7] (pN 5) (sN 1) (sN 2) (sN 3) (sN 4) (sN 5) (sN 6) = Panic.
Proof. vm_compute. repeat split. Qed.
Example C70_case_lmpa :
  let A := [G4; H4; [pN 9; pN 1; pN 4; pN 6]; [pN 0; pN 3; pN 3; pN 8]] in
  let w := [sN 1; sN 2; sN 3; sN 4] in
  test_lmpa_no_zk_create_verify ro1 [] A G4 H4 (pN 77) w 4 = Ok tt /\
  test_lmpa_simple_zk_create_verify ro1 rngA [] A G4 H4 (pN 77) w 4 = Ok tt /\
  test_lmpa_noZK_merlin ro1 [] A w 2 2 4 = Ok tt /\
  test_lmpa_ZK_merlin ro1 rngA [] A w 2 2 4 = Ok tt.
Proof. vm_compute. repeat split. Qed.
