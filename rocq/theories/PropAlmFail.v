(** C59, C60: inputs on which the almost zero-knowledge prover never succeeds, and what its
    last message reveals. *)
From Coq Require Import String.
From Verif Require Export PropAlm.
Local Open Scope string_scope.
Local Open Scope nat_scope.
Local Open Scope list_scope.

Section C59.
Context {C : Crypto} {L : CryptoLaws C}.
Add Field SfC59 : (@S_field C L).

(** v minus its projection on a *)
Definition away (a v : list Scalar) : list Scalar :=
  tab (length a) (fun i => sc v i - dotp a v * sinv (dotp a a) * sc a i)%S.

Lemma orth_away (a v : list Scalar) : length a = length v -> dotp a v <> s0 -> orth a v = Ok (away a v).
Proof.
  intros Hl H. rewrite <- dot_dotp in H by auto. rewrite orth_eq by auto. f_equal.
  apply (tab_eq s0); [rewrite map2_length; lia|]. intros i Hi.
  rewrite (map2_nth _ _ _ _ s0 s0) by lia. unfold proj_coef. rewrite !dot_dotp by auto. reflexivity.
Qed.
Lemma orth_away_panic (a v : list Scalar) : length a = length v -> dotp a v = s0 -> orth a v = Panic.
Proof. intros Hl H. apply orth_panic. now rewrite dot_dotp by auto. Qed.
Lemma away_length a v : length (away a v) = length a.
Proof. apply tab_length. Qed.

(** the four products that have to be non-zero for a run with masks m1, m2 to get through *)
Definition alm_draws_ok (a b m1 m2 : list Scalar) : Prop :=
  let r' := away b m1 in
  dotp b m1 <> s0 /\ dotp a r' <> s0 /\ dotp a m2 <> s0 /\ dotp (away a r') (away a m2) <> s0.

Theorem C59_almzk_create_returns_iff (ro : oracle) rng pos tr (G H : list Point) (Q Cw : Point) (a b : list Scalar) t n :
  length G = n -> length H = n -> length a = n -> length b = n ->
  (exists r, alm_zk_create ro rng pos tr G H Q Cw a b t = Ok r) <->
  exists d m1 p1 m2 p2, n = 2 ^ S d /\
    sample_m_n_plus rng pos n = Ok (m1, p1) /\ sample_m_n_plus rng p1 n = Ok (m2, p2) /\
    alm_draws_ok a b m1 m2.
Proof.
  intros HG HH Ha Hb. split.
  - intros [[[pf tr'] pos'] E].
    destruct (alm_create_inv _ _ _ _ _ _ _ _ _ _ _ _ _ _ n HG HH Ha Hb E)
      as (d & r' & r'' & pos1 & Hn & L1 & L2 & S1 & S2 & _).
    apply sgs_inv in S1 as (m1 & M1 & Lm1 & O1). rewrite Hb in M1, Lm1.
    apply sgst_inv in S2 as (ob & r2 & O2 & S2 & O3). apply sgs_inv in S2 as (m2 & M2 & Lm2 & O4).
    rewrite Ha in M2, Lm2.
    assert (N1 : dotp b m1 <> s0) by (intros Z; rewrite (orth_away_panic b m1) in O1 by (auto; lia); discriminate).
    rewrite (orth_away b m1) in O1 by (auto; lia). injection O1 as <-.
    assert (N2 : dotp a (away b m1) <> s0)
      by (intros Z; rewrite (orth_away_panic a) in O2 by (auto; rewrite away_length; lia); discriminate).
    rewrite (orth_away a) in O2 by (auto; rewrite away_length; lia). injection O2 as <-.
    assert (N3 : dotp a m2 <> s0) by (intros Z; rewrite (orth_away_panic a m2) in O4 by (auto; lia); discriminate).
    rewrite (orth_away a m2) in O4 by (auto; lia). injection O4 as <-.
    assert (N4 : dotp (away a (away b m1)) (away a m2) <> s0)
      by (intros Z; rewrite (orth_away_panic (away a (away b m1))) in O3 by (auto; rewrite !away_length; lia); discriminate).
    destruct d as [|d].
    { exfalso. rewrite sample_m_n_plus_panic in M1 by (rewrite Hn; cbn; lia). discriminate. }
    exists d, m1, pos1, m2, pos'. repeat split; auto.
  - intros (d & m1 & p1 & m2 & p2 & Hn & M1 & M2 & N1 & N2 & N3 & N4).
    assert (Lm1 := sample_m_n_plus_length _ _ _ _ _ M1). assert (Lm2 := sample_m_n_plus_length _ _ _ _ _ M2).
    unfold alm_zk_create, sample_gram_schmidt_twice, sample_gram_schmidt. rewrite Ha, Hb, M1. cbn [bind].
    rewrite (orth_away b m1) by (auto; lia). cbn [bind].
    rewrite (orth_away a (away b m1)) by (auto; rewrite away_length; lia). cbn [bind]. rewrite M2. cbn [bind].
    rewrite (orth_away a m2) by (auto; lia). cbn [bind].
    rewrite (orth_away (away a (away b m1))) by (auto; rewrite !away_length; lia). cbn [bind].
    rewrite msm_Ok by (rewrite !app_length, !away_length; lia). cbn [bind]. cbv zeta.
    destruct (challenge_scalar _ _ _) as [beta tr1].
    match goal with |- context [no_zk_create ro ?T G H Q ?x ?y] =>
      destruct (proj2 (C14_nozk_create_returns ro T G H Q x y)) as [[pf trf] E] end.
    { exists (S d). rewrite !map2_length, !away_length. repeat split; lia. }
    rewrite E. cbn [bind]. eauto.
Qed.

(** b (or a) vanishing at the mask positions: no random tape helps *)
Lemma mask_dot (rng : nat -> Scalar) pos n m p (v : list Scalar) : sample_m_n_plus rng pos n = Ok (m, p) -> length v = n ->
  (forall i, i < n -> in_mn_plus n i -> sc v i = s0) -> dotp v m = s0.
Proof.
  intros E Hv Hz. destruct (Nat.lt_ge_cases n 2) as [Hn|Hn].
  - rewrite sample_m_n_plus_panic in E by auto. discriminate.
  - destruct (sample_m_n_plus_spec rng pos n Hn) as (g & p' & E' & Hl & HP & _).
    rewrite E in E'. injection E' as -> <-. unfold dotp. rewrite Hv. apply sum_S_0. intros i Hi.
    destruct (nth i g None) as [k|] eqn:Eg.
    + rewrite Hz; [ring|auto|]. assert (X : nth i g None <> None) by congruence. apply HP in X; auto.
      unfold in_mn_plus, pow_pos_from in *. destruct X as [X|[X|[(j & J1 & J2 & J3)|X]]]; auto.
      right; right; left. exists j. rewrite Nat.add_1_r. auto.
    + assert (X : sc (shown rng g) i = s0).
      { unfold sc, shown. erewrite nth_indep; [erewrite (map_nth _ g None); rewrite Eg; reflexivity|rewrite map_length; lia]. }
      rewrite X. ring.
Qed.
Lemma create_panics ro rng pos tr (G H : list Point) (Q Cw : Point) (a b : list Scalar) t :
  ~ (exists r, alm_zk_create ro rng pos tr G H Q Cw a b t = Ok r) ->
  alm_zk_create ro rng pos tr G H Q Cw a b t <> Diverge ->
  alm_zk_create ro rng pos tr G H Q Cw a b t = Panic.
Proof. intros N D. destruct (alm_zk_create ro rng pos tr G H Q Cw a b t) as [r| |]; auto; [destruct N; now exists r|contradiction]. Qed.
Lemma alm_no_divergence ro rng pos tr (G H : list Point) (Q Cw : Point) (a b : list Scalar) t :
  alm_zk_create ro rng pos tr G H Q Cw a b t <> Diverge.
Proof.
  unfold alm_zk_create.
  destruct (sgs_cases rng pos b) as [(r' & p & E)|E]; rewrite E; cbn [bind]; [|discriminate].
  unfold sample_gram_schmidt_twice.
  assert (O : forall u v : list Scalar, (exists w, orth u v = Ok w) \/ orth u v = Panic).
  { intros u v. destruct (S_eq_dec (dot u v) s0) as [Z|Z]; [right; now apply orth_panic|left; rewrite orth_eq by auto; eauto]. }
  destruct (O a r') as [[ob Eo]|Eo]; rewrite Eo; cbn [bind]; [|discriminate].
  destruct (sgs_cases rng p a) as [(r2 & p2 & E2)|E2]; rewrite E2; cbn [bind]; [|discriminate].
  destruct (O ob r2) as [[r'' Er]|Er]; rewrite Er; cbn [bind]; [|discriminate].
  destruct (Nat.eq_dec (length (r' ++ r'')) (length (G ++ H))) as [El|El].
  - rewrite msm_Ok by auto. cbn [bind]. cbv zeta. destruct (challenge_scalar _ _ _) as [beta tr1].
    match goal with |- context [no_zk_create ro ?T G H Q ?x ?y] =>
      assert (X := C14_nozk_create_no_divergence ro T G H Q x y); destruct (no_zk_create ro T G H Q x y) as [[pf trf]| |] end;
      cbn [bind]; try discriminate. assert (Y : @Diverge (NoZK * transcript) = Panic) by (apply X; intros; discriminate). discriminate Y.
  - rewrite msm_Panic by auto. discriminate.
Qed.

Theorem C59_mask_positions_zero_panics (ro : oracle) rng pos tr (G H : list Point) (Q Cw : Point) (a b : list Scalar) t n :
  length G = n -> length H = n -> length a = n -> length b = n ->
  (forall i, i < n -> in_mn_plus n i -> sc b i = s0) \/ (forall i, i < n -> in_mn_plus n i -> sc a i = s0) ->
  alm_zk_create ro rng pos tr G H Q Cw a b t = Panic.
Proof.
  intros HG HH Ha Hb Hz. apply create_panics; [|apply alm_no_divergence].
  rewrite (C59_almzk_create_returns_iff _ _ _ _ _ _ _ _ _ _ _ n) by auto.
  intros (d & m1 & p1 & m2 & p2 & Hn & M1 & M2 & N1 & N2 & N3 & N4). destruct Hz as [Hz|Hz].
  - apply N1. now apply (mask_dot rng pos n m1 p1).
  - apply N3. now apply (mask_dot rng p1 n m2 p2).
Qed.

(** a proportional to b (for instance a = b): no random tape helps *)
Lemma dotp_away (b m : list Scalar) : length m = length b -> dotp b b <> s0 -> dotp b (away b m) = s0.
Proof.
  intros Hl Hb. rewrite <- !dot_dotp in * by (rewrite ?away_length; auto).
  assert (E : away b m = map2 (fun r s => r - proj_coef b m * s)%S m b).
  { symmetry. apply (tab_eq s0); [rewrite map2_length; lia|]. intros i Hi.
    rewrite (map2_nth _ _ _ _ s0 s0) by lia. unfold proj_coef. rewrite !dot_dotp by auto. reflexivity. }
  rewrite E. now apply proj_orth.
Qed.
Theorem C59_parallel_panics (ro : oracle) rng pos tr (G H : list Point) (Q Cw : Point) (a b : list Scalar) (c : Scalar) t n :
  length G = n -> length H = n -> length a = n -> length b = n ->
  (forall i, i < n -> sc a i = (c * sc b i)%S) -> dotp b b <> s0 ->
  alm_zk_create ro rng pos tr G H Q Cw a b t = Panic.
Proof.
  intros HG HH Ha Hb Hc Hbb. apply create_panics; [|apply alm_no_divergence].
  rewrite (C59_almzk_create_returns_iff _ _ _ _ _ _ _ _ _ _ _ n) by auto.
  intros (d & m1 & p1 & m2 & p2 & Hn & M1 & M2 & N1 & N2 & N3 & N4).
  apply N2. assert (Lm1 := sample_m_n_plus_length _ _ _ _ _ M1).
  transitivity (c * dotp b (away b m1))%S; [|rewrite dotp_away by (auto; lia); ring].
  unfold dotp. rewrite Ha, Hb, <- sum_S_mul. apply sum_S_ext. intros i Hi. rewrite Hc by auto. ring.
Qed.
(** the length-one argument *)
Theorem C59_length_one_panics (ro : oracle) rng pos tr (G H : list Point) (Q Cw : Point) (a b : list Scalar) t :
  length b <= 1 -> alm_zk_create ro rng pos tr G H Q Cw a b t = Panic.
Proof. intros Hb. unfold alm_zk_create, sample_gram_schmidt. rewrite sample_m_n_plus_panic by lia. reflexivity. Qed.
End C59.

Example C59_case :
  let run n a b := rmap (fun _ => tt) (alm_zk_create ro1 rng1 0 [] (map (fun i => pN (Z.of_nat (3 * i + 1))) (seq 0 n))
       (map (fun i => pN (Z.of_nat (5 * i + 2))) (seq 0 n)) (pN 17) (pN 3) a b (sN 1)) in
  let e6 := map (fun i => if (6 <=? i) && (i <=? 7) then sN 4 else sN 0) (seq 0 16) in
  let e8 := map (fun i => if (6 <=? i) && (i <=? 8) then sN 4 else sN 0) (seq 0 16) in
  let u := map (fun i => sN (Z.of_nat (i + 1))) (seq 0 16) in
  let v := [sN 1; sN 2; sN 3; sN 4] in
  run 16 u e6 = Panic /\ run 16 e6 u = Panic /\ run 16 u e8 = Ok tt /\ run 16 e8 u = Ok tt /\
  run 4 v v = Panic /\ run 4 [sN 2; sN 4; sN 6; sN 8] v = Panic /\ run 4 [sN 2; sN 4; sN 6; sN 9] v = Ok tt /\
  run 1 [sN 2] [sN 3] = Panic.
Proof. vm_compute. repeat split. Qed.

Section C60.
Context {C : Crypto} {L : CryptoLaws C}.
Add Field SfC60 : (@S_field C L).

Lemma sc_stepa x h (a : list Scalar) i : length a = 2 * h -> i < h -> sc (stepa x h a) i = (x * sc a i + sc a (h + i))%S.
Proof.
  intros HG Hi. destruct (half_len h a HG) as [H1 H2]. unfold sc, stepa.
  rewrite (map2_nth _ _ _ _ s0 s0) by lia.
  rewrite <- (firstn_skipn h a) at 3 4. rewrite app_nth1, app_nth2 by lia. rewrite H1, Nat.add_comm, Nat.add_sub. ring.
Qed.
Lemma sc_stepb x h (b : list Scalar) i : length b = 2 * h -> i < h -> sc (stepb x h b) i = (sc b i + x * sc b (h + i))%S.
Proof.
  intros HG Hi. destruct (half_len h b HG) as [H1 H2]. unfold sc, stepb.
  rewrite (map2_nth _ _ _ _ s0 s0) by lia.
  rewrite <- (firstn_skipn h b) at 3 4. rewrite app_nth1, app_nth2 by lia. rewrite H1, Nat.add_comm, Nat.add_sub. ring.
Qed.
Lemma create_loop_resp ro Q d : forall fuel tr G H a b Ls Rs,
  d < fuel -> length G = 2 ^ d -> length H = 2 ^ d -> length a = 2 ^ d -> length b = 2 ^ d ->
  exists ls rs a0 b0,
    let xs := fst (gen_ch ro (combine ls rs) tr) in
    no_zk_create_loop fuel ro tr Q (2 ^ d) G H a b Ls Rs =
      Ok (mkNoZK (Ls ++ ls) (Rs ++ rs) a0 b0, snd (gen_ch ro (combine ls rs) tr)) /\
    length ls = d /\ length rs = d /\
    a0 = sum_S (2 ^ d) (fun i => coefH d xs i * sc a i)%S /\
    b0 = sum_S (2 ^ d) (fun i => coefG d xs i * sc b i)%S.
Proof.
  induction d as [|d IH]; intros fuel tr G H a b Ls Rs Hf HG HH Ha Hb;
    (destruct fuel as [|fuel]; [lia|]); cbn [no_zk_create_loop].
  - change (2 ^ 0) with 1 in *. cbn [Nat.eqb].
    apply length1 in Ha as [a0 ->]. apply length1 in Hb as [b0 ->].
    exists [], [], a0, b0. cbn. rewrite !app_nil_r. unfold coefH, coefG, sc. cbn. repeat split; auto; ring.
  - assert (E2 : 2 ^ S d = 2 * 2 ^ d) by apply Nat.pow_succ_r'.
    assert (Hp := pow2_pos d).
    destruct (Nat.eqb_spec (2 ^ S d) 1) as [|_]; [lia|].
    rewrite pow2_half. rewrite E2 in HG, HH, Ha, Hb.
    rewrite !split_at_le by lia. cbn [bind].
    destruct (half_len _ a Ha) as [Ha1 Ha2]. destruct (half_len _ b Hb) as [Hb1 Hb2].
    destruct (half_len _ G HG) as [HG1 HG2]. destruct (half_len _ H HH) as [HH1 HH2].
    rewrite !inner_product_dot. rewrite !msm3 by lia. cbn [bind].
    fold (ipa_L (2 ^ d) G H Q a b). fold (ipa_R (2 ^ d) G H Q a b).
    set (lp := compress (ipa_L (2 ^ d) G H Q a b)). set (rp := compress (ipa_R (2 ^ d) G H Q a b)).
    unfold append_message, challenge_scalar.
    replace (((tr ++ [EvMsg "L" lp]) ++ [EvMsg "R" rp]) ++ [EvChal "x_i"])
      with (tr ++ ipa_round (lp, rp)) by (rewrite <- !app_assoc; reflexivity).
    set (tr1 := tr ++ ipa_round (lp, rp)). set (x := ro tr1).
    fold (stepa x (2 ^ d) a). fold (stepb x (2 ^ d) b). fold (stepG x (2 ^ d) G). fold (stepH x (2 ^ d) H).
    destruct (IH fuel tr1 (stepG x (2 ^ d) G) (stepH x (2 ^ d) H) (stepa x (2 ^ d) a) (stepb x (2 ^ d) b) (Ls ++ [lp]) (Rs ++ [rp]))
      as (ls & rs & a0 & b0 & Hc & Hl1 & Hl2 & Ea & Eb); try lia.
    { now apply stepG_length. } { now apply stepH_length. }
    { unfold stepa. rewrite map2_length. lia. } { unfold stepb. rewrite map2_length. lia. }
    exists (lp :: ls), (rp :: rs), a0, b0.
    cbn [combine gen_ch]. fold tr1. fold x.
    destruct (gen_ch ro (combine ls rs) tr1) as [xs tr'] eqn:Eg. cbn [fst snd] in *.
    split; [rewrite <- !app_assoc in Hc; exact Hc|]. cbn [length]. split; [lia|]. split; [lia|].
    rewrite E2. replace (2 * 2 ^ d) with (2 ^ d + 2 ^ d) by lia. rewrite !sum_S_app, <- !sum_S_add. subst a0 b0.
    split; apply sum_S_ext; intros i Hi.
    + rewrite coefH_low, coefH_high, sc_stepa by auto. ring.
    + rewrite coefG_low, coefG_high, sc_stepb by auto. ring.
Qed.

(** the last message of the inner-product prover, as a function of its vectors and the challenges *)
Theorem C60_ipa_response (ro : oracle) tr (G H : list Point) (Q : Point) (a b : list Scalar) d pf tr' :
  let n := 2 ^ d in
  length a = n -> length b = n ->
  no_zk_create ro tr G H Q a b = Ok (pf, tr') ->
  let xs := tab d (fun j => ro (ipa_hist tr n (combine (L_vec pf) (R_vec pf)) (S j))) in
  nz_a pf = sum_S n (fun i => coefH d xs i * sc a i)%S /\
  nz_b pf = sum_S n (fun i => coefG d xs i * sc b i)%S.
Proof.
  intros n Ha Hb E.
  destruct (proj1 (C14_nozk_create_returns ro tr G H Q a b) (ex_intro _ _ E)) as (d' & HG & HH & Ha' & Hb').
  assert (d' = d).
  { apply (Nat.pow_inj_r 2); [lia|]. unfold n in Ha. congruence. } subst d'.
  unfold no_zk_create in E. rewrite HG, HH, Ha', Hb', !Nat.eqb_refl in E. cbn [assertb bind] in E.
  assert (Hpow : is_power_of_two (2 ^ d) = true) by (apply is_power_of_two_spec; now exists d).
  rewrite Hpow in E. cbn [assertb bind] in E. unfold append_u64, challenge_scalar in E.
  replace ((tr ++ [EvU64 "n" (2 ^ d)]) ++ [EvChal "alpha"]) with (ipa_start tr (2 ^ d)) in E
    by (unfold ipa_start; now rewrite <- app_assoc).
  destruct (create_loop_resp ro (sinv (ro (ipa_start tr (2 ^ d))) *: Q)%P d (S (2 ^ d)) (ipa_start tr (2 ^ d)) G H a b [] [])
    as (ls & rs & a0 & b0 & Hc & Hl1 & Hl2 & Ea & Eb); auto.
  { assert (X := pow2_gt d). lia. }
  rewrite Hc in E. injection E as <- _. cbn [L_vec R_vec nz_a nz_b app]. cbv zeta.
  rewrite gen_ch_spec in Ea, Eb. cbn [fst] in Ea, Eb. rewrite combine_length, Hl1, Hl2, Nat.min_id in Ea, Eb. auto.
Qed.

(** n = 2: the second mask is zero, the proof reveals b_0 + x b_1 *)
Lemma away2 (u v : list Scalar) : length u = 2 -> length v = 2 -> dotp u u <> s0 ->
  (exists a, length a = 2 /\ dotp a a <> s0 /\ dotp a u = s0 /\ dotp a v = s0) ->
  away u v = [s0; s0].
Proof.
  intros Hu Hv Huu (a & La & Haa & Hau & Hav).
  destruct u as [|u0 [|u1 [|]]]; try discriminate. destruct v as [|v0 [|v1 [|]]]; try discriminate.
  destruct a as [|a0 [|a1 [|]]]; try discriminate.
  unfold dotp, sc in Huu, Haa, Hau, Hav. cbn in Huu, Haa, Hau, Hav.
  unfold away, dotp, sc. cbn.
  set (D := (s0 + u0 * u0 + u1 * u1)%S) in *.
  assert (X : (u0 * v1 - u1 * v0 = s0)%S).
  { destruct (S_eq_dec (u0 * v1 - u1 * v0)%S s0) as [|Z]; auto. exfalso. apply Haa.
    assert (A0 : (a0 * (u0 * v1 - u1 * v0) = s0)%S).
    { transitivity ((s0 + a0 * u0 + a1 * u1) * v1 - (s0 + a0 * v0 + a1 * v1) * u1)%S; [ring|]. rewrite Hau, Hav. ring. }
    assert (A1 : (a1 * (u0 * v1 - u1 * v0) = s0)%S).
    { transitivity ((s0 + a0 * v0 + a1 * v1) * u0 - (s0 + a0 * u0 + a1 * u1) * v0)%S; [ring|]. rewrite Hau, Hav. ring. }
    apply smul_eq_0 in A0 as [->|]; [|contradiction]. apply smul_eq_0 in A1 as [->|]; [|contradiction]. ring. }
  f_equal; [|f_equal].
  - transitivity ((sinv D * D) * v0 - (s0 + u0 * v0 + u1 * v1) * sinv D * u0)%S; [rewrite sinv_l by auto; ring|].
    transitivity (sinv D * (- u1 * (u0 * v1 - u1 * v0)))%S; [unfold D; ring|]. rewrite X. ring.
  - transitivity ((sinv D * D) * v1 - (s0 + u0 * v0 + u1 * v1) * sinv D * u1)%S; [rewrite sinv_l by auto; ring|].
    transitivity (sinv D * (u0 * (u0 * v1 - u1 * v0)))%S; [unfold D; ring|]. rewrite X. ring.
Qed.
Theorem C60_almzk_two_reveals (ro : oracle) rng pos tr (G H : list Point) (Q Cw : Point) (a0 a1 b0 b1 : Scalar) t
    pf tr' pos' :
  length G = 2 -> length H = 2 ->
  alm_zk_create ro rng pos tr G H Q Cw [a0; a1] [b0; b1] t = Ok (pf, tr', pos') ->
  dotp [a0; a1] [a0; a1] <> s0 ->
  (forall r' p ob, sample_gram_schmidt rng pos [b0; b1] = Ok (r', p) -> orth [a0; a1] r' = Ok ob -> dotp ob ob <> s0) ->
  exists Cr, decompress (C_r pf) = Some Cr /\
  let beta := ro (alm_beta_hist tr (C_r pf)) in
  let tr2 := alm_ipa_hist tr (C_r pf) (alm_P beta t Cw Cr Q) in
  let x := ro (ipa_hist tr2 2 (combine (L_vec (az_NoZK pf)) (R_vec (az_NoZK pf))) 1) in
  nz_b (az_NoZK pf) = (beta * (b0 + x * b1))%S.
Proof.
  intros HG HH E Haa Hob.
  destruct (alm_create_inv ro rng pos tr G H Q Cw [a0; a1] [b0; b1] t pf tr' pos' 2 HG HH eq_refl eq_refl E)
    as (d & r' & r'' & pos1 & Hn & L1 & L2 & S1 & S2 & EC & EN).
  assert (Hd : d = 1) by (apply (Nat.pow_inj_r 2); [lia|]; now rewrite <- Hn). subst d. clear Hn.
  set (Cr := (lin r' G + lin r'' H)%P) in *. exists Cr. split; [rewrite EC; apply decompress_compress|].
  cbv zeta in EN |- *. set (beta := ro (alm_beta_hist tr (C_r pf))) in *.
  set (tr2 := alm_ipa_hist tr (C_r pf) (alm_P beta t Cw Cr Q)) in *.
  apply sgst_inv in S2 as (ob & r2 & O2 & S2 & O3). assert (Hoo := Hob _ _ _ S1 O2).
  destruct (sgs_orth _ _ _ _ _ S2) as [Lr2 D2]. cbn [length] in Lr2.
  assert (Lob : length ob = 2) by (apply (orth_length [a0; a1] r'); auto).
  assert (Z : r'' = [s0; s0]).
  { assert (N : dotp ob r2 <> s0) by (intros Z; rewrite (orth_away_panic ob r2) in O3 by (auto; lia); discriminate).
    rewrite (orth_away ob r2) in O3 by (auto; lia). injection O3 as <-. apply away2; auto.
    exists [a0; a1]. split; [reflexivity|]. split; [auto|]. rewrite <- !dot_dotp in * by auto. split; [|auto].
    apply (orth_dot [a0; a1] r'); auto. }
  subst r''. cbn [map2] in EN. 
  destruct r' as [|r0 [|r1 [|]]]; try discriminate. cbn [map2] in EN.
  apply (C60_ipa_response ro tr2 G H Q _ _ 1) in EN as [_ EN]; try reflexivity.
  rewrite EN. cbn. unfold coefG, sc. cbn. ring.
Qed.
End C60.
(** two proofs for the same first vector and different b: the response divided by beta is b_0 + x b_1 *)
Example C60_case :
  let G := [pN 5; pN 11] in let H := [pN 2; pN 9] in
  let run b0 b1 := rmap (fun '(p, tr', pos) =>
       let be := ro1 (alm_beta_hist [] (C_r p)) in
       match decompress (C_r p) with
       | Some Cr =>
         let tr2 := alm_ipa_hist [] (C_r p) (alm_P be (sN 1) (pN 3) Cr (pN 17)) in
         let x := ro1 (ipa_hist tr2 2 (combine (L_vec (az_NoZK p)) (R_vec (az_NoZK p))) 1) in
         (zs (nz_b (az_NoZK p) * sinv be)%S =? zs (sN b0 + x * sN b1)%S)%Z
       | None => false
       end)
     (alm_zk_create ro1 rng1 0 [] G H (pN 17) (pN 3) [sN 3; sN 4] [sN b0; sN b1] (sN 1)) in
  run 7%Z 9%Z = Ok true /\ run 20%Z 1%Z = Ok true.
Proof. vm_compute. auto. Qed.
