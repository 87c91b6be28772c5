(** C13-C17: the inner product argument without zero knowledge. *)
From Coq Require Import String.
From Verif Require Export IpaSound Ex Basis.
Local Open Scope nat_scope.
Local Open Scope list_scope.

Section C13.
Context {C : Crypto} {L : CryptoLaws C}.
Add Field SfC13 : (@S_field C L).

Theorem C13_nozk_completeness (ro : oracle) tr d (G H : list Point) (Q : Point) (a b : list Scalar) :
  let n := 2 ^ d in
  length G = n -> length H = n -> length a = n -> length b = n ->
  ro (ipa_start tr n) <> s0 ->
  exists proof tr',
    no_zk_create ro tr G H Q a b = Ok (proof, tr') /\
    no_zk_verify ro tr proof G H Q n (comb a G + comb b H + dotp a b *: Q)%P (dotp a b) = Ok (true, tr').
Proof.
  intros n HG HH Ha Hb Hal.
  destruct (no_zk_complete ro tr G H Q a b d HG HH Ha Hb) as (proof & tr' & Hc & _ & _ & _ & Hv & _).
  exists proof, tr'. split; [exact Hc|]. apply Hv.
  rewrite <- !lin_comb, <- !dot_dotp by lia. now apply P_alpha_honest.
Qed.

(** the condition on alpha is necessary: when the hash returns alpha = 0 the
    honest proof of a statement with t Q <> 0 is rejected or the folded
    generators satisfy a coincidental equation; for n = 1 it is always rejected *)
Theorem C13_alpha_zero_rejects (ro : oracle) tr (G H Q : Point) (a b : Scalar) :
  ro (ipa_start tr 1) = s0 -> (a * b)%S <> s0 -> Q <> p0 ->
  exists proof tr',
    no_zk_create ro tr [G] [H] Q [a] [b] = Ok (proof, tr') /\
    no_zk_verify ro tr proof [G] [H] Q 1 (a *: G + b *: H + (a * b)%S *: Q)%P (a * b)%S = Ok (false, tr').
Proof.
  intros Hal Hab HQ.
  exists (mkNoZK [] [] a b), (ipa_start tr 1).
  assert (Es : (tr ++ [EvU64 "n" 1]) ++ [EvChal "alpha"] = ipa_start tr 1).
  { unfold ipa_start. now rewrite <- app_assoc. }
  split.
  - unfold no_zk_create, no_zk_create_loop, append_u64, challenge_scalar. cbn [length Nat.eqb assertb bind].
    change (is_power_of_two 1) with true. cbn [assertb bind idx nth_error]. now rewrite Es.
  - unfold no_zk_verify, generate_challenges, append_u64, challenge_scalar.
    cbn [length mapM bind Nat.pow Nat.eqb assertb L_vec R_vec combine fold_left foldM idx nth_error nz_a nz_b].
    rewrite Es, Hal. f_equal. f_equal. apply not_true_is_false. intros E. apply peqb_eq in E.
    rewrite sinv_0, !pmul_0_l in E.
    assert (Z : ((a * b)%S *: Q)%P = p0).
    { apply (padd_cancel_l (a *: G + b *: H)%P). rewrite padd_0_r.
      transitivity (a *: G + b *: H + (a * b)%S *: Q - ((s0 - s1) * (a * b))%S *: p0)%P; [pring|].
      rewrite <- E. pring. }
    apply pmul_eq_0 in Z as [Z|Z]; auto.
Qed.
End C13.
(** hash used in the concrete cases: depends on the number of events *)
Definition ro1 (tr : @transcript EX) : @Scalar EX := sN (Z.of_nat (length tr) * 7 + 2).
Definition G4 : list (@Point EX) := [pN 5; pN 11; pN 3; pN 8].
Definition H4 : list (@Point EX) := [pN 2; pN 9; pN 6; pN 13].
Example C13_case :
  zs (ro1 (ipa_start [] 4)) = 16%Z /\
  rmap (fun '(p, tr) =>
          (length (L_vec p), rmap (fun '(b, tr') => (b, length tr, length tr'))
          (no_zk_verify ro1 [] p G4 H4 (pN 17) 4
             (pN (1*5+2*11+3*3+4*8 + 5*2+6*9+7*6+8*13 + 70*17)) (sN 70))))
     (no_zk_create ro1 [] G4 H4 (pN 17) [sN 1; sN 2; sN 3; sN 4] [sN 5; sN 6; sN 7; sN 8])
  = Ok (2, Ok (true, 8, 8)).
Proof. vm_compute. auto. Qed.

Section C14.
Context {C : Crypto} {L : CryptoLaws C}.
Theorem C14_nozk_create_returns (ro : oracle) tr (G H : list Point) (Q : Point) (a b : list Scalar) :
  (exists r, no_zk_create ro tr G H Q a b = Ok r) <->
  (exists d, length G = 2 ^ d /\ length H = 2 ^ d /\ length a = 2 ^ d /\ length b = 2 ^ d).
Proof.
  split.
  - intros [r Hr]. unfold no_zk_create in Hr. do 5 inv_ok Hr.
    repeat match goal with X : assertb _ = Ok _ |- _ => apply assertb_Ok in X end.
    rewrite ?Nat.eqb_eq in *.
    match goal with X : is_power_of_two _ = true |- _ => apply is_power_of_two_spec in X as [d Hd] end.
    exists d. repeat split; congruence.
  - intros (d & HG & HH & Ha & Hb).
    destruct (no_zk_complete ro tr G H Q a b d HG HH Ha Hb) as (proof & tr' & Hc & _). eauto.
Qed.
Theorem C14_nozk_create_no_divergence (ro : oracle) tr (G H : list Point) (Q : Point) (a b : list Scalar) :
  (forall r, no_zk_create ro tr G H Q a b <> Ok r) -> no_zk_create ro tr G H Q a b = Panic.
Proof.
  intros Hn. destruct (is_power_of_two (length G)) eqn:E.
  - apply is_power_of_two_spec in E as [d Hd].
    destruct (Nat.eq_dec (length H) (2 ^ d)) as [HH|HH];
    [destruct (Nat.eq_dec (length a) (2 ^ d)) as [Ha|Ha];
     [destruct (Nat.eq_dec (length b) (2 ^ d)) as [Hb|Hb]|]|].
    + exfalso. destruct (proj2 (C14_nozk_create_returns ro tr G H Q a b)) as [r Hr]; [eauto|].
      exact (Hn r Hr).
    + unfold no_zk_create. rewrite Nat.eqb_refl. cbn [assertb bind].
      destruct (_ =? _); cbn [assertb bind]; auto. destruct (_ =? _); cbn [assertb bind]; auto.
      rewrite Hd. apply Nat.eqb_neq in Hb. now rewrite Hb.
    + unfold no_zk_create. rewrite Nat.eqb_refl. cbn [assertb bind].
      destruct (_ =? _); cbn [assertb bind]; auto.
      rewrite Hd. apply Nat.eqb_neq in Ha. now rewrite Ha.
    + unfold no_zk_create. rewrite Nat.eqb_refl. cbn [assertb bind].
      rewrite Hd. apply Nat.eqb_neq in HH. now rewrite HH.
  - unfold no_zk_create. rewrite E.
    repeat (destruct (_ =? _); cbn [assertb bind]; auto).
Qed.
Theorem C14_nozk_proof_size (ro : oracle) tr (G H : list Point) (Q : Point) (a b : list Scalar) proof tr' :
  no_zk_create ro tr G H Q a b = Ok (proof, tr') ->
  2 ^ length (L_vec proof) = length G /\ 2 ^ length (R_vec proof) = length G.
Proof.
  intros Hc. destruct (proj1 (C14_nozk_create_returns ro tr G H Q a b)) as (d & HG & HH & Ha & Hb); eauto.
  destruct (no_zk_complete ro tr G H Q a b d HG HH Ha Hb) as (proof' & tr'' & Hc' & Hl & Hr & _).
  rewrite Hc in Hc'. injection Hc' as <- <-. now rewrite Hl, Hr.
Qed.
End C14.
Example C14_case :
  let a k := repeat (sN 3) k in let P k := repeat (pN 3) k in
  let run n1 n2 n3 n4 := rmap (fun '(p, tr) => (length (L_vec p), length (R_vec p)))
     (no_zk_create ro1 [] (P n1) (P n2) (pN 17) (a n3) (a n4)) in
  run 8 8 8 8 = Ok (3, 3) /\ run 1 1 1 1 = Ok (0, 0) /\ run 0 0 0 0 = Panic /\
  run 6 6 6 6 = Panic /\ run 8 4 8 8 = Panic /\ run 8 8 8 4 = Panic.
Proof. vm_compute. repeat split. Qed.

Section C15.
Context {C : Crypto} {L : CryptoLaws C}.
Add Field SfC15 : (@S_field C L).

Lemma testbit_low d i : i < 2 ^ d -> Nat.testbit i d = false.
Proof. intros H. rewrite Nat.testbit_eqb, Nat.div_small; auto. Qed.
Lemma testbit_add_pow d i k : k < d -> Nat.testbit (2 ^ d + i) k = Nat.testbit i k.
Proof.
  intros H. rewrite !Nat.testbit_eqb. f_equal.
  replace (2 ^ d) with (2 * 2 ^ (d - S k) * 2 ^ k).
  - rewrite Nat.div_add_l by (apply Nat.pow_nonzero; lia).
    rewrite Nat.add_comm, Nat.mul_comm. now rewrite Nat.mod_add.
  - rewrite <- Nat.pow_succ_r', <- Nat.pow_add_r. f_equal. lia.
Qed.
Lemma testbit_add_top d i : i < 2 ^ d -> Nat.testbit (2 ^ d + i) d = true.
Proof.
  intros H. rewrite Nat.testbit_eqb.
  replace (2 ^ d + i) with (1 * 2 ^ d + i) by lia.
  rewrite Nat.div_add_l by (apply Nat.pow_nonzero; lia). now rewrite Nat.div_small.
Qed.
Lemma prod_S_shift n f : prod_S (S n) f = (f 0 * prod_S n (fun i => f (S i)))%S.
Proof. induction n as [|n IH]; [cbn; ring|]. cbn [prod_S] in *. rewrite IH. ring. Qed.
Lemma coefG_low d x xs i : i < 2 ^ d -> coefG (S d) (x :: xs) i = coefG d xs i.
Proof.
  intros H. unfold coefG. rewrite prod_S_shift. replace (S d - 1 - 0) with d by lia.
  rewrite testbit_low by auto.
  etransitivity; [|apply smul_1_l]. f_equal. apply prod_S_ext. intros j Hj.
  now replace (S d - 1 - S j) with (d - 1 - j) by lia.
Qed.
Lemma coefG_high d x xs i : i < 2 ^ d -> coefG (S d) (x :: xs) (2 ^ d + i) = (x * coefG d xs i)%S.
Proof.
  intros H. unfold coefG. rewrite prod_S_shift. replace (S d - 1 - 0) with d by lia.
  rewrite testbit_add_top by auto. unfold sc at 1; cbn [nth].
  f_equal. apply prod_S_ext. intros j Hj.
  replace (S d - 1 - S j) with (d - 1 - j) by lia. rewrite testbit_add_pow by lia. reflexivity.
Qed.
Lemma coefH_low d x xs i : i < 2 ^ d -> coefH (S d) (x :: xs) i = (x * coefH d xs i)%S.
Proof.
  intros H. unfold coefH. rewrite prod_S_shift. replace (S d - 1 - 0) with d by lia.
  rewrite testbit_low by auto. unfold sc at 1; cbn [nth].
  f_equal. apply prod_S_ext. intros j Hj.
  now replace (S d - 1 - S j) with (d - 1 - j) by lia.
Qed.
Lemma coefH_high d x xs i : i < 2 ^ d -> coefH (S d) (x :: xs) (2 ^ d + i) = coefH d xs i.
Proof.
  intros H. unfold coefH. rewrite prod_S_shift. replace (S d - 1 - 0) with d by lia.
  rewrite testbit_add_top by auto. etransitivity; [|apply smul_1_l]. f_equal. apply prod_S_ext. intros j Hj.
  replace (S d - 1 - S j) with (d - 1 - j) by lia. rewrite testbit_add_pow by lia. reflexivity.
Qed.
Lemma pt_stepG x h G i : length G = 2 * h -> i < h -> pt (stepG x h G) i = (pt G i + x *: pt G (h + i))%P.
Proof.
  intros HG Hi. destruct (half_len h G HG) as [H1 H2]. unfold pt, stepG.
  rewrite (map2_nth _ _ _ _ p0 p0) by lia.
  rewrite <- (firstn_skipn h G) at 3 4. rewrite app_nth1, app_nth2 by lia. now rewrite H1, Nat.add_comm, Nat.add_sub.
Qed.
Lemma pt_stepH x h G i : length G = 2 * h -> i < h -> pt (stepH x h G) i = (x *: pt G i + pt G (h + i))%P.
Proof.
  intros HG Hi. destruct (half_len h G HG) as [H1 H2]. unfold pt, stepH.
  rewrite (map2_nth _ _ _ _ p0 p0) by lia.
  rewrite <- (firstn_skipn h G) at 3 4. rewrite app_nth1, app_nth2 by lia. now rewrite H1, Nat.add_comm, Nat.add_sub.
Qed.
Lemma foldG_closed xs : forall G, length G = 2 ^ length xs ->
  nth 0 (foldG xs G) p0 = sum_P (2 ^ length xs) (fun i => coefG (length xs) xs i *: pt G i)%P.
Proof.
  induction xs as [|x xs IH]; intros G HG; cbn [foldG length] in *.
  - apply length1 in HG as [g ->]. cbn. unfold coefG. cbn. pring.
  - assert (E2 := Nat.pow_succ_r' 2 (length xs)). rewrite E2 in HG.
    rewrite IH by (now apply stepG_length). rewrite E2.
    replace (2 * 2 ^ length xs) with (2 ^ length xs + 2 ^ length xs) by lia. rewrite sum_P_app, <- sum_P_add.
    apply sum_P_ext. intros i Hi. rewrite coefG_low, coefG_high, pt_stepG by auto. pring.
Qed.
Lemma foldH_closed xs : forall G, length G = 2 ^ length xs ->
  nth 0 (foldH xs G) p0 = sum_P (2 ^ length xs) (fun i => coefH (length xs) xs i *: pt G i)%P.
Proof.
  induction xs as [|x xs IH]; intros G HG; cbn [foldH length] in *.
  - apply length1 in HG as [g ->]. cbn. unfold coefH. cbn. pring.
  - assert (E2 := Nat.pow_succ_r' 2 (length xs)). rewrite E2 in HG.
    rewrite IH by (now apply stepH_length). rewrite E2.
    replace (2 * 2 ^ length xs) with (2 ^ length xs + 2 ^ length xs) by lia. rewrite sum_P_app, <- sum_P_add.
    apply sum_P_ext. intros i Hi. rewrite coefH_low, coefH_high, pt_stepH by auto. pring.
Qed.
(** product of the challenges of the rounds after j *)
Definition prod_after (d : nat) (xs : list Scalar) (j : nat) : Scalar :=
  prod_S (d - 1 - j) (fun k => sc xs (j + 1 + k)).
Lemma foldP_closed xs : forall Ls Rs P, length Ls = length xs -> length Rs = length xs ->
  foldP (combine (combine Ls Rs) xs) P =
  (prod_S (length xs) (sc xs) *: P +
   sum_P (length xs) (fun j => prod_after (length xs) xs j *: ((sc xs j * sc xs j)%S *: pt Ls j + pt Rs j)))%P.
Proof.
  induction xs as [|x xs IH]; intros [|l Ls] [|r Rs] P HL HR; try discriminate; cbn [combine foldP length].
  - cbn. pring.
  - cbn in HL, HR. rewrite IH by lia. rewrite prod_S_shift, sum_P_shift.
    assert (E0 : prod_after (S (length xs)) (x :: xs) 0 = prod_S (length xs) (sc xs)).
    { unfold prod_after. replace (S (length xs) - 1 - 0) with (length xs) by lia. reflexivity. }
    rewrite E0.
    rewrite (sum_P_ext _ (fun i => prod_after (S (length xs)) (x :: xs) (S i) *: _)%P
      (fun j => prod_after (length xs) xs j *: ((sc xs j * sc xs j)%S *: pt Ls j + pt Rs j))%P).
    2:{ intros j Hj. unfold prod_after. replace (S (length xs) - 1 - S j) with (length xs - 1 - j) by lia.
        reflexivity. }
    change (sc (x :: xs) 0) with x. change (pt (l :: Ls) 0) with l. change (pt (r :: Rs) 0) with r.
    change (fun i => sc (x :: xs) (S i)) with (sc xs). pring.
Qed.

Theorem C15_nozk_verification_equation (ro : oracle) tr proof (G H : list Point) (Q P : Point) (t : Scalar) d Ls Rs :
  let n := 2 ^ d in
  let LRs := combine (L_vec proof) (R_vec proof) in
  let alpha := ro (ipa_start tr n) in
  let x j := ro (ipa_hist tr n LRs (S j)) in
  let xs := tab d x in
  let a := nz_a proof in let b := nz_b proof in
  length Ls = d -> length Rs = d -> length G = n -> length H = n ->
  Forall2 (fun c P => decompress c = Some P) (L_vec proof) Ls ->
  Forall2 (fun c P => decompress c = Some P) (R_vec proof) Rs ->
  alpha <> s0 ->
  exists res, no_zk_verify ro tr proof G H Q n P t = Ok (res, ipa_hist tr n LRs d) /\
   (res = true <->
    (prod_S d x *: (P - t *: Q + (sinv alpha * t)%S *: Q) +
     sum_P d (fun j => prod_after d xs j *: ((x j * x j)%S *: pt Ls j + pt Rs j))
     = a *: sum_P n (fun i => coefG d xs i *: pt G i) + b *: sum_P n (fun i => coefH d xs i *: pt H i)
       + (a * b * sinv alpha)%S *: Q)%P).
Proof.
  intros n LRs alpha x xs a b HLs HRs HG HH DL DR Hal.
  assert (LL := Forall2_length _ _ _ DL). assert (LR := Forall2_length _ _ _ DR).
  assert (Hn : n = 2 ^ length Ls) by (rewrite HLs; reflexivity).
  assert (HLR : length Ls = length Rs) by congruence.
  eexists. split.
  { etransitivity; [exact (no_zk_verify_eq ro tr proof G H Q n P t Ls Rs DL DR HLR Hn HG HH)|].
    now rewrite HLs. }
  fold LRs. fold a b. fold (ipa_alpha ro tr n) in alpha.
  assert (Exs : ipa_chals ro tr n LRs = xs).
  { unfold ipa_chals, xs. replace (length LRs) with d by (unfold LRs; rewrite combine_length; lia). reflexivity. }
  rewrite Exs. assert (Hd : length xs = d) by apply tab_length.
  unfold ipa_check. rewrite peqb_eq.
  rewrite foldG_closed, foldH_closed, foldP_closed by (rewrite ?Hd; auto).
  rewrite Hd. fold n.
  rewrite (prod_S_ext d (sc xs) x) by (intros j Hj; unfold sc, xs; now rewrite tab_nth).
  rewrite (sum_P_ext d (fun j => prod_after d xs j *: ((sc xs j * sc xs j)%S *: pt Ls j + pt Rs j))%P
             (fun j => prod_after d xs j *: ((x j * x j)%S *: pt Ls j + pt Rs j))%P)
    by (intros j Hj; unfold xs at 2 3, sc; now rewrite tab_nth).
  assert (EP : P_alpha alpha t P Q = (P - t *: Q + (sinv alpha * t)%S *: Q)%P).
  { unfold P_alpha. pnorm; [ring|]. transitivity (sinv alpha * t - t * (sinv alpha * alpha))%S; [ring|].
    rewrite sinv_l by auto. ring. }
  fold alpha. rewrite EP. split; intros E.
  - etransitivity; [exact (eq_sym E)|]. pring.
  - etransitivity; [|exact (eq_sym E)]. pring.
Qed.
End C15.
Example C15_case :
  let run Rz := rmap fst (no_zk_verify ro1 [] (mkNoZK (C := EX) [[3%Z]] [[Rz]] (sN 4) (sN 8))
       [pN 5; pN 11] [pN 2; pN 9] (pN 17) 2 (pN 500) (sN 32)) in
  zs (ro1 (ipa_start [] 2)) = 16%Z /\
  run ((-1391) mod pe)%Z = Ok true /\ run ((-1390) mod pe)%Z = Ok false.
Proof. vm_compute. auto. Qed.

Section C16.
Context {C : Crypto} {L : CryptoLaws C}.
Add Field SfC16 : (@S_field C L).

(** a run of the verifier along a path of the tree: the proof made of the
    messages of the path is accepted for some behaviour of the hash that answers
    alpha and the challenges of the path *)
Definition accepts_along tr (G H : list Point) (Q : Point) n (P : Point) (t alpha : Scalar) (p : ipa_path) : Prop :=
  let '(rounds, a, b) := p in
  let Lc := map (fun '(l, r, x) => compress l) rounds in
  let Rc := map (fun '(l, r, x) => compress r) rounds in
  exists ro tr',
    no_zk_verify ro tr (mkNoZK Lc Rc a b) G H Q n P t = Ok (true, tr') /\
    ro (ipa_start tr n) = alpha /\
    (forall j l r x, nth_error rounds j = Some (l, r, x) -> ro (ipa_hist tr n (combine Lc Rc) (S j)) = x).

Lemma verify_Ok_n ro tr proof G H Q n P t r :
  no_zk_verify ro tr proof G H Q n P t = Ok r -> n = 2 ^ length (L_vec proof).
Proof.
  unfold no_zk_verify. intros E. inv_ok E. inv_ok E. inv_ok E.
  apply assertb_Ok, Nat.eqb_eq in E2. apply mapM_Ok_length in E0. congruence.
Qed.

Definition path_eq (G H : list Point) (Q P : Point) (p : ipa_path) : Prop :=
  let '(rounds, a, b) := p in
  let xs := map snd rounds in
  (a *: nth 0 (foldG xs G) p0 + b *: nth 0 (foldH xs H) p0 + (a * b)%S *: Q)%P = foldP rounds P.

Lemma accepts_path_eq tr G H Q n P t alpha rounds a b : length G = n -> length H = n ->
  accepts_along tr G H Q n P t alpha (rounds, a, b) ->
  n = 2 ^ length rounds /\ path_eq G H (sinv alpha *: Q)%P (P_alpha alpha t P Q) (rounds, a, b).
Proof.
  intros HG HH (ro & tr' & Hv & Hal & Hx).
  assert (Hn := verify_Ok_n _ _ _ _ _ _ _ _ _ _ Hv). cbn [L_vec] in Hn. rewrite map_length in Hn.
  split; [exact Hn|].
  set (Ls := map (fun q : Point * Point * Scalar => fst (fst q)) rounds).
  set (Rs := map (fun q : Point * Point * Scalar => snd (fst q)) rounds).
  assert (EL : map (fun '(l, r, x) => compress l) rounds = map compress Ls).
  { unfold Ls. rewrite map_map. apply map_ext. now intros [[l r] x]. }
  assert (ER : map (fun '(l, r, x) => compress r) rounds = map compress Rs).
  { unfold Rs. rewrite map_map. apply map_ext. now intros [[l r] x]. }
  rewrite EL, ER in *.
  assert (LL : length Ls = length rounds) by apply map_length.
  assert (LR : length Rs = length rounds) by apply map_length.
  rewrite (no_zk_verify_eq _ _ _ _ _ _ _ _ _ Ls Rs) in Hv; cbn [L_vec R_vec nz_a nz_b];
    try apply Forall2_decompress_compress; try lia; try congruence.
  cbn [L_vec R_vec nz_a nz_b] in Hv. injection Hv as Hc _. unfold ipa_alpha in Hc. rewrite Hal in Hc.
  assert (Exs : ipa_chals ro tr n (combine (map compress Ls) (map compress Rs)) = map snd rounds).
  { unfold ipa_chals. rewrite combine_length, !map_length, LL, LR, Nat.min_id.
    apply (list_eq_nth s0); [now rewrite tab_length, map_length|].
    rewrite tab_length. intros i Hi. rewrite tab_nth by auto.
    destruct (nth_error rounds i) as [[[l r] x]|] eqn:En; [|apply nth_error_None in En; lia].
    rewrite (Hx i l r x En). symmetry. apply nth_error_nth. rewrite nth_error_map, En. reflexivity. }
  rewrite Exs in Hc. unfold ipa_check in Hc. apply peqb_eq in Hc. unfold path_eq. rewrite Hc. f_equal.
  unfold Ls, Rs. clear. induction rounds as [|[[l r] x] rounds IH]; cbn; auto. now rewrite IH.
Qed.

Lemma paths_nonempty T : exists p, In p (paths T).
Proof.
  induction T as [a b|l r x1 T1 [p Hp] x2 T2 _ x3 T3 _ x4 T4 _]; cbn; eauto.
  exists (path_cons l r x1 p). apply in_or_app. left. now apply in_map.
Qed.
Lemma paths_tvalid T : forall d G H Q P,
  (forall p, In p (paths T) -> length (fst (fst p)) = d /\ path_eq G H Q P p) -> tvalid d T G H Q P.
Proof.
  induction T as [a b|l r x1 T1 IH1 x2 T2 IH2 x3 T3 IH3 x4 T4 IH4]; intros d G H Q P HP.
  - destruct (HP ([], a, b)) as [E1 E2]; [now left|]. cbn in E1. subst d. exact E2.
  - cbn [paths] in HP.
    assert (Hd : exists d', d = S d').
    { destruct (paths_nonempty T1) as [[[q a] b] Hp].
      destruct (HP (path_cons l r x1 (q, a, b))) as [E _].
      { apply in_or_app. left. now apply in_map. }
      cbn in E. eauto. }
    destruct Hd as [d' ->]. cbn [tvalid].
    assert (Sub : forall x T, (forall p, In p (map (path_cons l r x) (paths T)) ->
                length (fst (fst p)) = S d' /\ path_eq G H Q P p) ->
              forall p, In p (paths T) -> length (fst (fst p)) = d' /\
                path_eq (stepG x (2 ^ d') G) (stepH x (2 ^ d') H) Q ((x * x)%S *: l + x *: P + r)%P p).
    { intros x T HT [[q a] b] Hp. destruct (HT (path_cons l r x (q, a, b))) as [E1 E2].
      { now apply in_map. }
      cbn in E1. injection E1 as E1. split; [exact E1|].
      unfold path_eq, path_cons in E2. cbn [map snd foldG foldH foldP] in E2.
      rewrite map_length, E1 in E2. exact E2. }
    repeat split; [apply IH1; apply Sub|apply IH2; apply Sub|apply IH3; apply Sub|apply IH4; apply Sub];
      intros p Hp; apply HP; repeat rewrite in_app_iff; tauto.
Qed.

Lemma lin_scale_Q g h (q c : Scalar) G H Q :
  (lin g G + lin h H + q *: (c *: Q))%P = (lin g G + lin h H + (q * c)%S *: Q)%P.
Proof. pring. Qed.

Lemma rel_nontrivial n G H Q g h q : length G = n -> length H = n ->
  length g = n -> length h = n -> (lin g G + lin h H + q *: Q = p0)%P ->
  (all_zero g && all_zero h = true -> q <> s0) -> nontrivial_relation n G H Q g h q.
Proof.
  intros HG HH Hg Hh E Hq. split; [auto|]. split; [auto|]. split.
  - rewrite <- !lin_comb by congruence. exact E.
  - intros [Hz E0]. apply Hq in E0; auto. apply andb_true_intro. split; apply all_zero_spec; intros i Hi; apply Hz; lia.
Qed.
Lemma sinv_neq_0 x : x <> s0 -> sinv x <> s0.
Proof. intros H E. apply s1_neq_s0. rewrite <- (sinv_l x H), E. ring. Qed.

Theorem C16_nozk_special_soundness tr (G H : list Point) (Q P : Point) (t : Scalar) n alpha alpha' T T' :
  length G = n -> length H = n ->
  alpha <> s0 -> alpha' <> s0 -> alpha <> alpha' ->
  distinct_challenges T -> distinct_challenges T' ->
  (forall p, In p (paths T) -> accepts_along tr G H Q n P t alpha p) ->
  (forall p, In p (paths T') -> accepts_along tr G H Q n P t alpha' p) ->
  match ipa_extract t alpha T alpha' T' with
  | Wit a b c => length a = n /\ length b = n /\ c = t /\
                 P = (comb a G + comb b H + t *: Q)%P /\ dotp a b = t
  | Rel g h q => nontrivial_relation n G H Q g h q
  end.
Proof.
  intros HG HH Hal Hal' Hne HD HD' HA HA'.
  assert (Hn : exists d, n = 2 ^ d).
  { destruct (paths_nonempty T) as [[[q a] b] Hp]. apply HA in Hp.
    apply accepts_path_eq in Hp as [E _]; eauto. }
  destruct Hn as [d Hn].
  assert (inj : forall k, n = 2 ^ k -> k = d).
  { intros k Hk. rewrite Hn in Hk. apply Nat.pow_inj_r in Hk; lia. }
  assert (V : tvalid d T G H (sinv alpha *: Q)%P (P_alpha alpha t P Q)).
  { apply paths_tvalid. intros [[q a] b] Hp. apply HA in Hp. apply accepts_path_eq in Hp as [E1 E2]; auto. }
  assert (V' : tvalid d T' G H (sinv alpha' *: Q)%P (P_alpha alpha' t P Q)).
  { apply paths_tvalid. intros [[q a] b] Hp. apply HA' in Hp. apply accepts_path_eq in Hp as [E1 E2]; auto. }
  apply extract_ok in V; try congruence. apply extract_ok in V'; try congruence.
  rewrite <- Hn in V, V'. unfold ipa_extract.
  assert (relq : forall (al : Scalar) g h q, al <> s0 ->
     wit_ok n G H (sinv al *: Q)%P (P_alpha al t P Q) (Rel g h q) ->
     nontrivial_relation n G H Q g h (q * sinv al)%S).
  { intros al g h q Ha (L1 & L2 & E & Hq). apply rel_nontrivial; auto.
    - rewrite <- lin_scale_Q. exact E.
    - intros Z E0. apply Hq in Z. apply smul_eq_0 in E0 as [E0|E0]; auto. now apply sinv_neq_0 in E0. }
  destruct (extract T) as [a b c|g h q]; [|now apply relq].
  destruct (extract T') as [a' b' c'|g h q]; [|now apply relq].
  destruct V as (La & Lb & Ec & EP). destruct V' as (La' & Lb' & Ec' & EP').
  assert (PQ : forall al (c0 : Scalar) X, al <> s0 -> (X + c0 *: (sinv al *: Q) = P_alpha al t P Q)%P ->
            (P = X + (t + (c0 - t) * sinv al)%S *: Q)%P).
  { intros al c0 X Ha E. unfold P_alpha in E.
    transitivity ((P - ((al - s1) * t)%S *: (sinv al *: Q)) + ((al - s1) * t)%S *: (sinv al *: Q))%P; [pring|].
    rewrite <- E. pnorm; try ring.
    transitivity (c0 * sinv al + t * (sinv al * al) - t * sinv al)%S; [ring|]. rewrite sinv_l by auto. ring. }
  apply PQ in EP; auto. apply PQ in EP'; auto.
  destruct (all_zero (map2 ssub a a') && all_zero (map2 ssub b b') &&
            seqb ((c - t) * sinv alpha - (c' - t) * sinv alpha')%S s0) eqn:Ez.
  - apply andb_prop in Ez as [Ez Eq]. apply andb_prop in Ez as [Ea Eb]. apply seqb_eq in Eq.
    assert (eqv : forall u v : list Scalar, length u = n -> length v = n -> all_zero (map2 ssub u v) = true -> u = v).
    { intros u v Hu Hv Z. apply (list_eq_nth s0); [lia|]. intros i Hi.
      assert (Z' := proj1 (all_zero_spec _) Z i). rewrite map2_length in Z'. rewrite sc_map2 in Z' by lia.
      apply ssub_0, Z'. lia. }
    apply eqv in Ea; auto. apply eqv in Eb; auto. subst a' b'.
    rewrite <- Ec in Ec'. rewrite Ec' in Eq, EP'. clear c' Ec'.
    assert (Ect : (c - t = s0)%S).
    { assert (X : ((c - t) * (sinv alpha - sinv alpha') = s0)%S) by (rewrite <- Eq; ring).
      apply smul_eq_0 in X as [X|X]; auto. exfalso. apply Hne. apply ssub_0 in X.
      transitivity ((sinv alpha' * alpha') * alpha)%S; [rewrite sinv_l by auto; ring|].
      rewrite <- X. transitivity ((sinv alpha * alpha) * alpha')%S; [ring|].
      rewrite sinv_l by auto. ring. }
    split; [auto|]. split; [auto|]. assert (Ect' := ssub_0 _ _ Ect). split; [auto|]. split.
    + rewrite EP, Ect. rewrite <- !lin_comb by congruence. pring.
    + rewrite <- dot_dotp by congruence. congruence.
  - apply rel_nontrivial; auto; try (rewrite map2_length; lia).
    + rewrite !lin_sub_s by lia.
      transitivity ((lin a G + lin b H + (t + (c - t) * sinv alpha)%S *: Q)
                    - (lin a' G + lin b' H + (t + (c' - t) * sinv alpha')%S *: Q))%P; [pring|].
      rewrite <- EP, <- EP'. pring.
    + intros Z E0. rewrite Z in Ez. cbn in Ez. apply seqb_dec_iff in Ez. contradiction.
Qed.

Lemma trees_sound tr (G H : list Point) (Q P : Point) (t : Scalar) n B :
  length G = n -> length H = n -> good_trees B ->
  all_paths B (accepts_along tr G H Q n P t) ->
  match trees_extract t B with
  | Wit a b c => length a = n /\ length b = n /\ c = t /\
                 P = (comb a G + comb b H + t *: Q)%P /\ dotp a b = t
  | Rel g h q => nontrivial_relation n G H Q g h q
  end.
Proof.
  intros HG HH (? & ? & ? & ? & ?) [? ?]. unfold trees_extract.
  apply (C16_nozk_special_soundness tr); auto.
Qed.

(** with independent generators the extractor always finds a witness *)
Corollary C16_nozk_soundness_independent tr (G H : list Point) (Q P : Point) (t : Scalar) n alpha alpha' T T' :
  length G = n -> length H = n ->
  independent n G H Q ->
  alpha <> s0 -> alpha' <> s0 -> alpha <> alpha' ->
  distinct_challenges T -> distinct_challenges T' ->
  (forall p, In p (paths T) -> accepts_along tr G H Q n P t alpha p) ->
  (forall p, In p (paths T') -> accepts_along tr G H Q n P t alpha' p) ->
  exists a b, length a = n /\ length b = n /\ P = (comb a G + comb b H + t *: Q)%P /\ dotp a b = t.
Proof.
  intros HG HH HI Hal Hal' Hne HD HD' HA HA'.
  assert (X := C16_nozk_special_soundness tr G H Q P t n alpha alpha' T T' HG HH Hal Hal' Hne HD HD' HA HA').
  destruct (ipa_extract t alpha T alpha' T') as [a b c|g h q].
  - exists a, b. tauto.
  - exfalso. exact (HI g h q X).
Qed.
End C16.

(** for the concrete cases: the tree of an honest prover that answers the
    challenges 1,2,3,4 in every round, and the verdicts of the verifier along all
    its paths (the hash answers alpha, then the challenges of the path) *)
Fixpoint htree {C : Crypto} (xs : Scalar * Scalar * Scalar * Scalar) (d : nat) (G H : list Point) (Q : Point)
    (a b : list Scalar) : ipa_tree :=
  match d with
  | O => Leaf (nth 0 a s0) (nth 0 b s0)
  | S d => let h := 2 ^ d in
    let '(x1, x2, x3, x4) := xs in
    let sub x := htree xs d (stepG x h G) (stepH x h H) Q (stepa x h a) (stepb x h b) in
    Node (ipa_L h G H Q a b) (ipa_R h G H Q a b) x1 (sub x1) x2 (sub x2) x3 (sub x3) x4 (sub x4)
  end.
Definition x1234 := (sN 1, sN 2, sN 3, sN 4).
Definition path_proof {C : Crypto} (p : ipa_path) : NoZK :=
  let '(rounds, a, b) := p in
  mkNoZK (map (fun '(l, r, x) => compress l) rounds) (map (fun '(l, r, x) => compress r) rounds) a b.
(** answers [pre] for the first challenges, then the challenges of the path;
    [k] events precede the challenge alpha, which is the last of [pre] *)
Definition path_ro {C : Crypto} (k : nat) (pre : transcript -> Scalar) (p : ipa_path) (tr : transcript) : Scalar :=
  if length tr <=? k then pre tr else nth ((length tr - k) / 3 - 1) (map snd (fst (fst p))) s0.
Section C16case.
Let a := [sN 3; sN 4; sN 7; sN 1]. Let b := [sN 10; sN 20; sN 5; sN 2].
(** Q = 680; alpha = 2, alpha' = 4, so Q/alpha = 340, Q/alpha' = 170 *)
Let T := htree x1234 2 G4 H4 (pN 340) a b. Let T' := htree x1234 2 G4 H4 (pN 170) a b.
Let P := pN (3*5 + 4*11 + 7*3 + 1*8 + 10*2 + 20*9 + 5*6 + 2*13 + 147*680).
Let check alpha T := map (fun p => rmap fst (no_zk_verify (path_ro 2 (fun _ => alpha) p) []
       (path_proof p) G4 H4 (pN 680) 4 P (sN 147))) (paths T).
Let is_wit (e : @extracted EX) : Prop :=
  match e with
  | Wit a' b' c => (map zs a', map zs b', zs c) = ([3; 4; 7; 1], [10; 20; 5; 2], 147)%Z
  | Rel _ _ _ => False
  end.
Example C16_case :
  check (sN 2) T = repeat (Ok true) 16 /\ check (sN 4) T' = repeat (Ok true) 16 /\
  is_wit (ipa_extract (sN 147) (sN 2) T (sN 4) T').
Proof. vm_compute. auto. Qed.
(** independent generators exist *)
Example C16_case_independent : independent 4 (basis 9 0 4) (basis 9 4 4) (eB 9 8).
Proof. exact (basis_independent 4). Qed.
End C16case.

Section C17.
Context {C : Crypto} {L : CryptoLaws C}.

Lemma mapM_unwrap_panic (l : list Compressed) : (exists c, In c l /\ decompress c = None) ->
  mapM (fun L => unwrap (decompress L)) l = Panic.
Proof.
  induction l as [|c l IH]; intros [c' [Hin Hd]]; [destruct Hin|]. cbn.
  destruct Hin as [->|Hin].
  - now rewrite Hd.
  - destruct (decompress c); cbn; [|auto]. rewrite IH; eauto.
Qed.
Lemma mapM_unwrap_cases (l : list Compressed) :
  (exists r, mapM (fun L => unwrap (decompress L)) l = Ok r) \/
  mapM (fun L => unwrap (decompress L)) l = Panic.
Proof.
  induction l as [|c l [[r IH]|IH]]; cbn; eauto; rewrite IH; destruct (decompress c); cbn; eauto.
Qed.

Theorem C17_bad_encoding_panics (ro : oracle) tr proof (G H : list Point) (Q : Point) n P t c :
  In c (L_vec proof) \/ In c (R_vec proof) -> decompress c = None ->
  no_zk_verify ro tr proof G H Q n P t = Panic.
Proof.
  intros [Hin|Hin] Hd; unfold no_zk_verify.
  - now rewrite mapM_unwrap_panic by eauto.
  - destruct (mapM_unwrap_cases (L_vec proof)) as [[r ->]| ->]; auto. cbn [bind].
    now rewrite mapM_unwrap_panic by eauto.
Qed.
Theorem C17_wrong_length_panics (ro : oracle) tr proof (G H : list Point) (Q : Point) n P t :
  n <> 2 ^ length (L_vec proof) -> no_zk_verify ro tr proof G H Q n P t = Panic.
Proof.
  intros Hn. unfold no_zk_verify.
  destruct (mapM_unwrap_cases (L_vec proof)) as [[Ls E]| ->]; auto. rewrite E. cbn [bind].
  destruct (mapM_unwrap_cases (R_vec proof)) as [[Rs ->]| ->]; auto. cbn [bind].
  apply mapM_Ok_length in E. rewrite E. apply Nat.eqb_neq in Hn. now rewrite Hn.
Qed.
Lemma combine_app_r {A B} (l : list A) (l1 l2 : list B) : length l <= length l1 ->
  combine l (l1 ++ l2) = combine l l1.
Proof. revert l1; induction l as [|a l IH]; intros [|b l1] Hl; cbn in *; auto; [lia|]. now rewrite IH by lia. Qed.
(** surplus right points are ignored: infinitely many different accepted proofs *)
Theorem C17_surplus_right_points_ignored (ro : oracle) tr Ls Rs extra a b (G H : list Point) (Q : Point) n P t :
  length Ls <= length Rs -> (forall c, In c extra -> decompress c <> None) ->
  no_zk_verify ro tr (mkNoZK Ls (Rs ++ extra) a b) G H Q n P t =
  no_zk_verify ro tr (mkNoZK Ls Rs a b) G H Q n P t.
Proof.
  intros Hl He. unfold no_zk_verify, generate_challenges. cbn [L_vec R_vec nz_a nz_b].
  rewrite (combine_app_r Ls Rs extra) by auto.
  destruct (mapM_unwrap_cases Ls) as [[Lp ELp]| ->]; auto. rewrite ELp. cbn [bind].
  destruct (mapM_unwrap_cases Rs) as [[Rp E]|E].
  - assert (X : exists Ep, mapM (fun L => unwrap (decompress L)) (Rs ++ extra) = Ok (Rp ++ Ep)).
    { destruct (mapM_unwrap_cases extra) as [[Ep EE]|EE].
      - exists Ep. rewrite mapM_Ok_Forall2 in *. now apply Forall2_app.
      - exfalso. clear -EE He. induction extra as [|c extra IH]; cbn in *; [discriminate|].
        destruct (decompress c) eqn:Ed; [|now apply (He c); auto]. cbn in EE.
        destruct (mapM _ extra); cbn in *; try discriminate. apply IH; auto. }
    destruct X as [Ep ->]. rewrite E. cbn [bind].
    rewrite (combine_app_r Lp Rp Ep); auto.
    apply mapM_Ok_length in E. apply mapM_Ok_length in ELp. lia.
  - rewrite E.
    destruct (mapM_unwrap_cases (Rs ++ extra)) as [[r Er]| ->]; auto.
    exfalso. rewrite mapM_Ok_Forall2 in Er. apply Forall2_app_inv_l in Er as (r1 & r2 & H1 & _ & _).
    apply mapM_Ok_Forall2 in H1. congruence.
Qed.
(** the verifier never loops *)
Theorem C17_verify_terminates (ro : oracle) tr proof (G H : list Point) (Q : Point) n P t :
  no_zk_verify ro tr proof G H Q n P t <> Diverge.
Proof.
  unfold no_zk_verify.
  destruct (mapM_unwrap_cases (L_vec proof)) as [[Ls E]| ->]; [rewrite E|discriminate]. cbn [bind].
  destruct (mapM_unwrap_cases (R_vec proof)) as [[Rs ->]| ->]; [|discriminate]. cbn [bind].
  destruct (_ =? _); [|discriminate]. cbn [assertb bind].
  unfold challenge_scalar. destruct (generate_challenges _ _ _) as [xs tr'].
  match goal with |- context [foldM ?f ?l ?a] => destruct (foldM f l a) as [[[k G'] H']| |] eqn:Ef end;
    cbn [bind]; try discriminate.
  - destruct (idx_cases G' 0) as [[g ->]| ->]; [|discriminate]. cbn [bind].
    destruct (idx_cases H' 0) as [[h ->]| ->]; discriminate.
  - exfalso. revert Ef. apply foldM_not_Diverge. intros [[k G'] H'] x. unfold split_at.
    destruct (_ <=? _); cbn; [|discriminate]. destruct (_ <=? _); cbn; discriminate.
Qed.
End C17.
Example C17_case :
  let run Ls Rs n := rmap fst (no_zk_verify ro1 [] (mkNoZK (C := EX) Ls Rs (sN 4) (sN 8))
       [pN 5; pN 11] [pN 2; pN 9] (pN 17) n (pN 500) (sN 32)) in
  let R := [((-1391) mod pe)%Z] in
  run [[3%Z]] [R] 2 = Ok true /\ run [[3%Z]] [R; [77%Z]; [5%Z]] 2 = Ok true /\
  run [[3%Z; 4%Z]] [R] 2 = Panic /\ run [[pe]] [R] 2 = Panic /\ run [[3%Z]] [R] 4 = Panic.
Proof. vm_compute. repeat split. Qed.
