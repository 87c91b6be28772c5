(** C84: zero-knowledge of SimpleZK with hashed challenges, for one proof and for many
    adaptively requested ones. *)
From Coq Require Import String.
From Verif Require Export PropNizkMany.
From Verif Require Import PropSimpleZK PropZkCount Ex ExSmall.
Local Open Scope string_scope.
Local Open Scope nat_scope.
Local Open Scope list_scope.

(** ** The simulator, without a witness: the first challenge is drawn before the first message *)
Section Sim.
Context {C : Crypto}.
Definition sz_sim tr (A : list (list Point)) (G H : list Point) (Q : Point) (t : list Point) (cs v : list Scalar) : SimpleZK :=
  match sz_simulate (coins tr cs) tr A G H Q t (sc cs 0) v with Ok (pf, _) => pf | _ => mkSimpleZK (mkLmpaNoZK [] [] s0) [] end.
(** simple_zk_create, with the number of random scalars used *)
Definition sz_create (ro : oracle) (rng : nat -> Scalar) tr (A : list (list Point)) (G H : list Point) (Q : Point) (w : list Scalar)
  : res (SimpleZK * transcript * nat) :=
  '(pf, tr') <- simple_zk_create ro rng 0 tr A G H Q w ;; Ok (pf, tr', length G).
End Sim.

Section C84.
Context {C : Crypto} {L : CryptoLaws C} (ceq : @encodings_comparable C).
Add Field SfC84 : (@S_field C L).

Lemma lm_loop_agree (ro ro' : oracle) : forall f tr n A w Ls Rs, agree tr ro ro' ->
  lmpa_create_loop f ro tr n A w Ls Rs = lmpa_create_loop f ro' tr n A w Ls Rs.
Proof.
  induction f as [|f IH]; intros tr n A w Ls Rs Ag; [reflexivity|].
  destruct (Nat.eq_dec n 1) as [->|Hn]; [reflexivity|]. rewrite !(lm_create_step f) by exact Hn. cbv zeta.
  rewrite (agree_at _ _ _ (agree_app tr (lm_round (cr_L A w) (cr_R A w)) ro ro' Ag)).
  destruct (matrixpoint_matrix_add _ _) as [A'| |]; [|reflexivity|reflexivity]. cbn [bind]. apply IH. now apply agree_app.
Qed.
Lemma draw_tape0 n (u : list Scalar) : length u = n -> draw (tape u) 0 n = u.
Proof.
  intros <-. transitivity (draw (tape_at 0 u) 0 (length u)); [|apply draw_tape_at]. unfold draw. apply map_ext. intros i. unfold tape, tape_at. now rewrite Nat.sub_0_r.
Qed.
Lemma lin_set_at : forall (u : list Scalar) (row : list Point) j v, j < length u -> length row = length u ->
  lin (set_at u j v) row = (lin u row + (v - sc u j)%S *: pt row j)%P.
Proof.
  induction u as [|x u IH]; intros row j v Hj Hl; cbn in Hj; [lia|]. destruct row as [|P row]; [discriminate|].
  destruct j as [|j]; cbn [set_at lin].
  - unfold sc, pt. cbn [nth]. pring.
  - rewrite IH by (cbn in Hl; lia). unfold sc, pt. cbn [nth]. pring.
Qed.
Lemma row_spread (vals : list Scalar) (row : list Point) n j c : NoDup vals -> length row = n -> j < n -> pt row j <> p0 ->
  count (fun u => if ceq (compress (lin u row)) c then true else false) (words vals n) <= length vals ^ (n - 1).
Proof.
  intros HN Hr Hj Hnz. apply (count_forced vals n _ j Hj HN). intros u v v' Hu E E'.
  destruct (ceq (compress (lin (set_at u j v) row)) c) as [E1|]; [|discriminate].
  destruct (ceq (compress (lin (set_at u j v') row)) c) as [E2|]; [|discriminate].
  rewrite <- E2 in E1. assert (Y := f_equal decompress E1). rewrite !decompress_compress in Y. injection Y as Y. clear E1. rename Y into E1. rewrite !lin_set_at in E1 by lia.
  apply (pmul_inj (pt row j)); [exact Hnz|].
  transitivity ((lin u row + (v - sc u j)%S *: pt row j) - lin u row + sc u j *: pt row j)%P; [pring|]. rewrite E1. pring.
Qed.

Lemma simple_zk_simulatable (vals : list Scalar) tr d m (A : list (list Point)) (G H : list Point) (Q : Point) (w : list Scalar) :
  let n := 2 ^ d in
  1 <= m -> rect m n A -> length G = n -> length w = n -> NoDup vals -> (forall x, In x vals) ->
  (exists j, j < n /\ pt (nth 0 A []) j <> p0) ->
  simulatable ceq vals tr (d + 1) n n 1 0 0
    (fun ro rng => sz_create ro rng tr A G H Q w)
    (fun ro pf => simple_zk_verify ro tr pf A G H Q n (pmv A w))
    (fun cs v => sz_sim tr A G H Q (pmv A w) cs v).
Proof.
  intros n Hm HA HG Hw HN HV (j & Hj & Hnz).
  destruct A as [|row A]; [destruct HA as [HA _]; cbn in HA; lia|]. cbn [nth] in Hnz.
  assert (Hrow : length row = n) by (destruct HA as [_ HA]; inversion HA; auto).
  set (AA := row :: A) in *.
  assert (Hbeta : forall cs r, length r = n -> coins tr cs (sz_hist tr (pmv AA r)) = sc cs 0).
  { intros cs r Hr. apply coins_at. unfold sz_hist. rewrite !nchal_app, nchal_msgs. cbn. lia. }
  assert (H1 : forall test : list Scalar -> SimpleZK -> bool,
     let real := count (fun z => on_proof (test (firstn (d + 1) z)) (sz_create (coins tr (firstn (d + 1) z)) (tape (skipn (d + 1) z)) tr AA G H Q w)) (words vals (d + 1 + n)) in
     let simd := count (fun z => test (firstn (d + 1) z) (sz_sim tr AA G H Q (pmv AA w) (firstn (d + 1) z) (skipn (d + 1) z))) (words vals (d + 1 + n)) in
     real <= 1 * simd + 0 /\ 1 * simd <= real + 0).
  { intros test real simd. enough (real = simd) by lia. unfold real, simd. rewrite !count_words_app. f_equal. apply map_ext_in. intros cs Hcs.
    apply words_In in Hcs as [Lc _].
    assert (HGw : length w = length G) by congruence. assert (HGA : rect m (length G) AA) by now rewrite HG.
    destruct (C41_simple_zk_simulation (coins tr cs) tr m AA G H Q w HGA HGw (sc cs 0)) as (f & g & Hf & Hg & X). rewrite HG in Hf, Hg, X.
    rewrite <- (count_bij vals n f g (fun v => test (firstn (d + 1) (cs ++ v)) (sz_sim tr AA G H Q (pmv AA w) (firstn (d + 1) (cs ++ v)) (skipn (d + 1) (cs ++ v))))) by auto.
    apply count_ext. intros u Hu. apply words_In in Hu as [Lu _].
    rewrite !firstn_app, !skipn_app, Lc, Nat.sub_diag, !firstn_O, !app_nil_r, !firstn_all2, !skipn_all2 by lia. cbn [app skipn].
    unfold sz_create, sz_sim. rewrite (X (tape u) 0) by (rewrite draw_tape0 by exact Lu; apply Hbeta; exact Lu). rewrite draw_tape0 by exact Lu.
    destruct (Hf u Lu) as [Lf _].
    assert (Lt : length (pmv AA w) = m) by (unfold pmv; rewrite map_length; apply HA).
    destruct (C41_simple_zk_simulator_accepted (coins tr cs) tr d m AA G H Q (pmv AA w) (sc cs 0) (f u) Hm HA HG Lf Lt) as (pf & tr' & E & _).
    { apply coins_at. unfold sz_hist. rewrite !nchal_app, nchal_msgs. cbn. lia. }
    rewrite E. reflexivity. }
  assert (H2 : forall cs u pf tr' p, length cs = d + 1 -> true = true -> sz_create (coins tr cs) (tape u) tr AA G H Q w = Ok (pf, tr', p) ->
     exists b, simple_zk_verify (coins tr cs) tr pf AA G H Q n (pmv AA w) = Ok (b, tr')).
  { intros cs u pf tr' p _ _ E. unfold sz_create in E. destruct (C40_simple_zk_completeness (coins tr cs) (tape u) 0 tr d m AA G H Q w Hm HA HG Hw) as (pf0 & tr0 & E1 & E2).
    rewrite E1 in E. injection E as <- <- _. exists true. exact E2. }
  assert (H3 : count (fun cs : list Scalar => negb true) (words vals (d + 1)) <= 0 * length vals ^ (d + 1 - 1)) by (rewrite count_none; auto).
  assert (EQ : forall ro u, length u = n -> sz_create ro (tape u) tr AA G H Q w =
    ('(p, tr') <- lmpa_create ro (sz_hist tr (pmv AA u)) AA G H Q (blind (ro (sz_hist tr (pmv AA u))) w u) ;; Ok (mkSimpleZK p (pmv AA u), tr', length G))).
  { intros ro u Lu. unfold sz_create. rewrite (simple_zk_create_eq _ _ _ _ m) by now rewrite HG. cbv zeta. rewrite HG, draw_tape0 by exact Lu.
    destruct (lmpa_create _ _ _ _ _ _ _) as [[p tr']| |]; reflexivity. }
  assert (HH : forall u, length u = n -> sz_hist tr (pmv AA u) = tr ++ EvMsg "a" (compress (lin u row)) :: (lm_msgs "a" (pmv A u) ++ [EvChal "beta"])).
  { intros u Lu. unfold sz_hist, AA, pmv, lm_msgs. cbn [map app]. rewrite <- lin_comb by lia. reflexivity. }
  assert (H4 : forall u ro ro', length u = n ->
     (forall e', ro (tr ++ EvMsg "a" (compress (lin u row)) :: e') = ro' (tr ++ EvMsg "a" (compress (lin u row)) :: e')) ->
     sz_create ro (tape u) tr AA G H Q w = sz_create ro' (tape u) tr AA G H Q w).
  { intros u ro ro' Lu Ag. rewrite !EQ by exact Lu.
    assert (Ag1 : agree (sz_hist tr (pmv AA u)) ro ro') by (intros e; rewrite HH by exact Lu; rewrite <- app_assoc; apply Ag).
    rewrite <- (agree_at _ _ _ Ag1). unfold lmpa_create. rewrite (lm_loop_agree ro ro') by exact Ag1. reflexivity. }
  assert (H5 : forall u ro pf tr' p, length u = n -> sz_create ro (tape u) tr AA G H Q w = Ok (pf, tr', p) ->
     exists e', tr' = tr ++ EvMsg "a" (compress (lin u row)) :: e' /\ nchal e' = d + 1).
  { intros u ro pf tr' p Lu E. rewrite EQ in E by exact Lu. unfold lmpa_create in E. rewrite HG in E.
    destruct (lm_create_loop_spec d (S (n + list_max (map (@length Point) AA))) ro (sz_hist tr (pmv AA u)) m AA (blind (ro (sz_hist tr (pmv AA u))) w u) [] []) as (l & r & w0 & E1 & Ll & Lr & _).
    { assert (Y := pow2_gt d). unfold n. lia. } { exact HA. } { rewrite blind_length; lia. }
    fold n in E1. rewrite E1 in E. cbn [bind] in E. injection E as _ <- _.
    unfold lm_hist. change (comb u row :: pmv A u) with (pmv AA u). rewrite HH by exact Lu. rewrite <- app_assoc. cbn [app]. eexists. split; [reflexivity|].
    assert (Y := nchal_lm_hist [] (combine l r) d). unfold lm_hist in Y. cbn [app] in Y. rewrite !nchal_app, nchal_msgs, Y, combine_length. cbn. lia. }
  exists "a", (fun u => compress (lin u row)), (fun _ => true).
  exact (conj H1 (conj H2 (conj H3 (conj H4 (conj H5 (fun c => row_spread vals row n j c HN Hrow Hj Hnz)))))).
Qed.

(** one proof: the two games differ only if the first message was queried before *)
Theorem C84_simple_zk_nizk {St} (vals : list Scalar) tr d m (A : list (list Point)) (G H : list Point) (Q : Point) (w : list Scalar)
    (T1 T2 : nat) (ask : prover St) (judge : St -> SimpleZK -> prover bool) :
  let n := 2 ^ d in
  1 <= m -> rect m n A -> length G = n -> length w = n -> NoDup vals -> (forall x, In x vals) ->
  (exists j, j < n /\ pt (nth 0 A []) j <> p0) -> asks T1 ask ->
  let real := plays vals T1 T2 (d + 1) n (real_game ceq tr (fun ro rng => sz_create ro rng tr A G H Q w) ask judge) in
  let simd := plays vals T1 T2 (d + 1) n (sim_game ceq tr (fun ro pf => simple_zk_verify ro tr pf A G H Q n (pmv A w))
       (fun cs v => sz_sim tr A G H Q (pmv A w) cs v) ask judge) in
  let err := T1 * length vals ^ (d + n + T1 + T2) in
  real <= simd + err /\ simd <= real + err.
Proof.
  intros n Hm HA HG Hw HN HV Hnz HT real simd err.
  assert (Hn : 1 <= n) by apply pow2_pos.
  assert (X := nizk ceq vals tr (d + 1) n n 1 0 0 _ _ _ T1 T2 ask judge HN Hn ltac:(lia) HT
    (simple_zk_simulatable vals tr d m A G H Q w Hm HA HG Hw HN HV Hnz)). cbv zeta in X. fold real simd in X.
  replace ((0 + (T1 + 0) * length vals ^ (d + 1 + n - 1)) * length vals ^ (T1 + T2)) with err in X; [rewrite Nat.mul_1_l in X; exact X|].
  unfold err. rewrite !Nat.add_0_r, Nat.add_0_l. rewrite <- Nat.mul_assoc, <- Nat.pow_add_r. do 2 f_equal. lia.
Qed.
(** many proofs, of statements chosen adaptively *)
Theorem C84_simple_zk_many {I} (vals : list Scalar) d (G H : list Point) (Q : Point)
    (tr : I -> transcript) (m : I -> nat) (A : I -> list (list Point)) (w : I -> list Scalar) (T P : nat) (c : client I SimpleZK) :
  let n := 2 ^ d in
  length G = n -> NoDup vals -> (forall x, In x vals) ->
  (forall i, 1 <= m i /\ rect (m i) n (A i) /\ length (w i) = n /\ exists j, j < n /\ pt (nth 0 (A i) []) j <> p0) ->
  fits T P c ->
  let l := d + 1 + n in
  let real := sessions vals T P l (real_session ceq tr (fun i ro rng => sz_create ro rng (tr i) (A i) G H Q (w i)) (d + 1) [] c) in
  let simd := sessions vals T P l
    (sim_session ceq tr (fun i ro pf => simple_zk_verify ro (tr i) pf (A i) G H Q n (pmv (A i) (w i)))
       (fun i cs v => sz_sim (tr i) (A i) G H Q (pmv (A i) (w i)) cs v) (d + 1) [] c) in
  let err := P * (T + (d + 1) * P) * length vals ^ (T + l * P - 1) in
  real <= simd + err /\ simd <= real + err.
Proof.
  intros n HG HN HV HI HF l real simd err.
  assert (Hn : 1 <= n) by apply pow2_pos.
  assert (HS : forall i, simulatable ceq vals (tr i) (d + 1) n n 1 (0 * length vals ^ (d + 1 + n - 1)) 0
    (fun ro rng => sz_create ro rng (tr i) (A i) G H Q (w i))
    (fun ro pf => simple_zk_verify ro (tr i) pf (A i) G H Q n (pmv (A i) (w i)))
    (fun cs v => sz_sim (tr i) (A i) G H Q (pmv (A i) (w i)) cs v)).
  { intros i. destruct (HI i) as (I1 & I2 & I3 & I4). exact (simple_zk_simulatable vals (tr i) d (m i) (A i) G H Q (w i) I1 I2 HG I3 HN HV I4). }
  assert (X := nizk_many ceq vals tr (d + 1) n n 1 _ 0 _ _ _ c (T + (d + 1) * P) HN Hn ltac:(lia)
    ltac:(lia) HS T P [] HF (le_n _)). cbv zeta in X. fold l in X. rewrite total_error in X by (unfold l; lia). fold real simd in X.
  rewrite Nat.pow_1_l in X. rewrite Nat.add_0_r, Nat.add_0_l, Nat.mul_1_l in X. exact X.
Qed.
(** ... so nobody learns which witnesses were used *)
Theorem C84_simple_zk_witnesses_hidden {I} (vals : list Scalar) d (G H : list Point) (Q : Point)
    (tr : I -> transcript) (m : I -> nat) (A : I -> list (list Point)) (w w' : I -> list Scalar) (T P : nat) (c : client I SimpleZK) :
  let n := 2 ^ d in
  length G = n -> NoDup vals -> (forall x, In x vals) ->
  (forall i, 1 <= m i /\ rect (m i) n (A i) /\ exists j, j < n /\ pt (nth 0 (A i) []) j <> p0) ->
  (forall i, length (w i) = n /\ length (w' i) = n /\ pmv (A i) (w i) = pmv (A i) (w' i)) ->
  fits T P c ->
  let l := d + 1 + n in
  let real := fun w : I -> list Scalar => sessions vals T P l (real_session ceq tr (fun i ro rng => sz_create ro rng (tr i) (A i) G H Q (w i)) (d + 1) [] c) in
  let err := P * (T + (d + 1) * P) * length vals ^ (T + l * P - 1) in
  real w <= real w' + 2 * err /\ real w' <= real w + 2 * err.
Proof.
  intros n HG HN HV HM HW HF l real err.
  assert (X : forall v : I -> list Scalar, (forall i, length (v i) = n) -> (forall i, pmv (A i) (v i) = pmv (A i) (w i)) ->
    let simd := sessions vals T P l
      (sim_session ceq tr (fun i ro pf => simple_zk_verify ro (tr i) pf (A i) G H Q n (pmv (A i) (v i)))
        (fun i cs u => sz_sim (tr i) (A i) G H Q (pmv (A i) (v i)) cs u) (d + 1) [] c) in
    real v <= simd + err /\ simd <= real v + err).
  { intros v Lv Ev. refine (C84_simple_zk_many vals d G H Q tr m A v T P c HG HN HV _ HF).
    intros i. destruct (HM i) as (M1 & M2 & M3). split; [exact M1|]. split; [exact M2|]. split; [apply Lv|exact M3]. }
  assert (X1 := X w (fun i => proj1 (HW i)) (fun i => eq_refl)).
  assert (X2 := X w' (fun i => proj1 (proj2 (HW i))) (fun i => eq_sym (proj2 (proj2 (HW i))))). cbv zeta in X1, X2. clear X.
  set (S1 := sessions vals T P l (sim_session _ _ _ _ _ _ _)) in X1.
  set (S2 := sessions vals T P l (sim_session _ _ _ _ _ _ _)) in X2.
  assert (E : S1 = S2); [|lia].
  unfold S1, S2, sessions. f_equal. apply map_ext. intros ws. apply count_ext. intros zs _.
  clear -HW. generalize (@nil (transcript * Scalar)) as mm. revert ws zs. induction c as [b|h next IH|i next IH]; intros ws zs mm; cbn [sim_session].
  - reflexivity.
  - apply IH.
  - destruct (HW i) as (_ & _ & <-). destruct (simple_zk_verify _ _ _ _ _ _ _ _ _) as [[b tr']| |]; apply IH.
Qed.
End C84.

(** ** two witnesses of the same statement, over a field of 50 bits *)
Definition A84 (B : @Point EX) : list (list Point) := [mulB B (map sN [1; 2; 3; 4]%Z); mulB B (map sN [0; 1; 1; 0]%Z)].
Example C84_case (ceq : @encodings_comparable EX) (vals : list (@Scalar EX)) (HN : NoDup vals) (HV : forall x, In x vals) (B : Point)
    (T P : nat) (c : client transcript SimpleZK) : B <> p0 -> fits T P c ->
  let real := fun w => sessions vals T P 7
    (real_session ceq (fun tr => tr) (fun tr ro rng => sz_create ro rng tr (A84 B) G4 H4 (pN 17) w) 3 [] c) in
  let err := P * (T + 3 * P) * length vals ^ (T + 7 * P - 1) in
  real (map sN [5; 1; 2; 3]%Z) <= real (map sN [6; 2; 1; 3]%Z) + 2 * err /\
  real (map sN [6; 2; 1; 3]%Z) <= real (map sN [5; 1; 2; 3]%Z) + 2 * err.
Proof.
  intros HB HF real err.
  refine (@C84_simple_zk_witnesses_hidden EX EX_laws ceq transcript vals 2 G4 H4 (pN 17) (fun tr => tr) (fun _ => 2) (fun _ => A84 B)
    (fun _ => map sN [5; 1; 2; 3]%Z) (fun _ => map sN [6; 2; 1; 3]%Z) T P c eq_refl HN HV _ _ HF).
  - intros _. split; [lia|]. split; [split; [reflexivity|repeat constructor]|]. exists 0. split; [cbn; lia|].
    cbn [nth A84]. intros Z. rewrite (@pt_mulB EX EX_laws) in Z. apply (@pmul_eq_0 EX EX_laws) in Z as [Z|Z]; [|contradiction].
    revert Z. apply zs_neq. vm_compute. reflexivity.
  - intros _. split; [reflexivity|]. split; [reflexivity|]. unfold pmv, A84. cbn [map].
    rewrite <- !(@lin_comb EX EX_laws) by reflexivity. rewrite !(@lin_mulB EX EX_laws) by reflexivity. repeat f_equal; apply zs_inj; vm_compute; reflexivity.
Qed.

(** ** size 2: single games *)
Section C84plays.
Let fceq : @encodings_comparable FS := list_eq_dec Z.eq_dec.
Let G : list (@Point FS) := map qN [1; 6]%Z.
Let A : list (list (@Point FS)) := [map qN [1; 6]; map qN [2; 3]]%Z.
Let w : list (@Scalar FS) := map fN [3; 4]%Z.
Let tr : @transcript FS := [EvU64 "id" 7].
Let create (A : list (list (@Point FS))) : @oracle FS -> (nat -> @Scalar FS) -> res (@SimpleZK FS * transcript * nat) :=
  fun ro rng => sz_create ro rng tr A G G (qN 5) w.
Let verify (A : list (list (@Point FS))) : @oracle FS -> @SimpleZK FS -> res (bool * transcript) :=
  fun ro pf => simple_zk_verify ro tr pf A G G (qN 5) 2 (pmv A w).
Let sim (A : list (list (@Point FS))) := fun cs v : list (@Scalar FS) => sz_sim tr A G G (qN 5) (pmv A w) cs v.
(** ask for the challenges of a proof and verify it *)
Fixpoint check84 (k : nat) (m : @memo FS) (pf : @SimpleZK FS) : @prover FS bool :=
  let ro := recall fceq m (fun _ => s1) in
  match simple_zk_verify ro tr pf A G G (qN 5) 2 (pmv A w) with
  | Ok (b, tr') => match k with O => Done b | S k =>
      let h := nth (length m) (drawn tr (skipn 1 tr')) [] in Ask h (fun v => check84 k (m ++ [(h, v)]) pf) end
  | _ => Done false
  end.
Let ask : @prover FS (@Scalar FS) := Ask [EvChal "x"] Done.
Let guess : @prover FS (@Scalar FS) := Ask (sz_hist tr [qN 0; qN 0]) Done.
Example C84_case_plays :
  real_game fceq tr (create A) ask (fun _ pf => check84 2 [] pf) [fN 1] (map fN [5; 6]%Z) (map fN [11; 12]%Z) (map fN [21; 22]%Z) = true /\
  sim_game fceq tr (verify A) (sim A) ask (fun _ pf => check84 2 [] pf) [fN 1] (map fN [5; 6]%Z) (map fN [11; 12]%Z) (map fN [21; 22]%Z) = true.
Proof. split; vm_compute; reflexivity. Qed.
(** The first row must not be zero: with a matrix of zeros the first message is known in
    advance, and asking for its challenge before and after the proof tells the games apart. *)
Let zeros : list (list (@Point FS)) := [map qN [0; 0]; map qN [0; 0]]%Z.
Let same (st : @Scalar FS) (_ : @SimpleZK FS) : @prover FS bool := Ask (sz_hist tr [qN 0; qN 0]) (fun v => Done (seqb v st)).
Example C84_case_zero_row :
  real_game fceq tr (create zeros) guess same [fN 1] [fN 5] (map fN [11; 12]%Z) (map fN [21; 22]%Z) = true /\
  sim_game fceq tr (verify zeros) (sim zeros) guess same [fN 1] [fN 5] (map fN [11; 12]%Z) (map fN [21; 22]%Z) = false.
Proof. split; vm_compute; reflexivity. Qed.
End C84plays.
