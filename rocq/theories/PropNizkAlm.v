(** C89: the almost-zk argument on its own with hashed challenges. Its first message is C_r,
    made from the two masks. *)
From Coq Require Import String.
From Verif Require Export NizkHit PropNizk PropNizkMany.
From Verif Require Import PropAlm Ex ExSmall.
Local Open Scope string_scope.
Local Open Scope nat_scope.
Local Open Scope list_scope.

Section C89.
Context {C : Crypto} {L : CryptoLaws C} (ceq : @encodings_comparable C).
Add Field SfC89 : (@S_field C L).

Lemma alm_runs ro ro' rng pos tr G H Q Cw a b t r : alm_zk_create ro rng pos tr G H Q Cw a b t = Ok r ->
  exists r', alm_zk_create ro' rng pos tr G H Q Cw a b t = Ok r'.
Proof.
  unfold alm_zk_create. destruct (sample_gram_schmidt rng pos b) as [[r1 p1]| |]; cbn [bind]; [|discriminate|discriminate].
  destruct (sample_gram_schmidt_twice rng p1 a r1) as [[r2 p2]| |]; cbn [bind]; [|discriminate|discriminate].
  destruct (msm _ _) as [Cr| |]; cbn [bind]; [|discriminate|discriminate]. unfold challenge_scalar, append_message.
  intros E. apply bind_Ok_inv in E as [[nz tr2] [EN E]].
  assert (R : exists r, no_zk_create ro ((((tr ++ [EvMsg "C_r" (compress Cr)]) ++ [EvChal "beta"])) ++ [EvMsg "P" (compress (ro ((tr ++ [EvMsg "C_r" (compress Cr)]) ++ [EvChal "beta"]) *: Cw + Cr + (ro ((tr ++ [EvMsg "C_r" (compress Cr)]) ++ [EvChal "beta"]) * ro ((tr ++ [EvMsg "C_r" (compress Cr)]) ++ [EvChal "beta"]) * t)%S *: Q)%P)]) G H Q
    (map2 (fun a r => ro ((tr ++ [EvMsg "C_r" (compress Cr)]) ++ [EvChal "beta"]) * a + r)%S a r1)
    (map2 (fun b r => ro ((tr ++ [EvMsg "C_r" (compress Cr)]) ++ [EvChal "beta"]) * b + r)%S b r2) = Ok r) by (eexists; exact EN).
  apply C14_nozk_create_returns in R as (d & HG & HH & Ha & Hb).
  match goal with |- context [no_zk_create ro' ?tr' G H Q ?a' ?b'] =>
    assert (R' : exists r, no_zk_create ro' tr' G H Q a' b' = Ok r) end.
  { apply C14_nozk_create_returns. exists d. repeat split; auto; [rewrite <- Ha|rewrite <- Hb]; rewrite !map2_length; reflexivity. }
  destruct R' as [[nz' tr2'] ->]. cbn [bind]. eauto.
Qed.
Lemma alm_first ro rng pos tr G H Q Cw a b t d pf tr' pos' : length G = 2 ^ d ->
  alm_zk_create ro rng pos tr G H Q Cw a b t = Ok (pf, tr', pos') ->
  (exists e, tr' = tr ++ EvMsg "C_r" (C_r pf) :: e /\ nchal e = d + 2) /\
  forall ro', (forall e, ro (tr ++ EvMsg "C_r" (C_r pf) :: e) = ro' (tr ++ EvMsg "C_r" (C_r pf) :: e)) ->
    alm_zk_create ro' rng pos tr G H Q Cw a b t = Ok (pf, tr', pos').
Proof.
  intros Hd E. split.
  - unfold alm_zk_create in E. apply bind_Ok_inv in E as [[r1 p1] [_ E]]. apply bind_Ok_inv in E as [[r2 p2] [_ E]].
    apply bind_Ok_inv in E as [Cr [_ E]]. unfold append_message, challenge_scalar in E. apply bind_Ok_inv in E as [[nz tr2] [EN E]]. injection E as <- <- _.
    apply (nozk_extends _ _ _ _ _ _ _ d) in EN as (e & -> & Ne); [|exact Hd]. rewrite <- !app_assoc. cbn [app]. eexists. split; [reflexivity|].
    cbn. unfold nchal in Ne. rewrite Ne. lia.
  - intros ro' A. rewrite <- E. symmetry. revert E. unfold alm_zk_create.
    destruct (sample_gram_schmidt rng pos b) as [[r1 p1]| |]; cbn [bind]; [|discriminate|discriminate].
    destruct (sample_gram_schmidt_twice rng p1 a r1) as [[r2 p2]| |]; cbn [bind]; [|discriminate|discriminate].
    destruct (msm _ _) as [Cr| |]; cbn [bind]; [|discriminate|discriminate]. unfold challenge_scalar, append_message.
    intros E. assert (EC : C_r pf = compress Cr).
    { apply bind_Ok_inv in E as [[nz tr2] [EN E]]. injection E as <- _ _. reflexivity. }
    clear E. rewrite EC in A.
    assert (A0 : agree (tr ++ [EvMsg "C_r" (compress Cr)]) ro ro') by (intros e; rewrite <- app_assoc; apply A).
    set (tr1 := (tr ++ _) ++ _). assert (A1 : agree tr1 ro ro') by (unfold tr1; now apply agree_app). rewrite (agree_at tr1 ro ro' A1).
    now rewrite (nozk_agree ro ro') by now apply agree_app.
Qed.

(** the simulated first message is spread by the first cross term *)
Lemma sim_spread (vals : list Scalar) d (g h : list Scalar) (q : Scalar) (B Cw : Point) (t : Scalar) c :
  1 <= d -> NoDup vals -> B <> p0 ->
  count (fun z => if ceq (C_r (sim_proof d (skipn 2 (firstn (d + 3) z)) g h q B (sc (firstn (d + 3) z) 0) (sc (firstn (d + 3) z) 1) Cw t
      (firstn 2 (skipn (d + 3) z)) (skipn 2 (skipn (d + 3) z)))) c then true else false) (words vals (d + 3 + (2 + (2 * d + 2))))
  <= 2 * length vals ^ (d + 3 + (2 + (2 * d + 2)) - 1).
Proof.
  intros Hd HN HB. set (Kz := d + 3 + (2 + (2 * d + 2))).
  set (pf := fun z => sim_proof d (skipn 2 (firstn (d + 3) z)) g h q B (sc (firstn (d + 3) z) 0) (sc (firstn (d + 3) z) 1) Cw t
      (firstn 2 (skipn (d + 3) z)) (skipn 2 (skipn (d + 3) z))).
  set (zero := fun z : list Scalar => negb (negb (seqb (sc z 2) s0))).
  set (ev := fun z => if ceq (C_r (pf z)) c then true else false).
  assert (Z := letter_zero vals Kz 2 HN ltac:(unfold Kz; lia)). fold zero in Z. rewrite Nat.mul_1_l in Z.
  assert (E : count (fun z => ev z && negb (zero z)) (words vals Kz) <= length vals ^ (Kz - 1)).
  { apply (count_forced vals Kz _ (d + 5)); [unfold Kz; lia|exact HN|]. intros z v v' Lz E E'.
    apply andb_prop in E as [E _]. apply andb_prop in E' as [E' Nz']. unfold zero in Nz'. rewrite negb_involutive in Nz'.
    (* the word, letter by letter *)
    assert (Hz : exists cs v0, z = cs ++ v0 /\ length cs = d + 3).
    { exists (firstn (d + 3) z), (skipn (d + 3) z). split; [symmetry; apply firstn_skipn|]. rewrite firstn_length. unfold Kz in Lz. lia. }
    destruct Hz as (cs & v0 & -> & Lc).
    rewrite app_length in Lz. destruct v0 as [|al0 [|al1 [|t0 ta]]]; cbn in Lz; try (unfold Kz in Lz; lia).
    assert (Eset : forall x, set_at (cs ++ al0 :: al1 :: t0 :: ta) (d + 5) x = cs ++ al0 :: al1 :: x :: ta).
    { intros x. clear -Lc. replace (d + 5) with (length cs + 2) by lia. induction cs as [|y cs IH]; [reflexivity|]. cbn. f_equal.
      clear -cs. induction cs as [|y cs IH]; [reflexivity|]. cbn. f_equal. exact IH. }
    rewrite !Eset in *. unfold ev, pf in E, E'.
    assert (Ff : forall y, firstn (d + 3) (cs ++ y) = cs) by (intros y; rewrite firstn_app, <- Lc, firstn_all, Nat.sub_diag, firstn_O; apply app_nil_r).
    assert (Fs : forall y, skipn (d + 3) (cs ++ y) = y) by (intros y; rewrite skipn_app, <- Lc, skipn_all, Nat.sub_diag; reflexivity).
    rewrite !Ff, !Fs in E, E'.
    cbn [app firstn skipn] in E, E'.
    destruct cs as [|be [|al [|x1 xs]]]; cbn in Lc; try lia. cbn [skipn] in E, E'.
    assert (Nx : x1 <> s0).
    { intros ->. unfold sc in Nz'. cbn in Nz'. assert (Y : seqb s0 s0 = true) by (now apply seqb_eq). rewrite Y in Nz'. discriminate. }
    destruct d as [|d']; [lia|]. unfold sim_proof in E, E'. cbn [expand tl] in E, E'.
    match type of E with context [expand d' ?x ?y ?z ?w ?al ?tt] => destruct (expand d' x y z w al tt) as [rs [a0 b0]] end. cbn [hd] in E, E'.
    match type of E with (if ?b then _ else _) = _ => destruct b as [E1|]; [|discriminate] end. match type of E' with (if ?b then _ else _) = _ => destruct b as [E2|]; [|discriminate] end.
    rewrite <- E2 in E1. apply (f_equal decompress) in E1. cbn [C_r] in E1. rewrite !decompress_compress in E1. injection E1 as E1.
    clear E E' E2.
    unfold mulBB in E1. cbn [map combine unfoldP] in E1. unfold sc at 1 2 in E1. cbn [nth] in E1.
    match type of E1 with (sinv x1 *: (?U - _ - ?R) - ?A1 - ?A2 = _)%P => set (U0 := U) in *; set (R0 := R) in *; set (P1 := A1) in *; set (P2 := A2) in * end.
    assert (Ex : forall y, (sinv x1 *: (U0 - (x1 * x1)%S *: (y *: B) - R0) - P1 - P2 = (sinv x1 *: (U0 - R0) - P1 - P2) - (x1 * y)%S *: B)%P).
    { intros y. transitivity ((sinv x1 *: (U0 - R0) - P1 - P2) - (sinv x1 * (x1 * x1) * y)%S *: B)%P; [pring|].
      replace (sinv x1 * (x1 * x1) * y)%S with (x1 * y)%S by (field; exact Nx). reflexivity. }
    rewrite !Ex in E1. set (W := (_ - P1 - P2)%P) in E1.
    assert (E2 : ((x1 * v)%S *: B = (x1 * v')%S *: B)%P).
    { transitivity (W - (W - (x1 * v)%S *: B))%P; [pring|]. rewrite E1. change (sc (v' :: ta) 0) with v'. pring. }
    apply pmul_inj in E2; [|exact HB]. transitivity (sinv x1 * (x1 * v))%S; [field; exact Nx|]. rewrite E2. field. exact Nx. }
  transitivity (count (fun z => ev z && negb (zero z)) (words vals Kz) + count zero (words vals Kz)); [|lia].
  etransitivity; [|apply count_or]. apply count_le. intros z _ Ez. change (ev z = true) in Ez. rewrite Ez. cbn [andb]. now destruct (zero z).
Qed.

(** n = 2^(d+1), the two vectors behind Cw, and d+3 challenges *)
Lemma alm_simulatable (vals : list Scalar) tr d (g h : list Scalar) (q : Scalar) (B : Point) (a b cs0 u0 : list Scalar) :
  let n := 2 ^ S d in let K := 2 * d + 4 in
  let G := mulB B g in let H := mulB B h in let Q := (q *: B)%P in
  let Cw := (comb a G + comb b H)%P in let t := dotp a b in
  2 <= d -> length g = n -> length h = n -> length a = n -> length b = n ->
  NoDup vals -> (forall x, In x vals) -> B <> p0 -> dotp a a <> s0 -> dotp b b <> s0 ->
  length cs0 = d + 3 -> length u0 = K -> zk_point d h a b q cs0 u0 ->
  hit_simulatable ceq vals tr (d + 3) (K + K) (2 + (2 * d + 2)) ((length vals - 1) ^ 2 * length vals ^ (2 * d + 2))
    ((3 * d + 7) * ((2 * d + 1) * (4 * n * n) + d + 5) * length vals ^ (d + 3 + (K + K) - 1)) 2
    (fun ro rng => alm_zk_create ro rng 0 tr G H Q Cw a b t)
    (fun ro pf => alm_zk_verify ro tr pf G H Q n Cw t)
    (fun cs v => sim_proof d (skipn 2 cs) g h q B (sc cs 0) (sc cs 1) Cw t (firstn 2 v) (skipn 2 v)).
Proof.
  intros n K G H Q Cw t Hd Hg Hh Ha Hb HN HA HB Naa Nbb Hc Hu Zp.
  assert (LG : length G = n) by (unfold G; now rewrite mulB_length). assert (LH : length H = n) by (unfold H; now rewrite mulB_length).
  exists "C_r", C_r. split; [|split; [|split; [|split; [|split]]]].
  - intros test. exact (C76_almzk_statistical_zk vals tr d g h q B a b cs0 u0 test Hd Hg Hh Ha Hb HN HA Naa Nbb Hc Hu Zp).
  - intros cs u pf tr' p E. rewrite <- LG. apply (C82_almzk_same_transcript (coins tr cs) (tape u) 0 tr G H Q Cw a b t pf tr' p); congruence.
  - intros u ro ro' pf tr' p E A. rewrite E. destruct (alm_first _ _ _ _ _ _ _ _ _ _ _ (S d) _ _ _ LG E) as [_ X]. now apply X.
  - intros u ro ro' pf tr' p E. eapply alm_runs. exact E.
  - intros u ro pf tr' p E. destruct (alm_first _ _ _ _ _ _ _ _ _ _ _ (S d) _ _ _ LG E) as [(e & -> & Ne) _]. exists e. split; [reflexivity|lia].
  - intros c. exact (sim_spread vals d g h q B Cw t c ltac:(lia) HN HB).
Qed.
Lemma unused_scalars_alm (M d : nat) : (M - 1) ^ 2 * M ^ (2 * d + 2) * M ^ (2 + (2 * d + 2)) <= M ^ (2 * d + 4 + (2 * d + 4)).
Proof.
  replace (2 * d + 4 + (2 * d + 4)) with (2 + (2 * d + 2) + (2 + (2 * d + 2))) by lia. rewrite !(Nat.pow_add_r M _ (2 + (2 * d + 2))).
  apply Nat.mul_le_mono_r. rewrite (Nat.pow_add_r M 2 (2 * d + 2)). apply Nat.mul_le_mono_r, Nat.pow_le_mono_l. lia.
Qed.

(** one proof *)
Theorem C89_almzk_nizk {St} (vals : list Scalar) tr d (g h : list Scalar) (q : Scalar) (B : Point) (a b cs0 u0 : list Scalar)
    (T1 T2 : nat) (ask : prover St) (judge : St -> AlmZK -> prover bool) :
  let n := 2 ^ S d in let K := 2 * d + 4 in
  let G := mulB B g in let H := mulB B h in let Q := (q *: B)%P in
  let Cw := (comb a G + comb b H)%P in let t := dotp a b in
  2 <= d -> length g = n -> length h = n -> length a = n -> length b = n ->
  NoDup vals -> (forall x, In x vals) -> B <> p0 -> dotp a a <> s0 -> dotp b b <> s0 ->
  length cs0 = d + 3 -> length u0 = K -> zk_point d h a b q cs0 u0 -> asks T1 ask ->
  let real := plays vals T1 T2 (d + 3) (K + K) (real_game ceq tr (fun ro rng => alm_zk_create ro rng 0 tr G H Q Cw a b t) ask judge) in
  let simd := plays vals T1 T2 (d + 3) (2 + (2 * d + 2)) (sim_game ceq tr (fun ro pf => alm_zk_verify ro tr pf G H Q n Cw t)
     (fun cs v => sim_proof d (skipn 2 cs) g h q B (sc cs 0) (sc cs 1) Cw t (firstn 2 v) (skipn 2 v)) ask judge) in
  let N := (length vals - 1) ^ 2 * length vals ^ (2 * d + 2) in
  let err := 2 * ((3 * d + 7) * ((2 * d + 1) * (4 * n * n) + d + 5) + T1) * length vals ^ (d + 3 + (K + K) + T1 + T2 - 1) in
  real <= N * simd + err /\ N * simd <= real + err.
Proof.
  intros n K G H Q Cw t Hd Hg Hh Ha Hb HN HA HB Naa Nbb Hc Hu Zp HT real simd N err.
  assert (HS := alm_simulatable vals tr d g h q B a b cs0 u0 Hd Hg Hh Ha Hb HN HA HB Naa Nbb Hc Hu Zp). cbv zeta in HS.
  assert (X := nizk_of_step ceq vals tr (d + 3) (K + K) (2 + (2 * d + 2)) N _ _ _ T1 T2 _ ask judge HT
    (hit_step ceq vals tr (d + 3) (K + K) (2 + (2 * d + 2)) N _ 2 T1 _ _ _ ltac:(lia) ltac:(lia) (unused_scalars_alm (length vals) d) HS)).
  cbv zeta in X. fold n K G H Q Cw t real simd in X.
  replace err with ((2 * ((3 * d + 7) * ((2 * d + 1) * (4 * n * n) + d + 5) * length vals ^ (d + 3 + (K + K) - 1)) +
      2 * T1 * length vals ^ (d + 3 + (K + K) - 1)) * length vals ^ (T1 + T2)); [exact X|].
  unfold err. replace (d + 3 + (K + K) + T1 + T2 - 1) with ((d + 3 + (K + K) - 1) + (T1 + T2)) by lia. rewrite (Nat.pow_add_r _ _ (T1 + T2)).
  generalize (length vals ^ (d + 3 + (K + K) - 1)), (length vals ^ (T1 + T2)), ((3 * d + 7) * ((2 * d + 1) * (4 * n * n) + d + 5)). clear. intros. nia.
Qed.
Theorem C89_almzk_witness_hidden {St} (vals : list Scalar) tr d (g h : list Scalar) (q : Scalar) (B : Point) (a b a' b' cs0 u0 cs0' u0' : list Scalar)
    (T1 T2 : nat) (ask : prover St) (judge : St -> AlmZK -> prover bool) :
  let n := 2 ^ S d in let K := 2 * d + 4 in
  let G := mulB B g in let H := mulB B h in let Q := (q *: B)%P in
  2 <= d -> length g = n -> length h = n -> length a = n -> length b = n -> length a' = n -> length b' = n ->
  NoDup vals -> (forall x, In x vals) -> B <> p0 -> dotp a a <> s0 -> dotp b b <> s0 -> dotp a' a' <> s0 -> dotp b' b' <> s0 ->
  length cs0 = d + 3 -> length u0 = K -> zk_point d h a b q cs0 u0 ->
  length cs0' = d + 3 -> length u0' = K -> zk_point d h a' b' q cs0' u0' ->
  (comb a G + comb b H = comb a' G + comb b' H)%P -> dotp a b = dotp a' b' -> asks T1 ask ->
  let real := fun a b => plays vals T1 T2 (d + 3) (K + K)
    (real_game ceq tr (fun ro rng => alm_zk_create ro rng 0 tr G H Q (comb a G + comb b H)%P a b (dotp a b)) ask judge) in
  let err := 2 * ((3 * d + 7) * ((2 * d + 1) * (4 * n * n) + d + 5) + T1) * length vals ^ (d + 3 + (K + K) + T1 + T2 - 1) in
  real a b <= real a' b' + 2 * err /\ real a' b' <= real a b + 2 * err.
Proof.
  intros n K G H Q Hd Hg Hh Ha Hb Ha' Hb' HN HA HB N1 N2 N3 N4 Lc Lu Z Lc' Lu' Z' EC Et HT real err.
  assert (X := C89_almzk_nizk vals tr d g h q B a b cs0 u0 T1 T2 ask judge Hd Hg Hh Ha Hb HN HA HB N1 N2 Lc Lu Z HT).
  assert (X' := C89_almzk_nizk vals tr d g h q B a' b' cs0' u0' T1 T2 ask judge Hd Hg Hh Ha' Hb' HN HA HB N3 N4 Lc' Lu' Z' HT).
  cbv zeta in X, X'. fold n K in X, X'. fold G H Q in X, X'. fold err in X, X'. rewrite <- EC, <- Et in X'. unfold real. rewrite <- EC, <- Et.
  destruct X as [X1 X2], X' as [Y1 Y2]. split.
  - eapply Nat.le_trans; [exact X1|]. eapply Nat.le_trans; [apply Nat.add_le_mono_r, Y2|]. lia.
  - eapply Nat.le_trans; [exact Y1|]. eapply Nat.le_trans; [apply Nat.add_le_mono_r, X2|]. lia.
Qed.

(** P proofs of statements chosen adaptively *)
Theorem C89_almzk_many {I} (vals : list Scalar) d (g h : list Scalar) (q : Scalar) (B : Point)
    (tr : I -> transcript) (a b : I -> list Scalar) (T P : nat) (c : client I AlmZK) :
  let n := 2 ^ S d in let K := 2 * d + 4 in
  let G := mulB B g in let H := mulB B h in let Q := (q *: B)%P in
  let Cw := fun i => (comb (a i) G + comb (b i) H)%P in let t := fun i => dotp (a i) (b i) in
  2 <= d -> length g = n -> length h = n -> NoDup vals -> (forall x, In x vals) -> B <> p0 ->
  (forall i, length (a i) = n /\ length (b i) = n /\ dotp (a i) (a i) <> s0 /\ dotp (b i) (b i) <> s0 /\
     exists cs0 u0, length cs0 = d + 3 /\ length u0 = K /\ zk_point d h (a i) (b i) q cs0 u0) ->
  fits T P c ->
  let l := d + 3 + (K + K) in
  let real := sessions vals T P l
    (real_session ceq tr (fun i ro rng => alm_zk_create ro rng 0 (tr i) G H Q (Cw i) (a i) (b i) (t i)) (d + 3) [] c) in
  let simd := sessions vals T P (d + 3 + (2 + (2 * d + 2)))
    (sim_session ceq tr (fun i ro pf => alm_zk_verify ro (tr i) pf G H Q n (Cw i) (t i))
       (fun i cs v => sim_proof d (skipn 2 cs) g h q B (sc cs 0) (sc cs 1) (Cw i) (t i) (firstn 2 v) (skipn 2 v)) (d + 3) [] c) in
  let N := (length vals - 1) ^ 2 * length vals ^ (2 * d + 2) in
  let err := 2 * P * ((3 * d + 7) * ((2 * d + 1) * (4 * n * n) + d + 5) + T + (d + 3) * P) * length vals ^ (T + l * P - 1) in
  real <= N ^ P * simd + err /\ N ^ P * simd <= real + err.
Proof.
  intros n K G H Q Cw t Hd Hg Hh HN HA HB HI HF l real simd N err.
  assert (LG : length G = n) by (unfold G; now rewrite mulB_length).
  set (sl := (3 * d + 7) * ((2 * d + 1) * (4 * n * n) + d + 5)) in *.
  set (M := length vals) in *. set (Qn := T + (d + 3) * P).
  assert (HS : forall i, step_close ceq vals (tr i) (d + 3) (K + K) (2 + (2 * d + 2)) N
    (fun ro rng => alm_zk_create ro rng 0 (tr i) G H Q (Cw i) (a i) (b i) (t i))
    (fun ro pf => alm_zk_verify ro (tr i) pf G H Q n (Cw i) (t i))
    (fun cs v => sim_proof d (skipn 2 cs) g h q B (sc cs 0) (sc cs 1) (Cw i) (t i) (firstn 2 v) (skipn 2 v))
    Qn (2 * (sl * M ^ (l - 1)) + 2 * Qn * M ^ (l - 1))).
  { intros i. destruct (HI i) as (I1 & I2 & I3 & I4 & cs0 & u0 & I5 & I6 & I7).
    apply (hit_step ceq vals (tr i) (d + 3) (K + K) (2 + (2 * d + 2)) N _ 2 Qn _ _ _ ltac:(lia) ltac:(lia) (unused_scalars_alm (length vals) d)).
    exact (alm_simulatable vals (tr i) d g h q B (a i) (b i) cs0 u0 Hd Hg Hh I1 I2 HN HA HB I3 I4 I5 I6 I7). }
  assert (X := nizk_many_of_step ceq vals tr (d + 3) (K + K) (2 + (2 * d + 2)) N
    (fun i ro rng => alm_zk_create ro rng 0 (tr i) G H Q (Cw i) (a i) (b i) (t i)) (fun i ro pf => alm_zk_verify ro (tr i) pf G H Q n (Cw i) (t i))
    (fun i cs v => sim_proof d (skipn 2 cs) g h q B (sc cs 0) (sc cs 1) (Cw i) (t i) (firstn 2 v) (skipn 2 v))
    c Qn _ (unused_scalars_alm (length vals) d) HS).
  assert (HL : forall i u ro pf tr' p, length u = K + K ->
    alm_zk_create ro (tape u) 0 (tr i) G H Q (Cw i) (a i) (b i) (t i) = Ok (pf, tr', p) -> exists e', tr' = tr i ++ e' /\ nchal e' = d + 3).
  { intros i u ro pf tr' p _ E. destruct (alm_extends _ _ _ _ _ _ _ _ _ _ _ (S d) _ _ _ LG E) as (e & -> & Ne). exists e. split; [reflexivity|lia]. }
  specialize (X HL T P [] HF (le_n _)). cbv zeta in X. fold M l in X.
  change (sessions vals T P l _) with real in X. change (sessions vals T P _ _) with simd in X.
  replace (P * (2 * (sl * M ^ (l - 1)) + 2 * Qn * M ^ (l - 1)) * (M ^ T * M ^ (l * (P - 1)))) with err in X; [exact X|].
  assert (TE := total_error M (2 * sl) 0 (2 * Qn) l T P ltac:(unfold l; lia)). unfold err.
  replace (2 * P * (sl + T + (d + 3) * P)) with (P * (2 * sl + 2 * Qn + 0)) by (unfold Qn; nia). rewrite <- TE, Nat.add_0_r, (Nat.mul_assoc 2 sl). reflexivity.
Qed.
End C89.

(** ** size 8, over a field of 50 bits *)
(** a distinguisher with T queries before the proof and 9 after it *)
Example C89_case {St} (ceq : @encodings_comparable EX) (vals : list (@Scalar EX)) (HN : NoDup vals) (HA : forall x, In x vals) (g : list Scalar) (B : Point)
    (T : nat) (ask : prover St) (judge : St -> AlmZK -> prover bool) : length g = 8 -> B <> p0 -> asks T ask ->
  let Cw := (comb sa76 (mulB B g) + comb sb76 (mulB B sh76))%P in
  let real := plays vals T 9 5 16
    (real_game ceq [] (fun ro rng => alm_zk_create ro rng 0 [] (mulB B g) (mulB B sh76) (sN 77 *: B)%P Cw sa76 sb76 (dotp sa76 sb76)) ask judge) in
  let simd := plays vals T 9 5 8 (sim_game ceq [] (fun ro pf => alm_zk_verify ro [] pf (mulB B g) (mulB B sh76) (sN 77 *: B)%P 8 Cw (dotp sa76 sb76))
     (fun cs v => sim_proof 2 (skipn 2 cs) g sh76 (sN 77) B (sc cs 0) (sc cs 1) Cw (dotp sa76 sb76) (firstn 2 v) (skipn 2 v)) ask judge) in
  let N := (length vals - 1) ^ 2 * length vals ^ 6 in
  let err := 2 * (13 * 1287 + T) * length vals ^ (20 + T + 9) in
  real <= N * simd + err /\ N * simd <= real + err.
Proof.
  intros Hg HB HT Cw real simd N err.
  assert (X := @C89_almzk_nizk EX EX_laws ceq St vals [] 2 g sh76 (sN 77) B sa76 sb76 (sN 5 :: sN 7 :: sx76) su76 T 9 ask judge).
  cbv zeta in X. apply X; clear X; try assumption; try reflexivity.
  - apply zs_neq. vm_compute. reflexivity.
  - apply zs_neq. vm_compute. reflexivity.
  - exact C76_case_point.
Qed.
(** ** a single play in a small field: the distinguisher asks for the first challenge of the
    proof it is given and compares it with 5. In the real game the answer is the prover's
    challenge, in the simulated game the simulator has set it. Asked about another history it
    gets the next answer. *)
Section C89plays.
Let fceq : @encodings_comparable FS := list_eq_dec Z.eq_dec.
Let G := mulB (qN 1) g76.
Let H := mulB (qN 1) h76.
Let Q := (fN 77 *: qN 1)%P.
Let Cw := (comb a76 G + comb b76 H)%P.
Let cs := fN 5 :: fN 7 :: x76.
Let asks_beta (lab : string) (_ : unit) (pf : @AlmZK FS) : @prover FS bool :=
  Ask [EvMsg lab (C_r pf); EvChal "beta"] (fun v => Done (seqb v (fN 5))).
Let real lab := real_game fceq [] (fun ro rng => alm_zk_create ro rng 0 [] G H Q Cw a76 b76 (dotp a76 b76)) (Done tt) (asks_beta lab) [] [fN 6] cs
  (u76 ++ map fN [31; 11; 4; 17; 5; 9; 2; 6]%Z).
Let simd lab := sim_game fceq [] (fun ro pf => alm_zk_verify ro [] pf G H Q 8 Cw (dotp a76 b76))
  (fun cs v => sim_proof 2 (skipn 2 cs) g76 h76 (fN 77) (qN 1) (sc cs 0) (sc cs 1) Cw (dotp a76 b76) (firstn 2 v) (skipn 2 v)) (Done tt) (asks_beta lab) [] [fN 6] cs
  (map fN [40; 41; 1; 2; 3; 4; 5; 6]%Z).
Example C89_case_plays : real "C_r" = true /\ simd "C_r" = true /\ real "P" = false /\ simd "P" = false.
Proof. repeat split; vm_compute; reflexivity. Qed.
End C89plays.
