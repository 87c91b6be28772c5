(** C18-C21: the almost zero-knowledge inner product argument. *)
From Coq Require Import String.
From Verif Require Export PropIpa GramFacts PropGram IpaAlmZK.
Local Open Scope string_scope.
Local Open Scope nat_scope.
Local Open Scope list_scope.

Section Alm.
Context {C : Crypto} {L : CryptoLaws C}.
Add Field SfAlm : (@S_field C L).

Lemma alm_verify_eq ro tr proof G H Q n Cw t Cr : decompress (C_r proof) = Some Cr ->
  let beta := ro (alm_beta_hist tr (C_r proof)) in
  alm_zk_verify ro tr proof G H Q n Cw t =
  no_zk_verify ro (alm_ipa_hist tr (C_r proof) (alm_P beta t Cw Cr Q)) (az_NoZK proof) G H Q n
    (alm_P beta t Cw Cr Q) (beta * beta * t)%S.
Proof.
  intros Hd beta. unfold alm_zk_verify. rewrite Hd. cbn [unwrap bind].
  unfold append_message, challenge_scalar.
  replace ((tr ++ [EvMsg "C_r" (C_r proof)]) ++ [EvChal "beta"]) with (alm_beta_hist tr (C_r proof))
    by (unfold alm_beta_hist; now rewrite <- app_assoc).
  reflexivity.
Qed.

(** what a successful run of the prover consists of *)
Lemma alm_create_inv ro rng pos tr G H Q Cw a b t proof tr' pos' n :
  length G = n -> length H = n -> length a = n -> length b = n ->
  alm_zk_create ro rng pos tr G H Q Cw a b t = Ok (proof, tr', pos') ->
  exists d r' r'' pos1,
    n = 2 ^ d /\ length r' = n /\ length r'' = n /\
    sample_gram_schmidt rng pos b = Ok (r', pos1) /\
    sample_gram_schmidt_twice rng pos1 a r' = Ok (r'', pos') /\
    let Cr := (lin r' G + lin r'' H)%P in
    C_r proof = compress Cr /\
    let beta := ro (alm_beta_hist tr (C_r proof)) in
    no_zk_create ro (alm_ipa_hist tr (C_r proof) (alm_P beta t Cw Cr Q)) G H Q
      (map2 (fun a r => beta * a + r)%S a r') (map2 (fun b r => beta * b + r)%S b r'')
    = Ok (az_NoZK proof, tr').
Proof.
  intros HG HH Ha Hb E. unfold alm_zk_create in E.
  apply bind_Ok_inv in E as [[r' pos1] [E1 E]]. apply bind_Ok_inv in E as [[r'' pos2] [E2 E]].
  apply bind_Ok_inv in E as [Cr [E3 E]].
  destruct (sgs_orth _ _ _ _ _ E1) as [Lr' _].
  destruct (sgst_orth _ _ a r' _ _ ltac:(lia) E2) as [Lr'' _].
  apply msm_Ok_inv in E3 as [_ ->].
  rewrite lin_app in E by lia.
  unfold append_message, challenge_scalar in E.
  set (Cr := (lin r' G + lin r'' H)%P) in *.
  replace ((tr ++ [EvMsg "C_r" (compress Cr)]) ++ [EvChal "beta"]) with (alm_beta_hist tr (compress Cr)) in E
    by (unfold alm_beta_hist; now rewrite <- app_assoc).
  set (beta := ro (alm_beta_hist tr (compress Cr))) in *.
  apply bind_Ok_inv in E as [[nz trf] [E4 E]]. injection E as <- <- <-.
  assert (X := proj1 (C14_nozk_create_returns _ _ _ _ _ _ _) (ex_intro _ _ E4)).
  destruct X as (d & Hd & _).
  exists d, r', r'', pos1. split; [congruence|]. split; [congruence|]. split; [congruence|].
  split; [exact E1|]. split; [exact E2|]. cbn [C_r az_NoZK]. split; [reflexivity|]. exact E4.
Qed.

Lemma lin_masked (beta : Scalar) (a r : list Scalar) P : length a = length r ->
  lin (map2 (fun a r => beta * a + r)%S a r) P = (beta *: lin a P + lin r P)%P.
Proof.
  intros Hl. rewrite (map2_ext _ (fun a r => beta * a + s1 * r)%S) by (intros; ring).
  rewrite lin_affine_s by auto. pring.
Qed.
Lemma dot_masked (beta : Scalar) (a b r r' : list Scalar) : length a = length r -> length b = length r' ->
  dot (map2 (fun a r => beta * a + r)%S a r) (map2 (fun a r => beta * a + r)%S b r') =
  (beta * beta * dot a b + beta * (dot a r' + dot r b) + dot r r')%S.
Proof.
  intros H1 H2.
  assert (E : forall u v : list Scalar, map2 (fun a r => beta * a + r)%S u v = map2 (fun a r => beta * a + s1 * r)%S u v)
    by (intros; apply map2_ext; intros; ring).
  rewrite !E. rewrite dot_affine_l, !dot_affine_r by auto. ring.
Qed.

Lemma alm_accept_iff ro rng pos tr G H Q a b t proof tr' pos' n :
  length G = n -> length H = n -> length a = n -> length b = n ->
  alm_zk_create ro rng pos tr G H Q (lin a G + lin b H)%P a b t = Ok (proof, tr', pos') ->
  exists d r' r'' pos1,
    n = 2 ^ d /\ length r' = n /\ length r'' = n /\
    sample_gram_schmidt rng pos b = Ok (r', pos1) /\
    sample_gram_schmidt_twice rng pos1 a r' = Ok (r'', pos') /\
    let Cr := (lin r' G + lin r'' H)%P in
    C_r proof = compress Cr /\
    let beta := ro (alm_beta_hist tr (C_r proof)) in
    let tr2 := alm_ipa_hist tr (C_r proof) (alm_P beta t (lin a G + lin b H) Cr Q)%P in
    let LRs := combine (L_vec (az_NoZK proof)) (R_vec (az_NoZK proof)) in
    ro (ipa_start tr2 n) <> s0 ->
    ((beta * beta * dot a b + beta * (dot a r'' + dot r' b) + dot r' r'' = beta * beta * t)%S ->
      alm_zk_verify ro tr proof G H Q n (lin a G + lin b H)%P t = Ok (true, tr')) /\
    ((forall j, j < d -> ro (ipa_hist tr2 n LRs (S j)) <> s0) -> Q <> p0 ->
     forall r, alm_zk_verify ro tr proof G H Q n (lin a G + lin b H)%P t = Ok (true, r) ->
      (beta * beta * dot a b + beta * (dot a r'' + dot r' b) + dot r' r'' = beta * beta * t)%S).
Proof.
  intros HG HH Ha Hb E.
  destruct (alm_create_inv _ _ _ _ _ _ _ _ _ _ _ _ _ _ n HG HH Ha Hb E)
    as (d & r' & r'' & pos1 & Hn & L1 & L2 & S1 & S2 & EC & EN).
  exists d, r', r'', pos1. split; [exact Hn|]. split; [exact L1|]. split; [exact L2|].
  split; [exact S1|]. split; [exact S2|]. cbv zeta. split; [exact EC|]. cbv zeta in EN.
  set (Cr := (lin r' G + lin r'' H)%P) in *.
  set (beta := ro (alm_beta_hist tr (C_r proof))) in *.
  set (tr2 := alm_ipa_hist tr (C_r proof) (alm_P beta t (lin a G + lin b H) Cr Q)%P) in *.
  set (LRs := combine (L_vec (az_NoZK proof)) (R_vec (az_NoZK proof))).
  intros Hal.
  set (ma := map2 (fun a r => beta * a + r)%S a r') in *. set (mb := map2 (fun b r => beta * b + r)%S b r'') in *.
  assert (Lma : length ma = n) by (unfold ma; rewrite map2_length; lia).
  assert (Lmb : length mb = n) by (unfold mb; rewrite map2_length; lia).
  rewrite Hn in HG, HH, Lma, Lmb.
  destruct (no_zk_complete ro tr2 G H Q ma mb d HG HH Lma Lmb) as (pf & trf & Hc & _ & _ & _ & Hv1 & Hv2).
  rewrite Hc in EN. injection EN as -> ->.
  assert (Hdec : decompress (C_r proof) = Some Cr) by (rewrite EC; apply decompress_compress).
  assert (VE := alm_verify_eq ro tr proof G H Q n (lin a G + lin b H)%P t Cr Hdec). cbv zeta in VE.
  fold beta in VE. fold tr2 in VE. rewrite VE. rewrite Hn in Hal |- *.
  assert (Edot : dot ma mb = (beta * beta * dot a b + beta * (dot a r'' + dot r' b) + dot r' r'')%S).
  { unfold ma, mb. apply dot_masked; lia. }
  assert (EPa : P_alpha (ipa_alpha ro tr2 (2 ^ d)) (beta * beta * t)%S (alm_P beta t (lin a G + lin b H) Cr Q)%P Q =
    (lin ma G + lin mb H + (beta * beta * t)%S *: (sinv (ipa_alpha ro tr2 (2 ^ d)) *: Q))%P).
  { unfold ma, mb. rewrite !lin_masked by lia. unfold P_alpha, alm_P, Cr. pnorm; try ring.
    fold (ipa_alpha ro tr2 (2 ^ d)) in Hal. set (al := ipa_alpha ro tr2 (2 ^ d)) in *.
    transitivity (beta * beta * t - beta * beta * t * (sinv al * al) + beta * beta * t * sinv al)%S; [ring|].
    rewrite sinv_l by auto. ring. }
  split.
  - intros Hsum. apply Hv1. rewrite EPa. unfold ipa_com. now rewrite Edot, Hsum.
  - intros Hx HQ r HV. apply Hv2 in HV; [|exact Hx]. rewrite EPa in HV. unfold ipa_com in HV.
    apply padd_cancel_l in HV.
    assert (Z : ((beta * beta * t - dot ma mb)%S *: (sinv (ipa_alpha ro tr2 (2 ^ d)) *: Q))%P = p0).
    { transitivity ((beta * beta * t)%S *: (sinv (ipa_alpha ro tr2 (2 ^ d)) *: Q) -
                    dot ma mb *: (sinv (ipa_alpha ro tr2 (2 ^ d)) *: Q))%P; [pring|]. rewrite HV. pring. }
    apply pmul_eq_0 in Z as [Z|Z].
    + apply ssub_0 in Z. rewrite <- Edot. auto.
    + apply pmul_eq_0 in Z as [Z|Z]; [|contradiction]. exfalso. now apply (sinv_neq_0 (ipa_alpha ro tr2 (2 ^ d))).
Qed.
End Alm.

Section C18.
Context {C : Crypto} {L : CryptoLaws C}.
Add Field SfC18 : (@S_field C L).

(** r' is the first mask drawn; the part of r' orthogonal to a is the third
    vector the prover projects on *)
Theorem C18_almzk_completeness (ro : oracle) rng pos tr (G H : list Point) (Q : Point) (a b : list Scalar) n
    proof tr' pos' :
  let Cw := (comb a G + comb b H)%P in
  let t := dotp a b in
  length G = n -> length H = n -> length a = n -> length b = n ->
  alm_zk_create ro rng pos tr G H Q Cw a b t = Ok (proof, tr', pos') ->
  dotp a a <> s0 -> dotp b b <> s0 ->
  (forall r' p ob, sample_gram_schmidt rng pos b = Ok (r', p) -> orth a r' = Ok ob -> dotp ob ob <> s0) ->
  (forall Cr, decompress (C_r proof) = Some Cr ->
     ro (ipa_start (alm_ipa_hist tr (C_r proof)
           (alm_P (ro (alm_beta_hist tr (C_r proof))) t Cw Cr Q)) n) <> s0) ->
  alm_zk_verify ro tr proof G H Q n Cw t = Ok (true, tr').
Proof.
  intros Cw t HG HH Ha Hb E Haa Hbb Hob Hal.
  assert (ECw : Cw = (lin a G + lin b H)%P) by (unfold Cw; now rewrite !lin_comb by congruence).
  assert (Et : t = dot a b) by (unfold t; now rewrite dot_dotp by congruence).
  rewrite ECw, Et in *.
  destruct (alm_accept_iff _ _ _ _ _ _ _ _ _ _ _ _ _ n HG HH Ha Hb E)
    as (d & r' & r'' & pos1 & Hn & L1 & L2 & S1 & S2 & EC & Hacc).
  apply Hacc.
  - apply Hal. rewrite EC. apply decompress_compress.
  - destruct (sgs_orth _ _ _ _ _ S1) as [_ D1].
    assert (O1 : dot b r' = s0) by (apply D1; rewrite dot_dotp by auto; exact Hbb).
    destruct (sgst_orth _ _ a r' _ _ ltac:(lia) S2) as [_ D2].
    destruct (sgst_inv _ _ _ _ _ _ S2) as (ob & m & EO & _ & _).
    destruct (D2 ob EO) as [O2 O3].
    + rewrite dot_dotp by auto. exact Haa.
    + rewrite dot_dotp by auto. exact (Hob r' pos1 ob S1 EO).
    + rewrite O2, O3, (dot_comm r' b), O1. ring.
Qed.
End C18.

Definition rng1 (i : nat) : @Scalar EX := sN (Z.of_nat (i * i * 31 + 7 * i + 5)).
Example C18_case :
  let a := [sN 1; sN 2; sN 3; sN 4] in let b := [sN 5; sN 6; sN 7; sN 8] in
  let Cw := pN (1*5+2*11+3*3+4*8 + 5*2+6*9+7*6+8*13) in
  rmap (fun '(p, tr, pos) => (pos,
          rmap (fun '(b, tr') => (b, length tr, length tr')) (alm_zk_verify ro1 [] p G4 H4 (pN 17) 4 Cw (sN 70)),
          rmap (fun '(b, tr') => b) (alm_zk_verify ro1 [] p G4 H4 (pN 17) 4 Cw (sN 71))))
     (alm_zk_create ro1 rng1 0 [] G4 H4 (pN 17) Cw a b (sN 70))
  = Ok (12, Ok (true, 11, 11), Ok false) /\
  zs (dotp a a) <> 0%Z /\ zs (dotp b b) <> 0%Z /\
  (rmap (fun '(r', _) => rmap (fun ob => (zs (dotp ob ob) =? 0)%Z) (orth a r')) (sample_gram_schmidt rng1 0 b)
  = Ok (Ok false)) /\
  zs (ro1 (ipa_start (alm_ipa_hist [] (compress Cw) Cw) 4)) <> 0%Z.
Proof. vm_compute. repeat split; discriminate. Qed.

Section C19.
Context {C : Crypto} {L : CryptoLaws C}.
Add Field SfC19 : (@S_field C L).

Lemma sgs_cases rng pos (a : list Scalar) :
  (exists v p, sample_gram_schmidt rng pos a = Ok (v, p)) \/ sample_gram_schmidt rng pos a = Panic.
Proof.
  unfold sample_gram_schmidt. destruct (Nat.lt_ge_cases (length a) 2) as [H|H].
  - rewrite sample_m_n_plus_panic by auto. auto.
  - destruct (sample_m_n_plus_spec rng pos (length a) H) as (g & p & E & _). rewrite E. cbn [bind].
    destruct (S_eq_dec (dot a (shown rng g)) s0) as [Z|Z].
    + apply orth_panic in Z. rewrite Z. auto.
    + rewrite orth_eq by auto. cbn [bind]. eauto.
Qed.

(** the prover cannot handle a zero vector *)
Theorem C19_zero_vector_panics (ro : oracle) rng pos tr (G H : list Point) (Q Cw : Point) (a b : list Scalar) t :
  (forall i, i < length a -> sc a i = s0) \/ (forall i, i < length b -> sc b i = s0) ->
  alm_zk_create ro rng pos tr G H Q Cw a b t = Panic.
Proof.
  assert (Z : forall (u v : list Scalar), (forall i, i < length u -> sc u i = s0) -> dot u v = s0).
  { intros u v Hu. rewrite dot_sum_min. apply sum_S_0. intros i Hi. rewrite Hu by lia. ring. }
  intros Hz. unfold alm_zk_create.
  destruct (sgs_cases rng pos b) as [(r' & p & E)|E]; rewrite E; cbn [bind]; auto.
  destruct Hz as [Hz|Hz].
  - unfold sample_gram_schmidt_twice. rewrite (proj2 (orth_panic a r')) by auto. reflexivity.
  - exfalso. apply sgs_inv in E as (m & _ & _ & E). apply orth_Ok_inv in E as [E _]. apply E. auto.
Qed.

(** when it returns, the verdict is exactly the equation between masked vectors *)
Theorem C19_verdict (ro : oracle) rng pos tr (G H : list Point) (Q : Point) (a b : list Scalar) t n proof tr' pos' :
  let Cw := (comb a G + comb b H)%P in
  length G = n -> length H = n -> length a = n -> length b = n ->
  alm_zk_create ro rng pos tr G H Q Cw a b t = Ok (proof, tr', pos') ->
  exists r' r'', length r' = n /\ length r'' = n /\
    let Cr := (comb r' G + comb r'' H)%P in
    C_r proof = compress Cr /\
    let beta := ro (alm_beta_hist tr (C_r proof)) in
    let tr2 := alm_ipa_hist tr (C_r proof) (alm_P beta t Cw Cr Q) in
    let LRs := combine (L_vec (az_NoZK proof)) (R_vec (az_NoZK proof)) in
    (Q <> p0 -> ro (ipa_start tr2 n) <> s0 ->
     (forall j, ro (ipa_hist tr2 n LRs (S j)) <> s0) ->
     alm_zk_verify ro tr proof G H Q n Cw t = Ok (true, tr') <->
     dotp (tab n (fun i => beta * sc a i + sc r' i)%S) (tab n (fun i => beta * sc b i + sc r'' i)%S)
     = (beta * beta * t)%S).
Proof.
  intros Cw HG HH Ha Hb E.
  assert (ECw : Cw = (lin a G + lin b H)%P) by (unfold Cw; now rewrite !lin_comb by congruence).
  rewrite ECw in *.
  destruct (alm_accept_iff _ _ _ _ _ _ _ _ _ _ _ _ _ n HG HH Ha Hb E)
    as (d & r' & r'' & pos1 & Hn & L1 & L2 & S1 & S2 & EC & Hacc).
  exists r', r''. split; [exact L1|]. split; [exact L2|]. cbv zeta in *.
  rewrite <- !lin_comb by congruence. split; [exact EC|].
  intros HQ Hal Hx.
  assert (T : forall u v : list Scalar, length u = n -> length v = n -> forall beta : Scalar,
     tab n (fun i => beta * sc u i + sc v i)%S = map2 (fun a r => beta * a + r)%S u v).
  { intros u v Hu Hv beta. symmetry. apply (tab_eq s0); [rewrite map2_length; lia|]. intros i Hi.
    now rewrite (map2_nth _ _ _ _ s0 s0) by lia. }
  rewrite !T by auto. rewrite <- dot_dotp by (rewrite !map2_length; lia).
  rewrite dot_masked by lia. destruct (Hacc Hal) as [A1 A2]. split; [|exact A1].
  intros V. now apply (A2 (fun j _ => Hx j) HQ tr').
Qed.
End C19.
Example C19_case :
  let run a b t := rmap (fun '(p, tr, pos) => rmap fst (alm_zk_verify ro1 [] p G4 H4 (pN 17) 4
       (pN (zp (comb a G4) + zp (comb b H4))) t))
     (alm_zk_create ro1 rng1 0 [] G4 H4 (pN 17) (pN (zp (comb a G4) + zp (comb b H4))) a b t) in
  let a := [sN 1; sN 2; sN 3; sN 4] in let b := [sN 5; sN 6; sN 7; sN 8] in let z := repeat (sN 0) 4 in
  run a b (sN 70) = Ok (Ok true) /\ run a b (sN 69) = Ok (Ok false) /\ run z b (sN 0) = Panic /\ run a z (sN 0) = Panic.
Proof. vm_compute. auto. Qed.

Section C20.
Context {C : Crypto} {L : CryptoLaws C}.
Add Field SfC20 : (@S_field C L).

(** a run of the verifier with challenge beta along a path of an inner tree *)
Definition alm_accepts_along tr (G H : list Point) (Q : Point) n (Cw : Point) (t : Scalar) (Crc : Compressed)
    (beta alpha : Scalar) (p : ipa_path) : Prop :=
  let '(rounds, a, b) := p in
  let Lc := map (fun '(l, r, x) => compress l) rounds in
  let Rc := map (fun '(l, r, x) => compress r) rounds in
  exists ro tr',
    alm_zk_verify ro tr (mkAlmZK Crc (mkNoZK Lc Rc a b)) G H Q n Cw t = Ok (true, tr') /\
    ro (alm_beta_hist tr Crc) = beta /\
    forall Cr, decompress Crc = Some Cr ->
    let tr2 := alm_ipa_hist tr Crc (alm_P beta t Cw Cr Q) in
    ro (ipa_start tr2 n) = alpha /\
    (forall j l r x, nth_error rounds j = Some (l, r, x) -> ro (ipa_hist tr2 n (combine Lc Rc) (S j)) = x).

Lemma alm_accepts_ipa tr G H Q n Cw t Crc beta alpha p :
  alm_accepts_along tr G H Q n Cw t Crc beta alpha p ->
  exists Cr, decompress Crc = Some Cr /\
    accepts_along (alm_ipa_hist tr Crc (alm_P beta t Cw Cr Q)) G H Q n (alm_P beta t Cw Cr Q) (beta * beta * t)%S alpha p.
Proof.
  destruct p as [[rounds a] b]. intros (ro & tr' & V & Hb & Hh).
  destruct (decompress Crc) as [Cr|] eqn:ED.
  - exists Cr. split; auto. destruct (Hh Cr eq_refl) as [Hal Hx].
    assert (VE := alm_verify_eq ro tr
       (mkAlmZK Crc (mkNoZK (map (fun '(l, r, x) => compress l) rounds) (map (fun '(l, r, x) => compress r) rounds) a b))
       G H Q n Cw t Cr ED).
    cbv zeta in VE. cbn [C_r az_NoZK] in VE. rewrite Hb in VE. rewrite VE in V. exists ro, tr'. auto.
  - exfalso. unfold alm_zk_verify in V. cbn [C_r] in V. rewrite ED in V. discriminate.
Qed.

Lemma quad_coeffs (b1 b2 b3 u v w : Scalar) : b1 <> b2 -> b1 <> b3 -> b2 <> b3 ->
  (b1 * b1 * u + b1 * v + w = s0)%S -> (b2 * b2 * u + b2 * v + w = s0)%S -> (b3 * b3 * u + b3 * v + w = s0)%S ->
  u = s0.
Proof.
  intros D1 D2 D3 E1 E2 E3.
  assert (X := lag2_quad b1 b2 b3 u v w D1 D2 D3). rewrite E1, E2, E3 in X. rewrite <- X.
  unfold lc3s, lag2. ring.
Qed.

Lemma vslope_length b1 b2 v1 v2 : length v1 = length v2 -> length (vslope b1 b2 v1 v2) = length v1.
Proof. intros. unfold vslope. rewrite vscale_length, map2_length. lia. Qed.
Lemma vorigin_length b1 b2 v1 v2 : length v1 = length v2 -> length (vorigin b1 b2 v1 v2) = length v1.
Proof. intros. unfold vorigin. rewrite map2_length, vscale_length, vslope_length; lia. Qed.
Lemma vline_length b v1 v2 : length v1 = length v2 -> length (vline b v1 v2) = length v1.
Proof. intros. unfold vline. rewrite map2_length, vscale_length. lia. Qed.
Lemma vslope_nth b1 b2 v1 v2 i : i < length v1 -> length v1 = length v2 ->
  sc (vslope b1 b2 v1 v2) i = (sinv (b1 - b2) * (sc v1 i - sc v2 i))%S.
Proof. intros. unfold vslope. rewrite vscale_nth, sc_map2 by lia. reflexivity. Qed.
Lemma vorigin_nth b1 b2 v1 v2 i : i < length v1 -> length v1 = length v2 ->
  sc (vorigin b1 b2 v1 v2) i = (sc v1 i - b1 * (sinv (b1 - b2) * (sc v1 i - sc v2 i)))%S.
Proof.
  intros. unfold vorigin. rewrite sc_map2 by (rewrite ?vscale_length, ?vslope_length; lia).
  now rewrite vscale_nth, vslope_nth by lia.
Qed.
Lemma vline_nth b v1 v2 i : i < length v1 -> length v1 = length v2 ->
  sc (vline b v1 v2) i = (b * sc v1 i + sc v2 i)%S.
Proof. intros. unfold vline. rewrite sc_map2 by (rewrite ?vscale_length; lia). now rewrite vscale_nth. Qed.
Lemma vline_eq (b1 b2 : Scalar) v1 v2 : b1 <> b2 -> length v1 = length v2 ->
  vline b1 (vslope b1 b2 v1 v2) (vorigin b1 b2 v1 v2) = v1 /\
  vline b2 (vslope b1 b2 v1 v2) (vorigin b1 b2 v1 v2) = v2.
Proof.
  intros Hb Hl.
  assert (Hd : (b1 - b2 <> s0)%S) by (now apply ssub_neq).
  assert (LS := vslope_length b1 b2 v1 v2 Hl). assert (LO := vorigin_length b1 b2 v1 v2 Hl).
  assert (LV := fun b => vline_length b (vslope b1 b2 v1 v2) (vorigin b1 b2 v1 v2) ltac:(lia)).
  split; apply (list_eq_nth s0); try (rewrite LV; lia); intros i Hi; rewrite LV in Hi;
    match goal with |- nth i ?X s0 = nth i ?Y s0 => change (sc X i = sc Y i) end;
    rewrite vline_nth, vslope_nth, vorigin_nth by lia.
  - ring.
  - transitivity (sc v1 i - (sinv (b1 - b2) * (b1 - b2)) * (sc v1 i - sc v2 i))%S; [ring|].
    rewrite sinv_l by auto. ring.
Qed.
Lemma lin_vline b s o P : length s = length o -> lin (vline b s o) P = (b *: lin s P + lin o P)%P.
Proof. intros H. unfold vline. rewrite lin_add_s by (now rewrite vscale_length). now rewrite lin_vscale. Qed.
Lemma dot_vscale_l x a b : dot (vscale x a) b = (x * dot a b)%S.
Proof. apply dot_map_l. Qed.
Lemma dot_vline b s o s' o' : length s = length o -> length s' = length o' ->
  dot (vline b s o) (vline b s' o') = (b * b * dot s s' + b * (dot s o' + dot o s') + dot o o')%S.
Proof.
  intros H1 H2. unfold vline. rewrite dot_add_l by (now rewrite vscale_length).
  rewrite !dot_add_r by (now rewrite vscale_length).
  rewrite !dot_vscale_l, !(dot_comm _ (vscale b s')), !dot_vscale_l, !(dot_comm s' _). ring.
Qed.

Theorem C20_almzk_special_soundness tr (G H : list Point) (Q Cw : Point) (t : Scalar) n Crc
    (b1 b2 b3 : Scalar) (B1 B2 B3 : alpha_trees) :
  length G = n -> length H = n ->
  b1 <> b2 -> b1 <> b3 -> b2 <> b3 ->
  good_trees B1 -> good_trees B2 -> good_trees B3 ->
  all_paths B1 (alm_accepts_along tr G H Q n Cw t Crc b1) ->
  all_paths B2 (alm_accepts_along tr G H Q n Cw t Crc b2) ->
  all_paths B3 (alm_accepts_along tr G H Q n Cw t Crc b3) ->
  match alm_extract t b1 B1 b2 B2 b3 B3 with
  | Wit a b c => length a = n /\ length b = n /\ c = t /\
                 Cw = (comb a G + comb b H)%P /\ dotp a b = t
  | Rel g h q => nontrivial_relation n G H Q g h q
  end.
Proof.
  intros HG HH D12 D13 D23 GB1 GB2 GB3 A1 A2 A3.
  assert (HCr : exists Cr, decompress Crc = Some Cr).
  { destruct (paths_nonempty (at_T B1)) as [p Hp]. apply (proj1 A1) in Hp.
    apply alm_accepts_ipa in Hp as (Cr & E & _). eauto. }
  destruct HCr as [Cr ECr].
  assert (S : forall b B, good_trees B -> all_paths B (alm_accepts_along tr G H Q n Cw t Crc b) ->
    match trees_extract (b * b * t)%S B with
    | Wit a w c => length a = n /\ length w = n /\ (b *: Cw + Cr = lin a G + lin w H)%P /\ dot a w = (b * b * t)%S
    | Rel g h q => nontrivial_relation n G H Q g h q
    end).
  { intros b B GB [A A'].
    assert (X := trees_sound (alm_ipa_hist tr Crc (alm_P b t Cw Cr Q)) G H Q (alm_P b t Cw Cr Q) (b * b * t)%S n B HG HH GB).
    destruct (trees_extract (b * b * t)%S B) as [a w c|g h q].
    - destruct X as (X1 & X2 & _ & X3 & X4).
      + split; intros p Hp; [apply A in Hp|apply A' in Hp];
          apply alm_accepts_ipa in Hp as (Cr' & E & Hp); rewrite ECr in E; injection E as <-; exact Hp.
      + split; [auto|]. split; [auto|]. rewrite <- !lin_comb in X3 by congruence.
        rewrite <- dot_dotp in X4 by congruence. split; [|exact X4]. unfold alm_P in X3.
        apply (padd_cancel_l ((b * b * t)%S *: Q)%P). etransitivity; [|etransitivity; [exact X3|]]; pring.
    - apply X. split; intros p Hp; [apply A in Hp|apply A' in Hp];
        apply alm_accepts_ipa in Hp as (Cr' & E & Hp); rewrite ECr in E; injection E as <-; exact Hp. }
  assert (S1 := S b1 B1 GB1 A1). assert (S2 := S b2 B2 GB2 A2). assert (S3 := S b3 B3 GB3 A3). clear S.
  unfold alm_extract.
  destruct (trees_extract (b1 * b1 * t)%S B1) as [a1 w1 c1|g h q];
    [|destruct (trees_extract (b2 * b2 * t)%S B2), (trees_extract (b3 * b3 * t)%S B3); exact S1].
  destruct (trees_extract (b2 * b2 * t)%S B2) as [a2 w2 c2|g h q];
    [|destruct (trees_extract (b3 * b3 * t)%S B3); exact S2].
  destruct (trees_extract (b3 * b3 * t)%S B3) as [a3 w3 c3|g h q]; [|exact S3].
  destruct S1 as (La1 & Lw1 & P1 & E1). destruct S2 as (La2 & Lw2 & P2 & E2). destruct S3 as (La3 & Lw3 & P3 & E3).
  destruct (vline_eq b1 b2 a1 a2 D12 ltac:(lia)) as [Va1 Va2].
  destruct (vline_eq b1 b2 w1 w2 D12 ltac:(lia)) as [Vw1 Vw2].
  assert (LaS := vslope_length b1 b2 a1 a2 ltac:(lia)). assert (LaO := vorigin_length b1 b2 a1 a2 ltac:(lia)).
  assert (LwS := vslope_length b1 b2 w1 w2 ltac:(lia)). assert (LwO := vorigin_length b1 b2 w1 w2 ltac:(lia)).
  set (aS := vslope b1 b2 a1 a2) in *. set (aO := vorigin b1 b2 a1 a2) in *.
  set (wS := vslope b1 b2 w1 w2) in *. set (wO := vorigin b1 b2 w1 w2) in *.
  cbv zeta.
  assert (PCw : Cw = (lin aS G + lin wS H)%P).
  { unfold aS, wS, vslope. rewrite !lin_vscale.
    rewrite !(lin_sub_s) by lia.
    assert (Hd : (b1 - b2 <> s0)%S) by (now apply ssub_neq).
    transitivity (sinv (b1 - b2)%S *: ((b1 *: Cw + Cr) - (b2 *: Cw + Cr)))%P.
    - pnorm; try ring. transitivity (sinv (b1 - b2) * (b1 - b2))%S; [rewrite sinv_l by auto; ring|ring].
    - rewrite P1, P2. pring. }
  assert (PCr : Cr = (lin aO G + lin wO H)%P).
  { apply (padd_cancel_l (b1 *: Cw)%P). rewrite P1, <- Va1, <- Vw1, !lin_vline by lia. rewrite PCw. pring. }
  destruct (all_zero _ && all_zero _) eqn:Ez.
  - apply andb_prop in Ez as [Ea Ew].
    assert (eqv : forall u v : list Scalar, length u = length v -> all_zero (map2 ssub u v) = true -> u = v).
    { intros u v Hl Z. apply (list_eq_nth s0); [lia|]. intros i Hi.
      assert (Z' := proj1 (all_zero_spec _) Z i). rewrite map2_length in Z'. rewrite sc_map2 in Z' by lia.
      apply ssub_0, Z'. lia. }
    apply eqv in Ea; [|rewrite vline_length; lia]. apply eqv in Ew; [|rewrite vline_length; lia].
    split; [lia|]. split; [lia|]. split; [reflexivity|]. split.
    + rewrite <- !lin_comb by lia. exact PCw.
    + rewrite <- dot_dotp by lia. apply ssub_0.
      rewrite <- Va1, <- Vw1, dot_vline in E1 by lia. rewrite <- Va2, <- Vw2, dot_vline in E2 by lia.
      rewrite Ea, Ew, dot_vline in E3 by lia.
      apply (quad_coeffs b1 b2 b3 _ (dot aS wO + dot aO wS)%S (dot aO wO)); auto.
      * transitivity ((b1 * b1 * dot aS wS + b1 * (dot aS wO + dot aO wS) + dot aO wO) - b1 * b1 * t)%S; [ring|].
        rewrite E1. ring.
      * transitivity ((b2 * b2 * dot aS wS + b2 * (dot aS wO + dot aO wS) + dot aO wO) - b2 * b2 * t)%S; [ring|].
        rewrite E2. ring.
      * transitivity ((b3 * b3 * dot aS wS + b3 * (dot aS wO + dot aO wS) + dot aO wO) - b3 * b3 * t)%S; [ring|].
        rewrite E3. ring.
  - apply rel_nontrivial; auto; try (rewrite map2_length, vline_length; lia).
    + rewrite !lin_sub_s by (rewrite vline_length; lia). rewrite !lin_vline by lia.
      transitivity ((lin a3 G + lin w3 H) - (b3 *: (lin aS G + lin wS H) + (lin aO G + lin wO H)))%P; [pring|].
      rewrite <- P3, <- PCw, <- PCr. pring.
    + intros Z. rewrite Z in Ez. discriminate.
Qed.
End C20.

Section C20case.
Let G := [pN 5; pN 11]. Let H := [pN 2; pN 9]. Let Q := pN 680.
Let a := [sN 1; sN 2]. Let b := [sN 3; sN 4].
(** r' = (4,-3) is orthogonal to b; r'' = 0 *)
Let Cw := pN (1*5 + 2*11 + 3*2 + 4*9). Let Cr := pN (4*5 - 3*11).
Let ma z := [sN (z*1 + 4); sN (z*2 - 3)]. Let mb z := [sN (z*3); sN (z*4)].
Let B z := mkAT (sN 2) (htree x1234 1 G H (pN 340) (ma z) (mb z)) (sN 4) (htree x1234 1 G H (pN 170) (ma z) (mb z)).
Let check z alpha T := map (fun p => rmap fst (alm_zk_verify
      (path_ro 5 (fun tr => if length tr =? 2 then sN z else alpha) p) []
      (mkAlmZK (compress Cr) (path_proof p)) G H Q 2 Cw (sN 11))) (paths T).
Example C20_case :
  forallb (fun z => forallb (fun v => match v with Ok true => true | _ => false end)
             (check z (sN 2) (at_T (B z)) ++ check z (sN 4) (at_T' (B z)))) [5; 6; 9]%Z = true /\
  match alm_extract (sN 11) (sN 5) (B 5) (sN 6) (B 6) (sN 9) (B 9) with
  | Wit a' b' c => (map zs a', map zs b', zs c) = ([1; 2], [3; 4], 11)%Z
  | Rel _ _ _ => False
  end.
Proof. vm_compute. auto. Qed.
End C20case.

Section C21.
Context {C : Crypto} {L : CryptoLaws C}.
Add Field SfC21 : (@S_field C L).

(** e_0 *)
Definition unit0 (n : nat) : list Scalar := tab n (fun i => if i =? 0 then s1 else s0).
Lemma lin_tab2 n (f : nat -> Scalar) G : length G = n -> 2 <= n ->
  (forall i, 2 <= i -> i < n -> f i = s0) -> lin (tab n f) G = (f 0 *: pt G 0 + f 1 *: pt G 1)%P.
Proof.
  intros HG Hn Hf. rewrite (lin_sum n) by (rewrite ?tab_length; lia).
  destruct n as [|[|n]]; try lia. rewrite !sum_P_shift. rewrite sum_P_0.
  - unfold sc. rewrite !tab_nth by lia. pring.
  - intros i Hi. unfold sc. rewrite tab_nth by lia. rewrite Hf by lia. apply pmul_0_l.
Qed.
Lemma dot_tab2 n (f g : nat -> Scalar) : 2 <= n ->
  (forall i, 2 <= i -> i < n -> f i = s0) -> dot (tab n f) (tab n g) = (f 0 * g 0 + f 1 * g 1)%S.
Proof.
  intros Hn Hf. rewrite (dot_sum n) by (rewrite ?tab_length; lia).
  destruct n as [|[|n]]; try lia. rewrite !sum_S_shift. rewrite sum_S_0.
  - unfold sc. rewrite !tab_nth by lia. ring.
  - intros i Hi. unfold sc. rewrite !tab_nth by lia. rewrite Hf by lia. ring.
Qed.

(** For every hash function and every claimed t, a commitment to vectors whose
    product is t + 1 with an accepting proof of "the product is t". The
    adversary fixes C_r = G_0, learns beta, and only then chooses C_w. *)
Theorem C21_statement_not_bound (ro : oracle) tr d (G H : list Point) (Q : Point) (t : Scalar) :
  let n := 2 ^ S d in
  length G = n -> length H = n ->
  let Crc := compress (pt G 0) in
  let beta := ro (alm_beta_hist tr Crc) in
  let a := tab n (fun i => if i =? 1 then s1 else s0) in
  let b := tab n (fun i => if i =? 0 then - beta else if i =? 1 then t + s1 else s0)%S in
  let Cw := (comb a G + comb b H)%P in
  ro (ipa_start (alm_ipa_hist tr Crc (alm_P beta t Cw (pt G 0) Q)) n) <> s0 ->
  (exists proof tr', C_r proof = Crc /\ alm_zk_verify ro tr proof G H Q n Cw t = Ok (true, tr')) /\
  dotp a b = (t + s1)%S /\ (t + s1)%S <> t /\
  (independent n G H Q ->
   forall a' b', length a' = n -> length b' = n -> Cw = (comb a' G + comb b' H)%P -> dotp a' b' <> t).
Proof.
  intros n HG HH Crc beta a b Cw Hal.
  assert (Hn : 2 <= n). { unfold n. assert (X := pow2_pos d). rewrite Nat.pow_succ_r'. lia. }
  assert (La : length a = n) by apply tab_length. assert (Lb : length b = n) by apply tab_length.
  assert (Dab : dotp a b = (t + s1)%S).
  { rewrite <- dot_dotp by congruence. unfold a, b. rewrite dot_tab2; auto.
    - cbn [Nat.eqb]. ring.
    - intros i H2 Hi. destruct (Nat.eqb_spec i 1); [lia|reflexivity]. }
  assert (Ht : (t + s1)%S <> t).
  { intros E. apply s1_neq_s0. transitivity ((t + s1) - t)%S; [ring|]. rewrite E. ring. }
  assert (ECw : Cw = (pt G 1 + (- beta)%S *: pt H 0 + (t + s1)%S *: pt H 1)%P).
  { unfold Cw. rewrite <- !lin_comb by congruence. unfold a, b. rewrite !lin_tab2; auto.
    - cbn [Nat.eqb]. pring.
    - intros i H2 Hi. destruct (Nat.eqb_spec i 0); [lia|]. destruct (Nat.eqb_spec i 1); [lia|reflexivity].
    - intros i H2 Hi. destruct (Nat.eqb_spec i 1); [lia|reflexivity]. }
  split; [|split; [exact Dab|split; [exact Ht|]]].
  - set (ma := tab n (fun i => if i =? 0 then s1 else if i =? 1 then beta else s0)).
    set (mb := tab n (fun i => if i =? 0 then - (beta * beta) else if i =? 1 then beta * (t + s1) else s0)%S).
    set (P := alm_P beta t Cw (pt G 0) Q) in *. set (tr2 := alm_ipa_hist tr Crc P) in *.
    destruct (no_zk_complete ro tr2 G H Q ma mb (S d)) as (pf & tr' & _ & _ & _ & _ & Hv & _);
      try assumption; try (apply tab_length).
    exists (mkAlmZK Crc pf), tr'. split; [reflexivity|].
    assert (VE := alm_verify_eq ro tr (mkAlmZK Crc pf) G H Q n Cw t (pt G 0) (decompress_compress _)).
    cbv zeta in VE. cbn [C_r az_NoZK] in VE. fold beta in VE. fold P in VE. fold tr2 in VE. rewrite VE.
    apply Hv. fold n. fold (ipa_alpha ro tr2 n) in Hal. set (al := ipa_alpha ro tr2 n) in *.
    unfold ipa_com, ma, mb. rewrite !lin_tab2, dot_tab2; auto;
      try (intros i H2 Hi; destruct (Nat.eqb_spec i 0); [lia|]; destruct (Nat.eqb_spec i 1); [lia|reflexivity]).
    cbn [Nat.eqb]. unfold P_alpha, P, alm_P. rewrite ECw. pnorm; try ring.
    transitivity (beta * beta * t - beta * beta * t * (sinv al * al) + beta * beta * t * sinv al)%S; [ring|].
    rewrite sinv_l by auto. ring.
  - intros HI a' b' La' Lb' E Hd.
    assert (X : a' = a /\ b' = b).
    { assert (Z : forall i, i < n -> sc a' i = sc a i /\ sc b' i = sc b i).
      2:{ split; apply (list_eq_nth s0); try lia; intros i Hi; apply Z; lia. }
      intros i Hi.
      destruct (S_eq_dec (sc a' i) (sc a i)) as [E1|E1]; [destruct (S_eq_dec (sc b' i) (sc b i)) as [E2|E2]; auto|];
        exfalso; apply (HI (map2 ssub a' a) (map2 ssub b' b) s0); (split; [rewrite map2_length; lia|]);
        (split; [rewrite map2_length; lia|]); (split;
        [rewrite <- !lin_comb by (rewrite map2_length; lia); rewrite !lin_sub_s by lia;
         rewrite !lin_comb by lia;
         transitivity ((comb a' G + comb b' H) - (comb a G + comb b H))%P; [pring|]; rewrite <- E; unfold Cw; pring
        |intros [Z _]; destruct (Z i Hi) as [Z1 Z2]; rewrite !sc_map2 in Z1, Z2 by lia;
         apply ssub_0 in Z1, Z2; contradiction]). }
    destruct X as [-> ->]. congruence.
Qed.
End C21.
Example C21_case :
  let t := sN 5 in let G := G4 in let H := H4 in
  let beta := ro1 (alm_beta_hist [] (compress (pt G 0))) in
  let mb := [(- (beta * beta))%S; (beta * (t + s1))%S; sN 0; sN 0] in
  let Cw := pN (11 - zs beta * 2 + 6 * 9) in
  rmap (fun '(pf, _) => rmap fst (alm_zk_verify ro1 [] (mkAlmZK (compress (pt G 0)) pf) G H (pN 17) 4 Cw t))
    (no_zk_create ro1 (alm_ipa_hist [] (compress (pt G 0)) (alm_P beta t Cw (pt G 0) (pN 17)))
       G H (pN 17) [sN 1; beta; sN 0; sN 0] mb) = Ok (Ok true).
Proof. vm_compute. reflexivity. Qed.
