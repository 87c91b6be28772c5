(** C80: inner product proofs whose lists L and R have different lengths. The verifier folds only
    as many rounds as the shorter list has and compares with the first remaining generators; such
    a proof can be completed, by an honest continuation, to an accepted proof with a round for each
    halving of n. So the bounds of C79 hold without a premise on the lengths, and for every prover. *)
From Coq Require Import String.
From Verif Require Export PropFiatShamir.
From Verif Require Import PropMalleable Poly KaryFacts CopyFacts PropMapping PropCopy PropCopySound PropForking Ex ExSmall.
Local Open Scope string_scope.
Local Open Scope nat_scope.
Local Open Scope list_scope.

(** ** Programs that query a hash function, in sequence *)
Section Seq.
Context {C : Crypto}.
Fixpoint pbind {X Y} (p : prover X) (k : X -> prover Y) : prover Y :=
  match p with Done x => k x | Ask h f => Ask h (fun v => pbind (f v) k) end.
Lemma run_pbind {X Y} ro (p : prover X) (k : X -> prover Y) : run ro (pbind p k) = run ro (k (run ro p)).
Proof. induction p as [x|h f IH]; cbn; auto. Qed.
Lemma asked_pbind {X Y} ro (p : prover X) (k : X -> prover Y) : asked ro (pbind p k) = asked ro p ++ asked ro (k (run ro p)).
Proof. induction p as [x|h f IH]; cbn; auto. now rewrite IH. Qed.
Lemma asks_Ask {X} T h (k : Scalar -> prover X) : (forall v, asks T (k v)) -> asks (S T) (Ask h k).
Proof. intros H. exact H. Qed.
Lemma asks_mono {X} (p : prover X) T T' : T <= T' -> asks T p -> asks T' p.
Proof.
  revert T T'; induction p as [x|h f IH]; intros T T' HT HA; [destruct T'; exact I|].
  destruct T as [|T]; [destruct HA|]. destruct T' as [|T']; [lia|]. cbn in *. intros v. apply (IH v T); [lia|apply HA].
Qed.
Lemma asks_pbind {X Y} (p : prover X) (k : X -> prover Y) T r : asks T p -> (forall x, asks r (k x)) -> asks (T + r) (pbind p k).
Proof.
  intros HT HK. revert T HT; induction p as [x|h f IH]; intros T HT; cbn [pbind].
  - apply (asks_mono _ r); [lia|]. apply HK.
  - destruct T as [|T]; [destruct HT|]. cbn in HT |- *. intros v. apply IH; auto.
Qed.
End Seq.

Section C80.
Context {C : Crypto} {L : CryptoLaws C}.
Add Field SfC80 : (@S_field C L).

(** ** The verdict on any proof *)
(** the generators after the rounds of xs; n is halved in each round *)
Fixpoint gfold (n : nat) (xs : list Scalar) (G : list Point) : list Point :=
  match xs with [] => G | x :: xs => gfold (n / 2) xs (stepG x (n / 2) G) end.
Fixpoint hfold (n : nat) (xs : list Scalar) (H : list Point) : list Point :=
  match xs with [] => H | x :: xs => hfold (n / 2) xs (stepH x (n / 2) H) end.

Lemma gfold_length xs : forall d G, length xs <= d -> length G = 2 ^ d -> length (gfold (2 ^ d) xs G) = 2 ^ (d - length xs).
Proof.
  induction xs as [|x xs IH]; intros d G Hd HG; cbn [gfold length] in *; [now rewrite Nat.sub_0_r|].
  destruct d as [|d]; [lia|]. rewrite pow2_half. cbn [Nat.sub]. apply IH; [lia|]. apply stepG_length. rewrite HG. apply Nat.pow_succ_r'.
Qed.
Lemma hfold_length xs : forall d G, length xs <= d -> length G = 2 ^ d -> length (hfold (2 ^ d) xs G) = 2 ^ (d - length xs).
Proof.
  induction xs as [|x xs IH]; intros d G Hd HG; cbn [hfold length] in *; [now rewrite Nat.sub_0_r|].
  destruct d as [|d]; [lia|]. rewrite pow2_half. cbn [Nat.sub]. apply IH; [lia|]. apply stepH_length. rewrite HG. apply Nat.pow_succ_r'.
Qed.
Lemma gfold_app xs ys : forall d G, length xs <= d -> gfold (2 ^ d) (xs ++ ys) G = gfold (2 ^ (d - length xs)) ys (gfold (2 ^ d) xs G).
Proof.
  induction xs as [|x xs IH]; intros d G Hd; cbn [app gfold length] in *; [now rewrite Nat.sub_0_r|].
  destruct d as [|d]; [lia|]. rewrite pow2_half. cbn [Nat.sub]. apply IH. lia.
Qed.
Lemma hfold_app xs ys : forall d G, length xs <= d -> hfold (2 ^ d) (xs ++ ys) G = hfold (2 ^ (d - length xs)) ys (hfold (2 ^ d) xs G).
Proof.
  induction xs as [|x xs IH]; intros d G Hd; cbn [app hfold length] in *; [now rewrite Nat.sub_0_r|].
  destruct d as [|d]; [lia|]. rewrite pow2_half. cbn [Nat.sub]. apply IH. lia.
Qed.
Lemma gfold_full xs G : gfold (2 ^ length xs) xs G = foldG xs G.
Proof. revert G; induction xs as [|x xs IH]; intros G; [reflexivity|]. cbn [gfold foldG length]. rewrite pow2_half. apply IH. Qed.
Lemma hfold_full xs G : hfold (2 ^ length xs) xs G = foldH xs G.
Proof. revert G; induction xs as [|x xs IH]; intros G; [reflexivity|]. cbn [hfold foldH length]. rewrite pow2_half. apply IH. Qed.

Lemma verify_loop_short xs : forall d G H, length xs <= d -> length G = 2 ^ d -> length H = 2 ^ d ->
  foldM verify_step xs (2 ^ d, G, H) = Ok (2 ^ (d - length xs), gfold (2 ^ d) xs G, hfold (2 ^ d) xs H).
Proof.
  induction xs as [|x xs IH]; intros d G H Hd HG HH; cbn [length foldM gfold hfold] in *; [now rewrite Nat.sub_0_r|].
  destruct d as [|d]; [lia|].
  assert (E : 2 ^ S d = 2 * 2 ^ d) by apply Nat.pow_succ_r'.
  rewrite verify_step_eq by (rewrite pow2_half; lia). cbn [bind]. rewrite pow2_half. cbn [Nat.sub].
  apply IH; [lia|apply stepG_length|apply stepH_length]; lia.
Qed.
Lemma foldP_app A B P : foldP (A ++ B) P = foldP B (foldP A P).
Proof. revert P; induction A as [|[[l r] x] A IH]; intros P; cbn; auto. Qed.
Lemma gen_ch_app ro A : forall B tr, gen_ch ro (A ++ B) tr =
  (fst (gen_ch ro A tr) ++ fst (gen_ch ro B (tr ++ ipa_rounds A)), snd (gen_ch ro B (tr ++ ipa_rounds A))).
Proof.
  induction A as [|q A IH]; intros B tr; cbn [app].
  - unfold ipa_rounds. cbn. rewrite app_nil_r. now destruct (gen_ch ro B tr).
  - cbn [gen_ch]. rewrite IH. unfold ipa_rounds. cbn [map concat]. rewrite <- app_assoc.
    destruct (gen_ch ro A (tr ++ ipa_round q)). reflexivity.
Qed.

(** whatever the lengths of L and R: r = min(|L|,|R|) rounds are folded *)
Theorem C80_ipa_verdict ro tr pf (G H : list Point) (Q P : Point) (t : Scalar) d Ls Rs :
  Forall2 (fun c P => decompress c = Some P) (L_vec pf) Ls ->
  Forall2 (fun c P => decompress c = Some P) (R_vec pf) Rs ->
  length Ls = d -> length G = 2 ^ d -> length H = 2 ^ d ->
  let LRs := combine (L_vec pf) (R_vec pf) in
  let al := ro (ipa_start tr (2 ^ d)) in
  let xs := fst (gen_ch ro LRs (ipa_start tr (2 ^ d))) in
  no_zk_verify ro tr pf G H Q (2 ^ d) P t =
  Ok (peqb (nz_a pf *: nth 0 (gfold (2 ^ d) xs G) p0 + nz_b pf *: nth 0 (hfold (2 ^ d) xs H) p0
            + (nz_a pf * nz_b pf)%S *: (sinv al *: Q))%P
           (foldP (combine (combine Ls Rs) xs) (P_alpha al t P Q)),
      ipa_start tr (2 ^ d) ++ ipa_rounds LRs).
Proof.
  intros HL HR Hd HG HH LRs al xs. unfold no_zk_verify.
  rewrite (proj2 (mapM_unwrap_decompress _ _) HL). cbn [bind].
  rewrite (proj2 (mapM_unwrap_decompress _ _) HR). cbn [bind].
  rewrite Hd, Nat.eqb_refl. cbn [assertb bind].
  unfold append_u64, challenge_scalar.
  replace ((tr ++ [EvU64 "n" (2 ^ d)]) ++ [EvChal "alpha"]) with (ipa_start tr (2 ^ d))
    by (unfold ipa_start; now rewrite <- app_assoc).
  rewrite generate_challenges_eq. fold LRs. fold al.
  assert (Et : snd (gen_ch ro LRs (ipa_start tr (2 ^ d))) = ipa_start tr (2 ^ d) ++ ipa_rounds LRs) by now rewrite gen_ch_spec.
  assert (Hxs : length xs <= d).
  { unfold xs. rewrite gen_ch_spec. cbn [fst]. rewrite tab_length. unfold LRs. rewrite combine_length.
    rewrite <- Hd, <- (Forall2_length _ _ _ HL). lia. }
  destruct (gen_ch ro LRs (ipa_start tr (2 ^ d))) as [xs' tr'] eqn:Eg. cbn [fst snd] in *. unfold xs in *. clear xs. subst tr'.
  rewrite fold_left_foldP.
  match goal with |- context [foldM ?f xs' _] => change f with verify_step end.
  rewrite verify_loop_short by auto. cbn [bind]. assert (X := pow2_pos (d - length xs')).
  rewrite (idx_lt _ _ p0) by (rewrite gfold_length by auto; lia). cbn [bind].
  rewrite (idx_lt _ _ p0) by (rewrite hfold_length by auto; lia). cbn [bind]. reflexivity.
Qed.

(** with R empty no round is folded and no point of L is read: the pair (a,b) alone is a proof of
    the statement whose witness is (a,0,...), (b,0,...) *)
Corollary C80_no_rounds ro tr (G H : list Point) (Q : Point) d Ls (a b : Scalar) :
  Forall (fun c => decompress c <> None) Ls -> length Ls = d -> length G = 2 ^ d -> length H = 2 ^ d ->
  ro (ipa_start tr (2 ^ d)) <> s0 ->
  no_zk_verify ro tr (mkNoZK Ls [] a b) G H Q (2 ^ d) (a *: pt G 0 + b *: pt H 0 + (a * b)%S *: Q)%P (a * b)%S =
  Ok (true, ipa_start tr (2 ^ d)).
Proof.
  intros HD Hd HG HH Ha.
  assert (X : exists Lp, Forall2 (fun c P => decompress c = Some P) Ls Lp).
  { clear Hd. induction HD as [|c l Hc _ [Lp IH]]; [exists []; constructor|].
    destruct (decompress c) as [P|] eqn:E; [|congruence]. exists (P :: Lp). constructor; auto. }
  destruct X as [Lp HL].
  rewrite (C80_ipa_verdict ro tr (mkNoZK Ls [] a b) G H Q _ _ d Lp []); auto.
  2: { cbn [R_vec]. constructor. }
  2: { apply Forall2_length in HL. lia. }
  cbn [L_vec R_vec nz_a nz_b]. rewrite combine_nil. unfold ipa_rounds. cbn [gen_ch fst map flat_map]. rewrite !combine_nil.
  cbn [foldP gfold hfold combine concat]. rewrite ?app_nil_r. f_equal. f_equal. apply peqb_eq. unfold P_alpha, pt.
  pnorm; try ring. field. exact Ha.
Qed.

(** ** Completing a proof *)
Fixpoint replay (tr : transcript) (LRs : list (Compressed * Compressed)) : prover (list Scalar) :=
  match LRs with
  | [] => Done []
  | q :: LRs => Ask (tr ++ ipa_round q) (fun x => pbind (replay (tr ++ ipa_round q) LRs) (fun xs => Done (x :: xs)))
  end.
(** the honest prover on the witness (a,b) over generators of length 2^k *)
Fixpoint honest (k : nat) (tr : transcript) (G H : list Point) (Q : Point) (a b : list Scalar)
  : prover (list (Compressed * Compressed) * (Scalar * Scalar)) :=
  match k with
  | O => Done ([], (sc a 0, sc b 0))
  | S k =>
    let h := 2 ^ k in
    let q := (compress (ipa_L h G H Q a b), compress (ipa_R h G H Q a b)) in
    Ask (tr ++ ipa_round q) (fun x =>
      pbind (honest k (tr ++ ipa_round q) (stepG x h G) (stepH x h H) Q (stepa x h a) (stepb x h b))
            (fun o => Done (q :: fst o, snd o)))
  end.
(** replay the challenges of pf, then continue with the witness (a,0,..,0), (b,0,..,0) *)
Definition complete (tr : transcript) (d : nat) (G H : list Point) (Q : Point) (pf : NoZK) : prover NoZK :=
  let n := 2 ^ d in
  let LRs := combine (L_vec pf) (R_vec pf) in
  let k := d - length LRs in
  if length LRs <=? d then
    Ask (ipa_start tr n) (fun al =>
    pbind (replay (ipa_start tr n) LRs) (fun xs =>
    pbind (honest k (ipa_start tr n ++ ipa_rounds LRs) (gfold n xs G) (hfold n xs H) (sinv al *: Q)%P
             (nz_a pf :: repeat s0 (2 ^ k - 1)) (nz_b pf :: repeat s0 (2 ^ k - 1))) (fun o =>
    Done (mkNoZK (map fst (LRs ++ fst o)) (map snd (LRs ++ fst o)) (fst (snd o)) (snd (snd o))))))
  else Ask (ipa_start tr n) (fun _ => Done (mkNoZK [] [] s0 s0)).

Lemma run_replay ro LRs : forall tr, run ro (replay tr LRs) = fst (gen_ch ro LRs tr).
Proof.
  induction LRs as [|q LRs IH]; intros tr; cbn [replay run gen_ch]; [reflexivity|].
  rewrite run_pbind, IH. cbn [run]. destruct (gen_ch ro LRs (tr ++ ipa_round q)). reflexivity.
Qed.
Lemma asked_replay ro LRs : forall tr, asked ro (replay tr LRs) = drawn tr (ipa_rounds LRs).
Proof.
  induction LRs as [|q LRs IH]; intros tr; cbn [replay asked]; [reflexivity|].
  rewrite asked_pbind, IH. cbn [asked]. rewrite app_nil_r. unfold ipa_rounds. cbn [map concat]. now rewrite drawn_round.
Qed.
Lemma asks_replay LRs : forall tr, asks (length LRs) (replay tr LRs).
Proof.
  induction LRs as [|q LRs IH]; intros tr; cbn [replay asks length]; [exact I|]. intros x.
  apply (asks_mono _ (length LRs + 0)); [lia|]. apply asks_pbind; [apply IH|]. intros; exact I.
Qed.
Lemma asks_honest k : forall tr G H Q a b, asks k (honest k tr G H Q a b).
Proof.
  induction k as [|k IH]; intros; cbn [honest asks]; [exact I|]. intros x.
  apply (asks_mono _ (k + 0)); [lia|]. apply asks_pbind; [apply IH|]. intros; exact I.
Qed.
Lemma asked_honest ro k : forall tr G H Q a b,
  asked ro (honest k tr G H Q a b) = drawn tr (ipa_rounds (fst (run ro (honest k tr G H Q a b)))).
Proof.
  induction k as [|k IH]; intros; cbn [honest asked run]; [reflexivity|]. rewrite asked_pbind, run_pbind. cbn [run fst asked].
  rewrite app_nil_r, IH. unfold ipa_rounds. cbn [map concat]. now rewrite drawn_round.
Qed.
Lemma honest_spec ro Q k : forall tr G H a b,
  length G = 2 ^ k -> length H = 2 ^ k -> length a = 2 ^ k -> length b = 2 ^ k ->
  exists lps rps a0 b0,
    let LRs := combine (map compress lps) (map compress rps) in
    let xs := fst (gen_ch ro LRs tr) in
    run ro (honest k tr G H Q a b) = (LRs, (a0, b0)) /\ length lps = k /\ length rps = k /\
    (a0 *: nth 0 (foldG xs G) p0 + b0 *: nth 0 (foldH xs H) p0 + (a0 * b0)%S *: Q)%P =
    foldP (combine (combine lps rps) xs) (ipa_com G H Q a b).
Proof.
  induction k as [|k IH]; intros tr G H a b HG HH Ha Hb; cbn [honest run].
  - change (2 ^ 0) with 1 in *. apply length1 in HG as [g ->]. apply length1 in HH as [h ->].
    apply length1 in Ha as [a0 ->]. apply length1 in Hb as [b0 ->].
    exists [], [], a0, b0. cbn. repeat split; auto. unfold ipa_com. cbn. pring.
  - rewrite Nat.pow_succ_r' in *. set (h := 2 ^ k) in *. cbv zeta. set (lp := ipa_L h G H Q a b). set (rp := ipa_R h G H Q a b).
    set (tr1 := tr ++ ipa_round (compress lp, compress rp)). set (x := ro tr1).
    destruct (half_len h a Ha) as [Ha1 Ha2]. destruct (half_len h b Hb) as [Hb1 Hb2].
    destruct (IH tr1 (stepG x h G) (stepH x h H) (stepa x h a) (stepb x h b)) as (lps & rps & a0 & b0 & E & E1 & E2 & E3).
    { now apply stepG_length. } { now apply stepH_length. }
    { unfold stepa. rewrite map2_length. lia. } { unfold stepb. rewrite map2_length. lia. }
    exists (lp :: lps), (rp :: rps), a0, b0. rewrite run_pbind. cbv zeta in E, E3. rewrite E. cbn [run fst snd map combine length].
    split; [reflexivity|]. split; [lia|]. split; [lia|]. cbn [gen_ch]. fold tr1.
    assert (LX : length (fst (gen_ch ro (combine (map compress lps) (map compress rps)) tr1)) = k).
    { rewrite gen_ch_spec. cbn [fst]. rewrite tab_length, combine_length, !map_length. lia. }
    destruct (gen_ch ro (combine (map compress lps) (map compress rps)) tr1) as [xs tr'] eqn:Eg.
    cbn [fst snd] in *. cbn [foldG foldH combine foldP]. rewrite LX. fold h. fold x. rewrite E3. f_equal. now apply ipa_com_step.
Qed.

Lemma lin_unit a m (G : list Point) : length G = S m -> lin (a :: repeat s0 m) G = (a *: nth 0 G p0)%P.
Proof.
  destruct G as [|g G]; [discriminate|]. intros Hm. cbn in Hm. injection Hm as Hm. cbn [nth].
  change (lin (a :: repeat s0 m) (g :: G)) with (a *: g + lin (repeat s0 m) G)%P.
  assert (E : lin (repeat s0 m) G = p0).
  { clear -L. revert G. induction m as [|m IH]; intros [|g G]; try reflexivity.
    change (lin (repeat s0 (S m)) (g :: G)) with (s0 *: g + lin (repeat s0 m) G)%P. rewrite IH. pring. }
  rewrite E. pring.
Qed.
Lemma dot_unit a b m : dot (a :: repeat s0 m) (b :: repeat s0 m) = (a * b)%S.
Proof.
  change (dot (a :: repeat s0 m) (b :: repeat s0 m)) with (a * b + dot (repeat s0 m) (repeat s0 m))%S.
  assert (E : dot (repeat s0 m) (repeat s0 m) = s0).
  { induction m as [|m IH]; [reflexivity|]. change (dot (repeat s0 (S m)) (repeat s0 (S m))) with (s0 * s0 + dot (repeat s0 m) (repeat s0 m))%S.
    rewrite IH. ring. }
  rewrite E. ring.
Qed.
Lemma combine_firstn_r {A B} (l : list A) : forall l' : list B, combine (firstn (length (combine l l')) l) (firstn (length (combine l l')) l') = combine l l'.
Proof. induction l as [|a l IH]; intros [|b l']; cbn; auto. now rewrite IH. Qed.
Lemma combine_app {A B} (l1 : list A) : forall (l1' : list B) l2 l2', length l1 = length l1' -> combine (l1 ++ l2) (l1' ++ l2') = combine l1 l1' ++ combine l2 l2'.
Proof. induction l1 as [|a l IH]; intros [|b l'] l2 l2' E; try discriminate; cbn; auto. injection E as E. now rewrite IH. Qed.
Lemma Forall2_firstn {A B} (R : A -> B -> Prop) l l' k : Forall2 R l l' -> Forall2 R (firstn k l) (firstn k l').
Proof. intros H. revert k. induction H; intros [|k]; cbn; constructor; auto. Qed.

Lemma complete_shape ro tr d G H Q pf : let pf' := run ro (complete tr d G H Q pf) in
  length (R_vec pf') = length (L_vec pf').
Proof.
  cbv zeta. unfold complete. cbv zeta. destruct (Nat.leb_spec (length (combine (L_vec pf) (R_vec pf))) d); [|reflexivity].
  cbn [run]. rewrite !run_pbind. cbn [run L_vec R_vec]. now rewrite !map_length.
Qed.
Lemma asks_complete tr d G H Q pf : asks (S d) (complete tr d G H Q pf).
Proof.
  unfold complete. cbv zeta. destruct (Nat.leb_spec (length (combine (L_vec pf) (R_vec pf))) d) as [Hd|Hd]; [|cbn; destruct d; intros; exact I].
  apply asks_Ask. intros al. apply (asks_mono _ (length (combine (L_vec pf) (R_vec pf)) + (d - length (combine (L_vec pf) (R_vec pf)) + 0))); [lia|].
  apply asks_pbind; [apply asks_replay|]. intros xs. apply asks_pbind; [apply asks_honest|]. intros; exact I.
Qed.

Lemma complete_asked ro tr d G H Q pf : let pf' := run ro (complete tr d G H Q pf) in
  asked ro (complete tr d G H Q pf) = drawn tr (lay_ipa (2 ^ d) pf').
Proof.
  cbv zeta. unfold complete. cbv zeta. set (LRs := combine (L_vec pf) (R_vec pf)). set (n := 2 ^ d).
  assert (Es : ipa_start tr n = (tr ++ [EvU64 "n" n]) ++ [EvChal "alpha"]) by (unfold ipa_start; now rewrite <- app_assoc).
  destruct (Nat.leb_spec (length LRs) d).
  2:{ cbn [asked run]. unfold lay_ipa. cbn. unfold ipa_start. now rewrite <- app_assoc. }
  cbn [asked run]. rewrite !asked_pbind, !run_pbind, asked_replay. cbn [run]. unfold lay_ipa. cbn [L_vec R_vec].
  rewrite combine_map_fst_snd. rewrite asked_honest. cbn [asked app drawn]. rewrite app_nil_r, <- Es. f_equal.
  unfold ipa_rounds. now rewrite map_app, concat_app, drawn_app.
Qed.

(** completion of an accepted proof: same rounds first, one round for each halving, accepted, and
    its challenges are the queries made *)
Theorem C80_complete ro tr pf (G H : list Point) (Q P : Point) (t : Scalar) d tr' :
  length G = 2 ^ d -> length H = 2 ^ d ->
  no_zk_verify ro tr pf G H Q (2 ^ d) P t = Ok (true, tr') ->
  let r := min (length (L_vec pf)) (length (R_vec pf)) in
  let pf' := run ro (complete tr d G H Q pf) in
  r <= d /\ length (L_vec pf') = d /\ length (R_vec pf') = d /\
  firstn r (L_vec pf') = firstn r (L_vec pf) /\ firstn r (R_vec pf') = firstn r (R_vec pf) /\
  no_zk_verify ro tr pf' G H Q (2 ^ d) P t = Ok (true, tr ++ lay_ipa (2 ^ d) pf') /\
  asked ro (complete tr d G H Q pf) = drawn tr (lay_ipa (2 ^ d) pf').
Proof.
  intros HG HH HV r pf'.
  assert (VD : verdict (no_zk_verify ro tr pf G H Q (2 ^ d) P t)) by (eexists; eauto).
  apply C58_ipa_verdict_sized in VD as (DL & DR & En); auto. apply Nat.pow_inj_r in En; [|lia].
  apply mapM_unwrap_ok in DL as [Ls DL]. apply mapM_unwrap_ok in DR as [Rs DR].
  apply mapM_unwrap_decompress in DL. apply mapM_unwrap_decompress in DR.
  assert (LL := Forall2_length _ _ _ DL). assert (LR := Forall2_length _ _ _ DR).
  rewrite (C80_ipa_verdict ro tr pf G H Q P t d Ls Rs) in HV by (auto; lia). injection HV as HV _. apply peqb_eq in HV.
  set (LRs := combine (L_vec pf) (R_vec pf)) in *.
  assert (Hr : length LRs = r) by (unfold LRs; apply combine_length).
  assert (Hd : r <= d) by (unfold r; lia).
  set (n := 2 ^ d) in *. set (al := ro (ipa_start tr n)) in *. set (tr1 := ipa_start tr n) in *.
  set (xs := fst (gen_ch ro LRs tr1)) in *.
  assert (Lx : length xs = r) by (unfold xs; rewrite gen_ch_spec; cbn [fst]; now rewrite tab_length).
  set (k := d - r). assert (Hk := pow2_pos k).
  assert (LG : length (gfold n xs G) = 2 ^ k) by (unfold n, k; rewrite gfold_length; rewrite ?Lx; auto).
  assert (LH : length (hfold n xs H) = 2 ^ k) by (unfold n, k; rewrite hfold_length; rewrite ?Lx; auto).
  destruct (honest_spec ro (sinv al *: Q)%P k (tr1 ++ ipa_rounds LRs) (gfold n xs G) (hfold n xs H)
              (nz_a pf :: repeat s0 (2 ^ k - 1)) (nz_b pf :: repeat s0 (2 ^ k - 1)))
    as (lps & rps & a0 & b0 & E & L1 & L2 & E3); auto; [cbn; rewrite repeat_length; lia..|]. cbv zeta in E, E3.
  set (LR2 := combine (map compress lps) (map compress rps)) in *.
  set (ys := fst (gen_ch ro LR2 (tr1 ++ ipa_rounds LRs))) in *.
  assert (L3 : length LR2 = k) by (unfold LR2; rewrite combine_length, !map_length; lia).
  assert (Ly : length ys = k) by (unfold ys; rewrite gen_ch_spec; cbn [fst]; now rewrite tab_length).
  assert (EP : pf' = mkNoZK (map fst (LRs ++ LR2)) (map snd (LRs ++ LR2)) a0 b0).
  { unfold pf', complete. cbv zeta. fold LRs. fold n. rewrite Hr. rewrite (proj2 (Nat.leb_le r d) Hd). cbn [run].
    fold tr1. fold al. rewrite !run_pbind, run_replay. fold xs. fold k. rewrite E. reflexivity. }
  assert (ELR : combine (L_vec pf') (R_vec pf') = LRs ++ LR2) by (rewrite EP; cbn [L_vec R_vec]; apply combine_map_fst_snd).
  assert (EF : forall {A B} (l : list A) (l' : list B), map fst (combine l l') = firstn (length (combine l l')) l /\ map snd (combine l l') = firstn (length (combine l l')) l').
  { clear. induction l as [|a l IH]; intros [|b l']; cbn; auto. destruct (IH l') as [H1 H2]. now rewrite H1, H2. }
  destruct (EF _ _ (L_vec pf) (R_vec pf)) as [EF1 EF2]. fold LRs in EF1, EF2. rewrite Hr in EF1, EF2.
  assert (ML : length (L_vec pf') = d) by (rewrite EP; cbn [L_vec]; rewrite map_length, app_length; unfold k in *; lia).
  assert (MR : length (R_vec pf') = d) by (rewrite EP; cbn [R_vec]; rewrite map_length, app_length; unfold k in *; lia).
  split; [exact Hd|]. split; [exact ML|]. split; [exact MR|].
  split; [rewrite EP; cbn [L_vec]; rewrite map_app, EF1; rewrite firstn_app, firstn_firstn, Nat.min_id, firstn_length;
          replace (r - _) with 0 by (unfold r; lia); now rewrite app_nil_r|].
  split; [rewrite EP; cbn [R_vec]; rewrite map_app, EF2; rewrite firstn_app, firstn_firstn, Nat.min_id, firstn_length;
          replace (r - _) with 0 by (unfold r; lia); now rewrite app_nil_r|].
  assert (EL2 : L_vec pf' = firstn r (L_vec pf) ++ map compress lps).
  { rewrite EP. cbn [L_vec]. rewrite map_app, EF1. f_equal. unfold LR2. apply combine_fst_snd. now rewrite !map_length, L1, L2. }
  assert (ER2 : R_vec pf' = firstn r (R_vec pf) ++ map compress rps).
  { rewrite EP. cbn [R_vec]. rewrite map_app, EF2. f_equal. unfold LR2. apply combine_fst_snd. now rewrite !map_length, L1, L2. }
  assert (EA := complete_asked ro tr d G H Q pf). cbv zeta in EA. fold pf' in EA. fold n in EA.
  split; [|exact EA].
  change (no_zk_verify ro tr pf' G H Q n P t) with (no_zk_verify ro tr pf' G H Q (2 ^ d) P t).
  rewrite (C80_ipa_verdict ro tr pf' G H Q P t d (firstn r Ls ++ lps) (firstn r Rs ++ rps)); auto.
  - cbv zeta. fold n. fold tr1. fold al. rewrite ELR, gen_ch_app. cbn [fst]. fold xs. fold ys. unfold n at 1 2.
    rewrite gfold_app, hfold_app by lia. rewrite Lx. fold k. fold n.
    rewrite <- Ly at 1 2. rewrite gfold_full, hfold_full. rewrite EP at 1 2 3 4. cbn [nz_a nz_b]. rewrite E3.
    rewrite combine_app by (rewrite !firstn_length; unfold r; lia).
    rewrite combine_app by (rewrite combine_length, !firstn_length, Lx; unfold r; lia). rewrite foldP_app.
    assert (EC : ipa_com (gfold n xs G) (hfold n xs H) (sinv al *: Q)%P (nz_a pf :: repeat s0 (2 ^ k - 1)) (nz_b pf :: repeat s0 (2 ^ k - 1)) =
                 foldP (combine (combine (firstn r Ls) (firstn r Rs)) xs) (P_alpha al t P Q)).
    { unfold ipa_com. rewrite !lin_unit by lia. rewrite dot_unit, HV. f_equal. f_equal.
      assert (Z : r = length (combine Ls Rs)) by (rewrite combine_length; unfold r; lia). rewrite Z. now rewrite combine_firstn_r. }
    rewrite EC, peqb_refl. f_equal. f_equal. unfold lay_ipa. rewrite ELR. unfold tr1, ipa_start. now rewrite <- app_assoc.
  - rewrite EL2. apply Forall2_app; [now apply Forall2_firstn|apply Forall2_decompress_compress].
  - rewrite ER2. apply Forall2_app; [now apply Forall2_firstn|apply Forall2_decompress_compress].
  - rewrite app_length, firstn_length. unfold k, r in *. lia.
Qed.

(** ** The layers around the inner product argument *)
Definition no_proof : NoZK := mkNoZK [] [] s0 s0.
Definition complete_alm (tr : transcript) (d : nat) (G H : list Point) (Q Cw : Point) (t : Scalar) (pf : AlmZK) : prover AlmZK :=
  match decompress (C_r pf) with
  | Some Cr =>
    Ask (alm_beta_hist tr (C_r pf)) (fun be =>
    pbind (complete (alm_ipa_hist tr (C_r pf) (alm_P be t Cw Cr Q)) d G H Q (az_NoZK pf)) (fun z =>
    Done (mkAlmZK (C_r pf) z)))
  | None => Done (mkAlmZK (C_r pf) no_proof)
  end.
Definition complete_inner (tr : transcript) (n d : nat) (G H : list Point) (Q : Point) (Ms : list (list (list Scalar))) (pf : Inner) : prover Inner :=
  let c1 := c_prime_w pf in let c2 := c_prime_prime_w pf in
  match decompress c1, decompress c2 with
  | Some P1, Some P2 =>
    Ask (q_hist_x tr c1) (fun x => Ask (q_hist_s tr c1 c2) (fun s => Ask (q_hist_b tr c1 c2) (fun b =>
    let Cw := q_Cw n G H Ms x s b P1 P2 in
    pbind (complete_alm (q_hist_w tr c1 c2 (compress Cw)) d (q_G (x * x)%S G) H Q Cw (q_t n Ms x s) (alm_zk pf)) (fun z =>
    Done (mkInner z c1 c2)))))
  | _, _ => Done (mkInner (mkAlmZK c1 no_proof) c1 c2)
  end.
Definition complete_copy (tr : transcript) (n d : nat) (G H : list Point) (Q : Point) (Ms : list (list (list Scalar))) mp Cs (pf : Copy) : prover Copy :=
  match decompress (cp_C_w pf) with
  | Some Cw =>
    Ask (cp_hist tr (cp_C_w pf)) (fun al =>
    pbind (complete_inner (cp_hist tr (cp_C_w pf)) n d G H Q (cp_system n mp al Ms)
             (mkInner (alm_zk (cp_inner pf)) (compress (cp_agg al Cw Cs)) (c_prime_prime_w (cp_inner pf)))) (fun z =>
    Done (mkCopy (cp_C_w pf) (mkInner (alm_zk z) (c_prime_w (cp_inner pf)) (c_prime_prime_w (cp_inner pf))))))
  | None => Done (mkCopy (cp_C_w pf) (mkInner (mkAlmZK (cp_C_w pf) no_proof) (cp_C_w pf) (c_prime_prime_w (cp_inner pf))))
  end.

(** V on the output of a program that has asked all challenges of what it outputs *)
Definition covers {X} (V : oracle -> X -> res (bool * transcript)) tr ro (p : prover X) : Prop :=
  forall b tr', V ro (run ro p) = Ok (b, tr') -> exists e, tr' = tr ++ e /\ incl (drawn tr e) (asked ro p).

Lemma asks_complete_alm tr d G H Q Cw t pf : asks (S (S d)) (complete_alm tr d G H Q Cw t pf).
Proof.
  unfold complete_alm. destruct (decompress (C_r pf)) as [Cr|]; [|exact I]. apply asks_Ask. intros be.
  apply (asks_mono _ (S d + 0)); [lia|]. apply asks_pbind; [apply asks_complete|]. intros; exact I.
Qed.
Lemma complete_alm_shape ro tr d G H Q Cw t pf : let pf' := run ro (complete_alm tr d G H Q Cw t pf) in
  length (R_vec (az_NoZK pf')) = length (L_vec (az_NoZK pf')) /\ C_r pf' = C_r pf.
Proof.
  cbv zeta. unfold complete_alm. destruct (decompress (C_r pf)) as [Cr|]; [|split; reflexivity]. cbn [run].
  rewrite run_pbind. cbn [run az_NoZK C_r]. split; [apply complete_shape|reflexivity].
Qed.
Lemma alm_verify_eq ro tr pf (G H : list Point) Q n Cw t Cr : decompress (C_r pf) = Some Cr ->
  let P := alm_P (ro (alm_beta_hist tr (C_r pf))) t Cw Cr Q in
  let be := ro (alm_beta_hist tr (C_r pf)) in
  alm_zk_verify ro tr pf G H Q n Cw t = no_zk_verify ro (alm_ipa_hist tr (C_r pf) P) (az_NoZK pf) G H Q n P (be * be * t)%S.
Proof.
  intros E. cbv zeta. unfold alm_zk_verify. rewrite E. cbn [unwrap bind]. unfold append_message, challenge_scalar, alm_ipa_hist, alm_P, alm_beta_hist.
  rewrite <- !app_assoc. reflexivity.
Qed.
Lemma complete_alm_run ro tr d G H Q Cw t pf Cr : decompress (C_r pf) = Some Cr ->
  let P := alm_P (ro (alm_beta_hist tr (C_r pf))) t Cw Cr Q in
  run ro (complete_alm tr d G H Q Cw t pf) = mkAlmZK (C_r pf) (run ro (complete (alm_ipa_hist tr (C_r pf) P) d G H Q (az_NoZK pf))) /\
  asked ro (complete_alm tr d G H Q Cw t pf) = alm_beta_hist tr (C_r pf) :: asked ro (complete (alm_ipa_hist tr (C_r pf) P) d G H Q (az_NoZK pf)).
Proof.
  intros E. cbv zeta. unfold complete_alm. rewrite E. cbn [run asked]. rewrite run_pbind, asked_pbind. cbn [run asked]. now rewrite app_nil_r.
Qed.
Lemma alm_ipa_hist_eq tr c P : alm_ipa_hist tr c P = tr ++ [EvMsg "C_r" c; EvChal "beta"; EvMsg "P" (compress P)].
Proof. unfold alm_ipa_hist, alm_beta_hist. now rewrite <- app_assoc. Qed.
Lemma complete_alm_covers ro tr d G H Q Cw t pf :
  covers (fun ro pf => alm_zk_verify ro tr pf G H Q (2 ^ d) Cw t) tr ro (complete_alm tr d G H Q Cw t pf).
Proof.
  intros b tr' E. destruct (complete_alm_shape ro tr d G H Q Cw t pf) as [_ EC].
  destruct (decompress (C_r pf)) as [Cr|] eqn:ED.
  2:{ unfold alm_zk_verify in E. rewrite EC, ED in E. discriminate. }
  destruct (complete_alm_run ro tr d G H Q Cw t pf Cr ED) as [R1 R2]. cbv zeta in R1, R2. rewrite R2. rewrite R1 in E.
  erewrite alm_verify_eq in E by (cbn [C_r]; exact ED). cbv zeta in E. cbn [C_r az_NoZK] in E.
  set (P := alm_P _ _ _ _ _) in *. apply C50_ipa_layout in E as (_ & -> & _). rewrite complete_asked.
  set (lay := lay_ipa _ _). rewrite alm_ipa_hist_eq. exists ([EvMsg "C_r" (C_r pf); EvChal "beta"; EvMsg "P" (compress P)] ++ lay).
  split; [now rewrite <- app_assoc|]. rewrite drawn_app. intros h Hh. apply in_app_or in Hh as [Hh|Hh]; [|now right].
  left. cbn in Hh. destruct Hh as [<-|[]]. unfold alm_beta_hist. now rewrite <- app_assoc.
Qed.
Lemma complete_alm_accepted ro tr d (G H : list Point) Q Cw t pf tr' : length G = 2 ^ d -> length H = 2 ^ d ->
  alm_zk_verify ro tr pf G H Q (2 ^ d) Cw t = Ok (true, tr') ->
  exists tr'', alm_zk_verify ro tr (run ro (complete_alm tr d G H Q Cw t pf)) G H Q (2 ^ d) Cw t = Ok (true, tr'').
Proof.
  intros HG HH E. destruct (decompress (C_r pf)) as [Cr|] eqn:ED.
  2:{ unfold alm_zk_verify in E. rewrite ED in E. discriminate. }
  destruct (complete_alm_run ro tr d G H Q Cw t pf Cr ED) as [R1 R2]. cbv zeta in R1. rewrite R1.
  erewrite alm_verify_eq in E |- * by (cbn [C_r]; exact ED). cbv zeta in *. cbn [C_r az_NoZK].
  apply C80_complete in E as (_ & _ & _ & _ & _ & E & _); eauto.
Qed.

Lemma asks_complete_inner tr n d G H Q Ms pf : asks (5 + d) (complete_inner tr n d G H Q Ms pf).
Proof.
  unfold complete_inner. cbv zeta. destruct (decompress (c_prime_w pf)); [|exact I]. destruct (decompress (c_prime_prime_w pf)); [|exact I].
  cbn [Nat.add]. apply asks_Ask. intros x. apply asks_Ask. intros s. apply asks_Ask. intros b. apply (asks_mono _ (S (S d) + 0)); [lia|]. apply asks_pbind; [apply asks_complete_alm|]. intros; exact I.
Qed.
Lemma complete_inner_shape ro tr n d G H Q Ms pf : let pf' := run ro (complete_inner tr n d G H Q Ms pf) in
  length (R_vec (az_NoZK (alm_zk pf'))) = length (L_vec (az_NoZK (alm_zk pf'))) /\
  c_prime_w pf' = c_prime_w pf /\ c_prime_prime_w pf' = c_prime_prime_w pf.
Proof.
  cbv zeta. unfold complete_inner. cbv zeta. destruct (decompress (c_prime_w pf)); [|repeat split].
  destruct (decompress (c_prime_prime_w pf)); [|repeat split]. cbn [run].
  rewrite run_pbind. cbn [run alm_zk c_prime_w c_prime_prime_w]. split; [apply complete_alm_shape|auto].
Qed.
Section InnerC.
Context (n d : nat) (G H : list Point) (Q : Point) (Ms : list (list (list Scalar))).
Context (Hd : n = 2 ^ d) (Hn : 3 <= n) (HG : length G = n) (HH : length H = n) (HM : 1 <= length Ms) (HF : Forall (rect (n - 2) (n - 2)) Ms).
Lemma complete_inner_run ro tr pf P1 P2 : decompress (c_prime_w pf) = Some P1 -> decompress (c_prime_prime_w pf) = Some P2 ->
  let x := q_x ro tr pf in let s := q_s ro tr pf in let b := q_b ro tr pf in
  let Cw := q_Cw n G H Ms x s b P1 P2 in
  let tr1 := q_hist_w tr (c_prime_w pf) (c_prime_prime_w pf) (compress Cw) in
  let z := complete_alm tr1 d (q_G (x * x)%S G) H Q Cw (q_t n Ms x s) (alm_zk pf) in
  run ro (complete_inner tr n d G H Q Ms pf) = mkInner (run ro z) (c_prime_w pf) (c_prime_prime_w pf) /\
  asked ro (complete_inner tr n d G H Q Ms pf) =
    [q_hist_x tr (c_prime_w pf); q_hist_s tr (c_prime_w pf) (c_prime_prime_w pf); q_hist_b tr (c_prime_w pf) (c_prime_prime_w pf)] ++ asked ro z.
Proof.
  intros E1 E2. cbv zeta. unfold complete_inner. cbv zeta. rewrite E1, E2. cbn [run asked]. rewrite run_pbind, asked_pbind. cbn [run asked].
  rewrite app_nil_r. split; reflexivity.
Qed.
Lemma q_G_length y : length (q_G y G) = n.
Proof. unfold q_G. now rewrite tab_length. Qed.
Lemma q_hist_w_eq tr c1 c2 cw : q_hist_w tr c1 c2 cw =
  tr ++ [EvMsg "c_prime_w" c1; EvChal "x"; EvMsg "c_prime_prime_w" c2; EvChal "s"; EvChal "b"; EvMsg "c_w" cw].
Proof. unfold q_hist_w, q_hist_b, q_hist_s, q_hist_x. now rewrite <- !app_assoc. Qed.
Lemma complete_inner_covers ro tr pf :
  covers (fun ro pf => inner_verify ro tr pf G H Q (mkBlockMatrix Ms)) tr ro (complete_inner tr n d G H Q Ms pf).
Proof.
  intros bb tr' E. destruct (complete_inner_shape ro tr n d G H Q Ms pf) as (_ & EC1 & EC2).
  destruct (q_decodes _ _ _ _ _ _ _ _ E) as (P1 & P2 & D1 & D2). assert (F1 := D1). assert (F2 := D2). rewrite EC1 in F1. rewrite EC2 in F2.
  rewrite (inner_verify_eq _ _ _ _ _ _ _ n P1 P2) in E by auto. cbv zeta in E.
  destruct (complete_inner_run ro tr pf P1 P2 F1 F2) as [R1 R2]. cbv zeta in R1, R2. rewrite R2. rewrite R1 in E.
  unfold q_x, q_s, q_b in E. cbn [c_prime_w c_prime_prime_w alm_zk] in E. fold (q_x ro tr pf) in E. fold (q_s ro tr pf) in E. fold (q_b ro tr pf) in E.
  set (Cw := q_Cw _ _ _ _ _ _ _ _ _) in *. clearbody Cw. set (t := q_t _ _ _ _) in *. clearbody t. rewrite Hd in E.
  apply complete_alm_covers in E as (e & -> & IN). revert IN. rewrite q_hist_w_eq.
  set (evs := [EvMsg "c_prime_w" _; EvChal "x"; _; _; _; _]). intros IN. exists (evs ++ e). split; [now rewrite <- app_assoc|].
  rewrite drawn_app. intros h Hh. apply in_app_or in Hh as [Hh|Hh]; apply in_or_app; [left|right; now apply IN].
  unfold evs in Hh. cbn in Hh. unfold q_hist_b, q_hist_s, q_hist_x.
  destruct Hh as [<-|[<-|[<-|[]]]]; [left|right; left|right; right; left]; now rewrite <- !app_assoc.
Qed.
Lemma complete_inner_accepted ro tr pf tr' :
  inner_verify ro tr pf G H Q (mkBlockMatrix Ms) = Ok (true, tr') ->
  exists tr'', inner_verify ro tr (run ro (complete_inner tr n d G H Q Ms pf)) G H Q (mkBlockMatrix Ms) = Ok (true, tr'').
Proof.
  intros E. destruct (q_decodes _ _ _ _ _ _ _ _ E) as (P1 & P2 & D1 & D2).
  destruct (complete_inner_shape ro tr n d G H Q Ms pf) as (_ & EC1 & EC2).
  rewrite (inner_verify_eq _ _ _ _ _ _ _ n P1 P2) in E by auto. cbv zeta in E.
  rewrite (inner_verify_eq _ _ _ _ _ _ _ n P1 P2) by (auto; congruence). cbv zeta.
  destruct (complete_inner_run ro tr pf P1 P2 D1 D2) as [R1 _]. cbv zeta in R1. rewrite R1.
  unfold q_x, q_s, q_b. cbn [c_prime_w c_prime_prime_w alm_zk]. fold (q_x ro tr pf). fold (q_s ro tr pf). fold (q_b ro tr pf).
  set (Cw := q_Cw _ _ _ _ _ _ _ _ _) in *. clearbody Cw. set (t := q_t _ _ _ _) in *. clearbody t. rewrite Hd in E |- *.
  apply complete_alm_accepted in E; auto; rewrite ?q_G_length; lia.
Qed.
End InnerC.

Lemma asks_complete_copy tr n d G H Q Ms mp Cs pf : asks (6 + d) (complete_copy tr n d G H Q Ms mp Cs pf).
Proof.
  unfold complete_copy. destruct (decompress (cp_C_w pf)); [|exact I].
  cbn [Nat.add]. apply asks_Ask. intros al. apply (asks_mono _ (5 + d + 0)); [lia|]. apply asks_pbind; [apply asks_complete_inner|]. intros; exact I.
Qed.
Lemma complete_copy_shape ro tr n d G H Q Ms mp Cs pf : let pf' := run ro (complete_copy tr n d G H Q Ms mp Cs pf) in
  length (R_vec (az_NoZK (alm_zk (cp_inner pf')))) = length (L_vec (az_NoZK (alm_zk (cp_inner pf')))) /\
  cp_C_w pf' = cp_C_w pf /\ c_prime_prime_w (cp_inner pf') = c_prime_prime_w (cp_inner pf).
Proof.
  cbv zeta. unfold complete_copy. destruct (decompress (cp_C_w pf)); [|repeat split]. cbn [run].
  rewrite run_pbind. cbn [run alm_zk cp_C_w cp_inner c_prime_prime_w]. split; [apply complete_inner_shape|auto].
Qed.
Section CopyC.
Context (n d : nat) (G H : list Point) (Q : Point) (Ms : list (list (list Scalar))) (mp : Mapping) (Cs : list Point).
Context (Hd : n = 2 ^ d) (Hn : 3 <= n) (HG : length G = n) (HH : length H = n) (HMap : good_map n (length Cs) mp) (HC : 1 <= length Cs)
        (HM : 1 <= length Ms + length (msgs_map mp)) (HF : Forall (rect (n - 2) (n - 2)) Ms).
Lemma cp_system_size al : 1 <= length (cp_system n mp al Ms).
Proof.
  unfold cp_system. rewrite app_length, map_length. destruct (msgs_map mp) as [|m ms] eqn:Em; [cbn in HM; lia|].
  assert (X : In (commitment_index m) (unique_commitment_indices mp)).
  { apply HMap. exists m. split; auto. rewrite Em. now left. }
  destruct (unique_commitment_indices mp); [destruct X|cbn; lia].
Qed.
Lemma copy_decodes ro tr pf r : copy_verify ro tr pf G H Q (mkBlockMatrix Ms) mp Cs = Ok r -> exists Cw, decompress (cp_C_w pf) = Some Cw.
Proof.
  intros E. assert (V : verdict (copy_verify ro tr pf G H Q (mkBlockMatrix Ms) mp Cs)) by (eexists; eauto).
  apply (C58_copy_verdict _ _ _ _ _ _ _ _ _ n) in V as (V & _); auto. destruct (decompress (cp_C_w pf)); [eauto|congruence].
Qed.
Definition copy_to_inner al Cw pf := mkInner (alm_zk (cp_inner pf)) (compress (cp_agg al Cw Cs)) (c_prime_prime_w (cp_inner pf)).
Lemma complete_copy_run ro tr pf Cw : decompress (cp_C_w pf) = Some Cw ->
  let al := ro (cp_hist tr (cp_C_w pf)) in
  let z := complete_inner (cp_hist tr (cp_C_w pf)) n d G H Q (cp_system n mp al Ms) (copy_to_inner al Cw pf) in
  run ro (complete_copy tr n d G H Q Ms mp Cs pf) =
    mkCopy (cp_C_w pf) (mkInner (alm_zk (run ro z)) (c_prime_w (cp_inner pf)) (c_prime_prime_w (cp_inner pf))) /\
  asked ro (complete_copy tr n d G H Q Ms mp Cs pf) = cp_hist tr (cp_C_w pf) :: asked ro z.
Proof.
  intros E. cbv zeta. unfold complete_copy. rewrite E. cbn [run asked]. rewrite run_pbind, asked_pbind. cbn [run asked]. rewrite app_nil_r. split; reflexivity.
Qed.
(** the completed copy proof is verified as the completed inner proof *)
Lemma complete_copy_eq ro tr pf Cw : decompress (cp_C_w pf) = Some Cw ->
  let al := ro (cp_hist tr (cp_C_w pf)) in
  let z := complete_inner (cp_hist tr (cp_C_w pf)) n d G H Q (cp_system n mp al Ms) (copy_to_inner al Cw pf) in
  copy_verify ro tr (run ro (complete_copy tr n d G H Q Ms mp Cs pf)) G H Q (mkBlockMatrix Ms) mp Cs =
  inner_verify ro (cp_hist tr (cp_C_w pf)) (run ro z) G H Q (mkBlockMatrix (cp_system n mp al Ms)).
Proof.
  intros E al z. destruct (complete_copy_run ro tr pf Cw E) as [R1 _]. cbv zeta in R1. fold al in R1. fold z in R1. rewrite R1.
  rewrite (copy_verify_eq _ _ _ _ _ _ _ _ _ n Cw) by auto. cbv zeta. cbn [cp_C_w cp_inner alm_zk c_prime_prime_w]. fold al.
  destruct (complete_inner_shape ro (cp_hist tr (cp_C_w pf)) n d G H Q (cp_system n mp al Ms) (copy_to_inner al Cw pf)) as (_ & S1 & S2).
  fold z in S1, S2. f_equal. destruct (run ro z) as [y c1 c2]. cbn [copy_to_inner c_prime_w c_prime_prime_w alm_zk] in *. now subst.
Qed.
Lemma complete_copy_covers ro tr pf :
  covers (fun ro pf => copy_verify ro tr pf G H Q (mkBlockMatrix Ms) mp Cs) tr ro (complete_copy tr n d G H Q Ms mp Cs pf).
Proof.
  intros bb tr' E. destruct (copy_decodes _ _ _ _ E) as [Cw D]. destruct (complete_copy_shape ro tr n d G H Q Ms mp Cs pf) as (_ & EC & _).
  rewrite EC in D. rewrite (complete_copy_eq ro tr pf Cw D) in E.
  destruct (complete_copy_run ro tr pf Cw D) as [_ R2]. cbv zeta in R2. rewrite R2. set (al := ro (cp_hist tr (cp_C_w pf))) in *.
  apply (complete_inner_covers n d G H Q (cp_system n mp al Ms) Hd Hn HG HH (cp_system_size al) (cp_system_rect _ _ _ _ Hn HF)) in E as (e & -> & IN).
  exists ([EvMsg "c_w" (cp_C_w pf); EvChal "alpha"] ++ e). unfold cp_hist at 1. split; [now rewrite <- app_assoc|].
  rewrite drawn_app. intros h Hh. apply in_app_or in Hh as [Hh|Hh].
  - left. cbn in Hh. destruct Hh as [<-|[]]. unfold cp_hist. now rewrite <- app_assoc.
  - right. now apply IN.
Qed.
Lemma complete_copy_accepted ro tr pf tr' :
  copy_verify ro tr pf G H Q (mkBlockMatrix Ms) mp Cs = Ok (true, tr') ->
  exists tr'', copy_verify ro tr (run ro (complete_copy tr n d G H Q Ms mp Cs pf)) G H Q (mkBlockMatrix Ms) mp Cs = Ok (true, tr'').
Proof.
  intros E. destruct (copy_decodes _ _ _ _ E) as [Cw D]. rewrite (complete_copy_eq ro tr pf Cw D).
  rewrite (copy_verify_eq _ _ _ _ _ _ _ _ _ n Cw) in E by auto. cbv zeta in E.
  eapply complete_inner_accepted; eauto using cp_system_size, cp_system_rect.
Qed.
End CopyC.

(** ** Hashed challenges: every prover *)
Context (ceq : @encodings_comparable C).
Notation table := (table ceq).
Notation successes := (successes ceq).
Notation own_run := (own_run ceq).

Lemma finish_successes {X} (V : oracle -> X -> res (bool * transcript)) (p : prover X) (comp : X -> prover X) vals D :
  (forall ro x tr', V ro x = Ok (true, tr') -> exists tr'', V ro (run ro (comp x)) = Ok (true, tr'')) ->
  successes V p vals D <= successes V (pbind p comp) vals D.
Proof.
  intros HA. unfold PropFiatShamir.successes. apply count_le. intros w _. rewrite run_pbind.
  destruct (V (table D w) (run (table D w) p)) as [[[|] tr']| |] eqn:E; cbn; try discriminate.
  destruct (HA _ _ _ E) as [tr'' E']. now rewrite E'.
Qed.
Lemma finish_asks {X} (V : oracle -> X -> res (bool * transcript)) tr (p : prover X) (comp : X -> prover X) vals D :
  (forall ro x, covers V tr ro (comp x)) -> incl (reach vals (pbind p comp)) D -> asks_challenges ceq V tr (pbind p comp) vals D.
Proof.
  intros HC HD w tr' Iw E h Hh. assert (HA : In h (asked (table D w) (pbind p comp))).
  { rewrite asked_pbind. apply in_or_app. right. rewrite run_pbind in E. destruct (HC _ _ _ _ E) as (e & -> & IN).
    apply IN. now rewrite skipn_app_exact in Hh. }
  split; auto. now apply (reach_asked ceq vals D w (pbind p comp)).
Qed.
(** comp on the proof inside a larger output *)
Definition on_fst {A B} (comp : A -> prover A) (o : A * B) : prover (A * B) := pbind (comp (fst o)) (fun z => Done (z, snd o)).
Lemma run_on_fst {A B} ro (comp : A -> prover A) (o : A * B) : run ro (on_fst comp o) = (run ro (comp (fst o)), snd o).
Proof. unfold on_fst. now rewrite run_pbind. Qed.
Lemma covers_on_fst {A B} (V : oracle -> A -> res (bool * transcript)) tr ro comp (o : A * B) :
  covers V tr ro (comp (fst o)) -> covers (fun ro o => V ro (fst o)) tr ro (on_fst comp o).
Proof.
  intros HC b tr' E. rewrite run_on_fst in E. cbn [fst] in E. destruct (HC b tr' E) as (e & -> & IN). exists e. split; auto.
  unfold on_fst. rewrite asked_pbind. cbn [asked]. now rewrite app_nil_r.
Qed.
Lemma asks_on_fst {A B} r (comp : A -> prover A) (o : A * B) : asks r (comp (fst o)) -> asks r (on_fst comp o).
Proof. intros HA. apply (asks_mono _ (r + 0)); [lia|]. apply asks_pbind; [exact HA|]. intros; exact I. Qed.
Lemma count_mono a b (T r q N : nat) : a * (T + r) * q < N -> N <= b -> a * (T + r) * q < b.
Proof. lia. Qed.

(** p, followed by the completion of its proof *)
Definition finish_nozk tr d G H Q (p : prover NoZK) := pbind p (complete tr d G H Q).
Theorem C80_nozk_fiat_shamir vals tr (G H : list Point) (Q P : Point) (t : Scalar) d (p : prover NoZK) T D :
  let V := fun ro pf => no_zk_verify ro tr pf G H Q (2 ^ d) P t in
  let p' := finish_nozk tr d G H Q p in
  NoDup vals -> length G = 2 ^ d -> length H = 2 ^ d ->
  asks T p -> incl (reach vals p') D ->
  3 * (T + S d) * length vals ^ (length D - 1) < successes V p vals D ->
  exists B, good_trees B /\
    all_paths B (fun al path => exists xs, own_run V tr p' vals D (al :: xs) (fun pf => path = proof_path pf xs)) /\
    match trees_extract t B with
    | Wit a b c => length a = 2 ^ d /\ length b = 2 ^ d /\ c = t /\
                   P = (comb a G + comb b H + t *: Q)%P /\ dotp a b = t
    | Rel g h q => nontrivial_relation (2 ^ d) G H Q g h q
    end.
Proof.
  intros V p' HN HG HH HT HD HC. apply (C79_nozk_fiat_shamir ceq vals tr G H Q P t d p' (T + S d) D HN HG HH).
  - apply asks_pbind; auto. apply asks_complete.
  - intros ro. unfold p', finish_nozk. rewrite run_pbind. apply complete_shape.
  - apply finish_asks; auto. intros ro pf b tr' E. rewrite complete_asked. apply C50_ipa_layout in E as (_ & -> & _).
    eexists. split; [reflexivity|]. intros h Hh. exact Hh.
  - eapply Nat.lt_le_trans; [exact HC|]. apply finish_successes. intros ro pf tr' E.
    apply C80_complete in E as (_ & _ & _ & _ & _ & E & _); eauto.
Qed.

Definition finish_alm tr d G H Q Cw t (p : prover AlmZK) := pbind p (complete_alm tr d G H Q Cw t).
Theorem C80_almzk_fiat_shamir vals tr (G H : list Point) (Q Cw : Point) (t : Scalar) d (p : prover AlmZK) T D :
  let V := fun ro pf => alm_zk_verify ro tr pf G H Q (2 ^ d) Cw t in
  let p' := finish_alm tr d G H Q Cw t p in
  NoDup vals -> length G = 2 ^ d -> length H = 2 ^ d ->
  asks T p -> incl (reach vals p') D ->
  3 * (T + (d + 2)) * length vals ^ (length D - 1) < successes V p vals D ->
  exists B, good_beta B /\
    beta_paths B (fun cr be al path => exists xs, own_run V tr p' vals D (be :: al :: xs)
                    (fun pf => C_r pf = cr /\ path = proof_path (az_NoZK pf) xs)) /\
    match beta_extract t B with
    | Wit a b c => length a = 2 ^ d /\ length b = 2 ^ d /\ c = t /\ Cw = (comb a G + comb b H)%P /\ dotp a b = t
    | Rel g h q => nontrivial_relation (2 ^ d) G H Q g h q
    end.
Proof.
  intros V p' HN HG HH HT HD HC. apply (C79_almzk_fiat_shamir ceq vals tr G H Q Cw t d p' (T + (d + 2)) D HN HG HH).
  - apply asks_pbind; auto. intros pf. rewrite Nat.add_comm. apply asks_complete_alm.
  - intros ro. unfold p', finish_alm. rewrite run_pbind. apply complete_alm_shape.
  - apply finish_asks; auto. intros ro pf. apply complete_alm_covers.
  - eapply Nat.lt_le_trans; [exact HC|]. apply finish_successes. intros ro pf tr' E. eapply complete_alm_accepted; eauto.
Qed.

Definition finish_inner tr n d G H Q Ms (p : prover Inner) := pbind p (complete_inner tr n d G H Q Ms).
Theorem C80_qesa_batched_fiat_shamir vals tr (G H : list Point) (Q : Point) n d Ms (p : prover Inner) T D :
  let V := fun ro pf => inner_verify ro tr pf G H Q (mkBlockMatrix Ms) in
  let p' := finish_inner tr n d G H Q Ms p in
  NoDup vals -> n = 2 ^ d -> 3 <= n -> length G = n -> length H = n -> 1 <= length Ms -> Forall (rect (n - 2) (n - 2)) Ms ->
  asks T p -> incl (reach vals p') D ->
  max 3 (n - 2) * (T + (5 + d)) * length vals ^ (length D - 1) < successes V p vals D ->
  exists x c1 c2 T, x <> s0 /\ good_sb n T /\ qesa_own ceq (fun pf => pf) V tr p' vals D x c1 c2 T /\
  match q_extract n Ms x T with
  | Wit v u _ =>
    length v = n /\ length u = n /\ (dec c1 + dec c2)%P = (comb v G + comb u H)%P /\
    let w := set_first (s1 + x * x * (sc v 0 - s1))%S v in
    u = mv n (q_gamma' n (q_gamma n Ms x)) w /\
    sum_S (min (length Ms) n) (fun t => spow x (S t) * quad (nth t Ms []) (firstn (n - 2) w))%S = s0
  | Rel g h q => nontrivial_relation n G H Q g h q
  end.
Proof.
  intros V p' HN Hd Hn HG HH HM HF HT HD HC. apply (C79_qesa_batched_fiat_shamir ceq vals tr G H Q n d Ms p' (T + (5 + d)) D HN Hd Hn HG HH HM HF).
  - apply asks_pbind; auto. intros pf. apply asks_complete_inner.
  - intros ro. unfold p', finish_inner. rewrite run_pbind. apply complete_inner_shape.
  - apply finish_asks; auto. intros ro pf. now apply complete_inner_covers.
  - eapply Nat.lt_le_trans; [exact HC|]. apply finish_successes. intros ro pf tr' E. eapply complete_inner_accepted; eauto.
Qed.

Definition finish_qesa tr n d G H Q Ms (p : prover (Inner * (list Scalar * list Scalar))) := pbind p (on_fst (complete_inner tr n d G H Q Ms)).
Theorem C80_qesa_fiat_shamir vals tr (G H : list Point) (Q : Point) n d Ms
    (p : prover (Inner * (list Scalar * list Scalar))) T D :
  let V := fun ro (o : Inner * (list Scalar * list Scalar)) => inner_verify ro tr (fst o) G H Q (mkBlockMatrix Ms) in
  let p' := finish_qesa tr n d G H Q Ms p in
  let m := min (length Ms) n in
  NoDup vals -> n = 2 ^ d -> 3 <= n -> length G = n -> length H = n -> 1 <= length Ms -> Forall (rect (n - 2) (n - 2)) Ms ->
  asks T p ->
  (forall ro, let '(pf, (w', u)) := run ro p in
     length w' = n /\ sc w' 0 = s1 /\ decompress (c_prime_w pf) = Some (comb w' G) /\
     length u = n /\ decompress (c_prime_prime_w pf) = Some (comb u H)) ->
  incl (reach vals p') D ->
  max (max 3 (n - 2)) m * (T + (5 + d)) * length vals ^ (length D - 1) < successes V p vals D ->
  (exists x c1 c2 T w' u g h q, x <> s0 /\ good_sb n T /\ qesa_own ceq fst V tr p' vals D x c1 c2 T /\
     (exists cs, own_run V tr p' vals D cs (fun o => c_prime_w (fst o) = c1 /\ fst (snd o) = w')) /\
     (exists cs, own_run V tr p' vals D cs (fun o => c_prime_prime_w (fst o) = c2 /\ snd (snd o) = u)) /\
     q_compare n Ms x T w' u = Some (g, h, q) /\ nontrivial_relation n G H Q g h q) \/
  (exists cs, own_run V tr p' vals D cs (fun o => forall t, t < m -> quad (nth t Ms []) (firstn (n - 2) (fst (snd o))) = s0)).
Proof.
  intros V p' m HN Hd Hn HG HH HM HF HT HO HD HC. apply (C79_qesa_fiat_shamir ceq vals tr G H Q n d Ms p' (T + (5 + d)) D HN Hd Hn HG HH HM HF).
  - apply asks_pbind; auto. intros o. apply asks_on_fst. apply asks_complete_inner.
  - intros ro. unfold p', finish_qesa. rewrite run_pbind, run_on_fst. generalize (HO ro). destruct (run ro p) as [pf [w' u]]. cbn [fst snd].
    destruct (complete_inner_shape ro tr n d G H Q Ms pf) as (S1 & S2 & S3). rewrite S2, S3. intros Z. split; [exact S1|exact Z].
  - apply finish_asks; auto. intros ro o.
    apply (covers_on_fst (fun ro pf => inner_verify ro tr pf G H Q (mkBlockMatrix Ms)) tr ro (complete_inner tr n d G H Q Ms) o).
    now apply complete_inner_covers.
  - eapply Nat.lt_le_trans; [exact HC|]. apply finish_successes. intros ro o tr' E. unfold V. rewrite run_on_fst. cbn [fst].
    eapply complete_inner_accepted; eauto.
Qed.

Definition finish_copy tr n d G H Q Ms mp Cs (p : prover (Copy * (list Scalar * list Scalar))) := pbind p (on_fst (complete_copy tr n d G H Q Ms mp Cs)).
Theorem C80_copy_fiat_shamir vals tr (G H : list Point) (Q : Point) n d Ms (ws : N) (sets : list (list N)) mp
    (msgs : list (list Scalar)) (rs : list Scalar) (Cs : list Point) (p : prover (Copy * (list Scalar * list Scalar))) T D :
  let V := fun ro (o : Copy * (list Scalar * list Scalar)) => copy_verify ro tr (fst o) G H Q (mkBlockMatrix Ms) mp Cs in
  let p' := finish_copy tr n d G H Q Ms mp Cs p in
  let m := length Ms + length (unique_commitment_indices mp) in
  let K := max (max 3 (n - 2)) (max m (2 * length sets)) in
  NoDup vals -> n = 2 ^ d ->
  3 <= n -> (N.of_nat n < 65536)%N -> (ws < 65536)%N -> (N.of_nat (length sets) <= 65536)%N ->
  length G = n -> length H = n -> Forall (rect (n - 2) (n - 2)) Ms ->
  (forall s i, In s sets -> In i s -> 1 <= N.to_nat i < n - 2) -> Forall (@NoDup N) sets ->
  compute_mapping (N.of_nat n) ws sets = Ok mp -> m <= n ->
  length Cs = length sets ->
  (forall k, k < length sets -> commit G (nth k sets []) (nth k msgs []) (sc rs k) = Ok (pt Cs k)) ->
  asks T p ->
  (forall ro, let '(pf, (w', u)) := run ro p in
     length w' = n /\ sc w' 0 = s1 /\ decompress (cp_C_w pf) = Some (comb w' G) /\
     length u = n /\ decompress (c_prime_prime_w (cp_inner pf)) = Some (comb u H)) ->
  incl (reach vals p') D ->
  K * (T + (6 + d)) * length vals ^ (length D - 1) < successes V p vals D ->
  (exists a0 x cw c2 T w' u g h q, x <> s0 /\ good_sb n T /\ copy_own ceq V tr p' vals D a0 x cw c2 T /\
     (exists cs, own_run V tr p' vals D cs (fun o => cp_C_w (fst o) = cw /\ fst (snd o) = w')) /\
     (exists cs, own_run V tr p' vals D cs (fun o => c_prime_prime_w (cp_inner (fst o)) = c2 /\ snd (snd o) = u)) /\
     q_compare n (cp_system n mp a0 Ms) x T (cp_full n sets msgs rs w' a0) u = Some (g, h, q) /\
     nontrivial_relation n G H Q g h q) \/
  (exists cs, own_run V tr p' vals D cs (fun o => let w' := fst (snd o) in
     (forall M, In M Ms -> quad M (firstn (n - 2) w') = s0) /\
     (forall k j, k < length sets -> j < length (nth k sets []) ->
        exists mm, nth_error (msgs_map mp) (cm_offset sets k + j) = Some mm /\
          sc (nth k msgs []) j = sc w' (mpos mm)) /\
     (forall s i, In s sets -> In i s -> sc w' (N.to_nat i) = s0))).
Proof.
  intros V p' m K HN Hd Hn Hn16 Hws HSz HG HH HF Hidx HND Emp Hm LC HCm HT HO HD HC.
  destruct (compute_mapping_good n ws sets mp Hn16 Hws Emp HSz) as (HMap & _ & _).
  { intros s i Hs Hi. apply (Hidx s i Hs Hi). }
  assert (HT1 : 1 <= cm_total sets) by (apply compute_mapping_inv in Emp as (_ & HT' & _); exact HT').
  assert (HS1 : 1 <= length Cs) by (rewrite LC; destruct sets; [cbn in HT1; lia|cbn; lia]).
  assert (HM : 1 <= length Ms + length (msgs_map mp)).
  { destruct (C29_metadata _ _ sets _ ltac:(lia) Emp) as (_ & Z & _). rewrite Z. lia. }
  rewrite <- LC in HMap.
  apply (C79_copy_fiat_shamir ceq vals tr G H Q n d Ms ws sets mp msgs rs Cs p' (T + (6 + d)) D HN Hd Hn Hn16 Hws HSz HG HH HF Hidx HND Emp Hm LC HCm).
  - apply asks_pbind; auto. intros o. apply asks_on_fst. apply asks_complete_copy.
  - intros ro. unfold p', finish_copy. rewrite run_pbind, run_on_fst. generalize (HO ro). destruct (run ro p) as [pf [w' u]]. cbn [fst snd].
    destruct (complete_copy_shape ro tr n d G H Q Ms mp Cs pf) as (S1 & S2 & S3). rewrite S2, S3. intros Z. split; [exact S1|exact Z].
  - apply finish_asks; auto. intros ro o.
    apply (covers_on_fst (fun ro pf => copy_verify ro tr pf G H Q (mkBlockMatrix Ms) mp Cs) tr ro (complete_copy tr n d G H Q Ms mp Cs) o).
    now apply complete_copy_covers.
  - eapply Nat.lt_le_trans; [exact HC|]. apply finish_successes. intros ro o tr' E. unfold V. rewrite run_on_fst. cbn [fst].
    eapply complete_copy_accepted; eauto.
Qed.
End C80.

(** n = 2, a proof with one point in L and none in R: accepted, and completed to one round *)
Definition short80 : @NoZK FS := mkNoZK [compress (qN 77)] [] (fN 3) (fN 6).
Definition P80 : @Point FS := qN (3 * 5 + 6 * 2 + 18 * 17).
Definition V80 (ro : @oracle FS) (pf : @NoZK FS) := no_zk_verify ro [] pf [qN 5; qN 11] [qN 2; qN 7] (qN 17) (2 ^ 1) P80 (fN 18).
Definition ro80 : @oracle FS := fun h => fN (Z.of_nat (2 + length h)).
Definition acc80 (r : res (bool * @transcript FS)) : bool := match r with Ok (b, _) => b | _ => false end.
Example C80_case_complete :
  let pf := run ro80 (complete [] 1 [qN 5; qN 11] [qN 2; qN 7] (qN 17) short80) in
  (acc80 (V80 ro80 short80), acc80 (V80 ro80 pf), length (L_vec pf), length (R_vec pf), zf (nz_a pf), zf (nz_b pf)) =
  (true, true, 1, 1, 21%Z, 6%Z).
Proof. vm_compute. reflexivity. Qed.
(** a prover that sends this proof without a single query is accepted for every table of nonzero
    answers; the theorem extracts a witness or a relation from its runs *)
Example C80_case_extract :
  exists B, good_trees B /\
    match trees_extract (fN 18) B with
    | Wit a b c => length a = 2 /\ P80 = (comb a [qN 5; qN 11] + comb b [qN 2; qN 7] + fN 18 *: qN 17)%P /\ dotp a b = fN 18
    | Rel g h q => nontrivial_relation 2 [qN 5; qN 11] [qN 2; qN 7] (qN 17) g h q
    end.
Proof.
  set (p := finish_nozk [] 1 [qN 5; qN 11] [qN 2; qN 7] (qN 17) (Done short80)).
  set (D := reach (v75 10) p).
  assert (HD : In (ipa_start [] 2) D) by (unfold D, p, finish_nozk; cbn [pbind]; unfold complete; cbn; auto).
    assert (S1 : length (words (v75 10) (length D)) <=
      successes fs_ceq (fun ro pf => no_zk_verify ro [] pf [qN 5; qN 11] [qN 2; qN 7] (qN 17) (2 ^ 1) P80 (fN 18)) (Done short80) (v75 10) D).
    { unfold successes. transitivity (count (fun _ : list (@Scalar FS) => true) (words (v75 10) (length D))).
      - apply Nat.eq_le_incl. induction (words (v75 10) (length D)) as [|w W IH]; [reflexivity|]. rewrite count_cons. cbn [length]. lia.
      - apply count_le. intros w Hw _. cbn [run].
        assert (Z : table fs_ceq D w (ipa_start [] 2) <> s0).
        { assert (I := table_letter fs_ceq (v75 10) D w _ HD Hw). intros E0. rewrite E0 in I.
          apply (in_map zf) in I. revert I. vm_compute. intuition discriminate. }
        assert (N := @C80_no_rounds FS FS_laws (table fs_ceq D w) [] [qN 5; qN 11] [qN 2; qN 7] (qN 17) 1 [compress (qN 77)] (fN 3) (fN 6)
           ltac:(constructor; [rewrite (@decompress_compress FS FS_laws); discriminate|constructor]) eq_refl eq_refl eq_refl Z).
        replace (fN 3 * fN 6)%S with (fN 18) in N by (apply (@seqb_eq FS FS_laws); vm_compute; reflexivity).
        replace (fN 3 *: pt [qN 5; qN 11] 0 + fN 6 *: pt [qN 2; qN 7] 0 + fN 18 *: qN 17)%P with P80 in N by (apply (@peqb_eq FS FS_laws); vm_compute; reflexivity).
        unfold short80. rewrite N. reflexivity. }
  assert (S2 : 3 * (0 + 2) * length (v75 10) ^ (length D - 1) <
    successes fs_ceq (fun ro pf => no_zk_verify ro [] pf [qN 5; qN 11] [qN 2; qN 7] (qN 17) (2 ^ 1) P80 (fN 18)) (Done short80) (v75 10) D).
  { eapply Nat.lt_le_trans; [|exact S1]. rewrite words_count. unfold v75 at 1 2. rewrite !map_length, !seq_length.
    destruct D as [|h D']; [destruct HD|]. cbn [length]. rewrite Nat.sub_succ, Nat.sub_0_r, Nat.pow_succ_r'.
    assert (10 ^ length D' <> 0) by (apply Nat.pow_nonzero; lia). lia. }
  destruct (@C80_nozk_fiat_shamir FS FS_laws fs_ceq (v75 10) [] [qN 5; qN 11] [qN 2; qN 7] (qN 17) P80 (fN 18) 1 (Done short80) 0 D
    (v79_NoDup 10 ltac:(cbn; auto)) eq_refl eq_refl I (fun h Hh => Hh) S2) as (B & GB & _ & E).
  exists B. split; [exact GB|]. destruct (trees_extract _ B); [|exact E]. destruct E as (E1 & _ & _ & E2 & E3). exact (conj E1 (conj E2 E3)).
Qed.

(** the other layers, with C_r solved for fixed answers: short proofs that are accepted, and
    their completions; with another C_r neither is accepted *)
Definition roq80 : @oracle FS := coins [] (map fN [2; 3; 4; 5; 6; 7; 8; 9; 10]%Z).
Definition cq80 (z : Z) : @Compressed FS := compress (qN z).
Definition see80 (pf : @NoZK FS) := (length (L_vec pf), length (R_vec pf)).
Example C80_case_almzk :
  let V pf := acc80 (alm_zk_verify roq80 [] pf g75 h75 (qN 17) (2 ^ 1) (qN 134) (fN 46)) in
  let sh z := mkAlmZK (cq80 z) (mkNoZK [cq80 3] [] (fN 1) (fN 2)) in
  let c z := run roq80 (complete_alm [] 1 g75 h75 (qN 17) (qN 134) (fN 46) (sh z)) in
  map (fun z => (V (sh z), V (c z), see80 (az_NoZK (c z)))) [55; 56]%Z = [(true, true, (1, 1)); (false, false, (1, 1))].
Proof. vm_compute. reflexivity. Qed.
Example C80_case_qesa :
  let V pf := acc80 (inner_verify roq80 [] pf g75q h75q (qN 77) (mkBlockMatrix m75q)) in
  let sh z := mkInner (mkAlmZK (cq80 z) (mkNoZK [cq80 3; cq80 4] [cq80 6] (fN 1) (fN 2))) (cq80 11) (cq80 12) in
  let c z := run roq80 (complete_inner [] 4 2 g75q h75q (qN 77) m75q (sh z)) in
  map (fun z => (V (sh z), V (c z), see80 (az_NoZK (alm_zk (c z))))) [230; 231]%Z = [(true, true, (2, 2)); (false, false, (2, 2))].
Proof. vm_compute. reflexivity. Qed.
Example C80_case_copy :
  let V pf := acc80 (copy_verify roq80 [] pf g75c h75c (qN 77) (mkBlockMatrix m75c) mp75 (c75 9)) in
  let sh z := mkCopy (cq80 13) (mkInner (mkAlmZK (cq80 z) (mkNoZK [cq80 3; cq80 4; cq80 5] [cq80 6] (fN 1) (fN 2))) (cq80 11) (cq80 12)) in
  let c z := run roq80 (complete_copy [] 8 3 g75c h75c (qN 77) m75c mp75 (c75 9) (sh z)) in
  map (fun z => (V (sh z), V (c z), see80 (az_NoZK (alm_zk (cp_inner (c z)))))) [636; 637]%Z = [(true, true, (3, 3)); (false, false, (3, 3))].
Proof. vm_compute. reflexivity. Qed.
