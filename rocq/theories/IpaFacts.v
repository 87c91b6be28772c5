(** The no-zk inner product argument: closed forms of prover and verifier. *)
From Coq Require Import String.
From Verif Require Export MatrixFacts IpaNoZK IpaSpec.
Local Open Scope string_scope.
Local Open Scope nat_scope.
Local Open Scope list_scope.

Lemma Forall2_length {A B} (R : A -> B -> Prop) l l' : Forall2 R l l' -> length l = length l'.
Proof. induction 1; cbn; auto. Qed.
Lemma mapM_unwrap_decompress {C : Crypto} l r :
  mapM (fun L => unwrap (decompress L)) l = Ok r <-> Forall2 (fun c P => decompress c = Some P) l r.
Proof.
  rewrite mapM_Ok_Forall2. split; induction 1; constructor; auto; now apply unwrap_Ok.
Qed.
Lemma mapM_decompress_compress {C : Crypto} {L : CryptoLaws C} l :
  mapM (fun L => unwrap (decompress L)) (map compress l) = Ok l.
Proof.
  apply mapM_unwrap_decompress. induction l as [|P l IH]; cbn; constructor; auto.
  apply decompress_compress.
Qed.
Lemma decompressed_compress {C : Crypto} {L : CryptoLaws C} l r :
  Forall2 (fun c P => decompress c = Some P) l r -> l = map compress r.
Proof.
  induction 1 as [|c P l r H1 H2 IH]; cbn; auto. f_equal; auto.
  symmetry. now apply compress_decompress.
Qed.

Section Fold.
Context {C : Crypto} {L : CryptoLaws C}.
Add Field SfIF : (@S_field C L).

(** ** challenges *)
Fixpoint gen_ch (ro : oracle) (LRs : list (Compressed * Compressed)) (tr : transcript)
  : list Scalar * transcript :=
  match LRs with
  | [] => ([], tr)
  | LR :: LRs => let tr' := tr ++ ipa_round LR in
                 let '(xs, tr'') := gen_ch ro LRs tr' in (ro tr' :: xs, tr'')
  end.

Lemma generate_challenges_eq ro proof tr :
  generate_challenges ro proof tr = gen_ch ro (combine (L_vec proof) (R_vec proof)) tr.
Proof.
  unfold generate_challenges. generalize (combine (L_vec proof) (R_vec proof)) as LRs. intros LRs.
  assert (H : forall acc tr, fold_left (fun '(challenges, tr) '(L, R) =>
               let tr := append_message tr "L" L in
               let tr := append_message tr "R" R in
               let '(x_i, tr) := challenge_scalar ro tr "x_i" in
               (challenges ++ [x_i], tr)) LRs (acc, tr) =
             (let '(xs, tr') := gen_ch ro LRs tr in (acc ++ xs, tr'))).
  { induction LRs as [|[l r] LRs IH]; intros acc tr0; cbn [fold_left gen_ch].
    - now rewrite app_nil_r.
    - unfold append_message, challenge_scalar.
      replace (((tr0 ++ [EvMsg "L" l]) ++ [EvMsg "R" r]) ++ [EvChal "x_i"]) with (tr0 ++ ipa_round (l, r))
        by (rewrite <- !app_assoc; reflexivity).
      rewrite IH. destruct (gen_ch ro LRs (tr0 ++ ipa_round (l, r))) as [xs tr'].
      now rewrite <- app_assoc. }
  rewrite H. now destruct (gen_ch ro LRs tr).
Qed.
Lemma gen_ch_spec ro LRs : forall tr,
  gen_ch ro LRs tr =
  (tab (length LRs) (fun j => ro (tr ++ ipa_rounds (firstn (S j) LRs))), tr ++ ipa_rounds LRs).
Proof.
  induction LRs as [|LR LRs IH]; intros tr; cbn [gen_ch].
  - unfold ipa_rounds; cbn. now rewrite app_nil_r.
  - rewrite IH. cbn [length]. rewrite tab_S_l. f_equal.
    + f_equal. apply tab_ext. intros j _. cbn [firstn]. unfold ipa_rounds. cbn [map concat].
      now rewrite app_assoc.
    + unfold ipa_rounds. cbn [map concat]. now rewrite app_assoc.
Qed.

(** ** folding the generators and the point *)
Definition stepG (x : Scalar) (h : nat) (G : list Point) : list Point :=
  map2 (fun l r => l + x *: r)%P (firstn h G) (skipn h G).
Definition stepH (x : Scalar) (h : nat) (H : list Point) : list Point :=
  map2 (fun l r => x *: l + r)%P (firstn h H) (skipn h H).
(** d rounds on vectors of length 2^d *)
Fixpoint foldG (xs : list Scalar) (G : list Point) : list Point :=
  match xs with [] => G | x :: xs => foldG xs (stepG x (2 ^ length xs) G) end.
Fixpoint foldH (xs : list Scalar) (H : list Point) : list Point :=
  match xs with [] => H | x :: xs => foldH xs (stepH x (2 ^ length xs) H) end.
Fixpoint foldP (LRx : list ((Point * Point) * Scalar)) (P : Point) : Point :=
  match LRx with
  | [] => P
  | ((l, r), x) :: LRx => foldP LRx ((x * x)%S *: l + x *: P + r)%P
  end.

Lemma fold_left_foldP LRx P :
  fold_left (fun P '((L, R), challenge) =>
               let challenge_sq := (challenge * challenge)%S in
               (challenge_sq *: L + challenge *: P + R)%P) LRx P = foldP LRx P.
Proof. revert P; induction LRx as [|[[l r] x] LRx IH]; intros P; cbn; auto. Qed.

Lemma half_len {A} h (l : list A) : length l = 2 * h -> length (firstn h l) = h /\ length (skipn h l) = h.
Proof. intros H. rewrite firstn_length, skipn_length. lia. Qed.
Lemma stepG_length x h G : length G = 2 * h -> length (stepG x h G) = h.
Proof. intros H. apply half_len in H as [H1 H2]. unfold stepG. rewrite map2_length. lia. Qed.
Lemma stepH_length x h G : length G = 2 * h -> length (stepH x h G) = h.
Proof. intros H. apply half_len in H as [H1 H2]. unfold stepH. rewrite map2_length. lia. Qed.
Lemma foldG_length xs : forall G, length G = 2 ^ length xs -> length (foldG xs G) = 1.
Proof.
  induction xs as [|x xs IH]; intros G H; cbn [foldG length] in *; auto.
  apply IH. apply stepG_length. rewrite H. apply Nat.pow_succ_r'.
Qed.
Lemma foldH_length xs : forall G, length G = 2 ^ length xs -> length (foldH xs G) = 1.
Proof.
  induction xs as [|x xs IH]; intros G H; cbn [foldH length] in *; auto.
  apply IH. apply stepH_length. rewrite H. apply Nat.pow_succ_r'.
Qed.

(** the verifier's loop over the challenges *)
Definition verify_step : nat * list Point * list Point -> Scalar -> res (nat * list Point * list Point) :=
  fun '(n, G, H) challenge =>
    let n := n / 2 in
    '(G_L, G_R) <- split_at n G ;;
    '(H_L, H_R) <- split_at n H ;;
    let G := vector_vector_add G_L (vector_scalar_mul G_R challenge) in
    let H := vector_vector_add (vector_scalar_mul H_L challenge) H_R in
    Ok (n, G, H).
Lemma verify_step_eq n G H x : n / 2 <= length G -> n / 2 <= length H ->
  verify_step (n, G, H) x = Ok (n / 2, stepG x (n / 2) G, stepH x (n / 2) H).
Proof.
  intros HG HH. unfold verify_step. rewrite !split_at_le by auto. cbn.
  unfold vector_vector_add, vector_scalar_mul, stepG, stepH.
  now rewrite map2_map_l, map2_map_r.
Qed.
Lemma verify_loop_eq xs : forall G H, length G = 2 ^ length xs -> length H = 2 ^ length xs ->
  foldM verify_step xs (2 ^ length xs, G, H) = Ok (1, foldG xs G, foldH xs H).
Proof.
  induction xs as [|x xs IH]; intros G H HG HH; cbn [length foldM foldG foldH] in *; auto.
  assert (E : 2 ^ S (length xs) = 2 * 2 ^ length xs) by apply Nat.pow_succ_r'.
  rewrite verify_step_eq by (rewrite pow2_half; lia). cbn [bind]. rewrite pow2_half.
  apply IH; [apply stepG_length|apply stepH_length]; lia.
Qed.

(** P after the change of Q *)
Definition P_alpha (alpha t : Scalar) (P Q : Point) : Point :=
  (P - ((alpha - s1) * t)%S *: (sinv alpha *: Q))%P.

(** the final comparison, as a function of alpha and the round challenges *)
Definition ipa_check (G H : list Point) (Q P : Point) (t : Scalar) (Ls Rs : list Point)
    (a b alpha : Scalar) (xs : list Scalar) : bool :=
  peqb (a *: nth 0 (foldG xs G) p0 + b *: nth 0 (foldH xs H) p0 + (a * b)%S *: (sinv alpha *: Q))%P
       (foldP (combine (combine Ls Rs) xs) (P_alpha alpha t P Q)).

Lemma combine_map {A B A' B'} (f : A -> A') (g : B -> B') l l' :
  combine (map f l) (map g l') = map (fun p => (f (fst p), g (snd p))) (combine l l').
Proof. revert l'; induction l as [|a l IH]; intros [|b l']; cbn; auto. now rewrite IH. Qed.

(** challenges of a run *)
Definition ipa_alpha (ro : oracle) tr n : Scalar := ro (ipa_start tr n).
Definition ipa_chals (ro : oracle) tr n (LRs : list (Compressed * Compressed)) : list Scalar :=
  tab (length LRs) (fun j => ro (ipa_hist tr n LRs (S j))).

Lemma ipa_gen ro tr n proof :
  generate_challenges ro proof (ipa_start tr n) =
  (ipa_chals ro tr n (combine (L_vec proof) (R_vec proof)),
   ipa_hist tr n (combine (L_vec proof) (R_vec proof)) (length (L_vec proof))).
Proof.
  rewrite generate_challenges_eq, gen_ch_spec. unfold ipa_chals, ipa_hist. f_equal.
  rewrite firstn_all2; auto. rewrite combine_length. lia.
Qed.

Lemma no_zk_verify_eq ro tr proof G H Q n P t Ls Rs :
  Forall2 (fun c P => decompress c = Some P) (L_vec proof) Ls ->
  Forall2 (fun c P => decompress c = Some P) (R_vec proof) Rs ->
  length Ls = length Rs -> n = 2 ^ length Ls -> length G = n -> length H = n ->
  no_zk_verify ro tr proof G H Q n P t =
  Ok (ipa_check G H Q P t Ls Rs (nz_a proof) (nz_b proof) (ipa_alpha ro tr n)
        (ipa_chals ro tr n (combine (L_vec proof) (R_vec proof))),
      ipa_hist tr n (combine (L_vec proof) (R_vec proof)) (length Ls)).
Proof.
  intros HL HR Hlen Hn HG HH. unfold no_zk_verify.
  rewrite (proj2 (mapM_unwrap_decompress _ _) HL). cbn [bind].
  rewrite (proj2 (mapM_unwrap_decompress _ _) HR). cbn [bind].
  rewrite <- Hn, Nat.eqb_refl. cbn [assertb bind].
  unfold append_u64, challenge_scalar.
  replace ((tr ++ [EvU64 "n" n]) ++ [EvChal "alpha"]) with (ipa_start tr n)
    by (unfold ipa_start; now rewrite <- app_assoc).
  rewrite ipa_gen. fold (ipa_alpha ro tr n).
  assert (HlL := Forall2_length _ _ _ HL). assert (HlR := Forall2_length _ _ _ HR).
  set (xs := ipa_chals ro tr n (combine (L_vec proof) (R_vec proof))).
  assert (Hxs : length xs = length Ls).
  { unfold xs, ipa_chals. rewrite tab_length, combine_length. lia. }
  rewrite fold_left_foldP.
  match goal with |- context [foldM ?f xs _] => change f with verify_step end.
  assert (Hn' : n = 2 ^ length xs) by (now rewrite Hxs).
  rewrite Hn' at 1. rewrite verify_loop_eq by lia. cbn [bind].
  rewrite (idx_lt _ _ p0) by (rewrite foldG_length by lia; lia). cbn [bind].
  rewrite (idx_lt _ _ p0) by (rewrite foldH_length by lia; lia). cbn [bind].
  rewrite HlL. reflexivity.
Qed.

(** ** the prover's loop *)
Definition stepa (x : Scalar) (h : nat) (a : list Scalar) : list Scalar :=
  map2 (fun l r => l * x + r)%S (firstn h a) (skipn h a).
Definition stepb (x : Scalar) (h : nat) (b : list Scalar) : list Scalar :=
  map2 (fun l r => l + x * r)%S (firstn h b) (skipn h b).

Definition ipa_L (h : nat) (G H : list Point) (Q : Point) (a b : list Scalar) : Point :=
  (lin (firstn h a) (skipn h G) + lin (skipn h b) (firstn h H)
   + dot (firstn h a) (skipn h b) *: Q)%P.
Definition ipa_R (h : nat) (G H : list Point) (Q : Point) (a b : list Scalar) : Point :=
  (lin (skipn h a) (firstn h G) + lin (firstn h b) (skipn h H)
   + dot (skipn h a) (firstn h b) *: Q)%P.

Lemma msm3 s t c G H Q : length s = length G -> length t = length H ->
  msm (s ++ t ++ [c]) (G ++ H ++ [Q]) = Ok (lin s G + lin t H + c *: Q)%P.
Proof.
  intros H1 H2. rewrite msm_Ok by (rewrite !app_length; cbn; lia).
  rewrite lin_app, lin_app by auto. cbn. f_equal. pring.
Qed.

Lemma lin_stepa_stepG x h a G : length a = 2 * h -> length G = 2 * h ->
  lin (stepa x h a) (stepG x h G) =
  (x *: lin a G + (x * x)%S *: lin (firstn h a) (skipn h G) + lin (skipn h a) (firstn h G))%P.
Proof.
  intros Ha HG. apply half_len in Ha as [Ha1 Ha2]. apply half_len in HG as [HG1 HG2].
  rewrite (lin_split h a G). unfold stepa, stepG.
  rewrite (map2_ext _ (fun l r => x * l + s1 * r)%S) by (intros; ring).
  rewrite (map2_ext (fun l r => l + x *: r)%P (fun l r => s1 *: l + x *: r)%P) by (intros; pring).
  rewrite lin_affine_s, !lin_affine_p by lia. pring.
Qed.
Lemma lin_stepb_stepH x h b H : length b = 2 * h -> length H = 2 * h ->
  lin (stepb x h b) (stepH x h H) =
  (x *: lin b H + (x * x)%S *: lin (skipn h b) (firstn h H) + lin (firstn h b) (skipn h H))%P.
Proof.
  intros Ha HG. apply half_len in Ha as [Ha1 Ha2]. apply half_len in HG as [HG1 HG2].
  rewrite (lin_split h b H). unfold stepb, stepH.
  rewrite (map2_ext _ (fun l r => s1 * l + x * r)%S) by (intros; ring).
  rewrite (map2_ext (fun l r => x *: l + r)%P (fun l r => x *: l + s1 *: r)%P) by (intros; pring).
  rewrite lin_affine_s, !lin_affine_p by lia. pring.
Qed.
Lemma dot_stepa_stepb x h a b : length a = 2 * h -> length b = 2 * h ->
  dot (stepa x h a) (stepb x h b) =
  (x * dot a b + (x * x) * dot (firstn h a) (skipn h b) + dot (skipn h a) (firstn h b))%S.
Proof.
  intros Ha HG. apply half_len in Ha as [Ha1 Ha2]. apply half_len in HG as [HG1 HG2].
  rewrite (dot_split h a b). unfold stepa, stepb.
  rewrite (map2_ext _ (fun l r => x * l + s1 * r)%S) by (intros; ring).
  rewrite (map2_ext (fun l r => l + x * r)%S (fun l r => s1 * l + x * r)%S) by (intros; ring).
  rewrite dot_affine_l, !dot_affine_r by lia. ring.
Qed.

(** the commitment an honest prover folds *)
Definition ipa_com (G H : list Point) (Q : Point) (a b : list Scalar) : Point :=
  (lin a G + lin b H + dot a b *: Q)%P.

Lemma ipa_com_step x h G H Q a b :
  length G = 2 * h -> length H = 2 * h -> length a = 2 * h -> length b = 2 * h ->
  ipa_com (stepG x h G) (stepH x h H) Q (stepa x h a) (stepb x h b) =
  ((x * x)%S *: ipa_L h G H Q a b + x *: ipa_com G H Q a b + ipa_R h G H Q a b)%P.
Proof.
  intros HG HH Ha Hb. unfold ipa_com, ipa_L, ipa_R.
  rewrite lin_stepa_stepG, lin_stepb_stepH, dot_stepa_stepb by auto. pring.
Qed.

Lemma create_loop_spec ro Q d : forall fuel tr G H a b Ls Rs,
  d < fuel -> length G = 2 ^ d -> length H = 2 ^ d -> length a = 2 ^ d -> length b = 2 ^ d ->
  exists lps rps a0 b0,
    let LRs := combine (map compress lps) (map compress rps) in
    let xs := fst (gen_ch ro LRs tr) in
    no_zk_create_loop fuel ro tr Q (2 ^ d) G H a b Ls Rs =
      Ok (mkNoZK (Ls ++ map compress lps) (Rs ++ map compress rps) a0 b0, snd (gen_ch ro LRs tr)) /\
    length lps = d /\ length rps = d /\ length xs = d /\
    (a0 *: nth 0 (foldG xs G) p0 + b0 *: nth 0 (foldH xs H) p0 + (a0 * b0)%S *: Q)%P =
    foldP (combine (combine lps rps) xs) (ipa_com G H Q a b).
Proof.
  induction d as [|d IH]; intros fuel tr G H a b Ls Rs Hf HG HH Ha Hb;
    (destruct fuel as [|fuel]; [lia|]); cbn [no_zk_create_loop].
  - change (2 ^ 0) with 1 in *. cbn [Nat.eqb].
    apply length1 in HG as [g ->]. apply length1 in HH as [h ->].
    apply length1 in Ha as [a0 ->]. apply length1 in Hb as [b0 ->].
    exists [], [], a0, b0. cbn. rewrite !app_nil_r. repeat split; auto.
    unfold ipa_com. cbn. pring.
  - assert (E2 : 2 ^ S d = 2 * 2 ^ d) by apply Nat.pow_succ_r'.
    assert (Hp := pow2_pos d).
    destruct (Nat.eqb_spec (2 ^ S d) 1) as [|_]; [lia|].
    rewrite pow2_half. set (h := 2 ^ d) in *. rewrite E2 in *.
    rewrite !split_at_le by lia. cbn [bind].
    destruct (half_len h a Ha) as [Ha1 Ha2]. destruct (half_len h b Hb) as [Hb1 Hb2].
    destruct (half_len h G HG) as [HG1 HG2]. destruct (half_len h H HH) as [HH1 HH2].
    rewrite !inner_product_dot. rewrite !msm3 by lia. cbn [bind].
    fold (ipa_L h G H Q a b). fold (ipa_R h G H Q a b).
    set (lp := ipa_L h G H Q a b). set (rp := ipa_R h G H Q a b).
    unfold append_message, challenge_scalar.
    replace (((tr ++ [EvMsg "L" (compress lp)]) ++ [EvMsg "R" (compress rp)]) ++ [EvChal "x_i"])
      with (tr ++ ipa_round (compress lp, compress rp)) by (rewrite <- !app_assoc; reflexivity).
    set (tr1 := tr ++ ipa_round (compress lp, compress rp)). set (x := ro tr1).
    fold (stepa x h a). fold (stepb x h b). fold (stepG x h G). fold (stepH x h H).
    destruct (IH fuel tr1 (stepG x h G) (stepH x h H) (stepa x h a) (stepb x h b)
                (Ls ++ [compress lp]) (Rs ++ [compress rp]))
      as (lps & rps & a0 & b0 & Hc & Hl1 & Hl2 & Hl3 & Heq); try lia.
    { now apply stepG_length. } { now apply stepH_length. }
    { unfold stepa. rewrite map2_length. lia. } { unfold stepb. rewrite map2_length. lia. }
    exists (lp :: lps), (rp :: rps), a0, b0.
    cbn [map combine gen_ch]. fold tr1.
    destruct (gen_ch ro (combine (map compress lps) (map compress rps)) tr1) as [xs tr'] eqn:Eg.
    cbn [fst snd] in *. split.
    + rewrite <- !app_assoc in Hc. exact Hc.
    + cbn [length]. split; [lia|]. split; [lia|]. split; [lia|].
      cbn [foldG foldH combine foldP]. rewrite Hl3. fold h. fold x.
      rewrite Heq. f_equal. now apply ipa_com_step.
Qed.

Lemma no_zk_create_spec ro tr G H Q a b d :
  length G = 2 ^ d -> length H = 2 ^ d -> length a = 2 ^ d -> length b = 2 ^ d ->
  exists lps rps a0 b0,
    let LRs := combine (map compress lps) (map compress rps) in
    let n := 2 ^ d in
    let xs := ipa_chals ro tr n LRs in
    let Q' := (sinv (ipa_alpha ro tr n) *: Q)%P in
    no_zk_create ro tr G H Q a b =
      Ok (mkNoZK (map compress lps) (map compress rps) a0 b0, ipa_hist tr n LRs d) /\
    length lps = d /\ length rps = d /\
    (a0 *: nth 0 (foldG xs G) p0 + b0 *: nth 0 (foldH xs H) p0 + (a0 * b0)%S *: Q')%P =
    foldP (combine (combine lps rps) xs) (ipa_com G H Q' a b).
Proof.
  intros HG HH Ha Hb. set (n := 2 ^ d).
  destruct (create_loop_spec ro (sinv (ipa_alpha ro tr n) *: Q)%P d (S n) (ipa_start tr n) G H a b [] [])
    as (lps & rps & a0 & b0 & Hc & Hl1 & Hl2 & Hl3 & Heq); auto.
  { unfold n. assert (X := pow2_gt d). lia. }
  exists lps, rps, a0, b0. cbn zeta. rewrite gen_ch_spec in Hc, Heq, Hl3. cbn [fst snd app] in *.
  split; [|split; [auto|split; auto]].
  unfold no_zk_create. rewrite HG, HH, Ha, Hb. fold n. rewrite !Nat.eqb_refl. cbn [assertb bind].
  assert (Hpow : is_power_of_two n = true) by (apply is_power_of_two_spec; now exists d).
  rewrite Hpow. cbn [assertb bind]. unfold append_u64, challenge_scalar.
  replace ((tr ++ [EvU64 "n" n]) ++ [EvChal "alpha"]) with (ipa_start tr n)
    by (unfold ipa_start; now rewrite <- app_assoc).
  fold (ipa_alpha ro tr n). fold n in Hc. rewrite Hc. f_equal. f_equal. unfold ipa_hist. rewrite firstn_all2; auto.
  rewrite combine_length, !map_length. lia.
Qed.

Lemma Forall2_decompress_compress l : Forall2 (fun c P => decompress c = Some P) (map compress l) l.
Proof. induction l as [|P l IH]; cbn; constructor; auto. apply decompress_compress. Qed.

(** verification of an honestly generated proof, for an arbitrary claimed (P,t):
    the verifier accepts iff P_alpha is the honest commitment to (a,b) w.r.t. Q' —
    or rather, the final comparison is that of the folded points *)
Lemma foldP_inj LRx P P' : (forall x, In x (map snd LRx) -> x <> s0) ->
  foldP LRx P = foldP LRx P' -> P = P'.
Proof.
  revert P P'; induction LRx as [|[[l r] x] LRx IH]; intros P P' Hx H; cbn in *; auto.
  apply IH in H; auto. assert (Hx0 : x <> s0) by auto.
  apply psub_0. destruct (pmul_eq_0 x (P - P')%P) as [E|E]; [|contradiction|exact E].
  replace (x *: (P - P'))%P with
    (((x * x)%S *: l + x *: P + r) - ((x * x)%S *: l + x *: P' + r))%P by pring.
  rewrite H. pring.
Qed.

Lemma no_zk_complete ro tr G H Q a b d :
  length G = 2 ^ d -> length H = 2 ^ d -> length a = 2 ^ d -> length b = 2 ^ d ->
  exists proof tr',
    no_zk_create ro tr G H Q a b = Ok (proof, tr') /\
    length (L_vec proof) = d /\ length (R_vec proof) = d /\
    tr' = ipa_hist tr (2 ^ d) (combine (L_vec proof) (R_vec proof)) d /\
    (forall P t,
      P_alpha (ipa_alpha ro tr (2 ^ d)) t P Q =
      ipa_com G H (sinv (ipa_alpha ro tr (2 ^ d)) *: Q)%P a b ->
      no_zk_verify ro tr proof G H Q (2 ^ d) P t = Ok (true, tr')) /\
    (forall P t r, (forall j, j < d -> ro (ipa_hist tr (2 ^ d) (combine (L_vec proof) (R_vec proof)) (S j)) <> s0) ->
      no_zk_verify ro tr proof G H Q (2 ^ d) P t = Ok (true, r) ->
      P_alpha (ipa_alpha ro tr (2 ^ d)) t P Q =
      ipa_com G H (sinv (ipa_alpha ro tr (2 ^ d)) *: Q)%P a b).
Proof.
  intros HG HH Ha Hb.
  destruct (no_zk_create_spec ro tr G H Q a b d HG HH Ha Hb) as (lps & rps & a0 & b0 & Hc & Hl & Hr & Heq).
  cbn zeta in *. eexists _, _. split; [exact Hc|]. cbn [L_vec R_vec]. rewrite !map_length.
  split; [auto|]. split; [auto|]. split; [reflexivity|].
  assert (V : forall P t, no_zk_verify ro tr (mkNoZK (map compress lps) (map compress rps) a0 b0) G H Q (2 ^ d) P t =
    Ok (ipa_check G H Q P t lps rps a0 b0 (ipa_alpha ro tr (2 ^ d))
        (ipa_chals ro tr (2 ^ d) (combine (map compress lps) (map compress rps))),
      ipa_hist tr (2 ^ d) (combine (map compress lps) (map compress rps)) d)).
  { intros P t. rewrite (no_zk_verify_eq _ _ _ _ _ _ _ _ _ lps rps); cbn [L_vec R_vec nz_a nz_b];
    try apply Forall2_decompress_compress; try lia; try (now rewrite Hl). }
  split.
  - intros P t HP. rewrite V. f_equal. f_equal. unfold ipa_check. rewrite HP, Heq. apply peqb_refl.
  - intros P t r Hx HV. rewrite V in HV. injection HV as Hc' _. unfold ipa_check in Hc'.
    apply peqb_eq in Hc'. rewrite Heq in Hc'. symmetry in Hc'. apply foldP_inj in Hc'; auto.
    intros x Hin. apply in_map_iff in Hin as [[q x'] [E Hin]]. cbn in E. subst x'.
    apply in_combine_r in Hin. unfold ipa_chals in Hin. rewrite combine_length, !map_length, Hl, Hr, Nat.min_id in Hin.
    unfold tab in Hin. apply in_map_iff in Hin as (j & <- & Hj). apply in_seq in Hj. apply Hx. lia.
Qed.

Lemma P_alpha_honest alpha G H Q a b : alpha <> s0 ->
  P_alpha alpha (dot a b) (ipa_com G H Q a b) Q = ipa_com G H (sinv alpha *: Q)%P a b.
Proof.
  intros Ha. unfold P_alpha, ipa_com.
  pnorm; try ring. transitivity (dot a b - dot a b * (sinv alpha * alpha) + dot a b * sinv alpha)%S.
  - ring.
  - rewrite sinv_l by auto. ring.
Qed.
End Fold.
