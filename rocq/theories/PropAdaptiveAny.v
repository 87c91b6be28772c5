(** C102 for every prover: it need not ask for the challenges of its proof, and its lists L and R may
    have different lengths. The prover is followed by the completion of C80, for the statement it has
    chosen. *)
From Verif Require Export PropAdaptive.
From Verif Require Import PropMalleable CopyFacts PropMapping PropCopy PropCopySound.
Local Open Scope nat_scope.
Local Open Scope list_scope.

Section Any.
Context {C : Crypto} {L : CryptoLaws C} (ceq : @encodings_comparable C).
Notation own_run := (own_run ceq).
Notation successes := (successes ceq).

(** the completion for the chosen statement *)
Definition comp_chosen {St X} (enc : St -> list event) (tr : transcript) (comp : St -> transcript -> X -> prover X) (o : St * X) : prover (St * X) :=
  pbind (comp (fst o) (tr ++ enc (fst o)) (snd o)) (fun z => Done (fst o, z)).
Definition finish_chosen {St X} (enc : St -> list event) tr comp (p : prover (St * X)) : prover (St * X) := pbind p (comp_chosen enc tr comp).
Lemma run_comp {St X} (enc : St -> list event) tr (comp : St -> transcript -> X -> prover X) ro o :
  run ro (comp_chosen enc tr comp o) = (fst o, run ro (comp (fst o) (tr ++ enc (fst o)) (snd o))).
Proof. unfold comp_chosen. now rewrite run_pbind. Qed.
Lemma asks_finish {St X} (enc : St -> list event) tr (comp : St -> transcript -> X -> prover X) p T r :
  asks T p -> (forall st tr x, asks r (comp st tr x)) -> asks (T + r) (finish_chosen enc tr comp p).
Proof.
  intros HT HC. apply asks_pbind; auto. intros o. unfold comp_chosen. apply (asks_mono _ (r + 0)); [lia|]. apply asks_pbind; [apply HC|]. intros; exact I.
Qed.
Lemma challenges_finish {St X} (enc : St -> list event) sel tr (V : St -> transcript -> oracle -> X -> res (bool * transcript)) comp p vals D :
  readable enc -> (forall st tr ro x, sel st = true -> covers (V st tr) tr ro (comp st tr x)) ->
  incl (reach vals (finish_chosen enc tr comp p)) D ->
  asks_challenges ceq (on_chosen enc sel tr V) tr (finish_chosen enc tr comp p) vals D.
Proof.
  intros [HQ _] HC HD w tr' Iw E h Hh.
  assert (HA : In h (asked (table ceq D w) (finish_chosen enc tr comp p))).
  { unfold finish_chosen in *. rewrite asked_pbind. apply in_or_app. right. rewrite run_pbind, run_comp in E.
    set (o := run (table ceq D w) p) in *. unfold on_chosen in E. cbn [fst snd] in E. destruct (sel (fst o)) eqn:Es; [|discriminate].
    destruct (HC _ _ _ _ Es _ _ E) as (e & -> & IN). unfold comp_chosen. rewrite asked_pbind. apply in_or_app. left. apply IN.
    now rewrite <- app_assoc, skipn_app_exact, drawn_after in Hh by auto. }
  split; auto. now apply (reach_asked ceq vals D w (finish_chosen enc tr comp p)).
Qed.
Lemma successes_finish {St X} (enc : St -> list event) sel tr (V : St -> transcript -> oracle -> X -> res (bool * transcript)) comp p vals D :
  (forall st tr ro x tr', sel st = true -> V st tr ro x = Ok (true, tr') -> exists tr'', V st tr ro (run ro (comp st tr x)) = Ok (true, tr'')) ->
  successes (on_chosen enc sel tr V) p vals D <= successes (on_chosen enc sel tr V) (finish_chosen enc tr comp p) vals D.
Proof.
  intros HA. apply finish_successes. intros ro o tr' E. rewrite run_comp. unfold on_chosen in *. cbn [fst snd].
  destruct (sel (fst o)) eqn:Es; [|discriminate]. eapply HA; eauto.
Qed.

Theorem C102_nozk_every_prover vals tr (G H : list Point) (Q : Point) d (enc : Point * Scalar -> list event) sel
    (p : prover ((Point * Scalar) * NoZK)) T D :
  let V := fun (st : Point * Scalar) tr ro pf => no_zk_verify ro tr pf G H Q (2 ^ d) (fst st) (snd st) in
  let W := on_chosen enc sel tr V in
  let p' := finish_chosen enc tr (fun _ tr => complete tr d G H Q) p in
  readable enc -> NoDup vals -> length G = 2 ^ d -> length H = 2 ^ d ->
  asks T p -> incl (reach vals p') D ->
  3 * (T + S d) * length vals ^ (length D - 1) < successes W p vals D ->
  exists P t B, sel (P, t) = true /\ good_trees B /\
    all_paths B (fun al path => exists xs, own_run W tr p' vals D (al :: xs) (fun o => fst o = (P, t) /\ path = proof_path (snd o) xs)) /\
    match trees_extract t B with
    | Wit a b c => length a = 2 ^ d /\ length b = 2 ^ d /\ c = t /\
                   P = (comb a G + comb b H + t *: Q)%P /\ dotp a b = t
    | Rel g h q => nontrivial_relation (2 ^ d) G H Q g h q
    end.
Proof.
  intros V W p' HE HN HG HH HT HD HC. apply (C102_nozk ceq vals tr G H Q d enc sel p' (T + S d) D HE HN HG HH).
  - apply asks_finish; auto. intros. apply asks_complete.
  - intros ro. unfold p', finish_chosen. rewrite run_pbind, run_comp. cbn [snd]. apply complete_shape.
  - apply challenges_finish; auto. intros st tr0 ro pf _ b tr' E. rewrite complete_asked. apply C50_ipa_layout in E as (_ & -> & _).
    eexists. split; [reflexivity|]. intros h Hh. exact Hh.
  - eapply Nat.lt_le_trans; [exact HC|]. apply successes_finish. intros st tr0 ro pf tr' _ E.
    apply C80_complete in E as (_ & _ & _ & _ & _ & E & _); eauto.
Qed.

Theorem C102_almzk_every_prover vals tr (G H : list Point) (Q : Point) d (enc : Point * Scalar -> list event) sel
    (p : prover ((Point * Scalar) * AlmZK)) T D :
  let V := fun (st : Point * Scalar) tr ro pf => alm_zk_verify ro tr pf G H Q (2 ^ d) (fst st) (snd st) in
  let W := on_chosen enc sel tr V in
  let p' := finish_chosen enc tr (fun st tr => complete_alm tr d G H Q (fst st) (snd st)) p in
  readable enc -> NoDup vals -> length G = 2 ^ d -> length H = 2 ^ d ->
  asks T p -> incl (reach vals p') D ->
  3 * (T + (2 + d)) * length vals ^ (length D - 1) < successes W p vals D ->
  exists Cw t B, sel (Cw, t) = true /\ good_beta B /\
    beta_paths B (fun cr be al path => exists xs, own_run W tr p' vals D (be :: al :: xs)
                    (fun o => fst o = (Cw, t) /\ C_r (snd o) = cr /\ path = proof_path (az_NoZK (snd o)) xs)) /\
    match beta_extract t B with
    | Wit a b c => length a = 2 ^ d /\ length b = 2 ^ d /\ c = t /\ Cw = (comb a G + comb b H)%P /\ dotp a b = t
    | Rel g h q => nontrivial_relation (2 ^ d) G H Q g h q
    end.
Proof.
  intros V W p' HE HN HG HH HT HD HC. apply (C102_almzk ceq vals tr G H Q d enc sel p' (T + (2 + d)) D HE HN HG HH).
  - apply asks_finish; auto. intros. apply asks_complete_alm.
  - intros ro. unfold p', finish_chosen. rewrite run_pbind, run_comp. cbn [snd]. apply complete_alm_shape.
  - apply challenges_finish; auto. intros st tr0 ro pf _. apply complete_alm_covers.
  - eapply Nat.lt_le_trans; [exact HC|]. apply successes_finish. intros st tr0 ro pf tr' _ E. eapply complete_alm_accepted; eauto.
Qed.

Theorem C102_qesa_every_prover vals tr (G H : list Point) (Q : Point) n d (enc : list (list (list Scalar)) -> list event) sel
    (p : prover (list (list (list Scalar)) * (Inner * (list Scalar * list Scalar)))) T D :
  let V := fun Ms tr ro (o : Inner * (list Scalar * list Scalar)) => inner_verify ro tr (fst o) G H Q (mkBlockMatrix Ms) in
  let W := on_chosen enc sel tr V in
  let p' := finish_chosen enc tr (fun Ms tr => on_fst (complete_inner tr n d G H Q Ms)) p in
  readable enc -> NoDup vals -> n = 2 ^ d -> 3 <= n -> length G = n -> length H = n ->
  (forall Ms, sel Ms = true -> 1 <= length Ms /\ Forall (rect (n - 2) (n - 2)) Ms) ->
  asks T p ->
  (forall ro, let '(pf, (w', u)) := snd (run ro p) in
     length w' = n /\ sc w' 0 = s1 /\ decompress (c_prime_w pf) = Some (comb w' G) /\
     length u = n /\ decompress (c_prime_prime_w pf) = Some (comb u H)) ->
  incl (reach vals p') D ->
  n * (T + (5 + d)) * length vals ^ (length D - 1) < successes W p vals D ->
  exists Ms, sel Ms = true /\
  ((exists x c1 c2 T w' u g h q, x <> s0 /\ good_sb n T /\
     sb_paths T (fun s b cr be al path => exists xs, own_run W tr p' vals D (x :: s :: b :: be :: al :: xs)
       (fun o => fst o = Ms /\ let pf := fst (snd o) in
          c_prime_w pf = c1 /\ c_prime_prime_w pf = c2 /\ C_r (alm_zk pf) = cr /\ path = proof_path (az_NoZK (alm_zk pf)) xs)) /\
     (exists cs, own_run W tr p' vals D cs (fun o => fst o = Ms /\ c_prime_w (fst (snd o)) = c1 /\ fst (snd (snd o)) = w')) /\
     (exists cs, own_run W tr p' vals D cs (fun o => fst o = Ms /\ c_prime_prime_w (fst (snd o)) = c2 /\ snd (snd (snd o)) = u)) /\
     q_compare n Ms x T w' u = Some (g, h, q) /\ nontrivial_relation n G H Q g h q) \/
   (exists cs, own_run W tr p' vals D cs (fun o => fst o = Ms /\
      forall t, t < min (length Ms) n -> quad (nth t Ms []) (firstn (n - 2) (fst (snd (snd o)))) = s0))).
Proof.
  intros V W p' HE HN Hd Hn HG HH HS HT HO HD HC. apply (C102_qesa ceq vals tr G H Q n d enc sel p' (T + (5 + d)) D HE HN Hd Hn HG HH HS).
  - apply asks_finish; auto. intros st tr0 o. apply asks_on_fst. apply asks_complete_inner.
  - intros ro. unfold p', finish_chosen. rewrite run_pbind, run_comp, run_on_fst. cbn [snd]. generalize (HO ro).
    destruct (run ro p) as [Ms [pf [w' u]]]. cbn [fst snd]. unfold qesa_opened.
    destruct (complete_inner_shape ro (tr ++ enc Ms) n d G H Q Ms pf) as (S1 & S2 & S3). rewrite S2, S3. intros Z. split; [exact S1|exact Z].
  - apply challenges_finish; auto. intros Ms tr0 ro o Hs. destruct (HS Ms Hs) as [HM HF].
    apply (covers_on_fst (fun ro pf => inner_verify ro tr0 pf G H Q (mkBlockMatrix Ms)) tr0 ro (complete_inner tr0 n d G H Q Ms) o).
    now apply complete_inner_covers.
  - eapply Nat.lt_le_trans; [exact HC|]. apply successes_finish. intros Ms tr0 ro o tr' Hs E. unfold V. rewrite run_on_fst. cbn [fst].
    destruct (HS Ms Hs) as [HM HF]. eapply complete_inner_accepted; eauto.
Qed.

Theorem C102_copy_every_prover vals tr (G H : list Point) (Q : Point) n d (ws : N) (sets : list (list N)) mp
    (enc : list (list (list Scalar)) * list Point -> list event) sel
    (p : prover ((list (list (list Scalar)) * list Point) * (Copy * (list Scalar * list Scalar)))) T D :
  let V := fun (st : list (list (list Scalar)) * list Point) tr ro (o : Copy * (list Scalar * list Scalar)) =>
             copy_verify ro tr (fst o) G H Q (mkBlockMatrix (fst st)) mp (snd st) in
  let W := on_chosen enc sel tr V in
  let p' := finish_chosen enc tr (fun st tr => on_fst (complete_copy tr n d G H Q (fst st) mp (snd st))) p in
  readable enc -> NoDup vals -> n = 2 ^ d -> 3 <= n -> (N.of_nat n < 65536)%N -> (ws < 65536)%N -> (N.of_nat (length sets) <= 65536)%N ->
  length G = n -> length H = n ->
  (forall s i, In s sets -> In i s -> 1 <= N.to_nat i < n - 2) -> Forall (@NoDup N) sets ->
  compute_mapping (N.of_nat n) ws sets = Ok mp ->
  (forall Ms Cs, sel (Ms, Cs) = true -> Forall (rect (n - 2) (n - 2)) Ms /\ length Ms + length (unique_commitment_indices mp) <= n /\ length Cs = length sets) ->
  asks T p ->
  (forall ro, let '(pf, (w', u)) := snd (run ro p) in
     length w' = n /\ sc w' 0 = s1 /\ decompress (cp_C_w pf) = Some (comb w' G) /\
     length u = n /\ decompress (c_prime_prime_w (cp_inner pf)) = Some (comb u H)) ->
  incl (reach vals p') D ->
  max (2 * length sets) n * (T + (6 + d)) * length vals ^ (length D - 1) < successes W p vals D ->
  exists Ms Cs, sel (Ms, Cs) = true /\
  forall msgs rs, (forall k, k < length sets -> commit G (nth k sets []) (nth k msgs []) (sc rs k) = Ok (pt Cs k)) ->
  (exists a0 x cw c2 T w' u g h q, x <> s0 /\ good_sb n T /\
     sb_paths T (fun s b cr be al path => exists xs, own_run W tr p' vals D (a0 :: x :: s :: b :: be :: al :: xs)
       (fun o => fst o = (Ms, Cs) /\ let pf := fst (snd o) in
          cp_C_w pf = cw /\ c_prime_prime_w (cp_inner pf) = c2 /\ C_r (alm_zk (cp_inner pf)) = cr /\
          path = proof_path (az_NoZK (alm_zk (cp_inner pf))) xs)) /\
     (exists cs, own_run W tr p' vals D cs (fun o => fst o = (Ms, Cs) /\ cp_C_w (fst (snd o)) = cw /\ fst (snd (snd o)) = w')) /\
     (exists cs, own_run W tr p' vals D cs (fun o => fst o = (Ms, Cs) /\ c_prime_prime_w (cp_inner (fst (snd o))) = c2 /\ snd (snd (snd o)) = u)) /\
     q_compare n (cp_system n mp a0 Ms) x T (cp_full n sets msgs rs w' a0) u = Some (g, h, q) /\
     nontrivial_relation n G H Q g h q) \/
  (exists cs, own_run W tr p' vals D cs (fun o => fst o = (Ms, Cs) /\ let w' := fst (snd (snd o)) in
     (forall M, In M Ms -> quad M (firstn (n - 2) w') = s0) /\
     (forall k j, k < length sets -> j < length (nth k sets []) ->
        exists mm, nth_error (msgs_map mp) (cm_offset sets k + j) = Some mm /\
          sc (nth k msgs []) j = sc w' (mpos mm)) /\
     (forall s i, In s sets -> In i s -> sc w' (N.to_nat i) = s0))).
Proof.
  intros V W p' HE HN Hd Hn Hn16 Hws HSt HG HH Hidx HND Emp HS HT HO HD HC.
  destruct (compute_mapping_good n ws sets mp Hn16 Hws Emp HSt) as (HMap & _ & _).
  { intros s i Hs Hi. apply (Hidx s i Hs Hi). }
  assert (HT1 : 1 <= cm_total sets) by (apply compute_mapping_inv in Emp as (_ & HT' & _); exact HT').
  assert (HS1 : 1 <= length sets) by (destruct sets; [cbn in HT1; lia|cbn; lia]).
  assert (HM : 1 <= length (msgs_map mp)).
  { destruct (C29_metadata _ _ sets _ ltac:(lia) Emp) as (_ & Z & _). rewrite Z. lia. }
  apply (C102_copy ceq vals tr G H Q n d ws sets mp enc sel p' (T + (6 + d)) D HE HN Hd Hn Hn16 Hws HSt HG HH Hidx HND Emp HS).
  - apply asks_finish; auto. intros st tr0 o. apply asks_on_fst. apply asks_complete_copy.
  - intros ro. unfold p', finish_chosen. rewrite run_pbind, run_comp, run_on_fst. cbn [snd]. generalize (HO ro).
    destruct (run ro p) as [[Ms Cs] [pf [w' u]]]. cbn [fst snd]. unfold copy_opened.
    destruct (complete_copy_shape ro (tr ++ enc (Ms, Cs)) n d G H Q Ms mp Cs pf) as (S1 & S2 & S3). rewrite S2, S3. intros Z. split; [exact S1|exact Z].
  - apply challenges_finish; auto. intros [Ms Cs] tr0 ro o Hs. destruct (HS Ms Cs Hs) as (HF & Hm & LC). cbn [fst snd].
    apply (covers_on_fst (fun ro pf => copy_verify ro tr0 pf G H Q (mkBlockMatrix Ms) mp Cs) tr0 ro (complete_copy tr0 n d G H Q Ms mp Cs) o).
    apply complete_copy_covers; auto; try (rewrite LC; auto); lia.
  - eapply Nat.lt_le_trans; [exact HC|]. apply successes_finish. intros [Ms Cs] tr0 ro o tr' Hs E. unfold V in *. cbn [fst snd] in *. rewrite run_on_fst. cbn [fst].
    destruct (HS Ms Cs Hs) as (HF & Hm & LC). eapply complete_copy_accepted; eauto; try (rewrite LC; auto); lia.
Qed.
End Any.

(** the prover of C102_case_nozk without its query: five tables out of five, bound 3 (0 + 1) = 3 *)
Definition quiet102 : @prover FS ((@Point FS * @Scalar FS) * @NoZK FS) := Done (stP102, mkNoZK [] [] (fN 3) (fN 6)).
Example C102_case_every :
  let W := on_chosen encP102 (fun _ => true) [] VP102 in
  let p' := finish_chosen encP102 [] (fun _ tr => complete tr 0 [qN 5] [qN 2] (qN 17)) quiet102 in
  let D := [ipa_start (encP102 stP102) 1] in
  asked (fun _ => fN 2) p' = D /\ successes fs_ceq W quiet102 (v75 5) D = 5 /\
  exists P t B, good_trees B /\
    all_paths B (fun al path => exists xs, own_run fs_ceq W [] p' (v75 5) D (al :: xs) (fun o => fst o = (P, t) /\ path = proof_path (snd o) xs)) /\
    match trees_extract t B with
    | Wit a b c => length a = 1 /\ P = (comb a [qN 5] + comb b [qN 2] + t *: qN 17)%P /\ dotp a b = t
    | Rel g h q => nontrivial_relation 1 [qN 5] [qN 2] (qN 17) g h q
    end.
Proof.
  cbv zeta. split; [reflexivity|].
  assert (Z : successes fs_ceq (on_chosen encP102 (fun _ => true) [] VP102) quiet102 (v75 5) [ipa_start (encP102 stP102) 1] = 5) by (vm_compute; reflexivity).
  split; [exact Z|].
  destruct (@C102_nozk_every_prover FS FS_laws fs_ceq (v75 5) [] [qN 5] [qN 2] (qN 17) 0 encP102 (fun _ => true) quiet102 0 [ipa_start (encP102 stP102) 1])
    as (P & t & B & _ & GB & PB & E); auto.
  - apply (@C102_readable FS FS_laws (qN 1)). intros E. apply (f_equal zq) in E. vm_compute in E. discriminate.
  - apply v79_NoDup. cbn; auto.
  - exact I.
  - intros h Hh. cbn in Hh. decompose [or] Hh; subst; try contradiction; left; reflexivity.
  - change (3 * 1 * 1 < successes fs_ceq (on_chosen encP102 (fun _ => true) [] VP102) quiet102 (v75 5) [ipa_start (encP102 stP102) 1]). rewrite Z. lia.
  - exists P, t, B. split; [exact GB|]. split; [exact PB|]. destruct (trees_extract _ B) as [a b c|g h q]; [|exact E].
    destruct E as (E1 & _ & _ & E2 & E3). auto.
Qed.
