(** C31 (second half), C34, C35, C53-C56: the copy argument. *)
From Coq Require Import String Sorted.
From Verif Require Export CopyFacts Ex.
From Verif Require Import PropIpa Poly PropQesaAttack.
Local Open Scope nat_scope.
Local Open Scope list_scope.

Section CopyComplete.
Context {C : Crypto} {L : CryptoLaws C}.
Add Field SfCC : (@S_field C L).

(** the prover's final vector opens the aggregated commitment *)
Lemma final_opening n K mp G w msgs alpha r0 r1 (rand : Scalar) :
  3 <= n -> length G = n -> good_map n K mp ->
  lin (cp_witness n mp w msgs alpha ++ [r0; (r1 + rand)%S]) G =
  (lin (tab (n - 2) (cp_placed mp w msgs) ++ [r0; r1]) G
   + (psum_over (fun '(x, m) => (spow alpha (S (mcrs m)) * x)%S *: pt G (midx m))%P (combine msgs (msgs_map mp))
      + rand *: pt G (n - 1)))%P.
Proof.
  intros Hn HG HM.
  assert (L1 : forall (l : list Scalar) a b, length l = n - 2 -> length (l ++ [a; b]) = n)
    by (intros; rewrite app_length; cbn; lia).
  rewrite !(lin_sum n) by (try (apply L1; unfold cp_witness; apply tab_length); lia).
  rewrite (sum_P_ext n (fun i => sc (cp_witness _ _ _ _ _ ++ _) i *: _)%P
    (fun i => sc (tab (n - 2) (cp_placed mp w msgs) ++ [r0; r1]) i *: pt G i
       + (cp_added mp msgs alpha i *: pt G i + (if i =? n - 1 then rand else s0) *: pt G i))%P).
  - rewrite !sum_P_add. f_equal. f_equal.
    + unfold cp_added. rewrite (sum_P_ext n _ (fun i => psum_over (fun '(x, m) =>
         ((if midx m =? i then spow alpha (S (mcrs m)) * x else s0)%S *: pt G i)%P) (combine msgs (msgs_map mp)))).
      * rewrite sum_P_over. apply psum_over_ext. intros [x m] Hin. apply combine_In_r in Hin. cbn [snd] in Hin.
        assert (A := gm_idx _ _ _ HM _ Hin). rewrite (sum_P_single' n (midx m)) by (first [lia | intros j _ Hj;
          destruct (Nat.eqb_spec (midx m) j); [congruence|pring]]). now rewrite Nat.eqb_refl.
      * intros i _. rewrite sum_over_pmul. apply psum_over_ext. now intros [x m] _.
    + rewrite (sum_P_single' n (n - 1)) by (first [lia | intros j _ Hj; destruct (Nat.eqb_spec j (n - 1)); [congruence|pring]]).
      now rewrite Nat.eqb_refl.
  - intros i Hi. destruct (Nat.lt_ge_cases i (n - 2)) as [Hi2|Hi2].
    + unfold sc. rewrite !app_nth1 by (unfold cp_witness; rewrite tab_length; lia). unfold cp_witness. rewrite !tab_nth by auto.
      destruct (Nat.eqb_spec i (n - 1)); [lia|]. pring.
    + assert (Z : cp_added mp msgs alpha i = s0).
      { apply sum_over_0. intros [x m] Hin. apply combine_In_r in Hin. cbn [snd] in Hin.
        assert (A1 := gm_idx _ _ _ HM _ Hin). destruct (Nat.eqb_spec (midx m) i); [lia|auto]. }
      rewrite Z. unfold sc. rewrite !app_nth2 by (unfold cp_witness; rewrite tab_length; lia).
      unfold cp_witness. rewrite !tab_length. assert (D : i = n - 2 \/ i = n - 1) by lia. destruct D as [-> | ->].
      * rewrite Nat.sub_diag. cbn [nth]. destruct (Nat.eqb_spec (n - 2) (n - 1)); [lia|]. pring.
      * replace (n - 1 - (n - 2)) with 1 by lia. cbn [nth]. rewrite Nat.eqb_refl. pring.
Qed.

(** entries of the final witness *)
Lemma witness_pos n K mp w msgs alpha x m : good_map n K mp -> length msgs = length (msgs_map mp) ->
  (forall m, In m (msgs_map mp) -> length w <= mpos m) -> In (x, m) (combine msgs (msgs_map mp)) ->
  sc (cp_witness n mp w msgs alpha) (mpos m) = x.
Proof.
  intros HM Hl Hp Hin. assert (Hm := combine_In_r _ _ _ Hin). cbn [snd] in Hm. assert (A := gm_pos _ _ _ HM _ Hm).
  unfold sc, cp_witness. rewrite tab_nth by auto. rewrite (placed_at_pos mp w msgs Hl (gm_nodup _ _ _ HM) Hp x m Hin).
  unfold cp_added. rewrite sum_over_0; [ring|]. intros [y m'] Hin'. apply combine_In_r in Hin'. cbn [snd] in Hin'.
  destruct (Nat.eqb_spec (midx m') (mpos m)) as [E|]; auto. exfalso. apply (gm_disj _ _ _ HM m m'); auto.
Qed.
Lemma witness_idx n K mp w msgs alpha c : good_map n K mp -> length msgs = length (msgs_map mp) ->
  (forall m, In m (msgs_map mp) -> length w <= mpos m) -> length w <= c -> c < n - 2 ->
  (exists m, In m (msgs_map mp) /\ midx m = c) ->
  sc (cp_witness n mp w msgs alpha) c = cp_slot mp alpha (cp_witness n mp w msgs alpha) c.
Proof.
  intros HM Hl Hp Hc1 Hc2 (m0 & Hm0 & Em0). unfold cp_slot. rewrite <- (sum_over_combine _ msgs) by auto.
  unfold sc at 1, cp_witness at 1. rewrite tab_nth by auto.
  assert (EP : cp_placed mp w msgs c = s0).
  { unfold cp_placed. unfold sc. rewrite nth_overflow by auto. rewrite sum_over_0; [ring|].
    intros [x m] Hin. apply combine_In_r in Hin. cbn [snd] in Hin. destruct (Nat.eqb_spec (mpos m) c) as [E|]; auto.
    exfalso. apply (gm_disj _ _ _ HM m m0); auto. congruence. }
  rewrite EP. unfold cp_added. transitivity (sum_over (fun '(x, m) => if midx m =? c then (spow alpha (S (mcrs m)) * x)%S else s0)
     (combine msgs (msgs_map mp))); [ring|].
  apply sum_over_ext. intros [x m] Hin. rewrite (witness_pos n K mp w msgs alpha x m) by auto. reflexivity.
Qed.
End CopyComplete.

(** ** C35 *)
Section C35.
Context {C : Crypto} {L : CryptoLaws C}.
Add Field SfC35 : (@S_field C L).
Theorem C35_copy_equations (n : nat) (ws : N) (sets : list (list N)) mp (alpha : Scalar) alphas Ms :
  3 <= n -> (N.of_nat n < 65536)%N -> (ws < 65536)%N -> (N.of_nat (length sets) <= 65536)%N ->
  (forall s i, In s sets -> In i s -> N.to_nat i < n - 2) ->
  compute_mapping (N.of_nat n) ws sets = Ok mp ->
  vandemonde_challenge alpha (length sets) = Ok alphas ->
  let zeroes := map (fun _ => s0) (seq 0 (n - 2)) in
  exists f,
    (forall c, In c (unique_commitment_indices mp) ->
       create_copy_matrix (n - 2) zeroes (msgs_map mp) alphas c = Ok (f c) /\
       verify_copy_matrix (n - 2) zeroes (msgs_map mp) alphas c = Ok (f c) /\
       rect (n - 2) (n - 2) (f c) /\
       forall w, length w = n - 2 -> sc w 0 = s1 ->
         (quad (f c) w = s0 <-> sc w (N.to_nat c) = cp_slot mp alpha w (N.to_nat c))) /\
    foldM (fun gamma_i ci =>
             matrix <- verify_copy_matrix (n - 2) zeroes (msgs_map mp) alphas ci ;;
             Ok (BlockMatrix_push gamma_i matrix)) (unique_commitment_indices mp) (mkBlockMatrix Ms)
    = Ok (mkBlockMatrix (Ms ++ map f (unique_commitment_indices mp))).
Proof.
  intros Hn Hn16 Hws HK Hidx E EV zeroes.
  destruct (compute_mapping_good n ws sets mp Hn16 Hws E HK Hidx) as (HM & _ & _).
  apply vandemonde_challenge_Ok_inv in EV as [_ ->].
  exists (cp_matrix n mp alpha). split.
  - intros c Hc. assert (Hc' : N.to_nat c < n - 2).
    { apply HM in Hc as (m & Hm & <-). now apply (gm_idx _ _ _ HM). }
    change verify_copy_matrix with create_copy_matrix.
    split; [now apply copy_matrix_eq|]. split; [now apply copy_matrix_eq|]. split; [now apply cp_matrix_rect|].
    intros w Hw H0. rewrite (quad_cp_matrix n (length sets)) by auto. rewrite H0.
    split; intros Hq.
    + symmetry. apply ssub_0. rewrite <- Hq. ring.
    + rewrite Hq. ring.
  - change verify_copy_matrix with create_copy_matrix. now apply (copy_matrices_loop n (length sets)).
Qed.
End C35.

(** ** C34 *)
Section C34.
Context {C : Crypto} {L : CryptoLaws C}.
Add Field SfC34 : (@S_field C L).

Theorem C34_copy_completeness (ro : oracle) rng pos tr (G H : list Point) (Q : Point) mp
    (Ms : list (list (list Scalar))) (w : list Scalar) (sets : list (list N))
    (openings : list (list Scalar * Scalar)) (Cs : list Point) n proof tr' pos' :
  3 <= n -> (N.of_nat n < 65536)%N -> length G = n -> length H = n ->
  (N.of_nat (length sets) <= 65536)%N ->
  compute_mapping (N.of_nat n) (N.of_nat (length w)) sets = Ok mp ->
  (forall s i, In s sets -> In i s -> length w <= N.to_nat i < n - 2) ->
  length openings = length sets -> length Cs = length sets ->
  (forall k, k < length sets ->
     commit G (nth k sets []) (fst (nth k openings ([], s0))) (snd (nth k openings ([], s0))) = Ok (pt Cs k)) ->
  1 <= length w -> length w <= n - 2 -> sc w 0 = s1 -> Forall (rect (n - 2) (n - 2)) Ms ->
  copy_create ro rng pos tr G H Q mp (mkBlockMatrix Ms) w openings = Ok (proof, tr', pos') ->
  let tr1 := cp_hist tr (cp_C_w proof) in
  let alpha := ro tr1 in
  let w' := cp_witness n mp w (concat (map fst openings)) alpha in
  let r' := [rng pos; (rng (pos + 1)%nat + cp_rand openings alpha)%S] in
  let Ms' := cp_system n mp alpha Ms in
  let ip := cp_inner proof in
  let x := q_x ro tr1 ip in
  let a := q_a n w' r' (q_s ro tr1 ip) (q_b ro tr1 ip) in
  let b := q_bv n Ms' x w' r' (q_s ro tr1 ip) (q_b ro tr1 ip) in
  (forall i, i < length Ms -> quad (nth i Ms []) w' = s0) ->
  x <> s0 -> ro (q_alpha_hist ro tr1 ip G H Q Ms') <> s0 ->
  dotp a a <> s0 -> dotp b b <> s0 ->
  (forall r p ob, sample_gram_schmidt rng (pos + 2) b = Ok (r, p) -> orth a r = Ok ob -> dotp ob ob <> s0) ->
  copy_verify ro tr proof G H Q (mkBlockMatrix Ms) mp Cs = Ok (true, tr').
Proof.
  intros Hn Hn16 HG HH HK Emp Hidx HO HCs Hcom Hw1 Hw H0 HF E tr1 alpha w' r' Ms' ip x a b Hsat Hx Hal Haa Hbb Hob.
  destruct (compute_mapping_good n (N.of_nat (length w)) sets mp Hn16 ltac:(lia) Emp HK) as (HM & Hpw & HI).
  { intros s i Hs Hi. apply (Hidx s i Hs Hi). }
  assert (Hpw' : forall m, In m (msgs_map mp) -> length w <= mpos m) by (intros m Hm; specialize (Hpw m Hm); lia).
  set (msgs := concat (map fst openings)) in *.
  assert (Emp' := Emp). apply compute_mapping_inv in Emp' as (_ & HT & Hav & Emp').
  assert (Hms : length msgs = length (msgs_map mp)).
  { rewrite Emp'. cbn [msgs_map]. unfold cm_msgs. rewrite tab_length. apply concat_openings_length; auto.
    intros j Hj. assert (Hj' := Hcom j Hj). apply commit_inv in Hj' as (Hj' & _). auto. }
  assert (HS1 : 1 <= length sets). { destruct sets; [cbn in HT; lia|cbn; lia]. }
  assert (Ew : forall c, In c (unique_commitment_indices mp) -> exists m, In m (msgs_map mp) /\ commitment_index m = c) by apply HM.
  rewrite <- HO in HM.
  rewrite (copy_create_eq ro rng pos tr G H Q mp Ms w openings n) in E; auto; [|rewrite Emp', HO; reflexivity|lia].
  fold msgs in E. set (wp := tab (n - 2) (cp_placed mp w msgs)) in E. set (Cw := lin (wp ++ [rng pos; rng (pos + 1)]) G) in E.
  apply bind_Ok_inv in E as ([[p trx] posx] & EA & E). injection E as <- <- <-.
  cbn [cp_C_w cp_inner] in *. fold tr1 in EA. fold alpha in EA. fold w' in EA. fold r' in EA. fold Ms' in EA.
  subst ip. assert (HM2 := HM). rewrite HO, <- HCs in HM2.
  rewrite (copy_verify_eq ro tr _ G H Q mp Ms Cs n Cw) by (auto; try lia; apply decompress_compress).
  cbn [cp_C_w cp_inner]. fold tr1. fold alpha. fold Ms'.
  assert (Lw' : length w' = n - 2) by apply tab_length.
  assert (HMs' : 1 <= length Ms').
  { unfold Ms', cp_system. rewrite app_length, map_length.
    destruct (unique_commitment_indices mp) as [|c l] eqn:EU; [|cbn; lia].
    exfalso. destruct (msgs_map mp) as [|m ms] eqn:Em.
    { assert (Hl : length (msgs_map mp) = cm_total sets) by (rewrite Emp'; apply tab_length). rewrite Em in Hl. cbn in Hl. lia. }
    assert (Hc : In (commitment_index m) (unique_commitment_indices mp)).
    { apply HM. exists m. split; auto. rewrite Em. now left. }
    rewrite EU in Hc. exact Hc. }
  assert (HF' : Forall (rect (n - 2) (n - 2)) Ms').
  { unfold Ms', cp_system. apply Forall_app. split; auto. apply Forall_forall. intros M HMi.
    apply in_map_iff in HMi as (c & <- & _). now apply cp_matrix_rect. }
  assert (H0' : sc w' 0 = s1).
  { unfold w', sc, cp_witness. rewrite tab_nth by lia. unfold cp_placed, cp_added. fold (sc w 0). rewrite H0.
    rewrite !sum_over_0; [ring| |].
    - intros [y m] Hin. apply combine_In_r in Hin. cbn [snd] in Hin. destruct (HI m Hin) as (s & Hs & Hi).
      destruct (Hidx s _ Hs Hi) as [Hi1 _]. unfold midx. destruct (Nat.eqb_spec (N.to_nat (commitment_index m)) 0); [lia|auto].
    - intros [y m] Hin. apply combine_In_r in Hin. cbn [snd] in Hin. specialize (Hpw' m Hin).
      destruct (Nat.eqb_spec (mpos m) 0); [lia|auto]. }
  assert (Hsat' : forall i, i < length Ms' -> quad (nth i Ms' []) w' = s0).
  { intros i Hi. unfold Ms', cp_system in Hi |- *. rewrite app_length, map_length in Hi.
    destruct (Nat.lt_ge_cases i (length Ms)) as [Hi'|Hi'].
    - rewrite app_nth1 by auto. now apply Hsat.
    - rewrite app_nth2 by auto.
      rewrite (nth_indep _ _ (cp_matrix n mp alpha 0%N)) by (rewrite map_length; lia). rewrite map_nth.
      set (c := nth (i - length Ms) (unique_commitment_indices mp) 0%N).
      assert (Hc : In c (unique_commitment_indices mp)) by (apply nth_In; lia).
      apply HM in Hc as (m & Hm & Em). destruct (HI m Hm) as (s & Hs & Hi2).
      destruct (Hidx s _ Hs Hi2) as [Hi3 Hi4]. rewrite Em in Hi3, Hi4.
      rewrite (quad_cp_matrix n (length openings)) by auto.
      assert (WI := witness_idx n (length openings) mp w msgs alpha (N.to_nat c) HM Hms Hpw' Hi3 Hi4
        (ex_intro _ m (conj Hm (f_equal N.to_nat Em)))). fold w' in WI. rewrite WI. ring. }
  assert (EC : lin (w' ++ r') G = cp_agg alpha Cw Cs).
  { unfold w', r'. rewrite (final_opening n (length openings)) by auto. fold wp. fold Cw. unfold cp_agg. f_equal.
    rewrite HCs, <- (agg_commit G alpha sets openings (pt Cs) (firstn (cm_total sets) (cm_avail (N.of_nat n) (N.of_nat (length w)) sets))) by auto.
    f_equal; [|now rewrite HG]. rewrite Emp'. reflexivity. }
  assert (Ep : c_prime_w p = compress (cp_agg alpha Cw Cs)).
  { assert (CE := inner_create_eq ro rng (pos + 2) tr1 G H Q Ms' w' r' n Hn HG HH Lw' eq_refl HMs' HF').
    cbv zeta in CE. rewrite CE in EA. apply bind_Ok_inv in EA as ([[q trq] posq] & _ & EA). injection EA as <- _ _.
    cbn [c_prime_w]. now rewrite EC. }
  rewrite <- Ep. replace (mkInner (alm_zk p) (c_prime_w p) (c_prime_prime_w p)) with p by (now destruct p).
  eapply (C22_qesa_inner_completeness ro rng (pos + 2) tr1 G H Q Ms' w' r' n); eauto.
Qed.
End C34.

(** ** C53-C55: what a copy proof does not bind *)
Section CopyAttack.
Context {C : Crypto} {L : CryptoLaws C}.
Add Field SfCA : (@S_field C L).

(** the adversary: any point as C_w, any points as commitments, the vector [wf x]
    chosen after both challenges *)
Definition copy_forge (ro : oracle) tr (G H : list Point) (Q : Point) mp (Ms : list (list (list Scalar)))
    (Cw : Point) (Cs : list Point) (wf : Scalar -> Scalar -> list Scalar) : res (Copy * transcript) :=
  let tr1 := cp_hist tr (compress Cw) in
  let alpha := ro tr1 in
  '(ip, tr') <- q_forge ro tr1 G H Q (cp_system (length G) mp alpha Ms) (cp_agg alpha Cw Cs) (wf alpha) ;;
  Ok (mkCopy (compress Cw) ip, tr').

Lemma cp_system_rect n mp alpha Ms : 3 <= n -> Forall (rect (n - 2) (n - 2)) Ms ->
  Forall (rect (n - 2) (n - 2)) (cp_system n mp alpha Ms).
Proof.
  intros Hn HF. unfold cp_system. apply Forall_app. split; auto. apply Forall_forall. intros M HMi.
  apply in_map_iff in HMi as (c & <- & _). now apply cp_matrix_rect.
Qed.

Theorem C53_copy_commitments_not_bound (ro : oracle) tr (G H : list Point) (Q : Point) (ws : N) sets mp Ms
    (Cw : Point) (Cs : list Point) (wf : Scalar -> Scalar -> list Scalar) d :
  let n := 2 ^ d in
  3 <= n -> (N.of_nat n < 65536)%N -> (ws < 65536)%N -> (N.of_nat (length sets) <= 65536)%N ->
  length G = n -> length H = n -> length Cs = length sets ->
  compute_mapping (N.of_nat n) ws sets = Ok mp ->
  (forall s i, In s sets -> In i s -> N.to_nat i < n - 2) ->
  Forall (rect (n - 2) (n - 2)) Ms ->
  let tr1 := cp_hist tr (compress Cw) in
  let alpha := ro tr1 in
  let x := ro (q_hist_x tr1 (compress (cp_agg alpha Cw Cs))) in
  let Ms' := cp_system n mp alpha Ms in
  length (wf alpha x) = n ->
  sum_S (min (length Ms') n) (fun t => spow x (S t) * quad (nth t Ms' []) (firstn (n - 2) (wf alpha x)))%S = s0 ->
  exists pf tr',
    copy_forge ro tr G H Q mp Ms Cw Cs wf = Ok (pf, tr') /\ cp_C_w pf = compress Cw /\
    (ro (q_alpha_hist ro tr1 (cp_inner pf) G H Q Ms') <> s0 ->
     copy_verify ro tr pf G H Q (mkBlockMatrix Ms) mp Cs = Ok (true, tr')).
Proof.
  intros n Hn Hn16 Hws HK HG HH HCs Emp Hidx HF tr1 alpha x Ms' Lv HE.
  destruct (compute_mapping_good n ws sets mp Hn16 Hws Emp HK Hidx) as (HM & _ & _).
  assert (HT : 1 <= length sets /\ 1 <= length (msgs_map mp)).
  { destruct (C29_metadata _ _ sets _ ltac:(lia) Emp) as (_ & EL & _). apply compute_mapping_inv in Emp as (_ & HT & _).
    rewrite EL. split; [|exact HT]. destruct sets; [cbn in HT; lia|cbn; lia]. }
  assert (HMs' : 1 <= length Ms').
  { unfold Ms', cp_system. rewrite app_length, map_length. destruct (msgs_map mp) as [|m ms] eqn:Em; [cbn in HT; lia|].
    assert (Hc : In (commitment_index m) (unique_commitment_indices mp)).
    { apply HM. exists m. split; auto. rewrite Em. now left. }
    destruct (unique_commitment_indices mp); [contradiction|cbn; lia]. }
  destruct (q_forge_ok ro tr1 G H Q Ms' (cp_agg alpha Cw Cs) (wf alpha) d) as (pf & tr' & E & E1 & _ & V); auto.
  { now apply cp_system_rect. }
  exists (mkCopy (compress Cw) pf), tr'. cbn [cp_C_w cp_inner].
  split; [|split; [reflexivity|]].
  - unfold copy_forge. fold tr1. fold alpha. rewrite HG. fold n. fold Ms'. rewrite E. reflexivity.
  - intros Hal. rewrite <- HCs in HM.
    rewrite (copy_verify_eq ro tr _ G H Q mp Ms Cs n Cw) by (auto; try lia; apply decompress_compress).
    cbn [cp_C_w cp_inner]. fold tr1. fold alpha. fold Ms'.
    rewrite <- E1. replace (mkInner (alm_zk pf) (c_prime_w pf) (c_prime_prime_w pf)) with pf by (now destruct pf).
    auto.
Qed.

(** in particular: whatever points are presented as commitments, the prover may use
    any messages [msgs] it likes in the witness *)
Corollary C53_copy_any_messages (ro : oracle) tr (G H : list Point) (Q : Point) sets mp Ms
    (Cw : Point) (Cs : list Point) (w msgs : list Scalar) d :
  let n := 2 ^ d in
  3 <= n -> (N.of_nat n < 65536)%N -> (N.of_nat (length sets) <= 65536)%N ->
  length G = n -> length H = n -> length Cs = length sets ->
  compute_mapping (N.of_nat n) (N.of_nat (length w)) sets = Ok mp ->
  (forall s i, In s sets -> In i s -> length w <= N.to_nat i < n - 2) ->
  length w <= n - 2 -> length msgs = cm_total sets ->
  Forall (rect (n - 2) (n - 2)) Ms ->
  let tr1 := cp_hist tr (compress Cw) in
  let alpha := ro tr1 in
  (forall M, In M Ms -> quad M (cp_witness n mp w msgs alpha) = s0) ->
  exists pf tr', cp_C_w pf = compress Cw /\
    (ro (q_alpha_hist ro tr1 (cp_inner pf) G H Q (cp_system n mp alpha Ms)) <> s0 ->
     copy_verify ro tr pf G H Q (mkBlockMatrix Ms) mp Cs = Ok (true, tr')).
Proof.
  intros n Hn Hn16 HK HG HH HCs Emp Hidx Hw Hms HF tr1 alpha Hsat.
  destruct (compute_mapping_good n (N.of_nat (length w)) sets mp Hn16 ltac:(lia) Emp HK) as (HM & Hpw & HI).
  { intros s i Hs Hi. apply (Hidx s i Hs Hi). }
  assert (HL : length msgs = length (msgs_map mp)).
  { destruct (C29_metadata _ _ sets _ ltac:(lia) Emp) as (_ & EL & _). congruence. }
  set (w' := cp_witness n mp w msgs alpha).
  assert (Lw' : length w' = n - 2) by apply tab_length.
  set (x := ro (q_hist_x tr1 (compress (cp_agg alpha Cw Cs)))).
  destruct (C53_copy_commitments_not_bound ro tr G H Q (N.of_nat (length w)) sets mp Ms Cw Cs (fun _ _ => w' ++ [s0; s0]) d)
    as (pf & tr' & _ & E1 & V); auto.
  - lia.
  - intros s i Hs Hi. apply (Hidx s i Hs Hi).
  - fold n. fold tr1. fold alpha. fold x. cbv beta. rewrite app_length, Lw'. cbn [length]. lia.
  - fold n. fold tr1. fold alpha. fold x. cbv beta. apply sum_S_0. intros t Ht.
    rewrite firstn_app, Lw', Nat.sub_diag. cbn [firstn]. rewrite app_nil_r, firstn_all2 by lia.
    assert (Eq : quad (nth t (cp_system n mp alpha Ms) []) w' = s0).
    { unfold cp_system in *. rewrite app_length, map_length in Ht. destruct (Nat.lt_ge_cases t (length Ms)) as [Hi'|Hi'].
      - rewrite app_nth1 by auto. apply Hsat. now apply nth_In.
      - rewrite app_nth2 by auto.
        rewrite (nth_indep _ _ (cp_matrix n mp alpha 0%N)) by (rewrite map_length; lia). rewrite map_nth.
        set (c := nth (t - length Ms) (unique_commitment_indices mp) 0%N).
        assert (Hc : In c (unique_commitment_indices mp)) by (apply nth_In; lia).
        apply HM in Hc as (m & Hm & Em). destruct (HI m Hm) as (s & Hs & Hi2).
        destruct (Hidx s _ Hs Hi2) as [Hi3 Hi4]. rewrite Em in Hi3, Hi4.
        rewrite (quad_cp_matrix n (length sets)) by auto.
        assert (WI := witness_idx n (length sets) mp w msgs alpha (N.to_nat c) HM HL
          ltac:(intros m' Hm'; specialize (Hpw m' Hm'); lia) Hi3 Hi4
          (ex_intro _ m (conj Hm (f_equal N.to_nat Em)))). fold w' in WI. rewrite WI. ring. }
    rewrite Eq. ring.
  - exists pf, tr'. auto.
Qed.

(** C54: with n or more caller matrices the copy equations are never looked at; the
    verdict does not depend on the mapping *)
Theorem C54_copy_equations_dropped (ro : oracle) tr pf (G H : list Point) (Q : Point) (ws : N) sets mp Ms Cs n Cw :
  3 <= n -> (N.of_nat n < 65536)%N -> (ws < 65536)%N -> (N.of_nat (length sets) <= 65536)%N ->
  length G = n -> length H = n -> length Cs = length sets ->
  compute_mapping (N.of_nat n) ws sets = Ok mp ->
  (forall s i, In s sets -> In i s -> N.to_nat i < n - 2) ->
  decompress (cp_C_w pf) = Some Cw -> n <= length Ms ->
  let tr1 := cp_hist tr (cp_C_w pf) in
  copy_verify ro tr pf G H Q (mkBlockMatrix Ms) mp Cs =
  inner_verify ro tr1
    (mkInner (alm_zk (cp_inner pf)) (compress (cp_agg (ro tr1) Cw Cs)) (c_prime_prime_w (cp_inner pf)))
    G H Q (mkBlockMatrix Ms).
Proof.
  intros Hn Hn16 Hws HK HG HH HCs Emp Hidx HD HMs tr1.
  destruct (compute_mapping_good n ws sets mp Hn16 Hws Emp HK Hidx) as (HM & _ & _).
  assert (HT : 1 <= length sets).
  { apply compute_mapping_inv in Emp as (_ & HT & _). destruct sets; [cbn in HT; lia|cbn; lia]. }
  rewrite <- HCs in HM.
  rewrite (copy_verify_eq ro tr pf G H Q mp Ms Cs n Cw) by (auto; lia). fold tr1. unfold cp_system.
  apply C26_qesa_verify_ignores_equations. lia.
Qed.

(** C55: the commitments are not absorbed before alpha; only their alpha-combination matters *)
Lemma psum_powers alpha (Cs : list Point) :
  psum (map2 (fun a c => a *: c)%P (powers alpha (length Cs)) Cs) = sum_P (length Cs) (fun k => spow alpha (S k) *: pt Cs k)%P.
Proof.
  change (map2 (fun a c => a *: c)%P (powers alpha (length Cs)) Cs) with (map2 pmul (powers alpha (length Cs)) Cs).
  rewrite psum_lin, lin_comb by (now rewrite powers_length). unfold comb. rewrite powers_length. apply sum_P_ext. intros i Hi.
  now rewrite sc_powers.
Qed.
Theorem C55_commitments_not_absorbed (ro : oracle) tr pf (G H : list Point) (Q : Point) gamma mp (Cs Cs' : list Point) :
  length Cs = length Cs' ->
  let alpha := ro (cp_hist tr (cp_C_w pf)) in
  sum_P (length Cs) (fun k => spow alpha (S k) *: pt Cs k)%P = sum_P (length Cs') (fun k => spow alpha (S k) *: pt Cs' k)%P ->
  copy_verify ro tr pf G H Q gamma mp Cs = copy_verify ro tr pf G H Q gamma mp Cs'.
Proof.
  intros HL alpha E. unfold copy_verify, challenge_scalar, append_message. cbv beta iota zeta. rewrite <- app_assoc. cbn [app].
  change (tr ++ [EvMsg "c_w"%string (cp_C_w pf); EvChal "alpha"%string]) with (cp_hist tr (cp_C_w pf)). fold alpha. rewrite <- HL.
  destruct (vandemonde_challenge alpha (length Cs)) as [al| |] eqn:EV; cbn [bind]; [|reflexivity|reflexivity].
  apply vandemonde_challenge_Ok_inv in EV as [_ ->].
  assert (E' := psum_powers alpha Cs'). rewrite <- HL in E'. rewrite <- HL in E.
  rewrite (psum_powers alpha Cs), E', E. reflexivity.
Qed.
(** so from one accepted proof follow accepted proofs for other commitments: shift the
    first two by alpha D and - D *)
Corollary C55_shifted_commitments (ro : oracle) tr pf (G H : list Point) (Q : Point) gamma mp (c1 c2 : Point) Cs (D : Point) :
  let alpha := ro (cp_hist tr (cp_C_w pf)) in
  copy_verify ro tr pf G H Q gamma mp ((c1 + alpha *: D)%P :: (c2 - D)%P :: Cs) =
  copy_verify ro tr pf G H Q gamma mp (c1 :: c2 :: Cs).
Proof.
  intros alpha. apply C55_commitments_not_absorbed; [reflexivity|]. fold alpha. cbn [length]. rewrite !sum_P_shift.
  unfold pt. cbn [nth spow]. pring.
Qed.
End CopyAttack.

(** ** C56 *)
Section C56.
Context {C : Crypto} {L : CryptoLaws C}.
Add Field SfC56 : (@S_field C L).

Lemma sum_S_sub k (f g : nat -> Scalar) : sum_S k (fun i => f i - g i)%S = (sum_S k f - sum_S k g)%S.
Proof. induction k as [|k IH]; cbn [sum_S]; [ring|]. rewrite IH. ring. Qed.
Lemma sum_over_split (K : nat) alpha (g : MessageMap -> Scalar) (p : MessageMap -> bool) l :
  (forall m, In m l -> mcrs m < K) ->
  sum_over (fun m => if p m then (spow alpha (S (mcrs m)) * g m)%S else s0) l =
  sum_S K (fun k => spow alpha (S k) * sum_over (fun m => if p m && (mcrs m =? k) then g m else s0) l)%S.
Proof.
  intros HK. rewrite (sum_S_ext K _ (fun k => sum_over (fun m => spow alpha (S k) * (if p m && (mcrs m =? k) then g m else s0))%S l)).
  2:{ intros k _. now rewrite sum_over_mul. }
  rewrite sum_S_over. apply sum_over_ext. intros m Hm. destruct (p m); cbn [andb].
  - rewrite (sum_S_single _ (mcrs m)); [now rewrite Nat.eqb_refl|auto|].
    intros k _ Hk. destruct (Nat.eqb_spec (mcrs m) k); [congruence|ring].
  - rewrite sum_S_0; auto. intros. ring.
Qed.

Theorem C56_copy_enforces_equality (n : nat) (ws : N) (sets : list (list N)) mp (msgs : list (list Scalar))
    (v : list Scalar) (als : list Scalar) :
  3 <= n -> (N.of_nat n < 65536)%N -> (ws < 65536)%N -> (N.of_nat (length sets) <= 65536)%N ->
  (forall s i, In s sets -> In i s -> 1 <= N.to_nat i < n - 2) -> Forall (@NoDup N) sets ->
  compute_mapping (N.of_nat n) ws sets = Ok mp ->
  length v = n - 2 -> sc v 0 = s1 ->
  NoDup als -> length sets < length als ->
  (forall alpha c, In alpha als -> In c (unique_commitment_indices mp) ->
     exists ch M, vandemonde_challenge alpha (length sets) = Ok ch /\
       verify_copy_matrix (n - 2) (map (fun _ => s0) (seq 0 (n - 2))) (msgs_map mp) ch c = Ok M /\
       quad M (cp_final n sets msgs v alpha) = s0) ->
  (forall k j, k < length sets -> j < length (nth k sets []) ->
     exists m, nth_error (msgs_map mp) (cm_offset sets k + j) = Some m /\
       sc (nth k msgs []) j = sc v (mpos m)) /\
  (forall s i, In s sets -> In i s -> sc v (N.to_nat i) = s0).
Proof.
  intros Hn Hn16 Hws HK Hidx HND Emp Lv H0 HNa Hla Hall.
  destruct (compute_mapping_good n ws sets mp Hn16 Hws Emp HK) as (HM & _ & HI).
  { intros s i Hs Hi. apply (Hidx s i Hs Hi). }
  destruct (C29_metadata _ _ sets _ ltac:(lia) Emp) as (_ & EL & Hmeta & Hsplit & Hun & _).
  set (B := fun c k => sum_over (fun m => if (midx m =? c) && (mcrs m =? k) then sc v (mpos m) else s0) (msgs_map mp)).
  assert (HS1 : 1 <= length sets).
  { apply compute_mapping_inv in Emp as (_ & HT & _). destruct sets; [cbn in HT; lia|cbn; lia]. }
  (* the openings vanish off the index sets *)
  assert (Hop : forall k i, k < length sets -> (forall s, In s sets -> forall j, In j s -> N.to_nat j <> i) -> cp_opened sets msgs k i = s0).
  { intros k i Hk Hi. unfold cp_opened. apply sum_S_0. intros j Hj.
    destruct (Nat.eqb_spec (N.to_nat (nth j (nth k sets []) 0%N)) i) as [E|]; auto. exfalso.
    apply (Hi (nth k sets [])) in E; auto; [now apply nth_In|now apply nth_In]. }
  assert (Heq : forall c, In c (unique_commitment_indices mp) ->
    sc v (N.to_nat c) = s0 /\ forall k, k < length sets -> cp_opened sets msgs k (N.to_nat c) = B (N.to_nat c) k).
  { intros c Hc. assert (Hc2 : N.to_nat c < n - 2).
    { apply Hun in Hc as (s & Hs & Hc). apply (Hidx s c Hs Hc). }
    set (f := fun i => match i with 0 => sc v (N.to_nat c) | S k => (cp_opened sets msgs k (N.to_nat c) - B (N.to_nat c) k)%S end).
    assert (F : forall i, i < S (length sets) -> f i = s0).
    { apply (poly_zero_sum _ _ als); auto. intros alpha Ha. destruct (Hall alpha c Ha Hc) as (ch & M & EV & EM & EQ).
      apply vandemonde_challenge_Ok_inv in EV as [_ ->]. change verify_copy_matrix with create_copy_matrix in EM.
      rewrite (copy_matrix_eq n (length sets)) in EM by auto. injection EM as <-.
      set (W := cp_final n sets msgs v alpha) in *. assert (LW : length W = n - 2) by apply tab_length.
      rewrite (quad_cp_matrix n (length sets)) in EQ by auto.
      assert (EW : forall i, i < n - 2 -> sc W i = (sc v i + sum_S (length sets) (fun k => spow alpha (S k) * cp_opened sets msgs k i))%S).
      { intros i Hi. unfold sc at 1, W, cp_final. now rewrite tab_nth. }
      assert (EW0 : forall i, i < n - 2 -> (forall s, In s sets -> forall j, In j s -> N.to_nat j <> i) -> sc W i = sc v i).
      { intros i Hi Hd. rewrite EW by auto. rewrite sum_S_0; [ring|]. intros k Hk. rewrite Hop by auto. ring. }
      rewrite EW0, H0 in EQ; [|lia|intros s Hs j Hj; specialize (Hidx s j Hs Hj); lia].
      unfold cp_slot in EQ.
      rewrite (sum_over_ext _ (fun m => if midx m =? N.to_nat c then (spow alpha (S (mcrs m)) * sc v (mpos m))%S else s0)) in EQ.
      2:{ intros m Hm. rewrite EW0; auto; [now apply (gm_pos _ _ _ HM)|]. intros s Hs j Hj E.
          assert (Hj' : In j (unique_commitment_indices mp)) by (apply Hun; eauto).
          apply HM in Hj' as (m' & Hm' & Em'). apply (gm_disj _ _ _ HM m m'); auto. unfold midx. congruence. }
      rewrite (sum_over_split (length sets) alpha (fun m => sc v (mpos m)) (fun m => midx m =? N.to_nat c)) in EQ
        by (intros m Hm; now apply (gm_crs _ _ _ HM)).
      rewrite EW in EQ by auto.
      rewrite sum_S_shift. cbn [f spow].
      rewrite (sum_S_ext _ _ (fun k => spow alpha (S k) * cp_opened sets msgs k (N.to_nat c) - spow alpha (S k) * B (N.to_nat c) k)%S)
        by (intros; cbn [spow]; ring).
      rewrite sum_S_sub. fold (B (N.to_nat c)) in EQ.
      match goal with |- ?l = _ => transitivity (- (s1 * (sum_S (length sets) (fun k => spow alpha (S k) * B (N.to_nat c) k) -
         (sc v (N.to_nat c) + sum_S (length sets) (fun k => spow alpha (S k) * cp_opened sets msgs k (N.to_nat c))))))%S end.
      - ring.
      - unfold B in *. rewrite EQ. ring. }
    split; [exact (F 0 ltac:(lia))|]. intros k Hk. apply ssub_0. exact (F (S k) ltac:(lia)). }
  split.
  - intros k j Hk Hj. destruct (Hmeta k j Hk Hj) as (m & Em & Eid & Eci & Ecrs). exists m. split; auto.
    assert (Hm : In m (msgs_map mp)) by (eapply nth_error_In; eauto).
    set (c := nth j (nth k sets []) 0%N) in *.
    assert (Hks : In (nth k sets []) sets) by now apply nth_In.
    assert (Hc : In c (unique_commitment_indices mp)). { apply Hun. exists (nth k sets []). split; auto. now apply nth_In. }
    destruct (Heq c Hc) as [_ Hk2]. specialize (Hk2 k Hk).
    assert (HNk : NoDup (nth k sets [])). { rewrite Forall_forall in HND. auto. }
    assert (E1 : cp_opened sets msgs k (N.to_nat c) = sc (nth k msgs []) j).
    { unfold cp_opened. rewrite (sum_S_single _ j); auto.
      - fold c. now rewrite Nat.eqb_refl.
      - intros j' Hj' Hne. destruct (Nat.eqb_spec (N.to_nat (nth j' (nth k sets []) 0%N)) (N.to_nat c)) as [E|]; auto.
        exfalso. apply Hne. apply N2Nat.inj in E. eapply (proj1 (NoDup_nth _ 0%N)); eauto. }
    assert (E2 : B (N.to_nat c) k = sc v (mpos m)).
    { unfold B. rewrite (sum_over_ext _ (fun m' => if msg_id m' =? msg_id m then sc v (mpos m') else s0)).
      - apply (sum_over_single msg_id (fun m' => sc v (mpos m'))); auto.
        assert (Emp2 := Emp). apply compute_mapping_inv in Emp2 as (_ & _ & _ & ->). cbn [msgs_map].
        unfold cm_msgs, tab. rewrite map_map. cbn [msg_id]. rewrite map_id. apply seq_NoDup.
      - intros m' Hm'. apply In_nth_error in Hm' as (i & Ei).
        assert (Hi : i < length (msgs_map mp)) by (apply nth_error_Some; congruence).
        destruct (Hsplit i Hi) as (k' & j' & Hk' & Hj' & ->).
        destruct (Hmeta k' j' Hk' Hj') as (m2 & Em2 & Eid2 & Eci2 & Ecrs2). rewrite Ei in Em2. injection Em2 as <-.
        rewrite Eid2, Eid. unfold midx, mcrs. rewrite Eci2, Ecrs2, Nat2N.id.
        assert (Q1 : cm_offset sets k' + j' = cm_offset sets k + j <-> (nth j' (nth k' sets []) 0%N = c /\ k' = k)).
        { split.
          - intros E. rewrite E in Ei. rewrite Em in Ei. injection Ei as <-. split; [congruence|]. apply Nat2N.inj. congruence.
          - intros [E ->]. f_equal. eapply (proj1 (NoDup_nth _ 0%N)); eauto. }
        destruct (Nat.eqb_spec (N.to_nat (nth j' (nth k' sets []) 0%N)) (N.to_nat c)) as [A1|A1],
          (Nat.eqb_spec k' k) as [A2|A2], (Nat.eqb_spec (cm_offset sets k' + j') (cm_offset sets k + j)) as [A3|A3]; cbn [andb]; auto.
        + exfalso. apply A3, Q1. split; auto. now apply N2Nat.inj.
        + exfalso. apply A2. tauto.
        + exfalso. apply A1. f_equal. tauto.
        + exfalso. apply A2. tauto. }
    congruence.
  - intros s i Hs Hi. apply Heq. apply Hun. eauto.
Qed.
End C56.

