(** C90: knowledge extractors for the arguments as they are used, with challenges computed by
    hashing. The prover may query the hash function T times. The extractor runs it with a table of
    answers and, if the proof is accepted, again with other answers at the challenges of its
    proofs; from the proofs it gets it computes a witness or a relation between the generators.
    Counted over all tables: with branching K it makes at most K + T (K - 1) runs on average, and
    it succeeds for all tables for which the prover succeeds but a fraction s T / q. *)
From Coq Require Import String.
From Verif Require Export FsExtract PropExtract.
From Verif Require Import PropMalleable Poly KaryFacts CopyFacts PropMapping PropCopy PropCopySound Ex ExSmall.
Local Open Scope string_scope.
Local Open Scope nat_scope.
Local Open Scope list_scope.

Section C90.
Context {C : Crypto} {L : CryptoLaws C} (ceq : @encodings_comparable C).
Notation word := (list Scalar).
Notation table := (table ceq).

Lemma fs_counts {X Y} V tr (p : prover X) vals D ks k d T (f : word -> ttree Scalar -> Y) s K :
  NoDup vals -> asks T p -> Forall (fun k => 1 <= k) ks -> follows V tr ->
  (forall w tr' e, V (table D w) (run (table D w) p) = Ok (true, tr') -> tr' = tr ++ e -> length (drawn tr e) = length ks + d) ->
  asks_challenges ceq V tr p vals D ->
  slack ks + k * d <= s -> prodn ks * (S k) ^ d <= K ->
  let E := fun w => after (f w) (fs_rewind ceq V tr p vals D (ks ++ repeat (S k) d) w) in
  let q := length vals in let N := length D in
  successes ceq V p vals D <= count (fun w => found (E w)) (words vals N) + s * T * q ^ (N - 1) /\
  total (fun w => snd (E w)) (words vals N) <= (K + T * (K - 1)) * q ^ N.
Proof.
  intros HN HT HF HV HD HA Hs HK E q N.
  assert (HF' : Forall (fun k => 1 <= k) (ks ++ repeat (S k) d)).
  { apply Forall_app. split; auto. apply Forall_forall. intros j Hj. apply repeat_spec in Hj. lia. }
  assert (HD' : forall w tr' e, V (table D w) (run (table D w) p) = Ok (true, tr') -> tr' = tr ++ e ->
            length (drawn tr e) = length (ks ++ repeat (S k) d)).
  { intros w tr' e E1 E2. rewrite app_length, repeat_length. eapply HD; eauto. }
  split.
  - etransitivity; [apply (fs_rewind_often ceq V tr p vals D (ks ++ repeat (S k) d) T); auto|].
    apply Nat.add_le_mono; [apply Nat.eq_le_incl, count_ext; intros w _; unfold E; now rewrite after_found|].
    rewrite slack_repeat. now apply Nat.mul_le_mono_r, Nat.mul_le_mono_r.
  - etransitivity; [apply (fs_rewind_runs ceq V tr p vals D (ks ++ repeat (S k) d) T); auto|].
    rewrite prodn_repeat. apply Nat.mul_le_mono_r. apply Nat.add_le_mono; [auto|]. apply Nat.mul_le_mono_l. lia.
Qed.
Lemma fs_tree {X} V tr (p : prover X) vals D ks k d w t :
  NoDup vals -> Forall (fun k => 1 <= k) ks -> follows V tr ->
  (forall w tr' e, V (table D w) (run (table D w) p) = Ok (true, tr') -> tr' = tr ++ e -> length (drawn tr e) = length ks + d) ->
  asks_challenges ceq V tr p vals D ->
  In w (words vals (length D)) -> fst (fs_rewind ceq V tr p vals D (ks ++ repeat (S k) d) w) = Some t ->
  wgood vals (ks ++ repeat (S k) d) (fun u => is_some (leaf_tab t u)) (erase t) /\
  tree_runs ceq V tr p vals D (node_hist D t) (leaf_tab t) /\
  (1 <= length ks -> exists e, V (table D w) (run (table D w) p) = Ok (true, tr ++ e) /\ nth_error (drawn tr e) 0 = Some (node_hist D t [])).
Proof.
  intros HN HF HV HD HA Hw Ht.
  assert (HF' : Forall (fun k => 1 <= k) (ks ++ repeat (S k) d)).
  { apply Forall_app. split; auto. apply Forall_forall. intros j Hj. apply repeat_spec in Hj. lia. }
  assert (HD' : forall w tr' e, V (table D w) (run (table D w) p) = Ok (true, tr') -> tr' = tr ++ e ->
            length (drawn tr e) = length (ks ++ repeat (S k) d)).
  { intros w0 tr' e E1 E2. rewrite app_length, repeat_length. eapply HD; eauto. }
  destruct (fs_rewind_tree ceq V tr p vals D (ks ++ repeat (S k) d) HN HF' HV HD' HA w t Hw Ht) as [G1 G2].
  split; [exact G1|]. split; [exact G2|]. intros HL. destruct ks as [|k0 ks0]; [cbn in HL; lia|].
  eapply (fs_rewind_root ceq V tr p vals D ((k0 :: ks0) ++ repeat (S k) d)); eauto; reflexivity.
Qed.

(** the proof at a leaf *)
Lemma some_leaf_ok (vals : word) ks : Forall (fun k => 1 <= k) ks -> forall t,
  wgood vals ks (fun u => is_some (leaf_tab t u)) (erase t) ->
  exists u w, length u = length ks /\ some_leaf t = Some w /\ leaf_tab t u = Some w.
Proof.
  unfold leaf_tab. induction 1 as [|k ks Hk HF IH]; intros t; cbn [wgood].
  - destruct t as [w|i q]; cbn; [|discriminate]. intros _. exists [], w. auto.
  - destruct t as [w|i q]; cbn [erase].
    + intros (HL & _). cbn in HL. lia.
    + destruct q as [|[v t1] q]; [intros (HL & _); cbn in HL; lia|]. intros (_ & _ & _ & HV).
      destruct (IH t1) as (u & w & U1 & U2 & U3).
      { assert (X := HV v (erase t1) (or_introl eq_refl)). revert X. apply wgood_ext. intros u. cbn [leaf_at tpick].
        now rewrite (proj2 (seqb_eq v v) eq_refl). }
      exists (v :: u), w. cbn [length some_leaf leaf_at tpick]. rewrite (proj2 (seqb_eq v v) eq_refl). auto.
Qed.
Lemma kid_under (t : ttree Scalar) q x T : erase t = WNode q -> NoDup (map fst q) -> In (x, T) q ->
  exists t1, erase t1 = T /\ (forall u, leaf_tab t (x :: u) = leaf_tab t1 u) /\ (forall u, below t (x :: u) = below t1 u).
Proof.
  destruct t as [w|i q']; cbn [erase]; [injection 1 as <-; intros _ []|]. injection 1 as <-. rewrite map_map. intros ND HI.
  apply in_map_iff in HI as ([v t1] & E & HI). injection E as -> <-.
  assert (E : tpick seqb x q' = Some t1).
  { apply (tpick_In seqb seqb_eq); auto. erewrite map_ext; [exact ND|]. now intros [v t]. }
  exists t1. split; [auto|]. unfold leaf_tab, below. cbn [leaf_at under]. rewrite E. auto.
Qed.
Lemma below_leaf (vals : word) ks k t q x T : Forall (fun k => 1 <= k) ks ->
  wgood vals (k :: ks) (fun u => is_some (leaf_tab t u)) (erase t) -> erase t = WNode q -> In (x, T) q ->
  exists u w, length u = length ks /\ below t [x] = Some w /\ leaf_tab t (x :: u) = Some w.
Proof.
  intros HF HG Eq HI. rewrite Eq in HG. destruct HG as (_ & ND & _ & HV).
  destruct (kid_under t q x T Eq ND HI) as (t1 & E1 & E2 & E3).
  destruct (some_leaf_ok vals ks HF t1) as (u & w & U1 & U2 & U3).
  { assert (X := HV x T HI). rewrite E1. revert X. apply wgood_ext. intros u. now rewrite E2. }
  exists u, w. split; [auto|]. rewrite E2, E3. auto.
Qed.

(** ** inner product argument *)
Definition nozk_fs_extractor vals tr G H Q d P t (p : prover NoZK) D (w : word) : option extracted * nat :=
  after (fun S => trees_extract t (w_alpha (fun u => lastLR (node_hist D S u)) (leaf_fin ceq (fun pf => pf) p D (leaf_tab S)) d [] (erase S)))
    (fs_rewind ceq (fun ro pf => no_zk_verify ro tr pf G H Q (2 ^ d) P t) tr p vals D (3 :: repeat 4 d) w).
Theorem C90_nozk_extractor vals tr (G H : list Point) (Q P : Point) (t : Scalar) d (p : prover NoZK) T D :
  let V := fun ro pf => no_zk_verify ro tr pf G H Q (2 ^ d) P t in
  let E := nozk_fs_extractor vals tr G H Q d P t p D in
  let q := length vals in let N := length D in let K := 3 * 4 ^ d in
  NoDup vals -> length G = 2 ^ d -> length H = 2 ^ d ->
  asks T p -> (forall ro, length (R_vec (run ro p)) = length (L_vec (run ro p))) ->
  asks_challenges ceq V tr p vals D ->
  (forall w e, In w (words vals N) -> fst (E w) = Some e ->
     match e with
     | Wit a b c => length a = 2 ^ d /\ length b = 2 ^ d /\ c = t /\
                    P = (comb a G + comb b H + t *: Q)%P /\ dotp a b = t
     | Rel g h q => nontrivial_relation (2 ^ d) G H Q g h q
     end) /\
  successes ceq V p vals D <= count (fun w => found (E w)) (words vals N) + (2 + 3 * d) * T * q ^ (N - 1) /\
  total (fun w => snd (E w)) (words vals N) <= (K + T * (K - 1)) * q ^ N.
Proof.
  intros V E q N K HN HG HH HT HR HA.
  assert (HF : follows V tr) by apply nozk_follows.
  assert (HD : forall w tr' e, V (table D w) (run (table D w) p) = Ok (true, tr') -> tr' = tr ++ e -> length (drawn tr e) = length [3] + d).
  { intros w tr' e E1 ->. unfold V in E1. apply C50_ipa_layout in E1 as (En & Ee & _). apply app_inv_head in Ee. subst e.
    rewrite drawn_lay_ipa by auto. cbn [length]. cbn [Nat.add]. f_equal. symmetry. eapply Nat.pow_inj_r; [|exact En]; lia. }
  split.
  - intros w e Hw He. apply after_Some in He as (S & HS & ->).
    destruct (fs_tree V tr p vals D [3] 3 d w S) as (GT & HL & _); auto.
    set (msg := fun u => lastLR (node_hist D S u)). set (fin := leaf_fin ceq (fun pf => pf) p D (leaf_tab S)).
    assert (KEY := nozk_key ceq vals tr G H Q P t d p D (node_hist D S) (leaf_tab S) HR HL). cbv zeta in KEY. fold msg fin in KEY.
    destruct (w_alpha_good msg fin vals d [] _ (erase S) GT) as ((N1 & N2 & N3 & D1 & D2) & P1 & P2).
    unfold trees_extract. apply (C16_nozk_special_soundness tr); auto.
    + intros pa Hp. apply P1 in Hp as (u & _ & Y & ->). apply nozk_yes_along; auto. now apply KEY.
    + intros pa Hp. apply P2 in Hp as (u & _ & Y & ->). apply nozk_yes_along; auto. now apply KEY.
  - apply (fs_counts V tr p vals D [3] 3 d T
      (fun _ S => trees_extract t (w_alpha (fun u => lastLR (node_hist D S u)) (leaf_fin ceq (fun pf => pf) p D (leaf_tab S)) d [] (erase S)))
      (2 + 3 * d) K); auto; unfold K; cbn; lia.
Qed.

(** ** almost-zk argument *)
Definition almzk_fs_extractor vals tr G H Q d Cw t (p : prover AlmZK) D (w : word) : option extracted * nat :=
  after (fun S => beta_extract t (w_beta (fun u => lastLR (node_hist D S u)) (leaf_fin ceq az_NoZK p D (leaf_tab S)) d []
                                    (lastmsg (node_hist D S [])) (erase S)))
    (fs_rewind ceq (fun ro pf => alm_zk_verify ro tr pf G H Q (2 ^ d) Cw t) tr p vals D (3 :: 3 :: repeat 4 d) w).
Theorem C90_almzk_extractor vals tr (G H : list Point) (Q Cw : Point) (t : Scalar) d (p : prover AlmZK) T D :
  let V := fun ro pf => alm_zk_verify ro tr pf G H Q (2 ^ d) Cw t in
  let E := almzk_fs_extractor vals tr G H Q d Cw t p D in
  let q := length vals in let N := length D in let K := 9 * 4 ^ d in
  NoDup vals -> length G = 2 ^ d -> length H = 2 ^ d ->
  asks T p -> (forall ro, length (R_vec (az_NoZK (run ro p))) = length (L_vec (az_NoZK (run ro p)))) ->
  asks_challenges ceq V tr p vals D ->
  (forall w e, In w (words vals N) -> fst (E w) = Some e ->
     match e with
     | Wit a b c => length a = 2 ^ d /\ length b = 2 ^ d /\ c = t /\ Cw = (comb a G + comb b H)%P /\ dotp a b = t
     | Rel g h q => nontrivial_relation (2 ^ d) G H Q g h q
     end) /\
  successes ceq V p vals D <= count (fun w => found (E w)) (words vals N) + (4 + 3 * d) * T * q ^ (N - 1) /\
  total (fun w => snd (E w)) (words vals N) <= (K + T * (K - 1)) * q ^ N.
Proof.
  intros V E q N K HN HG HH HT HR HA.
  assert (HF : follows V tr) by (intros ro pf tr' E1; apply C50_almzk_layout in E1 as (P & -> & HF); eauto).
  assert (HD : forall w tr' e, V (table D w) (run (table D w) p) = Ok (true, tr') -> tr' = tr ++ e -> length (drawn tr e) = length [3; 3] + d).
  { intros w tr' e E1 ->. assert (E0 := E1). unfold V in E1. apply C50_almzk_layout in E1 as (P & Ee & _). apply app_inv_head in Ee. subst e.
    assert (HV : verdict (alm_zk_verify (table D w) tr (run (table D w) p) G H Q (2 ^ d) Cw t)) by (eexists; eauto).
    apply C58_almzk_verdict_sized in HV as (_ & _ & _ & En); auto.
    unfold lay_alm. cbn [app drawn length]. rewrite drawn_lay_ipa by auto. cbn [Nat.add].
    do 2 f_equal. symmetry. eapply Nat.pow_inj_r; [|exact En]; lia. }
  split.
  - intros w e Hw He. apply after_Some in He as (S & HS & ->).
    destruct (fs_tree V tr p vals D [3; 3] 3 d w S) as (GT & HL & _); auto.
    set (msg := fun u => lastLR (node_hist D S u)). set (fin := leaf_fin ceq az_NoZK p D (leaf_tab S)).
    set (cr := lastmsg (node_hist D S [])).
    assert (KEY := almzk_key ceq vals tr G H Q Cw t d p D (node_hist D S) (leaf_tab S) HR HL). cbv zeta in KEY. fold msg fin cr in KEY.
    destruct (w_beta_good msg fin vals d [] _ cr (erase S) GT) as ((D1 & D2 & D3 & G1 & G2 & G3) & PB).
    unfold beta_extract. set (B := w_beta msg fin d [] cr (erase S)) in *.
    assert (K0 : beta_paths B (fun _ be al pa => alm_accepts_along tr G H Q (2 ^ d) Cw t cr be al pa)).
    { revert PB. apply beta_paths_impl. intros c be al pa (_ & u & _ & Y & ->). apply almzk_yes_along; auto. now apply KEY. }
    destruct K0 as (K1 & K2 & K3).
    now apply (C20_almzk_special_soundness tr G H Q Cw t (2 ^ d) cr).
  - apply (fs_counts V tr p vals D [3; 3] 3 d T
      (fun _ S => beta_extract t (w_beta (fun u => lastLR (node_hist D S u)) (leaf_fin ceq az_NoZK p D (leaf_tab S)) d []
                                    (lastmsg (node_hist D S [])) (erase S)))
      (4 + 3 * d) K); auto; unfold K; cbn; lia.
Qed.

(** ** linear-map arguments: the extractor always finds a preimage for the first row *)
Definition lmpa_fs_extractor vals tr A G H Q d t (p : prover LmpaNoZK) D (w : word) : option word * nat :=
  after (fun S => lm_extract (w_lm (fun u => lastLM tr (node_hist D S u)) (leaf_w ceq lm_w p D (leaf_tab S)) d [] (erase S)))
    (fs_rewind ceq (fun ro pf => lmpa_verify ro tr pf A G H Q (2 ^ d) t) tr p vals D (repeat 3 d) w).
Theorem C90_lmpa_extractor vals tr d m (A : list (list Point)) (G H : list Point) (Q : Point) t (p : prover LmpaNoZK) T D :
  let V := fun ro pf => lmpa_verify ro tr pf A G H Q (2 ^ d) t in
  let E := lmpa_fs_extractor vals tr A G H Q d t p D in
  let q := length vals in let N := length D in let K := 3 ^ d in
  NoDup vals -> 1 <= m -> rect m (2 ^ d) A ->
  asks T p -> asks_challenges ceq V tr p vals D ->
  (forall w x, In w (words vals N) -> fst (E w) = Some x -> length x = 2 ^ d /\ comb x (nth 0 A []) = pt t 0) /\
  successes ceq V p vals D <= count (fun w => found (E w)) (words vals N) + 2 * d * T * q ^ (N - 1) /\
  total (fun w => snd (E w)) (words vals N) <= (K + T * (K - 1)) * q ^ N.
Proof.
  intros V E q N K HN Hm HA0 HT HA.
  assert (HF : follows V tr) by (intros ro pf tr' E1; apply C50_lmpa_layout in E1 as (_ & _ & _ & -> & HF'); eauto).
  assert (HD : forall w tr' e, V (table D w) (run (table D w) p) = Ok (true, tr') -> tr' = tr ++ e -> length (drawn tr e) = length (@nil nat) + d).
  { intros w tr' e E1 ->. unfold V in E1. apply C50_lmpa_layout in E1 as (_ & L1 & L2 & Ee & _). apply app_inv_head in Ee. subst e.
    rewrite lay_lmpa_length by auto. cbn [length Nat.add]. now rewrite Nat.log2_pow2 by lia. }
  split.
  - intros w x Hw He. apply after_Some in He as (S & HS & ->).
    destruct (fs_tree V tr p vals D [] 2 d w S) as (GT & HL & _); auto.
    set (msg := fun u => lastLM tr (node_hist D S u)). set (out := leaf_w ceq lm_w p D (leaf_tab S)).
    assert (KEY := lmpa_key ceq vals tr d A G H Q t p D (node_hist D S) (leaf_tab S) HL). cbv zeta in KEY. fold msg out in KEY.
    destruct (w_lm_good msg out vals d [] _ (erase S) GT) as [GS PS].
    apply (C37_lmpa_soundness_row0 tr d m A G H Q); auto. intros pa Hq. destruct (PS pa Hq) as (xs & Lw & Hu & ->).
    apply KEY in Hu as [Y _]. unfold lmpa_yes in Y. apply yes_Ok in Y as [tr' Y]. rewrite !map_map in Y.
    exists (coins tr xs), tr'. split; [exact Y|]. eapply lm_coins; [symmetry; apply Nat.add_0_r|reflexivity].
  - apply (fs_counts V tr p vals D [] 2 d T
      (fun _ S => lm_extract (w_lm (fun u => lastLM tr (node_hist D S u)) (leaf_w ceq lm_w p D (leaf_tab S)) d [] (erase S)))
      (2 * d) K); auto; unfold K; cbn; lia.
Qed.

Definition simplezk_fs_extractor vals tr A G H Q d t (p : prover SimpleZK) D (w : word) : option word * nat :=
  after (fun S => let f := w_lm (fun u => lastLM tr (node_hist D S u)) (leaf_w ceq (fun pf => lm_w (sz_no_zk pf)) p D (leaf_tab S)) d in
           match erase S with
           | WNode [(b1, t1); (b2, t2)] => sz_extract b1 (f [b1] t1) b2 (f [b2] t2)
           | _ => [] end)
    (fs_rewind ceq (fun ro pf => simple_zk_verify ro tr pf A G H Q (2 ^ d) t) tr p vals D (2 :: repeat 3 d) w).
Theorem C90_simplezk_extractor vals tr d m (A : list (list Point)) (G H : list Point) (Q : Point) t (p : prover SimpleZK) T D :
  let V := fun ro pf => simple_zk_verify ro tr pf A G H Q (2 ^ d) t in
  let E := simplezk_fs_extractor vals tr A G H Q d t p D in
  let q := length vals in let N := length D in let K := 2 * 3 ^ d in
  NoDup vals -> 1 <= m -> rect m (2 ^ d) A ->
  asks T p -> asks_challenges ceq V tr p vals D ->
  (forall w x, In w (words vals N) -> fst (E w) = Some x -> length x = 2 ^ d /\ comb x (nth 0 A []) = pt t 0) /\
  successes ceq V p vals D <= count (fun w => found (E w)) (words vals N) + (1 + 2 * d) * T * q ^ (N - 1) /\
  total (fun w => snd (E w)) (words vals N) <= (K + T * (K - 1)) * q ^ N.
Proof.
  intros V E q N K HN Hm HA0 HT HA.
  assert (HF : follows V tr) by (intros ro pf tr' E1; apply C50_simplezk_layout in E1 as (_ & _ & _ & -> & HF'); eauto).
  assert (HD : forall w tr' e, V (table D w) (run (table D w) p) = Ok (true, tr') -> tr' = tr ++ e -> length (drawn tr e) = length [2] + d).
  { intros w tr' e E1 ->. unfold V in E1. apply C50_simplezk_layout in E1 as (_ & L1 & L2 & Ee & _). apply app_inv_head in Ee. subst e.
    unfold lay_simple. rewrite drawn_app, drawn_msgs. cbn [app drawn length]. rewrite lay_lmpa_length by auto.
    now rewrite Nat.log2_pow2 by lia. }
  split.
  - intros w x Hw He. apply after_Some in He as (S & HS & ->).
    destruct (fs_tree V tr p vals D [2] 2 d w S) as (GT & HL & _); auto.
    set (msg := fun u => lastLM tr (node_hist D S u)). set (out := leaf_w ceq (fun pf => lm_w (sz_no_zk pf)) p D (leaf_tab S)).
    set (a := lasta tr (node_hist D S [])).
    assert (KEY := simplezk_key ceq vals tr d A G H Q t p D (node_hist D S) (leaf_tab S) HL). cbv zeta in KEY. fold msg out a in KEY.
    cbn zeta. fold msg out. destruct (erase S) as [kids].
    destruct GT as (KL & KN & _ & KV). destruct kids as [|[b1 t1] [|[b2 t2] [|? ?]]]; try discriminate.
    destruct (w_lm_good msg out vals d [b1] _ t1 (KV b1 t1 (or_introl eq_refl))) as [G1 P1].
    destruct (w_lm_good msg out vals d [b2] _ t2 (KV b2 t2 (or_intror (or_introl eq_refl)))) as [G2 P2].
    assert (Hb : b1 <> b2). { inversion KN as [|? ? N1 _]; subst. intros ->. apply N1. now left. }
    assert (K0 : forall b u, simplezk_yes tr A G H Q (2 ^ d) t a msg out (b :: u) = true ->
               sz_accepts_along tr A G H Q (2 ^ d) t a b (st_lm msg out [b] u)).
    { intros b u Y. unfold simplezk_yes in Y. apply yes_Ok in Y as [tr' Y]. rewrite !map_map in Y.
      exists (coins tr (b :: u)), tr'. split; [exact Y|].
      assert (N1 : nchal (sz_hist tr a) = nchal tr + 1) by (unfold sz_hist; rewrite !nchal_app, nchal_msgs; reflexivity).
      split; [now apply (coins_is 0)|]. eapply lm_coins; [exact N1|reflexivity]. }
    apply (C42_simple_zk_soundness_row0 tr d m A G H Q t a); auto.
    + intros pa Hp. destruct (P1 pa Hp) as (u & _ & Y & ->). apply K0. now apply KEY.
    + intros pa Hp. destruct (P2 pa Hp) as (u & _ & Y & ->). apply K0. now apply KEY.
  - apply (fs_counts V tr p vals D [2] 2 d T
      (fun _ S => let f := w_lm (fun u => lastLM tr (node_hist D S u)) (leaf_w ceq (fun pf => lm_w (sz_no_zk pf)) p D (leaf_tab S)) d in
           match erase S with
           | WNode [(b1, t1); (b2, t2)] => sz_extract b1 (f [b1] t1) b2 (f [b2] t2)
           | _ => [] end)
      (1 + 2 * d) K); auto; unfold K; cbn; lia.
Qed.
(** ** QESA *)
Lemma qesa_draws {X} (pr : X -> Inner) tr (G H : list Point) (Q : Point) n d Ms (p : prover X) D (k0 : nat) :
  n = 2 ^ d -> 3 <= n -> length G = n -> length H = n -> 1 <= length Ms -> Forall (rect (n - 2) (n - 2)) Ms ->
  (forall ro, length (R_vec (az_NoZK (alm_zk (pr (run ro p))))) = length (L_vec (az_NoZK (alm_zk (pr (run ro p)))))) ->
  forall w tr' e, inner_verify (table D w) tr (pr (run (table D w) p)) G H Q (mkBlockMatrix Ms) = Ok (true, tr') -> tr' = tr ++ e ->
    length (drawn tr e) = length [k0; n - 1; 3; 3; 3] + d.
Proof.
  intros Hd Hn HG HH HM HF HR w tr' e E ->. assert (E0 := E). apply C50_qesa_layout in E as (Cw & P & Ee & _). apply app_inv_head in Ee. subst e.
  assert (HV : verdict (inner_verify (table D w) tr (pr (run (table D w) p)) G H Q (mkBlockMatrix Ms))) by (eexists; eauto).
  apply (C58_qesa_verdict _ _ _ _ _ _ _ n) in HV as (_ & _ & (_ & _ & _ & En)); auto.
  unfold lay_inner, lay_alm. cbn [app drawn length]. rewrite drawn_lay_ipa by auto. cbn [Nat.add].
  do 5 f_equal. symmetry. rewrite Hd in En. eapply Nat.pow_inj_r; [|exact En]; lia.
Qed.
(** the first commitment is the one of the extractor's first run *)
Lemma qesa_root (ro : oracle) tr pf (G H : list Point) (Q : Point) Ms e h :
  inner_verify ro tr pf G H Q (mkBlockMatrix Ms) = Ok (true, tr ++ e) -> nth_error (drawn tr e) 0 = Some h ->
  lastmsg h = c_prime_w pf.
Proof.
  intros E HE. apply C50_qesa_layout in E as (Cw & P & Ee & _). apply app_inv_head in Ee. subst e.
  unfold lay_inner in HE. cbn [app drawn nth_error] in HE. injection HE as <-. apply lastmsg_app.
Qed.

(** for one x: an opening of c'_w + c''_w that satisfies the equation batched with x *)
Definition qesa_batched_fs_extractor vals tr G H Q n d Ms (p : prover Inner) D (w : word) : option (Scalar * extracted) * nat :=
  after (fun S => match erase S with WNode q => match nonzero q with
           | (x, T) :: _ => (x, q_extract n Ms x (w_sb (fun u => lastLR (node_hist D S u))
                                 (leaf_fin ceq (fun pf => az_NoZK (alm_zk pf)) p D (leaf_tab S)) d [x] (fun u => lastmsg (node_hist D S u)) T))
           | [] => (s0, Wit [] [] s0) end end)
    (fs_rewind ceq (fun ro pf => inner_verify ro tr pf G H Q (mkBlockMatrix Ms)) tr p vals D (2 :: n - 1 :: 3 :: 3 :: 3 :: repeat 4 d) w).
Theorem C90_qesa_batched_extractor vals tr (G H : list Point) (Q : Point) n d Ms (p : prover Inner) T D :
  let V := fun ro pf => inner_verify ro tr pf G H Q (mkBlockMatrix Ms) in
  let E := qesa_batched_fs_extractor vals tr G H Q n d Ms p D in
  let q := length vals in let N := length D in let K := 54 * n ^ 3 in
  NoDup vals -> n = 2 ^ d -> 3 <= n -> length G = n -> length H = n -> 1 <= length Ms -> Forall (rect (n - 2) (n - 2)) Ms ->
  asks T p -> (forall ro, length (R_vec (az_NoZK (alm_zk (run ro p)))) = length (L_vec (az_NoZK (alm_zk (run ro p))))) ->
  asks_challenges ceq V tr p vals D ->
  (forall w x e, In w (words vals N) -> fst (E w) = Some (x, e) -> x <> s0 /\
     match e with
     | Wit v u _ => exists cs pf, own_run ceq V tr p vals D (x :: cs) (fun pf' => pf' = pf) /\
       c_prime_w pf = c_prime_w (run (table D w) p) /\
       length v = n /\ length u = n /\ (dec (c_prime_w pf) + dec (c_prime_prime_w pf))%P = (comb v G + comb u H)%P /\
       let y := set_first (s1 + x * x * (sc v 0 - s1))%S v in
       u = mv n (q_gamma' n (q_gamma n Ms x)) y /\
       sum_S (min (length Ms) n) (fun t => spow x (S t) * quad (nth t Ms []) (firstn (n - 2) y))%S = s0
     | Rel g h q => nontrivial_relation n G H Q g h q
     end) /\
  successes ceq V p vals D <= count (fun w => found (E w)) (words vals N) + (n + 5 + 3 * d) * T * q ^ (N - 1) /\
  total (fun w => snd (E w)) (words vals N) <= (K + T * (K - 1)) * q ^ N.
Proof.
  intros V E q N K HN Hd Hn HG HH HM HF HT HR HA.
  assert (HV : follows V tr) by (intros ro o tr' E1; apply C50_qesa_layout in E1 as (Cw & P & -> & HF'); eauto).
  assert (HD := qesa_draws (fun pf => pf) tr G H Q n d Ms p D 2 Hd Hn HG HH HM HF HR).
  assert (F5 : Forall (fun k => 1 <= k) [2; n - 1; 3; 3; 3]) by (repeat (apply Forall_cons; [lia|]); apply Forall_nil).
  split.
  - intros w x e Hw He. apply after_Some in He as (S & HS & He).
    destruct (fs_tree V tr p vals D [2; n - 1; 3; 3; 3] 3 d w S) as (GT & HL & HB); auto.
    destruct HB as (e0 & B1 & B2); [cbn; lia|]. assert (B3 := qesa_root _ _ _ _ _ _ _ _ _ B1 B2).
    assert (KEY := qesa_key ceq (fun pf => pf) vals tr G H Q n d Ms p D (node_hist D S) (leaf_tab S) HR HL). cbv zeta in KEY.
    set (msg := fun u => lastLR (node_hist D S u)) in *. set (fin := leaf_fin ceq (fun pf => az_NoZK (alm_zk pf)) p D (leaf_tab S)) in *.
    set (cr := fun u => lastmsg (node_hist D S u)) in *. set (c2 := fun x => lastmsg (node_hist D S [x])) in *.
    destruct (erase S) as [kids] eqn:ES. assert (GT' := GT). destruct GT as (KL & KN & _ & KV).
    assert (NL := nonzero_length kids KN). destruct (nonzero kids) as [|[x0 T0] us] eqn:EK; [cbn in NL; lia|].
    injection He as Hx0 He0. subst x0 e. assert (HI : In (x, T0) (nonzero kids)) by (rewrite EK; now left).
    apply nonzero_In in HI as [HI Hx]. split; [exact Hx|].
    assert (HW := KV x T0 HI). destruct (w_sb_good msg fin vals d n [x] _ cr T0 HW) as [GS PS].
    assert (AT : sb_paths (w_sb msg fin d [x] cr T0) (q_accepts_along tr G H Q n Ms (lastmsg (node_hist D S [])) (c2 x) x)).
    { intros s b B HB. apply PS in HB. revert HB. apply beta_paths_impl.
      intros cr' be al pa (-> & xs & _ & Hu & ->). apply KEY in Hu as [Y _]. now apply (qesa_yes_along tr G H Q n Ms _ c2 cr msg fin). }
    assert (RES := C24_qesa_batched_soundness tr G H Q n Ms _ _ x _ Hn HG HH HM HF Hx GS AT).
    destruct (q_extract n Ms x _) as [v u c|g h r]; [|exact RES].
    rewrite <- ES in GT'. destruct (below_leaf vals ([n - 1; 3; 3; 3] ++ repeat 4 d) 2 S kids x T0) as (u1 & w1 & U1 & _ & U3); auto.
    { apply Forall_app. split; [repeat (apply Forall_cons; [lia|]); apply Forall_nil|]. apply Forall_forall. intros j Hj. apply repeat_spec in Hj. lia. }
    destruct u1 as [|s [|b [|be [|al xs]]]]; try discriminate.
    assert (OK : is_some (leaf_tab S (x :: s :: b :: be :: al :: xs)) = true) by now rewrite U3.
    apply KEY in OK as [_ (w2 & e2 & Iw & R1 & R2 & R3 & R4 & _)].
    exists (s :: b :: be :: al :: xs), (run (table D w2) p). split; [exists w2, e2; auto|]. rewrite R3, R4. split; [exact B3|exact RES].
  - assert (E4 : 4 ^ d = n * n) by (rewrite Hd, <- Nat.pow_mul_l; reflexivity).
    apply (fs_counts V tr p vals D [2; n - 1; 3; 3; 3] 3 d T
      (fun _ S => match erase S with WNode q => match nonzero q with
           | (x, T) :: _ => (x, q_extract n Ms x (w_sb (fun u => lastLR (node_hist D S u))
                                 (leaf_fin ceq (fun pf => az_NoZK (alm_zk pf)) p D (leaf_tab S)) d [x] (fun u => lastmsg (node_hist D S u)) T))
           | [] => (s0, Wit [] [] s0) end end) (n + 5 + 3 * d) K); auto; [cbn; lia|].
    unfold K. rewrite E4. unfold prodn. cbn [fold_right Nat.pow]. nia.
Qed.

(** the whole argument, against provers that also output an opening w' of c'_w over G and an
    opening u of c''_w over H: the extractor returns a relation, or finds none and the system holds
    for the opening the prover has output in the first run *)
Definition qesa_fs_extractor vals tr G H Q n d Ms (p : prover (Inner * (list Scalar * list Scalar))) D (w : word) :
    option (option (list Scalar * list Scalar * Scalar)) * nat :=
  after (fun S => match erase S with WNode q => find (is_relation n G H Q)
           (cat_some (map (fun '(x, T) =>
              q_compare n Ms x (w_sb (fun u => lastLR (node_hist D S u)) (leaf_fin ceq (fun o => az_NoZK (alm_zk (fst o))) p D (leaf_tab S)) d [x]
                                  (fun u => lastmsg (node_hist D S u)) T)
                (fst (snd (run (table D w) p)))
                (match below S [x] with Some w1 => snd (snd (run (table D w1) p)) | None => [] end)) (nonzero q))) end)
    (fs_rewind ceq (fun ro (o : Inner * (list Scalar * list Scalar)) => inner_verify ro tr (fst o) G H Q (mkBlockMatrix Ms)) tr p vals D
       (S (min (length Ms) n) :: n - 1 :: 3 :: 3 :: 3 :: repeat 4 d) w).
Theorem C90_qesa_extractor vals tr (G H : list Point) (Q : Point) n d Ms (p : prover (Inner * (list Scalar * list Scalar))) T D :
  let V := fun ro (o : Inner * (list Scalar * list Scalar)) => inner_verify ro tr (fst o) G H Q (mkBlockMatrix Ms) in
  let m := min (length Ms) n in
  let E := qesa_fs_extractor vals tr G H Q n d Ms p D in
  let q := length vals in let N := length D in let K := 27 * S m * n ^ 3 in
  NoDup vals -> n = 2 ^ d -> 3 <= n -> length G = n -> length H = n -> 1 <= length Ms -> Forall (rect (n - 2) (n - 2)) Ms ->
  asks T p ->
  (forall ro, let '(pf, (w', u)) := run ro p in
     length (R_vec (az_NoZK (alm_zk pf))) = length (L_vec (az_NoZK (alm_zk pf))) /\
     length w' = n /\ sc w' 0 = s1 /\ decompress (c_prime_w pf) = Some (comb w' G) /\
     length u = n /\ decompress (c_prime_prime_w pf) = Some (comb u H)) ->
  asks_challenges ceq V tr p vals D ->
  (forall w e, In w (words vals N) -> fst (E w) = Some e ->
     match e with
     | Some (g, h, q) => nontrivial_relation n G H Q g h q
     | None => forall t, t < m -> quad (nth t Ms []) (firstn (n - 2) (fst (snd (run (table D w) p)))) = s0
     end) /\
  successes ceq V p vals D <= count (fun w => found (E w)) (words vals N) + (m + n + 4 + 3 * d) * T * q ^ (N - 1) /\
  total (fun w => snd (E w)) (words vals N) <= (K + T * (K - 1)) * q ^ N.
Proof.
  intros V m E q N K HN Hd Hn HG HH HM HF HT HO HA.
  assert (HR : forall ro, length (R_vec (az_NoZK (alm_zk (fst (run ro p))))) = length (L_vec (az_NoZK (alm_zk (fst (run ro p)))))).
  { intros ro. generalize (HO ro). destruct (run ro p) as [pf [w' u]]. intros Z. apply Z. }
  assert (HO' : forall ro, length (fst (snd (run ro p))) = n /\ sc (fst (snd (run ro p))) 0 = s1 /\
     decompress (c_prime_w (fst (run ro p))) = Some (comb (fst (snd (run ro p))) G) /\
     length (snd (snd (run ro p))) = n /\ decompress (c_prime_prime_w (fst (run ro p))) = Some (comb (snd (snd (run ro p))) H)).
  { intros ro. generalize (HO ro). destruct (run ro p) as [pf [w' u]]. intros Z. apply Z. }
  assert (HV : follows V tr) by (intros ro o tr' E1; apply C50_qesa_layout in E1 as (Cw & P & -> & HF'); eauto).
  assert (HD := qesa_draws fst tr G H Q n d Ms p D (S m) Hd Hn HG HH HM HF HR).
  assert (F5 : Forall (fun k => 1 <= k) [S m; n - 1; 3; 3; 3]) by (repeat (apply Forall_cons; [lia|]); apply Forall_nil).
  split.
  - intros w e Hw He. apply after_Some in He as (S & HS & ->).
    destruct (fs_tree V tr p vals D [Datatypes.S m; n - 1; 3; 3; 3] 3 d w S) as (GT & HL & HB); auto.
    destruct HB as (e0 & B1 & B2); [cbn; lia|]. assert (B3 := qesa_root _ _ _ _ _ _ _ _ _ B1 B2).
    assert (KEY := qesa_key ceq fst vals tr G H Q n d Ms p D (node_hist D S) (leaf_tab S) HR HL). cbv zeta in KEY.
    set (msg := fun u => lastLR (node_hist D S u)) in *. set (fin := leaf_fin ceq (fun o => az_NoZK (alm_zk (fst o))) p D (leaf_tab S)) in *.
    set (cr := fun u => lastmsg (node_hist D S u)) in *. set (c2 := fun x => lastmsg (node_hist D S [x])) in *.
    set (c1 := lastmsg (node_hist D S [])) in *.
    set (uu := fun x => match below S [x] with Some w1 => snd (snd (run (table D w1) p)) | None => [] end).
    destruct (HO' (table D w)) as (Lw & H0 & D1 & _ & _). rewrite <- B3 in D1. set (w' := fst (snd (run (table D w) p))) in *.
    destruct (erase S) as [kids] eqn:ES. assert (GT' := GT). rewrite <- ES in GT'. destruct GT as (KL & KN & _ & KV).
    assert (HU : forall x T0, In (x, T0) kids -> length (uu x) = n /\ decompress (c2 x) = Some (comb (uu x) H)).
    { intros x T0 HI. destruct (below_leaf vals ([n - 1; 3; 3; 3] ++ repeat 4 d) (Datatypes.S m) S kids x T0) as (u1 & w1 & U1 & U2 & U3); auto.
      { apply Forall_app. split; [repeat (apply Forall_cons; [lia|]); apply Forall_nil|]. apply Forall_forall. intros j Hj. apply repeat_spec in Hj. lia. }
      unfold uu. rewrite U2. destruct (HO' (table D w1)) as (_ & _ & _ & Z4 & Z5). split; [exact Z4|].
      replace (c2 x) with (c_prime_prime_w (fst (run (table D w1) p))); [exact Z5|].
      destruct u1 as [|s [|b [|be [|al xs]]]]; try discriminate.
      destruct (HL _ _ U3) as (_ & e1 & E1 & _ & E3 & _). unfold V in E1. apply C50_qesa_layout in E1 as (Cw & P & Ee & _).
      apply app_inv_head in Ee. subst e1. unfold lay_inner in E3. cbn [app drawn st_msgs map fst] in E3. injection E3 as _ Es _.
      unfold c2. rewrite <- Es. symmetry. apply lastmsg_app. }
    set (cands := map _ (nonzero kids)).
    destruct (find (is_relation n G H Q) (cat_some cands)) as [[[g h] r]|] eqn:EF.
    + apply find_some in EF as [_ EF]. now apply is_relation_ok in EF.
    + destruct (C24_qesa_soundness tr G H Q n Ms c1 w'
                  (map (fun '(x, T) => (x, c2 x, uu x, w_sb msg fin d [x] cr T)) (nonzero kids)))
        as [(x & c & v & T0 & g & h & r & HI & HQ & HRl)|HSy]; auto.
      * rewrite map_length. assert (X := nonzero_length kids KN). fold m. lia.
      * rewrite map_map. erewrite map_ext; [apply (nonzero_NoDup kids KN)|]. now intros [x T0].
      * intros x c v T0 HI. apply in_map_iff in HI as ([x' T'] & EQ & HI). injection EQ as -> <- <- <-.
        apply nonzero_In in HI as [HI Hx]. destruct (HU x T' HI) as [Lu Du].
        destruct (w_sb_good msg fin vals d n [x] _ cr T' (KV x T' HI)) as [GS PS].
        split; [auto|]. split; [auto|]. split; [auto|]. split; [auto|].
        intros s b B HB. apply PS in HB. revert HB. apply beta_paths_impl.
        intros cr' be al pa (-> & xs & _ & Hu & ->). apply KEY in Hu as [Y _]. now apply (qesa_yes_along tr G H Q n Ms c1 c2 cr msg fin).
      * exfalso. apply in_map_iff in HI as ([x' T'] & EQ & HI). injection EQ as -> <- <- <-.
        revert EF. apply (find_cat _ _ (g, h, r)); [|now apply is_relation_ok].
        unfold cands. apply in_map_iff. exists (x, T'). split; [exact HQ|exact HI].
  - assert (E4 : 4 ^ d = n * n) by (rewrite Hd, <- Nat.pow_mul_l; reflexivity).
    apply (fs_counts V tr p vals D [S m; n - 1; 3; 3; 3] 3 d T
      (fun w S => match erase S with WNode q => find (is_relation n G H Q)
           (cat_some (map (fun '(x, T) =>
              q_compare n Ms x (w_sb (fun u => lastLR (node_hist D S u)) (leaf_fin ceq (fun o => az_NoZK (alm_zk (fst o))) p D (leaf_tab S)) d [x]
                                  (fun u => lastmsg (node_hist D S u)) T)
                (fst (snd (run (table D w) p)))
                (match below S [x] with Some w1 => snd (snd (run (table D w1) p)) | None => [] end)) (nonzero q))) end)
      (m + n + 4 + 3 * d) K); auto; [cbn; lia|].
    unfold K. rewrite E4. unfold prodn. cbn [fold_right Nat.pow].
    replace (S m * ((n - 1) * (3 * (3 * (3 * 1)))) * (n * n)) with (27 * S m * ((n - 1) * (n * n))) by lia.
    replace (27 * S m * (n * (n * (n * 1)))) with (27 * S m * (n * (n * n))) by lia.
    apply Nat.mul_le_mono_l, Nat.mul_le_mono_r. lia.
Qed.

(** ** copy argument *)
Definition copy_fs_extractor vals tr G H Q n d Ms sets mp msgs rs Cs (p : prover (Copy * (list Scalar * list Scalar))) D (w : word) :
    option (option (word * word * Scalar)) * nat :=
  after (fun S => match erase S with WNode kids => find (is_relation n G H Q)
           (cat_some (copy_candidates n Ms mp sets msgs rs (fst (snd (run (table D w) p)))
              (fun a0 x => match below S [a0; x] with Some w1 => snd (snd (run (table D w1) p)) | None => [] end)
              (fun u => lastLR (node_hist D S u)) (leaf_fin ceq (fun o => az_NoZK (alm_zk (cp_inner (fst o)))) p D (leaf_tab S))
              (fun u => lastmsg (node_hist D S u)) d kids)) end)
    (fs_rewind ceq (fun ro (o : Copy * (list Scalar * list Scalar)) => copy_verify ro tr (fst o) G H Q (mkBlockMatrix Ms) mp Cs) tr p vals D
       (S (2 * length sets) :: S (length Ms + length (unique_commitment_indices mp)) :: n - 1 :: 3 :: 3 :: 3 :: repeat 4 d) w).
Theorem C90_copy_extractor vals tr (G H : list Point) (Q : Point) n d Ms (ws : N) (sets : list (list N)) mp
    (msgs : list (list Scalar)) (rs : list Scalar) (Cs : list Point) (p : prover (Copy * (list Scalar * list Scalar))) T D :
  let V := fun ro (o : Copy * (list Scalar * list Scalar)) => copy_verify ro tr (fst o) G H Q (mkBlockMatrix Ms) mp Cs in
  let m := length Ms + length (unique_commitment_indices mp) in
  let E := copy_fs_extractor vals tr G H Q n d Ms sets mp msgs rs Cs p D in
  let q := length vals in let N := length D in let K := 27 * S (2 * length sets) * S m * n ^ 3 in
  NoDup vals -> n = 2 ^ d ->
  3 <= n -> (N.of_nat n < 65536)%N -> (ws < 65536)%N -> (N.of_nat (length sets) <= 65536)%N ->
  length G = n -> length H = n -> Forall (rect (n - 2) (n - 2)) Ms ->
  (forall s i, In s sets -> In i s -> 1 <= N.to_nat i < n - 2) -> Forall (@NoDup BinNums.N) sets ->
  compute_mapping (N.of_nat n) ws sets = Ok mp -> m <= n ->
  length Cs = length sets ->
  (forall k, k < length sets -> commit G (nth k sets []) (nth k msgs []) (sc rs k) = Ok (pt Cs k)) ->
  asks T p ->
  (forall ro, let '(pf, (w', u)) := run ro p in
     length (R_vec (az_NoZK (alm_zk (cp_inner pf)))) = length (L_vec (az_NoZK (alm_zk (cp_inner pf)))) /\
     length w' = n /\ sc w' 0 = s1 /\ decompress (cp_C_w pf) = Some (comb w' G) /\
     length u = n /\ decompress (c_prime_prime_w (cp_inner pf)) = Some (comb u H)) ->
  asks_challenges ceq V tr p vals D ->
  (forall w e, In w (words vals N) -> fst (E w) = Some e ->
     match e with
     | Some (g, h, q) => nontrivial_relation n G H Q g h q
     | None => let w' := fst (snd (run (table D w) p)) in
       (forall M, In M Ms -> quad M (firstn (n - 2) w') = s0) /\
       (forall k j, k < length sets -> j < length (nth k sets []) ->
          exists mm, nth_error (msgs_map mp) (cm_offset sets k + j) = Some mm /\
            sc (nth k msgs []) j = sc w' (mpos mm)) /\
       (forall s i, In s sets -> In i s -> sc w' (N.to_nat i) = s0)
     end) /\
  successes ceq V p vals D <= count (fun w => found (E w)) (words vals N) + (2 * length sets + m + n + 4 + 3 * d) * T * q ^ (N - 1) /\
  total (fun w => snd (E w)) (words vals N) <= (K + T * (K - 1)) * q ^ N.
Proof.
  intros V m E q N K HN Hd Hn Hn16 Hws HSz HG HH HF Hidx HND Emp Hm LC HCm HT HO HA.
  assert (HR : forall ro, length (R_vec (az_NoZK (alm_zk (cp_inner (fst (run ro p)))))) = length (L_vec (az_NoZK (alm_zk (cp_inner (fst (run ro p))))))).
  { intros ro. generalize (HO ro). destruct (run ro p) as [pf [w' u]]. intros Z. apply Z. }
  assert (HO' : forall ro, length (fst (snd (run ro p))) = n /\ sc (fst (snd (run ro p))) 0 = s1 /\
     decompress (cp_C_w (fst (run ro p))) = Some (comb (fst (snd (run ro p))) G) /\
     length (snd (snd (run ro p))) = n /\
     decompress (c_prime_prime_w (cp_inner (fst (run ro p)))) = Some (comb (snd (snd (run ro p))) H)).
  { intros ro. generalize (HO ro). destruct (run ro p) as [pf [w' u]]. intros Z. apply Z. }
  destruct (compute_mapping_good n ws sets mp Hn16 Hws Emp HSz) as (HMap & _ & _).
  { intros s i Hs Hi. apply (Hidx s i Hs Hi). }
  assert (HT1 : 1 <= cm_total sets) by (apply compute_mapping_inv in Emp as (_ & HT' & _); exact HT').
  assert (HS1 : 1 <= length sets) by (destruct sets; [cbn in HT1; lia|cbn; lia]).
  assert (Hmsgs : length (msgs_map mp) = cm_total sets).
  { destruct (C29_metadata _ _ sets _ ltac:(lia) Emp) as (_ & Z & _). exact Z. }
  set (ks := [S (2 * length sets); S m; n - 1; 3; 3; 3]).
  assert (HV : follows V tr) by (intros ro o tr' E1; apply C50_copy_layout in E1 as (Ca & Cw & P & -> & HF'); eauto).
  assert (HD : forall w tr' e, V (table D w) (run (table D w) p) = Ok (true, tr') -> tr' = tr ++ e -> length (drawn tr e) = length ks + d).
  { intros w tr' e E1 ->. assert (E0 := E1). unfold V in E1. apply C50_copy_layout in E1 as (Ca & Cw & P & Ee & _). apply app_inv_head in Ee. subst e.
    assert (HVd : verdict (copy_verify (table D w) tr (fst (run (table D w) p)) G H Q (mkBlockMatrix Ms) mp Cs)) by (eexists; eauto).
    apply (C58_copy_verdict _ _ _ _ _ _ _ _ _ n) in HVd as (_ & _ & (_ & _ & _ & En)); auto; try (rewrite LC; auto); [|rewrite Hmsgs; lia].
    unfold lay_copy, lay_inner, lay_alm. cbn [app drawn length alm_zk]. rewrite drawn_lay_ipa by auto. unfold ks. cbn [length Nat.add].
    do 6 f_equal. symmetry. rewrite Hd in En. eapply Nat.pow_inj_r; [|exact En]; lia. }
  assert (F5 : Forall (fun k => 1 <= k) ([n - 1; 3; 3; 3] ++ repeat 4 d)).
  { apply Forall_app. split; [repeat (apply Forall_cons; [lia|]); apply Forall_nil|]. apply Forall_forall. intros k Hk. apply repeat_spec in Hk. lia. }
  assert (F6 : Forall (fun k => 1 <= k) ks) by (unfold ks; repeat (apply Forall_cons; [lia|]); apply Forall_nil).
  split.
  - intros w e Hw He. apply after_Some in He as (S & HS & ->).
    destruct (fs_tree V tr p vals D ks 3 d w S) as (GT & HL & HB); auto.
    destruct HB as (e0 & B1 & B2); [cbn; lia|].
    assert (B3 : lastmsg (node_hist D S []) = cp_C_w (fst (run (table D w) p))).
    { unfold V in B1. apply C50_copy_layout in B1 as (Ca & Cw & P & Ee & _). apply app_inv_head in Ee. subst e0.
      unfold lay_copy in B2. cbn [app drawn nth_error] in B2. injection B2 as <-. apply lastmsg_app. }
    assert (KEY := copy_key ceq vals tr G H Q Ms mp Cs p D (node_hist D S) (leaf_tab S) HR HL). cbv zeta in KEY.
    set (msg := fun u => lastLR (node_hist D S u)) in *. set (fin := leaf_fin ceq (fun o => az_NoZK (alm_zk (cp_inner (fst o)))) p D (leaf_tab S)) in *.
    set (cr := fun u => lastmsg (node_hist D S u)) in *. set (c2 := fun a0 x => lastmsg (node_hist D S [a0; x])) in *.
    set (cw := lastmsg (node_hist D S [])) in *. set (c1' := compress p0) in *.
    set (uu := fun a0 x => match below S [a0; x] with Some w1 => snd (snd (run (table D w1) p)) | None => [] end).
    destruct (HO' (table D w)) as (Lw & H0 & D1 & _ & _). rewrite <- B3 in D1. set (w' := fst (snd (run (table D w) p))) in *.
    destruct (erase S) as [kids] eqn:ES. destruct GT as (KL & KN & _ & KV).
    assert (HU : forall a0 xs x T0, In (a0, WNode xs) kids -> In (x, T0) xs -> length (uu a0 x) = n /\ decompress (c2 a0 x) = Some (comb (uu a0 x) H)).
    { intros a0 xs x T0 HI HJ. destruct (kid_under S kids a0 (WNode xs) ES KN HI) as (t1 & X1 & X2 & X3).
      assert (GX := KV a0 _ HI).
      destruct (below_leaf vals ([n - 1; 3; 3; 3] ++ repeat 4 d) (Datatypes.S m) t1 xs x T0) as (u1 & w1 & U1 & U2 & U3); auto.
      { rewrite X1. revert GX. apply wgood_ext. intros u. now rewrite X2. }
      unfold uu. rewrite X3, U2. destruct (HO' (table D w1)) as (_ & _ & _ & Z4 & Z5). split; [exact Z4|].
      replace (c2 a0 x) with (c_prime_prime_w (cp_inner (fst (run (table D w1) p)))); [exact Z5|].
      destruct u1 as [|s [|b [|be [|al ys]]]]; try discriminate. rewrite <- X2 in U3.
      destruct (HL _ _ U3) as (_ & e1 & E1 & _ & E3 & _). unfold V in E1. apply C50_copy_layout in E1 as (Ca & Cw & P & Ee & _).
      apply app_inv_head in Ee. subst e1. unfold lay_copy, lay_inner in E3. cbn [app drawn st_msgs map fst c_prime_prime_w] in E3. injection E3 as _ _ Es _.
      unfold c2. rewrite <- Es. symmetry. apply lastmsg_app. }
    set (cands := copy_candidates _ _ _ _ _ _ _ _ _ _ _ _ kids).
    destruct (find (is_relation n G H Q) (cat_some cands)) as [[[g h] r]|] eqn:EF.
    + apply find_some in EF as [_ EF]. now apply is_relation_ok in EF.
    + set (runs := fun a0 (t : wtree Scalar) => let 'WNode xs := t in
               map (fun '(x, T) => (x, c2 a0 x, uu a0 x, w_sb msg fin d [a0; x] cr T)) (nonzero xs)).
      destruct (C64_copy_soundness tr G H Q n Ms ws sets mp msgs rs Cs cw w' (map (fun '(a0, t) => (a0, runs a0 t)) kids))
        as [(a0 & rn & x & c & v & T0 & g & h & r & HI & HJ & HQ & HRl)|HSy]; auto.
      * rewrite map_map. erewrite map_ext; [exact KN|]. now intros [a0 t].
      * rewrite map_length, KL. lia.
      * intros a0 rn HI. apply in_map_iff in HI as ([a [xs]] & EQ & HI). injection EQ as -> <-.
        destruct (KV a0 _ HI) as (XL & XN & _ & XV). unfold runs.
        split; [rewrite map_length; assert (X := nonzero_length xs XN); fold m; lia|]. split.
        { rewrite map_map. erewrite map_ext; [apply (nonzero_NoDup xs XN)|]. now intros [x T0]. }
        intros x c v T0 HJ. apply in_map_iff in HJ as ([x' T'] & EQ & HJ). injection EQ as -> <- <- <-.
        apply nonzero_In in HJ as [HJ Nx].
        destruct (w_sb_good msg fin vals d n [a0; x] (fun u => is_some (leaf_tab S (a0 :: x :: u))) cr T' (XV x T' HJ)) as [GS PS].
        destruct (HU a0 xs x T' HI HJ) as [Lu Du]. split; [auto|]. split; [auto|]. split; [auto|]. split; [auto|].
        intros s b B HB. apply PS in HB. revert HB. apply beta_paths_impl.
        intros cr' be al pa (-> & ys & _ & Y & ->). apply KEY in Y as [Y _].
        eapply (copy_yes_along tr G H Q n Ms mp Cs cw c1' c2 cr msg fin); eauto; try (rewrite LC; auto).
        rewrite Hmsgs. lia.
      * exfalso. apply in_map_iff in HI as ([a [xs]] & EQ & HI). injection EQ as -> <-.
        apply in_map_iff in HJ as ([x' T'] & EQ & HJ). injection EQ as -> <- <- <-.
        revert EF. apply (find_cat _ _ (g, h, r)); [|now apply is_relation_ok].
        unfold cands, copy_candidates. apply in_flat_map. exists (a0, WNode xs). split; [exact HI|].
        apply in_map_iff. exists (x, T'). split; [exact HQ|exact HJ].
  - assert (E4 : 4 ^ d = n * n) by (rewrite Hd, <- Nat.pow_mul_l; reflexivity).
    apply (fs_counts V tr p vals D ks 3 d T
      (fun w S => match erase S with WNode kids => find (is_relation n G H Q)
           (cat_some (copy_candidates n Ms mp sets msgs rs (fst (snd (run (table D w) p)))
              (fun a0 x => match below S [a0; x] with Some w1 => snd (snd (run (table D w1) p)) | None => [] end)
              (fun u => lastLR (node_hist D S u)) (leaf_fin ceq (fun o => az_NoZK (alm_zk (cp_inner (fst o)))) p D (leaf_tab S))
              (fun u => lastmsg (node_hist D S u)) d kids)) end)
      (2 * length sets + m + n + 4 + 3 * d) K); auto; [unfold ks, slack; cbn [map list_sum fold_right pred]; lia|].
    unfold K, ks. rewrite E4. unfold prodn. cbn [fold_right Nat.pow]. set (k := length sets). clearbody k. clear -Hn.
    replace (S (2 * k) * (S m * ((n - 1) * (3 * (3 * (3 * 1))))) * (n * n)) with (27 * S (2 * k) * S m * ((n - 1) * (n * n))) by lia.
    replace (27 * S (2 * k) * S m * (n * (n * (n * 1)))) with (27 * S (2 * k) * S m * (n * (n * n))) by lia.
    apply Nat.mul_le_mono_l, Nat.mul_le_mono_r. lia.
Qed.
(** ** Any prover with T queries of its own: the extractor lets it ask the challenges of its proof last *)
Corollary C90_nozk_any_prover vals tr (G H : list Point) (Q P : Point) (t : Scalar) d (p : prover NoZK) T D :
  let V := fun ro pf => no_zk_verify ro tr pf G H Q (2 ^ d) P t in
  let p' := then_ask p (nozk_queries tr (2 ^ d) d) in
  let E := nozk_fs_extractor vals tr G H Q d P t p' D in
  let q := length vals in let N := length D in let K := 3 * 4 ^ d in
  NoDup vals -> length G = 2 ^ d -> length H = 2 ^ d ->
  asks T p -> (forall ro, length (R_vec (run ro p)) = length (L_vec (run ro p))) ->
  incl (reach vals p') D ->
  (forall w e, In w (words vals N) -> fst (E w) = Some e ->
     match e with
     | Wit a b c => length a = 2 ^ d /\ length b = 2 ^ d /\ c = t /\
                    P = (comb a G + comb b H + t *: Q)%P /\ dotp a b = t
     | Rel g h q => nontrivial_relation (2 ^ d) G H Q g h q
     end) /\
  successes ceq V p vals D <= count (fun w => found (E w)) (words vals N) + (2 + 3 * d) * (T + S d) * q ^ (N - 1) /\
  total (fun w => snd (E w)) (words vals N) <= (K + (T + S d) * (K - 1)) * q ^ N.
Proof.
  intros V p' E q N K HN HG HH HT HR HD. rewrite <- (successes_then_ask ceq V p (nozk_queries tr (2 ^ d) d)).
  apply (C90_nozk_extractor vals tr G H Q P t d p' (T + S d) D); auto.
  - apply asks_then_ask; auto. intros pf. unfold nozk_queries. rewrite firstn_length. lia.
  - intros ro. unfold p'. rewrite run_then_ask. apply HR.
  - apply asks_challenges_then; auto. intros ro pf tr' E1 h Hh. apply C50_ipa_layout in E1 as (En & -> & _).
    rewrite skipn_app_exact in Hh. unfold nozk_queries. rewrite firstn_all2; auto.
    unfold lay_ipa. cbn [app drawn length]. rewrite drawn_rounds_length, combine_length.
    apply Nat.pow_inj_r in En; lia.
Qed.
Corollary C90_lmpa_any_prover vals tr d m (A : list (list Point)) (G H : list Point) (Q : Point) t (p : prover LmpaNoZK) T D :
  let V := fun ro pf => lmpa_verify ro tr pf A G H Q (2 ^ d) t in
  let p' := then_ask p (lmpa_queries tr d) in
  let E := lmpa_fs_extractor vals tr A G H Q d t p' D in
  let q := length vals in let N := length D in let K := 3 ^ d in
  NoDup vals -> 1 <= m -> rect m (2 ^ d) A ->
  asks T p -> incl (reach vals p') D ->
  (forall w x, In w (words vals N) -> fst (E w) = Some x -> length x = 2 ^ d /\ comb x (nth 0 A []) = pt t 0) /\
  successes ceq V p vals D <= count (fun w => found (E w)) (words vals N) + 2 * d * (T + d) * q ^ (N - 1) /\
  total (fun w => snd (E w)) (words vals N) <= (K + (T + d) * (K - 1)) * q ^ N.
Proof.
  intros V p' E q N K HN Hm HA HT HD. rewrite <- (successes_then_ask ceq V p (lmpa_queries tr d)).
  apply (C90_lmpa_extractor vals tr d m A G H Q t p' (T + d) D); auto.
  - apply asks_then_ask; auto. intros pf. unfold lmpa_queries, lay_lmpa. rewrite drawn_lm_length, firstn_length. lia.
  - apply asks_challenges_then; auto. intros ro pf tr' E1 h Hh. apply C50_lmpa_layout in E1 as (_ & _ & _ & -> & _).
    rewrite skipn_app_exact, Nat.log2_pow2 in Hh by lia. exact Hh.
Qed.
Corollary C90_simplezk_any_prover vals tr d m (A : list (list Point)) (G H : list Point) (Q : Point) t (p : prover SimpleZK) T D :
  let V := fun ro pf => simple_zk_verify ro tr pf A G H Q (2 ^ d) t in
  let p' := then_ask p (simplezk_queries tr d) in
  let E := simplezk_fs_extractor vals tr A G H Q d t p' D in
  let q := length vals in let N := length D in let K := 2 * 3 ^ d in
  NoDup vals -> 1 <= m -> rect m (2 ^ d) A ->
  asks T p -> incl (reach vals p') D ->
  (forall w x, In w (words vals N) -> fst (E w) = Some x -> length x = 2 ^ d /\ comb x (nth 0 A []) = pt t 0) /\
  successes ceq V p vals D <= count (fun w => found (E w)) (words vals N) + (1 + 2 * d) * (T + S d) * q ^ (N - 1) /\
  total (fun w => snd (E w)) (words vals N) <= (K + (T + S d) * (K - 1)) * q ^ N.
Proof.
  intros V p' E q N K HN Hm HA HT HD. rewrite <- (successes_then_ask ceq V p (simplezk_queries tr d)).
  apply (C90_simplezk_extractor vals tr d m A G H Q t p' (T + S d) D); auto.
  - apply asks_then_ask; auto. intros pf. unfold simplezk_queries, lay_simple. rewrite drawn_app, drawn_msgs. cbn [app drawn length].
    unfold lay_lmpa. rewrite drawn_lm_length, firstn_length. lia.
  - apply asks_challenges_then; auto. intros ro pf tr' E1 h Hh. apply C50_simplezk_layout in E1 as (_ & _ & _ & -> & _).
    rewrite skipn_app_exact, Nat.log2_pow2 in Hh by lia. exact Hh.
Qed.
End C90.

(** ** Concrete cases over Z/1009 *)
(** inner product argument, n = 1: the honest prover is extracted in 3 runs from every table, and
    its vectors come out *)
Example C90_case_nozk :
  let E := nozk_fs_extractor fs_ceq (v75 5) [] [qN 5] [qN 2] (qN 17) 0 (qN (3 * 5 + 6 * 2 + 18 * 17)) (fN 18) hon79 [ipa_start [] 1] in
  count (fun w => found (E w)) (words (v75 5) 1) = 5 /\ total (fun w => snd (E w)) (words (v75 5) 1) = 15 /\
  match E [fN 4] with (Some (Wit a b c), 3) => map zf a = [3]%Z /\ map zf b = [6]%Z /\ zf c = 18%Z | _ => False end.
Proof. vm_compute. repeat split; auto. Qed.
(** the linear map 2 w_0 + 5 w_1 = 16, n = 2. The prover knows the preimages (3, 2) and (8, 0) and
    prepares a proof with each; it asks for the challenge of the first, outputs it if the answer
    is 1 or 2, and otherwise asks for that of the second and outputs that one. All 25 tables
    succeed. On 15 the second preimage comes out, in 3 runs. On the other 10 the extractor fails:
    it sees only two challenges at the first history, the runs with another answer there end in
    the second proof and are cut off. The bounds of the theorem are 25 <= 15 + 20 and 95 <= 175 *)
Definition hon90 (w : list (@Scalar FS)) (x : @Scalar FS) : @LmpaNoZK FS :=
  match lmpa_create (coins [] (x :: v75 3)) [] [[qN 2; qN 5]] [qN 0; qN 0] [] (qN 0) w with
  | Ok (pf, _) => pf | _ => mkLmpaNoZK [] [] (fN 0) end.
Definition a90 := hon90 [fN 3; fN 2]. Definition b90 := hon90 [fN 8; fN 0].
Definition two90 : @prover FS LmpaNoZK :=
  Ask (q79 (a90 (fN 1))) (fun x => if (seqb x (fN 1) || seqb x (fN 2))%bool then Done (a90 x) else Ask (q79 (b90 (fN 1))) (fun x => Done (b90 x))).
Definition V90 (ro : @oracle FS) (pf : @LmpaNoZK FS) := lmpa_verify ro [] pf [[qN 2; qN 5]] [qN 0; qN 0] [] (qN 0) (2 ^ 1) [qN 16].
Definition E90 := lmpa_fs_extractor fs_ceq (v75 5) [] [[qN 2; qN 5]] [qN 0; qN 0] [] (qN 0) 1 [qN 16] two90 [q79 (a90 (fN 1)); q79 (b90 (fN 1))].
Example C90_case_lmpa :
  successes fs_ceq V90 two90 (v75 5) [q79 (a90 (fN 1)); q79 (b90 (fN 1))] = 25 /\
  count (fun w => found (E90 w)) (words (v75 5) 2) = 15 /\
  match E90 [fN 4; fN 2] with (Some w, r) => map zf w = [8; 0]%Z /\ r = 3 | _ => False end /\
  total (fun w => snd (E90 w)) (words (v75 5) 2) = 95.
Proof. vm_compute. repeat split; auto. Qed.
(** the prover of C79_case_lmpa_grinding, for a false statement, is never extracted *)
Example C90_case_lmpa_false :
  let E := lmpa_fs_extractor fs_ceq (v75 10) [] (z75 2) [qN 0; qN 0] [] (qN 0) 1 [qN (-3)] grind79 [q79 a79; q79 b79] in
  count (fun w => found (E w)) (words (v75 10) 2) = 0 /\ total (fun w => snd (E w)) (words (v75 10) 2) = 424.
Proof. vm_compute. auto. Qed.
