(** C104: the extractors of C90 and the discrete logarithms of C91 for statements chosen by the
    prover. As in C102 the caller hashes the statement first, under an encoding that can be read
    back. The extractor runs the prover with a table of answers; the statement it extracts for is
    the one the prover has chosen in this first run, and all further runs it uses are accepted for
    that statement too. Runs and losses are those of C90. *)
From Coq Require Import String.
From Verif Require Export PropAdaptive PropAdaptiveAny PropFsDlog.
From Verif Require Import PropMalleable Poly KaryFacts CopyFacts PropMapping PropCopy PropCopySound Ex ExSmall.
Local Open Scope string_scope.
Local Open Scope nat_scope.
Local Open Scope list_scope.

Section Chosen.
Context {C : Crypto} {L : CryptoLaws C} (ceq : @encodings_comparable C).
Notation word := (list Scalar).
Notation table := (table ceq).
Context {St X : Type} (enc : St -> list event) (sel : St -> bool) (tr : transcript) (junk : X)
        (V : St -> transcript -> oracle -> X -> res (bool * transcript)) (p : prover (St * X))
        (vals : list Scalar) (D : list transcript).
Notation W := (on_chosen enc sel tr V).
Context (HRd : readable enc) (HF : forall st tr, sel st = true -> follows (V st tr) tr).

Lemma chosen_accepts ro o tr' : W ro o = Ok (true, tr') -> sel (fst o) = true /\
  exists e, tr' = tr ++ enc (fst o) ++ e /\ V (fst o) (tr ++ enc (fst o)) ro (snd o) = Ok (true, (tr ++ enc (fst o)) ++ e) /\
    only_reads (fun ro => V (fst o) (tr ++ enc (fst o)) ro (snd o)) (tr ++ enc (fst o)) e true ro.
Proof.
  intros E. unfold on_chosen in E. destruct (sel (fst o)) eqn:Es; [|discriminate]. split; auto.
  destruct (HF (fst o) (tr ++ enc (fst o)) Es ro (snd o) tr' E) as (e & -> & HR). exists e. split; [now rewrite <- app_assoc|]. split; auto.
Qed.
Lemma chosen_follows : follows W tr.
Proof.
  intros ro o tr' E. destruct (chosen_accepts _ _ _ E) as (Es & e & -> & Ev & HR). exists (enc (fst o) ++ e). split; auto.
  intros ro' Hro. unfold on_chosen. rewrite Es, HR, <- app_assoc; auto.
  intros h Hh. apply Hro. apply drawn_In. rewrite drawn_after by apply HRd. now apply drawn_In.
Qed.
Lemma chosen_draws k :
  (forall st tr w e, sel st = true -> fst (run (table D w) p) = st ->
     V st tr (table D w) (snd (run (table D w) p)) = Ok (true, tr ++ e) -> length (drawn tr e) = k) ->
  forall w tr' e, W (table D w) (run (table D w) p) = Ok (true, tr') -> tr' = tr ++ e -> length (drawn tr e) = k.
Proof.
  intros HL w tr' e E ->. destruct (chosen_accepts _ _ _ E) as (Es & e' & Ee & Ev & _). apply app_inv_head in Ee. subst e.
  rewrite drawn_after by apply HRd. eapply (HL _ _ w e' Es); auto.
Qed.

(** accepted runs that share the first challenge query share the statement *)
Lemma chosen_first w0 e0 node leaf :
  W (table D w0) (run (table D w0) p) = Ok (true, tr ++ e0) -> nth_error (drawn tr e0) 0 = Some (node []) ->
  tree_runs ceq W tr p vals D node leaf -> leaf [] = None ->
  forall u w, leaf u = Some w -> fst (run (table D w) p) = fst (run (table D w0) p).
Proof.
  intros E0 N0 HT HL u w El. destruct HRd as [HQ HE].
  assert (NODE : forall st e, nth_error (drawn tr (enc st ++ e)) 0 = Some (node []) -> exists e2, node [] = tr ++ enc st ++ e2).
  { intros st e EN. rewrite drawn_after in EN by auto. destruct (drawn_nth _ _ _ _ EN) as (e2 & -> & _). exists e2. now rewrite <- app_assoc. }
  destruct (chosen_accepts _ _ _ E0) as (_ & e0' & Ee & _). apply app_inv_head in Ee. subst e0.
  destruct (HT _ _ El) as (_ & e & E1 & _ & D1 & _). destruct (chosen_accepts _ _ _ E1) as (_ & e1 & Ee & _). apply app_inv_head in Ee. subst e.
  destruct (NODE _ _ N0) as (e2 & N2). destruct u as [|x u]; [congruence|]. cbn [st_msgs map fst] in D1.
  destruct (NODE (fst (run (table D w) p)) e1) as (e3 & N3); [now rewrite D1|].
  rewrite N2 in N3. apply app_inv_head in N3. symmetry. eapply HE; eauto.
Qed.
(** they are runs of the prover for that statement *)
Lemma chosen_tree st node leaf : sel st = true -> (forall u w, leaf u = Some w -> fst (run (table D w) p) = st) ->
  tree_runs ceq W tr p vals D node leaf -> tree_runs ceq (V st (tr ++ enc st)) (tr ++ enc st) (fix_st ceq enc junk p st) vals D node leaf.
Proof.
  intros Hs HS HT u w El. destruct (HT _ _ El) as (Iw & e & V1 & V2 & D1 & M1). split; [auto|]. destruct HRd as [HQ HE].
  destruct (chosen_accepts _ _ _ V1) as (_ & e1 & Ee1 & Ev1 & HR1). apply app_inv_head in Ee1. subst e.
  assert (Est := HS _ _ El). rewrite (run_fix ceq enc junk p _ st (conj HQ HE) Est). rewrite Est in *. exists e1. split; [auto|]. split; [|split].
  - rewrite HR1; auto. intros h Hh. rewrite coins_after by auto.
    apply drawn_In in Hh. apply In_nth_error in Hh as [i Hi]. rewrite <- (drawn_after tr) in Hi by auto.
    rewrite (coins_at tr u h i); [|eapply nchal_drawn; eauto]. rewrite <- M1. unfold sc. apply nth_error_nth.
    now rewrite nth_error_map, Hi.
  - now rewrite <- drawn_after.
  - now rewrite <- drawn_after.
Qed.

(** the trees that the extractor finds *)
Lemma chosen_rewind k0 ks k d w t :
  NoDup vals -> Forall (fun k => 1 <= k) (k0 :: ks) ->
  (forall st tr w e, sel st = true -> fst (run (table D w) p) = st ->
     V st tr (table D w) (snd (run (table D w) p)) = Ok (true, tr ++ e) -> length (drawn tr e) = length (k0 :: ks) + d) ->
  asks_challenges ceq W tr p vals D -> In w (words vals (length D)) ->
  fst (fs_rewind ceq W tr p vals D ((k0 :: ks) ++ repeat (S k) d) w) = Some t ->
  let st := fst (run (table D w) p) in sel st = true /\
  wgood vals ((k0 :: ks) ++ repeat (S k) d) (fun u => is_some (leaf_tab t u)) (erase t) /\
  tree_runs ceq (V st (tr ++ enc st)) (tr ++ enc st) (fix_st ceq enc junk p st) vals D (node_hist D t) (leaf_tab t) /\
  (exists e, V st (tr ++ enc st) (table D w) (snd (run (table D w) p)) = Ok (true, (tr ++ enc st) ++ e) /\
     nth_error (drawn (tr ++ enc st) e) 0 = Some (node_hist D t [])) /\
  (forall u w', leaf_tab t u = Some w' -> fst (run (table D w') p) = st).
Proof.
  intros HN HK HL HA Hw Ht st.
  assert (HD := chosen_draws _ HL).
  destruct (fs_tree ceq W tr p vals D (k0 :: ks) k d w t) as (GT & HT & HB); auto using chosen_follows.
  destruct HB as (e & B1 & B2); [cbn; lia|].
  destruct (chosen_accepts _ _ _ B1) as (Es & e1 & Ee & Ev & _). apply app_inv_head in Ee. subst e.
  assert (HS : forall u w', leaf_tab t u = Some w' -> fst (run (table D w') p) = st).
  { eapply chosen_first; eauto. destruct t as [x|i q]; [|reflexivity]. destruct GT as (GL & _). cbn in GL. inversion HK; subst. lia. }
  split; [auto|]. split; [auto|]. split; [now apply chosen_tree|]. split; [|auto].
  exists e1. split; [auto|]. now rewrite <- drawn_after by apply HRd.
Qed.
End Chosen.

Section C104.
Context {C : Crypto} {L : CryptoLaws C} (ceq : @encodings_comparable C).
Notation word := (list Scalar).
Notation table := (table ceq).
Notation asks_challenges := (asks_challenges ceq).
Notation successes := (successes ceq).

(** ** Inner-product argument: the prover chooses P and t *)
Definition nozk_chosen_extractor vals tr G H Q d (enc : Point * Scalar -> list event) sel (p : prover ((Point * Scalar) * NoZK)) D (w : word) :
    option extracted * nat :=
  let V := fun (st : Point * Scalar) tr ro pf => no_zk_verify ro tr pf G H Q (2 ^ d) (fst st) (snd st) in
  let st := fst (run (table D w) p) in
  after (fun S => trees_extract (snd st) (w_alpha (fun u => lastLR (node_hist D S u))
                    (leaf_fin ceq (fun pf => pf) (fix_st ceq enc (junk_nozk d) p st) D (leaf_tab S)) d [] (erase S)))
    (fs_rewind ceq (on_chosen enc sel tr V) tr p vals D (3 :: repeat 4 d) w).
Theorem C104_nozk_extractor vals tr (G H : list Point) (Q : Point) d (enc : Point * Scalar -> list event) sel
    (p : prover ((Point * Scalar) * NoZK)) T D :
  let V := fun (st : Point * Scalar) tr ro pf => no_zk_verify ro tr pf G H Q (2 ^ d) (fst st) (snd st) in
  let W := on_chosen enc sel tr V in
  let E := nozk_chosen_extractor vals tr G H Q d enc sel p D in
  let q := length vals in let N := length D in let K := 3 * 4 ^ d in
  readable enc -> NoDup vals -> length G = 2 ^ d -> length H = 2 ^ d ->
  asks T p -> (forall ro, length (R_vec (snd (run ro p))) = length (L_vec (snd (run ro p)))) ->
  asks_challenges W tr p vals D ->
  (forall w e, In w (words vals N) -> fst (E w) = Some e ->
     let '((P, t), pf) := run (table D w) p in sel (P, t) = true /\
     match e with
     | Wit a b c => length a = 2 ^ d /\ length b = 2 ^ d /\ c = t /\
                    P = (comb a G + comb b H + t *: Q)%P /\ dotp a b = t
     | Rel g h q => nontrivial_relation (2 ^ d) G H Q g h q
     end) /\
  successes W p vals D <= count (fun w => found (E w)) (words vals N) + (2 + 3 * d) * T * q ^ (N - 1) /\
  total (fun w => snd (E w)) (words vals N) <= (K + T * (K - 1)) * q ^ N.
Proof.
  intros V W E q N K HE HN HG HH HT HR HA.
  assert (HF : forall st tr, sel st = true -> follows (V st tr) tr) by (intros st tr0 _; apply nozk_follows).
  assert (HD : forall st tr w e, sel st = true -> fst (run (table D w) p) = st ->
     V st tr (table D w) (snd (run (table D w) p)) = Ok (true, tr ++ e) -> length (drawn tr e) = length [3] + d).
  { intros st tr0 w e _ _ E1. unfold V in E1. apply C50_ipa_layout in E1 as (En & Ee & _). apply app_inv_head in Ee. subst e.
    rewrite drawn_lay_ipa by auto. cbn [length]. cbn [Nat.add]. f_equal. symmetry. eapply Nat.pow_inj_r; [|exact En]; lia. }
  split.
  - intros w e Hw He. apply after_Some in He as (S & HS & ->).
    destruct (chosen_rewind ceq enc sel tr (junk_nozk d) V p vals D HE HF 3 [] 3 d w S) as (Hs & GT & HL & _); auto.
    destruct (run (table D w) p) as [[P t] pf] eqn:ER. cbn [fst snd] in *. split; [exact Hs|].
    set (tr1 := tr ++ enc (P, t)) in *. set (p1 := fix_st ceq enc (junk_nozk d) p (P, t)) in *.
    assert (HR1 : forall ro, length (R_vec (run ro p1)) = length (L_vec (run ro p1))).
    { intros ro. apply (fix_cases ceq enc (junk_nozk d) p (P, t) ro (fun pf => length (R_vec pf) = length (L_vec pf))); auto. }
    set (msg := fun u => lastLR (node_hist D S u)). set (fin := leaf_fin ceq (fun pf => pf) p1 D (leaf_tab S)).
    assert (KEY := nozk_key ceq vals tr1 G H Q P t d p1 D (node_hist D S) (leaf_tab S) HR1 HL). cbv zeta in KEY. fold msg fin in KEY.
    destruct (w_alpha_good msg fin vals d [] _ (erase S) GT) as ((N1 & N2 & N3 & D1 & D2) & P1 & P2).
    unfold trees_extract. apply (C16_nozk_special_soundness tr1); auto.
    + intros pa Hp. apply P1 in Hp as (u & _ & Y & ->). apply nozk_yes_along; auto. now apply KEY.
    + intros pa Hp. apply P2 in Hp as (u & _ & Y & ->). apply nozk_yes_along; auto. now apply KEY.
  - apply (fs_counts ceq W tr p vals D [3] 3 d T
      (fun w S => let st := fst (run (table D w) p) in trees_extract (snd st) (w_alpha (fun u => lastLR (node_hist D S u))
                    (leaf_fin ceq (fun pf => pf) (fix_st ceq enc (junk_nozk d) p st) D (leaf_tab S)) d [] (erase S)))
      (2 + 3 * d) K); auto; try (unfold K; cbn; lia).
    + now apply chosen_follows.
    + now apply (chosen_draws ceq enc sel tr V p D HE HF).
Qed.

(** ** Almost-zk argument: the prover chooses C_w and t *)
Definition almzk_chosen_extractor vals tr G H Q d (enc : Point * Scalar -> list event) sel (p : prover ((Point * Scalar) * AlmZK)) D (w : word) :
    option extracted * nat :=
  let V := fun (st : Point * Scalar) tr ro pf => alm_zk_verify ro tr pf G H Q (2 ^ d) (fst st) (snd st) in
  let st := fst (run (table D w) p) in
  after (fun S => beta_extract (snd st) (w_beta (fun u => lastLR (node_hist D S u))
                    (leaf_fin ceq az_NoZK (fix_st ceq enc (junk_alm d) p st) D (leaf_tab S)) d []
                    (lastmsg (node_hist D S [])) (erase S)))
    (fs_rewind ceq (on_chosen enc sel tr V) tr p vals D (3 :: 3 :: repeat 4 d) w).
Theorem C104_almzk_extractor vals tr (G H : list Point) (Q : Point) d (enc : Point * Scalar -> list event) sel
    (p : prover ((Point * Scalar) * AlmZK)) T D :
  let V := fun (st : Point * Scalar) tr ro pf => alm_zk_verify ro tr pf G H Q (2 ^ d) (fst st) (snd st) in
  let W := on_chosen enc sel tr V in
  let E := almzk_chosen_extractor vals tr G H Q d enc sel p D in
  let q := length vals in let N := length D in let K := 9 * 4 ^ d in
  readable enc -> NoDup vals -> length G = 2 ^ d -> length H = 2 ^ d ->
  asks T p -> (forall ro, length (R_vec (az_NoZK (snd (run ro p)))) = length (L_vec (az_NoZK (snd (run ro p))))) ->
  asks_challenges W tr p vals D ->
  (forall w e, In w (words vals N) -> fst (E w) = Some e ->
     let '((Cw, t), pf) := run (table D w) p in sel (Cw, t) = true /\
     match e with
     | Wit a b c => length a = 2 ^ d /\ length b = 2 ^ d /\ c = t /\ Cw = (comb a G + comb b H)%P /\ dotp a b = t
     | Rel g h q => nontrivial_relation (2 ^ d) G H Q g h q
     end) /\
  successes W p vals D <= count (fun w => found (E w)) (words vals N) + (4 + 3 * d) * T * q ^ (N - 1) /\
  total (fun w => snd (E w)) (words vals N) <= (K + T * (K - 1)) * q ^ N.
Proof.
  intros V W E q N K HE HN HG HH HT HR HA.
  assert (HF : forall st tr, sel st = true -> follows (V st tr) tr).
  { intros st tr0 _ ro pf tr' E1. apply C50_almzk_layout in E1 as (P & -> & HF). eauto. }
  assert (HD : forall st tr w e, sel st = true -> fst (run (table D w) p) = st ->
     V st tr (table D w) (snd (run (table D w) p)) = Ok (true, tr ++ e) -> length (drawn tr e) = length [3; 3] + d).
  { intros st tr0 w e _ _ E1. unfold V in E1.
    assert (HV : verdict (alm_zk_verify (table D w) tr0 (snd (run (table D w) p)) G H Q (2 ^ d) (fst st) (snd st))) by (eexists; eauto).
    apply C50_almzk_layout in E1 as (P & Ee & _). apply app_inv_head in Ee. subst e.
    apply C58_almzk_verdict_sized in HV as (_ & _ & _ & En); auto.
    unfold lay_alm. cbn [app drawn length]. rewrite drawn_lay_ipa by auto. cbn [Nat.add].
    do 2 f_equal. symmetry. eapply Nat.pow_inj_r; [|exact En]; lia. }
  split.
  - intros w e Hw He. apply after_Some in He as (S & HS & ->).
    destruct (chosen_rewind ceq enc sel tr (junk_alm d) V p vals D HE HF 3 [3] 3 d w S) as (Hs & GT & HL & _); auto.
    destruct (run (table D w) p) as [[Cw t] pf] eqn:ER. cbn [fst snd] in *. split; [exact Hs|].
    set (tr1 := tr ++ enc (Cw, t)) in *. set (p1 := fix_st ceq enc (junk_alm d) p (Cw, t)) in *.
    assert (HR1 : forall ro, length (R_vec (az_NoZK (run ro p1))) = length (L_vec (az_NoZK (run ro p1)))).
    { intros ro. apply (fix_cases ceq enc (junk_alm d) p (Cw, t) ro (fun pf => length (R_vec (az_NoZK pf)) = length (L_vec (az_NoZK pf)))); auto. }
    set (msg := fun u => lastLR (node_hist D S u)). set (fin := leaf_fin ceq az_NoZK p1 D (leaf_tab S)).
    set (cr := lastmsg (node_hist D S [])).
    assert (KEY := almzk_key ceq vals tr1 G H Q Cw t d p1 D (node_hist D S) (leaf_tab S) HR1 HL). cbv zeta in KEY. fold msg fin cr in KEY.
    destruct (w_beta_good msg fin vals d [] _ cr (erase S) GT) as ((D1 & D2 & D3 & G1 & G2 & G3) & PB).
    unfold beta_extract. set (B := w_beta msg fin d [] cr (erase S)) in *.
    assert (K0 : beta_paths B (fun _ be al pa => alm_accepts_along tr1 G H Q (2 ^ d) Cw t cr be al pa)).
    { revert PB. apply beta_paths_impl. intros c be al pa (_ & u & _ & Y & ->). apply almzk_yes_along; auto. now apply KEY. }
    destruct K0 as (K1 & K2 & K3).
    now apply (C20_almzk_special_soundness tr1 G H Q Cw t (2 ^ d) cr).
  - apply (fs_counts ceq W tr p vals D [3; 3] 3 d T
      (fun w S => let st := fst (run (table D w) p) in beta_extract (snd st) (w_beta (fun u => lastLR (node_hist D S u))
                    (leaf_fin ceq az_NoZK (fix_st ceq enc (junk_alm d) p st) D (leaf_tab S)) d []
                    (lastmsg (node_hist D S [])) (erase S)))
      (4 + 3 * d) K); auto; try (unfold K; cbn; lia).
    + now apply chosen_follows.
    + now apply (chosen_draws ceq enc sel tr V p D HE HF).
Qed.

(** ** Linear-map arguments: the prover chooses A and t *)
Definition lmpa_chosen_extractor vals tr G H Q d (enc : list (list Point) * list Point -> list event) sel
    (p : prover ((list (list Point) * list Point) * LmpaNoZK)) D (w : word) : option word * nat :=
  let V := fun (st : list (list Point) * list Point) tr ro pf => lmpa_verify ro tr pf (fst st) G H Q (2 ^ d) (snd st) in
  let st := fst (run (table D w) p) in
  after (fun S => lm_extract (w_lm (fun u => lastLM (tr ++ enc st) (node_hist D S u))
                    (leaf_w ceq lm_w (fix_st ceq enc junk_lm p st) D (leaf_tab S)) d [] (erase S)))
    (fs_rewind ceq (on_chosen enc sel tr V) tr p vals D (repeat 3 d) w).
Theorem C104_lmpa_extractor vals tr d m (G H : list Point) (Q : Point) (enc : list (list Point) * list Point -> list event) sel
    (p : prover ((list (list Point) * list Point) * LmpaNoZK)) T D :
  let V := fun (st : list (list Point) * list Point) tr ro pf => lmpa_verify ro tr pf (fst st) G H Q (2 ^ d) (snd st) in
  let W := on_chosen enc sel tr V in
  let E := lmpa_chosen_extractor vals tr G H Q d enc sel p D in
  let q := length vals in let N := length D in let K := 3 ^ d in
  readable enc -> NoDup vals -> 1 <= m -> (forall A t, sel (A, t) = true -> rect m (2 ^ d) A) ->
  asks T p -> asks_challenges W tr p vals D ->
  (forall w x, In w (words vals N) -> fst (E w) = Some x ->
     let '((A, t), pf) := run (table D w) p in sel (A, t) = true /\ length x = 2 ^ d /\ comb x (nth 0 A []) = pt t 0) /\
  successes W p vals D <= count (fun w => found (E w)) (words vals N) + 2 * d * T * q ^ (N - 1) /\
  total (fun w => snd (E w)) (words vals N) <= (K + T * (K - 1)) * q ^ N.
Proof.
  intros V W E q N K HE HN Hm HR HT HA.
  assert (HF : forall st tr, sel st = true -> follows (V st tr) tr).
  { intros st tr0 _ ro pf tr' E1. apply C50_lmpa_layout in E1 as (_ & _ & _ & -> & HF'). eauto. }
  assert (HD : forall st tr w e, sel st = true -> fst (run (table D w) p) = st ->
     V st tr (table D w) (snd (run (table D w) p)) = Ok (true, tr ++ e) -> length (drawn tr e) = length (@nil nat) + d).
  { intros st tr0 w e _ _ E1. unfold V in E1. apply C50_lmpa_layout in E1 as (_ & L1 & L2 & Ee & _). apply app_inv_head in Ee. subst e.
    rewrite lay_lmpa_length by auto. cbn [length Nat.add]. now rewrite Nat.log2_pow2 by lia. }
  split.
  - intros w x Hw He. apply after_Some in He as (S & HS & ->). change (on_chosen enc sel tr _) with W in HS.
    set (st := fst (run (table D w) p)) in *.
    assert (Z : sel st = true /\ wgood vals (repeat 3 d) (fun u => is_some (leaf_tab S u)) (erase S) /\
       tree_runs ceq (V st (tr ++ enc st)) (tr ++ enc st) (fix_st ceq enc junk_lm p st) vals D (node_hist D S) (leaf_tab S)).
    { destruct d as [|d'].
      - destruct (fs_tree ceq W tr p vals D [] 2 0 w S) as (GT & HL & _); auto.
        { now apply chosen_follows. }
        { now apply (chosen_draws ceq enc sel tr V p D HE HF). }
        cbn [repeat app] in HS. unfold fs_rewind in HS. cbn [fx fst] in HS.
        destruct (chal_path ceq W tr p D w) as [ps|] eqn:EP; [|discriminate]. injection HS as <-.
        assert (Hs : sel st = true).
        { unfold chal_path in EP. destruct (W (table D w) (run (table D w) p)) as [[[|] tr']| |] eqn:EW; try discriminate.
          now apply (chosen_accepts enc sel tr V HF) in EW as [Hs _]. }
        split; [auto|]. split; [auto|]. apply (chosen_tree ceq enc sel tr junk_lm V p vals D HE HF); auto.
        unfold leaf_tab. intros [|v u] w' Hq; cbn in Hq; [|discriminate]. injection Hq as <-. reflexivity.
      - destruct (chosen_rewind ceq enc sel tr junk_lm V p vals D HE HF 3 [] 2 d' w S) as (Hs & GT & HL & _); auto. }
    destruct Z as (Hs & GT & HL). unfold st in *. clear st HS. destruct (run (table D w) p) as [[A t] pf] eqn:ER. cbn [fst snd] in *. split; [exact Hs|].
    set (tr1 := tr ++ enc (A, t)) in *. set (p1 := fix_st ceq enc junk_lm p (A, t)) in *.
    set (msg := fun u => lastLM tr1 (node_hist D S u)). set (out := leaf_w ceq lm_w p1 D (leaf_tab S)).
    assert (KEY := lmpa_key ceq vals tr1 d A G H Q t p1 D (node_hist D S) (leaf_tab S) HL). cbv zeta in KEY. fold msg out in KEY.
    destruct (w_lm_good msg out vals d [] _ (erase S) GT) as [GS PS].
    apply (C37_lmpa_soundness_row0 tr1 d m A G H Q); auto; try (now apply (HR A t)). intros pa Hq. destruct (PS pa Hq) as (xs & Lw & Hu & ->).
    apply KEY in Hu as [Y _]. unfold lmpa_yes in Y. apply yes_Ok in Y as [tr' Y]. rewrite !map_map in Y.
    exists (coins tr1 xs), tr'. split; [exact Y|]. eapply lm_coins; [symmetry; apply Nat.add_0_r|reflexivity].
  - apply (fs_counts ceq W tr p vals D [] 2 d T
      (fun w S => let st := fst (run (table D w) p) in lm_extract (w_lm (fun u => lastLM (tr ++ enc st) (node_hist D S u))
                    (leaf_w ceq lm_w (fix_st ceq enc junk_lm p st) D (leaf_tab S)) d [] (erase S)))
      (2 * d) K); auto; try (unfold K; cbn; lia).
    + now apply chosen_follows.
    + now apply (chosen_draws ceq enc sel tr V p D HE HF).
Qed.

Definition simplezk_chosen_extractor vals tr G H Q d (enc : list (list Point) * list Point -> list event) sel
    (p : prover ((list (list Point) * list Point) * SimpleZK)) D (w : word) : option word * nat :=
  let V := fun (st : list (list Point) * list Point) tr ro pf => simple_zk_verify ro tr pf (fst st) G H Q (2 ^ d) (snd st) in
  let st := fst (run (table D w) p) in
  after (fun S => let f := w_lm (fun u => lastLM (tr ++ enc st) (node_hist D S u))
                             (leaf_w ceq (fun pf => lm_w (sz_no_zk pf)) (fix_st ceq enc junk_sz p st) D (leaf_tab S)) d in
           match erase S with
           | WNode [(b1, t1); (b2, t2)] => sz_extract b1 (f [b1] t1) b2 (f [b2] t2)
           | _ => [] end)
    (fs_rewind ceq (on_chosen enc sel tr V) tr p vals D (2 :: repeat 3 d) w).
Theorem C104_simplezk_extractor vals tr d m (G H : list Point) (Q : Point) (enc : list (list Point) * list Point -> list event) sel
    (p : prover ((list (list Point) * list Point) * SimpleZK)) T D :
  let V := fun (st : list (list Point) * list Point) tr ro pf => simple_zk_verify ro tr pf (fst st) G H Q (2 ^ d) (snd st) in
  let W := on_chosen enc sel tr V in
  let E := simplezk_chosen_extractor vals tr G H Q d enc sel p D in
  let q := length vals in let N := length D in let K := 2 * 3 ^ d in
  readable enc -> NoDup vals -> 1 <= m -> (forall A t, sel (A, t) = true -> rect m (2 ^ d) A) ->
  asks T p -> asks_challenges W tr p vals D ->
  (forall w x, In w (words vals N) -> fst (E w) = Some x ->
     let '((A, t), pf) := run (table D w) p in sel (A, t) = true /\ length x = 2 ^ d /\ comb x (nth 0 A []) = pt t 0) /\
  successes W p vals D <= count (fun w => found (E w)) (words vals N) + (1 + 2 * d) * T * q ^ (N - 1) /\
  total (fun w => snd (E w)) (words vals N) <= (K + T * (K - 1)) * q ^ N.
Proof.
  intros V W E q N K HE HN Hm HR HT HA.
  assert (HF : forall st tr, sel st = true -> follows (V st tr) tr).
  { intros st tr0 _ ro pf tr' E1. apply C50_simplezk_layout in E1 as (_ & _ & _ & -> & HF'). eauto. }
  assert (HD : forall st tr w e, sel st = true -> fst (run (table D w) p) = st ->
     V st tr (table D w) (snd (run (table D w) p)) = Ok (true, tr ++ e) -> length (drawn tr e) = length [2] + d).
  { intros st tr0 w e _ _ E1. unfold V in E1. apply C50_simplezk_layout in E1 as (_ & L1 & L2 & Ee & _). apply app_inv_head in Ee. subst e.
    unfold lay_simple. rewrite drawn_app, drawn_msgs. cbn [app drawn length]. rewrite lay_lmpa_length by auto.
    now rewrite Nat.log2_pow2 by lia. }
  split.
  - intros w x Hw He. apply after_Some in He as (S & HS & ->).
    destruct (chosen_rewind ceq enc sel tr junk_sz V p vals D HE HF 2 [] 2 d w S) as (Hs & GT & HL & _); auto.
    destruct (run (table D w) p) as [[A t] pf] eqn:ER. cbn [fst snd] in *. split; [exact Hs|].
    set (tr1 := tr ++ enc (A, t)) in *. set (p1 := fix_st ceq enc junk_sz p (A, t)) in *.
    set (msg := fun u => lastLM tr1 (node_hist D S u)). set (out := leaf_w ceq (fun pf => lm_w (sz_no_zk pf)) p1 D (leaf_tab S)).
    set (a := lasta tr1 (node_hist D S [])).
    assert (KEY := simplezk_key ceq vals tr1 d A G H Q t p1 D (node_hist D S) (leaf_tab S) HL). cbv zeta in KEY. fold msg out a in KEY.
    cbn zeta. destruct (erase S) as [kids].
    destruct GT as (KL & KN & _ & KV). destruct kids as [|[b1 t1] [|[b2 t2] [|? ?]]]; try discriminate.
    destruct (w_lm_good msg out vals d [b1] _ t1 (KV b1 t1 (or_introl eq_refl))) as [G1 P1].
    destruct (w_lm_good msg out vals d [b2] _ t2 (KV b2 t2 (or_intror (or_introl eq_refl)))) as [G2 P2].
    assert (Hb : b1 <> b2). { inversion KN as [|? ? N1 _]; subst. intros ->. apply N1. now left. }
    assert (K0 : forall b u, simplezk_yes tr1 A G H Q (2 ^ d) t a msg out (b :: u) = true ->
               sz_accepts_along tr1 A G H Q (2 ^ d) t a b (st_lm msg out [b] u)).
    { intros b u Y. unfold simplezk_yes in Y. apply yes_Ok in Y as [tr' Y]. rewrite !map_map in Y.
      exists (coins tr1 (b :: u)), tr'. split; [exact Y|].
      assert (N1 : nchal (sz_hist tr1 a) = nchal tr1 + 1) by (unfold sz_hist; rewrite !nchal_app, nchal_msgs; reflexivity).
      split; [now apply (coins_is 0)|]. eapply lm_coins; [exact N1|reflexivity]. }
    apply (C42_simple_zk_soundness_row0 tr1 d m A G H Q t a); auto; try (now apply (HR A t)).
    + intros pa Hp. destruct (P1 pa Hp) as (u & _ & Y & ->). apply K0. now apply KEY.
    + intros pa Hp. destruct (P2 pa Hp) as (u & _ & Y & ->). apply K0. now apply KEY.
  - apply (fs_counts ceq W tr p vals D [2] 2 d T
      (fun w S => let st := fst (run (table D w) p) in
         let f := w_lm (fun u => lastLM (tr ++ enc st) (node_hist D S u))
                             (leaf_w ceq (fun pf => lm_w (sz_no_zk pf)) (fix_st ceq enc junk_sz p st) D (leaf_tab S)) d in
           match erase S with
           | WNode [(b1, t1); (b2, t2)] => sz_extract b1 (f [b1] t1) b2 (f [b2] t2)
           | _ => [] end)
      (1 + 2 * d) K); auto; try (unfold K; cbn; lia).
    + now apply chosen_follows.
    + now apply (chosen_draws ceq enc sel tr V p D HE HF).
Qed.

(** ** QESA: the prover chooses the system of equations and outputs openings as in C79; the extractor
    returns a relation, or finds none and the system of the first run holds for its opening *)
Definition qesa_chosen_extractor vals tr G H Q n d (enc : list (list (list Scalar)) -> list event) sel
    (p : prover (list (list (list Scalar)) * (Inner * (list Scalar * list Scalar)))) D (w : word) :
    option (option (list Scalar * list Scalar * Scalar)) * nat :=
  let V := fun Ms tr ro (o : Inner * (list Scalar * list Scalar)) => inner_verify ro tr (fst o) G H Q (mkBlockMatrix Ms) in
  let Ms := fst (run (table D w) p) in
  let p1 := fix_st ceq enc (junk_q n d G H) p Ms in
  after (fun S => match erase S with WNode q => find (is_relation n G H Q)
           (cat_some (map (fun '(x, T) =>
              q_compare n Ms x (w_sb (fun u => lastLR (node_hist D S u)) (leaf_fin ceq (fun o => az_NoZK (alm_zk (fst o))) p1 D (leaf_tab S)) d [x]
                                  (fun u => lastmsg (node_hist D S u)) T)
                (fst (snd (run (table D w) p1)))
                (match below S [x] with Some w1 => snd (snd (run (table D w1) p1)) | None => [] end)) (nonzero q))) end)
    (fs_rewind ceq (on_chosen enc sel tr V) tr p vals D (S n :: n - 1 :: 3 :: 3 :: 3 :: repeat 4 d) w).
Theorem C104_qesa_extractor vals tr (G H : list Point) (Q : Point) n d (enc : list (list (list Scalar)) -> list event) sel
    (p : prover (list (list (list Scalar)) * (Inner * (list Scalar * list Scalar)))) T D :
  let V := fun Ms tr ro (o : Inner * (list Scalar * list Scalar)) => inner_verify ro tr (fst o) G H Q (mkBlockMatrix Ms) in
  let W := on_chosen enc sel tr V in
  let E := qesa_chosen_extractor vals tr G H Q n d enc sel p D in
  let q := length vals in let N := length D in let K := 27 * S n * n ^ 3 in
  readable enc -> NoDup vals -> n = 2 ^ d -> 3 <= n -> length G = n -> length H = n ->
  (forall Ms, sel Ms = true -> 1 <= length Ms /\ Forall (rect (n - 2) (n - 2)) Ms) ->
  asks T p -> (forall ro, qesa_opened n G H (snd (run ro p))) -> asks_challenges W tr p vals D ->
  (forall w e, In w (words vals N) -> fst (E w) = Some e ->
     let '(Ms, (pf, (w', u))) := run (table D w) p in sel Ms = true /\
     match e with
     | Some (g, h, q) => nontrivial_relation n G H Q g h q
     | None => forall t, t < min (length Ms) n -> quad (nth t Ms []) (firstn (n - 2) w') = s0
     end) /\
  successes W p vals D <= count (fun w => found (E w)) (words vals N) + (2 * n + 4 + 3 * d) * T * q ^ (N - 1) /\
  total (fun w => snd (E w)) (words vals N) <= (K + T * (K - 1)) * q ^ N.
Proof.
  intros V W E q N K HE HN Hd Hn HG HH HSl HT HO HA.
  assert (HF : forall Ms tr, sel Ms = true -> follows (V Ms tr) tr).
  { intros Ms tr0 _ ro o tr' E1. apply C50_qesa_layout in E1 as (Cw & P & -> & HF'). eauto. }
  assert (HRp : forall ro, length (R_vec (az_NoZK (alm_zk (fst (snd (run ro p)))))) = length (L_vec (az_NoZK (alm_zk (fst (snd (run ro p))))))).
  { intros ro. generalize (HO ro). destruct (snd (run ro p)) as [pf [w' u]]. intros Z. apply Z. }
  assert (HD : forall Ms tr w e, sel Ms = true -> fst (run (table D w) p) = Ms ->
     V Ms tr (table D w) (snd (run (table D w) p)) = Ok (true, tr ++ e) -> length (drawn tr e) = length [S n; n - 1; 3; 3; 3] + d).
  { intros Ms tr0 w e Hs _ E1. destruct (HSl Ms Hs) as [HM HR]. unfold V in E1.
    assert (HV : verdict (inner_verify (table D w) tr0 (fst (snd (run (table D w) p))) G H Q (mkBlockMatrix Ms))) by (eexists; eauto).
    apply C50_qesa_layout in E1 as (Cw & P & Ee & _). apply app_inv_head in Ee. subst e.
    apply (C58_qesa_verdict _ _ _ _ _ _ _ n) in HV as (_ & _ & (_ & _ & _ & En)); auto.
    unfold lay_inner, lay_alm. cbn [app drawn length]. rewrite drawn_lay_ipa by auto. cbn [Nat.add].
    do 5 f_equal. symmetry. rewrite Hd in En. eapply Nat.pow_inj_r; [|exact En]; lia. }
  assert (F5 : Forall (fun k => 1 <= k) [S n; n - 1; 3; 3; 3]) by (repeat (apply Forall_cons; [lia|]); apply Forall_nil).
  split.
  - intros w e Hw He. apply after_Some in He as (S & HS & Ee).
    destruct (chosen_rewind ceq enc sel tr (junk_q n d G H) V p vals D HE HF (Datatypes.S n) [n - 1; 3; 3; 3] 3 d w S) as (Hs & GT & HL & HB & _); auto.
    assert (RW := run_fix ceq enc (junk_q n d G H) p (table D w) _ HE eq_refl).
    destruct HB as (e0 & B1 & B2). assert (B3 := qesa_root _ _ _ _ _ _ _ _ _ B1 B2).
    set (Ms := fst (run (table D w) p)) in *. destruct (HSl Ms Hs) as [HM HR].
    set (tr1 := tr ++ enc Ms) in *. set (p1 := fix_st ceq enc (junk_q n d G H) p Ms) in *.
    assert (HO1 : forall ro, qesa_opened n G H (run ro p1)).
    { intros ro. apply (fix_cases ceq enc (junk_q n d G H) p Ms ro (qesa_opened n G H)); auto. apply junk_q_opened. lia. }
    assert (HR1 : forall ro, length (R_vec (az_NoZK (alm_zk (fst (run ro p1))))) = length (L_vec (az_NoZK (alm_zk (fst (run ro p1)))))).
    { intros ro. generalize (HO1 ro). destruct (run ro p1) as [pf [w' u]]. intros Z. apply Z. }
    assert (HO' : forall ro, length (fst (snd (run ro p1))) = n /\ sc (fst (snd (run ro p1))) 0 = s1 /\
       decompress (c_prime_w (fst (run ro p1))) = Some (comb (fst (snd (run ro p1))) G) /\
       length (snd (snd (run ro p1))) = n /\ decompress (c_prime_prime_w (fst (run ro p1))) = Some (comb (snd (snd (run ro p1))) H)).
    { intros ro. generalize (HO1 ro). destruct (run ro p1) as [pf [w' u]]. intros Z. apply Z. }
    rewrite <- RW in B3.
    assert (KEY := qesa_key ceq fst vals tr1 G H Q n d Ms p1 D (node_hist D S) (leaf_tab S) HR1 HL). cbv zeta in KEY.
    set (msg := fun u => lastLR (node_hist D S u)) in *. set (fin := leaf_fin ceq (fun o => az_NoZK (alm_zk (fst o))) p1 D (leaf_tab S)) in *.
    set (cr := fun u => lastmsg (node_hist D S u)) in *. set (c2 := fun x => lastmsg (node_hist D S [x])) in *.
    set (c1 := lastmsg (node_hist D S [])) in *.
    set (uu := fun x => match below S [x] with Some w1 => snd (snd (run (table D w1) p1)) | None => [] end).
    destruct (HO' (table D w)) as (Lw & H0 & D1 & _ & _). rewrite <- B3 in D1.
    assert (SPL : forall R : bool -> word -> Prop, R (sel Ms) (fst (snd (run (table D w) p1))) ->
              let '(Ms', (pf, (w', u))) := run (table D w) p in Ms' = Ms /\ R (sel Ms') w').
    { intros R. rewrite RW. unfold Ms. destruct (run (table D w) p) as [Ms' [pf [w' u]]]. cbn. auto. }
    set (w' := fst (snd (run (table D w) p1))) in *.
    set (m := min (length Ms) n).
    enough (GOAL : match e with Some (g, h, q) => nontrivial_relation n G H Q g h q
              | None => forall t, t < m -> quad (nth t Ms []) (firstn (n - 2) w') = s0 end).
    { assert (X := SPL (fun b v => b = true /\ v = w') (conj Hs eq_refl)). clearbody Ms. destruct (run (table D w) p) as [Ms' [pf [v u]]].
      destruct X as (EM & X & EV). split; [exact X|]. rewrite EM, EV. exact GOAL. }
    clear SPL. subst e.
    destruct (erase S) as [kids] eqn:ES. assert (GT' := GT). rewrite <- ES in GT'. destruct GT as (KL & KN & _ & KV).
    assert (HU : forall x T0, In (x, T0) kids -> length (uu x) = n /\ decompress (c2 x) = Some (comb (uu x) H)).
    { intros x T0 HI. destruct (below_leaf vals ([n - 1; 3; 3; 3] ++ repeat 4 d) (Datatypes.S n) S kids x T0) as (u1 & w1 & U1 & U2 & U3); auto.
      { apply Forall_app. split; [repeat (apply Forall_cons; [lia|]); apply Forall_nil|]. apply Forall_forall. intros j Hj. apply repeat_spec in Hj. lia. }
      unfold uu. rewrite U2. destruct (HO' (table D w1)) as (_ & _ & _ & Z4 & Z5). split; [exact Z4|].
      replace (c2 x) with (c_prime_prime_w (fst (run (table D w1) p1))); [exact Z5|].
      destruct u1 as [|s [|b [|be [|al xs]]]]; try discriminate.
      destruct (HL _ _ U3) as (_ & e1 & E1 & _ & E3 & _). unfold V in E1. apply C50_qesa_layout in E1 as (Cw & P & Ee1 & _).
      apply app_inv_head in Ee1. subst e1. unfold lay_inner in E3. cbn [app drawn st_msgs map fst] in E3. injection E3 as _ Es _.
      unfold c2. rewrite <- Es. symmetry. apply lastmsg_app. }
    set (cands := map _ (nonzero kids)).
    destruct (find (is_relation n G H Q) (cat_some cands)) as [[[g h] r]|] eqn:EF.
    + apply find_some in EF as [_ EF]. now apply is_relation_ok in EF.
    + destruct (C24_qesa_soundness tr1 G H Q n Ms c1 w'
                  (map (fun '(x, T) => (x, c2 x, uu x, w_sb msg fin d [x] cr T)) (nonzero kids)))
        as [(x & c & v & T0 & g & h & r & HI & HQ & HRl)|HSy]; auto.
      * rewrite map_length. assert (X := nonzero_length kids KN). lia.
      * rewrite map_map. erewrite map_ext; [apply (nonzero_NoDup kids KN)|]. now intros [x T0].
      * intros x c v T0 HI. apply in_map_iff in HI as ([x' T'] & EQ & HI). injection EQ as -> <- <- <-.
        apply nonzero_In in HI as [HI Hx]. destruct (HU x T' HI) as [Lu Du].
        destruct (w_sb_good msg fin vals d n [x] _ cr T' (KV x T' HI)) as [GS PS].
        split; [auto|]. split; [auto|]. split; [auto|]. split; [auto|].
        intros s b B HB. apply PS in HB. revert HB. apply beta_paths_impl.
        intros cr' be al pa (-> & xs & _ & Hu & ->). apply KEY in Hu as [Y _]. now apply (qesa_yes_along tr1 G H Q n Ms c1 c2 cr msg fin).
      * exfalso. apply in_map_iff in HI as ([x' T'] & EQ & HI). injection EQ as -> <- <- <-.
        revert EF. apply (find_cat _ _ (g, h, r)); [|now apply is_relation_ok].
        unfold cands. apply in_map_iff. exists (x, T'). split; [exact HQ|exact HI].
  - assert (E4 : 4 ^ d = n * n) by (rewrite Hd, <- Nat.pow_mul_l; reflexivity).
    apply (fs_counts ceq W tr p vals D [S n; n - 1; 3; 3; 3] 3 d T
      (fun w S => let Ms := fst (run (table D w) p) in let p1 := fix_st ceq enc (junk_q n d G H) p Ms in
         match erase S with WNode q => find (is_relation n G H Q)
           (cat_some (map (fun '(x, T) =>
              q_compare n Ms x (w_sb (fun u => lastLR (node_hist D S u)) (leaf_fin ceq (fun o => az_NoZK (alm_zk (fst o))) p1 D (leaf_tab S)) d [x]
                                  (fun u => lastmsg (node_hist D S u)) T)
                (fst (snd (run (table D w) p1)))
                (match below S [x] with Some w1 => snd (snd (run (table D w1) p1)) | None => [] end)) (nonzero q))) end)
      (2 * n + 4 + 3 * d) K); auto.
    + now apply chosen_follows.
    + now apply (chosen_draws ceq enc sel tr V p D HE HF).
    + cbn. lia.
    + unfold K. rewrite E4. unfold prodn. cbn [fold_right Nat.pow].
      replace (S n * ((n - 1) * (3 * (3 * (3 * 1)))) * (n * n)) with (27 * S n * ((n - 1) * (n * n))) by lia.
      replace (27 * S n * (n * (n * (n * 1)))) with (27 * S n * (n * (n * n))) by lia.
      apply Nat.mul_le_mono_l, Nat.mul_le_mono_r. lia.
Qed.
(** ** Copy argument: the prover chooses the equations and the message commitments; [msgs] and [rs]
    open the commitments of each statement *)
Notation cstmt := (list (list (list Scalar)) * list Point)%type.
Definition copy_chosen_extractor vals tr G H Q n d sets mp msgs rs (enc : cstmt -> list event) sel
    (p : prover (cstmt * (Copy * (list Scalar * list Scalar)))) D (w : word) : option (option (word * word * Scalar)) * nat :=
  let V := fun (st : cstmt) tr ro (o : Copy * (list Scalar * list Scalar)) => copy_verify ro tr (fst o) G H Q (mkBlockMatrix (fst st)) mp (snd st) in
  let st := fst (run (table D w) p) in
  let p1 := fix_st ceq enc (junk_cp n d G H) p st in
  after (fun S => match erase S with WNode kids => find (is_relation n G H Q)
           (cat_some (copy_candidates n (fst st) mp sets (msgs st) (rs st) (fst (snd (run (table D w) p1)))
              (fun a0 x => match below S [a0; x] with Some w1 => snd (snd (run (table D w1) p1)) | None => [] end)
              (fun u => lastLR (node_hist D S u)) (leaf_fin ceq (fun o => az_NoZK (alm_zk (cp_inner (fst o)))) p1 D (leaf_tab S))
              (fun u => lastmsg (node_hist D S u)) d kids)) end)
    (fs_rewind ceq (on_chosen enc sel tr V) tr p vals D (S (2 * length sets) :: S n :: n - 1 :: 3 :: 3 :: 3 :: repeat 4 d) w).
Theorem C104_copy_extractor vals tr (G H : list Point) (Q : Point) n d (ws : N) (sets : list (list N)) mp
    (msgs : cstmt -> list (list Scalar)) (rs : cstmt -> list Scalar) (enc : cstmt -> list event) sel
    (p : prover (cstmt * (Copy * (list Scalar * list Scalar)))) T D :
  let V := fun (st : cstmt) tr ro (o : Copy * (list Scalar * list Scalar)) => copy_verify ro tr (fst o) G H Q (mkBlockMatrix (fst st)) mp (snd st) in
  let W := on_chosen enc sel tr V in
  let E := copy_chosen_extractor vals tr G H Q n d sets mp msgs rs enc sel p D in
  let q := length vals in let N := length D in let K := 27 * S (2 * length sets) * S n * n ^ 3 in
  readable enc -> NoDup vals -> n = 2 ^ d -> 3 <= n -> (N.of_nat n < 65536)%N -> (ws < 65536)%N -> (N.of_nat (length sets) <= 65536)%N ->
  length G = n -> length H = n ->
  (forall s i, In s sets -> In i s -> 1 <= N.to_nat i < n - 2) -> Forall (@NoDup BinNums.N) sets ->
  compute_mapping (N.of_nat n) ws sets = Ok mp ->
  (forall Ms Cs, sel (Ms, Cs) = true -> Forall (rect (n - 2) (n - 2)) Ms /\ length Ms + length (unique_commitment_indices mp) <= n /\
     length Cs = length sets /\
     forall k, k < length sets -> commit G (nth k sets []) (nth k (msgs (Ms, Cs)) []) (sc (rs (Ms, Cs)) k) = Ok (pt Cs k)) ->
  asks T p -> (forall ro, copy_opened n G H (snd (run ro p))) -> asks_challenges W tr p vals D ->
  (forall w e, In w (words vals N) -> fst (E w) = Some e ->
     let st := fst (run (table D w) p) in let w' := fst (snd (snd (run (table D w) p))) in sel st = true /\
     match e with
     | Some (g, h, q) => nontrivial_relation n G H Q g h q
     | None =>
       (forall M, In M (fst st) -> quad M (firstn (n - 2) w') = s0) /\
       (forall k j, k < length sets -> j < length (nth k sets []) ->
          exists mm, nth_error (msgs_map mp) (cm_offset sets k + j) = Some mm /\
            sc (nth k (msgs st) []) j = sc w' (mpos mm)) /\
       (forall s i, In s sets -> In i s -> sc w' (N.to_nat i) = s0)
     end) /\
  successes W p vals D <= count (fun w => found (E w)) (words vals N) + (2 * length sets + 2 * n + 4 + 3 * d) * T * q ^ (N - 1) /\
  total (fun w => snd (E w)) (words vals N) <= (K + T * (K - 1)) * q ^ N.
Proof.
  intros V W E q N K HE HN Hd Hn Hn16 Hws HSz HG HH Hidx HND Emp HSl HT HO HA.
  destruct (compute_mapping_good n ws sets mp Hn16 Hws Emp HSz) as (HMap & _ & _).
  { intros s i Hs Hi. apply (Hidx s i Hs Hi). }
  assert (HT1 : 1 <= cm_total sets) by (apply compute_mapping_inv in Emp as (_ & HT' & _); exact HT').
  assert (HS1 : 1 <= length sets) by (destruct sets; [cbn in HT1; lia|cbn; lia]).
  assert (Hmsgs : length (msgs_map mp) = cm_total sets).
  { destruct (C29_metadata _ _ sets _ ltac:(lia) Emp) as (_ & Z & _). exact Z. }
  assert (HRp : forall ro, length (R_vec (az_NoZK (alm_zk (cp_inner (fst (snd (run ro p))))))) = length (L_vec (az_NoZK (alm_zk (cp_inner (fst (snd (run ro p)))))))).
  { intros ro. generalize (HO ro). destruct (snd (run ro p)) as [pf [w' u]]. intros Z. apply Z. }
  assert (HFo : forall st tr, sel st = true -> follows (V st tr) tr).
  { intros st tr0 _ ro o tr' E1. apply C50_copy_layout in E1 as (Ca & Cw & P & -> & HF'). eauto. }
  set (ks := [S n; n - 1; 3; 3; 3]).
  assert (HD : forall st tr w e, sel st = true -> fst (run (table D w) p) = st ->
     V st tr (table D w) (snd (run (table D w) p)) = Ok (true, tr ++ e) -> length (drawn tr e) = length (S (2 * length sets) :: ks) + d).
  { intros [Ms Cs] tr0 w e Hs _ E1. destruct (HSl Ms Cs Hs) as (HF & HM & LC & _). unfold V in E1. cbn [fst snd] in E1.
    assert (HVd : verdict (copy_verify (table D w) tr0 (fst (snd (run (table D w) p))) G H Q (mkBlockMatrix Ms) mp Cs)) by (eexists; eauto).
    apply C50_copy_layout in E1 as (Ca & Cw & P & Ee & _). apply app_inv_head in Ee. subst e.
    apply (C58_copy_verdict _ _ _ _ _ _ _ _ _ n) in HVd as (_ & _ & (_ & _ & _ & En)); auto; try (rewrite LC; auto); [|rewrite Hmsgs; lia].
    unfold lay_copy, lay_inner, lay_alm. cbn [app drawn length alm_zk]. rewrite drawn_lay_ipa by auto. unfold ks. cbn [length Nat.add].
    do 6 f_equal. symmetry. rewrite Hd in En. eapply Nat.pow_inj_r; [|exact En]; lia. }
  assert (F5 : Forall (fun k => 1 <= k) ([n - 1; 3; 3; 3] ++ repeat 4 d)).
  { apply Forall_app. split; [repeat (apply Forall_cons; [lia|]); apply Forall_nil|]. apply Forall_forall. intros k Hk. apply repeat_spec in Hk. lia. }
  assert (F6 : Forall (fun k => 1 <= k) (S (2 * length sets) :: ks)) by (unfold ks; repeat (apply Forall_cons; [lia|]); apply Forall_nil).
  split.
  - intros w e Hw He. apply after_Some in He as (S & HS & Ee).
    destruct (chosen_rewind ceq enc sel tr (junk_cp n d G H) V p vals D HE HFo (Datatypes.S (2 * length sets)) ks 3 d w S) as (Hs & GT & HL & HB & _); auto.
    assert (RW := run_fix ceq enc (junk_cp n d G H) p (table D w) _ HE eq_refl).
    destruct HB as (e0 & B1 & B2). intros st. cbv zeta. fold st in Hs, HL, RW, B1, B2, Ee |- *. split; [exact Hs|].
    set (Ms := fst st) in *. set (Cs := snd st) in *.
    assert (Hs' := Hs). rewrite (surjective_pairing st) in Hs'. destruct (HSl Ms Cs Hs') as (HF & HM & LC & HCm).
    replace (Ms, Cs) with st in HCm by apply surjective_pairing. set (m := length Ms + length (unique_commitment_indices mp)) in *.
    set (tr1 := tr ++ enc st) in *. set (p1 := fix_st ceq enc (junk_cp n d G H) p st) in *.
    assert (HO1 : forall ro, copy_opened n G H (run ro p1)).
    { intros ro. apply (fix_cases ceq enc (junk_cp n d G H) p st ro (copy_opened n G H)); auto. apply junk_cp_opened. lia. }
    assert (HR1 : forall ro, length (R_vec (az_NoZK (alm_zk (cp_inner (fst (run ro p1)))))) = length (L_vec (az_NoZK (alm_zk (cp_inner (fst (run ro p1))))))).
    { intros ro. generalize (HO1 ro). destruct (run ro p1) as [pf [w' u]]. intros Z. apply Z. }
    assert (HO' : forall ro, length (fst (snd (run ro p1))) = n /\ sc (fst (snd (run ro p1))) 0 = s1 /\
       decompress (cp_C_w (fst (run ro p1))) = Some (comb (fst (snd (run ro p1))) G) /\
       length (snd (snd (run ro p1))) = n /\
       decompress (c_prime_prime_w (cp_inner (fst (run ro p1)))) = Some (comb (snd (snd (run ro p1))) H)).
    { intros ro. generalize (HO1 ro). destruct (run ro p1) as [pf [w' u]]. intros Z. apply Z. }
    assert (B3 : lastmsg (node_hist D S []) = cp_C_w (fst (run (table D w) p1))).
    { rewrite RW. unfold V in B1. apply C50_copy_layout in B1 as (Ca & Cw & P & Ee1 & _). apply app_inv_head in Ee1. subst e0.
      unfold lay_copy in B2. cbn [app drawn nth_error] in B2. injection B2 as <-. apply lastmsg_app. }
    rewrite <- RW. subst e. clear RW B1 B2.
    assert (KEY := copy_key ceq vals tr1 G H Q Ms mp Cs p1 D (node_hist D S) (leaf_tab S) HR1 HL). cbv zeta in KEY.
    set (msg := fun u => lastLR (node_hist D S u)) in *. set (fin := leaf_fin ceq (fun o => az_NoZK (alm_zk (cp_inner (fst o)))) p1 D (leaf_tab S)) in *.
    set (cr := fun u => lastmsg (node_hist D S u)) in *. set (c2 := fun a0 x => lastmsg (node_hist D S [a0; x])) in *.
    set (cw := lastmsg (node_hist D S [])) in *. set (c1' := compress p0) in *.
    set (uu := fun a0 x => match below S [a0; x] with Some w1 => snd (snd (run (table D w1) p1)) | None => [] end).
    destruct (HO' (table D w)) as (Lw & H0 & D1 & _ & _). rewrite <- B3 in D1. set (w' := fst (snd (run (table D w) p1))) in *.
    destruct (erase S) as [kids] eqn:ES. destruct GT as (KL & KN & _ & KV).
    assert (HU : forall a0 xs x T0, In (a0, WNode xs) kids -> In (x, T0) xs -> length (uu a0 x) = n /\ decompress (c2 a0 x) = Some (comb (uu a0 x) H)).
    { intros a0 xs x T0 HI HJ. destruct (kid_under S kids a0 (WNode xs) ES KN HI) as (t1 & X1 & X2 & X3).
      assert (GX := KV a0 _ HI).
      destruct (below_leaf vals ([n - 1; 3; 3; 3] ++ repeat 4 d) (Datatypes.S n) t1 xs x T0) as (u1 & w1 & U1 & U2 & U3); auto.
      { rewrite X1. revert GX. apply wgood_ext. intros u. now rewrite X2. }
      unfold uu. rewrite X3, U2. destruct (HO' (table D w1)) as (_ & _ & _ & Z4 & Z5). split; [exact Z4|].
      replace (c2 a0 x) with (c_prime_prime_w (cp_inner (fst (run (table D w1) p1)))); [exact Z5|].
      destruct u1 as [|s [|b [|be [|al ys]]]]; try discriminate. rewrite <- X2 in U3.
      destruct (HL _ _ U3) as (_ & e1 & E1 & _ & E3 & _). unfold V in E1. apply C50_copy_layout in E1 as (Ca & Cw & P & Ee1 & _).
      apply app_inv_head in Ee1. subst e1. unfold lay_copy, lay_inner in E3. cbn [app drawn st_msgs map fst c_prime_prime_w] in E3. injection E3 as _ _ Es _.
      unfold c2. rewrite <- Es. symmetry. apply lastmsg_app. }
    set (cands := copy_candidates _ _ _ _ _ _ _ _ _ _ _ _ kids).
    destruct (find (is_relation n G H Q) (cat_some cands)) as [[[g h] r]|] eqn:EF.
    + apply find_some in EF as [_ EF]. now apply is_relation_ok in EF.
    + set (runs := fun a0 (t : wtree Scalar) => let 'WNode xs := t in
               map (fun '(x, T) => (x, c2 a0 x, uu a0 x, w_sb msg fin d [a0; x] cr T)) (nonzero xs)).
      destruct (C64_copy_soundness tr1 G H Q n Ms ws sets mp (msgs st) (rs st) Cs cw w' (map (fun '(a0, t) => (a0, runs a0 t)) kids))
        as [(a0 & rn & x & c & v & T0 & g & h & r & HI & HJ & HQ & HRl)|HSy]; auto.
      * rewrite map_map. erewrite map_ext; [exact KN|]. now intros [a0 t].
      * rewrite map_length, KL. lia.
      * intros a0 rn HI. apply in_map_iff in HI as ([a [xs]] & EQ & HI). injection EQ as -> <-.
        destruct (KV a0 _ HI) as (XL & XN & _ & XV). unfold runs.
        split; [rewrite map_length; assert (X := nonzero_length xs XN); lia|]. split.
        { rewrite map_map. erewrite map_ext; [apply (nonzero_NoDup xs XN)|]. now intros [x T0]. }
        intros x c v T0 HJ. apply in_map_iff in HJ as ([x' T'] & EQ & HJ). injection EQ as -> <- <- <-.
        apply nonzero_In in HJ as [HJ Nx].
        destruct (w_sb_good msg fin vals d n [a0; x] (fun u => is_some (leaf_tab S (a0 :: x :: u))) cr T' (XV x T' HJ)) as [GS PS].
        destruct (HU a0 xs x T' HI HJ) as [Lu Du]. split; [auto|]. split; [auto|]. split; [auto|]. split; [auto|].
        intros s b B HB. apply PS in HB. revert HB. apply beta_paths_impl.
        intros cr' be al pa (-> & ys & _ & Y & ->). apply KEY in Y as [Y _].
        eapply (copy_yes_along tr1 G H Q n Ms mp Cs cw c1' c2 cr msg fin); eauto; try (rewrite LC; auto).
        rewrite Hmsgs. lia.
      * exfalso. apply in_map_iff in HI as ([a [xs]] & EQ & HI). injection EQ as -> <-.
        apply in_map_iff in HJ as ([x' T'] & EQ & HJ). injection EQ as -> <- <- <-.
        revert EF. apply (find_cat _ _ (g, h, r)); [|now apply is_relation_ok].
        unfold cands, copy_candidates. apply in_flat_map. exists (a0, WNode xs). split; [exact HI|].
        apply in_map_iff. exists (x, T'). split; [exact HQ|exact HJ].
  - assert (E4 : 4 ^ d = n * n) by (rewrite Hd, <- Nat.pow_mul_l; reflexivity).
    apply (fs_counts ceq W tr p vals D (S (2 * length sets) :: ks) 3 d T
      (fun w S => let st := fst (run (table D w) p) in let p1 := fix_st ceq enc (junk_cp n d G H) p st in
         match erase S with WNode kids => find (is_relation n G H Q)
           (cat_some (copy_candidates n (fst st) mp sets (msgs st) (rs st) (fst (snd (run (table D w) p1)))
              (fun a0 x => match below S [a0; x] with Some w1 => snd (snd (run (table D w1) p1)) | None => [] end)
              (fun u => lastLR (node_hist D S u)) (leaf_fin ceq (fun o => az_NoZK (alm_zk (cp_inner (fst o)))) p1 D (leaf_tab S))
              (fun u => lastmsg (node_hist D S u)) d kids)) end)
      (2 * length sets + 2 * n + 4 + 3 * d) K); auto.
    + now apply chosen_follows.
    + now apply (chosen_draws ceq enc sel tr V p D HE HFo).
    + unfold ks, slack; cbn [map list_sum fold_right pred]; lia.
    + unfold K, ks. rewrite E4. unfold prodn. cbn [fold_right Nat.pow]. set (k := length sets). clearbody k. clear -Hn.
      replace (S (2 * k) * (S n * ((n - 1) * (3 * (3 * (3 * 1))))) * (n * n)) with (27 * S (2 * k) * S n * ((n - 1) * (n * n))) by lia.
      replace (27 * S (2 * k) * S n * (n * (n * (n * 1)))) with (27 * S (2 * k) * S n * (n * (n * n))) by lia.
      apply Nat.mul_le_mono_l, Nat.mul_le_mono_r. lia.
Qed.

(** ** With random generators: discrete logarithms *)
Theorem C104_nozk_dlog vals tr d (B X : Point) (x : Scalar) (enc : Point * Scalar -> list event) sel
    (p : list Point -> prover ((Point * Scalar) * NoZK)) T (D : list Point -> list transcript) M :
  let n := 2 ^ d in let N := 2 * n + 1 in let q := length vals in let K := 3 * 4 ^ d in
  let V := fun gs (st : Point * Scalar) tr ro pf => no_zk_verify ro tr pf (gG n gs) (gH n gs) (gQ n gs) n (fst st) (snd st) in
  let Wf := fun gs => on_chosen enc sel tr (V gs) in
  let E := fun gs => nozk_chosen_extractor vals tr (gG n gs) (gH n gs) (gQ n gs) d enc sel (p gs) (D gs) in
  let W := words vals M in
  readable enc -> NoDup vals -> (forall v, In v vals) -> X = (x *: B)%P ->
  (forall gs, length gs = N -> length (D gs) = M /\ asks T (p gs) /\
     (forall ro, length (R_vec (snd (run ro (p gs)))) = length (L_vec (snd (run ro (p gs))))) /\ asks_challenges (Wf gs) tr (p gs) vals (D gs)) ->
  total2 vals N (fun r s => let gs := gens B X N r s in successes (Wf gs) (p gs) vals (D gs)) <=
    total2 vals N (fun r s => count (wins E rel_of (gens B X N r s)) W) +
    total2 vals N (fun r s => count (solves E rel_of B X N r s) W) +
    q ^ M * (q ^ N * q ^ (N - 1)) + q ^ N * q ^ N * ((2 + 3 * d) * T * q ^ (M - 1)) /\
  total2 vals N (fun r s => total (fun o => snd (E (gens B X N r s) o)) W) <= q ^ N * q ^ N * ((K + T * (K - 1)) * q ^ M) /\
  (forall gs w, length gs = N -> In w W -> wins E rel_of gs w = true ->
     let '((P, t), pf) := run (table (D gs) w) (p gs) in sel (P, t) = true /\ exists a b, length a = n /\ length b = n /\
     P = (comb a (gG n gs) + comb b (gH n gs) + t *: gQ n gs)%P /\ dotp a b = t).
Proof.
  intros n N q K V Wf E W HE0 HN HA HX HP.
  assert (X0 : length W = q ^ M) by apply words_count.
  assert (HE : forall gs, length gs = N -> _) by (intros gs Hgs; destruct (HP gs Hgs) as (ED & H1 & H2 & H3);
    exact (conj ED (C104_nozk_extractor vals tr (gG n gs) (gH n gs) (gQ n gs) d enc sel (p gs) T (D gs) HE0 HN (gG_length n gs Hgs) (gH_length n gs Hgs) H1 H2 H3))).
  cbv zeta in HE. rewrite <- and_assoc. split.
  - apply (extract_or_solve E rel_of vals B X x N (fun gs => successes (Wf gs) (p gs) vals (D gs)) W); auto.
    intros gs Hgs. destruct (HE gs Hgs) as (ED & H1 & H2 & H3). rewrite ED in H1, H2, H3. split; [|split; [exact H2|exact H3]].
    intros w [a b c|g h r] cc Hw Ee Er; [discriminate|]. injection Er as <-. apply nontrivial_is_relation; auto.
    generalize (H1 w _ Hw Ee). destruct (run (table (D gs) w) (p gs)) as [[P t] pf]. intros Z. apply Z.
  - intros gs w Hgs Hw. unfold wins. destruct (HE gs Hgs) as (ED & H1 & _). rewrite ED in H1. specialize (H1 w). fold (E gs) in H1.
    destruct (fst (E gs w)) as [[a b c|g h r]|]; try discriminate. intros _. generalize (H1 _ Hw eq_refl).
    destruct (run (table (D gs) w) (p gs)) as [[P t] pf]. intros (Hs & La & Lb & -> & Hp & Hd). split; [exact Hs|]. exists a, b. auto.
Qed.

Theorem C104_almzk_dlog vals tr d (B X : Point) (x : Scalar) (enc : Point * Scalar -> list event) sel
    (p : list Point -> prover ((Point * Scalar) * AlmZK)) T (D : list Point -> list transcript) M :
  let n := 2 ^ d in let N := 2 * n + 1 in let q := length vals in let K := 9 * 4 ^ d in
  let V := fun gs (st : Point * Scalar) tr ro pf => alm_zk_verify ro tr pf (gG n gs) (gH n gs) (gQ n gs) n (fst st) (snd st) in
  let Wf := fun gs => on_chosen enc sel tr (V gs) in
  let E := fun gs => almzk_chosen_extractor vals tr (gG n gs) (gH n gs) (gQ n gs) d enc sel (p gs) (D gs) in
  let W := words vals M in
  readable enc -> NoDup vals -> (forall v, In v vals) -> X = (x *: B)%P ->
  (forall gs, length gs = N -> length (D gs) = M /\ asks T (p gs) /\
     (forall ro, length (R_vec (az_NoZK (snd (run ro (p gs))))) = length (L_vec (az_NoZK (snd (run ro (p gs)))))) /\ asks_challenges (Wf gs) tr (p gs) vals (D gs)) ->
  total2 vals N (fun r s => let gs := gens B X N r s in successes (Wf gs) (p gs) vals (D gs)) <=
    total2 vals N (fun r s => count (wins E rel_of (gens B X N r s)) W) +
    total2 vals N (fun r s => count (solves E rel_of B X N r s) W) +
    q ^ M * (q ^ N * q ^ (N - 1)) + q ^ N * q ^ N * ((4 + 3 * d) * T * q ^ (M - 1)) /\
  total2 vals N (fun r s => total (fun o => snd (E (gens B X N r s) o)) W) <= q ^ N * q ^ N * ((K + T * (K - 1)) * q ^ M) /\
  (forall gs w, length gs = N -> In w W -> wins E rel_of gs w = true ->
     let '((Cw, t), pf) := run (table (D gs) w) (p gs) in sel (Cw, t) = true /\ exists a b, length a = n /\ length b = n /\
     Cw = (comb a (gG n gs) + comb b (gH n gs))%P /\ dotp a b = t).
Proof.
  intros n N q K V Wf E W HE0 HN HA HX HP.
  assert (X0 : length W = q ^ M) by apply words_count.
  assert (HE : forall gs, length gs = N -> _) by (intros gs Hgs; destruct (HP gs Hgs) as (ED & H1 & H2 & H3);
    exact (conj ED (C104_almzk_extractor vals tr (gG n gs) (gH n gs) (gQ n gs) d enc sel (p gs) T (D gs) HE0 HN (gG_length n gs Hgs) (gH_length n gs Hgs) H1 H2 H3))).
  cbv zeta in HE. rewrite <- and_assoc. split.
  - apply (extract_or_solve E rel_of vals B X x N (fun gs => successes (Wf gs) (p gs) vals (D gs)) W); auto.
    intros gs Hgs. destruct (HE gs Hgs) as (ED & H1 & H2 & H3). rewrite ED in H1, H2, H3. split; [|split; [exact H2|exact H3]].
    intros w [a b c|g h r] cc Hw Ee Er; [discriminate|]. injection Er as <-. apply nontrivial_is_relation; auto.
    generalize (H1 w _ Hw Ee). destruct (run (table (D gs) w) (p gs)) as [[P t] pf]. intros Z. apply Z.
  - intros gs w Hgs Hw. unfold wins. destruct (HE gs Hgs) as (ED & H1 & _). rewrite ED in H1. specialize (H1 w). fold (E gs) in H1.
    destruct (fst (E gs w)) as [[a b c|g h r]|]; try discriminate. intros _. generalize (H1 _ Hw eq_refl).
    destruct (run (table (D gs) w) (p gs)) as [[P t] pf]. intros (Hs & La & Lb & -> & Hp & Hd). split; [exact Hs|]. exists a, b. auto.
Qed.

Theorem C104_qesa_dlog vals tr d (B X : Point) (x : Scalar) (enc : list (list (list Scalar)) -> list event) sel
    (p : list Point -> prover (list (list (list Scalar)) * (Inner * (word * word)))) T
    (D : list Point -> list transcript) M (bad : list (list (list Scalar)) * (Inner * (word * word)) -> bool) :
  let n := 2 ^ d in let N := 2 * n + 1 in let q := length vals in let K := 27 * S n * n ^ 3 in
  let V := fun gs Ms tr ro (o : Inner * (word * word)) => inner_verify ro tr (fst o) (gG n gs) (gH n gs) (gQ n gs) (mkBlockMatrix Ms) in
  let Wf := fun gs => on_chosen enc sel tr (V gs) in
  let E := fun gs => qesa_chosen_extractor vals tr (gG n gs) (gH n gs) (gQ n gs) n d enc sel (p gs) (D gs) in
  let W := words vals M in
  readable enc -> NoDup vals -> (forall v, In v vals) -> X = (x *: B)%P -> 3 <= n ->
  (forall Ms, sel Ms = true -> 1 <= length Ms /\ Forall (rect (n - 2) (n - 2)) Ms) ->
  (forall Ms pf w' u, bad (Ms, (pf, (w', u))) = true ->
     exists t, t < min (length Ms) n /\ quad (nth t Ms []) (firstn (n - 2) w') <> s0) ->
  (forall gs, length gs = N -> length (D gs) = M /\ asks T (p gs) /\
     (forall ro, qesa_opened n (gG n gs) (gH n gs) (snd (run ro (p gs)))) /\ asks_challenges (Wf gs) tr (p gs) vals (D gs)) ->
  total2 vals N (fun r s => let gs := gens B X N r s in cheats ceq (Wf gs) bad (p gs) vals (D gs)) <=
    total2 vals N (fun r s => count (solves E rel_opt B X N r s) W) +
    q ^ M * (q ^ N * q ^ (N - 1)) + q ^ N * q ^ N * ((2 * n + 4 + 3 * d) * T * q ^ (M - 1)) /\
  total2 vals N (fun r s => total (fun o => snd (E (gens B X N r s) o)) W) <= q ^ N * q ^ N * ((K + T * (K - 1)) * q ^ M).
Proof.
  intros n N q K V Wf E W HE0 HN HA HX Hn HSl HB HP.
  assert (X0 : length W = q ^ M) by apply words_count.
  assert (HE : forall gs, length gs = N -> _) by (intros gs Hgs; destruct (HP gs Hgs) as (ED & H1 & H2 & H3);
    exact (conj ED (C104_qesa_extractor vals tr (gG n gs) (gH n gs) (gQ n gs) n d enc sel (p gs) T (D gs) HE0 HN eq_refl Hn
      (gG_length n gs Hgs) (gH_length n gs Hgs) HSl H1 H2 H3))).
  cbv zeta in HE. split.
  - etransitivity; [apply (total2_le _ _ _ (fun r s => count (breaks E rel_opt (gens B X N r s)) W + (2 * n + 4 + 3 * d) * T * q ^ (M - 1)))|].
    { intros r s. cbv zeta. assert (Hgs := gens_length B X N r s). set (gs := gens B X N r s) in *.
      destruct (HE gs Hgs) as (ED & H1 & H2 & _). rewrite ED in H1, H2. unfold cheats. rewrite ED. fold W in H1, H2 |- *.
      apply (cheats_break (E gs) _ (fun w => yes (Wf gs (table (D gs) w) (run (table (D gs) w) (p gs)))) (fun w => bad (run (table (D gs) w) (p gs)))).
      - unfold PropFiatShamir.successes in H2. rewrite ED in H2. exact H2.
      - intros w _ HF. eapply fs_found_yes. exact HF.
      - intros w Hw HF Hb. unfold breaks. specialize (H1 w). fold (E gs) in H1. unfold found in HF.
        destruct (fst (E gs w)) as [[[[g h] r']|]|]; [reflexivity| |discriminate]. exfalso. generalize (H1 _ Hw eq_refl). cbv beta iota.
        destruct (run (table (D gs) w) (p gs)) as [Ms [pf [w' u]]]. intros [_ Z]. destruct (HB _ _ _ _ Hb) as (t & Ht & Hq). exact (Hq (Z t Ht)). }
    rewrite total2_add, total2_const, (Nat.mul_assoc (length vals ^ N)). apply Nat.add_le_mono_r.
    apply (relations_solve E rel_opt vals B X x); auto.
    intros gs Hgs w [[[g h] r]|] cc Hw Ee Er; [|discriminate]. injection Er as <-. apply nontrivial_is_relation; auto.
    destruct (HE gs Hgs) as (ED & H1 & _). rewrite ED in H1. generalize (H1 w _ Hw Ee).
    destruct (run (table (D gs) w) (p gs)) as [Ms [pf [w' u]]]. intros Z. apply Z.
  - etransitivity; [apply (total2_le _ _ _ (fun r s => (K + T * (K - 1)) * q ^ M))|].
    + intros r s. destruct (HE _ (gens_length B X N r s)) as (ED & _ & _ & H3). rewrite ED in H3. exact H3.
    + rewrite total2_const. unfold q. lia.
Qed.
Theorem C104_copy_dlog vals tr d (B X : Point) (x : Scalar) (ws : N) (sets : list (list N)) mp
    (msgs : list Point -> cstmt -> list word) (rs : list Point -> cstmt -> word) (enc : cstmt -> list event) (sel : list Point -> cstmt -> bool)
    (p : list Point -> prover (cstmt * (Copy * (word * word)))) T (D : list Point -> list transcript) M
    (bad : list Point -> cstmt * (Copy * (word * word)) -> bool) :
  let n := 2 ^ d in let N := 2 * n + 1 in let q := length vals in let K := 27 * S (2 * length sets) * S n * n ^ 3 in
  let V := fun gs (st : cstmt) tr ro (o : Copy * (word * word)) => copy_verify ro tr (fst o) (gG n gs) (gH n gs) (gQ n gs) (mkBlockMatrix (fst st)) mp (snd st) in
  let Wf := fun gs => on_chosen enc (sel gs) tr (V gs) in
  let E := fun gs => copy_chosen_extractor vals tr (gG n gs) (gH n gs) (gQ n gs) n d sets mp (msgs gs) (rs gs) enc (sel gs) (p gs) (D gs) in
  let W := words vals M in
  readable enc -> NoDup vals -> (forall v, In v vals) -> X = (x *: B)%P ->
  3 <= n -> (N.of_nat n < 65536)%N -> (ws < 65536)%N -> (N.of_nat (length sets) <= 65536)%N ->
  (forall s i, In s sets -> In i s -> 1 <= N.to_nat i < n - 2) -> Forall (@NoDup BinNums.N) sets ->
  compute_mapping (N.of_nat n) ws sets = Ok mp ->
  (forall gs o, bad gs o = true -> let w' := fst (snd (snd o)) in
     ~ ((forall M, In M (fst (fst o)) -> quad M (firstn (n - 2) w') = s0) /\
        (forall k j, k < length sets -> j < length (nth k sets []) ->
           exists mm, nth_error (msgs_map mp) (cm_offset sets k + j) = Some mm /\
             sc (nth k (msgs gs (fst o)) []) j = sc w' (mpos mm)) /\
        (forall s i, In s sets -> In i s -> sc w' (N.to_nat i) = s0))) ->
  (forall gs, length gs = N -> length (D gs) = M /\ asks T (p gs) /\
     (forall Ms Cs, sel gs (Ms, Cs) = true -> Forall (rect (n - 2) (n - 2)) Ms /\ length Ms + length (unique_commitment_indices mp) <= n /\
        length Cs = length sets /\
        forall k, k < length sets -> commit (gG n gs) (nth k sets []) (nth k (msgs gs (Ms, Cs)) []) (sc (rs gs (Ms, Cs)) k) = Ok (pt Cs k)) /\
     (forall ro, copy_opened n (gG n gs) (gH n gs) (snd (run ro (p gs)))) /\ asks_challenges (Wf gs) tr (p gs) vals (D gs)) ->
  total2 vals N (fun r s => let gs := gens B X N r s in cheats ceq (Wf gs) (bad gs) (p gs) vals (D gs)) <=
    total2 vals N (fun r s => count (solves E rel_opt B X N r s) W) +
    q ^ M * (q ^ N * q ^ (N - 1)) + q ^ N * q ^ N * ((2 * length sets + 2 * n + 4 + 3 * d) * T * q ^ (M - 1)) /\
  total2 vals N (fun r s => total (fun o => snd (E (gens B X N r s) o)) W) <= q ^ N * q ^ N * ((K + T * (K - 1)) * q ^ M).
Proof.
  intros n N q K V Wf E W HE0 HN HA HX Hn Hn2 Hws Hsets Hidx Hnd Hmp HB HP.
  assert (X0 : length W = q ^ M) by apply words_count.
  assert (HE : forall gs, length gs = N -> _) by (intros gs Hgs; destruct (HP gs Hgs) as (ED & H1 & V1 & H2 & H3);
    exact (conj ED (C104_copy_extractor vals tr (gG n gs) (gH n gs) (gQ n gs) n d ws sets mp (msgs gs) (rs gs) enc (sel gs) (p gs) T (D gs)
      HE0 HN eq_refl Hn Hn2 Hws Hsets (gG_length n gs Hgs) (gH_length n gs Hgs) Hidx Hnd Hmp V1 H1 H2 H3))).
  cbv zeta in HE. split.
  - etransitivity; [apply (total2_le _ _ _ (fun r s => count (breaks E rel_opt (gens B X N r s)) W + (2 * length sets + 2 * n + 4 + 3 * d) * T * q ^ (M - 1)))|].
    { intros r s. cbv zeta. assert (Hgs := gens_length B X N r s). set (gs := gens B X N r s) in *.
      destruct (HE gs Hgs) as (ED & H1 & H2 & _). rewrite ED in H1, H2. unfold cheats. rewrite ED. fold W in H1, H2 |- *.
      apply (cheats_break (E gs) _ (fun w => yes (Wf gs (table (D gs) w) (run (table (D gs) w) (p gs)))) (fun w => bad gs (run (table (D gs) w) (p gs)))).
      - unfold PropFiatShamir.successes in H2. rewrite ED in H2. exact H2.
      - intros w _ HF. eapply fs_found_yes. exact HF.
      - intros w Hw HF Hb. unfold breaks. specialize (H1 w). fold (E gs) in H1. unfold found in HF.
        destruct (fst (E gs w)) as [[[[g h] r']|]|]; [reflexivity| |discriminate]. exfalso. destruct (H1 _ Hw eq_refl) as [_ Z].
        exact (HB gs _ Hb Z). }
    rewrite total2_add, total2_const, (Nat.mul_assoc (length vals ^ N)). apply Nat.add_le_mono_r.
    apply (relations_solve E rel_opt vals B X x); auto.
    intros gs Hgs w [[[g h] r]|] cc Hw Ee Er; [|discriminate]. injection Er as <-. apply nontrivial_is_relation; auto.
    destruct (HE gs Hgs) as (ED & H1 & _). rewrite ED in H1. exact (proj2 (H1 w _ Hw Ee)).
  - etransitivity; [apply (total2_le _ _ _ (fun _ _ => (K + T * (K - 1)) * q ^ M))|rewrite total2_const; unfold q; lia].
    intros r s. destruct (HE _ (gens_length B X N r s)) as (ED & _ & _ & H3). rewrite ED in H3. exact H3.
Qed.

(** ** Every prover: it need not ask the challenges of its proof, and the lists of its proof may have different lengths *)
Corollary C104_nozk_every_prover vals tr (G H : list Point) (Q : Point) d (enc : Point * Scalar -> list event) sel
    (p : prover ((Point * Scalar) * NoZK)) T D :
  let V := fun (st : Point * Scalar) tr ro pf => no_zk_verify ro tr pf G H Q (2 ^ d) (fst st) (snd st) in
  let W := on_chosen enc sel tr V in
  let p' := finish_chosen enc tr (fun _ tr => complete tr d G H Q) p in
  let E := nozk_chosen_extractor vals tr G H Q d enc sel p' D in
  let q := length vals in let N := length D in let K := 3 * 4 ^ d in
  readable enc -> NoDup vals -> length G = 2 ^ d -> length H = 2 ^ d ->
  asks T p -> incl (reach vals p') D ->
  (forall w e, In w (words vals N) -> fst (E w) = Some e ->
     let '(P, t) := fst (run (table D w) p) in sel (P, t) = true /\
     match e with
     | Wit a b c => length a = 2 ^ d /\ length b = 2 ^ d /\ c = t /\ P = (comb a G + comb b H + t *: Q)%P /\ dotp a b = t
     | Rel g h q => nontrivial_relation (2 ^ d) G H Q g h q
     end) /\
  successes W p vals D <= count (fun w => found (E w)) (words vals N) + (2 + 3 * d) * (T + S d) * q ^ (N - 1) /\
  total (fun w => snd (E w)) (words vals N) <= (K + (T + S d) * (K - 1)) * q ^ N.
Proof.
  intros V W p' E q N K HE HN HG HH HT HD.
  destruct (C104_nozk_extractor vals tr G H Q d enc sel p' (T + S d) D HE HN HG HH) as (H1 & H2 & H3).
  - apply asks_finish; auto. intros. apply asks_complete.
  - intros ro. unfold p', finish_chosen. rewrite run_pbind, run_comp. cbn [snd]. apply complete_shape.
  - apply challenges_finish; auto. intros st tr0 ro pf _ b tr' E1. rewrite complete_asked. apply C50_ipa_layout in E1 as (_ & -> & _).
    eexists. split; [reflexivity|]. intros h Hh. exact Hh.
  - split; [|split; [|exact H3]].
    + intros w e Hw He. generalize (H1 w e Hw He). unfold p', finish_chosen. rewrite run_pbind, run_comp.
      destruct (run (table D w) p) as [[P t] pf]. cbn [fst]. auto.
    + etransitivity; [|exact H2]. apply successes_finish. intros st tr0 ro pf tr' _ E1.
      apply C80_complete in E1 as (_ & _ & _ & _ & _ & E1 & _); eauto.
Qed.

Corollary C104_almzk_every_prover vals tr (G H : list Point) (Q : Point) d (enc : Point * Scalar -> list event) sel
    (p : prover ((Point * Scalar) * AlmZK)) T D :
  let V := fun (st : Point * Scalar) tr ro pf => alm_zk_verify ro tr pf G H Q (2 ^ d) (fst st) (snd st) in
  let W := on_chosen enc sel tr V in
  let p' := finish_chosen enc tr (fun st tr => complete_alm tr d G H Q (fst st) (snd st)) p in
  let E := almzk_chosen_extractor vals tr G H Q d enc sel p' D in
  let q := length vals in let N := length D in let K := 9 * 4 ^ d in
  readable enc -> NoDup vals -> length G = 2 ^ d -> length H = 2 ^ d ->
  asks T p -> incl (reach vals p') D ->
  (forall w e, In w (words vals N) -> fst (E w) = Some e ->
     let '(Cw, t) := fst (run (table D w) p) in sel (Cw, t) = true /\
     match e with
     | Wit a b c => length a = 2 ^ d /\ length b = 2 ^ d /\ c = t /\ Cw = (comb a G + comb b H)%P /\ dotp a b = t
     | Rel g h q => nontrivial_relation (2 ^ d) G H Q g h q
     end) /\
  successes W p vals D <= count (fun w => found (E w)) (words vals N) + (4 + 3 * d) * (T + (2 + d)) * q ^ (N - 1) /\
  total (fun w => snd (E w)) (words vals N) <= (K + (T + (2 + d)) * (K - 1)) * q ^ N.
Proof.
  intros V W p' E q N K HE HN HG HH HT HD.
  destruct (C104_almzk_extractor vals tr G H Q d enc sel p' (T + (2 + d)) D HE HN HG HH) as (H1 & H2 & H3).
  - apply asks_finish; auto. intros. apply asks_complete_alm.
  - intros ro. unfold p', finish_chosen. rewrite run_pbind, run_comp. cbn [snd]. apply complete_alm_shape.
  - apply challenges_finish; auto. intros st tr0 ro pf _. apply complete_alm_covers.
  - split; [|split; [|exact H3]].
    + intros w e Hw He. generalize (H1 w e Hw He). unfold p', finish_chosen. rewrite run_pbind, run_comp.
      destruct (run (table D w) p) as [[P t] pf]. cbn [fst]. auto.
    + etransitivity; [|exact H2]. apply successes_finish. intros st tr0 ro pf tr' _ E1. eapply complete_alm_accepted; eauto.
Qed.

Corollary C104_lmpa_every_prover vals tr d m (G H : list Point) (Q : Point) (enc : list (list Point) * list Point -> list event) sel
    (p : prover ((list (list Point) * list Point) * LmpaNoZK)) T D :
  let V := fun (st : list (list Point) * list Point) tr ro pf => lmpa_verify ro tr pf (fst st) G H Q (2 ^ d) (snd st) in
  let W := on_chosen enc sel tr V in
  let p' := then_ask p (chosen_queries enc tr (fun tr => lmpa_queries tr d)) in
  let E := lmpa_chosen_extractor vals tr G H Q d enc sel p' D in
  let q := length vals in let N := length D in let K := 3 ^ d in
  readable enc -> NoDup vals -> 1 <= m -> (forall A t, sel (A, t) = true -> rect m (2 ^ d) A) ->
  asks T p -> incl (reach vals p') D ->
  (forall w x, In w (words vals N) -> fst (E w) = Some x ->
     let '(A, t) := fst (run (table D w) p) in sel (A, t) = true /\ length x = 2 ^ d /\ comb x (nth 0 A []) = pt t 0) /\
  successes W p vals D <= count (fun w => found (E w)) (words vals N) + 2 * d * (T + d) * q ^ (N - 1) /\
  total (fun w => snd (E w)) (words vals N) <= (K + (T + d) * (K - 1)) * q ^ N.
Proof.
  intros V W p' E q N K HE HN Hm HR HT HD.
  destruct (C104_lmpa_extractor vals tr d m G H Q enc sel p' (T + d) D HE HN Hm HR) as (H1 & H2 & H3).
  - apply asks_then_ask; auto. intros o. unfold chosen_queries, lmpa_queries, lay_lmpa. rewrite drawn_lm_length, firstn_length. lia.
  - apply asks_challenges_then; auto. intros ro o tr' E1. revert E1. apply chosen_drawn; auto.
    intros st tr0 ro0 pf tr1 E1. unfold V in E1. apply C50_lmpa_layout in E1 as (_ & _ & _ & -> & _). rewrite Nat.log2_pow2 by lia.
    eexists. split; reflexivity.
  - split; [|split; [|exact H3]].
    + intros w e Hw He. generalize (H1 w e Hw He). unfold p'. rewrite run_then_ask.
      destruct (run (table D w) p) as [[A t] pf]. cbn [fst]. auto.
    + etransitivity; [|exact H2]. unfold p'. now rewrite (successes_then_ask ceq W p).
Qed.

Corollary C104_simplezk_every_prover vals tr d m (G H : list Point) (Q : Point) (enc : list (list Point) * list Point -> list event) sel
    (p : prover ((list (list Point) * list Point) * SimpleZK)) T D :
  let V := fun (st : list (list Point) * list Point) tr ro pf => simple_zk_verify ro tr pf (fst st) G H Q (2 ^ d) (snd st) in
  let W := on_chosen enc sel tr V in
  let p' := then_ask p (chosen_queries enc tr (fun tr => simplezk_queries tr d)) in
  let E := simplezk_chosen_extractor vals tr G H Q d enc sel p' D in
  let q := length vals in let N := length D in let K := 2 * 3 ^ d in
  readable enc -> NoDup vals -> 1 <= m -> (forall A t, sel (A, t) = true -> rect m (2 ^ d) A) ->
  asks T p -> incl (reach vals p') D ->
  (forall w x, In w (words vals N) -> fst (E w) = Some x ->
     let '(A, t) := fst (run (table D w) p) in sel (A, t) = true /\ length x = 2 ^ d /\ comb x (nth 0 A []) = pt t 0) /\
  successes W p vals D <= count (fun w => found (E w)) (words vals N) + (1 + 2 * d) * (T + S d) * q ^ (N - 1) /\
  total (fun w => snd (E w)) (words vals N) <= (K + (T + S d) * (K - 1)) * q ^ N.
Proof.
  intros V W p' E q N K HE HN Hm HR HT HD.
  destruct (C104_simplezk_extractor vals tr d m G H Q enc sel p' (T + S d) D HE HN Hm HR) as (H1 & H2 & H3).
  - apply asks_then_ask; auto. intros o. unfold chosen_queries, simplezk_queries, lay_simple. rewrite drawn_app, drawn_msgs. cbn [app drawn length].
    unfold lay_lmpa. rewrite drawn_lm_length, firstn_length. lia.
  - apply asks_challenges_then; auto. intros ro o tr' E1. revert E1. apply chosen_drawn; auto.
    intros st tr0 ro0 pf tr1 E1. unfold V in E1. apply C50_simplezk_layout in E1 as (_ & _ & _ & -> & _). rewrite Nat.log2_pow2 by lia.
    eexists. split; reflexivity.
  - split; [|split; [|exact H3]].
    + intros w e Hw He. generalize (H1 w e Hw He). unfold p'. rewrite run_then_ask.
      destruct (run (table D w) p) as [[A t] pf]. cbn [fst]. auto.
    + etransitivity; [|exact H2]. unfold p'. now rewrite (successes_then_ask ceq W p).
Qed.

Corollary C104_qesa_every_prover vals tr (G H : list Point) (Q : Point) n d (enc : list (list (list Scalar)) -> list event) sel
    (p : prover (list (list (list Scalar)) * (Inner * (list Scalar * list Scalar)))) T D :
  let V := fun Ms tr ro (o : Inner * (list Scalar * list Scalar)) => inner_verify ro tr (fst o) G H Q (mkBlockMatrix Ms) in
  let W := on_chosen enc sel tr V in
  let p' := finish_chosen enc tr (fun Ms tr => on_fst (complete_inner tr n d G H Q Ms)) p in
  let E := qesa_chosen_extractor vals tr G H Q n d enc sel p' D in
  let q := length vals in let N := length D in let K := 27 * S n * n ^ 3 in
  readable enc -> NoDup vals -> n = 2 ^ d -> 3 <= n -> length G = n -> length H = n ->
  (forall Ms, sel Ms = true -> 1 <= length Ms /\ Forall (rect (n - 2) (n - 2)) Ms) ->
  asks T p ->
  (forall ro, let '(pf, (w', u)) := snd (run ro p) in
     length w' = n /\ sc w' 0 = s1 /\ decompress (c_prime_w pf) = Some (comb w' G) /\
     length u = n /\ decompress (c_prime_prime_w pf) = Some (comb u H)) ->
  incl (reach vals p') D ->
  (forall w e, In w (words vals N) -> fst (E w) = Some e ->
     let '(Ms, (pf, (w', u))) := run (table D w) p in sel Ms = true /\
     match e with
     | Some (g, h, q) => nontrivial_relation n G H Q g h q
     | None => forall t, t < min (length Ms) n -> quad (nth t Ms []) (firstn (n - 2) w') = s0
     end) /\
  successes W p vals D <= count (fun w => found (E w)) (words vals N) + (2 * n + 4 + 3 * d) * (T + (5 + d)) * q ^ (N - 1) /\
  total (fun w => snd (E w)) (words vals N) <= (K + (T + (5 + d)) * (K - 1)) * q ^ N.
Proof.
  intros V W p' E q N K HE HN Hd Hn HG HH HS HT HO HD.
  destruct (C104_qesa_extractor vals tr G H Q n d enc sel p' (T + (5 + d)) D HE HN Hd Hn HG HH HS) as (H1 & H2 & H3).
  - apply asks_finish; auto. intros st tr0 o. apply asks_on_fst. apply asks_complete_inner.
  - intros ro. unfold p', finish_chosen. rewrite run_pbind, run_comp, run_on_fst. cbn [snd]. generalize (HO ro).
    destruct (run ro p) as [Ms [pf [w' u]]]. cbn [fst snd]. unfold qesa_opened.
    destruct (complete_inner_shape ro (tr ++ enc Ms) n d G H Q Ms pf) as (S1 & S2 & S3). rewrite S2, S3. intros Z. split; [exact S1|exact Z].
  - apply challenges_finish; auto. intros Ms tr0 ro o Hs. destruct (HS Ms Hs) as [HM HF].
    apply (covers_on_fst (fun ro pf => inner_verify ro tr0 pf G H Q (mkBlockMatrix Ms)) tr0 ro (complete_inner tr0 n d G H Q Ms) o).
    now apply complete_inner_covers.
  - split; [|split; [|exact H3]].
    + intros w e Hw He. generalize (H1 w e Hw He). unfold p', finish_chosen. rewrite run_pbind, run_comp, run_on_fst.
      destruct (run (table D w) p) as [Ms [pf [w' u]]]. cbn [fst snd]. auto.
    + etransitivity; [|exact H2]. apply successes_finish. intros Ms tr0 ro o tr' Hs E1. unfold V. rewrite run_on_fst. cbn [fst].
      destruct (HS Ms Hs) as [HM HF]. eapply complete_inner_accepted; eauto.
Qed.

Corollary C104_copy_every_prover vals tr (G H : list Point) (Q : Point) n d (ws : N) (sets : list (list N)) mp
    (msgs : cstmt -> list (list Scalar)) (rs : cstmt -> list Scalar) (enc : cstmt -> list event) sel
    (p : prover (cstmt * (Copy * (list Scalar * list Scalar)))) T D :
  let V := fun (st : cstmt) tr ro (o : Copy * (list Scalar * list Scalar)) => copy_verify ro tr (fst o) G H Q (mkBlockMatrix (fst st)) mp (snd st) in
  let W := on_chosen enc sel tr V in
  let p' := finish_chosen enc tr (fun st tr => on_fst (complete_copy tr n d G H Q (fst st) mp (snd st))) p in
  let E := copy_chosen_extractor vals tr G H Q n d sets mp msgs rs enc sel p' D in
  let q := length vals in let N := length D in let K := 27 * S (2 * length sets) * S n * n ^ 3 in
  readable enc -> NoDup vals -> n = 2 ^ d -> 3 <= n -> (N.of_nat n < 65536)%N -> (ws < 65536)%N -> (N.of_nat (length sets) <= 65536)%N ->
  length G = n -> length H = n ->
  (forall s i, In s sets -> In i s -> 1 <= N.to_nat i < n - 2) -> Forall (@NoDup BinNums.N) sets ->
  compute_mapping (N.of_nat n) ws sets = Ok mp ->
  (forall Ms Cs, sel (Ms, Cs) = true -> Forall (rect (n - 2) (n - 2)) Ms /\ length Ms + length (unique_commitment_indices mp) <= n /\
     length Cs = length sets /\
     forall k, k < length sets -> commit G (nth k sets []) (nth k (msgs (Ms, Cs)) []) (sc (rs (Ms, Cs)) k) = Ok (pt Cs k)) ->
  asks T p ->
  (forall ro, let '(pf, (w', u)) := snd (run ro p) in
     length w' = n /\ sc w' 0 = s1 /\ decompress (cp_C_w pf) = Some (comb w' G) /\
     length u = n /\ decompress (c_prime_prime_w (cp_inner pf)) = Some (comb u H)) ->
  incl (reach vals p') D ->
  (forall w e, In w (words vals N) -> fst (E w) = Some e ->
     let st := fst (run (table D w) p) in let w' := fst (snd (snd (run (table D w) p))) in sel st = true /\
     match e with
     | Some (g, h, q) => nontrivial_relation n G H Q g h q
     | None =>
       (forall M, In M (fst st) -> quad M (firstn (n - 2) w') = s0) /\
       (forall k j, k < length sets -> j < length (nth k sets []) ->
          exists mm, nth_error (msgs_map mp) (cm_offset sets k + j) = Some mm /\
            sc (nth k (msgs st) []) j = sc w' (mpos mm)) /\
       (forall s i, In s sets -> In i s -> sc w' (N.to_nat i) = s0)
     end) /\
  successes W p vals D <= count (fun w => found (E w)) (words vals N) + (2 * length sets + 2 * n + 4 + 3 * d) * (T + (6 + d)) * q ^ (N - 1) /\
  total (fun w => snd (E w)) (words vals N) <= (K + (T + (6 + d)) * (K - 1)) * q ^ N.
Proof.
  intros V W p' E q N K HE HN Hd Hn Hn16 Hws HSt HG HH Hidx HND Emp HS HT HO HD.
  destruct (compute_mapping_good n ws sets mp Hn16 Hws Emp HSt) as (HMap & _ & _).
  { intros s i Hs Hi. apply (Hidx s i Hs Hi). }
  assert (HT1 : 1 <= cm_total sets) by (apply compute_mapping_inv in Emp as (_ & HT' & _); exact HT').
  assert (HS1 : 1 <= length sets) by (destruct sets; [cbn in HT1; lia|cbn; lia]).
  assert (HM : 1 <= length (msgs_map mp)).
  { destruct (C29_metadata _ _ sets _ ltac:(lia) Emp) as (_ & Z & _). rewrite Z. lia. }
  destruct (C104_copy_extractor vals tr G H Q n d ws sets mp msgs rs enc sel p' (T + (6 + d)) D HE HN Hd Hn Hn16 Hws HSt HG HH Hidx HND Emp HS) as (H1 & H2 & H3).
  - apply asks_finish; auto. intros st tr0 o. apply asks_on_fst. apply asks_complete_copy.
  - intros ro. unfold p', finish_chosen. rewrite run_pbind, run_comp, run_on_fst. cbn [snd]. generalize (HO ro).
    destruct (run ro p) as [[Ms Cs] [pf [w' u]]]. cbn [fst snd]. unfold copy_opened.
    destruct (complete_copy_shape ro (tr ++ enc (Ms, Cs)) n d G H Q Ms mp Cs pf) as (S1 & S2 & S3). rewrite S2, S3. intros Z. split; [exact S1|exact Z].
  - apply challenges_finish; auto. intros [Ms Cs] tr0 ro o Hs. destruct (HS Ms Cs Hs) as (HF & Hm & LC & _). cbn [fst snd].
    apply (covers_on_fst (fun ro pf => copy_verify ro tr0 pf G H Q (mkBlockMatrix Ms) mp Cs) tr0 ro (complete_copy tr0 n d G H Q Ms mp Cs) o).
    apply complete_copy_covers; auto; try (rewrite LC; auto); lia.
  - split; [|split; [|exact H3]].
    + intros w e Hw He. generalize (H1 w e Hw He). unfold p', finish_chosen. rewrite run_pbind, run_comp, run_on_fst. cbn [fst snd]. auto.
    + etransitivity; [|exact H2]. apply successes_finish. intros [Ms Cs] tr0 ro o tr' Hs E1. unfold V in *. cbn [fst snd] in *. rewrite run_on_fst. cbn [fst].
      destruct (HS Ms Cs Hs) as (HF & Hm & LC & _). eapply complete_copy_accepted; eauto; try (rewrite LC; auto); lia.
Qed.
End C104.

(** ** Cases *)
(** inner-product argument, n = 1: the prover asks for a first statement; if the answer is 1 it
    chooses another one. The extractor succeeds for all 25 tables, with the witness of the statement
    of its first run: (3, 6) for the first statement, (4, 7) for the second *)
Definition stQ104 : @Point FS * @Scalar FS := (qN (4 * 5 + 7 * 2 + 28 * 17), fN 28).
Definition two104 : @prover FS ((@Point FS * @Scalar FS) * @NoZK FS) :=
  Ask (ipa_start (encP102 stP102) 1) (fun v => if seqb v (fN 1)
    then Ask (ipa_start (encP102 stQ104) 1) (fun _ => Done (stQ104, mkNoZK [] [] (fN 4) (fN 7)))
    else Done (stP102, mkNoZK [] [] (fN 3) (fN 6))).
Definition D104 := [ipa_start (encP102 stP102) 1; ipa_start (encP102 stQ104) 1].
Definition E104 := @nozk_chosen_extractor FS fs_ceq (v75 5) [] [qN 5] [qN 2] (qN 17) 0 encP102 (fun _ => true) two104 D104.
Definition show104 (o : option (@extracted FS)) :=
  match o with Some (Wit a b c) => (map zf a, map zf b, [zf c]) | _ => ([], [], []) end.
Example C104_case_nozk :
  successes fs_ceq (on_chosen encP102 (fun _ => true) [] VP102) two104 (v75 5) D104 = 25 /\
  count (fun w => found (E104 w)) (words (v75 5) 2) = 25 /\
  show104 (fst (E104 [fN 2; fN 3])) = ([3], [6], [18])%Z /\ show104 (fst (E104 [fN 1; fN 3])) = ([4], [7], [28])%Z /\
  total (fun w => snd (E104 w)) (words (v75 5) 2) <= 7 * 25.
Proof.
  split; [vm_compute; reflexivity|]. split; [vm_compute; reflexivity|]. split; [vm_compute; reflexivity|]. split; [vm_compute; reflexivity|].
  apply Nat.leb_le. vm_compute. reflexivity.
Qed.

(** a statement that the prover makes up: as in C91_case_nozk it solves the verifier's equation for
    a, and its statement is hashed. No witness comes out, but a relation, and x = 321 from it *)
Definition st104 (gs : list (@Point FS)) : @Point FS * @Scalar FS := (P91 gs, fN 3).
Definition cheat104 (gs : list (@Point FS)) : @prover FS ((@Point FS * @Scalar FS) * @NoZK FS) :=
  Ask (ipa_start (encP102 (st104 gs)) 1) (fun al => Done (st104 gs, run (fun _ => al) (cheat91 gs))).
Definition F104 (gs : list (@Point FS)) :=
  @nozk_chosen_extractor FS fs_ceq (v75 5) [] (gG 1 gs) (gH 1 gs) (gQ 1 gs) 0 encP102 (fun _ => true) (cheat104 gs) [ipa_start (encP102 (st104 gs)) 1].
Example C104_case_dlog :
  map (fun w => option_map zf (solver F104 rel_of (qN 1) (qN 321) 3 [fN 3; fN 7; fN 1] [fN 1; fN 2; fN 4] w)) [[fN 2]; [fN 5]]
    = [Some 321; Some 321]%Z.
Proof. vm_compute. reflexivity. Qed.
(** the prover of C102_case_hashed proves false linear-map statements for 36 of 100 tables and is
    never extracted; the bound of the theorem is 40 *)
Example C104_case_lmpa_false :
  let E := @lmpa_chosen_extractor FS fs_ceq (v75 10) [] [qN 0; qN 0] [] (qN 0) 1 enc102 sel102 grind102
             [h102 (st102 (fN (-3))) a79; h102 (st102 (fN (-7))) c102] in
  count (fun w => found (E w)) (words (v75 10) 2) = 0.
Proof. vm_compute. reflexivity. Qed.
(** the prover of C90_case_lmpa with two statements: 2 w_0 + 5 w_1 = 16 with (3, 2) if the first
    answer is 1, 2 or 3, otherwise 2 w_0 + 5 w_1 = 21 with (8, 1). Each table gives the preimage for the
    statement its run has chosen *)
Definition h104 st (pf : @LmpaNoZK FS) : @transcript FS := enc102 st ++ q79 pf.
Definition u104 (t : Z) : list (list (@Point FS)) * list (@Point FS) := ([[qN 2; qN 5]], [qN t]).
Definition c104 := hon90 [fN 8; fN 1].
Definition lm104 : @prover FS ((list (list (@Point FS)) * list (@Point FS)) * @LmpaNoZK FS) :=
  Ask (h104 (u104 16) (a90 (fN 1))) (fun x => if (seqb x (fN 1) || seqb x (fN 2) || seqb x (fN 3))%bool then Done (u104 16, a90 x)
    else Ask (h104 (u104 21) (c104 (fN 1))) (fun x => Done (u104 21, c104 x))).
Definition L104 := @lmpa_chosen_extractor FS fs_ceq (v75 5) [] [qN 0; qN 0] [] (qN 0) 1 enc102 (fun _ => true) lm104
  [h104 (u104 16) (a90 (fN 1)); h104 (u104 21) (c104 (fN 1))].
Example C104_case_lmpa :
  count (fun w => found (L104 w)) (words (v75 5) 2) = 25 /\
  map (fun w => option_map (map zf) (fst (L104 w))) [[fN 2; fN 4]; [fN 5; fN 4]] = [Some [3; 2]; Some [8; 1]]%Z.
Proof. vm_compute. auto. Qed.
