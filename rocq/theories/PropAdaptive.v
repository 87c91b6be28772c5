(** C102: statements chosen by the prover. The arguments do not hash the statement (C21, C27, C51, C101),
    so C79 fixes it in advance. Here the caller hashes it first, under any encoding that can be read
    back; then the bounds of C79 hold for provers that choose the statement after any number of queries. *)
From Coq Require Import String.
From Verif Require Export PropFiatShamir PropShort.
From Verif Require Import PropMalleable Poly KaryFacts CopyFacts PropMapping PropCopy PropCopySound Ex ExSmall.
From Verif Require PropNizk.
Local Open Scope string_scope.
Local Open Scope nat_scope.
Local Open Scope list_scope.

Section Vocabulary.
Context {C : Crypto}.
(** the events that encode a statement draw no challenge, and the statement can be read off the
    front of the history *)
Definition quiet (e : list event) : Prop := forall l, ~ In (EvChal l) e.
Definition readable {St} (enc : St -> list event) : Prop :=
  (forall st, quiet (enc st)) /\ forall st st' e e', enc st ++ e = enc st' ++ e' -> st = st'.
(** the caller hashes the statement the prover has chosen, then runs the verifier; only statements
    in sel count *)
Definition on_chosen {St X} (enc : St -> list event) (sel : St -> bool) (tr : transcript)
    (V : St -> transcript -> oracle -> X -> res (bool * transcript)) (ro : oracle) (o : St * X) : res (bool * transcript) :=
  if sel (fst o) then V (fst o) (tr ++ enc (fst o)) ro (snd o) else Ok (false, tr).
End Vocabulary.

Section Adaptive.
Context {C : Crypto} {L : CryptoLaws C} (ceq : @encodings_comparable C).
Notation word := (list Scalar).
Notation table := (table ceq).
Notation own_run := (own_run ceq).

Lemma drawn_quiet tr e : quiet e -> drawn tr e = [].
Proof.
  revert tr; induction e as [|ev e IH]; intros tr HQ; [reflexivity|].
  assert (HQ' : quiet e) by (intros l Hl; apply (HQ l); now right).
  destruct ev as [l m|l m|l]; cbn [drawn]; auto. exfalso. apply (HQ l). now left.
Qed.
Lemma nchal_quiet e : quiet e -> nchal e = 0.
Proof.
  intros HQ. unfold nchal. induction e as [|ev e IH]; [reflexivity|].
  assert (HQ' : quiet e) by (intros l Hl; apply (HQ l); now right).
  destruct ev as [l m|l m|l]; cbn; auto. exfalso. apply (HQ l). now left.
Qed.
Lemma drawn_after tr c e : quiet c -> drawn tr (c ++ e) = drawn (tr ++ c) e.
Proof. intros HQ. rewrite drawn_app, drawn_quiet by auto. reflexivity. Qed.
Lemma coins_after tr c u h : quiet c -> coins (tr ++ c) u h = coins tr u h.
Proof. intros HQ. unfold coins. rewrite nchal_app, (nchal_quiet c HQ), Nat.add_0_r. reflexivity. Qed.

Context {St X : Type} (enc : St -> list event) (sel : St -> bool) (tr : transcript) (junk : X)
        (V : St -> transcript -> oracle -> X -> res (bool * transcript)) (p : prover (St * X))
        (vals : list Scalar) (D : list transcript).
Notation W := (on_chosen enc sel tr V).

(** the prover for one statement *)
Definition fix_st (st : St) : prover X :=
  pbind p (fun o => Done (if hist_eq_dec ceq (enc (fst o)) (enc st) then snd o else junk)).
Lemma run_fix ro st : readable enc -> fst (run ro p) = st -> run ro (fix_st st) = snd (run ro p).
Proof.
  intros HE E. unfold fix_st. rewrite run_pbind. cbn [run]. rewrite E. destruct (hist_eq_dec _ _ _); congruence.
Qed.
Lemma own_fix st cs R : readable enc -> sel st = true -> (forall ro tr', V st (tr ++ enc st) ro junk <> Ok (true, tr')) ->
  own_run (V st (tr ++ enc st)) (tr ++ enc st) (fix_st st) vals D cs R ->
  own_run W tr p vals D cs (fun o => fst o = st /\ R (snd o)).
Proof.
  intros [HQ HE] Hs HJ (w & e & Iw & Ev & Ec & HR). set (ro := table D w) in *.
  assert (Ef : fst (run ro p) = st /\ run ro (fix_st st) = snd (run ro p)).
  { unfold fix_st in *. rewrite run_pbind in *. cbn [run] in *. destruct (hist_eq_dec ceq (enc (fst (run ro p))) (enc st)) as [Z|Z].
    - split; auto. apply (HE _ _ [] []). now rewrite !app_nil_r.
    - now apply HJ in Ev. }
  destruct Ef as [E1 E2]. rewrite E2 in *. exists w, (enc st ++ e). fold ro. cbv zeta. split; [auto|]. split.
  - unfold on_chosen. now rewrite E1, Hs, Ev, <- app_assoc.
  - split; [|auto]. now rewrite drawn_after.
Qed.

Lemma adaptive_tree ks K T :
  readable enc -> NoDup vals -> asks T p -> Forall (fun k => 1 <= k <= S K) ks ->
  (forall st tr, sel st = true -> follows (V st tr) tr) ->
  (forall st tr w e, sel st = true -> fst (run (table D w) p) = st ->
     V st tr (table D w) (snd (run (table D w) p)) = Ok (true, tr ++ e) -> length (drawn tr e) = length ks) ->
  asks_challenges ceq W tr p vals D ->
  K * T * length vals ^ (length D - 1) < successes ceq W p vals D ->
  exists st node leaf, sel st = true /\ has_tree vals ks (fun u => is_some (leaf u)) /\
    tree_runs ceq (V st (tr ++ enc st)) (tr ++ enc st) (fix_st st) vals D node leaf.
Proof.
  intros HRd HN HT HK HF HL HA HC. destruct HRd as [HQ HE].
  assert (FW : forall ro o tr', W ro o = Ok (true, tr') -> sel (fst o) = true /\
     exists e, tr' = tr ++ enc (fst o) ++ e /\ V (fst o) (tr ++ enc (fst o)) ro (snd o) = Ok (true, (tr ++ enc (fst o)) ++ e) /\
       only_reads (fun ro => V (fst o) (tr ++ enc (fst o)) ro (snd o)) (tr ++ enc (fst o)) e true ro).
  { intros ro o tr' E. unfold on_chosen in E. destruct (sel (fst o)) eqn:Es; [|discriminate]. split; auto.
    destruct (HF (fst o) (tr ++ enc (fst o)) Es ro (snd o) tr' E) as (e & -> & HR). exists e. split; [now rewrite <- app_assoc|]. split; auto. }
  destruct (fs_fork_coins ceq W tr p vals D ks K T) as (node & leaf & HTr & HL2); auto.
  - eapply Forall_impl; [|exact HK]. cbn. lia.
  - intros ro o tr' E. destruct (FW _ _ _ E) as (Es & e & -> & Ev & HR). exists (enc (fst o) ++ e). split; auto.
    intros ro' Hro. unfold on_chosen. rewrite Es, HR, <- app_assoc; auto.
    intros h Hh. apply Hro. apply drawn_In. rewrite drawn_after by auto. now apply drawn_In.
  - intros w tr' e E ->. destruct (FW _ _ _ E) as (Es & e' & Ee & Ev & _). apply app_inv_head in Ee. subst e.
    rewrite drawn_after by auto. eapply (HL _ _ w e' Es); auto.
  - destruct (has_tree_leaf vals ks _ HTr) as (u0 & Lu0 & O0); [eapply Forall_impl; [|exact HK]; cbn; lia|].
    destruct (leaf u0) as [w0|] eqn:El0; [|discriminate].
    destruct (HL2 _ _ El0) as (_ & e0 & V0 & _ & D0 & M0).
    destruct (FW _ _ _ V0) as (Es & e0' & Ee0 & _ & _). apply app_inv_head in Ee0. subst e0.
    set (st := fst (run (table D w0) p)) in *.
    exists st, node, leaf. split; [auto|]. split; [auto|].
    intros u w El. destruct (HL2 _ _ El) as (Iw & e & V1 & V2 & D1 & M1). split; [auto|].
    destruct (FW _ _ _ V1) as (Es1 & e1 & Ee1 & Ev1 & HR1). apply app_inv_head in Ee1. subst e.
    assert (Lu : length u = length ks).
    { rewrite <- M1, map_length, drawn_after by auto. eapply (HL _ _ w e1 Es1); auto. }
    assert (NODE : forall st' e' u', u' <> [] -> drawn tr (enc st' ++ e') = map fst (st_msgs node [] u') ->
               exists e2, node [] = tr ++ enc st' ++ e2).
    { intros st' e' u' Hu' E. destruct u' as [|x u']; [congruence|]. cbn [st_msgs map fst] in E. rewrite drawn_after in E by auto.
      assert (EN : nth_error (drawn (tr ++ enc st') e') 0 = Some (node [])) by now rewrite E.
      destruct (drawn_nth _ _ _ _ EN) as (e2 & -> & _). exists e2. now rewrite <- app_assoc. }
    assert (Est : fst (run (table D w) p) = st).
    { destruct u as [|x u].
      - assert (u0 = []) as -> by (destruct u0; [auto|cbn in Lu, Lu0; lia]). rewrite El0 in El. injection El as <-. reflexivity.
      - destruct (NODE _ _ u0 ltac:(destruct u0; [cbn in Lu, Lu0; lia|discriminate]) D0) as (e2 & N2).
        destruct (NODE _ _ (x :: u) ltac:(discriminate) D1) as (e3 & N3).
        rewrite N2 in N3. apply app_inv_head in N3. symmetry. eapply HE; eauto. }
    rewrite (run_fix _ st (conj HQ HE) Est). rewrite Est in *. exists e1. split; [auto|]. split; [|split].
    + rewrite HR1; auto. intros h Hh. rewrite coins_after by auto.
      unfold on_chosen in V2. apply drawn_In in Hh. apply In_nth_error in Hh as [i Hi].
      rewrite <- (drawn_after tr) in Hi by auto.
      rewrite (coins_at tr u h i); [|eapply nchal_drawn; eauto]. rewrite <- M1. unfold sc. apply nth_error_nth.
      now rewrite nth_error_map, Hi.
    + now rewrite <- drawn_after.
    + now rewrite <- drawn_after.
Qed.
End Adaptive.

Section C102.
Context {C : Crypto} {L : CryptoLaws C} (ceq : @encodings_comparable C).
Notation word := (list Scalar).
Notation table := (table ceq).
Notation own_run := (own_run ceq).
Notation asks_challenges := (asks_challenges ceq).
Notation successes := (successes ceq).

(** proofs with one round too many, which no verifier accepts *)
Definition junk_nozk (d : nat) : NoZK := mkNoZK (repeat (compress p0) (S d)) (repeat (compress p0) (S d)) s0 s0.
Definition junk_alm (d : nat) : AlmZK := mkAlmZK (compress p0) (junk_nozk d).
Lemma junk_rounds d : 2 ^ d <> 2 ^ length (L_vec (junk_nozk d)).
Proof. intros E. cbn [junk_nozk L_vec] in E. rewrite repeat_length in E. apply Nat.pow_inj_r in E; lia. Qed.
Lemma junk_RL d : length (R_vec (junk_nozk d)) = length (L_vec (junk_nozk d)).
Proof. reflexivity. Qed.
Lemma fix_cases {St X} (enc : St -> list event) junk (p : prover (St * X)) st ro (R : X -> Prop) :
  R junk -> (forall ro, R (snd (run ro p))) -> R (run ro (fix_st ceq enc junk p st)).
Proof. intros H1 H2. unfold fix_st. rewrite run_pbind. cbn [run]. destruct (hist_eq_dec _ _ _); auto. Qed.
Lemma ks4' ks d K : Forall (fun k => 1 <= k <= S K) ks -> 3 <= K -> Forall (fun k => 1 <= k <= S K) (ks ++ repeat 4 d).
Proof. intros H HK. apply Forall_app. split; auto. apply Forall_forall. intros k Hk. apply repeat_spec in Hk. lia. Qed.
Lemma ks3' ks d K : Forall (fun k => 1 <= k <= S K) ks -> 2 <= K -> Forall (fun k => 1 <= k <= S K) (ks ++ repeat 3 d).
Proof. intros H HK. apply Forall_app. split; auto. apply Forall_forall. intros k Hk. apply repeat_spec in Hk. lia. Qed.

(** ** Inner-product argument: the prover chooses P and t *)
Theorem C102_nozk vals tr (G H : list Point) (Q : Point) d (enc : Point * Scalar -> list event) sel
    (p : prover ((Point * Scalar) * NoZK)) T D :
  let V := fun (st : Point * Scalar) tr ro pf => no_zk_verify ro tr pf G H Q (2 ^ d) (fst st) (snd st) in
  let W := on_chosen enc sel tr V in
  readable enc -> NoDup vals -> length G = 2 ^ d -> length H = 2 ^ d ->
  asks T p -> (forall ro, length (R_vec (snd (run ro p))) = length (L_vec (snd (run ro p)))) ->
  asks_challenges W tr p vals D ->
  3 * T * length vals ^ (length D - 1) < successes W p vals D ->
  exists P t B, sel (P, t) = true /\ good_trees B /\
    all_paths B (fun al path => exists xs, own_run W tr p vals D (al :: xs) (fun o => fst o = (P, t) /\ path = proof_path (snd o) xs)) /\
    match trees_extract t B with
    | Wit a b c => length a = 2 ^ d /\ length b = 2 ^ d /\ c = t /\
                   P = (comb a G + comb b H + t *: Q)%P /\ dotp a b = t
    | Rel g h q => nontrivial_relation (2 ^ d) G H Q g h q
    end.
Proof.
  intros V W HE HN HG HH HT HR HA HC.
  destruct (adaptive_tree ceq enc sel tr (junk_nozk d) V p vals D ([3] ++ repeat 4 d) 3 T) as (st & node & leaf & Hs & HTr & HL); auto.
  - apply ks4'; [repeat constructor; lia|lia].
  - intros st tr0 _. apply nozk_follows.
  - intros st tr0 w e _ _ E. unfold V in E. apply C50_ipa_layout in E as (En & Ee & _). apply app_inv_head in Ee. subst e.
    rewrite drawn_lay_ipa by auto. cbn [app length]. rewrite repeat_length.
    f_equal. symmetry. eapply Nat.pow_inj_r; [|exact En]; lia.
  - destruct (nozk_of_tree ceq vals (tr ++ enc st) G H Q (fst st) (snd st) d (fix_st ceq enc (junk_nozk d) p st) D node leaf) as (B & GB & PB & EB); auto.
    { intros ro. apply (fix_cases enc (junk_nozk d) p st ro (fun pf => length (R_vec pf) = length (L_vec pf))); auto. }
    exists (fst st), (snd st), B. rewrite <- surjective_pairing. split; [auto|]. split; [auto|]. split; [|exact EB].
    revert PB. apply all_paths_impl. intros al path (xs & O). exists xs.
    apply (own_fix ceq enc sel tr (junk_nozk d) V p vals D st _ (fun pf => path = proof_path pf xs)) in O; auto.
    intros ro tr' E. unfold V in E. apply C50_ipa_layout in E as (En & _). now apply junk_rounds in En.
Qed.

(** ** Almost-zk argument: the prover chooses C_w and t *)
Theorem C102_almzk vals tr (G H : list Point) (Q : Point) d (enc : Point * Scalar -> list event) sel
    (p : prover ((Point * Scalar) * AlmZK)) T D :
  let V := fun (st : Point * Scalar) tr ro pf => alm_zk_verify ro tr pf G H Q (2 ^ d) (fst st) (snd st) in
  let W := on_chosen enc sel tr V in
  readable enc -> NoDup vals -> length G = 2 ^ d -> length H = 2 ^ d ->
  asks T p -> (forall ro, length (R_vec (az_NoZK (snd (run ro p)))) = length (L_vec (az_NoZK (snd (run ro p))))) ->
  asks_challenges W tr p vals D ->
  3 * T * length vals ^ (length D - 1) < successes W p vals D ->
  exists Cw t B, sel (Cw, t) = true /\ good_beta B /\
    beta_paths B (fun cr be al path => exists xs, own_run W tr p vals D (be :: al :: xs)
                    (fun o => fst o = (Cw, t) /\ C_r (snd o) = cr /\ path = proof_path (az_NoZK (snd o)) xs)) /\
    match beta_extract t B with
    | Wit a b c => length a = 2 ^ d /\ length b = 2 ^ d /\ c = t /\ Cw = (comb a G + comb b H)%P /\ dotp a b = t
    | Rel g h q => nontrivial_relation (2 ^ d) G H Q g h q
    end.
Proof.
  intros V W HE HN HG HH HT HR HA HC.
  assert (HSz : forall st ro tr0 pf tr', V st tr0 ro pf = Ok (true, tr') -> 2 ^ d = 2 ^ length (L_vec (az_NoZK pf))).
  { intros st ro tr0 pf tr' E. unfold V in E.
    assert (HV : verdict (alm_zk_verify ro tr0 pf G H Q (2 ^ d) (fst st) (snd st))) by (eexists; eauto).
    now apply C58_almzk_verdict_sized in HV as (_ & _ & _ & En). }
  destruct (adaptive_tree ceq enc sel tr (junk_alm d) V p vals D ([3; 3] ++ repeat 4 d) 3 T) as (st & node & leaf & Hs & HTr & HL); auto.
  - apply ks4'; [repeat constructor; lia|lia].
  - intros st tr0 _ ro pf tr' E. apply C50_almzk_layout in E as (P & -> & HF). eauto.
  - intros st tr0 w e _ _ E. assert (En := HSz _ _ _ _ _ E). unfold V in E. apply C50_almzk_layout in E as (P & Ee & _). apply app_inv_head in Ee. subst e.
    unfold lay_alm. cbn [app drawn length]. rewrite drawn_lay_ipa by auto. cbn [app length]. rewrite repeat_length.
    do 2 f_equal. symmetry. eapply Nat.pow_inj_r; [|exact En]; lia.
  - destruct (almzk_of_tree ceq vals (tr ++ enc st) G H Q (fst st) (snd st) d (fix_st ceq enc (junk_alm d) p st) D node leaf) as (B & GB & PB & EB); auto.
    { intros ro. apply (fix_cases enc (junk_alm d) p st ro (fun pf => length (R_vec (az_NoZK pf)) = length (L_vec (az_NoZK pf)))); auto. }
    exists (fst st), (snd st), B. rewrite <- surjective_pairing. split; [auto|]. split; [auto|]. split; [|exact EB].
    revert PB. apply beta_paths_impl. intros cr be al path (xs & O). exists xs.
    apply (own_fix ceq enc sel tr (junk_alm d) V p vals D st _ (fun pf => C_r pf = cr /\ path = proof_path (az_NoZK pf) xs)) in O; auto.
    intros ro tr' E. apply HSz in E. now apply junk_rounds in E.
Qed.

(** ** Linear-map arguments: the prover chooses A and t *)
Definition junk_lm : LmpaNoZK := mkLmpaNoZK [] [] s0.
Theorem C102_lmpa vals tr d m (G H : list Point) (Q : Point) (enc : list (list Point) * list Point -> list event) sel
    (p : prover ((list (list Point) * list Point) * LmpaNoZK)) T D :
  let V := fun (st : list (list Point) * list Point) tr ro pf => lmpa_verify ro tr pf (fst st) G H Q (2 ^ d) (snd st) in
  let W := on_chosen enc sel tr V in
  readable enc -> NoDup vals -> 1 <= m -> (forall A t, sel (A, t) = true -> rect m (2 ^ d) A) ->
  asks T p -> asks_challenges W tr p vals D ->
  2 * T * length vals ^ (length D - 1) < successes W p vals D ->
  exists A t S, sel (A, t) = true /\ lm_good d S /\
    (forall path, In path (lm_paths S) -> exists xs, own_run W tr p vals D xs (fun o => fst o = (A, t) /\ path = lm_proof_path d (snd o) xs)) /\
    length (lm_extract S) = 2 ^ d /\ comb (lm_extract S) (nth 0 A []) = pt t 0.
Proof.
  intros V W HE HN Hm HR HT HA HC. destruct (Nat.eq_dec d 0) as [D0|Hd].
  { (* no rounds: the proof is the witness *)
    assert (Pos : 0 < successes W p vals D) by lia. unfold successes, PropFiatShamir.successes, count in Pos.
    destruct (filter (fun w => yes (W (table D w) (run (table D w) p))) (words vals (length D))) as [|w l] eqn:EF; [cbn in Pos; lia|].
    assert (Iw : In w (w :: l)) by now left. rewrite <- EF in Iw. apply filter_In in Iw as [Iw Y]. clear EF Pos.
    apply yes_Ok in Y as [tr' Y]. assert (Y' := Y). unfold W, on_chosen in Y'. destruct (run (table D w) p) as [st pf] eqn:Er. cbn [fst snd] in Y'.
    destruct (sel st) eqn:Es; [|discriminate]. unfold V in Y'. assert (HR' := HR (fst st) (snd st)). rewrite <- surjective_pairing in HR'. specialize (HR' Es).
    assert (Y2 := Y'). apply C50_lmpa_layout in Y2 as (_ & _ & _ & Et & RD). subst d. change (Nat.log2 (2 ^ 0)) with 0 in *.
    change (lay_lmpa 0 pf) with (@nil event) in *. rewrite app_nil_r in Et.
    set (V0 := fun (ro : oracle) (q : LmpaNoZK) => lmpa_verify ro (tr ++ enc st) q (fst st) G H Q (2 ^ 0) (snd st)).
    assert (Y0 : V0 (table [] []) pf = Ok (true, tr ++ enc st)) by (unfold V0; rewrite RD; [now rewrite app_nil_r|intros h Hh; apply drawn_In in Hh; destruct Hh]).
    destruct (C79_lmpa_fiat_shamir ceq vals (tr ++ enc st) 0 m (fst st) G H Q (snd st) (Done pf) 0 []) as (S & GS & PS & ES); auto.
    - exact I.
    - intros w1 tr1 [<-|[]] E1 h Hh. fold (V0 (table [] []) pf) in E1. cbn [run] in E1. change (V0 (table [] []) pf = Ok (true, tr1)) in E1.
      rewrite Y0 in E1. injection E1 as <-. rewrite skipn_all in Hh. destruct Hh.
    - unfold PropFiatShamir.successes. cbn [length words run]. unfold count. cbn [filter]. fold (V0 (table [] []) pf). cbn beta.
      rewrite Y0. cbn. lia.
    - exists (fst st), (snd st), S. rewrite <- surjective_pairing. split; [auto|]. split; [auto|]. split; [|exact ES].
      intros path Hp. destruct (PS path Hp) as (xs & w1 & e1 & _ & _ & _ & Epath). exists []. exists w, (enc st). split; [auto|]. cbn zeta. rewrite Er. split; [|split].
      + now rewrite Y, Et.
      + now rewrite drawn_quiet by apply HE.
      + split; [auto|]. rewrite Epath. cbn [run snd]. unfold lm_proof_path. reflexivity. }
  destruct (adaptive_tree ceq enc sel tr junk_lm V p vals D ([] ++ repeat 3 d) 2 T) as (st & node & leaf & Hs & HTr & HL); auto.
  - apply ks3'; [repeat constructor; lia|lia].
  - intros st tr0 _ ro pf tr' E. apply C50_lmpa_layout in E as (_ & _ & _ & -> & HF'). eauto.
  - intros st tr0 w e _ _ E. unfold V in E. apply C50_lmpa_layout in E as (_ & L1 & L2 & Ee & _). apply app_inv_head in Ee. subst e.
    rewrite lay_lmpa_length by auto. cbn [app]. now rewrite Nat.log2_pow2, repeat_length by lia.
  - destruct (lmpa_of_tree ceq vals (tr ++ enc st) d m (fst st) G H Q (snd st) (fix_st ceq enc junk_lm p st) D node leaf) as (S & GS & PS & ES); auto.
    { apply (HR (fst st) (snd st)). now rewrite <- surjective_pairing. }
    exists (fst st), (snd st), S. rewrite <- surjective_pairing. split; [auto|]. split; [auto|]. split; [|exact ES].
    intros path Hp. destruct (PS path Hp) as (xs & O). exists xs.
    apply (own_fix ceq enc sel tr junk_lm V p vals D st _ (fun pf => path = lm_proof_path d pf xs)) in O; auto.
    intros ro tr' E. unfold V in E. apply C50_lmpa_layout in E as (_ & L1 & _). rewrite Nat.log2_pow2 in L1 by lia. cbn in L1. lia.
Qed.
(** false statements of the prover's choice *)
Corollary C102_lmpa_false vals tr d m (G H : list Point) (Q : Point) (enc : list (list Point) * list Point -> list event) sel
    (p : prover ((list (list Point) * list Point) * LmpaNoZK)) T D :
  let V := fun (st : list (list Point) * list Point) tr ro pf => lmpa_verify ro tr pf (fst st) G H Q (2 ^ d) (snd st) in
  let W := on_chosen enc sel tr V in
  readable enc -> NoDup vals -> 1 <= m ->
  (forall A t, sel (A, t) = true -> rect m (2 ^ d) A /\ forall w, length w = 2 ^ d -> comb w (nth 0 A []) <> pt t 0) ->
  asks T p -> asks_challenges W tr p vals D ->
  successes W p vals D <= 2 * T * length vals ^ (length D - 1).
Proof.
  intros V W HE HN Hm HF HT HA. apply Nat.nlt_ge. intros HC.
  destruct (C102_lmpa vals tr d m G H Q enc sel p T D) as (A & t & S & Hs & _ & _ & L1 & E); auto; [intros A t Z; now apply (HF A t)|].
  now apply (proj2 (HF A t Hs) _ L1).
Qed.

Definition junk_sz : SimpleZK := mkSimpleZK junk_lm [].
Theorem C102_simplezk vals tr d m (G H : list Point) (Q : Point) (enc : list (list Point) * list Point -> list event) sel
    (p : prover ((list (list Point) * list Point) * SimpleZK)) T D :
  let V := fun (st : list (list Point) * list Point) tr ro pf => simple_zk_verify ro tr pf (fst st) G H Q (2 ^ d) (snd st) in
  let W := on_chosen enc sel tr V in
  readable enc -> NoDup vals -> 1 <= m -> (forall A t, sel (A, t) = true -> rect m (2 ^ d) A) ->
  asks T p -> asks_challenges W tr p vals D ->
  2 * T * length vals ^ (length D - 1) < successes W p vals D ->
  exists A t a b1 S1 b2 S2, sel (A, t) = true /\ b1 <> b2 /\ lm_good d S1 /\ lm_good d S2 /\
    (forall b S path, (b, S) = (b1, S1) \/ (b, S) = (b2, S2) -> In path (lm_paths S) ->
       exists xs, own_run W tr p vals D (b :: xs) (fun o => fst o = (A, t) /\ sz_a (snd o) = a /\ path = lm_proof_path d (sz_no_zk (snd o)) xs)) /\
    length (sz_extract b1 S1 b2 S2) = 2 ^ d /\ comb (sz_extract b1 S1 b2 S2) (nth 0 A []) = pt t 0.
Proof.
  intros V W HE HN Hm HR HT HA HC.
  destruct (adaptive_tree ceq enc sel tr junk_sz V p vals D ([2] ++ repeat 3 d) 2 T) as (st & node & leaf & Hs & HTr & HL); auto.
  - apply ks3'; [repeat constructor; lia|lia].
  - intros st tr0 _ ro pf tr' E. apply C50_simplezk_layout in E as (_ & _ & _ & -> & HF'). eauto.
  - intros st tr0 w e _ _ E. unfold V in E. apply C50_simplezk_layout in E as (_ & L1 & L2 & Ee & _). apply app_inv_head in Ee. subst e.
    unfold lay_simple. rewrite drawn_app, drawn_msgs. cbn [app drawn length]. rewrite lay_lmpa_length by auto.
    now rewrite Nat.log2_pow2, repeat_length by lia.
  - destruct (simplezk_of_tree ceq vals (tr ++ enc st) d m (fst st) G H Q (snd st) (fix_st ceq enc junk_sz p st) D node leaf) as (a & b1 & S1 & b2 & S2 & Hb & G1 & G2 & PS & ES); auto.
    { apply (HR (fst st) (snd st)). now rewrite <- surjective_pairing. }
    exists (fst st), (snd st), a, b1, S1, b2, S2. rewrite <- surjective_pairing. do 4 (split; [auto|]). split; [|exact ES].
    intros b S path HS Hp. destruct (PS b S path HS Hp) as (xs & O). exists xs.
    apply (own_fix ceq enc sel tr junk_sz V p vals D st _ (fun pf => sz_a pf = a /\ path = lm_proof_path d (sz_no_zk pf) xs)) in O; auto.
    intros ro tr' E. unfold V in E.
    assert (X : verdict (simple_zk_verify ro (tr ++ enc st) junk_sz (fst st) G H Q (2 ^ d) (snd st))) by (eexists; exact E).
    apply C58_simplezk_verdict in X as (_ & _ & _ & _ & _ & _ & _ & X & _). now apply X.
Qed.
Corollary C102_simplezk_false vals tr d m (G H : list Point) (Q : Point) (enc : list (list Point) * list Point -> list event) sel
    (p : prover ((list (list Point) * list Point) * SimpleZK)) T D :
  let V := fun (st : list (list Point) * list Point) tr ro pf => simple_zk_verify ro tr pf (fst st) G H Q (2 ^ d) (snd st) in
  let W := on_chosen enc sel tr V in
  readable enc -> NoDup vals -> 1 <= m ->
  (forall A t, sel (A, t) = true -> rect m (2 ^ d) A /\ forall w, length w = 2 ^ d -> comb w (nth 0 A []) <> pt t 0) ->
  asks T p -> asks_challenges W tr p vals D ->
  successes W p vals D <= 2 * T * length vals ^ (length D - 1).
Proof.
  intros V W HE HN Hm HF HT HA. apply Nat.nlt_ge. intros HC.
  destruct (C102_simplezk vals tr d m G H Q enc sel p T D) as (A & t & a & b1 & S1 & b2 & S2 & Hs & _ & _ & _ & _ & L1 & E); auto;
    [intros A t Z; now apply (HF A t)|].
  now apply (proj2 (HF A t Hs) _ L1).
Qed.

(** ** QESA and the copy argument *)
Lemma has_tree_le (vals : word) ks : forall ks' ok, Forall2 le ks ks' -> has_tree vals ks' ok -> has_tree vals ks ok.
Proof.
  induction ks as [|k ks IH]; intros ks' ok HF HT; inversion HF as [|? k' ? ks1 Hk HF']; subst; auto.
  destruct HT as (vs & VN & VL & VI & HV). exists (firstn k vs).
  assert (Hin : forall v, In v (firstn k vs) -> In v vs).
  { intros v Hv. rewrite <- (firstn_skipn k vs). apply in_or_app. now left. }
  split; [|split; [|split]].
  - clear -VN. revert k; induction VN as [|v vs Hv VN IH]; intros [|k]; cbn; constructor; auto.
    intros HI. apply Hv. rewrite <- (firstn_skipn k vs). apply in_or_app. now left.
  - rewrite firstn_length. lia.
  - intros v Hv. apply VI. auto.
  - intros v Hv. apply (IH ks1); auto.
Qed.
Lemma Forall2_le_refl ks : Forall2 le ks ks.
Proof. induction ks; constructor; auto. Qed.

Definition w_junk (n : nat) : list Scalar := s1 :: repeat s0 (n - 1).
Definition junk_inner n d (G H : list Point) : Inner :=
  mkInner (junk_alm d) (compress (comb (w_junk n) G)) (compress (comb (repeat s0 n) H)).
Definition junk_q n d G H : Inner * (list Scalar * list Scalar) := (junk_inner n d G H, (w_junk n, repeat s0 n)).
Definition junk_cp n d G H : Copy * (list Scalar * list Scalar) :=
  (mkCopy (compress (comb (w_junk n) G)) (junk_inner n d G H), (w_junk n, repeat s0 n)).

Definition qesa_opened n (G H : list Point) (o : Inner * (list Scalar * list Scalar)) : Prop :=
  let '(pf, (w', u)) := o in
     length (R_vec (az_NoZK (alm_zk pf))) = length (L_vec (az_NoZK (alm_zk pf))) /\
     length w' = n /\ sc w' 0 = s1 /\ decompress (c_prime_w pf) = Some (comb w' G) /\
     length u = n /\ decompress (c_prime_prime_w pf) = Some (comb u H).
Lemma junk_q_opened n d G H : 1 <= n -> qesa_opened n G H (junk_q n d G H).
Proof.
  intros Hn. cbn. rewrite !decompress_compress, !repeat_length. repeat split; auto. lia.
Qed.

(** the prover chooses the system of equations; openings as in C79 *)
Theorem C102_qesa vals tr (G H : list Point) (Q : Point) n d (enc : list (list (list Scalar)) -> list event) sel
    (p : prover (list (list (list Scalar)) * (Inner * (list Scalar * list Scalar)))) T D :
  let V := fun Ms tr ro (o : Inner * (list Scalar * list Scalar)) => inner_verify ro tr (fst o) G H Q (mkBlockMatrix Ms) in
  let W := on_chosen enc sel tr V in
  readable enc -> NoDup vals -> n = 2 ^ d -> 3 <= n -> length G = n -> length H = n ->
  (forall Ms, sel Ms = true -> 1 <= length Ms /\ Forall (rect (n - 2) (n - 2)) Ms) ->
  asks T p -> (forall ro, qesa_opened n G H (snd (run ro p))) -> asks_challenges W tr p vals D ->
  n * T * length vals ^ (length D - 1) < successes W p vals D ->
  exists Ms, sel Ms = true /\
  ((exists x c1 c2 T w' u g h q, x <> s0 /\ good_sb n T /\
     sb_paths T (fun s b cr be al path => exists xs, own_run W tr p vals D (x :: s :: b :: be :: al :: xs)
       (fun o => fst o = Ms /\ let pf := fst (snd o) in
          c_prime_w pf = c1 /\ c_prime_prime_w pf = c2 /\ C_r (alm_zk pf) = cr /\ path = proof_path (az_NoZK (alm_zk pf)) xs)) /\
     (exists cs, own_run W tr p vals D cs (fun o => fst o = Ms /\ c_prime_w (fst (snd o)) = c1 /\ fst (snd (snd o)) = w')) /\
     (exists cs, own_run W tr p vals D cs (fun o => fst o = Ms /\ c_prime_prime_w (fst (snd o)) = c2 /\ snd (snd (snd o)) = u)) /\
     q_compare n Ms x T w' u = Some (g, h, q) /\ nontrivial_relation n G H Q g h q) \/
   (exists cs, own_run W tr p vals D cs (fun o => fst o = Ms /\
      forall t, t < min (length Ms) n -> quad (nth t Ms []) (firstn (n - 2) (fst (snd (snd o)))) = s0))).
Proof.
  intros V W HE HN Hd Hn HG HH HS HT HO HA HC.
  assert (HSz : forall Ms ro tr0 o tr', sel Ms = true -> V Ms tr0 ro o = Ok (true, tr') -> n = 2 ^ length (L_vec (az_NoZK (alm_zk (fst o))))).
  { intros Ms ro tr0 o tr' Hs E. unfold V in E. destruct (HS Ms Hs) as [HM HF].
    assert (HV : verdict (inner_verify ro tr0 (fst o) G H Q (mkBlockMatrix Ms))) by (eexists; eauto).
    now apply (C58_qesa_verdict _ _ _ _ _ _ _ n) in HV as (_ & _ & (_ & _ & _ & En)). }
  assert (HJ : forall Ms ro tr0 tr', sel Ms = true -> V Ms tr0 ro (junk_q n d G H) <> Ok (true, tr')).
  { intros Ms ro tr0 tr' Hs E. apply HSz in E; auto. rewrite Hd in E. now apply junk_rounds in E. }
  assert (HRp : forall ro, length (R_vec (az_NoZK (alm_zk (fst (snd (run ro p)))))) = length (L_vec (az_NoZK (alm_zk (fst (snd (run ro p))))))).
  { intros ro. generalize (HO ro). destruct (snd (run ro p)) as [pf [w' u]]. intros Z. apply Z. }
  destruct (adaptive_tree ceq enc sel tr (junk_q n d G H) V p vals D ([S n; n - 1; 3; 3; 3] ++ repeat 4 d) n T) as (Ms & node & leaf & Hs & HTr & HL); auto.
  - apply ks4'; [|lia]. repeat (apply Forall_cons; [lia|]). apply Forall_nil.
  - intros Ms tr0 _ ro o tr' E. apply C50_qesa_layout in E as (Cw & P & -> & HF'). eauto.
  - intros Ms tr0 w e Hs _ E. assert (En := HSz _ _ _ _ _ Hs E). unfold V in E. apply C50_qesa_layout in E as (Cw & P & Ee & _). apply app_inv_head in Ee. subst e.
    unfold lay_inner, lay_alm. cbn [app drawn length]. rewrite drawn_lay_ipa by auto. cbn [app length]. rewrite repeat_length.
    do 5 f_equal. symmetry. rewrite Hd in En. eapply Nat.pow_inj_r; [|exact En]; lia.
  - destruct (HS Ms Hs) as [HM HF]. exists Ms. split; [auto|]. set (pf := fix_st ceq enc (junk_q n d G H) p Ms) in *.
    assert (HO1 : forall ro, qesa_opened n G H (run ro pf)).
    { intros ro. apply (fix_cases enc (junk_q n d G H) p Ms ro (qesa_opened n G H)); auto. apply junk_q_opened. lia. }
    assert (HR1 : forall ro, length (R_vec (az_NoZK (alm_zk (fst (run ro pf))))) = length (L_vec (az_NoZK (alm_zk (fst (run ro pf)))))).
    { intros ro. generalize (HO1 ro). destruct (run ro pf) as [pf1 [w' u]]. intros Z. apply Z. }
    assert (LIFT : forall cs R, own_run (V Ms (tr ++ enc Ms)) (tr ++ enc Ms) pf vals D cs R -> own_run W tr p vals D cs (fun o => fst o = Ms /\ R (snd o))).
    { intros cs R O. apply (own_fix ceq enc sel tr (junk_q n d G H) V p vals D Ms cs R); auto. }
    assert (KEY := qesa_key ceq fst vals (tr ++ enc Ms) G H Q n d Ms pf D node leaf HR1 HL). cbv zeta in KEY.
    assert (HTr' : has_tree vals ([S (min (length Ms) n); n - 1; 3; 3; 3] ++ repeat 4 d) (fun u => is_some (leaf u))).
    { eapply has_tree_le; [|exact HTr]. cbn [app]. constructor; [lia|]. apply Forall2_le_refl. }
    destruct (qesa_of_tree ceq vals (tr ++ enc Ms) G H Q n d Ms pf D _ _ _ _ _ _ Hn HG HH HM HF HO1 HTr' KEY)
      as [(x & c1 & c2 & S & w' & u & g & h & q & Nx & GS & OS & (cs1 & O1) & (cs2 & O2) & HQ & HRl)|(cs & O)].
    + left. exists x, c1, c2, S, w', u, g, h, q. split; [auto|]. split; [auto|]. split.
      { intros s b B HI. apply OS in HI. revert HI. apply beta_paths_impl. intros cr be al path (xs & O). exists xs. now apply LIFT in O. }
      split; [exists cs1; now apply LIFT in O1|]. split; [exists cs2; now apply LIFT in O2|]. auto.
    + right. exists cs. now apply LIFT in O.
Qed.

Definition copy_opened n (G H : list Point) (o : Copy * (list Scalar * list Scalar)) : Prop :=
  let '(pf, (w', u)) := o in
     length (R_vec (az_NoZK (alm_zk (cp_inner pf)))) = length (L_vec (az_NoZK (alm_zk (cp_inner pf)))) /\
     length w' = n /\ sc w' 0 = s1 /\ decompress (cp_C_w pf) = Some (comb w' G) /\
     length u = n /\ decompress (c_prime_prime_w (cp_inner pf)) = Some (comb u H).
Lemma junk_cp_opened n d G H : 1 <= n -> copy_opened n G H (junk_cp n d G H).
Proof.
  intros Hn. cbn. rewrite !decompress_compress, !repeat_length. repeat split; auto. lia.
Qed.

(** the prover chooses the equations and the message commitments; the key sets stay fixed *)
Theorem C102_copy vals tr (G H : list Point) (Q : Point) n d (ws : N) (sets : list (list N)) mp
    (enc : list (list (list Scalar)) * list Point -> list event) sel
    (p : prover ((list (list (list Scalar)) * list Point) * (Copy * (list Scalar * list Scalar)))) T D :
  let V := fun (st : list (list (list Scalar)) * list Point) tr ro (o : Copy * (list Scalar * list Scalar)) =>
             copy_verify ro tr (fst o) G H Q (mkBlockMatrix (fst st)) mp (snd st) in
  let W := on_chosen enc sel tr V in
  readable enc -> NoDup vals -> n = 2 ^ d -> 3 <= n -> (N.of_nat n < 65536)%N -> (ws < 65536)%N -> (N.of_nat (length sets) <= 65536)%N ->
  length G = n -> length H = n ->
  (forall s i, In s sets -> In i s -> 1 <= N.to_nat i < n - 2) -> Forall (@NoDup N) sets ->
  compute_mapping (N.of_nat n) ws sets = Ok mp ->
  (forall Ms Cs, sel (Ms, Cs) = true -> Forall (rect (n - 2) (n - 2)) Ms /\ length Ms + length (unique_commitment_indices mp) <= n /\ length Cs = length sets) ->
  asks T p -> (forall ro, copy_opened n G H (snd (run ro p))) -> asks_challenges W tr p vals D ->
  max (2 * length sets) n * T * length vals ^ (length D - 1) < successes W p vals D ->
  exists Ms Cs, sel (Ms, Cs) = true /\
  forall msgs rs, (forall k, k < length sets -> commit G (nth k sets []) (nth k msgs []) (sc rs k) = Ok (pt Cs k)) ->
  (exists a0 x cw c2 T w' u g h q, x <> s0 /\ good_sb n T /\
     sb_paths T (fun s b cr be al path => exists xs, own_run W tr p vals D (a0 :: x :: s :: b :: be :: al :: xs)
       (fun o => fst o = (Ms, Cs) /\ let pf := fst (snd o) in
          cp_C_w pf = cw /\ c_prime_prime_w (cp_inner pf) = c2 /\ C_r (alm_zk (cp_inner pf)) = cr /\
          path = proof_path (az_NoZK (alm_zk (cp_inner pf))) xs)) /\
     (exists cs, own_run W tr p vals D cs (fun o => fst o = (Ms, Cs) /\ cp_C_w (fst (snd o)) = cw /\ fst (snd (snd o)) = w')) /\
     (exists cs, own_run W tr p vals D cs (fun o => fst o = (Ms, Cs) /\ c_prime_prime_w (cp_inner (fst (snd o))) = c2 /\ snd (snd (snd o)) = u)) /\
     q_compare n (cp_system n mp a0 Ms) x T (cp_full n sets msgs rs w' a0) u = Some (g, h, q) /\
     nontrivial_relation n G H Q g h q) \/
  (exists cs, own_run W tr p vals D cs (fun o => fst o = (Ms, Cs) /\ let w' := fst (snd (snd o)) in
     (forall M, In M Ms -> quad M (firstn (n - 2) w') = s0) /\
     (forall k j, k < length sets -> j < length (nth k sets []) ->
        exists mm, nth_error (msgs_map mp) (cm_offset sets k + j) = Some mm /\
          sc (nth k msgs []) j = sc w' (mpos mm)) /\
     (forall s i, In s sets -> In i s -> sc w' (N.to_nat i) = s0))).
Proof.
  intros V W HE HN Hd Hn Hn16 Hws HSt HG HH Hidx HND Emp HS HT HO HA HC.
  destruct (compute_mapping_good n ws sets mp Hn16 Hws Emp HSt) as (HMap & _ & _).
  { intros s i Hs Hi. apply (Hidx s i Hs Hi). }
  assert (HT1 : 1 <= cm_total sets) by (apply compute_mapping_inv in Emp as (_ & HT' & _); exact HT').
  assert (HS1 : 1 <= length sets) by (destruct sets; [cbn in HT1; lia|cbn; lia]).
  assert (Hmsgs : length (msgs_map mp) = cm_total sets).
  { destruct (C29_metadata _ _ sets _ ltac:(lia) Emp) as (_ & Z & _). exact Z. }
  assert (HSz : forall st ro tr0 o tr', sel st = true -> V st tr0 ro o = Ok (true, tr') -> n = 2 ^ length (L_vec (az_NoZK (alm_zk (cp_inner (fst o)))))).
  { intros [Ms Cs] ro tr0 o tr' Hs E. unfold V in E. cbn [fst snd] in E. destruct (HS Ms Cs Hs) as (HF & HM & LC).
    assert (HV : verdict (copy_verify ro tr0 (fst o) G H Q (mkBlockMatrix Ms) mp Cs)) by (eexists; eauto).
    apply (C58_copy_verdict _ _ _ _ _ _ _ _ _ n) in HV as (_ & _ & (_ & _ & _ & En)); auto; try (rewrite LC; auto). rewrite Hmsgs. lia. }
  assert (HJ : forall st ro tr0 tr', sel st = true -> V st tr0 ro (junk_cp n d G H) <> Ok (true, tr')).
  { intros st ro tr0 tr' Hs E. apply HSz in E; auto. rewrite Hd in E. now apply junk_rounds in E. }
  assert (HRp : forall ro, length (R_vec (az_NoZK (alm_zk (cp_inner (fst (snd (run ro p))))))) = length (L_vec (az_NoZK (alm_zk (cp_inner (fst (snd (run ro p)))))))).
  { intros ro. generalize (HO ro). destruct (snd (run ro p)) as [pf [w' u]]. intros Z. apply Z. }
  destruct (adaptive_tree ceq enc sel tr (junk_cp n d G H) V p vals D ([S (2 * length sets); S n; n - 1; 3; 3; 3] ++ repeat 4 d) (max (2 * length sets) n) T)
    as ([Ms Cs] & node & leaf & Hs & HTr & HL); auto.
  - apply ks4'; [|lia]. repeat (apply Forall_cons; [lia|]). apply Forall_nil.
  - intros st tr0 _ ro o tr' E. apply C50_copy_layout in E as (Ca & Cw & P & -> & HF'). eauto.
  - intros st tr0 w e Hs _ E. assert (En := HSz _ _ _ _ _ Hs E). unfold V in E. apply C50_copy_layout in E as (Ca & Cw & P & Ee & _). apply app_inv_head in Ee. subst e.
    unfold lay_copy, lay_inner, lay_alm. cbn [app drawn length alm_zk]. rewrite drawn_lay_ipa by auto. cbn [app length]. rewrite repeat_length.
    do 6 f_equal. symmetry. rewrite Hd in En. eapply Nat.pow_inj_r; [|exact En]; lia.
  - destruct (HS Ms Cs Hs) as (HF & HM & LC). exists Ms, Cs. split; [auto|]. intros msgs rs HCm. set (st := (Ms, Cs)) in *.
    set (pf := fix_st ceq enc (junk_cp n d G H) p st) in *.
    assert (HO1 : forall ro, copy_opened n G H (run ro pf)).
    { intros ro. apply (fix_cases enc (junk_cp n d G H) p st ro (copy_opened n G H)); auto. apply junk_cp_opened. lia. }
    assert (LIFT : forall cs R, own_run (V st (tr ++ enc st)) (tr ++ enc st) pf vals D cs R -> own_run W tr p vals D cs (fun o => fst o = st /\ R (snd o))).
    { intros cs R O. apply (own_fix ceq enc sel tr (junk_cp n d G H) V p vals D st cs R); auto. }
    assert (HTr' : has_tree vals ([S (2 * length sets); S (length Ms + length (unique_commitment_indices mp)); n - 1; 3; 3; 3] ++ repeat 4 d) (fun u => is_some (leaf u))).
    { eapply has_tree_le; [|exact HTr]. cbn [app]. constructor; [lia|]. constructor; [lia|]. apply Forall2_le_refl. }
    destruct (copy_of_tree ceq vals (tr ++ enc st) G H Q n d Ms ws sets mp msgs rs Cs pf D node leaf Hn Hn16 Hws HSt HG HH HF Hidx HND Emp HM LC HCm HO1 HTr' HL)
      as [(a0 & x & c1 & c2 & S & w' & u & g & h & q & Nx & GS & OS & (cs1 & O1) & (cs2 & O2) & HQ & HRl)|(cs & O)].
    + left. exists a0, x, c1, c2, S, w', u, g, h, q. split; [auto|]. split; [auto|]. split.
      { intros s b B HI. apply OS in HI. revert HI. apply beta_paths_impl. intros cr be al path (xs & O). exists xs. now apply LIFT in O. }
      split; [exists cs1; now apply LIFT in O1|]. split; [exists cs2; now apply LIFT in O2|]. auto.
    + right. exists cs. now apply LIFT in O.
Qed.

(** no prover at all can do better on false statements of its choice: the queries of the proof
    count when it has not made them *)
Definition chosen_queries {St X} (enc : St -> list event) tr (qs : transcript -> X -> list transcript) (o : St * X) : list transcript :=
  qs (tr ++ enc (fst o)) (snd o).
Lemma chosen_drawn {St X} (enc : St -> list event) sel tr (V : St -> transcript -> oracle -> X -> res (bool * transcript)) qs ro o tr' :
  readable enc ->
  (forall st tr0 ro pf tr', V st tr0 ro pf = Ok (true, tr') -> exists e, tr' = tr0 ++ e /\ qs tr0 pf = drawn tr0 e) ->
  on_chosen enc sel tr V ro o = Ok (true, tr') ->
  forall h, In h (drawn tr (skipn (length tr) tr')) -> In h (chosen_queries enc tr qs o).
Proof.
  intros [HQ _] HV E h Hh. unfold on_chosen in E. destruct (sel (fst o)); [|discriminate].
  apply HV in E as (e & -> & Eq). unfold chosen_queries. rewrite Eq.
  rewrite <- app_assoc, skipn_app_exact, drawn_after in Hh by auto. exact Hh.
Qed.
Corollary C102_lmpa_any_prover vals tr d m (G H : list Point) (Q : Point) (enc : list (list Point) * list Point -> list event) sel
    (p : prover ((list (list Point) * list Point) * LmpaNoZK)) T D :
  let V := fun (st : list (list Point) * list Point) tr ro pf => lmpa_verify ro tr pf (fst st) G H Q (2 ^ d) (snd st) in
  let W := on_chosen enc sel tr V in
  readable enc -> NoDup vals -> 1 <= m ->
  (forall A t, sel (A, t) = true -> rect m (2 ^ d) A /\ forall w, length w = 2 ^ d -> comb w (nth 0 A []) <> pt t 0) ->
  asks T p -> incl (reach vals (then_ask p (chosen_queries enc tr (fun tr => lmpa_queries tr d)))) D ->
  successes W p vals D <= 2 * (T + d) * length vals ^ (length D - 1).
Proof.
  intros V W HE HN Hm HF HT HD. rewrite <- (successes_then_ask ceq W p (chosen_queries enc tr (fun tr => lmpa_queries tr d))).
  apply (C102_lmpa_false vals tr d m G H Q enc sel); auto.
  - apply asks_then_ask; auto. intros o. unfold chosen_queries, lmpa_queries, lay_lmpa. rewrite drawn_lm_length, firstn_length. lia.
  - apply asks_challenges_then; auto. intros ro o tr' E. revert E. apply chosen_drawn; auto.
    intros st tr0 ro0 pf tr1 E. unfold V in E. apply C50_lmpa_layout in E as (_ & _ & _ & -> & _). rewrite Nat.log2_pow2 by lia.
    eexists. split; reflexivity.
Qed.
Corollary C102_simplezk_any_prover vals tr d m (G H : list Point) (Q : Point) (enc : list (list Point) * list Point -> list event) sel
    (p : prover ((list (list Point) * list Point) * SimpleZK)) T D :
  let V := fun (st : list (list Point) * list Point) tr ro pf => simple_zk_verify ro tr pf (fst st) G H Q (2 ^ d) (snd st) in
  let W := on_chosen enc sel tr V in
  readable enc -> NoDup vals -> 1 <= m ->
  (forall A t, sel (A, t) = true -> rect m (2 ^ d) A /\ forall w, length w = 2 ^ d -> comb w (nth 0 A []) <> pt t 0) ->
  asks T p -> incl (reach vals (then_ask p (chosen_queries enc tr (fun tr => simplezk_queries tr d)))) D ->
  successes W p vals D <= 2 * (T + S d) * length vals ^ (length D - 1).
Proof.
  intros V W HE HN Hm HF HT HD. rewrite <- (successes_then_ask ceq W p (chosen_queries enc tr (fun tr => simplezk_queries tr d))).
  apply (C102_simplezk_false vals tr d m G H Q enc sel); auto.
  - apply asks_then_ask; auto. intros o. unfold chosen_queries, simplezk_queries, lay_simple. rewrite drawn_app, drawn_msgs. cbn [app drawn length].
    unfold lay_lmpa. rewrite drawn_lm_length, firstn_length. lia.
  - apply asks_challenges_then; auto. intros ro o tr' E. revert E. apply chosen_drawn; auto.
    intros st tr0 ro0 pf tr1 E. unfold V in E. apply C50_simplezk_layout in E as (_ & _ & _ & -> & _). rewrite Nat.log2_pow2 by lia.
    eexists. split; reflexivity.
Qed.

(** ** Encodings that can be read back, for all statements above: points under a label, scalars as
    multiples of a fixed point, lists after their length *)
Definition prefix_code {A} (e : A -> list event) : Prop :=
  (forall x, quiet (e x)) /\ forall x y r r', e x ++ r = e y ++ r' -> x = y /\ r = r'.
Lemma prefix_readable {A} (e : A -> list event) : prefix_code e -> readable e.
Proof. intros [HQ HP]. split; auto. intros x y r r' E. now apply HP in E. Qed.
Definition enc_point (P : Point) : list event := [EvMsg "P" (compress P)].
Definition enc_scalar (B : Point) (t : Scalar) : list event := [EvMsg "t" (compress (t *: B)%P)].
Definition enc_pair {A A'} (e : A -> list event) (e' : A' -> list event) (x : A * A') : list event := e (fst x) ++ e' (snd x).
Definition enc_list {A} (e : A -> list event) (l : list A) : list event := EvU64 "len" (length l) :: concat (map e l).
Lemma point_code : prefix_code enc_point.
Proof.
  split; [intros x l [E|[]]; discriminate|]. intros x y r r' E. injection E as E1 E2. split; auto.
  apply (f_equal decompress) in E1. rewrite !decompress_compress in E1. now injection E1.
Qed.
Lemma scalar_code B : B <> p0 -> prefix_code (enc_scalar B).
Proof.
  intros HB. split; [intros x l [E|[]]; discriminate|]. intros x y r r' E. injection E as E1 E2. split; auto.
  apply (f_equal decompress) in E1. rewrite !decompress_compress in E1. injection E1 as E1. now apply PropNizk.pmul_inj in E1.
Qed.
Lemma pair_code {A A'} (e : A -> list event) (e' : A' -> list event) : prefix_code e -> prefix_code e' -> prefix_code (enc_pair e e').
Proof.
  intros [Q1 P1] [Q2 P2]. split.
  - intros x l Hl. apply in_app_or in Hl as [Hl|Hl]; [now apply Q1 in Hl|now apply Q2 in Hl].
  - intros [x x'] [y y'] r r' E. unfold enc_pair in E. cbn [fst snd] in E. rewrite <- !app_assoc in E.
    apply P1 in E as [-> E]. apply P2 in E as [-> E]. auto.
Qed.
Lemma list_code {A} (e : A -> list event) : prefix_code e -> prefix_code (enc_list e).
Proof.
  intros [Q1 P1]. split.
  - intros l lab [E|Hl]; [discriminate|]. apply in_concat in Hl as (c & Hc & Hl). apply in_map_iff in Hc as (x & <- & _). now apply Q1 in Hl.
  - intros l l' r r' E. unfold enc_list in E. injection E as EL E. revert l' EL E.
    induction l as [|x l IH]; intros [|y l'] EL E; try discriminate; [auto|].
    cbn [map concat] in E. rewrite <- !app_assoc in E. apply P1 in E as [-> E]. cbn in EL. injection EL as EL.
    destruct (IH l' EL E) as [-> ->]. auto.
Qed.
Corollary C102_readable B : B <> p0 ->
  readable (enc_pair enc_point (enc_scalar B)) /\
  readable (enc_pair (enc_list (enc_list enc_point)) (enc_list enc_point)) /\
  readable (enc_list (enc_list (enc_list (enc_scalar B)))) /\
  readable (enc_pair (enc_list (enc_list (enc_list (enc_scalar B)))) (enc_list enc_point)).
Proof.
  intros HB. assert (CP := point_code). assert (CS := scalar_code B HB).
  repeat split; try (apply prefix_readable; auto using pair_code, list_code).
Qed.
End C102.

(** ** Concrete cases over Z/1009: false statements with the zero matrix and a target t other than 0,
    one round *)
Definition sel102 (st : list (list (@Point FS)) * list (@Point FS)) : bool :=
  match st with
  | ([[a; b]], [t]) => (peqb a (qN 0) && peqb b (qN 0) && negb (peqb t (qN 0)))%bool
  | _ => false
  end.
Definition V102 (st : list (list (@Point FS)) * list (@Point FS)) tr (ro : @oracle FS) (pf : @LmpaNoZK FS) :=
  lmpa_verify ro tr pf (fst st) [qN 0; qN 0] [] (qN 0) (2 ^ 1) (snd st).
Definition enc102 := enc_pair (enc_list (enc_list (@enc_point FS))) (enc_list (@enc_point FS)).
(** statement not hashed: one query, then t is chosen to fit, for every answer *)
Definition late102 (h : @transcript FS) : @prover FS ((list (list (@Point FS)) * list (@Point FS)) * @LmpaNoZK FS) :=
  Ask h (fun x => Done (([[qN 0; qN 0]], [pmul (sopp (smul (sadd (fN 2) (smul x x)) (sinv x))) (qN 1)]), a79)).
Example C102_case_unhashed :
  successes fs_ceq (on_chosen (fun _ => []) sel102 [] V102) (late102 (q79 a79)) (v75 10) [q79 a79] = 10.
Proof. vm_compute. reflexivity. Qed.

(** the same with the statement hashed: one query for a first t, chosen to fit the challenges 1 and
    2; if the answer is another one, a second query for a t that fits 3 and 4. 36 of the 100 tables;
    no prover with two queries does better than 40, though it may choose t after the first answer *)
Definition st102 (t : @Scalar FS) : list (list (@Point FS)) * list (@Point FS) := ([[qN 0; qN 0]], [pmul t (qN 1)]).
Definition h102 st (pf : @LmpaNoZK FS) : @transcript FS := enc102 st ++ q79 pf.
Definition c102 := pf79 (fN 12) (fN 1).
Definition grind102 : @prover FS ((list (list (@Point FS)) * list (@Point FS)) * @LmpaNoZK FS) :=
  Ask (h102 (st102 (fN (-3))) a79) (fun v => if (seqb v (fN 1) || seqb v (fN 2))%bool then Done (st102 (fN (-3)), a79)
    else Ask (h102 (st102 (fN (-7))) c102) (fun _ => Done (st102 (fN (-7)), c102))).
Notation W102 := (on_chosen enc102 sel102 [] V102).
Example C102_case_hashed :
  successes fs_ceq W102 grind102 (v75 10) [h102 (st102 (fN (-3))) a79; h102 (st102 (fN (-7))) c102] = 36.
Proof. vm_compute. reflexivity. Qed.
Lemma sel102_false A t : sel102 (A, t) = true ->
  rect 1 (2 ^ 1) A /\ forall w, length w = 2 ^ 1 -> comb w (nth 0 A []) <> pt t 0.
Proof.
  destruct A as [|[|a [|b [|]]] [|]]; try discriminate. destruct t as [|t [|]]; try discriminate. cbn [sel102]. intros E.
  apply andb_prop in E as [E Et]. apply andb_prop in E as [Ea Eb]. apply Bool.negb_true_iff in Et.
  apply (@peqb_eq FS FS_laws) in Ea, Eb. subst a b. split; [split; [reflexivity|repeat constructor]|].
  assert (Z : qN 0 = @p0 FS) by (apply vtab_ext || (apply (@peqb_eq FS FS_laws); vm_compute; reflexivity)).
  intros w _ Ew. assert (E0 : comb w [qN 0; qN 0] = @p0 FS).
  { rewrite Z. apply (@sum_P_0 FS FS_laws). intros i _. unfold pt. destruct i as [|[|i]]; cbn [nth]; try apply (@pmul_0_r FS FS_laws).
    destruct i; apply (@pmul_0_r FS FS_laws). }
  cbn [nth] in Ew. rewrite E0, <- Z in Ew. unfold pt in Ew. cbn [nth] in Ew. subst t.
  rewrite (proj2 (@peqb_eq FS FS_laws _ _) eq_refl) in Et. discriminate.
Qed.
Example C102_case_bound (p : @prover FS ((list (list (@Point FS)) * list (@Point FS)) * @LmpaNoZK FS)) h1 h2 :
  asks 2 p -> asks_challenges fs_ceq W102 [] p (v75 10) [h1; h2] -> successes fs_ceq W102 p (v75 10) [h1; h2] <= 40.
Proof.
  intros HT HA. apply (@C102_lmpa_false FS FS_laws fs_ceq (v75 10) [] 1 1 [qN 0; qN 0] [] (qN 0) enc102 sel102 p 2 [h1; h2]); auto.
  - apply (@C102_readable FS FS_laws (qN 1)). intros E. apply (f_equal zq) in E. vm_compute in E. discriminate.
  - apply v79_NoDup. cbn; auto.
  - apply sel102_false.
Qed.
(** inner-product argument, n = 1: all five tables, and the bound of C102_nozk is 3 *)
Definition encP102 := enc_pair (@enc_point FS) (enc_scalar (qN 1)).
Definition stP102 : @Point FS * @Scalar FS := (qN (3 * 5 + 6 * 2 + 18 * 17), fN 18).
Definition hon102 : @prover FS ((@Point FS * @Scalar FS) * @NoZK FS) :=
  Ask (ipa_start (encP102 stP102) 1) (fun _ => Done (stP102, mkNoZK [] [] (fN 3) (fN 6))).
Definition VP102 (st : @Point FS * @Scalar FS) tr (ro : @oracle FS) (pf : @NoZK FS) :=
  no_zk_verify ro tr pf [qN 5] [qN 2] (qN 17) (2 ^ 0) (fst st) (snd st).
Example C102_case_nozk :
  successes fs_ceq (on_chosen encP102 (fun _ => true) [] VP102) hon102 (v75 5) [ipa_start (encP102 stP102) 1] = 5 /\
  exists P t B, good_trees B /\
    all_paths B (fun al path => exists xs, own_run fs_ceq (on_chosen encP102 (fun _ => true) [] VP102) [] hon102 (v75 5)
       [ipa_start (encP102 stP102) 1] (al :: xs) (fun o => fst o = (P, t) /\ path = proof_path (snd o) xs)) /\
    match trees_extract t B with
    | Wit a b c => length a = 1 /\ P = (comb a [qN 5] + comb b [qN 2] + t *: qN 17)%P /\ dotp a b = t
    | Rel g h q => nontrivial_relation 1 [qN 5] [qN 2] (qN 17) g h q
    end.
Proof.
  assert (Z : successes fs_ceq (on_chosen encP102 (fun _ => true) [] VP102) hon102 (v75 5) [ipa_start (encP102 stP102) 1] = 5) by (vm_compute; reflexivity).
  split; [exact Z|].
  destruct (@C102_nozk FS FS_laws fs_ceq (v75 5) [] [qN 5] [qN 2] (qN 17) 0 encP102 (fun _ => true) hon102 1 [ipa_start (encP102 stP102) 1])
    as (P & t & B & _ & GB & PB & E); auto.
  - apply (@C102_readable FS FS_laws (qN 1)). intros E. apply (f_equal zq) in E. vm_compute in E. discriminate.
  - apply v79_NoDup. cbn; auto.
  - cbn. auto.
  - intros w tr' Hw E h Hh. unfold on_chosen in E. apply C50_ipa_layout in E. destruct E as (_ & E & _). subst tr'.
    change (skipn (length []) ([] ++ ?l)) with l in Hh. cbn in Hh. destruct Hh as [<-|[]]. cbn. auto.
  - change (3 * 1 * 1 < successes fs_ceq (on_chosen encP102 (fun _ => true) [] VP102) hon102 (v75 5) [ipa_start (encP102 stP102) 1]). rewrite Z. lia.
  - exists P, t, B. split; [exact GB|]. split; [exact PB|]. destruct (trees_extract _ B) as [a b c|g h q]; [|exact E].
    destruct E as (E1 & _ & _ & E2 & E3). auto.
Qed.
