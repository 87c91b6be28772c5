(** The extractor of FsRewind for a prover that queries a hash function: the tables are the
    answers on the histories D, and the letters that are changed are the answers at the
    challenges of the proof. *)
From Coq Require Import String.
From Verif Require Export FsRewind PropFiatShamir.
From Coq Require Import List Arith Lia Bool.
Local Open Scope nat_scope.
Local Open Scope list_scope.
Import ListNotations.

Section FsExtract.
Context {C : Crypto} {L : CryptoLaws C} (ceq : @encodings_comparable C).
Notation word := (list Scalar).
Notation position := (position ceq).
Notation table := (table ceq).
Context {X : Type} (V : oracle -> X -> res (bool * transcript)) (tr : transcript) (p : prover X)
        (vals : list Scalar) (D : list transcript).

Definition place (h : transcript) : nat := match position h D with Some i => i | None => length D end.
(** where the challenges of the prover's proof are drawn, if it is accepted *)
Definition chal_path (w : word) : option (list nat) :=
  match V (table D w) (run (table D w) p) with
  | Ok (true, tr') => Some (map place (drawn tr (skipn (length tr) tr')))
  | _ => None
  end.
(** the extractor: [w] is the table of its first run *)
Definition fs_rewind (ks : list nat) (w : word) : option (ttree Scalar) * nat := fx seqb vals s0 chal_path ks 0 w.
(** the history at a node *)
Definition node_hist (t : ttree Scalar) (u : word) : transcript := nth (pos_at seqb u t) D [].
Definition leaf_tab (t : ttree Scalar) (u : word) : option word := leaf_at seqb u t.

(** a table below the node reached by u *)
Fixpoint some_leaf (t : ttree Scalar) : option word :=
  match t with
  | TLeaf w => Some w
  | TNode _ q => match q with (_, t') :: _ => some_leaf t' | [] => None end
  end.
Fixpoint under (u : word) (t : ttree Scalar) : option (ttree Scalar) :=
  match u with
  | [] => Some t
  | v :: u => match t with TNode _ q => match tpick seqb v q with Some t => under u t | None => None end | TLeaf _ => None end
  end.
Definition below (t : ttree Scalar) (u : word) : option word :=
  match under u t with Some t' => some_leaf t' | None => None end.

Definition asked_at (w : word) : list nat :=
  flat_map (fun h => match position h D with Some i => [i] | None => [] end) (asked (table D w) p).

Lemma asked_length {Y} T (q : prover Y) ro : asks T q -> length (asked ro q) <= T.
Proof.
  revert T; induction q as [x|h k IH]; intros T HT; cbn; [lia|]. destruct T as [|T]; [destruct HT|].
  specialize (IH (ro h) T (HT _)). lia.
Qed.
Lemma asked_same {Y} (q : prover Y) w i v h : position h D = Some i ->
  In h (asked (table D w) q) -> In h (asked (table D (set_at w i v)) q).
Proof.
  intros Hh. induction q as [x|h' k IH]; cbn [asked]; [intros []|].
  destruct (hist_eq_dec ceq h' h) as [->|Hn]; [intros _; now left|]. intros [->|HI]; [contradiction|]. right.
  rewrite table_set_neq; [now apply IH|]. intros E. apply position_Some in E as [_ E]. apply position_Some in Hh as [_ Hh]. congruence.
Qed.
Lemma asked_at_In w i : In i (asked_at w) <-> exists h, In h (asked (table D w) p) /\ position h D = Some i.
Proof.
  unfold asked_at. rewrite in_flat_map. split; intros (h & H1 & H2); exists h; (split; [auto|]).
  - destruct (position h D) as [j|]; [|destruct H2]. destruct H2 as [->|[]]. reflexivity.
  - rewrite H2. now left.
Qed.
Lemma asked_at_few T w : asks T p -> length (asked_at w) <= T.
Proof.
  intros HT. apply (asked_length T p (table D w)) in HT. etransitivity; [|exact HT]. unfold asked_at. clear HT.
  induction (asked (table D w) p) as [|h l IH]; [cbn; lia|]. cbn [flat_map]. rewrite app_length. destruct (position h D); cbn in *; lia.
Qed.
Lemma asked_at_stable w i v : In i (asked_at w) -> In i (asked_at (set_at w i v)).
Proof. rewrite !asked_at_In. intros (h & H1 & H2). exists h. split; [now apply asked_same|auto]. Qed.

Context (ks : list nat) (T : nat).
Context (HN : NoDup vals) (HT : asks T p) (HK : Forall (fun k => 1 <= k) ks) (HF : follows V tr)
        (HD : forall w tr' e, V (table D w) (run (table D w) p) = Ok (true, tr') -> tr' = tr ++ e -> length (drawn tr e) = length ks)
        (HA : asks_challenges ceq V tr p vals D).

Lemma chal_path_Some w q : In w (words vals (length D)) -> chal_path w = Some q ->
  exists e, V (table D w) (run (table D w) p) = Ok (true, tr ++ e) /\ q = map place (drawn tr e) /\ length (drawn tr e) = length ks /\
    forall h, In h (drawn tr e) -> In h (asked (table D w) p) /\ position h D = Some (place h).
Proof.
  intros Hw. unfold chal_path. destruct (V _ _) as [[[|] tr']| |] eqn:E; try discriminate. injection 1 as <-.
  destruct (HF _ _ _ E) as (e & -> & _). exists e. rewrite skipn_app_exact. split; [auto|]. split; [auto|]. split; [eapply HD; eauto|].
  intros h Hh. destruct (HA w _ Hw E h) as [H1 H2]; [now rewrite skipn_app_exact|]. split; [auto|].
  unfold place. destruct (position_In ceq h D H2) as [i ->]. reflexivity.
Qed.
Lemma path_rounds w q : In w (words vals (length D)) -> chal_path w = Some q -> length q = length ks.
Proof. intros Hw E. destruct (chal_path_Some w q Hw E) as (e & _ & -> & EL & _). now rewrite map_length. Qed.
Lemma path_queried w q i : In w (words vals (length D)) -> chal_path w = Some q -> In i q -> i < length D /\ In i (asked_at w).
Proof.
  intros Hw E HI. destruct (chal_path_Some w q Hw E) as (e & _ & -> & _ & HP). apply in_map_iff in HI as (h & <- & Hh).
  destruct (HP h Hh) as [H1 H2]. split; [now apply position_Some in H2|]. apply asked_at_In. eauto.
Qed.
Lemma place_hist h : position h D = Some (place h) -> nth (place h) D [] = h.
Proof. intros H. apply position_Some in H as [_ H]. now apply nth_error_nth. Qed.
Lemma path_prefix w w' q q' j i : In w (words vals (length D)) -> In w' (words vals (length D)) ->
  chal_path w = Some q -> chal_path w' = Some q' -> nth_error q j = Some i -> nth_error q' j = Some i -> firstn j q = firstn j q'.
Proof.
  intros Hw Hw' E E'. destruct (chal_path_Some w q Hw E) as (e & _ & -> & _ & HP). destruct (chal_path_Some w' q' Hw' E') as (e' & _ & -> & _ & HP').
  rewrite !nth_error_map. destruct (nth_error (drawn tr e) j) as [h|] eqn:E1; [|discriminate].
  destruct (nth_error (drawn tr e') j) as [h'|] eqn:E2; [|discriminate]. cbn [option_map]. injection 1 as E3. injection 1 as E4.
  assert (h = h'). { rewrite <- (place_hist h), <- (place_hist h'); [congruence|apply HP'; eapply nth_error_In; eauto|apply HP; eapply nth_error_In; eauto]. }
  subst h'. rewrite !firstn_map, <- (earlier_nth _ _ _ _ E1), <- (earlier_nth _ _ _ _ E2). reflexivity.
Qed.
Lemma path_distinct w q : In w (words vals (length D)) -> chal_path w = Some q -> NoDup q.
Proof.
  intros Hw E. destruct (chal_path_Some w q Hw E) as (e & _ & -> & _ & HP).
  assert (ND : NoDup (drawn tr e)).
  { apply NoDup_nth_error. intros i j Hi Hj. destruct (nth_error (drawn tr e) i) as [h|] eqn:E1; [|apply nth_error_None in E1; lia].
    symmetry in Hj. apply nchal_drawn in E1, Hj. lia. }
  revert HP. generalize ND. generalize (drawn tr e). clear. intros l. induction 1 as [|h l N1 N2 IH]; intros HP; [constructor|]. cbn. constructor.
  - intros HI. apply in_map_iff in HI as (h' & E & HI). apply N1.
    rewrite <- (place_hist h), <- E, place_hist; [auto|apply HP; now right|apply HP; now left].
  - apply IH. intros h' Hh'. apply HP. now right.
Qed.

Lemma positions_hist t u : map (fun i => nth i D []) (positions seqb t [] u) = map fst (st_msgs (node_hist t) [] u).
Proof. generalize (@nil Scalar) at 1 2 as pre. induction u as [|v u IH]; intros pre; cbn; [reflexivity|]. now rewrite IH. Qed.

Theorem fs_rewind_tree w t : In w (words vals (length D)) -> fst (fs_rewind ks w) = Some t ->
  wgood vals ks (fun u => is_some (leaf_tab t u)) (erase t) /\ tree_runs ceq V tr p vals D (node_hist t) (leaf_tab t).
Proof.
  intros Hw Ht. assert (HP : exists q, chal_path w = Some q).
  { apply (found_path seqb vals s0 chal_path ks 0). unfold found. unfold fs_rewind in Ht. now rewrite Ht. }
  destruct HP as [q HP].
  destruct (fx_good seqb vals s0 chal_path seqb_eq HN (length D) asked_at path_queried
              (length ks) path_rounds path_prefix path_distinct ks HK 0 w t q eq_refl Hw HP Ht) as [G1 G2].
  split; [exact G1|]. intros u w' HL. destruct (G2 u w' HL) as (Iw & q' & P' & _ & _ & Q1 & Q2). cbn [skipn] in Q1, Q2.
  split; [exact Iw|]. destruct (chal_path_Some w' q' Iw P') as (e & EV & Eq & _ & HP'). exists e. split; [exact EV|].
  assert (E1 : map (fun i => nth i D []) (map place (drawn tr e)) = drawn tr e).
  { rewrite map_map. rewrite <- (map_id (drawn tr e)) at 2. apply map_ext_in. intros h Hh. apply place_hist. now apply HP'. }
  assert (E2 : drawn tr e = map fst (st_msgs (node_hist t) [] u)) by (rewrite <- positions_hist, <- Q1, Eq; now rewrite E1).
  assert (E3 : map (table D w') (drawn tr e) = u).
  { rewrite <- Q2, Eq, map_map. apply map_ext_in. intros h Hh. apply table_at. now apply HP'. }
  destruct (HF _ _ _ EV) as (e' & E4 & HR). apply app_inv_head in E4. subst e'.
  split; [|split; auto]. apply HR. intros h Hh. apply drawn_In in Hh.
  apply In_nth_error in Hh as [i Hi]. rewrite (coins_at tr u h i); [|eapply nchal_drawn; eauto].
  rewrite <- E3. unfold sc. apply nth_error_nth. now rewrite nth_error_map, Hi.
Qed.
(** the first run has its first challenge at the root *)
Lemma fs_rewind_root k ks' w t : In w (words vals (length D)) -> ks = k :: ks' -> fst (fs_rewind ks w) = Some t ->
  exists e, V (table D w) (run (table D w) p) = Ok (true, tr ++ e) /\ nth_error (drawn tr e) 0 = Some (node_hist t []).
Proof.
  intros Hw Ek Ht. unfold fs_rewind in Ht. rewrite Ek, fx_cons in Ht. destruct (nth_place chal_path 0 w) as [i|] eqn:Ei; [|discriminate].
  unfold nth_place in Ei. destruct (chal_path w) as [q|] eqn:EP; [|discriminate].
  destruct (chal_path_Some w q Hw EP) as (e & EV & -> & _ & HP). exists e. split; [exact EV|].
  destruct (node _ _ _) as [[ts|] c]; [|discriminate]. cbn in Ht. injection Ht as <-.
  rewrite nth_error_map in Ei. destruct (nth_error (drawn tr e) 0) as [h|] eqn:E0; [|discriminate]. cbn in Ei. injection Ei as <-.
  unfold node_hist. cbn [pos_at]. f_equal. symmetry. apply place_hist. apply HP. eapply nth_error_In; eauto.
Qed.

Theorem fs_rewind_often : successes ceq V p vals D <=
  count (fun w => found (fs_rewind ks w)) (words vals (length D)) + slack ks * T * length vals ^ (length D - 1).
Proof.
  assert (E0 : successes ceq V p vals D = count (fun w => is_some (chal_path w)) (words vals (length D))).
  { apply count_ext. intros w _. unfold chal_path. destruct (V _ _) as [[[|] t]| |]; reflexivity. }
  rewrite E0. set (q := length vals). set (N := length D) in *.
  assert (X0 := fx_often seqb vals s0 chal_path seqb_eq HN N T asked_at (fun w _ => asked_at_few T w HT)
                 (fun w i v _ _ _ => asked_at_stable w i v) path_queried (length ks) path_rounds ks HK 0 eq_refl).
  change (fun w => match chal_path w with Some _ => true | None => false end) with (fun w => is_some (chal_path w)) in X0.
  change (fun w => found (fx seqb vals s0 chal_path ks 0 w)) with (fun w => found (fs_rewind ks w)) in X0. fold q in X0.
  assert (SMALL : N = 0 \/ q = 0 -> count (fun w => is_some (chal_path w)) (words vals N) <= count (fun w => found (fs_rewind ks w)) (words vals N)).
  { intros HZ. destruct (list_eq_dec Nat.eq_dec ks []) as [Ek|Ek].
    - apply count_le. intros w _ H. unfold found, fs_rewind. rewrite Ek. cbn [fx fst]. now destruct (chal_path w).
    - rewrite count_none; [lia|]. intros w Hw. destruct (chal_path w) as [ps|] eqn:EP; [|reflexivity]. exfalso.
      assert (LP := path_rounds w ps Hw EP). destruct ps as [|i ps]; [destruct ks; [congruence|discriminate]|].
      destruct (path_queried w (i :: ps) i Hw EP (or_introl eq_refl)) as [Hi _]. fold N in Hi.
      destruct HZ as [HZ|HZ]; [lia|]. apply words_In in Hw as [Lw Fw]. unfold q in HZ. destruct vals; [|discriminate].
      destruct w; [cbn in Lw; fold N in Lw; lia|]. inversion Fw; subst. auto. }
  destruct (Nat.eq_dec q 0) as [Hq|Hq]; [specialize (SMALL (or_intror Hq)); lia|].
  destruct (Nat.eq_dec N 0) as [Hn|Hn]; [specialize (SMALL (or_introl Hn)); lia|].
  destruct N as [|N']; [lia|]. replace (S N' - 1) with N' by lia. rewrite Nat.pow_succ_r' in X0.
  apply (Nat.mul_le_mono_pos_l _ _ q); [lia|]. nia.
Qed.
Theorem fs_rewind_runs : total (fun w => snd (fs_rewind ks w)) (words vals (length D)) <=
  (prodn ks + T * (prodn ks - 1)) * length vals ^ length D.
Proof.
  exact (fx_runs seqb vals s0 chal_path seqb_eq HN (length D) T asked_at (fun w _ => asked_at_few T w HT)
           (fun w i v _ _ _ => asked_at_stable w i v) path_queried ks HK 0).
Qed.
End FsExtract.
