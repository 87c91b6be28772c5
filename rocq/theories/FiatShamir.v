(** Provers against a hash function: a prover that may query the hash function adaptively,
    tables of answers, and the counting argument that turns a prover which succeeds for many
    tables into a tree of its own accepted proofs. *)
From Coq Require Import String.
From Verif Require Export Forking TransSpec.
From Coq Require Import List Arith Lia Bool.
Local Open Scope nat_scope.
Local Open Scope list_scope.
Import ListNotations.

Section Vocabulary.
Context {C : Crypto}.
Notation word := (list Scalar).

(** a prover: queries to the hash function, each depending on the answers so far, then an output *)
Inductive prover (X : Type) : Type :=
| Done (x : X)
| Ask (h : transcript) (k : Scalar -> prover X).
Arguments Done {X}. Arguments Ask {X}.

Fixpoint run {X} (ro : oracle) (p : prover X) : X :=
  match p with
  | Done x => x
  | Ask h k => run ro (k (ro h))
  end.
(** at most T queries, whatever the answers *)
Fixpoint asks {X} (T : nat) (p : prover X) : Prop :=
  match p with
  | Done _ => True
  | Ask h k => match T with O => False | S T => forall v, asks T (k v) end
  end.

(** the queries a prover makes *)
Fixpoint asked {X} (ro : oracle) (p : prover X) : list transcript :=
  match p with
  | Done _ => []
  | Ask h k => h :: asked ro (k (ro h))
  end.

(** byte strings can be compared *)
Definition encodings_comparable : Type := forall c c' : Compressed, {c = c'} + {c <> c'}.
Context (ceq : encodings_comparable).
Definition event_eq_dec (e e' : event) : {e = e'} + {e <> e'}.
Proof. decide equality; auto using string_dec, Nat.eq_dec. Defined.
Definition hist_eq_dec (h h' : transcript) : {h = h'} + {h <> h'} := list_eq_dec event_eq_dec h h'.

Fixpoint position (h : transcript) (D : list transcript) : option nat :=
  match D with
  | [] => None
  | h' :: D => if hist_eq_dec h h' then Some 0 else option_map S (position h D)
  end.
(** the hash function with the answers w on the histories D, and 0 elsewhere *)
Definition table (D : list transcript) (w : word) : oracle :=
  fun h => match position h D with Some i => sc w i | None => s0 end.

(** the histories, after tr, at which a challenge is drawn in tr ++ e, in order *)
Fixpoint drawn (tr : transcript) (e : list event) : list transcript :=
  match e with
  | [] => []
  | EvChal l :: e => (tr ++ [EvChal l]) :: drawn (tr ++ [EvChal l]) e
  | ev :: e => drawn (tr ++ [ev]) e
  end.
End Vocabulary.
Arguments Done {C X}. Arguments Ask {C X}.

(** ** Counting *)
Section Fibre.
Context {A : Type}.
Lemma sum_scaled (a b : nat) (f g : A -> nat) l : (forall v, a * f v <= b * g v) ->
  a * list_sum (map f l) <= b * list_sum (map g l).
Proof.
  intros Z. induction l as [|u us IHu]; [cbn; lia|]. cbn [map].
  change (list_sum (?x :: ?y)) with (x + list_sum y). rewrite !Nat.mul_add_distr_l. specialize (Z u). lia.
Qed.
(** of the words in S, which does not look at letter i, at most a fraction K/|vals| is in B
    if B holds for at most K values of the letter i *)
Lemma count_fibre (vals : list A) N : forall (S B : list A -> bool) i K, i < N ->
  (forall w v, length w = N -> S (set_at w i v) = S w) ->
  (forall w, length w = N -> count (fun v => B (set_at w i v)) vals <= K) ->
  length vals * count (fun w => S w && B w) (words vals N) <= K * count S (words vals N).
Proof.
  induction N as [|N IH]; intros S B i K Hi HS HB; [lia|]. rewrite !count_words_S. destruct i as [|i].
  - destruct vals as [|v0 vals'] eqn:EV; [cbn; lia|]. rewrite <- EV in *. clear EV.
    rewrite (count_swap vals (fun v w => S (v :: w) && B (v :: w))), (count_swap vals (fun v w => S (v :: w))). generalize (words_In vals N). generalize (words vals N) as W. intros W HW.
    assert (HL : forall w, In w W -> length w = N) by (intros w Hw; now apply HW in Hw). clear HW IH.
    induction W as [|w W IHW]; [cbn; lia|]. cbn [map].
    change (list_sum (?x :: ?y)) with (x + list_sum y). rewrite !Nat.mul_add_distr_l.
    apply Nat.add_le_mono; [|apply IHW; intros z Hz; apply HL; now right].
    specialize (HL w (or_introl eq_refl)).
    assert (E : forall v, S (v :: w) = S (v0 :: w)).
    { intros v. rewrite <- (HS (v0 :: w) v); [reflexivity|cbn; lia]. }
    rewrite (count_ext _ (fun v => S (v0 :: w) && B (v :: w))) by (intros; now rewrite E).
    rewrite (count_ext (fun v => S (v :: w)) (fun _ => S (v0 :: w))) by (intros; now rewrite E).
    destruct (S (v0 :: w)); cbn [andb].
    + specialize (HB (v0 :: w) ltac:(cbn; lia)). cbn [set_at] in HB.
      assert (X : count (fun _ : A => true) vals = length vals).
      { unfold count. clear. induction vals as [|v vs IHv]; cbn; [|rewrite IHv]; reflexivity. }
      rewrite X. rewrite (Nat.mul_comm K). apply Nat.mul_le_mono_l. exact HB.
    + rewrite !count_none by reflexivity. lia.
  - assert (Z : forall v, length vals * count (fun w => S (v :: w) && B (v :: w)) (words vals N)
        <= K * count (fun w => S (v :: w)) (words vals N)).
    { intros v. apply (IH (fun w => S (v :: w)) (fun w => B (v :: w)) i); [lia| |].
      - intros w x Hw. apply (HS (v :: w) x). cbn; lia.
      - intros w Hw. apply (HB (v :: w)). cbn; lia. }
    apply sum_scaled. exact Z.
Qed.

Lemma count_split {B} (eqb : B -> B -> bool) (key : A -> B) (vals : list B) (f : A -> bool) (W : list A) :
  (forall x y, eqb x y = true <-> x = y) -> NoDup vals -> (forall w, In w W -> In (key w) vals) ->
  list_sum (map (fun v => count (fun w => f w && eqb (key w) v) W) vals) = count f W.
Proof.
  intros HE HN HW. rewrite count_swap. induction W as [|w W IH]; [reflexivity|]. cbn [map].
  change (list_sum (?x :: ?y)) with (x + list_sum y). rewrite count_cons, IH by (intros z Hz; apply HW; now right). f_equal.
  specialize (HW w (or_introl eq_refl)). clear IH. destruct (f w); cbn [andb]; [|apply count_none; auto].
  revert HN HW. induction vals as [|v vals IHv]; intros HN HI; [destruct HI|]. inversion HN as [|? ? N1 N2]; subst.
  rewrite count_cons. destruct (eqb (key w) v) eqn:E.
  - apply HE in E. subst v. rewrite count_none; [reflexivity|]. intros x Hx. destruct (eqb (key w) x) eqn:E2; auto.
    apply HE in E2. subst x. contradiction.
  - destruct HI as [HI|HI]; [subst v; assert (X := proj2 (HE (key w) (key w)) eq_refl); congruence|]. now rewrite IHv.
Qed.
End Fibre.

Section FS.
Context {C : Crypto} {L : CryptoLaws C} (ceq : @encodings_comparable C).
Notation word := (list Scalar).
Notation position := (position ceq).
Notation table := (table ceq).

Lemma position_Some h D i : position h D = Some i -> i < length D /\ nth_error D i = Some h.
Proof.
  revert i; induction D as [|h' D IH]; intros i; cbn; [discriminate|].
  destruct (hist_eq_dec ceq h h') as [->|N]; [intros E; injection E as <-; split; [lia|reflexivity]|].
  destruct (position h D) as [j|]; cbn; [|discriminate]. intros E; injection E as <-.
  destruct (IH j eq_refl). split; [lia|auto].
Qed.
Lemma position_In h D : In h D -> exists i, position h D = Some i.
Proof.
  induction D as [|h' D IH]; intros HI; [destruct HI|]. cbn.
  destruct (hist_eq_dec ceq h h') as [->|N]; [eauto|]. destruct HI as [->|HI]; [contradiction|].
  destruct (IH HI) as [i ->]. cbn. eauto.
Qed.
Lemma table_set_neq D w i v h : position h D <> Some i -> table D (set_at w i v) h = table D w h.
Proof.
  intros HN. unfold FiatShamir.table. destruct (position h D) as [j|]; auto. unfold sc. apply nth_set_at_neq. congruence.
Qed.
Lemma table_at D w h i : position h D = Some i -> table D w h = sc w i.
Proof. intros E. unfold FiatShamir.table. now rewrite E. Qed.

(** the prover meets a bad answer: bad i w says so of the i-th history of D *)
Context (D : list transcript) (bad : nat -> word -> bool).
Fixpoint hit {X} (seen : list nat) (w : word) (p : prover X) : bool :=
  match p with
  | Done _ => false
  | Ask h k =>
    match position h D with
    | Some i => (negb (existsb (Nat.eqb i) seen) && bad i w) || hit (i :: seen) w (k (table D w h))
    | None => hit seen w (k (table D w h))
    end
  end.

Lemma hit_count {X} vals K : NoDup vals ->
  (forall i w, i < length D -> length w = length D -> count (fun v => bad i (set_at w i v)) vals <= K) ->
  forall (p : prover X) T, asks T p -> forall seen S,
  (forall i w v, i < length D -> ~ In i seen -> length w = length D -> S (set_at w i v) = S w) ->
  length vals * count (fun w => S w && hit seen w p) (words vals (length D)) <=
  K * T * count S (words vals (length D)).
Proof.
  intros HN HB. set (N := length D) in *. set (q := length vals).
  induction p as [x|h k IH]; intros T HT seen S HS.
  - rewrite (count_none _ (words vals N)); [lia|]. intros w _. cbn. apply andb_false_r.
  - cbn in HT. destruct T as [|T]; [destruct HT|]. cbn [hit]. destruct (position h D) as [i|] eqn:EP.
    + destruct (position_Some _ _ _ EP) as [Hi Hh].
      set (f1 := fun w => S w && (negb (existsb (Nat.eqb i) seen) && bad i w)).
      set (f2 := fun w => S w && hit (i :: seen) w (k (table D w h))).
      assert (E1 : count (fun w => S w && ((negb (existsb (Nat.eqb i) seen) && bad i w) || hit (i :: seen) w (k (table D w h))))
                     (words vals N) <= count f1 (words vals N) + count f2 (words vals N)).
      { etransitivity; [|apply count_or]. apply count_le. intros w _. unfold f1, f2.
        destruct (S w); cbn; auto. }
      assert (E2 : q * count f1 (words vals N) <= K * count S (words vals N)).
      { unfold f1. destruct (existsb (Nat.eqb i) seen) eqn:ES; cbn [negb andb].
        - rewrite (count_none _ (words vals N)); [lia|]. intros w _. apply andb_false_r.
        - apply (count_fibre vals N S (bad i) i K); auto. intros w v Hw. apply HS; auto.
          intros HI. assert (existsb (Nat.eqb i) seen = true); [|congruence].
          apply existsb_exists. exists i. split; auto. apply Nat.eqb_refl. }
      assert (E3 : q * count f2 (words vals N) <= K * T * count S (words vals N)).
      { assert (HK : forall w, In w (words vals N) -> In (sc w i) vals).
        { intros w Hw. apply words_In in Hw as [Hl Hf]. rewrite Forall_forall in Hf. apply Hf. apply nth_In. lia. }
        rewrite <- (count_split seqb (fun w => sc w i) vals f2 (words vals N)); auto; [|apply seqb_eq].
        rewrite <- (count_split seqb (fun w => sc w i) vals S (words vals N)); auto; [|apply seqb_eq].
        assert (Z : forall v, q * count (fun w => f2 w && seqb (sc w i) v) (words vals N) <=
                      K * T * count (fun w => S w && seqb (sc w i) v) (words vals N)).
        { intros v. etransitivity; [|apply (IH v T (HT v) (i :: seen) (fun w => S w && seqb (sc w i) v))].
          - apply Nat.mul_le_mono_l. apply count_le. intros w _ H. unfold f2 in H.
            apply andb_true_iff in H as [H1 H2]. apply andb_true_iff in H1 as [H0 H1].
            rewrite H0, H2. cbn. apply seqb_eq in H2. rewrite (table_at D w h i EP), H2 in H1. exact H1.
          - intros j w x Hj Hn Hl. cbn in Hn. rewrite HS; auto. f_equal.
            unfold sc. rewrite nth_set_at_neq; auto. }
        apply sum_scaled. exact Z. }
      apply (Nat.mul_le_mono_l _ _ q) in E1. fold q. nia.
    + assert (ET : forall w, table D w h = s0) by (intros w; unfold FiatShamir.table; now rewrite EP).
      rewrite (count_ext _ (fun w => S w && hit seen w (k s0))) by (intros w _; now rewrite ET).
      etransitivity; [apply (IH s0 T (HT s0) seen S HS)|]. nia.
Qed.

Lemma hit_asked {X} w (p : prover X) : forall seen h i, In h (asked (table D w) p) -> position h D = Some i ->
  ~ In i seen -> bad i w = true -> hit seen w p = true.
Proof.
  induction p as [x|h' k IH]; intros seen h i HI EP HS HB; [destruct HI|]. cbn [asked hit] in *.
  destruct (position h' D) as [j|] eqn:EP'.
  - destruct (Nat.eq_dec i j) as [->|Hij].
    + replace (existsb (Nat.eqb j) seen) with false; [now rewrite HB|]. symmetry. apply not_true_is_false.
      intros X0. apply existsb_exists in X0 as (z & Hz & E). apply Nat.eqb_eq in E. subst z. contradiction.
    + destruct HI as [->|HI]; [congruence|]. rewrite (IH _ (j :: seen) h i); auto; [apply orb_true_r|].
      intros [->|Z]; auto.
  - destruct HI as [->|HI]; [congruence|]. now apply (IH _ seen h i).
Qed.

End FS.

(** ** Histories *)
Section Drawn.
Context {C : Crypto}.

Lemma drawn_app tr e e' : drawn tr (e ++ e') = drawn tr e ++ drawn (tr ++ e) e'.
Proof.
  revert tr; induction e as [|ev e IH]; intros tr; [now rewrite app_nil_r|]. cbn [app].
  destruct ev; cbn [drawn app]; rewrite IH, <- app_assoc; reflexivity.
Qed.
Lemma drawn_In tr e h : In h (drawn tr e) <-> chal_prefix tr e h.
Proof.
  revert tr; induction e as [|ev e IH]; intros tr.
  - split; [intros []|]. intros (e1 & l & e2 & E & _). destruct e1; discriminate.
  - assert (K : chal_prefix (tr ++ [ev]) e h -> chal_prefix tr (ev :: e) h).
    { intros (e1 & l & e2 & -> & ->). exists (ev :: e1), l, e2. split; auto. now rewrite <- app_assoc. }
    assert (K2 : chal_prefix tr (ev :: e) h -> (exists l, ev = EvChal l /\ h = tr ++ [ev]) \/ chal_prefix (tr ++ [ev]) e h).
    { intros (e1 & l & e2 & E & ->). destruct e1 as [|ev' e1]; cbn in E; injection E as -> ->; [left; eauto|].
      right. exists e1, l, e2. split; auto. now rewrite <- app_assoc. }
    destruct ev as [l m|l n|l]; cbn [drawn].
    + rewrite IH. split; auto. intros H. destruct (K2 H) as [(l' & E & _)|Z]; [discriminate|auto].
    + rewrite IH. split; auto. intros H. destruct (K2 H) as [(l' & E & _)|Z]; [discriminate|auto].
    + cbn [In]. rewrite IH. split.
      * intros [<-|H]; auto. exists [], l, e. auto.
      * intros H. destruct (K2 H) as [(l' & _ & ->)|Z]; auto.
Qed.
Lemma drawn_nth tr e i h : nth_error (drawn tr e) i = Some h ->
  exists e1, h = tr ++ e1 /\ drawn tr e1 = firstn (S i) (drawn tr e).
Proof.
  revert tr i; induction e as [|ev e IH]; intros tr i HI; [destruct i; discriminate|].
  assert (K : forall l : string, nth_error (drawn (tr ++ [ev]) e) i = Some h -> (forall e', drawn tr (ev :: e') = drawn (tr ++ [ev]) e') ->
     exists e1, h = tr ++ e1 /\ drawn tr e1 = firstn (S i) (drawn tr (ev :: e))).
  { intros _ H E. destruct (IH _ _ H) as (e1 & -> & E1). exists (ev :: e1). rewrite <- app_assoc. split; auto.
    now rewrite !E. }
  destruct ev as [l m|l n|l]; [apply (K l); [exact HI|reflexivity]|apply (K l); [exact HI|reflexivity]|]. clear K.
  destruct i as [|i].
  - cbn in HI. injection HI as <-. exists [EvChal l]. auto.
  - cbn [drawn nth_error] in HI. destruct (IH _ _ HI) as (e1 & -> & E1). exists (EvChal l :: e1).
    rewrite <- app_assoc. split; auto. cbn [drawn]. rewrite firstn_cons. now f_equal.
Qed.
Lemma drawn_lengths tr e h : In h (drawn tr e) -> length tr < length h <= length tr + length e.
Proof.
  intros H. apply drawn_In in H as (e1 & l & e2 & -> & ->). rewrite !app_length. cbn. lia.
Qed.
Lemma drawn_removelast tr e h : In h (removelast (drawn tr e)) -> length h < length tr + length e.
Proof.
  revert tr; induction e as [|ev e IH]; intros tr H; [destruct H|].
  assert (K : In h (removelast (drawn (tr ++ [ev]) e)) -> length h < length tr + length (ev :: e)).
  { intros Z. apply IH in Z. rewrite app_length in Z. cbn in *. lia. }
  destruct ev as [l m|l n|l]; [exact (K H)|exact (K H)|]. cbn [drawn] in H.
  destruct (drawn (tr ++ [EvChal l]) e) as [|h0 hs] eqn:E; [destruct H|].
  change (In h ((tr ++ [EvChal l]) :: removelast (h0 :: hs))) in H. destruct H as [<-|H]; [|auto].
  rewrite app_length. destruct e; [discriminate|]. cbn. lia.
Qed.

(** the earlier challenges of a history that extends tr *)
Definition earlier (tr h : transcript) : list transcript := removelast (drawn tr (skipn (length tr) h)).
Lemma earlier_not tr h : ~ In h (earlier tr h).
Proof.
  intros H. unfold earlier in H. assert (H2 := H). apply drawn_removelast in H. rewrite skipn_length in H.
  assert (X : In h (drawn tr (skipn (length tr) h))).
  { revert H2. generalize (drawn tr (skipn (length tr) h)). clear. intros l. induction l as [|a l IH]; [intros []|].
    cbn [removelast]. destruct l as [|b l]; [intros []|]. intros [->|Z]; [now left|right; auto]. }
  apply drawn_lengths in X. lia.
Qed.
Lemma skipn_app_exact {A} (l l' : list A) : skipn (length l) (l ++ l') = l'.
Proof. rewrite skipn_app, skipn_all, Nat.sub_diag. reflexivity. Qed.
Lemma removelast_firstn_S {A} (l : list A) i : i < length l -> removelast (firstn (S i) l) = firstn i l.
Proof.
  revert i; induction l as [|a l IH]; intros i Hi; [cbn in Hi; lia|]. destruct i as [|i]; [reflexivity|].
  cbn in Hi. cbn [firstn]. rewrite <- IH by lia. destruct l; [cbn in Hi; lia|]. reflexivity.
Qed.
Lemma earlier_nth tr e i h : nth_error (drawn tr e) i = Some h -> earlier tr h = firstn i (drawn tr e).
Proof.
  intros H. assert (Hi : i < length (drawn tr e)) by (apply nth_error_Some; congruence).
  destruct (drawn_nth _ _ _ _ H) as (e1 & -> & E). unfold earlier. rewrite skipn_app_exact, E.
  now apply removelast_firstn_S.
Qed.
End Drawn.

(** ** Forking a prover that queries a hash function *)
Section FSTree.
Context {C : Crypto} {L : CryptoLaws C} (ceq : @encodings_comparable C).
Notation word := (list Scalar).
Notation position := (position ceq).
Notation table := (table ceq).
Context {X : Type} (V : oracle -> X -> res (bool * transcript)) (tr : transcript) (p : prover X)
        (vals : list Scalar) (D : list transcript).

(** the final history of an accepted run *)
Definition accepted (w : word) : option transcript :=
  match V (table D w) (run (table D w) p) with Ok (true, tr') => Some tr' | _ => None end.
(** its challenges: where they were drawn, and their values *)
Definition challenges_of (w : word) (tr' : transcript) : list (transcript * Scalar) :=
  map (fun h => (h, table D w h)) (drawn tr (skipn (length tr) tr')).
Definition step_eq_dec (a b : transcript * Scalar) : {a = b} + {a <> b}.
Proof. decide equality; [apply S_eq_dec|apply (hist_eq_dec ceq)]. Defined.
Definition is_path (q : list (transcript * Scalar)) (w : word) : bool :=
  match accepted w with
  | Some tr' => if list_eq_dec step_eq_dec (challenges_of w tr') q then true else false
  | None => false
  end.
Fixpoint ext (ks : list nat) (pre : list (transcript * Scalar)) : bool :=
  match ks with
  | [] => existsb (is_path pre) (words vals (length D))
  | k :: ks => existsb (fun h => k <=? count (fun v => ext ks (pre ++ [(h, v)])) vals) D
  end.
Context (ks : list nat).
Definition escapes (i : nat) (w : word) : bool :=
  let h := nth i D [] in
  let pre := map (fun h => (h, table D w h)) (earlier tr h) in
  (length pre <? length ks) && negb (ext (skipn (length pre) ks) pre)
    && ext (skipn (S (length pre)) ks) (pre ++ [(h, sc w i)]).

Lemma escapes_few K i w : Forall (fun k => k <= S K) ks -> i < length D -> length w = length D ->
  count (fun v => escapes i (set_at w i v)) vals <= K.
Proof.
  intros HK Hi Hw. set (h := nth i D []).
  assert (Hh : nth_error D i = Some h) by (apply nth_error_nth'; auto).
  set (pre := map (fun h => (h, table D w h)) (earlier tr h)).
  assert (E : forall v, map (fun h => (h, table D (set_at w i v) h)) (earlier tr h) = pre).
  { intros v. apply map_ext_in. intros h' Hh'. f_equal. apply table_set_neq. intros EP.
    apply position_Some in EP as [_ EP]. assert (h' = h) by congruence. subst h'. now apply earlier_not in Hh'. }
  destruct (Nat.ltb (length pre) (length ks)) eqn:EL.
  2:{ rewrite count_none; [lia|]. intros v _. unfold escapes. fold h. now rewrite E, EL. }
  destruct (ext (skipn (length pre) ks) pre) eqn:EE.
  { rewrite count_none; [lia|]. intros v _. unfold escapes. fold h. now rewrite E, EL, EE. }
  apply Nat.ltb_lt in EL.
  assert (ES : exists k, skipn (length pre) ks = k :: skipn (S (length pre)) ks /\ In k ks).
  { clear -EL. revert EL. generalize (length pre) as j. induction ks as [|k l IH]; intros j Hj; [cbn in Hj; lia|].
    destruct j as [|j]; [exists k; split; [reflexivity|now left]|]. cbn in Hj.
    destruct (IH j ltac:(lia)) as (k' & E & I). exists k'. split; [exact E|now right]. }
  destruct ES as (k & ES & Ik). rewrite ES in EE. cbn [ext] in EE.
  assert (EC : (k <=? count (fun v => ext (skipn (S (length pre)) ks) (pre ++ [(h, v)])) vals) = false).
  { apply not_true_is_false. intros Z.
    match type of EE with ?b = false => assert (Y : b = true) end; [|congruence].
    apply existsb_exists. exists h. split; [|exact Z]. eapply nth_error_In; eauto. }
  apply Nat.leb_gt in EC. rewrite Forall_forall in HK. specialize (HK k Ik).
  assert (count (fun v => escapes i (set_at w i v)) vals <=
          count (fun v => ext (skipn (S (length pre)) ks) (pre ++ [(h, v)])) vals); [|lia].
  apply count_le. intros v _ Hv. unfold escapes in Hv. fold h in Hv. rewrite E in Hv.
  apply andb_true_iff in Hv as [_ Hv]. unfold sc in Hv. rewrite nth_set_at_eq in Hv by lia. exact Hv.
Qed.

Lemma first_step (f : nat -> bool) r : f 0 = false -> f r = true -> exists i, i < r /\ f i = false /\ f (S i) = true.
Proof.
  intros H0. induction r as [|r IH]; intros Hr; [congruence|]. destruct (f r) eqn:E; [|eauto].
  destruct (IH eq_refl) as (i & Hi & H). exists i. split; [lia|auto].
Qed.

(** what the theorem needs of the verifier: it appends r challenges *)
Definition draws (r : nat) : Prop := forall w tr', accepted w = Some tr' ->
  exists e, tr' = tr ++ e /\ length (drawn tr e) = r.

Lemma accepted_escapes w tr' : draws (length ks) -> In w (words vals (length D)) -> accepted w = Some tr' ->
  (forall h, In h (drawn tr (skipn (length tr) tr')) -> In h (asked (table D w) p) /\ In h D) ->
  ext ks [] = false -> exists h i, In h (asked (table D w) p) /\ position h D = Some i /\ escapes i w = true.
Proof.
  intros HV Hw HA HD HE. destruct (HV w tr' HA) as (e & -> & HL). rewrite skipn_app_exact in HD.
  set (hs := drawn tr e) in *. set (P := map (fun h => (h, table D w h)) hs).
  assert (LP : length P = length ks) by (unfold P; now rewrite map_length).
  destruct (first_step (fun i => ext (skipn i ks) (firstn i P)) (length ks)) as (i & Hi & E1 & E2).
  - exact HE.
  - rewrite skipn_all, <- LP, firstn_all. cbn [ext]. apply existsb_exists. exists w. split; [auto|].
    unfold is_path. rewrite HA. unfold challenges_of. rewrite skipn_app_exact. fold hs. fold P.
    destruct (list_eq_dec step_eq_dec P P); congruence.
  - destruct (nth_error hs i) as [h|] eqn:EH; [|apply nth_error_None in EH; lia].
    destruct (HD h (nth_error_In _ _ EH)) as [I1 I2]. destruct (position_In ceq h D I2) as [j EJ].
    exists h, j. split; [auto|]. split; [auto|]. unfold escapes.
    destruct (position_Some _ _ _ _ EJ) as [Hj HJ]. rewrite (nth_error_nth _ _ _ HJ).
    rewrite (earlier_nth _ _ _ _ EH). fold hs.
    assert (EP : map (fun h => (h, table D w h)) (firstn i hs) = firstn i P) by (unfold P; now rewrite firstn_map).
    rewrite EP. rewrite firstn_length, LP. replace (min i (length ks)) with i by lia.
    rewrite E1. replace (i <? length ks) with true by (symmetry; now apply Nat.ltb_lt). cbn [negb andb].
    rewrite <- (table_at ceq D w h j EJ).
    replace (firstn i P ++ [(h, table D w h)]) with (firstn (S i) P); [exact E2|].
    assert (EN : nth_error P i = Some (h, table D w h)) by (unfold P; now rewrite nth_error_map, EH).
    clear -EN. revert i EN. induction P as [|a P IH]; intros i EN; [destruct i; discriminate|].
    destruct i as [|i]; [cbn in EN; injection EN as ->; reflexivity|]. cbn [firstn app]. f_equal. now apply IH.
Qed.

Lemma has_tree_impl {A} (vs : list A) l : forall ok ok' : list A -> bool, (forall u, length u = length l -> ok u = true -> ok' u = true) ->
  has_tree vs l ok -> has_tree vs l ok'.
Proof.
  induction l as [|k l IH]; intros ok ok' H; cbn [has_tree]; [now apply H|].
  intros (us & H1 & H2 & H3 & H4). exists us. split; [auto|]. split; [auto|]. split; [auto|]. intros v Hv.
  apply (IH (fun w => ok (v :: w))); [|now apply H4]. intros u Hu. apply H. cbn. lia.
Qed.
Lemma st_msgs_shift {M} (msg : word -> M) v pre w : st_msgs msg (v :: pre) w = st_msgs (fun u => msg (v :: u)) pre w.
Proof. revert pre; induction w as [|x w IH]; intros pre; cbn; [auto|]. now rewrite IH. Qed.
Lemma st_msgs_ext {M} (msg msg' : word -> M) pre w : (forall u, msg u = msg' u) -> st_msgs msg pre w = st_msgs msg' pre w.
Proof. intros H. revert pre; induction w as [|x w IH]; intros pre; cbn; [auto|]. now rewrite IH, H. Qed.

Lemma ext_tree l : NoDup vals -> forall pre, ext l pre = true ->
  exists node : word -> transcript, has_tree vals l (fun u => ext [] (pre ++ st_msgs node [] u)).
Proof.
  intros HN. induction l as [|k l IH]; intros pre HE.
  - exists (fun _ => []). cbn [has_tree st_msgs]. now rewrite app_nil_r.
  - cbn [ext] in HE. apply existsb_exists in HE as (h & _ & HC). apply Nat.leb_le in HC.
    set (g := filter (fun v => ext l (pre ++ [(h, v)])) vals) in *. unfold count in HC. fold g in HC.
    assert (NG : NoDup g) by (now apply NoDup_filter).
    assert (HF : forall v, In v (firstn k g) -> In v g).
    { intros v Hv. rewrite <- (firstn_skipn k g). apply in_or_app. now left. }
    destruct (list_choice (fun v (nd : word -> transcript) =>
       has_tree vals l (fun u => ext [] ((pre ++ [(h, v)]) ++ st_msgs nd [] u))) (firstn k g)) as (ch & EC & HCh).
    { intros v Hv. apply IH. apply HF in Hv. unfold g in Hv. now apply filter_In in Hv. }
    set (pick := fun v => match find (fun q : Scalar * (word -> transcript) => seqb (fst q) v) ch with Some q => snd q | None => fun _ => [] end).
    exists (fun u => match u with [] => h | v :: u => pick v u end).
    exists (firstn k g). split; [|split; [|split]].
    + clear -NG. revert k. induction NG as [|a g H1 H2 IH]; intros k; destruct k; cbn; constructor; auto.
      intros Z. apply H1. rewrite <- (firstn_skipn k g). apply in_or_app. now left.
    + rewrite firstn_length. lia.
    + intros v Hv. apply HF in Hv. unfold g in Hv. now apply filter_In in Hv.
    + intros v Hv.
      assert (HP : has_tree vals l (fun u => ext [] ((pre ++ [(h, v)]) ++ st_msgs (pick v) [] u))).
      { unfold pick. destruct (find (fun q => seqb (fst q) v) ch) as [[v' nd]|] eqn:EF.
        - apply find_some in EF as [F1 F2]. cbn in F2. apply seqb_eq in F2. subst v'. cbn [snd]. now apply HCh.
        - exfalso. rewrite <- EC in Hv. apply in_map_iff in Hv as (q & Eq & Hq).
          apply find_none with (x := q) in EF; auto. cbn in EF. rewrite Eq in EF.
          assert (seqb v v = true) by now apply seqb_eq. congruence. }
      revert HP. apply has_tree_impl. intros u _ Hu. cbn [st_msgs app].
      rewrite st_msgs_shift. cbn beta iota. rewrite <- app_assoc in Hu. exact Hu.
Qed.

Theorem fs_fork K T : NoDup vals -> draws (length ks) -> asks T p -> Forall (fun k => k <= S K) ks ->
  (forall w tr', In w (words vals (length D)) -> accepted w = Some tr' ->
     forall h, In h (drawn tr (skipn (length tr) tr')) -> In h (asked (table D w) p) /\ In h D) ->
  K * T * length vals ^ (length D - 1) <
    count (fun w => match accepted w with Some _ => true | None => false end) (words vals (length D)) ->
  exists (node : word -> transcript) (leaf : word -> option word),
    has_tree vals ks (fun u => match leaf u with Some _ => true | None => false end) /\
    forall u w, leaf u = Some w -> In w (words vals (length D)) /\
      exists tr', accepted w = Some tr' /\ challenges_of w tr' = st_msgs node [] u.
Proof.
  intros HN HV HT HK HD HC. set (N := length D) in *. set (q := length vals) in *.
  assert (HE : ext ks [] = true).
  { apply not_false_is_true. intros HE.
    set (f := fun w => match accepted w with Some _ => true | None => false end) in *.
    assert (H1 : count f (words vals N) <= count (fun w => true && hit ceq D escapes [] w p) (words vals N)).
    { apply count_le. intros w Hw Hf. unfold f in Hf. destruct (accepted w) as [tr'|] eqn:EA; [|discriminate].
      destruct (accepted_escapes w tr' HV Hw EA (HD w tr' Hw EA) HE) as (h & i & I1 & I2 & I3).
      cbn. eapply hit_asked; eauto. }
    assert (H2 := hit_count ceq D escapes vals K HN (fun i w => escapes_few K i w HK) p T HT [] (fun _ => true) ltac:(reflexivity)).
    fold N in H2. fold q in H2.
    assert (H3 : count (fun _ => true) (words vals N) = q ^ N).
    { unfold q. rewrite <- words_count. unfold count. f_equal. generalize (words vals N). clear. induction l as [|a l IH]; cbn; congruence. }
    rewrite H3 in H2.
    assert (H4 : q * count f (words vals N) <= K * T * q ^ N) by (etransitivity; [|exact H2]; now apply Nat.mul_le_mono_l).
    destruct (Nat.eq_dec q 0) as [Hq|Hq].
    - assert (Hc : 0 < count f (words vals N)) by lia. unfold count in Hc.
      destruct (filter f (words vals N)) as [|w l] eqn:EF; [cbn in Hc; lia|].
      assert (Iw : In w (filter f (words vals N))) by (rewrite EF; now left). apply filter_In in Iw as [Iw Hf].
      unfold f in Hf. destruct (accepted w) as [tr'|] eqn:EA; [|discriminate].
      destruct (accepted_escapes w tr' HV Iw EA (HD w tr' Iw EA) HE) as (h & i & I1 & I2 & _).
      apply position_Some in I2 as [I2 _]. apply words_In in Iw as [Iw1 Iw2].
      unfold q in Hq. destruct vals; [|discriminate]. destruct w; [cbn in Iw1; lia|]. inversion Iw2; subst. auto.
    - destruct N as [|N'] eqn:EN.
      + cbn [Nat.sub Nat.pow] in *. nia.
      + replace (S N' - 1) with N' in HC by lia. rewrite Nat.pow_succ_r' in H4.
        assert (q * count f (words vals (S N')) <= q * (K * T * q ^ N')) by nia.
        apply Nat.mul_le_mono_pos_l in H; lia. }
  destruct (ext_tree ks HN [] HE) as (node & HTr). cbn [app] in HTr.
  exists node, (fun u => find (is_path (st_msgs node [] u)) (words vals N)).
  split.
  - revert HTr. apply has_tree_impl. intros u _ Hu. cbn [ext] in Hu. apply existsb_exists in Hu as (w & Hw & Hp).
    fold N in Hw. destruct (find _ _) as [w'|] eqn:EF; [reflexivity|].
    apply find_none with (x := w) in EF; auto. congruence.
  - intros u w EF. apply find_some in EF as [H1 H2]. split; auto. unfold is_path in H2.
    destruct (accepted w) as [tr'|]; [|discriminate]. exists tr'. split; auto.
    destruct (list_eq_dec _ _ _); [auto|discriminate].
Qed.
End FSTree.
