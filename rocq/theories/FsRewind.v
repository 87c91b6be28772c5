(** An extractor for a prover that queries a hash function. It runs the prover with one table of
    answers; if the proof is accepted, it runs it again with other answers at the history of one
    of the challenges of that proof, all other answers unchanged, and keeps the runs whose proof
    has its challenge at the same history. A retry is given up after one run if it has not.
    How many runs it makes, summed over all tables, and for how many tables it succeeds. *)
From Coq Require Import String.
From Verif Require Export Rewind.
From Verif Require Import KaryFacts ListFacts.
From Coq Require Import List Arith Lia Bool Permutation.
Import ListNotations.
Local Open Scope nat_scope.
Local Open Scope list_scope.

Section Game.
Context {A : Type} (eqb : A -> A -> bool) (vals : list A) (d0 : A) (path : list A -> option (list nat)).

(** the tables of the accepted runs, at the leaves; at an inner node, the number of the history
    whose answer is changed *)
Inductive ttree : Type := TLeaf (w : list A) | TNode (i : nat) (kids : list (A * ttree)).

(** [path w]: where the challenges of the proof made with the table w are, if it is accepted *)
Definition nth_place (j : nat) (w : list A) : option nat :=
  match path w with Some p => nth_error p j | None => None end.
Definition at_idx (j : nat) (w : list A) (i : nat) : bool :=
  match nth_place j w with Some i' => i' =? i | None => false end.
Fixpoint index (v : A) (l : list A) : nat :=
  match l with [] => 0 | u :: l => if eqb u v then 0 else S (index v l) end.
Fixpoint fx (ks : list nat) (j : nat) (w : list A) : option ttree * nat :=
  match ks with
  | [] => (match path w with Some _ => Some (TLeaf w) | None => None end, 1)
  | k :: ks =>
    match nth_place j w with
    | None => (None, 1)
    | Some i =>
      let '(r, c) := node (fun v => let w' := set_at w i v in if at_idx j w' i then fx ks (S j) w' else (None, 1))
                       k (cyc (index (nth i w d0) vals) vals) in
      (option_map (TNode i) r, c)
    end
  end.
Definition retry (ks : list nat) (j i : nat) (w : list A) (v : A) : option ttree * nat :=
  let w' := set_at w i v in if at_idx j w' i then fx ks (S j) w' else (None, 1).
Lemma fx_cons k ks j w : fx (k :: ks) j w =
  match nth_place j w with
  | None => (None, 1)
  | Some i => let '(r, c) := node (retry ks j i w) k (cyc (index (nth i w d0) vals) vals) in (option_map (TNode i) r, c)
  end.
Proof. reflexivity. Qed.

(** ** sums over tables, grouped by all positions but one *)
Lemma fibre_le N : forall i (F G : list A -> nat), i < N ->
  (forall w, In w (words vals N) -> total (fun v => F (set_at w i v)) vals <= total (fun v => G (set_at w i v)) vals) ->
  total F (words vals N) <= total G (words vals N).
Proof.
  unfold total. induction N as [|N IH]; intros i F G Hi H; [lia|]. rewrite !sum_words_S. destruct i as [|i].
  - rewrite (sum_swap (fun v w => F (v :: w))), (sum_swap (fun v w => G (v :: w))). apply sum_le. intros w Hw.
    destruct vals as [|v0 vs] eqn:EV; [cbn; lia|]. rewrite <- EV in *.
    apply (H (v0 :: w)). apply words_In. apply words_In in Hw as [Hl Hf]. split; [cbn; lia|]. constructor; auto. rewrite EV. now left.
  - apply sum_le. intros v Hv. apply (IH i (fun w => F (v :: w)) (fun w => G (v :: w))); [lia|]. intros w Hw.
    apply (H (v :: w)). apply words_In. apply words_In in Hw as [Hl Hf]. split; [cbn; lia|]. now constructor.
Qed.
Lemma set_at_set (l : list A) i v v' : set_at (set_at l i v) i v' = set_at l i v'.
Proof. revert i; induction l as [|x l IH]; intros [|i]; cbn; auto. now rewrite IH. Qed.
Lemma words_set N w i v : In w (words vals N) -> In v vals -> In (set_at w i v) (words vals N).
Proof.
  intros Hw Hv. apply words_In in Hw as [Hl Hf]. apply words_In. split; [now rewrite set_at_length|].
  clear Hl. revert i; induction Hf as [|x l Hx Hf IH]; intros [|i]; cbn; constructor; auto.
Qed.
Lemma words_nth N w i : In w (words vals N) -> i < N -> In (nth i w d0) vals.
Proof. intros Hw Hi. apply words_In in Hw as [Hl Hf]. rewrite Forall_forall in Hf. apply Hf, nth_In. lia. Qed.
Lemma collect_ext {T} (f g : A -> option T * nat) l : (forall v, f v = g v) -> forall k, collect f k l = collect g k l.
Proof. intros E. induction l as [|v l IH]; intros [|k]; cbn; auto. rewrite <- E, !IH. reflexivity. Qed.
Lemma node_ext {T} (f g : A -> option T * nat) k l : (forall v, f v = g v) -> node f k l = node g k l.
Proof. intros E. destruct l as [|v l]; cbn; auto. rewrite <- E, (collect_ext f g) by auto. reflexivity. Qed.

Context (eqb_eq : forall x y, eqb x y = true <-> x = y) (HN : NoDup vals).
Lemma index_nth v l : In v l -> index v l < length l /\ nth_error l (index v l) = Some v.
Proof.
  induction l as [|u l IH]; intros HI; [destruct HI|]. cbn [index]. destruct (eqb u v) eqn:E.
  - apply eqb_eq in E. subst u. cbn. split; [lia|auto].
  - destruct HI as [->|HI]; [assert (X := proj2 (eqb_eq v v) eq_refl); congruence|]. destruct (IH HI). cbn. split; [lia|auto].
Qed.
Lemma index_of_nth l : NoDup l -> forall i d, i < length l -> index (nth i l d) l = i.
Proof.
  induction 1 as [|u l N1 N2 IH]; intros i d Hi; [cbn in Hi; lia|]. destruct i as [|i]; cbn [nth index].
  - now rewrite (proj2 (eqb_eq u u) eq_refl).
  - cbn in Hi. destruct (eqb u (nth i l d)) eqn:E; [|f_equal; apply IH; lia]. apply eqb_eq in E. exfalso. apply N1. rewrite E. apply nth_In. lia.
Qed.
Lemma sum_by_index (g : nat -> nat) : total (fun v => g (index v vals)) vals = sumn (length vals) g.
Proof.
  unfold total. rewrite <- (sumn_nth (fun v => g (index v vals)) d0). apply sumn_ext. intros i Hi. now rewrite index_of_nth.
Qed.
Lemma cyc_index v : In v vals -> exists l, cyc (index v vals) vals = v :: l.
Proof.
  intros HI. destruct (index_nth v vals HI) as [H1 H2]. destruct (cyc_head _ vals H1) as (u & l & E & En).
  exists l. rewrite E. congruence.
Qed.

(** ** sums over positions *)
Definition memb (i : nat) (l : list nat) : bool := existsb (Nat.eqb i) l.
Lemma memb_In i l : memb i l = true <-> In i l.
Proof.
  unfold memb. rewrite existsb_exists. split; [intros (x & H & E); apply Nat.eqb_eq in E; now subst|].
  intros H. exists i. split; auto. apply Nat.eqb_refl.
Qed.
Lemma one_position (c : nat) s n i0 : list_sum (map (fun i => if i0 =? i then c else 0) (seq s n)) <= c /\
  (s <= i0 < s + n -> list_sum (map (fun i => if i0 =? i then c else 0) (seq s n)) = c).
Proof.
  revert s; induction n as [|n IH]; intros s; [cbn; split; lia|]. cbn [seq map].
  change (list_sum (?x :: ?y)) with (x + list_sum y).
  destruct (IH (S s)) as [I1 I2]. destruct (i0 =? s) eqn:E.
  - apply Nat.eqb_eq in E. subst s.
    assert (Z : list_sum (map (fun i => if i0 =? i then c else 0) (seq (S i0) n)) = 0).
    { clear. assert (H : forall i, In i (seq (S i0) n) -> i0 <> i) by (intros i Hi; apply in_seq in Hi; lia).
      induction (seq (S i0) n) as [|x l IHl]; [reflexivity|]. cbn [map]. change (list_sum (?x :: ?y)) with (x + list_sum y).
      rewrite IHl by (intros; apply H; now right). rewrite (proj2 (Nat.eqb_neq i0 x)) by (apply H; now left). reflexivity. }
    rewrite Z. lia.
  - apply Nat.eqb_neq in E. cbn [Nat.add]. split; [lia|]. intros H. apply I2. lia.
Qed.
Lemma positions_of (c : nat) n l : list_sum (map (fun i => if memb i l then c else 0) (seq 0 n)) <= c * length l.
Proof.
  induction l as [|a l IH]; cbn [memb existsb].
  - rewrite sum_const. lia.
  - etransitivity; [apply (sum_le _ (fun i => (if a =? i then c else 0) + (if memb i l then c else 0)))|].
    + intros i _. rewrite (Nat.eqb_sym i a). destruct (a =? i); cbn; [lia|]. fold (memb i l). lia.
    + rewrite sum_add. destruct (one_position c 0 n a) as [X _]. cbn [length]. nia.
Qed.

(** ** the hypotheses: [qs w] are the positions queried *)
Context (N T : nat) (qs : list A -> list nat).
Context (few : forall w, In w (words vals N) -> length (qs w) <= T)
        (stable : forall w i v, In w (words vals N) -> In v vals -> i < N -> In i (qs w) -> In i (qs (set_at w i v)))
        (queried : forall w p i, In w (words vals N) -> path w = Some p -> In i p -> i < N /\ In i (qs w)).

Lemma idx_queried j w i : In w (words vals N) -> at_idx j w i = true -> i < N /\ In i (qs w).
Proof.
  intros Hw. unfold at_idx, nth_place. destruct (path w) as [p|] eqn:E; [|discriminate].
  destruct (nth_error p j) as [i'|] eqn:E2; [|discriminate]. intros X. apply Nat.eqb_eq in X. subst i'.
  apply (queried w p i Hw E). eapply nth_error_In; eauto.
Qed.
Lemma fibre_queried w i v : In w (words vals N) -> In v vals -> i < N -> memb i (qs (set_at w i v)) = memb i (qs w).
Proof.
  intros Hw Hv Hi. apply eq_true_iff_eq. rewrite !memb_In. split; intros H.
  - rewrite <- (set_at_same w i d0). rewrite <- (set_at_set w i v). apply stable; auto; [now apply words_set|now apply (words_nth N)].
  - now apply stable.
Qed.
Lemma retry_set ks j i w v v' : retry ks j i (set_at w i v) v' = retry ks j i w v'.
Proof. unfold retry. now rewrite set_at_set. Qed.
Lemma idx_at j w i : nth_place j w = Some i <-> at_idx j w i = true.
Proof.
  unfold at_idx. destruct (nth_place j w) as [i'|]; [|split; discriminate]. rewrite Nat.eqb_eq. split; [now injection 1 as ->|now intros ->].
Qed.
(** a run that starts in the fibre *)
Lemma fx_fibre k ks j i w v : In w (words vals N) -> In v vals -> i < N -> at_idx j (set_at w i v) i = true ->
  snd (fx (k :: ks) j (set_at w i v)) = snd (node (retry ks j i w) k (cyc (index v vals) vals)) /\
  found (fx (k :: ks) j (set_at w i v)) = found (node (retry ks j i w) k (cyc (index v vals) vals)).
Proof.
  intros Hw Hv Hi HA. rewrite fx_cons, (proj2 (idx_at j _ i) HA).
  rewrite nth_set_at_eq by (apply words_In in Hw as [-> _]; auto).
  rewrite (node_ext _ (retry ks j i w)) by (intros; apply retry_set).
  destruct (node (retry ks j i w) k _) as [[r|] c]; auto.
Qed.
Lemma retry_at ks j i w v : at_idx j (set_at w i v) i = true -> retry ks j i w v = fx ks (S j) (set_at w i v).
Proof. intros E. unfold retry. now rewrite E. Qed.
Lemma retry_not ks j i w v : at_idx j (set_at w i v) i = false -> retry ks j i w v = (None, 1).
Proof. intros E. unfold retry. now rewrite E. Qed.
Lemma node_first_fails {T'} (f : A -> option T' * nat) k v c : In v vals -> f v = (None, c) ->
  snd (node f k (cyc (index v vals) vals)) = c /\ found (node f k (cyc (index v vals) vals)) = false.
Proof. intros Hv E. destruct (cyc_index v Hv) as [l ->]. cbn. rewrite E. auto. Qed.

(** *** how many runs it makes *)
Lemma fx_fibre_cost k ks j i w : 1 <= k -> In w (words vals N) -> i < N ->
  total (fun v => if at_idx j (set_at w i v) i then snd (fx (k :: ks) j (set_at w i v)) else 0) vals <=
  total (fun v => if memb i (qs (set_at w i v)) then
           if at_idx j (set_at w i v) i then k * snd (fx ks (S j) (set_at w i v)) else k - 1 else 0) vals.
Proof.
  intros Hk Hw Hi. unfold total. destruct (memb i (qs w)) eqn:EM.
  - set (n := fun v => if at_idx j (set_at w i v) i then 0 else 1).
    apply (Nat.add_le_mono_r _ _ (list_sum (map n vals))). rewrite <- !sum_add.
    etransitivity; [apply (sum_le _ (fun v => snd (node (retry ks j i w) k (cyc (index v vals) vals))))|].
    + intros v Hv. unfold n. destruct (at_idx j (set_at w i v) i) eqn:EA.
      * rewrite (proj1 (fx_fibre k ks j i w v Hw Hv Hi EA)). lia.
      * destruct (node_first_fails (retry ks j i w) k v 1 Hv) as [-> _]; [now apply retry_not|]. lia.
    + change (list_sum (map ?f vals)) with (total f vals) at 1.
      rewrite (sum_by_index (fun x => snd (node (retry ks j i w) k (cyc x vals)))).
      etransitivity; [apply (node_total (retry ks j i w) k vals Hk)|]. rewrite <- sum_mul. apply sum_le. intros v Hv.
      rewrite fibre_queried, EM by auto. unfold n. destruct (at_idx j (set_at w i v) i) eqn:EA.
      * rewrite retry_at by auto. lia.
      * rewrite retry_not by auto. cbn [snd]. lia.
  - assert (Z : forall v, In v vals -> at_idx j (set_at w i v) i = false).
    { intros v Hv. apply not_true_is_false. intros X. apply idx_queried in X as [_ X]; [|now apply words_set].
      apply memb_In in X. rewrite fibre_queried in X by auto. congruence. }
    etransitivity; [apply (sum_le _ (fun _ => 0))|rewrite sum_const; lia]. intros v Hv. now rewrite Z.
Qed.

Lemma fx_step_cost k ks j : 1 <= k ->
  total (fun w => snd (fx (k :: ks) j w)) (words vals N) <=
    k * total (fun w => snd (fx ks (S j) w)) (words vals N) + (k - 1) * T * length vals ^ N.
Proof.
  intros Hk. set (W := words vals N).
  set (F := fun i w => if at_idx j w i then snd (fx (k :: ks) j w) else 0).
  set (G := fun i w => if memb i (qs w) then if at_idx j w i then k * snd (fx ks (S j) w) else k - 1 else 0).
  assert (S1 : list_sum (map (fun i => total (F i) W) (seq 0 N)) <= list_sum (map (fun i => total (G i) W) (seq 0 N))).
  { apply sum_le. intros i Hi. apply in_seq in Hi. apply (fibre_le N i); [lia|]. intros w Hw. apply fx_fibre_cost; auto. lia. }
  unfold total in S1. rewrite (sum_swap F), (sum_swap G) in S1. unfold total.
  assert (S2 : list_sum (map (fun w => snd (fx (k :: ks) j w)) W) <=
     list_sum (map (fun w => list_sum (map (fun i => F i w) (seq 0 N))) W) + list_sum (map (fun w => if nth_place j w then 0 else 1) W)).
  { rewrite <- sum_add. apply sum_le. intros w Hw. destruct (nth_place j w) as [i0|] eqn:E; [|rewrite fx_cons, E; cbn [snd]; lia].
    assert (E' := proj1 (idx_at j w i0) E). destruct (idx_queried j w i0 Hw E') as [Hi _].
    destruct (one_position (snd (fx (k :: ks) j w)) 0 N i0) as [_ X]. rewrite <- X at 1 by lia. clear X.
    etransitivity; [|apply Nat.le_add_r]. apply sum_le. intros i _. unfold F, at_idx. rewrite E. lia. }
  assert (S3 : list_sum (map (fun w => list_sum (map (fun i => G i w) (seq 0 N))) W) + list_sum (map (fun w => if nth_place j w then 0 else 1) W) <=
     list_sum (map (fun w => k * snd (fx ks (S j) w)) W) + (k - 1) * T * length W).
  { replace ((k - 1) * T * length W) with (length W * ((k - 1) * T)) by lia. rewrite <- sum_const, <- !sum_add.
    apply sum_le. intros w Hw.
    assert (X : list_sum (map (fun i => G i w) (seq 0 N)) <=
       list_sum (map (fun i => if memb i (qs w) then k - 1 else 0) (seq 0 N)) +
       match nth_place j w with Some _ => k * snd (fx ks (S j) w) | None => 0 end).
    { destruct (nth_place j w) as [i0|] eqn:E.
      - destruct (one_position (k * snd (fx ks (S j) w)) 0 N i0) as [Y _].
        etransitivity; [|apply Nat.add_le_mono_l, Y]. rewrite <- sum_add. apply sum_le. intros i _. unfold G, at_idx. rewrite E.
        destruct (memb i (qs w)), (i0 =? i); lia.
      - rewrite Nat.add_0_r. apply sum_le. intros i _. unfold G, at_idx. rewrite E. destruct (memb i (qs w)); lia. }
    assert (Y := positions_of (k - 1) N (qs w)). assert (Z := few w Hw).
    assert (Y2 : (k - 1) * length (qs w) <= (k - 1) * T) by nia.
    destruct (nth_place j w) as [i0|] eqn:E; [lia|].
    assert (E1 : snd (fx ks (S j) w) = 1).
    { assert (E2 : nth_place (S j) w = None).
      { unfold nth_place in *. destruct (path w) as [p|]; [|reflexivity]. apply nth_error_None in E. apply nth_error_None. lia. }
      destruct ks as [|k' ks']; [reflexivity|]. now rewrite fx_cons, E2. }
    rewrite E1. lia. }
  assert (LW : length W = length vals ^ N) by apply words_count. rewrite LW in S3. rewrite sum_mul in S3. lia.
Qed.
Lemma fx_runs ks : Forall (fun k => 1 <= k) ks -> forall j,
  total (fun w => snd (fx ks j w)) (words vals N) <= (prodn ks + T * (prodn ks - 1)) * length vals ^ N.
Proof.
  induction 1 as [|k ks Hk HF IH]; intros j.
  - unfold total. cbn [fx snd]. rewrite sum_const, words_count. cbn. lia.
  - etransitivity; [apply (fx_step_cost k ks j Hk)|]. specialize (IH (S j)). set (t := total _ _) in *. clearbody t.
    cbn [prodn fold_right]. fold (prodn ks).
    assert (HP : 1 <= prodn ks) by (clear -HF; induction HF as [|k ks Hk HF IH]; cbn; [lia|]; fold (prodn ks); nia).
    set (P := prodn ks) in *. clearbody P. set (q := length vals ^ N) in *. clearbody q. clear -IH Hk HP.
    assert (E : k * (P + T * (P - 1)) + (k - 1) * T = k * P + T * (k * P - 1)).
    { destruct P as [|P]; [lia|]. replace (k * S P - 1) with (k * P + (k - 1)) by (rewrite Nat.mul_succ_r; lia).
      replace (S P - 1) with P by lia. rewrite !Nat.mul_add_distr_l. rewrite (Nat.mul_comm (k - 1) T), !Nat.mul_assoc, (Nat.mul_comm k T). lia. }
    rewrite <- E, Nat.mul_add_distr_r. apply Nat.add_le_mono; [|lia]. rewrite <- Nat.mul_assoc. apply Nat.mul_le_mono_l, IH.
Qed.

(** *** for how many tables it succeeds *)
Lemma fx_fibre_found k ks j i w : 1 <= k -> In w (words vals N) -> i < N ->
  total (fun v => if at_idx j (set_at w i v) i && found (fx ks (S j) (set_at w i v)) then length vals else 0) vals <=
  total (fun v => (if at_idx j (set_at w i v) i && found (fx (k :: ks) j (set_at w i v)) then length vals else 0) +
                  (if memb i (qs (set_at w i v)) then k - 1 else 0)) vals.
Proof.
  intros Hk Hw Hi. unfold total. rewrite sum_add. destruct (memb i (qs w)) eqn:EM.
  - set (f := retry ks j i w).
    rewrite (map_ext_in (fun v => if memb i (qs (set_at w i v)) then k - 1 else 0) (fun _ => k - 1))
      by (intros v Hv; now rewrite fibre_queried, EM by auto).
    rewrite sum_const.
    rewrite (map_ext_in _ (fun v => length vals * (if ans f v then 1 else 0))).
    2:{ intros v Hv. unfold f. destruct (at_idx j (set_at w i v) i) eqn:EA; cbn [andb].
        - unfold ans. rewrite retry_at by auto. unfold found. destruct (fst _); lia.
        - unfold ans. rewrite retry_not by auto. cbn. lia. }
    rewrite (map_ext_in (fun v => if at_idx j (set_at w i v) i && found (fx (k :: ks) j (set_at w i v)) then length vals else 0)
                        (fun v => length vals * (if found (node f k (cyc (index v vals) vals)) then 1 else 0))).
    2:{ intros v Hv. destruct (at_idx j (set_at w i v) i) eqn:EA; cbn [andb].
        - rewrite (proj2 (fx_fibre k ks j i w v Hw Hv Hi EA)). fold f. destruct (found _); lia.
        - destruct (node_first_fails f k v 1 Hv) as [_ ->]; [now apply retry_not|]. lia. }
    rewrite !sum_mul, <- count_sum.
    change (list_sum (map ?g vals)) with (total g vals).
    rewrite (sum_by_index (fun x => if found (node f k (cyc x vals)) then 1 else 0)). unfold sumn. rewrite <- count_sum.
    assert (X := node_often f k vals Hk). nia.
  - assert (Z : forall v, In v vals -> at_idx j (set_at w i v) i = false).
    { intros v Hv. apply not_true_is_false. intros X. apply idx_queried in X as [_ X]; [|now apply words_set].
      apply memb_In in X. rewrite fibre_queried in X by auto. congruence. }
    etransitivity; [apply (sum_le _ (fun _ => 0))|rewrite sum_const; lia]. intros v Hv. now rewrite Z.
Qed.
Lemma fx_found_idx k ks j w : found (fx (k :: ks) j w) = true -> exists i, nth_place j w = Some i.
Proof. rewrite fx_cons. destruct (nth_place j w) as [i|]; [eauto|discriminate]. Qed.

Context (r : nat) (rounds : forall w p, In w (words vals N) -> path w = Some p -> length p = r).
Lemma found_path ks j w : found (fx ks j w) = true -> exists p, path w = Some p.
Proof.
  destruct ks as [|k ks]; cbn [fx]; unfold nth_place, found; destruct (path w) as [p|]; try discriminate; eauto.
Qed.
Lemma fx_step_found k ks j : 1 <= k -> j < r ->
  length vals * count (fun w => found (fx ks (S j) w)) (words vals N) <=
    length vals * count (fun w => found (fx (k :: ks) j w)) (words vals N) + (k - 1) * T * length vals ^ N.
Proof.
  intros Hk Hj. set (W := words vals N). set (q := length vals).
  set (F := fun i w => if at_idx j w i && found (fx ks (S j) w) then q else 0).
  set (G := fun i w => (if at_idx j w i && found (fx (k :: ks) j w) then q else 0) + (if memb i (qs w) then k - 1 else 0)).
  assert (S1 : list_sum (map (fun i => total (F i) W) (seq 0 N)) <= list_sum (map (fun i => total (G i) W) (seq 0 N))).
  { apply sum_le. intros i Hi. apply in_seq in Hi. apply (fibre_le N i); [lia|]. intros w Hw. apply fx_fibre_found; auto. lia. }
  unfold total in S1. rewrite (sum_swap F), (sum_swap G) in S1.
  rewrite !count_sum, <- !sum_mul.
  assert (S2 : list_sum (map (fun w => q * (if found (fx ks (S j) w) then 1 else 0)) W) <=
     list_sum (map (fun w => list_sum (map (fun i => F i w) (seq 0 N))) W)).
  { apply sum_le. intros w Hw. destruct (found (fx ks (S j) w)) eqn:EF; [|lia].
    destruct (found_path ks (S j) w EF) as [p Ep].
    destruct (nth_error p j) as [i0|] eqn:E0; [|apply nth_error_None in E0; rewrite (rounds w p Hw Ep) in E0; lia].
    assert (E : nth_place j w = Some i0) by (unfold nth_place; now rewrite Ep).
    destruct (idx_queried j w i0 Hw (proj1 (idx_at j w i0) E)) as [Hi _].
    destruct (one_position q 0 N i0) as [_ X]. rewrite Nat.mul_1_r, <- X at 1 by lia. clear X.
    apply sum_le. intros i _. unfold F, at_idx. rewrite E, EF, andb_true_r. lia. }
  assert (S3 : list_sum (map (fun w => list_sum (map (fun i => G i w) (seq 0 N))) W) <=
     list_sum (map (fun w => q * (if found (fx (k :: ks) j w) then 1 else 0)) W) + (k - 1) * T * length W).
  { replace ((k - 1) * T * length W) with (length W * ((k - 1) * T)) by lia. rewrite <- sum_const, <- !sum_add.
    apply sum_le. intros w Hw. unfold G. rewrite sum_add.
    assert (Y := positions_of (k - 1) N (qs w)). assert (Z := few w Hw).
    assert (Y2 : (k - 1) * length (qs w) <= (k - 1) * T) by nia.
    apply Nat.add_le_mono; [|lia]. destruct (found (fx (k :: ks) j w)) eqn:EF.
    - rewrite Nat.mul_1_r. destruct (fx_found_idx _ _ _ _ EF) as [i0 E]. destruct (one_position q 0 N i0) as [X _].
      etransitivity; [|exact X]. apply sum_le. intros i _. unfold at_idx. rewrite E, andb_true_r. lia.
    - rewrite (map_ext _ (fun _ => 0)); [rewrite sum_const; lia|]. intros i. now rewrite andb_false_r. }
  assert (LW : length W = q ^ N) by apply words_count. rewrite LW in S3. lia.
Qed.
Lemma fx_often ks : Forall (fun k => 1 <= k) ks -> forall j, j + length ks = r ->
  length vals * count (fun w => match path w with Some _ => true | None => false end) (words vals N) <=
    length vals * count (fun w => found (fx ks j w)) (words vals N) + slack ks * T * length vals ^ N.
Proof.
  induction 1 as [|k ks Hk HF IH]; intros j Hj.
  - unfold slack. cbn [map list_sum fold_right]. rewrite Nat.mul_0_l, Nat.add_0_r. apply Nat.mul_le_mono_l.
    apply count_le. intros w _. unfold found. cbn [fx fst]. now destruct (path w).
  - cbn [length] in Hj. specialize (IH (S j) ltac:(lia)). assert (X := fx_step_found k ks j Hk ltac:(lia)).
    unfold slack. cbn [map]. change (list_sum (pred k :: ?l)) with (pred k + list_sum l). fold (slack ks).
    replace (pred k) with (k - 1) by lia. rewrite !Nat.mul_add_distr_r. lia.
Qed.

(** ** what a tree that was found looks like *)
Fixpoint tpick (v : A) (q : list (A * ttree)) : option ttree :=
  match q with [] => None | (u, t) :: q => if eqb u v then Some t else tpick v q end.
(** the position at the node reached by the letters u, and the table at the leaf *)
Fixpoint pos_at (u : list A) (t : ttree) : nat :=
  match t, u with
  | TNode i q, [] => i
  | TNode i q, v :: u => match tpick v q with Some t => pos_at u t | None => 0 end
  | TLeaf _, _ => 0
  end.
Fixpoint leaf_at (u : list A) (t : ttree) : option (list A) :=
  match t, u with
  | TLeaf w, [] => Some w
  | TNode i q, v :: u => match tpick v q with Some t => leaf_at u t | None => None end
  | _, _ => None
  end.
Fixpoint erase (t : ttree) : wtree A :=
  match t with
  | TLeaf _ => WNode []
  | TNode _ q => WNode (map (fun '(v, t) => (v, erase t)) q)
  end.
Definition is_leaf (t : ttree) (u : list A) : bool := match leaf_at u t with Some _ => true | None => false end.
Fixpoint positions (t : ttree) (pre u : list A) : list nat :=
  match u with [] => [] | v :: u => pos_at pre t :: positions t (pre ++ [v]) u end.

Lemma tpick_In v t q : NoDup (map fst q) -> In (v, t) q -> tpick v q = Some t.
Proof.
  induction q as [|[u t'] q IH]; intros H HI; [destruct HI|]. cbn in H. inversion H as [|? ? N1 N2]; subst. cbn [tpick].
  destruct HI as [E|HI].
  - injection E as -> ->. now rewrite (proj2 (eqb_eq v v) eq_refl).
  - destruct (eqb u v) eqn:E; [|auto]. apply eqb_eq in E. subst u. exfalso. apply N1. now apply (in_map fst) in HI.
Qed.
Lemma tpick_Some v t q : tpick v q = Some t -> In (v, t) q.
Proof.
  induction q as [|[u t'] q IH]; [discriminate|]. cbn. destruct (eqb u v) eqn:E.
  - apply eqb_eq in E. subst u. injection 1 as ->. now left.
  - intros X. right. auto.
Qed.
Lemma wgood_ext (ok ok' : list A -> bool) ks : (forall u, ok u = ok' u) -> forall t, wgood vals ks ok t -> wgood vals ks ok' t.
Proof.
  revert ok ok'. induction ks as [|k ks IH]; intros ok ok' E t; cbn [wgood]; [now rewrite E|]. destruct t as [q].
  intros (H1 & H2 & H3 & H4). split; [auto|]. split; [auto|]. split; [auto|]. intros v t Hv. apply (IH (fun w => ok (v :: w))); [|now apply H4]. intros u. apply E.
Qed.

Context (prefix : forall w w' p p' j i, In w (words vals N) -> In w' (words vals N) -> path w = Some p -> path w' = Some p' ->
           nth_error p j = Some i -> nth_error p' j = Some i -> firstn j p = firstn j p')
        (distinct : forall w p, In w (words vals N) -> path w = Some p -> NoDup p).

Lemma positions_cons i q v u t pre : tpick v q = Some t -> positions (TNode i q) (v :: pre) u = positions t pre u.
Proof. intros E. revert pre; induction u as [|x u IH]; intros pre; cbn; [reflexivity|]. rewrite E. f_equal. apply (IH (pre ++ [x])). Qed.

Lemma firstn_S_nth {B} (l : list B) j x : nth_error l j = Some x -> firstn (S j) l = firstn j l ++ [x] /\ skipn j l = x :: skipn (S j) l.
Proof.
  revert j; induction l as [|a l IH]; intros [|j] E; try discriminate.
  - cbn in E. injection E as ->. auto.
  - cbn [nth_error] in E. destruct (IH j E) as [I1 I2]. split; [cbn [firstn app]; f_equal; exact I1|exact I2].
Qed.

Lemma fx_good ks : Forall (fun k => 1 <= k) ks -> forall j w t p, j + length ks = r ->
  In w (words vals N) -> path w = Some p -> fst (fx ks j w) = Some t ->
  wgood vals ks (is_leaf t) (erase t) /\
  forall u w', leaf_at u t = Some w' -> In w' (words vals N) /\
    exists p', path w' = Some p' /\ firstn j p' = firstn j p /\ (forall i, In i (firstn j p) -> nth i w' d0 = nth i w d0) /\
      skipn j p' = positions t [] u /\ map (fun i => nth i w' d0) (skipn j p') = u.
Proof.
  induction 1 as [|k ks Hk HF IH]; intros j w t p Hj Hw Hp.
  - cbn [fx fst]. rewrite Hp. injection 1 as <-. cbn [wgood erase]. split; [reflexivity|].
    intros [|v u] w'; [|discriminate]. cbn [leaf_at]. injection 1 as <-. split; [auto|]. exists p. split; [auto|]. split; [auto|]. split; [auto|].
    rewrite skipn_all2; [auto|]. cbn in Hj. rewrite (rounds w p Hw Hp). lia.
  - cbn [length] in Hj. rewrite fx_cons. destruct (nth_place j w) as [i|] eqn:Ei; [|discriminate].
    assert (Ei' : nth_error p j = Some i) by (unfold nth_place in Ei; now rewrite Hp in Ei).
    assert (Hi : i < N) by (apply (queried w p i Hw Hp); eapply nth_error_In; eauto).
    assert (X := node_good (retry ks j i w) k (cyc (index (nth i w d0) vals) vals)).
    destruct (node (retry ks j i w) k _) as [[q|] c]; [|discriminate]. cbn [option_map fst]. injection 1 as <-.
    destruct (X q Hk (cyc_NoDup _ vals HN) eq_refl) as (X1 & X2 & X3 & X4). clear X.
    assert (K : forall v t', In (v, t') q -> In v vals /\
       let w1 := set_at w i v in exists p1, In w1 (words vals N) /\ path w1 = Some p1 /\ nth_error p1 j = Some i /\
         fst (fx ks (S j) w1) = Some t').
    { intros v t' HI. assert (Hv : In v vals) by (apply (cyc_In (index (nth i w d0) vals)), X3; now apply (in_map fst) in HI).
      split; [exact Hv|]. intros w1. apply X4 in HI. unfold retry in HI. fold w1 in HI.
      destruct (at_idx j w1 i) eqn:EA; [|discriminate]. apply idx_at in EA. unfold nth_place in EA.
      destruct (path w1) as [p1|] eqn:E1; [|discriminate]. exists p1. split; [now apply words_set|auto]. }
    split.
    + cbn [wgood erase]. rewrite map_length, map_map.
      assert (EF : map (fun x : A * ttree => fst (let '(v, t) := x in (v, erase t))) q = map fst q) by (apply map_ext; now intros [v t']).
      rewrite EF. split; [auto|]. split; [auto|]. split. { intros v Hv. now apply (cyc_In (index (nth i w d0) vals)), X3. }
      intros v t HI. apply in_map_iff in HI as ([v' t'] & E & HI). injection E as -> <-.
      destruct (K v t' HI) as (Hv & p1 & W1 & P1 & _ & F1).
      destruct (IH (S j) _ t' p1 ltac:(lia) W1 P1 F1) as [G1 _]. revert G1. apply wgood_ext. intros u. unfold is_leaf. cbn [leaf_at].
      now rewrite (tpick_In v t' q X2 HI).
    + intros [|v u] w'; [discriminate|]. cbn [leaf_at]. destruct (tpick v q) as [t'|] eqn:ET; [|discriminate]. intros HL.
      destruct (K v t' (tpick_Some _ _ _ ET)) as (Hv & p1 & W1 & P1 & N1 & F1).
      destruct (IH (S j) _ t' p1 ltac:(lia) W1 P1 F1) as [_ G2]. destruct (G2 u w' HL) as (Iw' & p' & P' & Q1 & Q2 & Q3 & Q4).
      split; [exact Iw'|]. exists p'. split; [exact P'|].
      assert (PF : firstn j p1 = firstn j p) by exact (prefix _ w p1 p j i W1 Hw P1 Hp N1 Ei').
      destruct (firstn_S_nth p1 j i N1) as [A1 A2]. destruct (firstn_S_nth p j i Ei') as [B1 B2].
      assert (N' : nth_error p' j = Some i).
      { rewrite A1 in Q1. assert (L1 : length (firstn j p1) = j).
        { rewrite firstn_length, (rounds _ _ W1 P1). lia. }
        transitivity (nth_error (firstn (S j) p') j).
        - clear. revert j. induction p' as [|a l IH]; intros [|j]; try reflexivity. exact (IH j).
        - rewrite Q1, nth_error_app2 by lia. rewrite L1, Nat.sub_diag. reflexivity. }
      destruct (firstn_S_nth p' j i N') as [D1 D2].
      assert (PF' : firstn j p' = firstn j p).
      { rewrite A1, D1, PF in Q1. now apply app_inj_tail in Q1. }
      split; [exact PF'|]. split; [|split].
      * intros i' Hi'. rewrite Q2.
        -- apply nth_set_at_neq. intros <-. assert (ND := distinct w p Hw Hp). rewrite <- (firstn_skipn j p), B2 in ND.
           apply NoDup_remove_2 in ND. apply ND. apply in_or_app. now left.
        -- rewrite A1, PF. apply in_or_app. now left.
      * rewrite D2, Q3. cbn [positions pos_at app]. f_equal. symmetry. now apply positions_cons.
      * rewrite D2. cbn [map]. f_equal; [|exact Q4]. rewrite Q2; [|rewrite A1; apply in_or_app; right; now left].
        apply nth_set_at_eq. apply words_In in Hw as [-> _]. exact Hi.
Qed.
End Game.
Arguments ttree : clear implicits.
