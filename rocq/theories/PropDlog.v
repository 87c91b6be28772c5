(** C87: what a relation between the generators is worth. If the generators are random
    combinations of two points B and X, a relation between them gives the discrete logarithm of X
    to the base B, except for a fraction 1/q of the cases. Hence a prover that convinces a
    verifier more often than the soundness error yields witnesses or discrete logarithms. *)
From Coq Require Import String.
From Verif Require Export PropExtract.
From Verif Require Import Poly KaryFacts PropZkCount PropEqTest Ex ExSmall.
Local Open Scope nat_scope.
Local Open Scope list_scope.

Section C87.
Context {C : Crypto} {L : CryptoLaws C}.
Add Field Sf87 : (@S_field C L).
Notation word := (list Scalar).

(** generators with known representations *)
Definition gens (B X : Point) (N : nat) (r s : word) : list Point := tab N (fun i => sc r i *: B + sc s i *: X)%P.
(** a relation between N points *)
Definition relation (N : nat) (c : word) (gs : list Point) : Prop :=
  length c = N /\ comb c gs = p0 /\ exists i, i < N /\ sc c i <> s0.
Definition relationb (N : nat) (c : word) (gs : list Point) : bool :=
  (length c =? N) && peqb (comb c gs) p0 && negb (all_zero c).
(** the logarithm read off a relation *)
Definition dlog (r s c : word) : Scalar := (- (dotp c r * sinv (dotp c s)))%S.

Lemma relationb_ok N c gs : relationb N c gs = true <-> relation N c gs.
Proof.
  unfold relationb, relation. rewrite !andb_true_iff, Nat.eqb_eq, peqb_eq, negb_true_iff. split.
  - intros ((E1 & E2) & E3). split; [auto|]. split; [auto|]. subst N. clear E2. unfold all_zero in E3.
    induction c as [|x c IH]; [discriminate|]. cbn in E3. destruct (seqb x s0) eqn:E.
    + cbn in E3. destruct (IH E3) as (i & Hi & Hn). exists (S i). split; [cbn; lia|exact Hn].
    + exists 0. split; [cbn; lia|]. cbn. intros ->. assert (Z : seqb s0 s0 = true) by now apply seqb_eq. congruence.
  - intros (E1 & E2 & i & Hi & Hn). split; [auto|]. destruct (all_zero c) eqn:E; [|reflexivity]. exfalso. apply Hn.
    apply (proj1 (all_zero_spec c) E). lia.
Qed.

Lemma comb_gens B X N r s c : length c = N -> comb c (gens B X N r s) = (dotp c r *: B + dotp c s *: X)%P.
Proof.
  intros HL. unfold comb, dotp. rewrite HL, <- !sum_P_mul_s, <- sum_P_add. apply sum_P_ext. intros i Hi.
  unfold gens, pt. rewrite tab_nth by auto. pring.
Qed.
Lemma dlog_solves B X N r s c : relation N c (gens B X N r s) -> dotp c s <> s0 -> X = (dlog r s c *: B)%P.
Proof.
  intros (HL & E & _) Hn. rewrite comb_gens in E by auto. unfold dlog.
  transitivity ((- (dotp c r * sinv (dotp c s)))%S *: B + sinv (dotp c s) *: (dotp c r *: B + dotp c s *: X))%P.
  - pnorm; field; auto.
  - rewrite E. pring.
Qed.

(** how many of the pairs (r, s) of words of length N pass *)
Definition count2 (vals : list Scalar) N (F : word -> word -> bool) : nat :=
  total (fun s => count (fun r => F r s) (words vals N)) (words vals N).

Lemma count2_le vals N F F' : (forall r s, length r = N -> length s = N -> F r s = true -> F' r s = true) ->
  count2 vals N F <= count2 vals N F'.
Proof.
  intros H. apply sum_le. intros s Hs. apply count_le. intros r Hr. apply words_In in Hs as [Hs _]. apply words_In in Hr as [Hr _]. now apply H.
Qed.
Lemma count2_or vals N F F' : count2 vals N (fun r s => F r s || F' r s) <= count2 vals N F + count2 vals N F'.
Proof. unfold count2, total. rewrite <- sum_add. apply sum_le. intros s _. apply count_or. Qed.

(** translation by x s *)
Lemma count2_translate vals N F x : NoDup vals -> (forall v, In v vals) ->
  count2 vals N F = count2 vals N (fun u s => F (tab N (fun i => sc u i - x * sc s i)%S) s).
Proof.
  intros HN HA. unfold count2, total. f_equal. apply map_ext. intros s. symmetry.
  apply (count_bij vals N (fun u => tab N (fun i => sc u i - x * sc s i)%S) (fun u => tab N (fun i => sc u i + x * sc s i)%S)
           (fun r => F r s)); auto; intros r Hr; (split; [apply tab_length|]);
    apply (list_eq_nth s0); rewrite tab_length; auto; intros i Hi; fold (sc (tab N (fun i => sc r i)) i);
    rewrite tab_nth by auto; unfold sc at 1; rewrite tab_nth by auto; fold (sc r i); unfold sc; ring.
Qed.
(** a linear equation with a nonzero coefficient has at most q^(N-1) solutions *)
Lemma few_solutions vals N c i : NoDup vals -> length c = N -> i < N -> sc c i <> s0 ->
  count (fun s => seqb (dotp c s) s0) (words vals N) <= length vals ^ (N - 1).
Proof.
  intros HN HL Hi Hc. rewrite <- (Nat.mul_1_l (length vals ^ _)). apply (count_words_letter vals N _ i); auto.
  intros w Hw. set (K := sum_S N (fun j => if j =? i then s0 else sc c j * sc w j)%S).
  assert (E : forall v, dotp c (set_at w i v) = (K + sc c i * v)%S).
  { intros v. unfold dotp. rewrite HL. unfold K.
    assert (E1 : sum_S N (fun j => if j =? i then sc c i * v else s0)%S = (sc c i * v)%S).
    { rewrite (sum_S_single N i); [now rewrite Nat.eqb_refl|auto|]. intros j _ Hne. now rewrite (proj2 (Nat.eqb_neq j i)). }
    rewrite <- E1.
    rewrite <- sum_S_add. apply sum_S_ext. intros j Hj. unfold sc at 2. rewrite set_at_nth. fold (sc w j).
    rewrite Hw, (proj2 (Nat.ltb_lt j N) Hj), andb_true_r. destruct (Nat.eqb_spec j i) as [->|]; ring. }
  assert (H1 : forall v v', dotp c (set_at w i v) = s0 -> dotp c (set_at w i v') = s0 -> v = v').
  { intros v v'. rewrite !E. intros E1 E2.
    assert (Z : (sc c i * (v - v') = s0)%S) by (transitivity ((K + sc c i * v) - (K + sc c i * v'))%S; [ring|rewrite E1, E2; ring]).
    destruct (S_eq_dec v v') as [|Hne]; auto. exfalso. apply Hc.
    transitivity (sc c i * (v - v') * sinv (v - v'))%S; [field; intros Z2; apply Hne; transitivity (v - v' + v')%S; [ring|rewrite Z2; ring]|rewrite Z; ring]. }
  clear -HN H1 L. induction HN as [|v vs Hv HN IH]; [cbn; lia|]. rewrite count_cons.
  destruct (seqb (dotp c (set_at w i v)) s0) eqn:E; [|exact IH]. apply seqb_eq in E.
  rewrite count_none; [lia|]. intros v' Hv'. destruct (seqb (dotp c (set_at w i v')) s0) eqn:E'; auto. apply seqb_eq in E'.
  rewrite (H1 v v' E E') in Hv. contradiction.
Qed.

Theorem C87_relation_gives_dlog (vals : list Scalar) (B X : Point) (x : Scalar) N (f : list Point -> word) :
  NoDup vals -> (forall v, In v vals) -> X = (x *: B)%P ->
  count2 vals N (fun r s => relationb N (f (gens B X N r s)) (gens B X N r s)) <=
    count2 vals N (fun r s => relationb N (f (gens B X N r s)) (gens B X N r s) && peqb (dlog r s (f (gens B X N r s)) *: B)%P X) +
    length vals ^ N * length vals ^ (N - 1).
Proof.
  intros HN HA HX.
  set (bad := fun r s => relationb N (f (gens B X N r s)) (gens B X N r s) && seqb (dotp (f (gens B X N r s)) s) s0).
  etransitivity.
  - apply (count2_le _ _ _ (fun r s => (relationb N (f (gens B X N r s)) (gens B X N r s) && peqb (dlog r s (f (gens B X N r s)) *: B)%P X) || bad r s)).
    intros r s Hr Hs E. unfold bad. rewrite E. cbn [andb]. destruct (seqb (dotp (f (gens B X N r s)) s) s0) eqn:E0; [apply orb_true_r|].
    rewrite orb_false_r. apply peqb_eq. symmetry. apply (dlog_solves B X N); [now apply relationb_ok|].
    intros Z. apply seqb_eq in Z. congruence.
  - etransitivity; [apply count2_or|]. apply Nat.add_le_mono_l. rewrite (count2_translate vals N bad x HN HA).
    assert (G1 : forall u s, gens B X N (tab N (fun i => sc u i - x * sc s i)%S) s = tab N (fun i => sc u i *: B)%P).
    { intros u s. unfold gens. unfold tab at 1 3. apply map_ext_in. intros i Hi. apply in_seq in Hi. unfold sc at 1. rewrite tab_nth by lia.
      rewrite HX. pring. }
    unfold count2, total. unfold bad. rewrite <- count_swap.
    rewrite <- words_count. apply sum_bound. intros u Hu. cbv beta.
    rewrite (count_ext _ (fun s => relationb N (f (tab N (fun i => sc u i *: B)%P)) (tab N (fun i => sc u i *: B)%P) && seqb (dotp (f (tab N (fun i => sc u i *: B)%P)) s) s0))
      by (intros s _; cbv beta; rewrite !G1; reflexivity).
    destruct (relationb N (f (tab N (fun i => sc u i *: B)%P)) (tab N (fun i => sc u i *: B)%P)) eqn:E; cbn [andb].
    + apply relationb_ok in E as (HL & _ & i & Hi & Hc). now apply (few_solutions vals N _ i).
    + rewrite count_none; [lia|auto].
Qed.

(** two openings of one commitment *)
Corollary C87_binding_gives_dlog (vals : list Scalar) (B X : Point) (x : Scalar) N (f : list Point -> word * word) :
  NoDup vals -> (forall v, In v vals) -> X = (x *: B)%P ->
  let breaks := fun gs => let '(v, v') := f gs in
    (length v =? N) && (length v' =? N) && peqb (comb v gs) (comb v' gs) && negb (all_zero (tab N (fun i => sc v i - sc v' i)%S)) in
  let diff := fun gs => tab N (fun i => sc (fst (f gs)) i - sc (snd (f gs)) i)%S in
  count2 vals N (fun r s => breaks (gens B X N r s)) <=
    count2 vals N (fun r s => peqb (dlog r s (diff (gens B X N r s)) *: B)%P X) + length vals ^ N * length vals ^ (N - 1).
Proof.
  intros HN HA HX breaks diff.
  etransitivity; [apply (count2_le _ _ _ (fun r s => relationb N (diff (gens B X N r s)) (gens B X N r s)))|].
  - intros r s _ _. generalize (gens B X N r s) as gs. intros gs. unfold breaks, diff, relationb. destruct (f gs) as [v v']. cbn [fst snd].
    rewrite !andb_true_iff, !Nat.eqb_eq, tab_length. intros (((E1 & E2) & E3) & E4). split; [split; [reflexivity|]|exact E4].
    apply peqb_eq in E3. apply peqb_eq. unfold comb in *. rewrite tab_length. rewrite E1, E2 in E3.
    transitivity (sum_P N (fun i => sc v i *: pt gs i) + (- s1)%S *: sum_P N (fun i => sc v' i *: pt gs i))%P; [|rewrite E3; pring].
    rewrite <- sum_P_mul, <- sum_P_add. apply sum_P_ext. intros i Hi. unfold sc at 1. rewrite tab_nth by auto. pring.
  - etransitivity; [apply (C87_relation_gives_dlog vals B X x N diff HN HA HX)|]. apply Nat.add_le_mono_r. apply count2_le.
    intros r s _ _ E. now apply andb_true_iff in E as [_ E].
Qed.

(** ** An extractor that may return relations, run on such generators *)
Definition total2 (vals : list Scalar) N (F : word -> word -> nat) : nat :=
  total (fun s => total (fun r => F r s) (words vals N)) (words vals N).

Section Solver.
Context {Y O : Type} (E : list Point -> O -> option Y * nat) (rel : Y -> option word).
(** the run returned something that is not a relation *)
Definition wins (gs : list Point) (o : O) : bool :=
  match fst (E gs o) with Some e => match rel e with Some _ => false | None => true end | None => false end.
(** choose generators, run, read off the logarithm *)
Definition solver (B X : Point) N (r s : word) (o : O) : option Scalar :=
  match fst (E (gens B X N r s) o) with Some e => option_map (dlog r s) (rel e) | None => None end.
Definition solves (B X : Point) N r s o : bool :=
  match solver B X N r s o with Some z => peqb (z *: B)%P X | None => false end.

Lemma count_total {A} (f : A -> bool) l : count f l = total (fun a => if f a then 1 else 0) l.
Proof. induction l as [|a l IH]; [reflexivity|]. rewrite count_cons, IH. unfold total. cbn [map]. change (list_sum (?x :: ?y)) with (x + list_sum y). destruct (f a); reflexivity. Qed.
Lemma total_swap {A B'} (f : A -> B' -> nat) lb : forall la, total (fun a => total (f a) lb) la = total (fun b => total (fun a => f a b) la) lb.
Proof.
  unfold total. induction la as [|a la IH].
  - cbn [map]. change (list_sum []) with 0. rewrite sum_const. lia.
  - cbn [map]. change (list_sum (?x :: ?y)) with (x + list_sum y). rewrite IH, <- sum_add. reflexivity.
Qed.
Lemma total2_swap vals N (F : word -> word -> O -> bool) os :
  total2 vals N (fun r s => count (F r s) os) = total (fun o => count2 vals N (fun r s => F r s o)) os.
Proof.
  unfold total2, count2.
  transitivity (total (fun s => total (fun o => count (fun r => F r s o) (words vals N)) os) (words vals N)).
  - unfold total at 1 3. f_equal. apply map_ext. intros s.
    transitivity (total (fun r => total (fun o => if F r s o then 1 else 0) os) (words vals N)).
    + unfold total at 1 2. f_equal. apply map_ext. intros r. apply count_total.
    + rewrite total_swap. unfold total at 1 3. f_equal. apply map_ext. intros o. symmetry. apply count_total.
  - apply total_swap.
Qed.
Lemma total_add {A} (f g : A -> nat) l : total (fun a => f a + g a) l = total f l + total g l.
Proof. unfold total. apply sum_add. Qed.
Lemma total_le {A} (f g : A -> nat) l : (forall a, In a l -> f a <= g a) -> total f l <= total g l.
Proof. unfold total. apply sum_le. Qed.
Lemma total_const {A} c (l : list A) : total (fun _ => c) l = length l * c.
Proof. unfold total. apply sum_const. Qed.
Lemma total2_le vals N F F' : (forall r s, F r s <= F' r s) -> total2 vals N F <= total2 vals N F'.
Proof. intros H. apply total_le. intros s _. apply total_le. intros r _. apply H. Qed.
Lemma total2_add vals N F F' : total2 vals N (fun r s => F r s + F' r s) = total2 vals N F + total2 vals N F'.
Proof. unfold total2. rewrite <- total_add. unfold total at 1 3. f_equal. apply map_ext. intros s. apply total_add. Qed.
Lemma total2_const vals N c : total2 vals N (fun _ _ => c) = length vals ^ N * (length vals ^ N * c).
Proof. unfold total2. rewrite total_const. rewrite total_const, words_count. reflexivity. Qed.

Lemma gens_length B X N r s : length (gens B X N r s) = N.
Proof. apply tab_length. Qed.

(** the run returned a relation *)
Definition breaks (gs : list Point) (o : O) : bool :=
  match fst (E gs o) with Some e => match rel e with Some _ => true | None => false end | None => false end.
Lemma found_split gs o : found (E gs o) = (wins gs o || breaks gs o)%bool.
Proof. unfold found, wins, breaks. destruct (fst (E gs o)) as [e|]; [destruct (rel e)|]; reflexivity. Qed.
Lemma relations_solve vals B X x N os k :
  NoDup vals -> (forall v, In v vals) -> X = (x *: B)%P -> length os = k ->
  (forall gs, length gs = N -> forall o e c, In o os -> fst (E gs o) = Some e -> rel e = Some c -> relation N c gs) ->
  total2 vals N (fun r s => count (breaks (gens B X N r s)) os) <=
    total2 vals N (fun r s => count (solves B X N r s) os) + k * (length vals ^ N * length vals ^ (N - 1)).
Proof.
  intros HN HA HX <- H. rewrite !total2_swap. rewrite <- total_const, <- total_add. apply total_le. intros o Ho.
  set (f := fun gs => match fst (E gs o) with Some e => match rel e with Some c => c | None => [] end | None => [] end).
  etransitivity; [apply (count2_le _ _ _ (fun r s => relationb N (f (gens B X N r s)) (gens B X N r s)))|].
  { intros r s _ _. unfold breaks, f. assert (Hr := H _ (gens_length B X N r s)). specialize (Hr o).
    destruct (fst (E (gens B X N r s) o)) as [e|]; [|discriminate]. destruct (rel e) as [c|] eqn:Ec; [|discriminate]. intros _.
    apply relationb_ok. now apply (Hr e). }
  etransitivity; [apply (C87_relation_gives_dlog vals B X x N f HN HA HX)|]. apply Nat.add_le_mono_r. apply count2_le.
  intros r s _ _ E1. apply andb_true_iff in E1 as [E1 E2]. revert E1 E2. unfold solves, solver, f.
  destruct (fst (E (gens B X N r s) o)) as [e|]; [destruct (rel e) as [c|]|]; cbn [option_map]; [auto| |];
    intros E1 _; exfalso; apply relationb_ok in E1 as (H1 & _ & i & Hi & Hc); apply Hc; unfold sc; now destruct i.
Qed.
Lemma extract_or_solve vals B X x N (acc : list Point -> nat) os k err runs :
  NoDup vals -> (forall v, In v vals) -> X = (x *: B)%P -> length os = k ->
  (forall gs, length gs = N ->
     (forall o e c, In o os -> fst (E gs o) = Some e -> rel e = Some c -> relation N c gs) /\
     acc gs <= count (fun o => found (E gs o)) os + err /\
     total (fun o => snd (E gs o)) os <= runs) ->
  total2 vals N (fun r s => acc (gens B X N r s)) <=
    total2 vals N (fun r s => count (wins (gens B X N r s)) os) +
    total2 vals N (fun r s => count (solves B X N r s) os) +
    k * (length vals ^ N * length vals ^ (N - 1)) + length vals ^ N * length vals ^ N * err /\
  total2 vals N (fun r s => total (fun o => snd (E (gens B X N r s) o)) os) <= length vals ^ N * length vals ^ N * runs.
Proof.
  intros HN HA HX HO H. split.
  - etransitivity; [apply (total2_le _ _ _ (fun r s => (count (wins (gens B X N r s)) os + count (breaks (gens B X N r s)) os) + err))|].
    { intros r s. destruct (H _ (gens_length B X N r s)) as (_ & Ha & _). etransitivity; [exact Ha|]. apply Nat.add_le_mono_r.
      etransitivity; [|apply count_or]. apply count_le. intros o _. now rewrite found_split. }
    rewrite !total2_add, total2_const. rewrite (Nat.mul_assoc (length vals ^ N)).
    apply Nat.add_le_mono_r. rewrite <- Nat.add_assoc. apply Nat.add_le_mono_l.
    apply (relations_solve vals B X x); auto. intros gs Hgs. apply (H gs Hgs).
  - etransitivity; [apply (total2_le _ _ _ (fun _ _ => runs))|rewrite total2_const; lia].
    intros r s. apply (H _ (gens_length B X N r s)).
Qed.
End Solver.

(** G, H and Q from one list of 2 n + 1 generators *)
Definition gG (n : nat) (gs : list Point) : list Point := firstn n gs.
Definition gH (n : nat) (gs : list Point) : list Point := firstn n (skipn n gs).
Definition gQ (n : nat) (gs : list Point) : Point := pt gs (2 * n).

Lemma gG_length n gs : length gs = 2 * n + 1 -> length (gG n gs) = n.
Proof. intros E. unfold gG. rewrite firstn_length. lia. Qed.
Lemma gH_length n gs : length gs = 2 * n + 1 -> length (gH n gs) = n.
Proof. intros E. unfold gH. rewrite firstn_length, skipn_length. lia. Qed.
Lemma nontrivial_is_relation n gs g h q : length gs = 2 * n + 1 ->
  nontrivial_relation n (gG n gs) (gH n gs) (gQ n gs) g h q -> relation (2 * n + 1) (g ++ h ++ [q]) gs.
Proof.
  intros HL (Lg & Lh & E & Hnt). assert (LL : length (g ++ h ++ [q]) = 2 * n + 1) by (rewrite !app_length, Lg, Lh; cbn; lia).
  split; [exact LL|]. split.
  - rewrite <- E. unfold comb. rewrite LL, Lg, Lh. replace (2 * n + 1) with (n + (n + 1)) by lia. rewrite !sum_P_app. cbn [sum_P].
    assert (E1 : sum_P n (fun i => sc (g ++ h ++ [q]) i *: pt gs i)%P = sum_P n (fun i => sc g i *: pt (gG n gs) i)%P).
    { apply sum_P_ext. intros i Hi. unfold sc, pt, gG. rewrite app_nth1 by lia. rewrite nth_firstn_lt by lia. reflexivity. }
    assert (E2 : sum_P n (fun i => sc (g ++ h ++ [q]) (n + i) *: pt gs (n + i))%P = sum_P n (fun i => sc h i *: pt (gH n gs) i)%P).
    { apply sum_P_ext. intros i Hi. unfold sc, pt, gH. rewrite app_nth2 by lia. rewrite nth_firstn_lt by lia. rewrite nth_skipn_eq.
      replace (n + i - length g) with i by lia. rewrite app_nth1 by lia. reflexivity. }
    rewrite E1, E2. unfold gQ, sc. rewrite !app_nth2 by lia. replace (n + (n + 0) - length g - length h) with 0 by lia.
    replace (n + (n + 0)) with (2 * n) by lia. cbn [nth]. pring.
  - destruct (all_zero (g ++ h ++ [q])) eqn:Z.
    + exfalso. apply Hnt. assert (Z' := proj1 (all_zero_spec _) Z). split.
      * intros i Hi. split.
        -- rewrite <- (Z' i) by lia. unfold sc. now rewrite app_nth1 by lia.
        -- rewrite <- (Z' (n + i)) by lia. unfold sc. rewrite app_nth2 by lia. rewrite app_nth1 by lia. f_equal. lia.
      * rewrite <- (Z' (n + n)) by lia. unfold sc. rewrite !app_nth2 by lia. now replace (n + n - length g - length h) with 0 by lia.
    + assert (X : relationb (2 * n + 1) (g ++ h ++ [q]) (repeat p0 (2 * n + 1)) = true).
      { unfold relationb. rewrite LL, Nat.eqb_refl, Z, andb_true_r. apply peqb_eq. unfold comb. apply sum_P_0. intros i Hi.
        unfold pt. rewrite nth_repeat. pring. }
      apply relationb_ok in X as (_ & _ & X). exact X.
Qed.

(** ** Inner product argument *)
Definition rel_of (e : extracted) : option word :=
  match e with Wit _ _ _ => None | Rel g h q => Some (g ++ h ++ [q]) end.

Theorem C87_nozk_dlog vals tr d (B X : Point) (x : Scalar) (P : list Point -> Point) (t : list Point -> Scalar) msg fin :
  let n := 2 ^ d in
  let N := 2 * n + 1 in
  let q := length vals in
  let E := fun gs => nozk_extractor vals tr (gG n gs) (gH n gs) (gQ n gs) d (P gs) (t gs) (msg gs) (fin gs) in
  NoDup vals -> (forall v, In v vals) -> X = (x *: B)%P ->
  total2 vals N (fun r s => let gs := gens B X N r s in
      count (nozk_yes tr (gG n gs) (gH n gs) (gQ n gs) n (P gs) (t gs) (msg gs) (fin gs)) (words vals (S d))) <=
    total2 vals N (fun r s => count (wins E rel_of (gens B X N r s)) (choices vals (S d))) +
    total2 vals N (fun r s => count (solves E rel_of B X N r s) (choices vals (S d))) +
    q ^ S d * (q ^ N * q ^ (N - 1)) + q ^ N * q ^ N * ((2 + 3 * d) * q ^ d) /\
  total2 vals N (fun r s => total (fun o => snd (E (gens B X N r s) o)) (choices vals (S d))) <= q ^ N * q ^ N * (3 * 4 ^ d * q ^ S d) /\
  (forall gs o, length gs = N -> wins E rel_of gs o = true -> exists a b, length a = n /\ length b = n /\
     P gs = (comb a (gG n gs) + comb b (gH n gs) + t gs *: gQ n gs)%P /\ dotp a b = t gs).
Proof.
  intros n N q E HN HA HX.
  assert (X0 : length (choices vals (S d)) = q ^ S d) by (unfold choices; now rewrite words_count, seq_length).
  assert (HE : forall gs, length gs = N -> _) by (intros gs Hgs;
    exact (C86_nozk_extractor vals tr (gG n gs) (gH n gs) (gQ n gs) (P gs) (t gs) d (msg gs) (fin gs) HN (gG_length n gs Hgs) (gH_length n gs Hgs))).
  cbv zeta in HE. rewrite <- and_assoc. split.
  - apply (extract_or_solve E rel_of vals B X x N (fun gs => count (nozk_yes tr (gG n gs) (gH n gs) (gQ n gs) n (P gs) (t gs) (msg gs) (fin gs)) (words vals (S d)))
             (choices vals (S d)) (q ^ S d) ((2 + 3 * d) * q ^ d) (3 * 4 ^ d * q ^ S d)); auto.
    intros gs Hgs. destruct (HE gs Hgs) as (H1 & H2 & H3). split; [|split; [exact H2|exact H3]].
    intros o [a b c|g h r] cc _ Ee Er; [discriminate|]. injection Er as <-. apply nontrivial_is_relation; auto. exact (H1 o _ Ee).
  - intros gs o Hgs. unfold wins. destruct (HE gs Hgs) as (H1 & _). specialize (H1 o). fold (E gs) in H1.
    destruct (fst (E gs o)) as [[a b c|g h r]|]; try discriminate. intros _. destruct (H1 _ eq_refl) as (La & Lb & -> & HP & Hd). exists a, b. auto.
Qed.

Theorem C87_almzk_dlog vals tr d (B X : Point) (x : Scalar) (Cw : list Point -> Point) (t : list Point -> Scalar) cr msg fin :
  let n := 2 ^ d in
  let N := 2 * n + 1 in
  let q := length vals in
  let E := fun gs => almzk_extractor vals tr (gG n gs) (gH n gs) (gQ n gs) d (Cw gs) (t gs) (cr gs) (msg gs) (fin gs) in
  let K := S (S d) in
  NoDup vals -> (forall v, In v vals) -> X = (x *: B)%P ->
  total2 vals N (fun r s => let gs := gens B X N r s in
      count (almzk_yes tr (gG n gs) (gH n gs) (gQ n gs) n (Cw gs) (t gs) (cr gs) (msg gs) (fin gs)) (words vals K)) <=
    total2 vals N (fun r s => count (wins E rel_of (gens B X N r s)) (choices vals K)) +
    total2 vals N (fun r s => count (solves E rel_of B X N r s) (choices vals K)) +
    q ^ K * (q ^ N * q ^ (N - 1)) + q ^ N * q ^ N * ((4 + 3 * d) * q ^ S d) /\
  total2 vals N (fun r s => total (fun o => snd (E (gens B X N r s) o)) (choices vals K)) <= q ^ N * q ^ N * (9 * 4 ^ d * q ^ K) /\
  (forall gs o, length gs = N -> wins E rel_of gs o = true -> exists a b, length a = n /\ length b = n /\
     Cw gs = (comb a (gG n gs) + comb b (gH n gs))%P /\ dotp a b = t gs).
Proof.
  intros n N q E K HN HA HX.
  assert (X0 : length (choices vals K) = q ^ K) by (unfold choices; now rewrite words_count, seq_length).
  assert (HE : forall gs, length gs = N -> _) by (intros gs Hgs;
    exact (C86_almzk_extractor vals tr (gG n gs) (gH n gs) (gQ n gs) (Cw gs) (t gs) (cr gs) d (msg gs) (fin gs) HN (gG_length n gs Hgs) (gH_length n gs Hgs))).
  cbv zeta in HE. rewrite <- and_assoc. split.
  - apply (extract_or_solve E rel_of vals B X x N
             (fun gs => count (almzk_yes tr (gG n gs) (gH n gs) (gQ n gs) n (Cw gs) (t gs) (cr gs) (msg gs) (fin gs)) (words vals K))
             (choices vals K) (q ^ K) ((4 + 3 * d) * q ^ S d) (9 * 4 ^ d * q ^ K)); auto.
    intros gs Hgs. destruct (HE gs Hgs) as (H1 & H2 & H3). split; [|split; [exact H2|exact H3]].
    intros o [a b c|g h r] cc _ Ee Er; [discriminate|]. injection Er as <-. apply nontrivial_is_relation; auto. exact (H1 o _ Ee).
  - intros gs o Hgs. unfold wins. destruct (HE gs Hgs) as (H1 & _). specialize (H1 o). fold (E gs) in H1.
    destruct (fst (E gs o)) as [[a b c|g h r]|]; try discriminate. intros _. destruct (H1 _ eq_refl) as (La & Lb & -> & HP & Hd). exists a, b. auto.
Qed.

(** ** QESA and copy proofs: a prover committed to a vector that does not satisfy the statement *)
Definition rel_opt (e : option (word * word * Scalar)) : option word :=
  match e with None => None | Some (g, h, q) => Some (g ++ h ++ [q]) end.

Theorem C87_qesa_dlog vals tr d (B X : Point) (x : Scalar) Ms c1 c2 cr msg fin (w' : list Point -> word) (u : list Point -> Scalar -> word) :
  let n := 2 ^ d in
  let N := 2 * n + 1 in
  let m := min (length Ms) n in
  let q := length vals in
  let E := fun gs => qesa_extractor vals tr (gG n gs) (gH n gs) (gQ n gs) n d Ms (c1 gs) (c2 gs) (cr gs) (msg gs) (fin gs) (w' gs) (u gs) in
  let K := 5 + d in
  NoDup vals -> (forall v, In v vals) -> X = (x *: B)%P -> 3 <= n -> 1 <= length Ms -> Forall (rect (n - 2) (n - 2)) Ms ->
  (forall gs, length gs = N -> length (w' gs) = n /\ sc (w' gs) 0 = s1 /\ decompress (c1 gs) = Some (comb (w' gs) (gG n gs)) /\
     (forall x, length (u gs x) = n /\ decompress (c2 gs x) = Some (comb (u gs x) (gH n gs))) /\
     exists t, t < m /\ quad (nth t Ms []) (firstn (n - 2) (w' gs)) <> s0) ->
  total2 vals N (fun r s => let gs := gens B X N r s in
      count (qesa_yes tr (gG n gs) (gH n gs) (gQ n gs) Ms (c1 gs) (c2 gs) (cr gs) (msg gs) (fin gs)) (words vals K)) <=
    total2 vals N (fun r s => count (solves E rel_opt B X N r s) (choices vals K)) +
    q ^ K * (q ^ N * q ^ (N - 1)) + q ^ N * q ^ N * ((m + n + 4 + 3 * d) * q ^ (4 + d)) /\
  total2 vals N (fun r s => total (fun o => snd (E (gens B X N r s) o)) (choices vals K)) <= q ^ N * q ^ N * (27 * S m * n ^ 3 * q ^ K).
Proof.
  intros n N m q E K HN HA HX Hn HM HR HW.
  assert (X0 : length (choices vals K) = q ^ K) by (unfold choices; now rewrite words_count, seq_length).
  assert (HE : forall gs, length gs = N -> _) by (intros gs Hgs; destruct (HW gs Hgs) as (W1 & W2 & W3 & W4 & _);
    exact (C86_qesa_extractor vals tr (gG n gs) (gH n gs) (gQ n gs) n d Ms (c1 gs) (c2 gs) (cr gs) (msg gs) (fin gs) (w' gs) (u gs)
      HN eq_refl Hn (gG_length n gs Hgs) (gH_length n gs Hgs) HM HR W1 W2 W3 W4)).
  cbv zeta in HE.
  destruct (extract_or_solve E rel_opt vals B X x N
             (fun gs => count (qesa_yes tr (gG n gs) (gH n gs) (gQ n gs) Ms (c1 gs) (c2 gs) (cr gs) (msg gs) (fin gs)) (words vals K))
             (choices vals K) (q ^ K) ((m + n + 4 + 3 * d) * q ^ (4 + d)) (27 * S m * n ^ 3 * q ^ K)) as [R1 R2]; auto.
  { intros gs Hgs. destruct (HE gs Hgs) as (H1 & H2 & H3). split; [|split; [exact H2|exact H3]].
    intros o [[[g h] r]|] cc _ Ee Er; [|discriminate]. injection Er as <-. apply nontrivial_is_relation; auto. exact (H1 o _ Ee). }
  split; [|exact R2]. etransitivity; [exact R1|]. do 2 apply Nat.add_le_mono_r.
  assert (Z : total2 vals N (fun r s => count (wins E rel_opt (gens B X N r s)) (choices vals K)) = 0); [|now rewrite Z].
  apply Nat.le_0_r. etransitivity; [apply (total2_le _ _ _ (fun _ _ => 0))|rewrite total2_const; lia].
  intros r s. rewrite count_none; [lia|]. intros o _. unfold wins. set (gs := gens B X N r s).
  assert (Hgs : length gs = N) by apply gens_length. destruct (HE gs Hgs) as (H1 & _). specialize (H1 o). fold (E gs) in H1.
  destruct (fst (E gs o)) as [[[[g h] r']|]|]; auto. exfalso. specialize (H1 _ eq_refl). cbv beta iota in H1.
  destruct (HW gs Hgs) as (_ & _ & _ & _ & t & Ht & Hq). exact (Hq (H1 t Ht)).
Qed.

Theorem C87_copy_dlog vals tr d (B X : Point) (x : Scalar) Ms (ws : N) (sets : list (list N)) mp
    (msgs : list Point -> list word) (rs : list Point -> word) (Cs : list Point -> list Point) cw c1' c2 cr msg fin
    (w' : list Point -> word) (u : list Point -> Scalar -> Scalar -> word) :
  let n := 2 ^ d in
  let N := 2 * n + 1 in
  let m := length Ms + length (unique_commitment_indices mp) in
  let q := length vals in
  let E := fun gs => copy_extractor vals tr (gG n gs) (gH n gs) (gQ n gs) n d Ms sets mp (msgs gs) (rs gs) (Cs gs)
                       (cw gs) (c1' gs) (c2 gs) (cr gs) (msg gs) (fin gs) (w' gs) (u gs) in
  let K := 6 + d in
  NoDup vals -> (forall v, In v vals) -> X = (x *: B)%P ->
  3 <= n -> (N.of_nat n < 65536)%N -> (ws < 65536)%N -> (N.of_nat (length sets) <= 65536)%N ->
  Forall (rect (n - 2) (n - 2)) Ms ->
  (forall s i, In s sets -> In i s -> 1 <= N.to_nat i < n - 2) -> Forall (@NoDup BinNums.N) sets ->
  compute_mapping (N.of_nat n) ws sets = Ok mp -> m <= n ->
  (forall gs, length gs = N -> length (Cs gs) = length sets /\
     (forall k, k < length sets -> commit (gG n gs) (nth k sets []) (nth k (msgs gs) []) (sc (rs gs) k) = Ok (pt (Cs gs) k)) /\
     length (w' gs) = n /\ sc (w' gs) 0 = s1 /\ decompress (cw gs) = Some (comb (w' gs) (gG n gs)) /\
     (forall a0 x, length (u gs a0 x) = n /\ decompress (c2 gs a0 x) = Some (comb (u gs a0 x) (gH n gs))) /\
     ~ ((forall M, In M Ms -> quad M (firstn (n - 2) (w' gs)) = s0) /\
        (forall k j, k < length sets -> j < length (nth k sets []) ->
           exists mm, nth_error (msgs_map mp) (cm_offset sets k + j) = Some mm /\
             sc (nth k (msgs gs) []) j = sc (w' gs) (mpos mm)) /\
        (forall s i, In s sets -> In i s -> sc (w' gs) (N.to_nat i) = s0))) ->
  total2 vals N (fun r s => let gs := gens B X N r s in
      count (copy_yes tr (gG n gs) (gH n gs) (gQ n gs) Ms mp (Cs gs) (cw gs) (c1' gs) (c2 gs) (cr gs) (msg gs) (fin gs)) (words vals K)) <=
    total2 vals N (fun r s => count (solves E rel_opt B X N r s) (choices vals K)) +
    q ^ K * (q ^ N * q ^ (N - 1)) + q ^ N * q ^ N * ((2 * length sets + m + n + 4 + 3 * d) * q ^ (5 + d)) /\
  total2 vals N (fun r s => total (fun o => snd (E (gens B X N r s) o)) (choices vals K)) <=
    q ^ N * q ^ N * (27 * S (2 * length sets) * S m * n ^ 3 * q ^ K).
Proof.
  intros n N m q E K HN HA HX Hn Hn2 Hws Hsets HR Hidx Hnd Hmp Hm HW.
  assert (X0 : length (choices vals K) = q ^ K) by (unfold choices; now rewrite words_count, seq_length).
  assert (HE : forall gs, length gs = N -> _) by (intros gs Hgs; destruct (HW gs Hgs) as (V1 & V2 & W1 & W2 & W3 & W4 & _);
    exact (C86_copy_extractor vals tr (gG n gs) (gH n gs) (gQ n gs) n d Ms ws sets mp (msgs gs) (rs gs) (Cs gs)
      (cw gs) (c1' gs) (c2 gs) (cr gs) (msg gs) (fin gs) (w' gs) (u gs)
      HN eq_refl Hn Hn2 Hws Hsets (gG_length n gs Hgs) (gH_length n gs Hgs) HR Hidx Hnd Hmp Hm V1 V2 W1 W2 W3 W4)).
  cbv zeta in HE.
  destruct (extract_or_solve E rel_opt vals B X x N
             (fun gs => count (copy_yes tr (gG n gs) (gH n gs) (gQ n gs) Ms mp (Cs gs) (cw gs) (c1' gs) (c2 gs) (cr gs) (msg gs) (fin gs)) (words vals K))
             (choices vals K) (q ^ K) ((2 * length sets + m + n + 4 + 3 * d) * q ^ (5 + d)) (27 * S (2 * length sets) * S m * n ^ 3 * q ^ K)) as [R1 R2]; auto.
  { intros gs Hgs. destruct (HE gs Hgs) as (H1 & H2 & H3). split; [|split; [exact H2|exact H3]].
    intros o [[[g h] r]|] cc _ Ee Er; [|discriminate]. injection Er as <-. apply nontrivial_is_relation; auto. exact (H1 o _ Ee). }
  split; [|exact R2]. etransitivity; [exact R1|]. do 2 apply Nat.add_le_mono_r.
  assert (Z : total2 vals N (fun r s => count (wins E rel_opt (gens B X N r s)) (choices vals K)) = 0); [|now rewrite Z].
  apply Nat.le_0_r. etransitivity; [apply (total2_le _ _ _ (fun _ _ => 0))|rewrite total2_const; lia].
  intros r s. rewrite count_none; [lia|]. intros o _. unfold wins. set (gs := gens B X N r s).
  assert (Hgs : length gs = N) by apply gens_length. destruct (HE gs Hgs) as (H1 & _). specialize (H1 o). fold (E gs) in H1.
  destruct (fst (E gs o)) as [[[[g h] r']|]|]; auto. exfalso. specialize (H1 _ eq_refl). cbv beta iota in H1.
  destruct (HW gs Hgs) as (_ & _ & _ & _ & _ & _ & Hq). exact (Hq H1).
Qed.
End C87.

(** ** Concrete cases *)
(** over Z/1009 with X = 5 B: the generators 3 B + 2 X = 13, B + 4 X = 21, 7 B + X = 12 satisfy
    13 * 3 - 21 * 3 + 12 * 2 = 0, and the relation (3, -3, 2) gives 5 *)
Example C87_case_relation :
  let g := @gens FS (qN 1) (qN 5) 3 [fN 3; fN 1; fN 7] [fN 2; fN 4; fN 1] in
  map zq g = [13; 21; 12]%Z /\ @relationb FS 3 [fN 3; fN (-3); fN 2] g = true /\
  zf (dlog [fN 3; fN 1; fN 7] [fN 2; fN 4; fN 1] [fN 3; fN (-3); fN 2]) = 5%Z.
Proof. vm_compute. auto. Qed.
(** over Z/3 with X = 2 B and two generators the bound is tight: a finder that always succeeds
    gives the logarithm in 54 of the 81 cases, and 81 = 54 + 3^2 * 3^1 *)
Definition F3 : Crypto := fp_crypto 3 1.
Definition finder3 (gs : list (@Point F3)) : list (@Scalar F3) :=
  if peqb (nth 0 gs p0) p0 then [s1; s0] else if peqb (nth 1 gs p0) p0 then [s0; s1] else
  if peqb (nth 0 gs p0) (nth 1 gs p0) then [s1; sopp s1] else [s1; s1].
Example C87_case_tight :
  let vals : list (@Scalar F3) := [s0; s1; sadd s1 s1] in
  let B : @Point F3 := vtab 3 1 (fun _ => fp 3 1) in
  let X := padd B B in
  count2 vals 2 (fun r s => relationb 2 (finder3 (gens B X 2 r s)) (gens B X 2 r s)) = 81 /\
  count2 vals 2 (fun r s => peqb (pmul (dlog r s (finder3 (gens B X 2 r s))) B) X) = 54.
Proof. vm_compute. auto. Qed.
