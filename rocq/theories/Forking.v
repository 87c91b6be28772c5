(** The counting form of rewinding: a test on words that succeeds on enough of
    them succeeds on all leaves of a tree with prescribed branching. *)
From Coq Require Import String.
From Verif Require Export Count QesaSpec LmpaSpec Vec.
From Coq Require Import List Arith Lia.
Local Open Scope nat_scope.
Local Open Scope list_scope.
Import ListNotations.

Section Fork.
Context {A : Type}.

(** k_1 different first letters, for each of them k_2 different second letters, ...;
    every word obtained passes the test *)
Fixpoint has_tree (vals : list A) (ks : list nat) (ok : list A -> bool) : Prop :=
  match ks with
  | [] => ok [] = true
  | k :: ks => exists vs, NoDup vs /\ length vs = k /\ incl vs vals /\
                 forall v, In v vs -> has_tree vals ks (fun w => ok (v :: w))
  end.

Definition slack (ks : list nat) : nat := list_sum (map pred ks).

Lemma fork_step (vals : list A) (c : A -> nat) lo hi k : 1 <= k -> NoDup vals ->
  (forall v, c v <= hi) ->
  (k - 1) * hi + length vals * lo < list_sum (map c vals) ->
  exists vs, NoDup vs /\ length vs = k /\ incl vs vals /\ forall v, In v vs -> lo < c v.
Proof.
  intros Hk HN Hc HS. set (g := filter (fun v => lo <? c v) vals).
  destruct (le_lt_dec k (length g)) as [Hg|Hg].
  - exists (firstn k g).
    assert (HI : forall v, In v (firstn k g) -> In v g).
    { intros v Hv. rewrite <- (firstn_skipn k g). apply in_or_app. now left. }
    split; [|split; [|split]].
    + assert (X : NoDup g) by (apply NoDup_filter; auto).
      rewrite <- (firstn_skipn k g) in X. clear -X. induction (firstn k g) as [|a l IH]; [constructor|].
      cbn in X. inversion X as [|? ? X1 X2]; subst. constructor; auto. intros Z. apply X1. apply in_or_app. now left.
    + rewrite firstn_length. lia.
    + intros v Hv. apply HI in Hv. now apply filter_In in Hv.
    + intros v Hv. apply HI, filter_In in Hv as [_ Hv]. now apply Nat.ltb_lt.
  - exfalso.
    assert (B : list_sum (map c vals) <= length g * hi + length vals * lo).
    { unfold g. clear -Hc. induction vals as [|v vals IH]; [reflexivity|]. cbn [filter map length].
      change (list_sum (c v :: map c vals)) with (c v + list_sum (map c vals)). specialize (Hc v).
      destruct (lo <? c v) eqn:E; cbn [length]; [|apply Nat.ltb_ge in E]; lia. }
    assert (length g * hi <= (k - 1) * hi) by (apply Nat.mul_le_mono_r; lia). lia.
Qed.

Lemma fork (vals : list A) (ks : list nat) : NoDup vals -> Forall (fun k => 1 <= k) ks -> forall ok,
  slack ks * length vals ^ (length ks - 1) < count ok (words vals (length ks)) -> has_tree vals ks ok.
Proof.
  intros HN. induction 1 as [|k ks Hk Hks IH]; intros ok HC.
  - cbn in HC |- *. unfold count in HC. cbn in HC. destruct (ok []); auto. cbn in HC. lia.
  - cbn [length] in HC. rewrite count_words_S in HC.
    set (c := fun v => count (fun w => ok (v :: w)) (words vals (length ks))) in *.
    destruct (fork_step vals c (slack ks * length vals ^ (length ks - 1)) (length vals ^ length ks) k)
      as (vs & V1 & V2 & V3 & V4); auto.
    + intros v. unfold c. rewrite <- words_count. apply count_all.
    + eapply Nat.le_lt_trans; [|exact HC]. unfold slack. cbn [map]. 
      change (list_sum (pred k :: map pred ks)) with (pred k + slack ks).
      replace (S (length ks) - 1) with (length ks) by lia.
      assert (E : slack ks * length vals ^ length ks = length vals * (slack ks * length vals ^ (length ks - 1))).
      { destruct ks as [|k2 ks2]; [cbn; lia|].
        replace (length (k2 :: ks2)) with (S (length (k2 :: ks2) - 1)) at 1 by (cbn; lia).
        rewrite Nat.pow_succ_r'. lia. }
      rewrite Nat.mul_add_distr_r, E. replace (pred k) with (k - 1) by lia. reflexivity.
    + exists vs. split; [auto|]. split; [auto|]. split; [auto|]. intros v Hv. apply IH. now apply V4.
Qed.

Lemma pick3 (vs : list A) : NoDup vs -> length vs = 3 ->
  exists a b c, a <> b /\ a <> c /\ b <> c /\ In a vs /\ In b vs /\ In c vs.
Proof.
  intros HN HL. destruct vs as [|a [|b [|c [|e vs]]]]; try discriminate. exists a, b, c.
  inversion HN as [|? ? N1 N2]; subst. inversion N2 as [|? ? N3 N4]; subst. cbn in *.
  repeat split; try tauto; intros ->; tauto.
Qed.
End Fork.

(** ** Prover strategies: what is sent next is a function of the challenges seen so far *)
Section Strat.
Context {C : Crypto} {L : CryptoLaws C}.
Notation word := (list Scalar).

(** messages of the folding rounds, when the challenges [pre] have been seen and [w] follow *)
Fixpoint st_msgs {M} (msg : word -> M) (pre w : word) : list (M * Scalar) :=
  match w with
  | [] => []
  | x :: w => (msg pre, x) :: st_msgs msg (pre ++ [x]) w
  end.
(** the prover of the inner product argument *)
Definition st_LR (msg : word -> Compressed * Compressed) (pre w : word) : list (Compressed * Compressed) :=
  map fst (st_msgs msg pre w).
(** the same as a path of points *)
Definition st_path (msg : word -> Compressed * Compressed) (fin : word -> Scalar * Scalar) (pre w : word) : ipa_path :=
  (map (fun q : Compressed * Compressed * Scalar => (dec (fst (fst q)), dec (snd (fst q)), snd q)) (st_msgs msg pre w),
   fst (fin (pre ++ w)), snd (fin (pre ++ w))).

Lemma st_msgs_length {M} (msg : word -> M) pre w : length (st_msgs msg pre w) = length w.
Proof. revert pre; induction w as [|x w IH]; intros pre; cbn; auto. Qed.
Lemma st_msgs_snd {M} (msg : word -> M) pre w : map snd (st_msgs msg pre w) = w.
Proof. revert pre; induction w as [|x w IH]; intros pre; cbn; [auto|now rewrite IH]. Qed.
Lemma st_LR_length msg pre w : length (st_LR msg pre w) = length w.
Proof. unfold st_LR. now rewrite map_length, st_msgs_length. Qed.

Lemma st_path_cons msg fin pre x w :
  st_path msg fin pre (x :: w) = path_cons (dec (fst (msg pre))) (dec (snd (msg pre))) x (st_path msg fin (pre ++ [x]) w).
Proof. unfold st_path, path_cons. cbn. now rewrite <- app_assoc. Qed.

(** the path p is the run of the strategy on some continuation of length d that passes *)
Definition run_of msg fin (d : nat) (pre : word) (ok : word -> bool) (p : ipa_path) : Prop :=
  exists w, length w = d /\ ok w = true /\ p = st_path msg fin pre w.

Lemma build_tree msg fin vals d : forall pre ok, has_tree vals (repeat 4 d) ok ->
  exists T, distinct_challenges T /\ forall p, In p (paths T) -> run_of msg fin d pre ok p.
Proof.
  induction d as [|d IH]; intros pre ok HT; cbn [repeat has_tree] in HT.
  - exists (Leaf (fst (fin pre)) (snd (fin pre))). split; [exact I|]. intros p [<-|[]].
    exists []. split; auto. split; auto. unfold st_path. cbn. now rewrite app_nil_r.
  - destruct HT as (vs & HN & HL & _ & HV).
    destruct vs as [|x1 [|x2 [|x3 [|x4 [|? ?]]]]]; try discriminate.
    assert (K : forall x, In x [x1; x2; x3; x4] -> exists T, distinct_challenges T /\
       forall p, In p (map (path_cons (dec (fst (msg pre))) (dec (snd (msg pre))) x) (paths T)) -> run_of msg fin (S d) pre ok p).
    { intros x Hx. destruct (IH (pre ++ [x]) _ (HV x Hx)) as (T & T1 & T2). exists T. split; auto.
      intros p Hp. apply in_map_iff in Hp as (p' & <- & Hp). destruct (T2 p' Hp) as (w & W1 & W2 & ->).
      exists (x :: w). split; [cbn; auto|]. split; auto. now rewrite st_path_cons. }
    destruct (K x1) as (T1 & D1 & P1); [cbn; auto|]. destruct (K x2) as (T2 & D2 & P2); [cbn; auto|].
    destruct (K x3) as (T3 & D3 & P3); [cbn; auto|]. destruct (K x4) as (T4 & D4 & P4); [cbn; auto|].
    exists (Node (dec (fst (msg pre))) (dec (snd (msg pre))) x1 T1 x2 T2 x3 T3 x4 T4). split; [cbn; auto|].
    intros p. cbn [paths]. rewrite !in_app_iff. intros [Hp|[Hp|[Hp|Hp]]]; auto.
Qed.

Lemma build_alpha msg fin vals d pre ok : has_tree vals (3 :: repeat 4 d) ok ->
  exists B, good_trees B /\
    all_paths B (fun al p => run_of msg fin d (pre ++ [al]) (fun w => ok (al :: w)) p).
Proof.
  intros (vs & HN & HL & _ & HV).
  assert (K : exists a a', a <> s0 /\ a' <> s0 /\ a <> a' /\ In a vs /\ In a' vs).
  { destruct (pick3 vs HN HL) as (a & b & c & D1 & D2 & D3 & I1 & I2 & I3).
    destruct (S_eq_dec a s0) as [->|]; [exists b, c; repeat split; auto|].
    destruct (S_eq_dec b s0) as [->|]; [exists a, c; repeat split; auto|].
    exists a, b. repeat split; auto. }
  destruct K as (a & a' & N1 & N2 & N3 & I1 & I2).
  destruct (build_tree msg fin vals d (pre ++ [a]) _ (HV a I1)) as (T & T1 & T2).
  destruct (build_tree msg fin vals d (pre ++ [a']) _ (HV a' I2)) as (T' & T1' & T2').
  exists (mkAT a T a' T'). split; [repeat split; auto|]. split; cbn; auto.
Qed.

Lemma build_beta msg fin vals d pre ok cr : has_tree vals (3 :: 3 :: repeat 4 d) ok ->
  exists B, bt_Cr B = cr /\ good_beta B /\
    beta_paths B (fun cr' be al p => cr' = cr /\ run_of msg fin d (pre ++ [be; al]) (fun w => ok (be :: al :: w)) p).
Proof.
  intros (vs & HN & HL & _ & HV).
  destruct (pick3 vs HN HL) as (a & b & c & D1 & D2 & D3 & I1 & I2 & I3).
  assert (K : forall v, In v vs -> exists B, good_trees B /\
     all_paths B (fun al p => cr = cr /\ run_of msg fin d (pre ++ [v; al]) (fun w => ok (v :: al :: w)) p)).
  { intros v Hv. destruct (build_alpha msg fin vals d (pre ++ [v]) _ (HV v Hv)) as (B & G1 & P1 & P2).
    exists B. split; auto. split; intros p Hp; (split; [auto|]); [apply P1 in Hp|apply P2 in Hp];
      rewrite <- app_assoc in Hp; exact Hp. }
  destruct (K a I1) as (B1 & G1 & P1). destruct (K b I2) as (B2 & G2 & P2). destruct (K c I3) as (B3 & G3 & P3).
  exists (mkBT cr a B1 b B2 c B3). split; [auto|]. split; [repeat split; cbn; try apply G1; try apply G2; try apply G3; auto|].
  split; [|split]; cbn [bt_B1 bt_B2 bt_B3 bt_Cr bt_b1 bt_b2 bt_b3]; auto.
Qed.

(** a function on a finite list of arguments, chosen argument by argument *)
Lemma list_choice {X Y} (R : X -> Y -> Prop) (l : list X) : (forall x, In x l -> exists y, R x y) ->
  exists l', map fst l' = l /\ forall x y, In (x, y) l' -> R x y.
Proof.
  induction l as [|x l IH]; intros H.
  - exists []. split; auto. intros ? ? [].
  - destruct (H x (or_introl eq_refl)) as [y Hy]. destruct IH as (l' & E & HR); [intros z Hz; apply H; now right|].
    exists ((x, y) :: l'). split; [cbn; now f_equal|]. intros a b [E2|Hb]; [injection E2 as <- <-; auto|auto].
Qed.

Lemma beta_paths_impl B (P1 P2 : Compressed -> Scalar -> Scalar -> ipa_path -> Prop) :
  (forall c be al p, P1 c be al p -> P2 c be al p) -> beta_paths B P1 -> beta_paths B P2.
Proof. intros H [[X1 X2] [[X3 X4] [X5 X6]]]. repeat split; intros p Hp; apply H; auto. Qed.

Lemma build_sb msg fin vals d n pre ok (cr : word -> Compressed) : has_tree vals (n - 1 :: 3 :: 3 :: 3 :: repeat 4 d) ok ->
  exists T, good_sb n T /\
    sb_paths T (fun s b cr' be al p => cr' = cr (pre ++ [s; b]) /\
                  run_of msg fin d (pre ++ [s; b; be; al]) (fun w => ok (s :: b :: be :: al :: w)) p).
Proof.
  intros (vs & HN & HL & _ & HV).
  set (leafok := fun s b B => bt_Cr B = cr (pre ++ [s; b]) /\ good_beta B /\
    beta_paths B (fun cr' be al p => cr' = cr (pre ++ [s; b]) /\
                  run_of msg fin d (pre ++ [s; b; be; al]) (fun w => ok (s :: b :: be :: al :: w)) p)).
  destruct (list_choice (fun s (l : list (Scalar * beta_trees)) => length l = 3 /\ NoDup (map fst l) /\
      forall b B, In (b, B) l -> leafok s b B) vs) as (T & ET & HT).
  { intros s Hs. destruct (HV s Hs) as (us & UN & UL & _ & UV).
    destruct (list_choice (leafok s) us) as (l & El & Hl).
    { intros b Hb. destruct (build_beta msg fin vals d (pre ++ [s; b]) (fun w => ok (s :: b :: w)) (cr (pre ++ [s; b])) (UV b Hb))
        as (B & B1 & B2 & B3).
      exists B. split; [exact B1|]. split; [exact B2|]. revert B3. apply beta_paths_impl.
      intros c be al p [E R]. split; auto. now rewrite <- app_assoc in R. }
    exists l. split; [rewrite <- (map_length fst), El; auto|]. split; [now rewrite El|]. exact Hl. }
  exists T.
  assert (HL2 : forall s b B, In (s, b, B) (sb_leaves T) -> leafok s b B).
  { intros s b B HI. unfold sb_leaves in HI. apply in_flat_map in HI as ([s' l] & H1 & H2).
    apply in_map_iff in H2 as ([b' B'] & E & H2). injection E as -> -> ->. now apply (HT s l H1). }
  split; [split; [|split; [|split]]|].
  - rewrite <- (map_length fst), ET. lia.
  - now rewrite ET.
  - intros s l HI. destruct (HT s l HI) as (X & Y & _). split; auto. lia.
  - intros s b B HI. apply HL2 in HI; apply HI.
  - intros s b B HI. apply HL2 in HI. apply HI.
Qed.

(** *** the prover of the linear-map argument *)
Definition st_lm (msg : word -> list Point * list Point) (fin : word -> Scalar) (pre w : word) : lm_path :=
  (st_msgs msg pre w, fin (pre ++ w)).
Lemma build_lm msg fin vals d : forall pre ok, has_tree vals (repeat 3 d) ok ->
  exists T, lm_good d T /\ forall p, In p (lm_paths T) -> exists w, length w = d /\ ok w = true /\ p = st_lm msg fin pre w.
Proof.
  induction d as [|d IH]; intros pre ok HT; cbn [repeat has_tree] in HT.
  - exists (LLeaf (fin pre)). split; [exact I|]. intros p [<-|[]]. exists []. unfold st_lm. cbn. now rewrite app_nil_r.
  - destruct HT as (vs & HN & HL & _ & HV).
    destruct vs as [|x1 [|x2 [|x3 [|? ?]]]]; try discriminate.
    assert (K : forall x, In x [x1; x2; x3] -> exists T, lm_good d T /\
       forall p, In p (map (lm_path_cons (fst (msg pre)) (snd (msg pre)) x) (lm_paths T)) ->
         exists w, length w = S d /\ ok w = true /\ p = st_lm msg fin pre w).
    { intros x Hx. destruct (IH (pre ++ [x]) _ (HV x Hx)) as (T & T1 & T2). exists T. split; auto.
      intros p Hp. apply in_map_iff in Hp as (p' & <- & Hp). destruct (T2 p' Hp) as (w & W1 & W2 & ->).
      exists (x :: w). split; [cbn; auto|]. split; auto. unfold st_lm, lm_path_cons. cbn. rewrite <- app_assoc.
      now destruct (msg pre). }
    destruct (K x1) as (T1 & D1 & P1); [cbn; auto|]. destruct (K x2) as (T2 & D2 & P2); [cbn; auto|].
    destruct (K x3) as (T3 & D3 & P3); [cbn; auto|].
    exists (LNode (fst (msg pre)) (snd (msg pre)) x1 T1 x2 T2 x3 T3). split; [cbn; auto|].
    intros p. cbn [lm_paths]. rewrite !in_app_iff. intros [Hp|[Hp|Hp]]; auto.
Qed.
End Strat.
