(** C86: knowledge extractors that rewind the prover. The prover is a black box (its messages are
    arbitrary functions of the challenges seen so far); the extractor runs it several times with
    challenges of its choice and computes a witness or a relation between the generators from the
    answers. Counted over the extractor's random choices: it makes a bounded number of runs on
    average and succeeds nearly as often as the prover. *)
From Coq Require Import String.
From Verif Require Export Rewind PropForking.
From Verif Require Import Poly KaryFacts CopyFacts PropMapping PropCopy PropCopySound Ex ExSmall.
Local Open Scope string_scope.
Local Open Scope nat_scope.
Local Open Scope list_scope.

Section C86.
Context {C : Crypto} {L : CryptoLaws C}.
Notation word := (list Scalar).

(** ** the words collected, as the trees of the extractors of C16, C20, C24, C37, C42, C64 *)
Fixpoint w_ipa (msg : word -> Compressed * Compressed) (fin : word -> Scalar * Scalar) (d : nat) (pre : word) (t : wtree Scalar) : ipa_tree :=
  match d with
  | O => Leaf (fst (fin pre)) (snd (fin pre))
  | S d =>
    match t with
    | WNode [(x1, t1); (x2, t2); (x3, t3); (x4, t4)] =>
      let f x := w_ipa msg fin d (pre ++ [x]) in
      Node (dec (fst (msg pre))) (dec (snd (msg pre))) x1 (f x1 t1) x2 (f x2 t2) x3 (f x3 t3) x4 (f x4 t4)
    | _ => Leaf s0 s0
    end
  end.
Definition nonzero {T} (q : list (Scalar * T)) : list (Scalar * T) := filter (fun '(x, _) => negb (seqb x s0)) q.
Definition w_alpha msg fin d pre (t : wtree Scalar) : alpha_trees :=
  let 'WNode q := t in
  match nonzero q with
  | (a, t1) :: (a', t2) :: _ => mkAT a (w_ipa msg fin d (pre ++ [a]) t1) a' (w_ipa msg fin d (pre ++ [a']) t2)
  | _ => mkAT s0 (Leaf s0 s0) s0 (Leaf s0 s0)
  end.
Definition w_beta msg fin d pre (cr : Compressed) (t : wtree Scalar) : beta_trees :=
  match t with
  | WNode [(b1, t1); (b2, t2); (b3, t3)] =>
    let f b := w_alpha msg fin d (pre ++ [b]) in mkBT cr b1 (f b1 t1) b2 (f b2 t2) b3 (f b3 t3)
  | _ => let z := mkAT s0 (Leaf s0 s0) s0 (Leaf s0 s0) in mkBT cr s0 z s0 z s0 z
  end.
Definition w_sb msg fin d pre (cr : word -> Compressed) (t : wtree Scalar) : sb_trees :=
  let 'WNode q := t in
  map (fun '(s, WNode q') => (s, map (fun '(b, t) => (b, w_beta msg fin d (pre ++ [s; b]) (cr (pre ++ [s; b])) t)) q')) q.

Lemma w_ipa_good msg fin vals d : forall pre ok t, wgood vals (repeat 4 d) ok t ->
  distinct_challenges (w_ipa msg fin d pre t) /\ forall p, In p (paths (w_ipa msg fin d pre t)) -> run_of msg fin d pre ok p.
Proof.
  induction d as [|d IH]; intros pre ok t HT; cbn [repeat wgood] in HT.
  - cbn. split; [exact I|]. intros p [<-|[]]. exists []. split; auto. split; auto. unfold st_path. cbn. now rewrite app_nil_r.
  - destruct t as [q]. destruct HT as (HL & HN & _ & HV).
    destruct q as [|[x1 t1] [|[x2 t2] [|[x3 t3] [|[x4 t4] [|? ?]]]]]; try discriminate. cbn [w_ipa map fst] in *.
    assert (K : forall x t, In (x, t) [(x1, t1); (x2, t2); (x3, t3); (x4, t4)] ->
       distinct_challenges (w_ipa msg fin d (pre ++ [x]) t) /\
       forall p, In p (map (path_cons (dec (fst (msg pre))) (dec (snd (msg pre))) x) (paths (w_ipa msg fin d (pre ++ [x]) t))) ->
         run_of msg fin (S d) pre ok p).
    { intros x t Hx. destruct (IH (pre ++ [x]) _ t (HV x t Hx)) as [T1 T2]. split; auto.
      intros p Hp. apply in_map_iff in Hp as (p' & <- & Hp). destruct (T2 p' Hp) as (w & W1 & W2 & ->).
      exists (x :: w). split; [cbn; auto|]. split; auto. now rewrite st_path_cons. }
    destruct (K x1 t1) as [D1 P1]; [cbn; auto|]. destruct (K x2 t2) as [D2 P2]; [cbn; auto|].
    destruct (K x3 t3) as [D3 P3]; [cbn; auto|]. destruct (K x4 t4) as [D4 P4]; [cbn; auto 6|].
    split; [cbn; auto|]. intros p. cbn [paths]. rewrite !in_app_iff. intros [Hp|[Hp|[Hp|Hp]]]; auto.
Qed.

Lemma nonzero_In {T} (q : list (Scalar * T)) x t : In (x, t) (nonzero q) <-> In (x, t) q /\ x <> s0.
Proof.
  unfold nonzero. rewrite filter_In. split; intros [H1 H2]; (split; [auto|]).
  - intros ->. assert (E : seqb s0 s0 = true) by now apply seqb_eq. rewrite E in H2. discriminate.
  - destruct (seqb x s0) eqn:E; [apply seqb_eq in E; contradiction|reflexivity].
Qed.
Lemma nonzero_NoDup {T} (q : list (Scalar * T)) : NoDup (map fst q) -> NoDup (map fst (nonzero q)).
Proof.
  induction q as [|[x t] q IH]; intros HN; [constructor|]. cbn in HN. inversion HN as [|? ? N1 N2]; subst. cbn [nonzero filter].
  destruct (seqb x s0); cbn [negb]; [auto|]. cbn. constructor; auto. intros Z. apply N1.
  apply in_map_iff in Z as ([y t'] & <- & Z). apply nonzero_In in Z as [Z _]. now apply (in_map fst) in Z.
Qed.
Lemma nonzero_length {T} (q : list (Scalar * T)) : NoDup (map fst q) -> length q <= S (length (nonzero q)).
Proof.
  induction q as [|[x t] q IH]; intros HN; [cbn; lia|]. cbn in HN. inversion HN as [|? ? N1 N2]; subst. cbn [nonzero filter].
  destruct (seqb x s0) eqn:E; cbn [negb length]; [|specialize (IH N2); unfold nonzero in IH; lia].
  apply seqb_eq in E. subst x. assert (X : nonzero q = q); [|unfold nonzero in X; rewrite X; lia].
  clear -N1 L. induction q as [|[y t] q IH]; [reflexivity|]. cbn [nonzero filter].
  destruct (seqb y s0) eqn:E; [apply seqb_eq in E; subst y; exfalso; apply N1; now left|]. cbn [negb]. f_equal. apply IH.
  intros Z. apply N1. now right.
Qed.

Lemma w_alpha_good msg fin vals d pre ok t : wgood vals (3 :: repeat 4 d) ok t ->
  good_trees (w_alpha msg fin d pre t) /\
  all_paths (w_alpha msg fin d pre t) (fun al p => run_of msg fin d (pre ++ [al]) (fun w => ok (al :: w)) p).
Proof.
  destruct t as [q]. intros (HL & HN & _ & HV). cbn [w_alpha].
  assert (X1 := nonzero_length q HN). assert (X2 := nonzero_NoDup q HN). rewrite HL in X1.
  assert (X3 := fun x t => proj1 (nonzero_In q x t)).
  destruct (nonzero q) as [|[a t1] [|[a' t2] r]]; [cbn in X1; lia|cbn in X1; lia|].
  destruct (X3 a t1) as [I1 N1]; [now left|]. destruct (X3 a' t2) as [I2 N2]; [right; now left|].
  destruct (w_ipa_good msg fin vals d (pre ++ [a]) _ t1 (HV a t1 I1)) as [D1 P1].
  destruct (w_ipa_good msg fin vals d (pre ++ [a']) _ t2 (HV a' t2 I2)) as [D2 P2].
  split; [|split; cbn; auto]. split; [exact N1|]. split; [exact N2|]. split; [|auto].
  cbn in X2 |- *. inversion X2 as [|? ? M1 _]; subst. intros ->. apply M1. now left.
Qed.
Lemma w_beta_good msg fin vals d pre ok cr t : wgood vals (3 :: 3 :: repeat 4 d) ok t ->
  good_beta (w_beta msg fin d pre cr t) /\
  beta_paths (w_beta msg fin d pre cr t)
    (fun cr' be al p => cr' = cr /\ run_of msg fin d (pre ++ [be; al]) (fun w => ok (be :: al :: w)) p).
Proof.
  destruct t as [q]. intros (HL & HN & _ & HV). destruct q as [|[b1 t1] [|[b2 t2] [|[b3 t3] [|? ?]]]]; try discriminate.
  cbn [w_beta map fst] in *.
  assert (K : forall b t, In (b, t) [(b1, t1); (b2, t2); (b3, t3)] ->
    good_trees (w_alpha msg fin d (pre ++ [b]) t) /\
    all_paths (w_alpha msg fin d (pre ++ [b]) t) (fun al p => cr = cr /\ run_of msg fin d (pre ++ [b; al]) (fun w => ok (b :: al :: w)) p)).
  { intros b t Hb. destruct (w_alpha_good msg fin vals d (pre ++ [b]) _ t (HV b t Hb)) as (G1 & P1 & P2).
    split; auto. split; intros p Hp; (split; [auto|]); [apply P1 in Hp|apply P2 in Hp]; rewrite <- app_assoc in Hp; exact Hp. }
  destruct (K b1 t1) as [G1 P1]; [cbn; auto|]. destruct (K b2 t2) as [G2 P2]; [cbn; auto|]. destruct (K b3 t3) as [G3 P3]; [cbn; auto|].
  inversion HN as [|? ? M1 HN2]; subst. inversion HN2 as [|? ? M2 _]; subst. cbn in M1, M2.
  split; [|split; [|split]; cbn; auto].
  unfold good_beta. cbn [bt_b1 bt_b2 bt_b3 bt_B1 bt_B2 bt_B3].
  split; [intros ->; apply M1; now left|]. split; [intros ->; apply M1; right; now left|]. split; [intros ->; apply M2; now left|]. auto.
Qed.
Lemma w_sb_good msg fin vals d n pre ok cr t : wgood vals (n - 1 :: 3 :: 3 :: 3 :: repeat 4 d) ok t ->
  good_sb n (w_sb msg fin d pre cr t) /\
  sb_paths (w_sb msg fin d pre cr t) (fun s b cr' be al p => cr' = cr (pre ++ [s; b]) /\
     run_of msg fin d (pre ++ [s; b; be; al]) (fun w => ok (s :: b :: be :: al :: w)) p).
Proof.
  destruct t as [q]. intros (HL & HN & _ & HV).
  assert (K : forall s b B, In (s, b, B) (sb_leaves (w_sb msg fin d pre cr (WNode q))) -> good_beta B /\
    beta_paths B (fun cr' be al p => cr' = cr (pre ++ [s; b]) /\ run_of msg fin d (pre ++ [s; b; be; al]) (fun w => ok (s :: b :: be :: al :: w)) p)).
  { intros s b B HI. unfold sb_leaves in HI. apply in_flat_map in HI as ([s' l] & H1 & H2).
    apply in_map_iff in H2 as ([b' B'] & E & H2). injection E as -> -> ->.
    cbn [w_sb] in H1. apply in_map_iff in H1 as ([s' [q']] & E & H1). injection E as -> <-.
    apply in_map_iff in H2 as ([b' t] & E & H2). injection E as -> <-.
    destruct (HV s _ H1) as (_ & _ & _ & HW).
    destruct (w_beta_good msg fin vals d (pre ++ [s; b]) (fun w => ok (s :: b :: w)) (cr (pre ++ [s; b])) t (HW b t H2)) as [B1 B2].
    split; [exact B1|]. revert B2. apply beta_paths_impl. intros c be al p [E R]. split; auto. now rewrite <- app_assoc in R. }
  assert (E0 : map fst (w_sb msg fin d pre cr (WNode q)) = map fst q).
  { cbn [w_sb]. rewrite map_map. apply map_ext. now intros [s [q']]. }
  split; [split; [|split; [|split]]|].
  - rewrite <- (map_length fst), E0, map_length. lia.
  - now rewrite E0.
  - intros s l HI. cbn [w_sb] in HI. apply in_map_iff in HI as ([s' [q']] & E & HI). injection E as -> <-.
    destruct (HV s _ HI) as (H1 & H2 & _). rewrite map_length, H1. split; [lia|].
    rewrite map_map. erewrite map_ext; [exact H2|]. now intros [b t].
  - intros s b B HI. now apply K in HI.
  - intros s b B HI. now apply K in HI.
Qed.

(** ** what is counted: [o] ranges over all random choices of the extractor, one number below
    [length vals] per round *)
Definition choices (vals : list Scalar) (k : nat) : list (list nat) := words (seq 0 (length vals)) k.
Definition after {X Y} (f : X -> Y) (r : option X * nat) : option Y * nat := (option_map f (fst r), snd r).

Lemma after_found {X Y} (f : X -> Y) r : found (after f r) = found r.
Proof. destruct r as [[x|] c]; reflexivity. Qed.
Lemma after_Some {X Y} (f : X -> Y) r y : fst (after f r) = Some y -> exists x, fst r = Some x /\ y = f x.
Proof. destruct r as [[x|] c]; cbn; [injection 1 as <-; eauto|discriminate]. Qed.

Lemma prodn_repeat ks k d : prodn (ks ++ repeat k d) = prodn ks * k ^ d.
Proof.
  unfold prodn. induction ks as [|j ks IH]; cbn [app fold_right].
  - induction d as [|d IHd]; [reflexivity|]. cbn [repeat fold_right]. rewrite IHd, Nat.pow_succ_r'. lia.
  - rewrite IH. lia.
Qed.
(** runs made and choices that succeed, for branching ks followed by d times S k *)
Lemma rewind_counts {Y} vals ks k d ok (f : wtree Scalar -> Y) s c : Forall (fun k => 1 <= k) ks ->
  slack ks + k * d <= s -> prodn ks * (S k) ^ d <= c ->
  let E := fun o => after f (rewind vals (ks ++ repeat (S k) d) ok o) in
  count ok (words vals (length ks + d)) <= count (fun o => found (E o)) (choices vals (length ks + d)) + s * length vals ^ pred (length ks + d) /\
  total (fun o => snd (E o)) (choices vals (length ks + d)) <= c * length vals ^ (length ks + d).
Proof.
  intros HF Hs Hc E.
  assert (HF' : Forall (fun k => 1 <= k) (ks ++ repeat (S k) d)).
  { apply Forall_app. split; auto. apply Forall_forall. intros j Hj. apply repeat_spec in Hj. lia. }
  assert (Hl : length (ks ++ repeat (S k) d) = length ks + d) by (rewrite app_length, repeat_length; reflexivity).
  assert (X := rewind_often vals _ HF' ok). assert (Y' := rewind_runs vals _ HF' ok).
  rewrite Hl, slack_repeat, Nat.sub_1_r in X. rewrite Hl, prodn_repeat in Y'. fold (choices vals (length ks + d)) in X, Y'. split.
  - etransitivity; [exact X|]. apply Nat.add_le_mono; [|now apply Nat.mul_le_mono_r].
    apply Nat.eq_le_incl. apply count_ext. intros o _. unfold E. now rewrite after_found.
  - etransitivity; [exact Y'|]. now apply Nat.mul_le_mono_r.
Qed.
Lemma rewind_wgood (vals : list Scalar) ks k d ok o t : NoDup vals -> Forall (fun k => 1 <= k) ks ->
  fst (rewind vals (ks ++ repeat (S k) d) ok o) = Some t -> wgood vals (ks ++ repeat (S k) d) ok t.
Proof.
  intros HN HF. apply rewind_good; auto. apply Forall_app. split; auto. apply Forall_forall. intros j Hj. apply repeat_spec in Hj. lia.
Qed.

(** ** inner product argument *)
Definition nozk_extractor vals tr G H Q d P t msg fin (o : list nat) : option extracted * nat :=
  after (fun T => trees_extract t (w_alpha msg fin d [] T)) 
    (rewind vals (3 :: repeat 4 d) (nozk_yes tr G H Q (2 ^ d) P t msg fin) o).
Theorem C86_nozk_extractor vals tr (G H : list Point) (Q P : Point) (t : Scalar) d msg fin :
  let E := nozk_extractor vals tr G H Q d P t msg fin in
  let q := length vals in
  NoDup vals -> length G = 2 ^ d -> length H = 2 ^ d ->
  (forall o e, fst (E o) = Some e ->
     match e with
     | Wit a b c => length a = 2 ^ d /\ length b = 2 ^ d /\ c = t /\
                    P = (comb a G + comb b H + t *: Q)%P /\ dotp a b = t
     | Rel g h q => nontrivial_relation (2 ^ d) G H Q g h q
     end) /\
  count (nozk_yes tr G H Q (2 ^ d) P t msg fin) (words vals (S d)) <=
    count (fun o => found (E o)) (choices vals (S d)) + (2 + 3 * d) * q ^ d /\
  total (fun o => snd (E o)) (choices vals (S d)) <= 3 * 4 ^ d * q ^ S d.
Proof.
  intros E q HN HG HH. split.
  - intros o e He. apply after_Some in He as (T & HT & ->).
    apply (rewind_wgood vals [3] 3) in HT; [|auto|repeat constructor].
    destruct (w_alpha_good msg fin vals d [] _ T HT) as ((N1 & N2 & N3 & D1 & D2) & P1 & P2).
    unfold trees_extract. apply (C16_nozk_special_soundness tr); auto.
    + intros p Hp. apply P1 in Hp as (w & _ & Y & ->). now apply nozk_yes_along.
    + intros p Hp. apply P2 in Hp as (w & _ & Y & ->). now apply nozk_yes_along.
  - apply (rewind_counts vals [3] 3 d (nozk_yes tr G H Q (2 ^ d) P t msg fin)
             (fun T => trees_extract t (w_alpha msg fin d [] T)) (2 + 3 * d) (3 * 4 ^ d)); [repeat constructor|cbn; lia|cbn; lia].
Qed.

(** ** almost-zk argument *)
Definition almzk_extractor vals tr G H Q d Cw t cr msg fin (o : list nat) : option extracted * nat :=
  after (fun T => beta_extract t (w_beta msg fin d [] cr T))
    (rewind vals (3 :: 3 :: repeat 4 d) (almzk_yes tr G H Q (2 ^ d) Cw t cr msg fin) o).
Theorem C86_almzk_extractor vals tr (G H : list Point) (Q Cw : Point) (t : Scalar) cr d msg fin :
  let E := almzk_extractor vals tr G H Q d Cw t cr msg fin in
  let q := length vals in
  NoDup vals -> length G = 2 ^ d -> length H = 2 ^ d ->
  (forall o e, fst (E o) = Some e ->
     match e with
     | Wit a b c => length a = 2 ^ d /\ length b = 2 ^ d /\ c = t /\ Cw = (comb a G + comb b H)%P /\ dotp a b = t
     | Rel g h q => nontrivial_relation (2 ^ d) G H Q g h q
     end) /\
  count (almzk_yes tr G H Q (2 ^ d) Cw t cr msg fin) (words vals (S (S d))) <=
    count (fun o => found (E o)) (choices vals (S (S d))) + (4 + 3 * d) * q ^ S d /\
  total (fun o => snd (E o)) (choices vals (S (S d))) <= 9 * 4 ^ d * q ^ S (S d).
Proof.
  intros E q HN HG HH. split.
  - intros o e He. apply after_Some in He as (T & HT & ->).
    apply (rewind_wgood vals [3; 3] 3) in HT; [|auto|repeat constructor].
    destruct (w_beta_good msg fin vals d [] _ cr T HT) as ((D1 & D2 & D3 & G1 & G2 & G3) & PB).
    unfold beta_extract. set (B := w_beta msg fin d [] cr T) in *.
    assert (K : beta_paths B (fun _ be al p => alm_accepts_along tr G H Q (2 ^ d) Cw t cr be al p)).
    { revert PB. apply beta_paths_impl. intros c be al p (_ & w & _ & Y & ->). now apply almzk_yes_along. }
    destruct K as (K1 & K2 & K3).
    now apply (C20_almzk_special_soundness tr G H Q Cw t (2 ^ d) cr).
  - apply (rewind_counts vals [3; 3] 3 d (almzk_yes tr G H Q (2 ^ d) Cw t cr msg fin)
             (fun T => beta_extract t (w_beta msg fin d [] cr T)) (4 + 3 * d) (9 * 4 ^ d)); [repeat constructor|cbn; lia|cbn; lia].
Qed.

(** ** QESA *)
(** a test for relations *)
Definition is_relation (n : nat) (G H : list Point) (Q : Point) (r : list Scalar * list Scalar * Scalar) : bool :=
  let '(g, h, q) := r in
  (length g =? n) && (length h =? n) && peqb (comb g G + comb h H + q *: Q)%P p0 &&
  negb (all_zero g && all_zero h && seqb q s0).
Lemma is_relation_ok n G H Q g h q : is_relation n G H Q (g, h, q) = true <-> nontrivial_relation n G H Q g h q.
Proof.
  unfold is_relation, nontrivial_relation. rewrite !andb_true_iff, !Nat.eqb_eq, peqb_eq, negb_true_iff. split.
  - intros (((E1 & E2) & E3) & E4). split; [exact E1|]. split; [exact E2|]. split; [exact E3|]. intros [Z1 Z2].
    assert (X : all_zero g && all_zero h && seqb q s0 = true); [|congruence].
    apply andb_true_intro. split; [|now apply seqb_eq]. apply andb_true_intro. split; apply all_zero_spec; intros i Hi; apply Z1; lia.
  - intros (E1 & E2 & E3 & E4). split; [auto|]. destruct (all_zero g && all_zero h && seqb q s0) eqn:E; [|reflexivity]. exfalso. apply E4.
    apply andb_true_iff in E as [E E5]. apply andb_true_iff in E as [E6 E7]. apply seqb_eq in E5. split; [|exact E5].
    intros i Hi. split; [apply (proj1 (all_zero_spec g) E6)|apply (proj1 (all_zero_spec h) E7)]; lia.
Qed.
Definition cat_some {X} (l : list (option X)) : list X := flat_map (fun o => match o with Some x => [x] | None => [] end) l.

(** for one x: an opening of c'_w + c''_w that satisfies the equation batched with x *)
Definition qesa_batched_extractor vals tr G H Q n d Ms c1 c2 cr msg fin x (o : list nat) : option extracted * nat :=
  after (fun T => q_extract n Ms x (w_sb msg fin d [x] cr T))
    (rewind vals (n - 1 :: 3 :: 3 :: 3 :: repeat 4 d) (fun u => qesa_yes tr G H Q Ms c1 c2 cr msg fin (x :: u)) o).
Theorem C86_qesa_batched_extractor vals tr (G H : list Point) (Q : Point) n d Ms c1 c2 cr msg fin x :
  let E := qesa_batched_extractor vals tr G H Q n d Ms c1 c2 cr msg fin x in
  let q := length vals in
  NoDup vals -> n = 2 ^ d -> 3 <= n -> length G = n -> length H = n -> 1 <= length Ms -> Forall (rect (n - 2) (n - 2)) Ms ->
  x <> s0 ->
  (forall o e, fst (E o) = Some e ->
     match e with
     | Wit v u _ =>
       length v = n /\ length u = n /\ (dec c1 + dec (c2 x))%P = (comb v G + comb u H)%P /\
       let w := set_first (s1 + x * x * (sc v 0 - s1))%S v in
       u = mv n (q_gamma' n (q_gamma n Ms x)) w /\
       sum_S (min (length Ms) n) (fun t => spow x (S t) * quad (nth t Ms []) (firstn (n - 2) w))%S = s0
     | Rel g h q => nontrivial_relation n G H Q g h q
     end) /\
  count (fun u => qesa_yes tr G H Q Ms c1 c2 cr msg fin (x :: u)) (words vals (4 + d)) <=
    count (fun o => found (E o)) (choices vals (4 + d)) + (n + 4 + 3 * d) * q ^ (3 + d) /\
  total (fun o => snd (E o)) (choices vals (4 + d)) <= 27 * n ^ 3 * q ^ (4 + d).
Proof.
  intros E q HN Hd Hn HG HH HM HF Hx. split.
  - intros o e He. apply after_Some in He as (T & HT & ->).
    apply (rewind_wgood vals [n - 1; 3; 3; 3] 3) in HT; [|auto|repeat constructor; lia].
    destruct (w_sb_good msg fin vals d n [x] _ cr T HT) as [GT PT].
    apply (C24_qesa_batched_soundness tr); auto. eapply qesa_runs_along; [..|exact PT]; auto.
  - assert (E4 : 4 ^ d = n * n) by (rewrite Hd, <- Nat.pow_mul_l; reflexivity).
    apply (rewind_counts vals [n - 1; 3; 3; 3] 3 d (fun u => qesa_yes tr G H Q Ms c1 c2 cr msg fin (x :: u))
             (fun T => q_extract n Ms x (w_sb msg fin d [x] cr T)) (n + 4 + 3 * d) (27 * n ^ 3)); [repeat constructor; lia|cbn; lia|].
    rewrite E4. unfold prodn. cbn [fold_right Nat.pow]. nia.
Qed.

(** the whole argument, against provers that know openings of c'_w over G and of c''_w over H:
    the extractor returns a relation, or finds none and the system holds *)
Definition qesa_extractor vals tr G H Q n d Ms c1 c2 cr msg fin w' (u : Scalar -> list Scalar) (o : list nat) :
    option (option (list Scalar * list Scalar * Scalar)) * nat :=
  after (fun '(WNode q) => find (is_relation n G H Q)
           (cat_some (map (fun '(x, T) => q_compare n Ms x (w_sb msg fin d [x] cr T) w' (u x)) (nonzero q))))
    (rewind vals (S (min (length Ms) n) :: n - 1 :: 3 :: 3 :: 3 :: repeat 4 d) (qesa_yes tr G H Q Ms c1 c2 cr msg fin) o).

Lemma find_cat {X} (p : X -> bool) l x : In (Some x) l -> p x = true -> find p (cat_some l) <> None.
Proof.
  intros HI Hp E. assert (X0 := find_none p _ E x). rewrite X0 in Hp; [discriminate|].
  unfold cat_some. apply in_flat_map. exists (Some x). split; [auto|now left].
Qed.

Theorem C86_qesa_extractor vals tr (G H : list Point) (Q : Point) n d Ms c1 c2 cr msg fin w' (u : Scalar -> list Scalar) :
  let m := min (length Ms) n in
  let E := qesa_extractor vals tr G H Q n d Ms c1 c2 cr msg fin w' u in
  let q := length vals in
  NoDup vals -> n = 2 ^ d -> 3 <= n -> length G = n -> length H = n -> 1 <= length Ms -> Forall (rect (n - 2) (n - 2)) Ms ->
  length w' = n -> sc w' 0 = s1 -> decompress c1 = Some (comb w' G) ->
  (forall x, length (u x) = n /\ decompress (c2 x) = Some (comb (u x) H)) ->
  (forall o e, fst (E o) = Some e ->
     match e with
     | Some (g, h, q) => nontrivial_relation n G H Q g h q
     | None => forall t, t < m -> quad (nth t Ms []) (firstn (n - 2) w') = s0
     end) /\
  count (qesa_yes tr G H Q Ms c1 c2 cr msg fin) (words vals (5 + d)) <=
    count (fun o => found (E o)) (choices vals (5 + d)) + (m + n + 4 + 3 * d) * q ^ (4 + d) /\
  total (fun o => snd (E o)) (choices vals (5 + d)) <= 27 * S m * n ^ 3 * q ^ (5 + d).
Proof.
  intros m E q HN Hd Hn HG HH HM HF Lw H0 D1 D2. split.
  - intros o e He. apply after_Some in He as ([kids] & HT & ->).
    apply (rewind_wgood vals [S m; n - 1; 3; 3; 3] 3) in HT; [|auto|repeat constructor; lia].
    destruct HT as (KL & KN & _ & KV). set (cands := map _ (nonzero kids)).
    destruct (find (is_relation n G H Q) (cat_some cands)) as [[[g h] r]|] eqn:EF.
    + apply find_some in EF as [_ EF]. now apply is_relation_ok in EF.
    + assert (HxT : forall x T, In (x, T) (nonzero kids) -> x <> s0 /\ good_sb n (w_sb msg fin d [x] cr T) /\
                qesa_runs tr G H Q Ms c1 c2 cr msg fin d x (w_sb msg fin d [x] cr T)).
      { intros x T HI. apply nonzero_In in HI as [HI Hx]. split; [exact Hx|].
        exact (w_sb_good msg fin vals d n [x] (fun w => qesa_yes tr G H Q Ms c1 c2 cr msg fin (x :: w)) cr T (KV x T HI)). }
      destruct (C24_qesa_soundness tr G H Q n Ms c1 w'
                  (map (fun '(x, T) => (x, c2 x, u x, w_sb msg fin d [x] cr T)) (nonzero kids)))
        as [(x & c & v & T & g & h & r & HI & HQ & HR)|HS]; auto.
      * rewrite map_length. assert (X := nonzero_length kids KN). fold m. lia.
      * rewrite map_map. erewrite map_ext; [apply (nonzero_NoDup kids KN)|]. now intros [x T].
      * intros x c v T HI. apply in_map_iff in HI as ([x' T'] & EQ & HI). injection EQ as -> <- <- <-.
        destruct (HxT x T' HI) as (Hx & GT & PT). destruct (D2 x) as [Lu Du].
        split; [auto|]. split; [auto|]. split; [auto|]. split; [auto|]. eapply qesa_runs_along; [..|exact PT]; auto.
      * exfalso. apply in_map_iff in HI as ([x' T'] & EQ & HI). injection EQ as -> <- <- <-.
        revert EF. apply (find_cat _ _ (g, h, r)); [|now apply is_relation_ok].
        unfold cands. apply in_map_iff. exists (x, T'). split; [exact HQ|exact HI].
  - assert (E4 : 4 ^ d = n * n) by (rewrite Hd, <- Nat.pow_mul_l; reflexivity).
    apply (rewind_counts vals [S m; n - 1; 3; 3; 3] 3 d (qesa_yes tr G H Q Ms c1 c2 cr msg fin)
             (fun '(WNode q) => find (is_relation n G H Q)
               (cat_some (map (fun '(x, T) => q_compare n Ms x (w_sb msg fin d [x] cr T) w' (u x)) (nonzero q))))
             (m + n + 4 + 3 * d) (27 * S m * n ^ 3)); [repeat constructor; lia|cbn; lia|].
    rewrite E4. unfold prodn. cbn [fold_right Nat.pow]. 
    replace (S m * ((n - 1) * (3 * (3 * (3 * 1)))) * (n * n)) with (27 * S m * ((n - 1) * (n * n))) by lia.
    replace (27 * S m * (n * (n * (n * 1)))) with (27 * S m * (n * (n * n))) by lia.
    apply Nat.mul_le_mono_l, Nat.mul_le_mono_r. lia.
Qed.
(** ** linear-map argument: the extractor always finds a preimage for the first row *)
Fixpoint w_lm (msg : word -> list Point * list Point) (fin : word -> Scalar) (d : nat) (pre : word) (t : wtree Scalar) : lm_tree :=
  match d with
  | O => LLeaf (fin pre)
  | S d =>
    match t with
    | WNode [(x1, t1); (x2, t2); (x3, t3)] =>
      let f x := w_lm msg fin d (pre ++ [x]) in
      LNode (fst (msg pre)) (snd (msg pre)) x1 (f x1 t1) x2 (f x2 t2) x3 (f x3 t3)
    | _ => LLeaf s0
    end
  end.
Lemma w_lm_good msg fin vals d : forall pre ok t, wgood vals (repeat 3 d) ok t ->
  lm_good d (w_lm msg fin d pre t) /\
  forall p, In p (lm_paths (w_lm msg fin d pre t)) -> exists w, length w = d /\ ok w = true /\ p = st_lm msg fin pre w.
Proof.
  induction d as [|d IH]; intros pre ok t HT; cbn [repeat wgood] in HT.
  - cbn. split; [exact I|]. intros p [<-|[]]. exists []. unfold st_lm. cbn. now rewrite app_nil_r.
  - destruct t as [q]. destruct HT as (HL & HN & _ & HV).
    destruct q as [|[x1 t1] [|[x2 t2] [|[x3 t3] [|? ?]]]]; try discriminate. cbn [w_lm map fst] in *.
    assert (K : forall x t, In (x, t) [(x1, t1); (x2, t2); (x3, t3)] -> lm_good d (w_lm msg fin d (pre ++ [x]) t) /\
       forall p, In p (map (lm_path_cons (fst (msg pre)) (snd (msg pre)) x) (lm_paths (w_lm msg fin d (pre ++ [x]) t))) ->
         exists w, length w = S d /\ ok w = true /\ p = st_lm msg fin pre w).
    { intros x t Hx. destruct (IH (pre ++ [x]) _ t (HV x t Hx)) as [T1 T2]. split; auto.
      intros p Hp. apply in_map_iff in Hp as (p' & <- & Hp). destruct (T2 p' Hp) as (w & W1 & W2 & ->).
      exists (x :: w). split; [cbn; auto|]. split; auto. unfold st_lm, lm_path_cons. cbn. rewrite <- app_assoc. now destruct (msg pre). }
    destruct (K x1 t1) as [D1 P1]; [cbn; auto|]. destruct (K x2 t2) as [D2 P2]; [cbn; auto|]. destruct (K x3 t3) as [D3 P3]; [cbn; auto|].
    split; [cbn; auto|]. intros p. cbn [lm_paths]. rewrite !in_app_iff. intros [Hp|[Hp|Hp]]; auto.
Qed.
Definition lmpa_extractor vals tr A G H Q d t msg fin (o : list nat) : option word * nat :=
  after (fun T => lm_extract (w_lm msg fin d [] T)) (rewind vals (repeat 3 d) (lmpa_yes tr A G H Q (2 ^ d) t msg fin) o).
Theorem C86_lmpa_extractor vals tr d m (A : list (list Point)) (G H : list Point) (Q : Point) t msg fin :
  let E := lmpa_extractor vals tr A G H Q d t msg fin in
  let q := length vals in
  NoDup vals -> 1 <= m -> rect m (2 ^ d) A ->
  (forall o w, fst (E o) = Some w -> length w = 2 ^ d /\ comb w (nth 0 A []) = pt t 0) /\
  count (lmpa_yes tr A G H Q (2 ^ d) t msg fin) (words vals d) <=
    count (fun o => found (E o)) (choices vals d) + 2 * d * q ^ (d - 1) /\
  total (fun o => snd (E o)) (choices vals d) <= 3 ^ d * q ^ d.
Proof.
  intros E q HN Hm HA. split.
  - intros o w He. apply after_Some in He as (T & HT & ->).
    apply (rewind_wgood vals [] 2) in HT; [|auto|constructor].
    destruct (w_lm_good msg fin vals d [] _ T HT) as [GT PT].
    apply (C37_lmpa_soundness_row0 tr d m A G H Q); auto. intros p Hp. destruct (PT p Hp) as (w & Lw & Y & ->).
    unfold lmpa_yes in Y. apply yes_Ok in Y as [tr' Y]. rewrite !map_map in Y.
    exists (coins tr w), tr'. split; [exact Y|]. eapply lm_coins; [symmetry; apply Nat.add_0_r|reflexivity].
  - rewrite Nat.sub_1_r.
    apply (rewind_counts vals [] 2 d (lmpa_yes tr A G H Q (2 ^ d) t msg fin)
             (fun T => lm_extract (w_lm msg fin d [] T)) (2 * d) (3 ^ d)); [constructor|cbn; lia|cbn; lia].
Qed.

(** ** with the mask of SimpleZK *)
Definition simplezk_extractor vals tr A G H Q d t a msg fin (o : list nat) : option word * nat :=
  after (fun T => match T with
           | WNode [(b1, t1); (b2, t2)] => sz_extract b1 (w_lm msg fin d [b1] t1) b2 (w_lm msg fin d [b2] t2)
           | _ => [] end)
    (rewind vals (2 :: repeat 3 d) (simplezk_yes tr A G H Q (2 ^ d) t a msg fin) o).
Theorem C86_simplezk_extractor vals tr d m (A : list (list Point)) (G H : list Point) (Q : Point) t a msg fin :
  let E := simplezk_extractor vals tr A G H Q d t a msg fin in
  let q := length vals in
  NoDup vals -> 1 <= m -> rect m (2 ^ d) A ->
  (forall o w, fst (E o) = Some w -> length w = 2 ^ d /\ comb w (nth 0 A []) = pt t 0) /\
  count (simplezk_yes tr A G H Q (2 ^ d) t a msg fin) (words vals (S d)) <=
    count (fun o => found (E o)) (choices vals (S d)) + (1 + 2 * d) * q ^ d /\
  total (fun o => snd (E o)) (choices vals (S d)) <= 2 * 3 ^ d * q ^ S d.
Proof.
  intros E q HN Hm HA. split.
  - intros o w He. apply after_Some in He as ([kids] & HT & ->).
    apply (rewind_wgood vals [2] 2) in HT; [|auto|repeat constructor].
    destruct HT as (KL & KN & _ & KV). destruct kids as [|[b1 t1] [|[b2 t2] [|? ?]]]; try discriminate.
    destruct (w_lm_good msg fin vals d [b1] _ t1 (KV b1 t1 (or_introl eq_refl))) as [G1 P1].
    destruct (w_lm_good msg fin vals d [b2] _ t2 (KV b2 t2 (or_intror (or_introl eq_refl)))) as [G2 P2].
    assert (Hb : b1 <> b2). { inversion KN as [|? ? N1 _]; subst. intros ->. apply N1. now left. }
    assert (K : forall b w, simplezk_yes tr A G H Q (2 ^ d) t a msg fin (b :: w) = true ->
               sz_accepts_along tr A G H Q (2 ^ d) t a b (st_lm msg fin [b] w)).
    { intros b w Y. unfold simplezk_yes in Y. apply yes_Ok in Y as [tr' Y]. rewrite !map_map in Y.
      exists (coins tr (b :: w)), tr'. split; [exact Y|].
      assert (N1 : nchal (sz_hist tr a) = nchal tr + 1) by (unfold sz_hist; rewrite !nchal_app, nchal_msgs; reflexivity).
      split; [now apply (coins_is 0)|]. eapply lm_coins; [exact N1|reflexivity]. }
    apply (C42_simple_zk_soundness_row0 tr d m A G H Q t a); auto.
    + intros p Hp. destruct (P1 p Hp) as (w & _ & Y & ->). auto.
    + intros p Hp. destruct (P2 p Hp) as (w & _ & Y & ->). auto.
  - apply (rewind_counts vals [2] 2 d (simplezk_yes tr A G H Q (2 ^ d) t a msg fin) _ (1 + 2 * d) (2 * 3 ^ d));
      [repeat constructor|cbn; lia|cbn; lia].
Qed.

(** ** copy argument *)
Definition copy_candidates n Ms mp sets msgs rs w' (u : Scalar -> Scalar -> word) msg fin cr d
    (kids : list (Scalar * wtree Scalar)) : list (option (word * word * Scalar)) :=
  flat_map (fun '(a0, WNode q) =>
    map (fun '(x, T) => q_compare n (cp_system n mp a0 Ms) x (w_sb msg fin d [a0; x] cr T) (cp_full n sets msgs rs w' a0) (u a0 x))
      (nonzero q)) kids.
Definition copy_extractor vals tr G H Q n d Ms sets mp msgs rs Cs cw c1' c2 cr msg fin w' u (o : list nat) :
    option (option (word * word * Scalar)) * nat :=
  after (fun '(WNode kids) => find (is_relation n G H Q) (cat_some (copy_candidates n Ms mp sets msgs rs w' u msg fin cr d kids)))
    (rewind vals (S (2 * length sets) :: S (length Ms + length (unique_commitment_indices mp)) :: n - 1 :: 3 :: 3 :: 3 :: repeat 4 d)
       (copy_yes tr G H Q Ms mp Cs cw c1' c2 cr msg fin) o).
Theorem C86_copy_extractor vals tr (G H : list Point) (Q : Point) n d Ms (ws : N) (sets : list (list N)) mp
    (msgs : list (list Scalar)) (rs : list Scalar) (Cs : list Point) cw c1' c2 cr msg fin (w' : list Scalar)
    (u : Scalar -> Scalar -> list Scalar) :
  let m := length Ms + length (unique_commitment_indices mp) in
  let E := copy_extractor vals tr G H Q n d Ms sets mp msgs rs Cs cw c1' c2 cr msg fin w' u in
  let q := length vals in
  NoDup vals -> n = 2 ^ d ->
  3 <= n -> (N.of_nat n < 65536)%N -> (ws < 65536)%N -> (N.of_nat (length sets) <= 65536)%N ->
  length G = n -> length H = n -> Forall (rect (n - 2) (n - 2)) Ms ->
  (forall s i, In s sets -> In i s -> 1 <= N.to_nat i < n - 2) -> Forall (@NoDup N) sets ->
  compute_mapping (N.of_nat n) ws sets = Ok mp -> m <= n ->
  length Cs = length sets ->
  (forall k, k < length sets -> commit G (nth k sets []) (nth k msgs []) (sc rs k) = Ok (pt Cs k)) ->
  length w' = n -> sc w' 0 = s1 -> decompress cw = Some (comb w' G) ->
  (forall a0 x, length (u a0 x) = n /\ decompress (c2 a0 x) = Some (comb (u a0 x) H)) ->
  (forall o e, fst (E o) = Some e ->
     match e with
     | Some (g, h, q) => nontrivial_relation n G H Q g h q
     | None =>
       (forall M, In M Ms -> quad M (firstn (n - 2) w') = s0) /\
       (forall k j, k < length sets -> j < length (nth k sets []) ->
          exists mm, nth_error (msgs_map mp) (cm_offset sets k + j) = Some mm /\
            sc (nth k msgs []) j = sc w' (mpos mm)) /\
       (forall s i, In s sets -> In i s -> sc w' (N.to_nat i) = s0)
     end) /\
  count (copy_yes tr G H Q Ms mp Cs cw c1' c2 cr msg fin) (words vals (6 + d)) <=
    count (fun o => found (E o)) (choices vals (6 + d)) + (2 * length sets + m + n + 4 + 3 * d) * q ^ (5 + d) /\
  total (fun o => snd (E o)) (choices vals (6 + d)) <= 27 * S (2 * length sets) * S m * n ^ 3 * q ^ (6 + d).
Proof.
  intros m E q HN Hd Hn Hn16 Hws HK HG HH HF Hidx HND Emp Hm LC HC Lw H0 D1 D2. split.
  - destruct (compute_mapping_good n ws sets mp Hn16 Hws Emp HK) as (HMap & _ & _).
    { intros s i Hs Hi. apply (Hidx s i Hs Hi). }
    assert (HT1 : 1 <= cm_total sets) by (apply compute_mapping_inv in Emp as (_ & HT & _); exact HT).
    assert (HS1 : 1 <= length sets) by (destruct sets; [cbn in HT1; lia|cbn; lia]).
    assert (Hmsgs : length (msgs_map mp) = cm_total sets).
    { destruct (C29_metadata _ _ sets _ ltac:(lia) Emp) as (_ & X & _). exact X. }
    intros o e He. apply after_Some in He as ([kids] & HT & ->).
    apply (rewind_wgood vals [S (2 * length sets); S m; n - 1; 3; 3; 3] 3) in HT;
      [|auto|repeat (apply Forall_cons; [lia|]); apply Forall_nil].
    destruct HT as (KL & KN & _ & KV). set (cands := copy_candidates _ _ _ _ _ _ _ _ _ _ _ _ kids).
    destruct (find (is_relation n G H Q) (cat_some cands)) as [[[g h] r]|] eqn:EF.
    + apply find_some in EF as [_ EF]. now apply is_relation_ok in EF.
    + set (runs := fun a0 (t : wtree Scalar) => let 'WNode xs := t in
               map (fun '(x, T) => (x, c2 a0 x, u a0 x, w_sb msg fin d [a0; x] cr T)) (nonzero xs)).
      destruct (C64_copy_soundness tr G H Q n Ms ws sets mp msgs rs Cs cw w' (map (fun '(a0, t) => (a0, runs a0 t)) kids))
        as [(a0 & rn & x & c & v & T & g & h & r & HI & HJ & HQ & HR)|HS]; auto.
      * rewrite map_map. erewrite map_ext; [exact KN|]. now intros [a0 t].
      * rewrite map_length, KL. lia.
      * intros a0 rn HI. apply in_map_iff in HI as ([a [xs]] & EQ & HI). injection EQ as -> <-.
        destruct (KV a0 _ HI) as (XL & XN & _ & XV). unfold runs.
        split; [rewrite map_length; assert (X := nonzero_length xs XN); fold m; lia|]. split.
        { rewrite map_map. erewrite map_ext; [apply (nonzero_NoDup xs XN)|]. now intros [x T]. }
        intros x c v T HJ. apply in_map_iff in HJ as ([x' T'] & EQ & HJ). injection EQ as -> <- <- <-.
        apply nonzero_In in HJ as [HJ Nx].
        destruct (w_sb_good msg fin vals d n [a0; x] (fun w => copy_yes tr G H Q Ms mp Cs cw c1' c2 cr msg fin (a0 :: x :: w)) cr T' (XV x T' HJ))
          as [GT PT].
        destruct (D2 a0 x) as [Lu Du]. split; [auto|]. split; [auto|]. split; [auto|]. split; [auto|].
        intros s b B HB. apply PT in HB. revert HB. apply beta_paths_impl.
        intros cr' be al p (-> & w & _ & Y & ->). eapply copy_yes_along; eauto; try (rewrite LC; auto).
        rewrite Hmsgs. lia.
      * exfalso. apply in_map_iff in HI as ([a [xs]] & EQ & HI). injection EQ as -> <-.
        apply in_map_iff in HJ as ([x' T'] & EQ & HJ). injection EQ as -> <- <- <-.
        revert EF. apply (find_cat _ _ (g, h, r)); [|now apply is_relation_ok].
        unfold cands, copy_candidates. apply in_flat_map. exists (a0, WNode xs). split; [exact HI|].
        apply in_map_iff. exists (x, T'). split; [exact HQ|exact HJ].
  - assert (E4 : 4 ^ d = n * n) by (rewrite Hd, <- Nat.pow_mul_l; reflexivity).
    apply (rewind_counts vals [S (2 * length sets); S m; n - 1; 3; 3; 3] 3 d (copy_yes tr G H Q Ms mp Cs cw c1' c2 cr msg fin) _
             (2 * length sets + m + n + 4 + 3 * d) (27 * S (2 * length sets) * S m * n ^ 3));
      [repeat (apply Forall_cons; [lia|]); apply Forall_nil|unfold slack; cbn [map list_sum fold_right pred]; lia|].
    rewrite E4. unfold prodn. cbn [fold_right Nat.pow]. set (k := length sets). clearbody k. clear -Hn.
    replace (S (2 * k) * (S m * ((n - 1) * (3 * (3 * (3 * 1))))) * (n * n)) with (27 * S (2 * k) * S m * ((n - 1) * (n * n))) by lia.
    replace (27 * S (2 * k) * S m * (n * (n * (n * 1)))) with (27 * S (2 * k) * S m * (n * (n * n))) by lia.
    apply Nat.mul_le_mono_l, Nat.mul_le_mono_r. lia.
Qed.
End C86.

(** ** Concrete cases over Z/1009 *)
(** inner product argument, n = 2, five challenge values. The honest prover of C75_case_nozk is
    extracted in 12 runs and its vectors come out. A prover that can answer two challenges per
    alpha passes on 10 of 25 words, is never extracted and costs 65 runs for the 25 choices *)
Definition ex86 (t : Z) (e : @Scalar FS -> @Point FS * @Point FS) : list nat -> option (@extracted FS) * nat :=
  nozk_extractor (v75 5) [] g75 h75 (qN 17) 1 (P75 t) (fN t) (msg75 e) fin75.
Example C86_case_nozk :
  let hon := ex86 46 (fun _ => (qN 0, qN 0)) in
  let cheat := ex86 41 (fun al => (pmul (sinv al) (qN 17), pmul (smul (fN 6) (sinv al)) (qN 17))) in
  let vs := choices (v75 5) 2 in
  count (fun o => found (cheat o)) vs = 0 /\ total (fun o => snd (cheat o)) vs = 65 /\
  match hon [4; 3] with
  | (Some (Wit a b c), runs) => map zf a = [3; 4]%Z /\ map zf b = [6; 7]%Z /\ zf c = 46%Z /\ runs = 12
  | _ => False
  end.
Proof. vm_compute. repeat split; auto. Qed.
(** the linear map 2 w_0 + 5 w_1 = 16, n = 2: the honest prover is extracted in 3 runs and its w
    comes out. For the zero matrix and a non-zero target the prover of C75_case_lmpa_tight can
    answer two challenges of five: never extracted, 13 runs for the five choices *)
Definition hon86 (u : list (@Scalar FS)) : @LmpaNoZK FS :=
  match lmpa_create (coins [] (u ++ v75 3)) [] [[qN 2; qN 5]] [qN 0; qN 0] [] (qN 0) [fN 3; fN 2] with
  | Ok (pf, _) => pf | _ => mkLmpaNoZK [] [] (fN 0) end.
Example C86_case_lmpa :
  let hon := lmpa_extractor (v75 5) [] [[qN 2; qN 5]] [qN 0; qN 0] [] (qN 0) 1 [qN 16]
               (fun u => (nth (length u) (lm_L (hon86 u)) [], nth (length u) (lm_R (hon86 u)) [])) (fun u => lm_w (hon86 u)) in
  let cheat := lmpa_extractor (v75 5) [] (z75 2) [qN 0; qN 0] [] (qN 0) 1 [qN (-3)] cheat75 (fun _ => fN 0) in
  match hon [3] with
  | (Some w, runs) => map zf w = [3; 2]%Z /\ runs = 3
  | _ => False
  end /\
  count (fun o => found (cheat o)) (choices (v75 5) 1) = 0 /\ total (fun o => snd (cheat o)) (choices (v75 5) 1) = 13.
Proof. vm_compute. repeat split; auto. Qed.
