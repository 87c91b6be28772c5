(** Soundness of the QESA inner argument: C24 *)
From Coq Require Import String.
From Verif Require Export PropQesa Poly ExSmall.
Local Open Scope string_scope.
Local Open Scope nat_scope.
Local Open Scope list_scope.

Section QSound.
Context {C : Crypto} {L : CryptoLaws C}.
Add Field SfQS : (@S_field C L).

(** an accepting run of the verifier, for some oracle that yields the given challenges *)
Definition q_accepts_along tr (G H : list Point) (Q : Point) n Ms (c1 c2 : Compressed)
    (x s b : Scalar) (Crc : Compressed) (beta alpha : Scalar) (p : ipa_path) : Prop :=
  let '(rounds, a0, b0) := p in
  let Lc := map (fun '(l, r, x) => compress l) rounds in
  let Rc := map (fun '(l, r, x) => compress r) rounds in
  exists ro tr',
    inner_verify ro tr (mkInner (mkAlmZK Crc (mkNoZK Lc Rc a0 b0)) c1 c2) G H Q (mkBlockMatrix Ms)
      = Ok (true, tr') /\
    ro (q_hist_x tr c1) = x /\ ro (q_hist_s tr c1 c2) = s /\ ro (q_hist_b tr c1 c2) = b /\
    let Cw := q_Cw n G H Ms x s b (dec c1) (dec c2) in
    let tr1 := q_hist_w tr c1 c2 (compress Cw) in
    ro (alm_beta_hist tr1 Crc) = beta /\
    let tr2 := alm_ipa_hist tr1 Crc (alm_P beta (q_t n Ms x s) Cw (dec Crc) Q) in
    ro (ipa_start tr2 n) = alpha /\
    (forall j l r x, nth_error rounds j = Some (l, r, x) -> ro (ipa_hist tr2 n (combine Lc Rc) (S j)) = x).

Lemma q_accepts_alm tr G H Q n Ms c1 c2 x s b Crc beta alpha p :
  3 <= n -> length G = n -> length H = n -> 1 <= length Ms -> Forall (rect (n - 2) (n - 2)) Ms ->
  q_accepts_along tr G H Q n Ms c1 c2 x s b Crc beta alpha p ->
  (exists P1 P2, decompress c1 = Some P1 /\ decompress c2 = Some P2) /\
  let Cw := q_Cw n G H Ms x s b (dec c1) (dec c2) in
  alm_accepts_along (q_hist_w tr c1 c2 (compress Cw)) (q_G (x * x)%S G) H Q n Cw (q_t n Ms x s) Crc beta alpha p.
Proof.
  destruct p as [[rounds a0] b0]. intros Hn HG HH HM HF (ro & tr' & V & Hx & Hs & Hb & Hbe & Hal & Hr).
  destruct (q_decodes _ _ _ _ _ _ _ _ V) as (P1 & P2 & D1 & D2). cbn [c_prime_w c_prime_prime_w] in D1, D2.
  split; [eauto|]. cbv zeta.
  rewrite (dec_Some _ _ D1), (dec_Some _ _ D2) in *.
  assert (VE := inner_verify_eq ro tr _ G H Q Ms n P1 P2 Hn HG HH HM HF
    (D1 : decompress (c_prime_w (mkInner (mkAlmZK Crc (mkNoZK (map (fun '(l, r, x) => compress l) rounds) (map (fun '(l, r, x) => compress r) rounds) a0 b0)) c1 c2)) = Some P1) D2).
  cbv zeta in VE. rewrite VE in V. clear VE.
  unfold q_x, q_s, q_b in V. cbn [c_prime_w c_prime_prime_w alm_zk] in V. rewrite Hx, Hs, Hb in V.
  exists ro, tr'. split; [exact V|]. split; [exact Hbe|]. intros Cr DCr.
  rewrite (dec_Some _ _ DCr) in *. split; [exact Hal|exact Hr].
Qed.

Lemma all_paths_impl B (P1 P2 : Scalar -> ipa_path -> Prop) :
  (forall a p, P1 a p -> P2 a p) -> all_paths B P1 -> all_paths B P2.
Proof. intros H [H1 H2]. split; intros p Hp; apply H; auto. Qed.

Lemma map2_add_sub (a b : list Scalar) : length a = length b -> map2 ssub (map2 sadd a b) b = a.
Proof.
  revert b; induction a as [|x a IH]; intros [|y b] H; cbn in *; try discriminate; auto.
  f_equal; [ring|]. apply IH. lia.
Qed.
Lemma map2_sub_add (a b : list Scalar) : length a = length b -> map2 sadd (map2 ssub a b) b = a.
Proof.
  revert b; induction a as [|x a IH]; intros [|y b] H; cbn in *; try discriminate; auto.
  f_equal; [ring|]. apply IH. lia.
Qed.

Definition leaf_ok n G H Q Ms x s b (P1 P2 : Point) (e : extracted) : Prop :=
  let G' := q_G (x * x)%S G in
  match e with
  | Wit v u _ =>
    length v = n /\ length u = n /\
    (P1 - (x * x - s1)%S *: pt G' 0 + P2)%P = (lin v G' + lin u H)%P /\
    (dot v u + (dot (mv n (q_gamma' n (q_gamma n Ms x)) v) (q_s' n s b) - dot u (q_s' n s b)) = s0)%S
  | Rel g h q => nontrivial_relation n G' H Q g h q
  end.

Lemma q_leaf_sound tr G H Q n Ms c1 c2 x s b B :
  3 <= n -> length G = n -> length H = n -> 1 <= length Ms -> Forall (rect (n - 2) (n - 2)) Ms ->
  good_beta B ->
  beta_paths B (q_accepts_along tr G H Q n Ms c1 c2 x s b) ->
  leaf_ok n G H Q Ms x s b (dec c1) (dec c2) (q_leaf_open n Ms x (s, b, B)).
Proof.
  intros Hn HG HH HM HF (D12 & D13 & D23 & GB1 & GB2 & GB3) (A1 & A2 & A3).
  assert (I : forall be a p, q_accepts_along tr G H Q n Ms c1 c2 x s b (bt_Cr B) be a p ->
    alm_accepts_along (q_hist_w tr c1 c2 (compress (q_Cw n G H Ms x s b (dec c1) (dec c2))))
      (q_G (x * x)%S G) H Q n (q_Cw n G H Ms x s b (dec c1) (dec c2)) (q_t n Ms x s) (bt_Cr B) be a p).
  { intros be a p Hp. now apply q_accepts_alm in Hp. }
  apply (all_paths_impl _ _ _ (I (bt_b1 B))) in A1.
  apply (all_paths_impl _ _ _ (I (bt_b2 B))) in A2.
  apply (all_paths_impl _ _ _ (I (bt_b3 B))) in A3.
  assert (HG' : length (q_G (x * x)%S G) = n) by (rewrite q_G_length; auto).
  assert (S := C20_almzk_special_soundness _ _ H Q _ _ n _ _ _ _ _ _ _ HG' HH D12 D13 D23 GB1 GB2 GB3 A1 A2 A3).
  unfold leaf_ok, q_leaf_open, beta_extract.
  destruct (alm_extract _ _ _ _ _ _ _) as [a bv c|g h q]; [|exact S].
  destruct S as (La & Lb & _ & EC & ED). cbv zeta.
  set (G' := q_G (x * x)%S G) in *. set (sp := q_s' n s b) in *.
  set (Gm' := q_gamma' n (q_gamma n Ms x)) in *.
  assert (Hsp : length sp = n) by apply q_s'_length.
  assert (Hm : length (mtv n Gm' sp) = n) by apply mtv_length.
  assert (Lv : length (map2 sadd a sp) = n) by (rewrite map2_length; lia).
  assert (Lu : length (map2 ssub bv (mtv n Gm' sp)) = n) by (rewrite map2_length; lia).
  split; [auto|]. split; [auto|]. split.
  - rewrite lin_add_s, lin_sub_s by lia. unfold q_Cw in EC. cbv zeta in EC. fold G' sp Gm' in EC.
    rewrite <- !lin_comb in EC by lia.
    transitivity ((dec c1 - (x * x - s1)%S *: pt G' 0 + dec c2 + lin (mtv n Gm' sp) H - lin sp G')
                  - lin (mtv n Gm' sp) H + lin sp G')%P; [pring|]. rewrite EC. pring.
  - assert (QI := q_inner n Gm' (map2 sadd a sp) (map2 ssub bv (mtv n Gm' sp)) sp Lv Lu Hsp).
    rewrite map2_add_sub, map2_sub_add in QI by lia. rewrite dot_dotp, ED in QI by lia.
    assert (QS : quad Gm' sp = quad (q_gamma n Ms x) (tab (n - 2) (fun i => spow s (S i))))
      by (unfold Gm', sp; apply quad_q_s'; lia).
    rewrite QS in QI. apply ssub_0.
    match type of QI with _ = ?r => transitivity (r - q_t n Ms x s)%S end.
    + unfold q_t. ring.
    + rewrite <- QI. ring.
Qed.

Lemma nontrivial_diff n G' H Q v u v2 u2 : length G' = n -> length H = n ->
  length v = n -> length u = n -> length v2 = n -> length u2 = n ->
  (lin v2 G' + lin u2 H = lin v G' + lin u H)%P ->
  all_zero (map2 ssub v2 v) && all_zero (map2 ssub u2 u) = false ->
  nontrivial_relation n G' H Q (map2 ssub v2 v) (map2 ssub u2 u) s0.
Proof.
  intros HG HH L1 L2 L3 L4 E Z. unfold nontrivial_relation.
  rewrite !map2_length. split; [lia|]. split; [lia|]. split.
  - rewrite <- !lin_comb by (rewrite map2_length; lia). rewrite !lin_sub_s by lia.
    transitivity (lin v2 G' + lin u2 H - (lin v G' + lin u H))%P; [pring|]. rewrite E. pring.
  - intros [HZ _]. apply andb_false_iff in Z as [Z|Z]; apply not_true_iff_false in Z; apply Z; apply all_zero_spec;
      intros i Hi; rewrite map2_length in Hi; apply HZ; lia.
Qed.
Lemma all_zero_eq v w : length v = length w -> all_zero (map2 ssub v w) = true -> v = w.
Proof.
  intros Hl Z. apply (list_eq_nth s0); auto. intros i Hi.
  assert (E : sc (map2 ssub v w) i = s0) by (apply all_zero_spec; auto; rewrite map2_length; lia).
  unfold sc in E. rewrite (map2_nth _ _ _ _ s0 s0) in E by lia. now apply ssub_0.
Qed.

Lemma q_agree_sound n G H Q Ms x P1 P2 v u : length G = n -> length H = n ->
  forall leaves,
  length v = n -> length u = n ->
  (P1 - (x * x - s1)%S *: pt (q_G (x * x)%S G) 0 + P2)%P = (lin v (q_G (x * x)%S G) + lin u H)%P ->
  (forall s b B, In (s, b, B) leaves -> leaf_ok n G H Q Ms x s b P1 P2 (q_leaf_open n Ms x (s, b, B))) ->
  match q_agree n Ms x v u leaves with
  | Wit v' u' _ => v' = v /\ u' = u /\
     forall s b B, In (s, b, B) leaves ->
      (dot v u + (dot (mv n (q_gamma' n (q_gamma n Ms x)) v) (q_s' n s b) - dot u (q_s' n s b)) = s0)%S
  | Rel g h q => nontrivial_relation n (q_G (x * x)%S G) H Q g h q
  end.
Proof.
  intros HG HH leaves Lv Lu E HL. induction leaves as [|[[s b] B] leaves IH]; cbn [q_agree].
  - split; auto. split; auto. intros s b B [].
  - assert (H1 := HL s b B (or_introl eq_refl)). unfold leaf_ok in H1.
    destruct (q_leaf_open n Ms x (s, b, B)) as [v2 u2 c|g h q] eqn:EO; [|exact H1].
    destruct H1 as (L3 & L4 & E2 & ED).
    destruct (all_zero (map2 ssub v2 v) && all_zero (map2 ssub u2 u)) eqn:EZ.
    + apply andb_true_iff in EZ as [Z1 Z2]. apply all_zero_eq in Z1; [|lia]. apply all_zero_eq in Z2; [|lia].
      subst v2 u2. specialize (IH (fun s b B HB => HL s b B (or_intror HB))).
      destruct (q_agree n Ms x v u leaves) as [v' u' c'|g h q]; [|exact IH].
      destruct IH as (-> & -> & IH). split; auto. split; auto. intros s' b' B' [EB|HB].
      * injection EB as -> -> ->. exact ED.
      * eauto.
    + apply nontrivial_diff; auto.
      * now rewrite q_G_length.
      * now rewrite <- E2, <- E.
Qed.

(** the linear system in (s, b) has only the zero solution *)
Lemma q_interpolate n (d : list Scalar) K T : 3 <= n -> good_sb n T -> length d = n ->
  (forall s b B, In (s, b, B) (sb_leaves T) -> (K + dot d (q_s' n s b) = s0)%S) ->
  K = s0 /\ forall i, i < n -> sc d i = s0.
Proof.
  intros Hn (HT & HN & Hb & _) Hd HL.
  assert (ED : forall s b, dot d (q_s' n s b) =
    (sum_S (n - 2) (fun i => sc d i * spow s (S i)) + sc d (n - 2) * b + sc d (n - 1) * (b * b))%S).
  { intros s b. rewrite (dot_sum n) by (rewrite ?q_s'_length; lia). rewrite sum_split2 by lia.
    unfold q_s'. rewrite !sc_tab by lia.
    destruct (Nat.ltb_spec (n - 2) (n - 2)); [lia|]. rewrite Nat.eqb_refl.
    destruct (Nat.ltb_spec (n - 1) (n - 2)); [lia|]. destruct (Nat.eqb_spec (n - 1) (n - 2)); [lia|].
    f_equal. f_equal. apply sum_S_ext. intros i Hi. rewrite sc_tab by lia.
    destruct (Nat.ltb_spec i (n - 2)); [reflexivity|lia]. }
  assert (HS : forall s l, In (s, l) T ->
    (K + sum_S (n - 2) (fun i => sc d i * spow s (S i)) = s0)%S /\ sc d (n - 2) = s0 /\ sc d (n - 1) = s0).
  { intros s l Hs. destruct (Hb s l Hs) as [Hl3 HNl].
    set (A := (K + sum_S (n - 2) (fun i => sc d i * spow s (S i)))%S).
    set (f := fun i => match i with 0 => A | 1 => sc d (n - 2) | _ => sc d (n - 1) end).
    assert (HZ : forall i, i < 3 -> f i = s0).
    { apply (poly_zero_sum 3 f (map fst l)); auto.
      - now rewrite map_length.
      - intros b Hbl. apply in_map_iff in Hbl as [[b' B] [Eb HB]]. cbn in Eb. subst b'.
        assert (HLf : In (s, b, B) (sb_leaves T)).
        { unfold sb_leaves. apply in_flat_map. exists (s, l). split; auto.
          apply in_map_iff. exists (b, B). auto. }
        apply HL in HLf. rewrite ED in HLf. rewrite <- HLf. unfold f, A. cbn. ring. }
    split; [exact (HZ 0 ltac:(lia))|]. split; [exact (HZ 1 ltac:(lia))|exact (HZ 2 ltac:(lia))]. }
  destruct T as [|[s l] T']; [cbn in HT; lia|].
  destruct (HS s l (or_introl eq_refl)) as (_ & Z1 & Z2).
  set (f := fun i => match i with 0 => K | S j => sc d j end).
  assert (HZ : forall i, i < n - 1 -> f i = s0).
  { apply (poly_zero_sum (n - 1) f (map fst ((s, l) :: T'))); auto.
    - now rewrite map_length.
    - intros y Hy. apply in_map_iff in Hy as [[y' l'] [Ey Hl']]. cbn in Ey. subst y'.
      destruct (HS y l' Hl') as [E _]. replace (n - 1) with (S (n - 2)) by lia.
      rewrite sum_S_shift. rewrite <- E. unfold f. f_equal. cbn. ring. }
  split; [exact (HZ 0 ltac:(lia))|]. intros i Hi.
  destruct (Nat.eq_dec i (n - 1)) as [->|]; auto. destruct (Nat.eq_dec i (n - 2)) as [->|]; auto.
  exact (HZ (S i) ltac:(lia)).
Qed.

Lemma sb_leaves_nonempty n T : 3 <= n -> good_sb n T -> exists leaf leaves, sb_leaves T = leaf :: leaves.
Proof.
  intros Hn (HT & _ & Hb & _). destruct T as [|[s l] T']; [cbn in HT; lia|].
  destruct (Hb s l (or_introl eq_refl)) as [Hl _]. destruct l as [|[b B] l]; [cbn in Hl; lia|].
  cbn. eauto.
Qed.

Lemma q_sb_sound tr G H Q n Ms c1 c2 x T :
  3 <= n -> length G = n -> length H = n -> 1 <= length Ms -> Forall (rect (n - 2) (n - 2)) Ms ->
  good_sb n T -> sb_paths T (q_accepts_along tr G H Q n Ms c1 c2 x) ->
  match q_sb_extract n Ms x T with
  | Wit v u _ =>
    length v = n /\ length u = n /\
    (dec c1 - (x * x - s1)%S *: pt (q_G (x * x)%S G) 0 + dec c2)%P = (lin v (q_G (x * x)%S G) + lin u H)%P /\
    u = mv n (q_gamma' n (q_gamma n Ms x)) v /\ dot v u = s0
  | Rel g h q => nontrivial_relation n (q_G (x * x)%S G) H Q g h q
  end.
Proof.
  intros Hn HG HH HM HF GT HP.
  assert (HL : forall s b B, In (s, b, B) (sb_leaves T) ->
     leaf_ok n G H Q Ms x s b (dec c1) (dec c2) (q_leaf_open n Ms x (s, b, B))).
  { intros s b B HB. eapply q_leaf_sound; eauto. destruct GT as (_ & _ & _ & GB). eauto. }
  destruct (sb_leaves_nonempty n T Hn GT) as ([[s b] B] & leaves & EL).
  assert (HI : forall K d, length d = n ->
     (forall s b B, In (s, b, B) (sb_leaves T) -> (K + dot d (q_s' n s b) = s0)%S) ->
     K = s0 /\ forall i, i < n -> sc d i = s0).
  { intros K d Ld Hd. now apply (q_interpolate n d K T). }
  unfold q_sb_extract. rewrite EL in *.
  assert (H1 := HL s b B (or_introl eq_refl)). unfold leaf_ok in H1. cbv zeta in H1.
  destruct (q_leaf_open n Ms x (s, b, B)) as [v u c|g h q] eqn:EO; [|exact H1].
  destruct H1 as (Lv & Lu & E & ED).
  assert (AG := q_agree_sound n G H Q Ms x (dec c1) (dec c2) v u HG HH leaves Lv Lu E
    (fun s b B HB => HL s b B (or_intror HB))).
  destruct (q_agree n Ms x v u leaves) as [v' u' c'|g h q]; [|exact AG].
  destruct AG as (-> & -> & AG).
  set (Gm' := q_gamma' n (q_gamma n Ms x)) in *.
  destruct (HI (dot v u) (map2 ssub (mv n Gm' v) u)) as [HK Hd].
  { rewrite map2_length, mv_length. lia. }
  { intros s2 b2 B2 HB. rewrite dot_sub_l by (rewrite mv_length; lia). destruct HB as [EB|HB].
    - injection EB as <- <- <-. exact ED.
    - eapply AG; eauto. }
  split; [auto|]. split; [auto|]. split; [auto|]. split; [|auto].
  symmetry. apply all_zero_eq; [rewrite mv_length; lia|]. apply all_zero_spec.
  intros i Hi. apply Hd. rewrite map2_length, mv_length in Hi. lia.
Qed.

Lemma set_first_length c v : length (set_first c v) = length v.
Proof. apply tab_length. Qed.
Lemma sc_set_first c v i : i < length v -> sc (set_first c v) i = if i =? 0 then c else sc v i.
Proof. intros Hi. unfold set_first. now rewrite sc_tab. Qed.
Lemma set_first_eq c v : 1 <= length v -> set_first c v = set_at v 0 c.
Proof.
  intros Hv. symmetry. apply (tab_eq s0); [now destruct v|]. intros [|i] Hi; destruct v; cbn in *; auto; lia.
Qed.
Lemma lin_set_first c v G : length v = length G -> 1 <= length G ->
  lin (set_first c v) G = (lin v G + (c - sc v 0)%S *: pt G 0)%P.
Proof. intros H H1. rewrite set_first_eq by lia. now rewrite lin_set_at by lia. Qed.

Lemma relation_unscale n G H Q beta g h q : beta <> s0 -> length G = n -> 1 <= n ->
  nontrivial_relation n (q_G beta G) H Q g h q ->
  nontrivial_relation n G H Q (set_first (sinv beta * sc g 0)%S g) h q.
Proof.
  intros Hb HG Hn (Lg & Lh & E & N). split; [now rewrite set_first_length|]. split; [auto|]. split.
  - rewrite <- E. rewrite <- (lin_comb _ G) by (rewrite set_first_length; lia).
    rewrite <- (lin_comb g (q_G beta G)) by (rewrite q_G_length; lia).
    rewrite lin_set_first, lin_q_G by lia. pnorm; ring.
  - intros [HZ Hq]. apply N. split; [|exact Hq]. intros i Hi. destruct (HZ i Hi) as [Z1 Z2]. split; [|exact Z2].
    rewrite sc_set_first in Z1 by lia. destruct (Nat.eqb_spec i 0) as [->|]; auto.
    apply smul_eq_0 in Z1 as [Z1|Z1]; auto. exfalso. now apply (sinv_neq_0 beta).
Qed.

(** C24, first part: one value of x. The extracted v opens c'_w + c''_w over G and
    H; the batched equation holds for v with its first entry stretched around 1 by
    the factor x^2. *)
Theorem C24_qesa_batched_soundness tr (G H : list Point) (Q : Point) n Ms c1 c2 x T :
  3 <= n -> length G = n -> length H = n -> 1 <= length Ms -> Forall (rect (n - 2) (n - 2)) Ms ->
  x <> s0 -> good_sb n T -> sb_paths T (q_accepts_along tr G H Q n Ms c1 c2 x) ->
  match q_extract n Ms x T with
  | Wit v u _ =>
    length v = n /\ length u = n /\ (dec c1 + dec c2)%P = (comb v G + comb u H)%P /\
    let w := set_first (s1 + x * x * (sc v 0 - s1))%S v in
    u = mv n (q_gamma' n (q_gamma n Ms x)) w /\
    sum_S (min (length Ms) n) (fun t => spow x (S t) * quad (nth t Ms []) (firstn (n - 2) w))%S = s0
  | Rel g h q => nontrivial_relation n G H Q g h q
  end.
Proof.
  intros Hn HG HH HM HF Hx GT HP.
  assert (Hxx : (x * x)%S <> s0) by (intros E; apply smul_eq_0 in E; tauto).
  assert (S0 := q_sb_sound tr G H Q n Ms c1 c2 x T Hn HG HH HM HF GT HP). unfold q_extract.
  destruct (q_sb_extract n Ms x T) as [v u c|g h q].
  - destruct S0 as (Lv & Lu & E & EU & ED).
    set (v0 := set_first (s1 + sinv (x * x) * (sc v 0 - s1))%S v) in *.
    assert (L0 : length v0 = n) by (unfold v0; now rewrite set_first_length).
    split; [auto|]. split; [auto|]. split.
    + rewrite <- !lin_comb by lia. unfold v0. rewrite lin_set_first by lia.
      rewrite lin_q_G, pt_q_G in E by lia.
      transitivity (dec c1 - (x * x - s1)%S *: (sinv (x * x) *: pt G 0) + dec c2
                    + ((x * x) * sinv (x * x) - sinv (x * x))%S *: pt G 0)%P; [pring|].
      rewrite E, (sinv_r (x * x)%S) by auto. pring.
    + cbv zeta.
      assert (EW : set_first (s1 + x * x * (sc v0 0 - s1))%S v0 = v).
      { apply (list_eq_nth s0); [rewrite set_first_length; lia|]. intros i Hi. rewrite set_first_length in Hi.
        change (sc (set_first (s1 + x * x * (sc v0 0 - s1))%S v0) i = sc v i).
        rewrite sc_set_first by auto. unfold v0. rewrite !sc_set_first by lia.
        destruct (Nat.eqb_spec i 0) as [->|]; auto. rewrite Nat.eqb_refl.
        transitivity (s1 + (x * x) * sinv (x * x) * (sc v 0 - s1))%S; [ring|].
        rewrite (sinv_r (x * x)%S) by auto. ring. }
      rewrite EW. split; [exact EU|].
      rewrite <- quad_q_gamma by (rewrite firstn_length; lia).
      rewrite <- quad_gamma'_firstn by (auto; lia). rewrite <- (dot_mv_quad n) by auto.
      rewrite <- EU. exact ED.
  - apply relation_unscale; auto. lia.
Qed.

(** C24, second part: when c'_w is opened over G by a vector with first entry 1
    and each c''_w over H, runs for as many distinct non-zero x as there are
    equations prove every equation among the first n. [q_compare] is the explicit
    relation finder. *)
Theorem C24_qesa_soundness tr (G H : list Point) (Q : Point) n Ms c1 (w' : list Scalar)
    (runs : list (Scalar * Compressed * list Scalar * sb_trees)) :
  3 <= n -> length G = n -> length H = n -> 1 <= length Ms -> Forall (rect (n - 2) (n - 2)) Ms ->
  length w' = n -> sc w' 0 = s1 -> decompress c1 = Some (comb w' G) ->
  min (length Ms) n <= length runs -> NoDup (map (fun '(x, _, _, _) => x) runs) ->
  (forall x c2 u T, In (x, c2, u, T) runs ->
     x <> s0 /\ length u = n /\ decompress c2 = Some (comb u H) /\ good_sb n T /\
     sb_paths T (q_accepts_along tr G H Q n Ms c1 c2 x)) ->
  (exists x c2 u T g h q, In (x, c2, u, T) runs /\ q_compare n Ms x T w' u = Some (g, h, q) /\
     nontrivial_relation n G H Q g h q) \/
  (forall t, t < min (length Ms) n -> quad (nth t Ms []) (firstn (n - 2) w') = s0).
Proof.
  intros Hn HG HH HM HF Lw H0 D1 HN HND HR.
  assert (EC : forall x c2 u T, In (x, c2, u, T) runs ->
    match q_compare n Ms x T w' u with
    | Some (g, h, q) => nontrivial_relation n G H Q g h q
    | None => sum_S (min (length Ms) n) (fun t => quad (nth t Ms []) (firstn (n - 2) w') * spow x (S t))%S = s0
    end).
  { intros x c2 u T HI. destruct (HR x c2 u T HI) as (Hx & Lu & D2 & GT & HP).
    assert (S0 := C24_qesa_batched_soundness tr G H Q n Ms c1 c2 x T Hn HG HH HM HF Hx GT HP).
    unfold q_compare. destruct (q_extract n Ms x T) as [v u2 c|g h q]; [|exact S0].
    destruct S0 as (Lv & Lu2 & EP & _ & ES).
    rewrite (dec_Some _ _ D1), (dec_Some _ _ D2) in EP.
    destruct (all_zero (map2 ssub v w') && all_zero (map2 ssub u2 u)) eqn:EZ.
    - apply andb_true_iff in EZ as [Z1 _]. apply all_zero_eq in Z1; [|lia]. subst v.
      assert (EW : set_first (s1 + x * x * (sc w' 0 - s1))%S w' = w').
      { apply (list_eq_nth s0); [apply set_first_length|]. intros i Hi. rewrite set_first_length in Hi.
        change (sc (set_first (s1 + x * x * (sc w' 0 - s1))%S w') i = sc w' i).
        rewrite sc_set_first by auto. destruct (Nat.eqb_spec i 0) as [->|]; auto. rewrite H0. ring. }
      rewrite EW in ES. rewrite <- ES. apply sum_S_ext. intros t Ht. ring.
    - apply nontrivial_diff; auto. rewrite !lin_comb by lia. auto. }
  assert (DX : (exists x c2 u T g h q, In (x, c2, u, T) runs /\ q_compare n Ms x T w' u = Some (g, h, q)) \/
               (forall x c2 u T, In (x, c2, u, T) runs -> q_compare n Ms x T w' u = None)).
  { clear -runs. induction runs as [|[[[x c2] u] T] l IH].
    - right. intros x c2 u T [].
    - destruct (q_compare n Ms x T w' u) as [[[g h] q]|] eqn:EQ.
      + left. exists x, c2, u, T, g, h, q. split; [now left|auto].
      + destruct IH as [(x1 & c21 & u1 & T1 & g & h & q & HI & HE)|IH].
        * left. exists x1, c21, u1, T1, g, h, q. split; [now right|auto].
        * right. intros x1 c21 u1 T1 [EI|HI]; [injection EI as <- <- <- <-; auto|eauto]. }
  destruct DX as [(x & c2 & u & T & g & h & q & HI & HE)|DX].
  - left. exists x, c2, u, T, g, h, q. split; [auto|]. split; [auto|].
    assert (E := EC x c2 u T HI). now rewrite HE in E.
  - right. apply (poly_zero_sum1 _ _ (map (fun '(x, _, _, _) => x) runs)); auto.
    + now rewrite map_length.
    + apply Forall_forall. intros x Hx. apply in_map_iff in Hx as [[[[y c2] u] T] [<- HI]].
      now destruct (HR y c2 u T HI).
    + intros x Hx. apply in_map_iff in Hx as [[[[y c2] u] T] [<- HI]].
      assert (E := EC y c2 u T HI). now rewrite (DX y c2 u T HI) in E.
Qed.

Corollary C24_qesa_soundness_independent tr (G H : list Point) (Q : Point) n Ms c1 (w' : list Scalar)
    (runs : list (Scalar * Compressed * list Scalar * sb_trees)) :
  independent n G H Q -> length Ms <= n ->
  3 <= n -> length G = n -> length H = n -> 1 <= length Ms -> Forall (rect (n - 2) (n - 2)) Ms ->
  length w' = n -> sc w' 0 = s1 -> decompress c1 = Some (comb w' G) ->
  length Ms <= length runs -> NoDup (map (fun '(x, _, _, _) => x) runs) ->
  (forall x c2 u T, In (x, c2, u, T) runs ->
     x <> s0 /\ length u = n /\ decompress c2 = Some (comb u H) /\ good_sb n T /\
     sb_paths T (q_accepts_along tr G H Q n Ms c1 c2 x)) ->
  forall t, t < length Ms -> quad (nth t Ms []) (firstn (n - 2) w') = s0.
Proof.
  intros HI Hle Hn HG HH HM HF Lw H0 D1 HN HND HR t Ht.
  destruct (C24_qesa_soundness tr G H Q n Ms c1 w' runs) as [(x & c2 & u & T & g & h & q & _ & _ & HR2)|HS]; auto.
  - lia.
  - exfalso. exact (HI _ _ _ HR2).
  - apply HS. lia.
Qed.
End QSound.

(** n = 4, one equation w_1 = 2 w_0, honest witness (1,2) with blinding (5,9), x = 3;
    three s, three b, three beta, two alpha, four challenges per round. Along the branches with
    the first s and the first b, 96 runs of the verifier, all accepting; the extractor
    returns the witness. *)
Section C24case.
Let Ms : list (list (list (@Scalar FS))) := [ [[fN (-2); fN 1]; [fN 0; fN 0]] ].
Let Gs : list (@Point FS) := [qN 5; qN 11; qN 3; qN 8].
Let Hs : list (@Point FS) := [qN 2; qN 9; qN 6; qN 13].
Let x := fN 3. Let Q := qN 680.
Let w := [fN 1; fN 2; fN 5; fN 9].
Let G' := q_G (x * x)%S Gs.
Let Gm' := q_gamma' 4 (q_gamma 4 Ms x).
Let u := mv 4 Gm' w.
Let c1 := compress (comb w Gs). Let c2 := compress (comb u Hs).
Let av s b := map2 ssub w (q_s' 4 s b).
Let bv s b := map2 sadd u (mtv 4 Gm' (q_s' 4 s b)).
Let alphas s b beta : alpha_trees :=
  let sub alpha := htree (fN 1, fN 2, fN 3, fN 4) 2 G' Hs (sinv alpha *: Q)%P (vscale beta (av s b)) (vscale beta (bv s b)) in
  mkAT (fN 2) (sub (fN 2)) (fN 4) (sub (fN 4)).
Let betas s b : beta_trees :=
  mkBT (compress p0) (fN 5) (alphas s b (fN 5)) (fN 6) (alphas s b (fN 6)) (fN 9) (alphas s b (fN 9)).
Let T : sb_trees := map (fun s => (fN s, map (fun b => (fN b, betas (fN s) (fN b))) [4; 5; 6]%Z)) [1; 2; 7]%Z.
Let pre s b beta alpha (tr : @transcript FS) :=
  match length tr with 2 => x | 4 => s | 5 => b | 8 => beta | _ => alpha end.
Let check s b beta alpha p : bool :=
  match inner_verify (path_ro 11 (pre s b beta alpha) p) []
          (mkInner (mkAlmZK (compress p0) (path_proof p)) c1 c2) Gs Hs Q (mkBlockMatrix Ms) with
  | Ok (true, _) => true | _ => false end.
Let checks s b beta (B : alpha_trees) : bool :=
  forallb (check s b beta (at_alpha B)) (paths (at_T B)) &&
  forallb (check s b beta (at_alpha' B)) (paths (at_T' B)).
Let is_wit (e : @extracted FS) : Prop :=
  match e with
  | Wit v u' _ => (map zf v = [1; 2; 5; 9] /\ map zf u' = map zf u)%Z
  | Rel _ _ _ => False
  end.
Example C24_case :
  forallb (fun '(s, b, B) =>
    checks s b (bt_b1 B) (bt_B1 B) && checks s b (bt_b2 B) (bt_B2 B) && checks s b (bt_b3 B) (bt_B3 B))
    (firstn 1 (sb_leaves T)) = true /\
  is_wit (q_extract 4 Ms x T) /\
  match q_compare 4 Ms x T w u with None => true | Some _ => false end = true /\
  (** openings that do not match yield a relation *)
  match q_compare 4 Ms x T [fN 1; fN 3; fN 5; fN 9] u with
  | Some (g, h, q) => (map zf g = [0; 1008; 0; 0] /\ map zf h = [0; 0; 0; 0])%Z | None => False end.
Proof. vm_compute. repeat split. Qed.
End C24case.
