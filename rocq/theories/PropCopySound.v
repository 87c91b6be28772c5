(** End-to-end special soundness of the copy argument: C64 *)
From Coq Require Import String.
From Verif Require Import Poly KaryFacts CopyFacts PropQesaSound PropMapping PropCopy Basis Ex ExSmall.
Local Open Scope nat_scope.
Local Open Scope list_scope.

Section C64.
Context {C : Crypto} {L : CryptoLaws C}.
Add Field SfC64 : (@S_field C L).

(** the copy verifier accepts in a run with the given challenges; c1' is the
    commitment stored in the inner proof, which verify does not use *)
Definition cp_accepts_along tr (G H : list Point) (Q : Point) n Ms mp Cs (cw : Compressed) (al : Scalar)
    (c2 : Compressed) (x s b : Scalar) (Crc : Compressed) (beta alpha : Scalar) (p : ipa_path) : Prop :=
  let '(rounds, a0, b0) := p in
  let Lc := map (fun '(l, r, x) => compress l) rounds in
  let Rc := map (fun '(l, r, x) => compress r) rounds in
  exists ro tr' c1',
    copy_verify ro tr (mkCopy cw (mkInner (mkAlmZK Crc (mkNoZK Lc Rc a0 b0)) c1' c2)) G H Q
      (mkBlockMatrix Ms) mp Cs = Ok (true, tr') /\
    ro (cp_hist tr cw) = al /\
    let Ms := cp_system n mp al Ms in
    let c1 := compress (cp_agg al (dec cw) Cs) in
    let tr := cp_hist tr cw in
    ro (q_hist_x tr c1) = x /\ ro (q_hist_s tr c1 c2) = s /\ ro (q_hist_b tr c1 c2) = b /\
    let Cw := q_Cw n G H Ms x s b (dec c1) (dec c2) in
    let tr1 := q_hist_w tr c1 c2 (compress Cw) in
    ro (alm_beta_hist tr1 Crc) = beta /\
    let tr2 := alm_ipa_hist tr1 Crc (alm_P beta (q_t n Ms x s) Cw (dec Crc) Q) in
    ro (ipa_start tr2 n) = alpha /\
    (forall j l r x, nth_error rounds j = Some (l, r, x) -> ro (ipa_hist tr2 n (combine Lc Rc) (S j)) = x).

Lemma cp_accepts_q tr (G H : list Point) Q n Ms mp Cs cw Cw al c2 x s b Crc beta alpha p :
  3 <= n -> length G = n -> good_map n (length Cs) mp -> 1 <= length Cs -> decompress cw = Some Cw ->
  cp_accepts_along tr G H Q n Ms mp Cs cw al c2 x s b Crc beta alpha p ->
  q_accepts_along (cp_hist tr cw) G H Q n (cp_system n mp al Ms) (compress (cp_agg al Cw Cs)) c2 x s b Crc beta alpha p.
Proof.
  intros Hn HG HM HC HD. destruct p as [[rounds a0] b0]. unfold cp_accepts_along, q_accepts_along. cbv zeta.
  intros (ro & tr' & c1' & V & E1 & E2 & E3 & E4 & E5 & E6 & E7).
  rewrite (dec_Some _ _ HD) in *.
  rewrite (copy_verify_eq _ _ _ _ _ _ _ _ _ n Cw) in V by auto. cbn [cp_C_w cp_inner alm_zk c_prime_prime_w] in V.
  rewrite E1 in V. exists ro, tr'. repeat (split; [assumption|]). assumption.
Qed.

(** the vector opened by the aggregated commitment *)
Definition cp_full (n : nat) (sets : list (list N)) (msgs : list (list Scalar)) (rs w' : list Scalar) (al : Scalar) :=
  tab n (fun i => sc w' i + sum_S (length sets) (fun k => spow al (S k)
     * (cp_opened sets msgs k i + if Nat.eqb i (n - 1) then sc rs k else s0)))%S.

Lemma commit_value_full (G : list Point) sets msgs k r : 1 <= length G ->
  (forall i, In i (nth k sets []) -> N.to_nat i < length G) ->
  commit_value G (nth k sets []) (nth k msgs []) r =
  sum_P (length G) (fun i => (cp_opened sets msgs k i + if Nat.eqb i (length G - 1) then r else s0)%S *: pt G i)%P.
Proof.
  intros HG Hi. set (ix := nth k sets []) in *. set (m := nth k msgs []). set (e := length G - 1).
  assert (Hix : forall j, j < length ix -> N.to_nat (nth j ix 0%N) < length G) by (intros j Hj; apply Hi, nth_In, Hj).
  symmetry.
  transitivity (sum_P (length G) (fun i => sum_P (length ix) (fun j =>
     (if Nat.eqb (N.to_nat (nth j ix 0%N)) i then sc m j else s0) *: pt G i)
     + (if Nat.eqb i e then r else s0)%S *: pt G i))%P.
  { apply sum_P_ext. intros i Hi'. rewrite <- pmul_sum_S. unfold cp_opened. fold ix m. pring. }
  rewrite sum_P_add, sum_P_swap. unfold commit_value. f_equal.
  - apply sum_P_ext. intros j Hj. rewrite (sum_P_single _ (N.to_nat (nth j ix 0%N))); auto.
    + now rewrite Nat.eqb_refl.
    + intros i _ Hne'. destruct (Nat.eqb_spec (N.to_nat (nth j ix 0%N)) i); [congruence|apply pmul_0_l].
  - rewrite (sum_P_single _ e); [now rewrite Nat.eqb_refl|unfold e; lia|].
    intros i _ Hne'. destruct (Nat.eqb_spec i e); [congruence|apply pmul_0_l].
Qed.
Lemma cp_agg_full (G : list Point) n sets msgs rs w' al Cs : length G = n -> 1 <= n -> length w' = n ->
  length Cs = length sets ->
  (forall s i, In s sets -> In i s -> N.to_nat i < n) ->
  (forall k, k < length sets -> commit G (nth k sets []) (nth k msgs []) (sc rs k) = Ok (pt Cs k)) ->
  cp_agg al (comb w' G) Cs = comb (cp_full n sets msgs rs w' al) G.
Proof.
  intros HG Hn Lw LC Hi HC. unfold cp_agg. rewrite LC.
  rewrite (sum_P_ext _ _ (fun k => spow al (S k) *: sum_P n (fun i =>
    (cp_opened sets msgs k i + if Nat.eqb i (n - 1) then sc rs k else s0)%S *: pt G i))%P).
  2:{ intros k Hk. f_equal. specialize (HC k Hk). apply commit_inv in HC as (_ & _ & _ & ->).
      rewrite commit_value_full; [now rewrite HG|lia|]. intros i Hin. rewrite HG. apply (Hi (nth k sets [])); auto.
      now apply nth_In. }
  rewrite (sum_P_ext _ _ (fun k => sum_P n (fun i => (spow al (S k) *
    (cp_opened sets msgs k i + if Nat.eqb i (n - 1) then sc rs k else s0))%S *: pt G i))%P).
  2:{ intros k Hk. rewrite <- sum_P_mul. apply sum_P_ext. intros i _. pring. }
  rewrite sum_P_swap. unfold comb. unfold cp_full at 1. rewrite tab_length, Lw, <- sum_P_add.
  apply sum_P_ext. intros i Hi'. rewrite <- pmul_sum_S. unfold sc at 3, cp_full. rewrite tab_nth by auto. pring.
Qed.

Lemma spow_add x a b : spow x (a + b) = (spow x a * spow x b)%S.
Proof. induction a as [|a IH]; cbn [Nat.add spow]; [ring|]. rewrite IH. ring. Qed.
Lemma nth_firstn_lt {A} k (l : list A) i d : i < k -> nth i (firstn k l) d = nth i l d.
Proof.
  revert l i; induction k as [|k IH]; intros [|a l] [|i] Hi; cbn; try lia; auto. apply IH. lia.
Qed.
(** bilinear form *)
Definition bil (m : nat) (M : list (list Scalar)) (f g : nat -> Scalar) : Scalar :=
  sum_S m (fun i => sum_S m (fun j => f i * ent M i j * g j)%S).
(** quad M of sum_a al^a u_a as a polynomial in al *)
Lemma quad_poly m M (K : nat) (u : nat -> nat -> Scalar) (al : Scalar) w : length w = m ->
  (forall i, i < m -> sc w i = sum_S (S K) (fun a => spow al a * u a i)%S) ->
  quad M w = sum_S (S (2 * K)) (fun c => sum_S (S K) (fun a => sum_S (S K) (fun b =>
     if a + b =? c then bil m M (u a) (u b) else s0)) * spow al c)%S.
Proof.
  intros Lw Hw.
  transitivity (sum_S (S K) (fun a => sum_S (S K) (fun b => spow al (a + b) * bil m M (u a) (u b))%S)).
  - unfold quad. rewrite Lw.
    transitivity (sum_S m (fun i => sum_S m (fun j => sum_S (S K) (fun a => sum_S (S K) (fun b =>
      spow al a * u a i * ent M i j * (spow al b * u b j))%S)))).
    { apply sum_S_ext. intros i Hi. apply sum_S_ext. intros j Hj. rewrite (Hw i Hi), (Hw j Hj).
      transitivity (ent M i j * sum_S (S K) (fun b => spow al b * u b j) * sum_S (S K) (fun a => spow al a * u a i))%S; [ring|].
      rewrite <- sum_S_mul. apply sum_S_ext. intros a _.
      transitivity ((spow al a * u a i * ent M i j) * sum_S (S K) (fun b => spow al b * u b j))%S; [ring|].
      rewrite <- sum_S_mul. apply sum_S_ext. intros b _. ring. }
    transitivity (sum_S m (fun i => sum_S (S K) (fun a => sum_S m (fun j => sum_S (S K) (fun b =>
      spow al a * u a i * ent M i j * (spow al b * u b j))%S)))).
    { apply sum_S_ext. intros i _. apply sum_S_swap. }
    rewrite sum_S_swap. apply sum_S_ext. intros a _.
    transitivity (sum_S m (fun i => sum_S (S K) (fun b => sum_S m (fun j =>
      spow al a * u a i * ent M i j * (spow al b * u b j))%S))).
    { apply sum_S_ext. intros i _. apply sum_S_swap. }
    rewrite sum_S_swap. apply sum_S_ext. intros b _. unfold bil. rewrite <- sum_S_mul.
    apply sum_S_ext. intros i _. rewrite <- sum_S_mul. apply sum_S_ext. intros j _. rewrite spow_add. ring.
  - transitivity (sum_S (S K) (fun a => sum_S (S K) (fun b => sum_S (S (2 * K)) (fun c =>
      spow al c * if a + b =? c then bil m M (u a) (u b) else s0)%S))).
    { apply sum_S_ext. intros a Ha. apply sum_S_ext. intros b Hb. rewrite (sum_S_single _ (a + b)).
      - now rewrite Nat.eqb_refl.
      - lia.
      - intros c _ Hc. destruct (Nat.eqb_spec (a + b) c); [congruence|ring]. }
    transitivity (sum_S (S K) (fun a => sum_S (S (2 * K)) (fun c => sum_S (S K) (fun b =>
      spow al c * if a + b =? c then bil m M (u a) (u b) else s0)%S))).
    { apply sum_S_ext. intros a _. apply sum_S_swap. }
    rewrite sum_S_swap. apply sum_S_ext. intros c _.
    transitivity (spow al c * sum_S (S K) (fun a => sum_S (S K) (fun b =>
       if a + b =? c then bil m M (u a) (u b) else s0)))%S; [|ring].
    rewrite <- sum_S_mul. apply sum_S_ext. intros a _. now rewrite <- sum_S_mul.
Qed.
Lemma quad_poly_zero m M (K : nat) (u : nat -> nat -> Scalar) (als : list Scalar) (W : Scalar -> list Scalar) v :
  NoDup als -> 2 * K < length als -> length v = m -> (forall i, i < m -> sc v i = u 0 i) ->
  (forall al, In al als -> length (W al) = m /\
     (forall i, i < m -> sc (W al) i = sum_S (S K) (fun a => spow al a * u a i)%S) /\ quad M (W al) = s0) ->
  quad M v = s0.
Proof.
  intros HN Hl Lv Hv HW.
  set (f := fun c => sum_S (S K) (fun a => sum_S (S K) (fun b =>
     if a + b =? c then bil m M (u a) (u b) else s0))).
  assert (F : f 0 = s0).
  { apply (poly_zero_sum (S (2 * K)) f als); auto; [|lia]. intros al Ha. destruct (HW al Ha) as (LW & EW & EQ).
    rewrite <- EQ. symmetry. now apply quad_poly. }
  rewrite <- F. unfold f. rewrite (sum_S_single _ 0); [|lia|].
  - rewrite (sum_S_single _ 0); [|lia|].
    + unfold quad, bil. cbn [Nat.add Nat.eqb]. rewrite Lv. apply sum_S_ext. intros i Hi. apply sum_S_ext.
      intros j Hj. now rewrite (Hv i Hi), (Hv j Hj).
    + intros b _ Hb. destruct (Nat.eqb_spec (0 + b) 0); [lia|auto].
  - intros a _ Ha. apply sum_S_0. intros b _. destruct (Nat.eqb_spec (a + b) 0); [lia|auto].
Qed.

Lemma list_or {A} (P Q : A -> Prop) l : (forall a, In a l -> P a \/ Q a) ->
  (exists a, In a l /\ P a) \/ forall a, In a l -> Q a.
Proof.
  induction l as [|a l IH]; intros H; [right; intros a []|].
  destruct (H a (or_introl eq_refl)) as [Ha|Ha]; [left; exists a; auto; split; auto; now left|].
  destruct IH as [(b & Hb & Pb)|IH]; [intros b Hb; apply H; now right|left; exists b; split; auto; now right|].
  right. intros b [<-|Hb]; auto.
Qed.

(** C64: C_w opened by w' (first entry 1), the commitments opened by messages, and
    for more than 2 K challenges al accepting runs as in C24. Then either the
    relation finder returns a non-trivial relation between the generators, or w'
    satisfies every equation of the caller, contains every committed message at
    the position assigned to it and is zero at every commitment index. *)
Theorem C64_copy_soundness tr (G H : list Point) (Q : Point) n Ms (ws : N) (sets : list (list N)) mp
    (msgs : list (list Scalar)) (rs : list Scalar) (Cs : list Point) cw (w' : list Scalar)
    (aruns : list (Scalar * list (Scalar * Compressed * list Scalar * sb_trees))) :
  3 <= n -> (N.of_nat n < 65536)%N -> (ws < 65536)%N -> (N.of_nat (length sets) <= 65536)%N ->
  length G = n -> length H = n -> Forall (rect (n - 2) (n - 2)) Ms ->
  (forall s i, In s sets -> In i s -> 1 <= N.to_nat i < n - 2) -> Forall (@NoDup N) sets ->
  compute_mapping (N.of_nat n) ws sets = Ok mp ->
  length Ms + length (unique_commitment_indices mp) <= n ->
  length Cs = length sets ->
  (forall k, k < length sets -> commit G (nth k sets []) (nth k msgs []) (sc rs k) = Ok (pt Cs k)) ->
  length w' = n -> sc w' 0 = s1 -> decompress cw = Some (comb w' G) ->
  NoDup (map fst aruns) -> 2 * length sets < length aruns ->
  (forall al runs, In (al, runs) aruns ->
     length Ms + length (unique_commitment_indices mp) <= length runs /\
     NoDup (map (fun '(x, _, _, _) => x) runs) /\
     forall x c2 u T, In (x, c2, u, T) runs ->
       x <> s0 /\ length u = n /\ decompress c2 = Some (comb u H) /\ good_sb n T /\
       sb_paths T (cp_accepts_along tr G H Q n Ms mp Cs cw al c2 x)) ->
  (exists al runs x c2 u T g h q, In (al, runs) aruns /\ In (x, c2, u, T) runs /\
     q_compare n (cp_system n mp al Ms) x T (cp_full n sets msgs rs w' al) u = Some (g, h, q) /\
     nontrivial_relation n G H Q g h q) \/
  ((forall M, In M Ms -> quad M (firstn (n - 2) w') = s0) /\
   (forall k j, k < length sets -> j < length (nth k sets []) ->
      exists m, nth_error (msgs_map mp) (cm_offset sets k + j) = Some m /\
        sc (nth k msgs []) j = sc w' (mpos m)) /\
   (forall s i, In s sets -> In i s -> sc w' (N.to_nat i) = s0)).
Proof.
  intros Hn Hn16 Hws HK HG HH HF Hidx HND Emp Hle LC HC Lw H0 D1 HNa Hla HR.
  destruct (compute_mapping_good n ws sets mp Hn16 Hws Emp HK) as (HM & _ & HI).
  { intros s i Hs Hi. apply (Hidx s i Hs Hi). }
  assert (HS1 : 1 <= length sets).
  { apply compute_mapping_inv in Emp as (_ & HT & _). destruct sets; [cbn in HT; lia|cbn; lia]. }
  assert (HU1 : 1 <= length (unique_commitment_indices mp)).
  { destruct (C29_metadata _ _ sets _ ltac:(lia) Emp) as (_ & _ & _ & _ & Hun & _).
    assert (HT := Emp). apply compute_mapping_inv in HT as (_ & HT & _).
    assert (exists s i, In s sets /\ In i s) as (s & i & Hs & Hi).
    { clear -HT. induction sets as [|s sets IH]; [cbn in HT; lia|]. destruct s as [|i s].
      - destruct IH as (s' & i & Hs & Hi); [exact HT|]. exists s', i. split; auto. now right.
      - exists (i :: s), i. split; now left. }
    assert (Hin : In i (unique_commitment_indices mp)) by (apply Hun; eauto).
    destruct (unique_commitment_indices mp); [contradiction|cbn; lia]. }
  set (v := firstn (n - 2) w').
  assert (Lv : length v = n - 2) by (unfold v; rewrite firstn_length; lia).
  assert (Ev : forall i, i < n - 2 -> sc v i = sc w' i).
  { intros i Hi. unfold v, sc. now apply nth_firstn_lt. }
  assert (Hop0 : forall k i, i = 0 \/ n - 2 <= i -> k < length sets -> cp_opened sets msgs k i = s0).
  { intros k i Hi Hk. unfold cp_opened. apply sum_S_0. intros j Hj.
    destruct (Nat.eqb_spec (N.to_nat (nth j (nth k sets []) 0%N)) i) as [E|]; auto. exfalso.
    assert (Hb := Hidx (nth k sets []) (nth j (nth k sets []) 0%N) (nth_In _ _ Hk) (nth_In _ _ Hj)). lia. }
  assert (EF : forall al, firstn (n - 2) (cp_full n sets msgs rs w' al) = cp_final n sets msgs v al).
  { intros al. apply (nth_ext _ _ s0 s0).
    - unfold cp_full, cp_final. rewrite firstn_length, !tab_length. lia.
    - intros i Hi. unfold cp_full in Hi. rewrite firstn_length, tab_length in Hi. rewrite nth_firstn_lt by lia.
      unfold cp_full, cp_final. rewrite !tab_nth by lia. rewrite Ev by lia. f_equal. apply sum_S_ext.
      intros k Hk. destruct (Nat.eqb_spec i (n - 1)); [lia|ring]. }
  destruct (list_or
    (fun '(al, runs) => exists x c2 u T g h q, In (x, c2, u, T) runs /\
       q_compare n (cp_system n mp al Ms) x T (cp_full n sets msgs rs w' al) u = Some (g, h, q) /\
       nontrivial_relation n G H Q g h q)
    (fun '(al, runs) => forall M, In M (cp_system n mp al Ms) -> quad M (cp_final n sets msgs v al) = s0)
    aruns) as [((al & runs) & Hin & HRel)|HQ].
  { intros [al runs] Hin. destruct (HR al runs Hin) as (Hlr & HNr & Hacc).
    assert (Lsys : length (cp_system n mp al Ms) = length Ms + length (unique_commitment_indices mp)).
    { unfold cp_system. now rewrite app_length, map_length. }
    destruct (C24_qesa_soundness (cp_hist tr cw) G H Q n (cp_system n mp al Ms)
      (compress (cp_agg al (comb w' G) Cs)) (cp_full n sets msgs rs w' al) runs) as [R|S]; auto.
    - lia.
    - now apply cp_system_rect.
    - apply tab_length.
    - unfold sc at 1, cp_full. rewrite tab_nth by lia. rewrite H0. rewrite sum_S_0; [ring|].
      intros k Hk. rewrite Hop0 by auto. destruct (Nat.eqb_spec 0 (n - 1)); [lia|ring].
    - rewrite decompress_compress. f_equal. apply cp_agg_full; auto; [lia|].
      intros s i Hs Hi. specialize (Hidx s i Hs Hi). lia.
    - lia.
    - intros x c2 u T HT. destruct (Hacc x c2 u T HT) as (A1 & A2 & A3 & A4 & A5).
      split; auto. split; auto. split; auto. split; auto. intros s b B HB. specialize (A5 s b B HB).
      destruct A5 as ((P1 & P1') & (P2 & P2') & (P3 & P3')).
      split; [|split]; split; intros p Hp; apply cp_accepts_q; auto; try lia; rewrite LC; auto.
    - right. intros M HMin. apply (In_nth _ _ []) in HMin as (t & Ht & <-). rewrite <- EF. apply S. lia. }
  - left. destruct HRel as (x & c2 & u & T & g & h & q & HRel). exists al, runs, x, c2, u, T, g, h, q. tauto.
  - right.
    assert (HQ' : forall al, In al (map fst aruns) ->
      forall M, In M (cp_system n mp al Ms) -> quad M (cp_final n sets msgs v al) = s0).
    { intros al Ha. apply in_map_iff in Ha as ((al' & runs) & <- & Hin). apply (HQ _ Hin). }
    destruct (C56_copy_enforces_equality n ws sets mp msgs v (map fst aruns)) as [E1 E2]; auto.
    + rewrite Ev by lia. auto.
    + rewrite map_length. lia.
    + intros al c Ha Hc. exists (powers al (length sets)), (cp_matrix n mp al c).
      split; [now apply vandemonde_challenge_eq|]. split.
      * change verify_copy_matrix with create_copy_matrix. apply (copy_matrix_eq n (length sets)); auto.
        apply HM in Hc as (m & Hm & <-). now apply (gm_idx _ _ _ HM).
      * apply HQ'; auto. unfold cp_system. apply in_or_app. right. now apply in_map.
    + split; [|split].
      * intros M HMin.
        apply (quad_poly_zero (n - 2) M (length sets)
          (fun a i => match a with 0 => sc v i | S k => cp_opened sets msgs k i end)
          (map fst aruns) (cp_final n sets msgs v)); auto.
        -- rewrite map_length. lia.
        -- intros al Ha. split; [apply tab_length|]. split.
           ++ intros i Hi. rewrite sum_S_shift. unfold sc at 1, cp_final. rewrite tab_nth by auto. cbn [spow]. ring.
           ++ apply HQ'; auto. unfold cp_system. apply in_or_app. now left.
      * intros k j Hk Hj. destruct (E1 k j Hk Hj) as (m & Em & Es). exists m. split; auto.
        rewrite Es. apply Ev. apply (gm_pos _ _ _ HM). eapply nth_error_In; eauto.
      * intros s i Hs Hi. rewrite <- Ev by (apply (Hidx s i Hs Hi)). eauto.
Qed.

(** with independent generators the relation is impossible *)
Corollary C64_copy_soundness_independent tr (G H : list Point) (Q : Point) n Ms (ws : N) (sets : list (list N)) mp
    (msgs : list (list Scalar)) (rs : list Scalar) (Cs : list Point) cw (w' : list Scalar)
    (aruns : list (Scalar * list (Scalar * Compressed * list Scalar * sb_trees))) :
  independent n G H Q ->
  3 <= n -> (N.of_nat n < 65536)%N -> (ws < 65536)%N -> (N.of_nat (length sets) <= 65536)%N ->
  length G = n -> length H = n -> Forall (rect (n - 2) (n - 2)) Ms ->
  (forall s i, In s sets -> In i s -> 1 <= N.to_nat i < n - 2) -> Forall (@NoDup N) sets ->
  compute_mapping (N.of_nat n) ws sets = Ok mp ->
  length Ms + length (unique_commitment_indices mp) <= n ->
  length Cs = length sets ->
  (forall k, k < length sets -> commit G (nth k sets []) (nth k msgs []) (sc rs k) = Ok (pt Cs k)) ->
  length w' = n -> sc w' 0 = s1 -> decompress cw = Some (comb w' G) ->
  NoDup (map fst aruns) -> 2 * length sets < length aruns ->
  (forall al runs, In (al, runs) aruns ->
     length Ms + length (unique_commitment_indices mp) <= length runs /\
     NoDup (map (fun '(x, _, _, _) => x) runs) /\
     forall x c2 u T, In (x, c2, u, T) runs ->
       x <> s0 /\ length u = n /\ decompress c2 = Some (comb u H) /\ good_sb n T /\
       sb_paths T (cp_accepts_along tr G H Q n Ms mp Cs cw al c2 x)) ->
  (forall M, In M Ms -> quad M (firstn (n - 2) w') = s0) /\
  (forall k j, k < length sets -> j < length (nth k sets []) ->
     exists m, nth_error (msgs_map mp) (cm_offset sets k + j) = Some m /\
       sc (nth k msgs []) j = sc w' (mpos m)) /\
  (forall s i, In s sets -> In i s -> sc w' (N.to_nat i) = s0).
Proof.
  intros HI Hn Hn16 Hws HK HG HH HF Hidx HND Emp Hle LC HC Lw H0 D1 HNa Hla HR.
  destruct (C64_copy_soundness tr G H Q n Ms ws sets mp msgs rs Cs cw w' aruns)
    as [(al & runs & x & c2 & u & T & g & h & q & _ & _ & _ & R)|S]; auto.
  exfalso. exact (HI _ _ _ R).
Qed.
End C64.

(** n = 4, one commitment with index set {1} and message 1, whose position is 0 (so it must equal
    w_0 = 1); C_w opened by (1,0,5,9), three challenges al, one x each, three s, three b, three
    beta, two alpha, four challenges per round. Along the branches with the first s and the first
    b of each al, 288 runs of the copy verifier, all accepting;
    the extracted vectors are the openings of the aggregated commitments, and a different
    message would contradict them. *)
Section C64case.
Let Gs : list (@Point FS) := [qN 5; qN 11; qN 3; qN 8].
Let Hs : list (@Point FS) := [qN 2; qN 9; qN 6; qN 13].
Let sets : list (list N) := [[1%N]].
Let mp : Mapping := match compute_mapping 4 0 sets with Ok mp => mp | _ => mkMapping 0 [] [] 0%N end.
Let x := fN 3. Let Q := qN 680.
Let w := [fN 1; fN 0; fN 5; fN 9]. Let r1 := fN 4.
Let Cs := [match commit Gs [1%N] [fN 1] r1 with Ok c => c | _ => p0 end].
Let cw := compress (comb w Gs).
Let W al := cp_full 4 sets [[fN 1]] [r1] w al.
Let Ms (al : @Scalar FS) := cp_system 4 mp al [].
Let G' := q_G (x * x)%S Gs.
Let Gm' al := q_gamma' 4 (q_gamma 4 (Ms al) x).
Let u al := mv 4 (Gm' al) (W al).
Let c2 al := compress (comb (u al) Hs).
Let av al s b := map2 ssub (W al) (q_s' 4 s b).
Let bv al s b := map2 sadd (u al) (mtv 4 (Gm' al) (q_s' 4 s b)).
Let alphas al s b beta : alpha_trees :=
  let sub alpha := htree (fN 1, fN 2, fN 3, fN 4) 2 G' Hs (sinv alpha *: Q)%P (vscale beta (av al s b)) (vscale beta (bv al s b)) in
  mkAT (fN 2) (sub (fN 2)) (fN 4) (sub (fN 4)).
Let betas al s b : beta_trees :=
  mkBT (compress p0) (fN 5) (alphas al s b (fN 5)) (fN 6) (alphas al s b (fN 6)) (fN 9) (alphas al s b (fN 9)).
Let T al : sb_trees := map (fun s => (fN s, map (fun b => (fN b, betas al (fN s) (fN b))) [4; 5; 6]%Z)) [1; 2; 7]%Z.
Let pre al s b beta alpha (tr : @transcript FS) :=
  match length tr with 2 => al | 4 => x | 6 => s | 7 => b | 10 => beta | _ => alpha end.
Let check al s b beta alpha p : bool :=
  match copy_verify (path_ro 13 (pre al s b beta alpha) p) []
          (mkCopy cw (mkInner (mkAlmZK (compress p0) (path_proof p)) [] (c2 al))) Gs Hs Q (mkBlockMatrix []) mp Cs with
  | Ok (true, _) => true | _ => false end.
Let checks al s b beta (B : alpha_trees) : bool :=
  forallb (check al s b beta (at_alpha B)) (paths (at_T B)) &&
  forallb (check al s b beta (at_alpha' B)) (paths (at_T' B)).
Example C64_case :
  forallb (fun al => forallb (fun '(s, b, B) =>
    checks al s b (bt_b1 B) (bt_B1 B) && checks al s b (bt_b2 B) (bt_B2 B) && checks al s b (bt_b3 B) (bt_B3 B))
    (firstn 1 (sb_leaves (T al)))) [fN 2; fN 3; fN 5] = true /\
  match q_compare 4 (Ms (fN 5)) x (T (fN 5)) (W (fN 5)) (u (fN 5)) with None => true | Some _ => false end = true /\
  map (fun m => (mpos m, midx m, mcrs m)) (msgs_map mp) = [(0, 1, 0)] /\
  map zf (W (fN 5)) = [1; 5; 5; 29]%Z /\
  (* message 2 at a position that holds 1 *)
  zf (quad (nth 0 (Ms (fN 5)) []) (cp_final 4 sets [[fN 2]] (firstn 2 w) (fN 5))) = (1009 - 5)%Z.
Proof. vm_compute. repeat split. Qed.
End C64case.
