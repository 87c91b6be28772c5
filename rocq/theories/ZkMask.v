(** The mask as a function of the drawn word: from size 8 on no draw is overwritten. *)
From Verif Require Export ZkView.
Local Open Scope nat_scope.
Local Open Scope list_scope.

Section Mask.
Context {C : Crypto} {L : CryptoLaws C}.
Add Field SfZM : (@S_field C L).

Fixpoint pow_list (k : nat) : list nat :=
  match k with O => [0; 1] | S j => pow_list j ++ [2 ^ S j; 2 ^ S j + 1] end.
Lemma pow_list_lt k : forall i, In i (pow_list k) -> i < 2 ^ S k.
Proof.
  induction k as [|k IH]; intros i Hi.
  - cbn in Hi. change (2 ^ 1) with 2. lia.
  - assert (E : 2 ^ S (S k) = 2 * 2 ^ S k) by apply Nat.pow_succ_r'.
    assert (P : 2 <= 2 ^ S k) by (rewrite Nat.pow_succ_r'; assert (1 <= 2 ^ k) by apply pow2_pos; lia).
    cbn [pow_list] in Hi. apply in_app_or in Hi as [Hi|[<-|[<-|[]]]]; [apply IH in Hi|..]; lia.
Qed.
Lemma pow_list_NoDup k : NoDup (pow_list k).
Proof.
  induction k as [|k IH]; cbn [pow_list]; [repeat (constructor; cbn; [lia|]); constructor|].
  apply NoDup_app; auto.
  - constructor; [intros [E|[]]; lia|constructor; [intros []|constructor]].
  - intros i Hi [<-|[<-|[]]]; apply pow_list_lt in Hi; lia.
Qed.
Lemma pow_list_length k : length (pow_list k) = 2 * k + 2.
Proof. induction k as [|k IH]; [reflexivity|]. cbn [pow_list]. rewrite app_length, IH. cbn. lia. Qed.
Lemma pow_list_mask k d : k <= d -> forall i, In i (pow_list k) -> in_mn_plus (2 ^ S d) i.
Proof.
  intros Hk. induction k as [|k IH]; intros i Hi.
  - destruct Hi as [<-|[<-|[]]]; [now left|right; now left].
  - cbn [pow_list] in Hi. apply in_app_or in Hi as [Hi|Hi]; [apply IH; auto; lia|].
    right; right; left. exists (S k). split; [lia|]. split; [apply Nat.pow_le_mono_r; lia|].
    destruct Hi as [<-|[<-|[]]]; auto.
Qed.
(** the 2d + 4 positions of a mask of length 2^(d+1) *)
Definition mask_positions (d : nat) : list nat := pow_list d ++ [2 ^ S d - 2; 2 ^ S d - 1].
Lemma size8 d : 2 <= d -> 2 ^ d + 4 <= 2 ^ S d.
Proof. intros H. assert (2 ^ 2 <= 2 ^ d) by (apply Nat.pow_le_mono_r; lia). change (2 ^ 2) with 4 in H0. rewrite Nat.pow_succ_r'. lia. Qed.
Lemma pow_list_lt' k : 1 <= k -> forall i, In i (pow_list k) -> i <= 2 ^ k + 1.
Proof.
  intros Hk i Hi. destruct k as [|k]; [lia|]. cbn [pow_list] in Hi.
  apply in_app_or in Hi as [Hi|[<-|[<-|[]]]]; [apply pow_list_lt in Hi|..]; lia.
Qed.
Lemma mask_positions_NoDup d : 2 <= d -> NoDup (mask_positions d).
Proof.
  intros Hd. assert (X := size8 d Hd). unfold mask_positions. apply NoDup_app.
  - apply pow_list_NoDup.
  - constructor; [intros [E|[]]; lia|constructor; [intros []|constructor]].
  - intros i Hi Hj. assert (Y := pow_list_lt' d ltac:(lia) i Hi). destruct Hj as [<-|[<-|[]]]; lia.
Qed.
Lemma mask_positions_length d : length (mask_positions d) = 2 * d + 4.
Proof. unfold mask_positions. rewrite app_length, pow_list_length. cbn. lia. Qed.
Lemma mask_positions_In d i : 2 <= d -> In i (mask_positions d) -> i < 2 ^ S d /\ in_mn_plus (2 ^ S d) i.
Proof.
  intros Hd Hi. assert (X := size8 d Hd). unfold mask_positions in Hi. apply in_app_or in Hi as [Hi|Hi].
  - split; [now apply pow_list_lt|now apply (pow_list_mask d)].
  - destruct Hi as [<-|[<-|[]]]; (split; [lia|]); right; right; right; auto.
Qed.

Lemma pow_list_pow k j : j <= k -> In (2 ^ j) (pow_list k) /\ (1 <= j -> In (2 ^ j + 1) (pow_list k)).
Proof.
  induction k as [|k IH]; intros Hj.
  - replace j with 0 by lia. cbn. split; [auto|lia].
  - cbn [pow_list]. destruct (Nat.eq_dec j (S k)) as [->|Hne].
    + split; [|intros _]; apply in_or_app; right; cbn [In]; auto.
    + destruct IH as [I1 I2]; [lia|]. split; [|intros H]; apply in_or_app; left; auto.
Qed.
Lemma pow_list_01 k : In 0 (pow_list k) /\ In 1 (pow_list k).
Proof. induction k as [|k [I1 I2]]; cbn [pow_list]; [cbn; auto|]. split; apply in_or_app; auto. Qed.
Lemma mask_positions_all d i : i < 2 ^ S d -> in_mn_plus (2 ^ S d) i -> In i (mask_positions d).
Proof.
  intros Hi Mi. unfold mask_positions. apply in_or_app. destruct (pow_list_01 d) as [P0 P1].
  destruct Mi as [->|[->|[(k & H1 & H2 & H3)|[->| ->]]]]; auto; [|right; cbn; auto|right; cbn; auto]. left.
  assert (Hk : k <= d).
  { destruct (Nat.le_gt_cases k d) as [|H]; auto. assert (2 ^ S d <= 2 ^ k) by (apply Nat.pow_le_mono_r; lia). lia. }
  destruct (pow_list_pow d k Hk) as [X1 X2]. destruct H3 as [->| ->]; auto.
Qed.

(** every draw is an entry of the mask *)
Lemma mask_draws pos d : 2 <= d ->
  exists src, (forall rng, exists m, sample_m_n_plus rng pos (2 ^ S d) = Ok (m, pos + 2 * d + 4) /\ length m = 2 ^ S d /\
     (forall i, i < 2 ^ S d -> in_mn_plus (2 ^ S d) i -> sc m i = rng (src i) /\ pos <= src i < pos + 2 * d + 4) /\
     (forall i, i < 2 ^ S d -> ~ in_mn_plus (2 ^ S d) i -> sc m i = s0)) /\
  (forall k, pos <= k < pos + 2 * d + 4 -> exists i, i < 2 ^ S d /\ in_mn_plus (2 ^ S d) i /\ src i = k) /\
  (forall i j, i < 2 ^ S d -> j < 2 ^ S d -> in_mn_plus (2 ^ S d) i -> in_mn_plus (2 ^ S d) j -> src i = src j -> i = j).
Proof.
  intros Hd. assert (Hn : 2 <= 2 ^ S d) by (assert (X := size8 d Hd); assert (1 <= 2 ^ d) by apply pow2_pos; lia).
  destruct (C12_mask_support pos (2 ^ S d) Hn) as (p & src & X).
  assert (Ep : p = pos + 2 * d + 4).
  { destruct (X (fun _ => s0)) as (r & E & _). exact (sample_pos _ pos d r p E). }
  subst p. exists src. split; [|split].
  - intros rng. destruct (X rng) as (m & E & Hl & H1 & H2 & H3). exists m. split; [exact E|]. split; [exact Hl|]. split; auto.
  - destruct (X (fun _ => s0)) as (m & E & Hl & H1 & H2 & H3). intros k Hk.
    set (P := mask_positions d).
    assert (I : incl (seq pos (2 * d + 4)) (map src P)).
    { apply NoDup_length_incl.
      - assert (Y : forall l, (forall i, In i l -> In i P) -> NoDup l -> NoDup (map src l)).
        { induction l as [|i l IH]; intros Hl' Nl; cbn; [constructor|]. inversion Nl; subst. constructor.
          - intros Z. apply in_map_iff in Z as (j & Ej & Hj). assert (i = j).
            { destruct (mask_positions_In d i Hd (Hl' i (or_introl eq_refl))).
              destruct (mask_positions_In d j Hd (Hl' j (or_intror Hj))). now apply H3. } subst j. contradiction.
          - apply IH; auto. intros j Hj. apply Hl'. now right. }
        apply Y; auto. now apply mask_positions_NoDup.
      - rewrite map_length, seq_length. unfold P. rewrite mask_positions_length. lia.
      - intros j Hj. apply in_map_iff in Hj as (i & <- & Hi). destruct (mask_positions_In d i Hd Hi) as [Y1 Y2].
        destruct (H1 i Y1 Y2) as [_ Y3]. apply in_seq. lia. }
    assert (Z : In k (map src P)) by (apply I, in_seq; lia).
    apply in_map_iff in Z as (i & <- & Hi). exists i. destruct (mask_positions_In d i Hd Hi). auto.
  - destruct (X (fun _ => s0)) as (m & E & Hl & H1 & H2 & H3). intros i j Hi Hj Mi Mj. now apply H3.
Qed.
End Mask.
