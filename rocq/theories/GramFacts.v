(** Facts about the Gram-Schmidt mask sampling of src/ipa/gramschmidt.rs. *)
From Verif Require Export MatrixFacts GramSchmidt.

Section Orth.
Context {C : Crypto} {L : CryptoLaws C}.
Add Field SfGF : (@S_field C L).

Definition proj_coef (a b : list Scalar) : Scalar := (dot a b * sinv (dot a a))%S.

Lemma orth_eq a b : dot a b <> s0 ->
  orth a b = Ok (map2 (fun r s => r - proj_coef a b * s)%S b a).
Proof.
  intros H. unfold orth. rewrite !inner_product_dot.
  destruct (seqb s0 (dot a b)) eqn:E.
  - apply seqb_eq in E. congruence.
  - cbn. f_equal. rewrite map2_map_r. apply map2_ext. intros x y. unfold proj_coef. ring.
Qed.
Lemma orth_Ok_inv a b c : orth a b = Ok c ->
  dot a b <> s0 /\ c = map2 (fun r s => r - proj_coef a b * s)%S b a.
Proof.
  intros H. destruct (S_eq_dec (dot a b) s0) as [E|E].
  - unfold orth in H. rewrite !inner_product_dot, E, seqb_refl in H. discriminate.
  - rewrite orth_eq in H by auto. split; auto. congruence.
Qed.
Lemma orth_panic a b : orth a b = Panic <-> dot a b = s0.
Proof.
  split; intros H.
  - destruct (S_eq_dec (dot a b) s0); auto. rewrite orth_eq in H by auto. discriminate.
  - unfold orth. now rewrite !inner_product_dot, H, seqb_refl.
Qed.
Lemma dot_proj a b c u : length b = length c -> 
  dot a (map2 (fun r s => r - u * s)%S b c) = (dot a b - u * dot a c)%S.
Proof.
  intros H. rewrite (map2_ext _ (fun x y => s1 * x + (- u) * y)%S) by (intros; ring).
  rewrite dot_affine_r by auto. ring.
Qed.
Lemma proj_orth a b : dot a a <> s0 -> length a = length b ->
  dot a (map2 (fun r s => r - proj_coef a b * s)%S b a) = s0.
Proof.
  intros Ha Hl. rewrite dot_proj by auto. unfold proj_coef.
  replace (dot a b - dot a b * sinv (dot a a) * dot a a)%S
    with (dot a b - dot a b * (sinv (dot a a) * dot a a))%S by ring.
  rewrite sinv_l by auto. ring.
Qed.
End Orth.

(** ** support of the mask: a ghost copy of the vector records which draw, if any,
    each position holds *)
Section Mask.
Context {C : Crypto}.
Definition shown (rng : nat -> Scalar) (g : list (option nat)) : list Scalar :=
  map (fun o => match o with Some k => rng k | None => s0 end) g.

Definition mask_inv (n lo hi : nat) (P : nat -> Prop) (g : list (option nat)) : Prop :=
  length g = n /\
  (forall i, i < n -> (nth i g None <> None <-> P i)) /\
  (forall i k, nth i g None = Some k -> lo <= k < hi) /\
  (forall i j k, nth i g None = Some k -> nth j g None = Some k -> i = j).

Lemma mask_inv_ext n lo hi P Q g : (forall i, i < n -> (P i <-> Q i)) ->
  mask_inv n lo hi P g -> mask_inv n lo hi Q g.
Proof.
  intros H (H1 & H2 & H3 & H4). split; [auto|]. split; [|now split].
  intros i Hi. rewrite <- H by auto. auto.
Qed.

Lemma mask_step n lo hi P g i : i < n -> lo <= hi -> mask_inv n lo hi P g ->
  (forall rng, upd (shown rng g) i (rng hi) = Ok (shown rng (set_at g i (Some hi)))) /\
  mask_inv n lo (S hi) (fun j => j = i \/ P j) (set_at g i (Some hi)).
Proof.
  intros Hi Hlo (H1 & H2 & H3 & H4). split.
  - intros rng. rewrite upd_lt by (unfold shown; rewrite map_length; lia).
    unfold shown. now rewrite map_set_at.
  - split; [now rewrite set_at_length|]. split; [|split].
    + intros j Hj. destruct (Nat.eq_dec i j) as [<-|Hn].
      * rewrite nth_set_at_eq by lia. split; [now left|congruence].
      * rewrite nth_set_at_neq by auto. rewrite H2 by auto. split; [now right|].
        intros [E|E]; [congruence|auto].
    + intros j k. rewrite nth_set_at. destruct ((i =? j) && (i <? length g)).
      * intros E; inversion E; lia.
      * intros E. apply H3 in E. lia.
    + intros j j' k. rewrite !nth_set_at.
      destruct ((i =? j) && (i <? length g)) eqn:E1; destruct ((i =? j') && (i <? length g)) eqn:E2;
        rewrite ?andb_true_iff, ?Nat.eqb_eq in *; intros A B.
      * lia.
      * inversion A; subst. apply H3 in B. lia.
      * inversion B; subst. apply H3 in A. lia.
      * eapply H4; eauto.
Qed.

Definition pow_pos_from (k n i : nat) : Prop :=
  exists j, k <= j /\ 2 ^ S j <= n /\ (i = 2 ^ j \/ i = 2 ^ j + 1).

Lemma mask_loop n lo : forall fuel k hi P g,
  1 <= k -> n < 2 ^ (S k) * 2 ^ fuel -> lo <= hi -> mask_inv n lo hi P g ->
  exists g' hi', (forall rng, sample_loop (S fuel) rng n (2 ^ S k) hi (shown rng g) = Ok (shown rng g', hi')) /\
    hi <= hi' /\ mask_inv n lo hi' (fun i => P i \/ pow_pos_from k n i) g'.
Proof.
  induction fuel as [|fuel IH]; intros k hi P g Hk Hf Hlo HI; cbn [sample_loop].
  - destruct (Nat.leb_spec (2 ^ S k) n); [cbn [Nat.pow] in *; lia|].
    exists g, hi. split; [reflexivity|]. split; [lia|].
    apply (mask_inv_ext n lo hi P); auto. intros i Hi. split; [now left|].
    intros [|[j [Hj [Hj2 _]]]]; auto.
    assert (2 ^ S k <= 2 ^ S j) by (apply Nat.pow_le_mono_r; lia). lia.
  - destruct (Nat.leb_spec (2 ^ S k) n) as [Hle|Hgt].
    + rewrite pow2_half.
      assert (Hp : 1 <= 2 ^ k) by apply pow2_pos.
      assert (Hp2 : 2 <= 2 ^ k) by (change 2 with (2 ^ 1) at 1; apply Nat.pow_le_mono_r; lia).
      assert (E2 : 2 ^ S k = 2 * 2 ^ k) by apply Nat.pow_succ_r'.
      destruct (mask_step n lo hi P g (2 ^ k)) as [U1 I1]; auto; [lia|].
      destruct (mask_step n lo (S hi) _ _ (2 ^ k + 1) ltac:(lia) ltac:(lia) I1) as [U2 I2].
      assert (E3 : 2 ^ S k * 2 = 2 ^ S (S k)) by (rewrite (Nat.pow_succ_r' 2 (S k)); lia).
      assert (Hf' : n < 2 ^ S (S k) * 2 ^ fuel)
        by (rewrite (Nat.pow_succ_r' 2 fuel) in Hf; rewrite (Nat.pow_succ_r' 2 (S k)); lia).
      destruct (IH (S k) (S (S hi)) _ _ ltac:(lia) Hf' ltac:(lia) I2) as (g' & hi' & E & Hhi & I).
      * exists g', hi'. split; [intros rng; rewrite U1; cbn [bind]; rewrite U2; cbn [bind]; rewrite E3; apply E|].
        split; [lia|].
        eapply mask_inv_ext; [|exact I]. intros i Hi. cbn beta. split.
        -- intros [[H|[H|H]]|(j & Hj & Hj2 & Hj3)].
           ++ right. exists k. split; [lia|]. split; [exact Hle|]. now right.
           ++ right. exists k. split; [lia|]. split; [exact Hle|]. now left.
           ++ now left.
           ++ right. exists j. split; [lia|]. auto.
        -- intros [H|(j & Hj & Hj2 & Hj3)].
           ++ auto.
           ++ destruct (Nat.eq_dec j k) as [->|Hn].
              ** left. destruct Hj3; auto.
              ** right. exists j. split; [lia|]. auto.
    + exists g, hi. split; [reflexivity|]. split; [lia|].
      apply (mask_inv_ext n lo hi P); auto. intros i Hi. split; [now left|].
      intros [|[j [Hj [Hj2 _]]]]; auto.
      assert (2 ^ S k <= 2 ^ S j) by (apply Nat.pow_le_mono_r; lia). lia.
Qed.

(** which draw lands where does not depend on the values drawn *)
Lemma sample_m_n_plus_uniform pos n : 2 <= n ->
  exists g pos', (forall rng, sample_m_n_plus rng pos n = Ok (shown rng g, pos')) /\
    mask_inv n pos pos' (fun i => i = 0 \/ i = 1 \/ pow_pos_from 1 n i \/ i = n - 2 \/ i = n - 1) g.
Proof.
  intros Hn. unfold sample_m_n_plus.
  set (g0 := repeat (@None nat) n).
  assert (E0 : forall rng, repeat s0 n = shown rng g0).
  { intros rng. unfold shown, g0. rewrite map_repeat. reflexivity. }
  assert (I0 : mask_inv n pos pos (fun _ => False) g0).
  { unfold g0. split; [apply repeat_length|].
    assert (H : forall i, nth i (repeat (@None nat) n) None = None) by (intros; apply nth_repeat).
    split; [|split].
    - intros i Hi. rewrite H. now split.
    - intros i k. rewrite H. discriminate.
    - intros i j k. rewrite H. discriminate. }
  destruct (mask_step n pos pos _ g0 0 ltac:(lia) ltac:(lia) I0) as [U1 I1].
  destruct (mask_step n pos (S pos) _ _ 1 ltac:(lia) ltac:(lia) I1) as [U2 I2].
  assert (Hf : n < 2 ^ 2 * 2 ^ n) by (assert (H := pow2_gt n); change (2 ^ 2) with 4; lia).
  destruct (mask_loop n pos n 1 (S (S pos)) _ _ ltac:(lia) Hf ltac:(lia) I2) as (g' & hi' & E & Hhi & I).
  change (2 ^ 2) with 4 in E.
  destruct (mask_step n pos hi' _ _ (n - 2) ltac:(lia) ltac:(lia) I) as [U3 I3].
  destruct (mask_step n pos (S hi') _ _ (n - 1) ltac:(lia) ltac:(lia) I3) as [U4 I4].
  exists (set_at (set_at g' (n - 2) (Some hi')) (n - 1) (Some (S hi'))), (S (S hi')). split.
  - intros rng. rewrite (E0 rng), U1. cbn [bind]. rewrite U2. cbn [bind]. rewrite E. cbn [bind].
    rewrite usub_le by lia. cbn [bind]. rewrite U3. cbn [bind]. rewrite usub_le by lia. cbn [bind].
    rewrite U4. cbn [bind].
    assert (Hl : length (shown rng (set_at (set_at g' (n - 2) (Some hi')) (n - 1) (Some (S hi')))) = n).
    { unfold shown. rewrite map_length. apply I4. }
    rewrite Hl, Nat.eqb_refl. reflexivity.
  - eapply mask_inv_ext; [|exact I4]. intros i Hi. cbn beta. tauto.
Qed.
Lemma sample_m_n_plus_spec rng pos n : 2 <= n ->
  exists g pos', sample_m_n_plus rng pos n = Ok (shown rng g, pos') /\
    mask_inv n pos pos' (fun i => i = 0 \/ i = 1 \/ pow_pos_from 1 n i \/ i = n - 2 \/ i = n - 1) g.
Proof.
  intros Hn. destruct (sample_m_n_plus_uniform pos n Hn) as (g & p & E & I). exists g, p. split; [apply E|exact I].
Qed.
Lemma sample_m_n_plus_panic rng pos n : n < 2 -> sample_m_n_plus rng pos n = Panic.
Proof. intros H. destruct n as [|[|n]]; [reflexivity|reflexivity|lia]. Qed.
Lemma sample_m_n_plus_length rng pos n r pos' : sample_m_n_plus rng pos n = Ok (r, pos') -> length r = n.
Proof.
  intros H. destruct (Nat.lt_ge_cases n 2) as [Hn|Hn].
  - rewrite sample_m_n_plus_panic in H by auto. discriminate.
  - destruct (sample_m_n_plus_spec rng pos n Hn) as (g & p' & E & I). rewrite E in H. inversion H; subst.
    unfold shown. rewrite map_length. apply I.
Qed.
End Mask.

Section Gram.
Context {C : Crypto} {L : CryptoLaws C}.
Add Field SfGG : (@S_field C L).

Lemma sgs_inv rng pos a v pos' : sample_gram_schmidt rng pos a = Ok (v, pos') ->
  exists m, sample_m_n_plus rng pos (length a) = Ok (m, pos') /\ length m = length a /\
    orth a m = Ok v.
Proof.
  unfold sample_gram_schmidt. intros H. apply bind_Ok_inv in H as [[m p'] [E H]].
  apply bind_Ok_inv in H as [w [E2 H]]. inversion H; subst.
  exists m. split; auto. split; auto. now apply (sample_m_n_plus_length _ _ _ _ _ E).
Qed.
Lemma orth_length a b c : length a = length b -> orth a b = Ok c -> length c = length a.
Proof.
  intros Hl H. apply orth_Ok_inv in H as [_ ->]. rewrite map2_length. lia.
Qed.
Lemma orth_dot a b c : length a = length b -> dot a a <> s0 -> orth a b = Ok c -> dot a c = s0.
Proof. intros Hl Ha H. apply orth_Ok_inv in H as [_ ->]. now apply proj_orth. Qed.

Lemma sgs_orth rng pos a v pos' : sample_gram_schmidt rng pos a = Ok (v, pos') ->
  length v = length a /\ (dot a a <> s0 -> dot a v = s0).
Proof.
  intros H. apply sgs_inv in H as (m & _ & Hl & H). split.
  - apply (orth_length a m); auto.
  - intros Ha. apply (orth_dot a m); auto.
Qed.
Lemma sgst_inv rng pos a b v pos' : sample_gram_schmidt_twice rng pos a b = Ok (v, pos') ->
  exists ob m, orth a b = Ok ob /\ sample_gram_schmidt rng pos a = Ok (m, pos') /\ orth ob m = Ok v.
Proof.
  unfold sample_gram_schmidt_twice. intros H. apply bind_Ok_inv in H as [ob [E H]].
  apply bind_Ok_inv in H as [[m p'] [E2 H]]. apply bind_Ok_inv in H as [w [E3 H]].
  inversion H; subst. now exists ob, m.
Qed.
Lemma sgst_orth rng pos a b v pos' : length a = length b ->
  sample_gram_schmidt_twice rng pos a b = Ok (v, pos') ->
  length v = length a /\
  (forall ob, orth a b = Ok ob -> dot a a <> s0 -> dot ob ob <> s0 -> dot a v = s0 /\ dot b v = s0).
Proof.
  intros Hl H. apply sgst_inv in H as (ob & m & E1 & E2 & E3).
  assert (Hob := orth_length _ _ _ Hl E1).
  destruct (sgs_orth _ _ _ _ _ E2) as [Hm Dm].
  assert (Hv : length v = length ob) by (apply (orth_length ob m); [lia|auto]).
  split; [lia|]. intros ob' E1' Ha Hob2. rewrite E1 in E1'. inversion E1'; subst ob'.
  assert (D1 := orth_dot ob m v ltac:(lia) Hob2 E3).
  assert (D2 := orth_dot a b ob Hl Ha E1). specialize (Dm Ha).
  assert (Dv : dot a v = s0).
  { apply orth_Ok_inv in E3 as [_ ->]. rewrite dot_proj by lia. rewrite Dm, D2. ring. }
  split; auto.
  apply orth_Ok_inv in E1 as [_ E1].
  assert (Db : dot ob v = (dot b v - proj_coef a b * dot a v)%S).
  { rewrite !(dot_comm _ v), E1. apply dot_proj. lia. }
  rewrite D1, Dv in Db.
  replace (dot b v) with (dot b v - proj_coef a b * s0)%S by ring. now rewrite <- Db.
Qed.
End Gram.
