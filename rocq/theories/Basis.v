(** Independent generators exist: unit vectors of (Z/ell)^m. Used to show that
    the hypotheses "no non-trivial relation" of the soundness theorems can be met. *)
From Verif Require Export Ex MatrixFacts IpaSpec.
Local Open Scope nat_scope.

Section Basis.
Variable m : nat.
Let L := RC_laws m.
Existing Instance L.
Add Field SfBas : (@S_field (RC m) L).

Definition cent (x : @Point (RC m)) (k : nat) : @Scalar (RC m) := ventry ell m x k.
Definition eB (i : nat) : @Point (RC m) :=
  vtab ell m (fun j => if j =? i then @s1 (RC m) else @s0 (RC m)).

Lemma cent_ext x y : (forall k, k < m -> cent x k = cent y k) -> x = y.
Proof. apply Vm_ext. Qed.
Lemma cent_p0 k : k < m -> cent p0 k = s0.
Proof. intros H. unfold cent. cbn [p0 RC fp_crypto]. now rewrite ventry_vtab. Qed.
Lemma cent_padd x y k : k < m -> cent (x + y)%P k = (cent x k + cent y k)%S.
Proof. intros H. unfold cent. cbn [padd RC fp_crypto]. unfold vadd. now rewrite ventry_vtab. Qed.
Lemma cent_pmul s x k : k < m -> cent (s *: x)%P k = (s * cent x k)%S.
Proof. intros H. unfold cent. cbn [pmul RC fp_crypto]. unfold vmul. now rewrite ventry_vtab. Qed.
Lemma cent_eB i k : k < m -> cent (eB i) k = if k =? i then s1 else s0.
Proof. intros H. unfold cent, eB. now rewrite ventry_vtab. Qed.
Lemma cent_sum n f k : k < m -> cent (sum_P n f) k = sum_S n (fun i => cent (f i) k).
Proof.
  intros H. induction n as [|n IH]; cbn [sum_P sum_S]; [now apply cent_p0|].
  now rewrite cent_padd, IH.
Qed.
Definition basis (off n : nat) : list (@Point (RC m)) := tab n (fun i => eB (off + i)).
Lemma cent_comb g off n k : length g = n -> k < m ->
  cent (comb g (basis off n)) k = if (off <=? k) && (k <? off + n) then sc g (k - off) else s0.
Proof.
  intros Hl Hk. unfold comb. rewrite cent_sum by auto. rewrite Hl.
  assert (E : forall i, i < n -> cent (sc g i *: pt (basis off n) i)%P k = (sc g i * (if k =? off + i then s1 else s0))%S).
  { intros i Hi. rewrite cent_pmul by auto. unfold basis, pt. rewrite tab_nth by auto. now rewrite cent_eB. }
  rewrite (sum_S_ext _ _ _ E).
  destruct (Nat.leb_spec off k) as [H1|H1]; cbn [andb].
  - destruct (Nat.ltb_spec k (off + n)) as [H2|H2].
    + rewrite (sum_S_single n (k - off)).
      * replace (off + (k - off)) with k by lia. rewrite Nat.eqb_refl. ring.
      * lia.
      * intros j Hj Hne. destruct (Nat.eqb_spec k (off + j)); [lia|ring].
    + apply sum_S_0. intros j Hj. destruct (Nat.eqb_spec k (off + j)); [lia|ring].
  - apply sum_S_0. intros j Hj. destruct (Nat.eqb_spec k (off + j)); [lia|ring].
Qed.

Lemma basis_no_relation n g h q : 2 * n < m ->
  ~ nontrivial_relation n (basis 0 n) (basis n n) (eB (2 * n)) g h q.
Proof.
  intros Hm (Hg & Hh & E & Hnz). apply Hnz.
  assert (Y : forall k, k < m ->
     (((if (0 <=? k) && (k <? 0 + n) then sc g (k - 0) else s0) +
       (if (n <=? k) && (k <? n + n) then sc h (k - n) else s0)) +
      q * (if k =? 2 * n then s1 else s0))%S = s0).
  { intros k Hk. etransitivity; [|exact (cent_p0 k Hk)]. rewrite <- E. now rewrite !cent_padd, cent_pmul, cent_eB, !cent_comb by auto. }
  split.
  - intros i Hi. split.
    + specialize (Y i ltac:(lia)). cbn [Nat.leb andb] in Y.
      destruct (Nat.ltb_spec i (0 + n)); [|lia]. destruct (Nat.leb_spec n i); [lia|]. cbn [andb] in Y.
      destruct (Nat.eqb_spec i (2 * n)); [lia|]. rewrite Nat.sub_0_r in Y. rewrite <- Y. ring.
    + specialize (Y (n + i) ltac:(lia)). cbn [Nat.leb andb] in Y.
      destruct (Nat.ltb_spec (n + i) (0 + n)); [lia|]. destruct (Nat.leb_spec n (n + i)); [|lia].
      destruct (Nat.ltb_spec (n + i) (n + n)); [|lia]. cbn [andb] in Y.
      destruct (Nat.eqb_spec (n + i) (2 * n)); [lia|]. replace (n + i - n) with i in Y by lia. rewrite <- Y. ring.
  - specialize (Y (2 * n) Hm). cbn [Nat.leb andb] in Y. rewrite Nat.eqb_refl in Y.
    destruct (Nat.ltb_spec (2 * n) (0 + n)); [lia|].
    destruct (Nat.ltb_spec (2 * n) (n + n)); [lia|]. rewrite andb_false_r in Y. rewrite <- Y. ring.
Qed.
End Basis.

Definition independent {C : Crypto} (n : nat) (G H : list Point) (Q : Point) : Prop :=
  forall g h q, ~ nontrivial_relation n G H Q g h q.

Lemma basis_independent n :
  independent n (basis (2 * n + 1) 0 n) (basis (2 * n + 1) n n) (eB (2 * n + 1) (2 * n)).
Proof. intros g h q. apply basis_no_relation. lia. Qed.
