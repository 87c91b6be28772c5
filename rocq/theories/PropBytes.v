(** C92: the counting bounds are stated for uniform scalars, the program reduces uniform
    64-byte strings. Transfer between the two, for the challenges and for the random tape. *)
From Coq Require Import String.
From Verif Require Export PropChallenge PropFiatShamir Nizk.
From Verif Require Import PropNizk PropQesaCount PropZkCount PropCopySound CopyFacts PropMapping PropCopy Ex ExSmall.
Local Open Scope nat_scope.
Local Open Scope list_scope.

(** ** vocabulary *)
(** all strings of k bytes *)
Definition all_bytes (k : nat) : list (list Z) := words (map Z.of_nat (seq 0 256)) k.
(** z is the number of the scalar ofZ z, modulo q *)
Definition numbers_scalars {C : Crypto} (ofZ : Z -> Scalar) (q : Z) : Prop :=
  (0 < q)%Z /\ (forall x, exists z, (0 <= z < q)%Z /\ ofZ z = x) /\
  (forall z z', ofZ z = ofZ z' <-> (z mod q = z' mod q)%Z).
(** Scalar::from_bytes_mod_order_wide, which both challenge_scalar (src/transcript.rs:12-17)
    and curve25519_dalek's Scalar::random apply to 64 bytes *)
Definition reduced {C : Crypto} (ofZ : Z -> Scalar) (bufs : list (list Z)) : list Scalar :=
  map (fun buf => ofZ (le_value buf)) bufs.
(** number of ways to choose N strings of k bytes for which the test on the scalars succeeds *)
Definition byte_count {C : Crypto} (ofZ : Z -> Scalar) (k N : nat) (test : list Scalar -> bool) : nat :=
  count (fun bufs => test (reduced ofZ bufs)) (words (all_bytes k) N).

(** ** sums over fibres *)
Lemma sum_cons x l : list_sum (x :: l) = x + list_sum l.
Proof. reflexivity. Qed.
Section Fibres.
Context {A B : Type} (eqb : A -> A -> bool) (eqb_ok : forall x y, eqb x y = true <-> x = y).
Context (g : B -> A) (vals : list A) (HN : NoDup vals).

Lemma sum_point (F : A -> nat) : forall x, In x vals -> list_sum (map (fun v => (if eqb (x) v then 1 else 0) * F v) vals) = F x.
Proof.
  intros x. induction HN as [|v vs Hv HN' IH]; intros Hx; [destruct Hx|]. cbn [map]. rewrite sum_cons.
  destruct (eqb x v) eqn:E.
  - apply eqb_ok in E. subst v. rewrite (map_ext_in _ (fun _ => 0)).
    + assert (Z : forall l : list A, list_sum (map (fun _ => 0) l) = 0) by (induction l; auto). rewrite Z. lia.
    + intros v Hin. destruct (eqb x v) eqn:E; auto. apply eqb_ok in E. now subst v.
  - destruct Hx as [->|Hx]; [assert (eqb x x = true) by now apply eqb_ok|]; [congruence|]. rewrite IH by auto. lia.
Qed.
Lemma sum_fibres (F : A -> nat) bs : (forall b, In b bs -> In (g b) vals) ->
  list_sum (map (fun b => F (g b)) bs) = list_sum (map (fun v => count (fun b => eqb (g b) v) bs * F v) vals).
Proof.
  induction bs as [|b bs IH]; intros H.
  - cbn. clear. induction vals as [|v vs IHv]; auto.
  - cbn [map]. rewrite sum_cons, IH by (intros; apply H; now right).
    rewrite <- (sum_point F (g b)) by (apply H; now left). clear.
    induction vals as [|v vs IHv]; [reflexivity|]. cbn [map]. rewrite !sum_cons, count_cons. lia.
Qed.
Context (bs : list B) (lo hi : nat) (Hg : forall b, In b bs -> In (g b) vals)
  (Hf : forall v, In v vals -> lo <= count (fun b => eqb (g b) v) bs <= hi).

Lemma sum_fibres_bounds (F : A -> nat) :
  lo * list_sum (map F vals) <= list_sum (map (fun b => F (g b)) bs) <= hi * list_sum (map F vals).
Proof.
  rewrite sum_fibres by auto. clear HN Hg. induction vals as [|v vs IH]; [cbn; lia|]. cbn [map]. rewrite !sum_cons.
  specialize (IH ltac:(intros; apply Hf; now right)). specialize (Hf v (or_introl eq_refl)). nia.
Qed.
Lemma count_reduced_bounds K : forall f,
  lo ^ K * count f (words vals K) <= count (fun w => f (map g w)) (words bs K) <= hi ^ K * count f (words vals K).
Proof.
  induction K as [|K IH]; intros f.
  - cbn [words Nat.pow]. unfold count. cbn [filter map length]. destruct (f []); cbn; lia.
  - rewrite !count_words_S, !Nat.pow_succ_r'.
    assert (X := sum_fibres_bounds (fun v => count (fun w => f (v :: map g w)) (words bs K))). cbv beta in X.
    change (fun b => count (fun w => f (map g (b :: w))) (words bs K)) with (fun b => count (fun w => f (g b :: map g w)) (words bs K)).
    assert (Y : forall vs, lo ^ K * list_sum (map (fun v => count (fun w => f (v :: w)) (words vals K)) vs) <=
       list_sum (map (fun v => count (fun w => f (v :: map g w)) (words bs K)) vs) <=
       hi ^ K * list_sum (map (fun v => count (fun w => f (v :: w)) (words vals K)) vs)).
    { clear X. induction vs as [|v vs IHv]; [cbn; lia|]. cbn [map]. rewrite !sum_cons.
      specialize (IH (fun w => f (v :: w))). cbv beta in IH. rewrite !Nat.mul_add_distr_l. lia. }
    specialize (Y vals). rewrite <- !Nat.mul_assoc. split.
    + etransitivity; [|apply X]. apply Nat.mul_le_mono_l, Y.
    + etransitivity; [apply X|]. apply Nat.mul_le_mono_l, Y.
Qed.
End Fibres.

(** ** byte strings *)
Lemma bytes_In k buf : In buf (all_bytes k) <-> byte_string k buf.
Proof.
  unfold all_bytes, byte_string. rewrite words_In. split; intros [H1 H2]; split; auto; (eapply Forall_impl; [|exact H2]); cbv beta.
  - intros b Hb. apply in_map_iff in Hb as (i & <- & Hi). apply in_seq in Hi. lia.
  - intros b Hb. apply in_map_iff. exists (Z.to_nat b). split; [lia|]. apply in_seq. lia.
Qed.
Lemma bytes_NoDup k : NoDup (all_bytes k).
Proof.
  apply words_NoDup. apply FinFun.Injective_map_NoDup; [|apply seq_NoDup]. intros i j E. lia.
Qed.
Lemma pow_of_nat a n : Z.of_nat (a ^ n) = (Z.of_nat a ^ Z.of_nat n)%Z.
Proof.
  induction n as [|n IH]; [reflexivity|]. rewrite Nat.pow_succ_r', Nat2Z.inj_mul, IH, Nat2Z.inj_succ, Z.pow_succ_r by lia. reflexivity.
Qed.
Lemma bytes_length k : Z.of_nat (length (all_bytes k)) = (256 ^ Z.of_nat k)%Z.
Proof. unfold all_bytes. rewrite words_count, map_length, seq_length. apply pow_of_nat. Qed.

Section Bytes.
Context {C : Crypto} {L : CryptoLaws C} (ofZ : Z -> Scalar) (q : Z) (HQ : numbers_scalars ofZ q).
Context (vals : list Scalar) (HN : NoDup vals) (HA : forall x, In x vals).
Notation word := (list Scalar).

Lemma vals_length : Z.of_nat (length vals) = q.
Proof.
  destruct HQ as (Hq & Hs & Hi). set (l := map (fun i => ofZ (Z.of_nat i)) (seq 0 (Z.to_nat q))).
  assert (Hl : NoDup l).
  { unfold l. assert (X : forall n, (Z.of_nat n <= q)%Z -> NoDup (map (fun i => ofZ (Z.of_nat i)) (seq 0 n))).
    { induction n as [|n IH]; intros Hn; [constructor|]. rewrite seq_S, map_app. cbn [map Nat.add].
      apply PropZkCount.NoDup_app; [apply IH; lia|repeat constructor; auto|]. intros x Hx [E|[]]. subst x.
      apply in_map_iff in Hx as (i & E & Hx). apply in_seq in Hx. apply Hi in E. rewrite !Z.mod_small in E by lia. lia. }
    apply X. lia. }
  assert (Ha : forall x, In x l).
  { intros x. destruct (Hs x) as (z & Hz & <-). apply in_map_iff. exists (Z.to_nat z). rewrite Z2Nat.id by lia. split; auto. apply in_seq. lia. }
  assert (E : length vals = length l).
  { apply Nat.le_antisymm; apply NoDup_incl_length; auto; intros x _; auto. }
  rewrite E. unfold l. rewrite map_length, seq_length. lia.
Qed.

(** every scalar has 256^k / q preimages, rounded down or up *)
Lemma fibre_size k v :
  let c := (256 ^ Z.of_nat k / q)%Z in
  (c <= Z.of_nat (count (fun buf => seqb (ofZ (le_value buf)) v) (all_bytes k)) <= c + 1)%Z.
Proof.
  intros c. destruct HQ as (Hq & Hs & Hi). destruct (Hs v) as (z & Hz & Ev).
  destruct (residues q (256 ^ Z.of_nat k)%Z z Hq ltac:(apply Z.pow_nonneg; lia) Hz) as (zs & N1 & I1 & L1).
  assert (E : length (filter (fun buf => seqb (ofZ (le_value buf)) v) (all_bytes k)) = length zs).
  { rewrite <- (map_length (to_bytes k) zs). apply Nat.le_antisymm; apply NoDup_incl_length.
    - apply NoDup_filter, bytes_NoDup.
    - intros buf Hb. apply filter_In in Hb as [Hb E]. apply bytes_In in Hb. apply seqb_eq in E. rewrite <- Ev in E.
      apply Hi in E. rewrite (Z.mod_small z) in E by auto.
      apply in_map_iff. exists (le_value buf). split; [now apply to_bytes_le|]. apply I1. split; auto. now apply le_bound.
    - assert (X : forall z', In z' zs -> (0 <= z' < 256 ^ Z.of_nat k)%Z) by (intros z' Hz'; now apply I1).
      clear I1 L1. induction N1 as [|z' zs' Hz' N1 IH]; cbn [map]; constructor.
      + intros Hin. apply in_map_iff in Hin as (z2 & E & Hz2). apply Hz'.
        rewrite <- (le_to_bytes k z'), <- E, le_to_bytes; auto; apply X; cbn; auto.
      + apply IH. intros; apply X; now right.
    - intros buf Hb. apply in_map_iff in Hb as (z' & <- & Hz'). apply I1 in Hz' as [H1 H2].
      apply filter_In. split; [apply bytes_In, to_bytes_ok|]. apply seqb_eq. rewrite <- Ev. apply Hi.
      rewrite le_to_bytes by auto. rewrite H2. symmetry. now apply Z.mod_small. }
  unfold count. rewrite E, L1. fold c. destruct (Z.ltb z (256 ^ Z.of_nat k mod q)); lia.
Qed.

(** multiplicative form *)
Theorem C92_count k N (test : word -> bool) :
  let c := (256 ^ Z.of_nat k / q)%Z in
  let scalars := Z.of_nat (count test (words vals N)) in
  let bytes := Z.of_nat (byte_count ofZ k N test) in
  (c ^ Z.of_nat N * scalars <= bytes <= (c + 1) ^ Z.of_nat N * scalars)%Z.
Proof.
  intros c scalars bytes.
  assert (Hc : (0 <= c)%Z) by (apply Z.div_pos; [apply Z.pow_nonneg; lia|apply HQ]).
  assert (X := count_reduced_bounds seqb seqb_eq (fun buf => ofZ (le_value buf)) vals HN (all_bytes k)
    (Z.to_nat c) (Z.to_nat (c + 1)) ltac:(auto)
    ltac:(intros v _; assert (X := fibre_size k v); cbv zeta in X; fold c in X; lia) N test).
  fold (byte_count ofZ k N test) in X.
  assert (Y : forall a, (0 <= a)%Z -> Z.of_nat (Z.to_nat a ^ N) = (a ^ Z.of_nat N)%Z).
  { intros a Ha. rewrite pow_of_nat, Z2Nat.id by auto. reflexivity. }
  rewrite <- !Y by lia. unfold scalars, bytes. rewrite <- !Nat2Z.inj_mul. split; apply inj_le, X.
Qed.
Lemma byte_count_all k N test : (Z.of_nat (byte_count ofZ k N test) <= (256 ^ Z.of_nat k) ^ Z.of_nat N)%Z.
Proof.
  rewrite <- bytes_length, <- pow_of_nat, <- words_count. apply inj_le. apply count_all.
Qed.
Lemma scalar_count_all N test : (Z.of_nat (count test (words vals N)) <= q ^ Z.of_nat N)%Z.
Proof.
  rewrite <- vals_length, <- pow_of_nat, <- words_count. apply inj_le. apply count_all.
Qed.

Lemma bernoulli (c a b : Z) N : (0 <= c -> 0 <= a -> 0 <= b -> c * b <= (c + 1) * a ->
  (c + 1 - Z.of_nat N) * b ^ Z.of_nat N <= (c + 1) * a ^ Z.of_nat N)%Z.
Proof.
  intros Hc Ha Hb H. induction N as [|N IH]; [cbn; lia|].
  assert (HbN : (0 <= b ^ Z.of_nat N)%Z) by (apply Z.pow_nonneg; auto).
  assert (HaN : (0 <= a ^ Z.of_nat N)%Z) by (apply Z.pow_nonneg; auto).
  rewrite Nat2Z.inj_succ, !Z.pow_succ_r by lia. set (x := (b ^ Z.of_nat N)%Z) in *. set (y := (a ^ Z.of_nat N)%Z) in *.
  set (n := Z.of_nat N) in *. assert (Hn : (0 <= n)%Z) by (unfold n; lia). clearbody x y n.
  destruct (Z_lt_le_dec (c + 1) (n + 1)) as [H1|H1].
  - assert ((c + 1 - Z.succ n) * (b * x) <= 0)%Z by (apply Z.mul_nonpos_nonneg; nia).
    assert (0 <= (c + 1) * (a * y))%Z by nia. lia.
  - assert (E1 : ((c + 1 - n) * x * a <= (c + 1) * y * a)%Z) by nia.
    assert (E2 : ((c + 1 - n) * x * (c * b) <= (c + 1 - n) * x * ((c + 1) * a))%Z) by (apply Z.mul_le_mono_nonneg_l; nia).
    assert (E3 : ((c + 1) * (c + 1 - Z.succ n) * (b * x) <= (c + 1 - n) * c * (b * x))%Z) by (apply Z.mul_le_mono_nonneg_r; nia).
    assert (E4 : ((c + 1) * ((c + 1 - Z.succ n) * (b * x)) <= (c + 1) * ((c + 1 - n) * x * a))%Z) by lia.
    assert (E5 : ((c + 1 - Z.succ n) * (b * x) <= (c + 1 - n) * x * a)%Z) by (apply (Zmult_le_reg_r _ _ (c + 1)); lia). lia.
Qed.

Lemma distance_below k N (test : word -> bool) :
  let M := (256 ^ Z.of_nat k)%Z in let c := (M / q)%Z in
  let scalars := Z.of_nat (count test (words vals N)) in
  let bytes := Z.of_nat (byte_count ofZ k N test) in
  let K := Z.of_nat N in
  ((c + 1) * (scalars * M ^ K) <= (c + 1) * (bytes * q ^ K) + K * (M ^ K * q ^ K))%Z.
Proof.
  intros M c scalars bytes K.
  assert (Hq : (0 < q)%Z) by apply HQ. assert (HM : (0 <= M)%Z) by (apply Z.pow_nonneg; lia).
  assert (Hc : (0 <= c)%Z) by (apply Z.div_pos; auto).
  destruct (C92_count k N test) as [X _]. fold M c scalars bytes K in X.
  assert (Y := scalar_count_all N test). fold scalars K in Y.
  assert (HS : (0 <= scalars)%Z) by (unfold scalars; lia).
  assert (D := Z.div_mod M q ltac:(lia)). assert (R := Z.mod_pos_bound M q Hq). fold c in D.
  assert (B := bernoulli c (c * q) M N Hc ltac:(nia) HM ltac:(nia)). fold K in B.
  rewrite Z.pow_mul_l in B.
  assert (HMK : (0 <= M ^ K)%Z) by (apply Z.pow_nonneg; auto). assert (HqK : (0 <= q ^ K)%Z) by (apply Z.pow_nonneg; lia).
  assert (HK : (0 <= K)%Z) by (unfold K; lia).
  set (mk := (M ^ K)%Z) in *. set (qk := (q ^ K)%Z) in *. set (ck := (c ^ K)%Z) in *. clearbody mk qk ck K M c scalars bytes.
  assert (E1 : ((c + 1) * (ck * qk * scalars) <= (c + 1) * (bytes * qk))%Z).
  { apply Z.mul_le_mono_nonneg_l; [lia|]. replace (ck * qk * scalars)%Z with (ck * scalars * qk)%Z by ring. now apply Z.mul_le_mono_nonneg_r. }
  assert (E2 : ((c + 1 - K) * mk * scalars <= (c + 1) * (ck * qk) * scalars)%Z) by (apply Z.mul_le_mono_nonneg_r; auto).
  assert (E3 : (K * mk * scalars <= K * mk * qk)%Z) by (apply Z.mul_le_mono_nonneg_l; nia). nia.
Qed.

Lemma count_negb {A} (f : A -> bool) l : count f l + count (fun x => negb (f x)) l = length l.
Proof. induction l as [|x l IH]; [reflexivity|]. rewrite !count_cons. cbn [length]. destruct (f x); cbn; lia. Qed.

(** additive form: the probability of any event about N scalars differs by at most N/(c+1) *)
Theorem C92_distance k N (test : word -> bool) :
  let M := (256 ^ Z.of_nat k)%Z in let c := (M / q)%Z in
  let scalars := Z.of_nat (count test (words vals N)) in
  let bytes := Z.of_nat (byte_count ofZ k N test) in
  let K := Z.of_nat N in
  ((c + 1) * Z.abs (scalars * M ^ K - bytes * q ^ K) <= K * (M ^ K * q ^ K))%Z.
Proof.
  intros M c scalars bytes K. assert (X := distance_below k N test). assert (Y := distance_below k N (fun w => negb (test w))).
  cbv zeta in X, Y. fold M in X, Y. fold c K in X, Y. fold scalars bytes in X.
  assert (E1 : (Z.of_nat (count (fun w => negb (test w)) (words vals N)) = q ^ K - scalars)%Z).
  { assert (E := count_negb test (words vals N)). rewrite words_count in E. apply (f_equal Z.of_nat) in E.
    rewrite pow_of_nat, vals_length in E. fold K in E. unfold scalars. lia. }
  assert (E2 : (Z.of_nat (byte_count ofZ k N (fun w => negb (test w))) = M ^ K - bytes)%Z).
  { assert (E := count_negb (fun bufs => test (reduced ofZ bufs)) (words (all_bytes k) N)). rewrite words_count in E. apply (f_equal Z.of_nat) in E.
    rewrite pow_of_nat, bytes_length in E. fold K M in E. unfold bytes, byte_count. lia. }
  rewrite E1, E2 in Y. destruct (Z.abs_spec (scalars * M ^ K - bytes * q ^ K)) as [[_ ->]|[_ ->]]; lia.
Qed.
End Bytes.

(** ** the scalars of Ristretto and 64 bytes *)
(** the scalar field of the model instance RC m, with the reduction of Challenge.v *)
Theorem C92_numbering m : numbers_scalars (C := RC m) (fp ell) ell /\
  forall bufs, reduced (C := RC m) (fp ell) bufs = map (from_bytes_mod_order_wide (m := m)) bufs.
Proof.
  split; [|reflexivity]. split; [exact ell_pos|]. split.
  - intros x. exists (val ell x). split; [apply val_range|]. apply Fp_eq. rewrite val_fp. apply Z.mod_small, val_range.
  - intros z z'. split; intros E.
    + apply (f_equal (val ell)) in E. now rewrite !val_fp in E.
    + apply Fp_eq. now rewrite !val_fp.
Qed.

(** any group whose scalars are the integers modulo ell *)
Section Ristretto.
Context {C : Crypto} {L : CryptoLaws C} (ceq : @encodings_comparable C).
Context (ofZ : Z -> Scalar) (HQ : numbers_scalars ofZ ell) (vals : list Scalar) (HN : NoDup vals) (HA : forall x, In x vals).
Notation word := (list Scalar).

(** number of ways to choose N strings of 64 bytes *)
Definition wide_count (N : nat) (test : word -> bool) : nat := byte_count ofZ 64 N test.
(** all strings: 2^512 for each *)
Definition wide_total (N : nat) : Z := ((2 ^ 512) ^ Z.of_nat N)%Z.

Lemma wide_length N : Z.of_nat (length (words (all_bytes 64) N)) = wide_total N.
Proof. rewrite words_count, pow_of_nat, bytes_length. reflexivity. Qed.

(** the probability of an event about N scalars, with uniform scalars and with reduced
    uniform byte strings, differs by at most N/2^259 *)
Theorem C92_ristretto N (test : word -> bool) :
  (2 ^ 259 * Z.abs (Z.of_nat (count test (words vals N)) * wide_total N - Z.of_nat (wide_count N test) * ell ^ Z.of_nat N)
   <= Z.of_nat N * (wide_total N * ell ^ Z.of_nat N))%Z.
Proof.
  assert (X := C92_distance ofZ ell HQ vals HN HA 64 N test). cbv zeta in X.
  change (256 ^ Z.of_nat 64)%Z with (2 ^ 512)%Z in X.
  change (byte_count ofZ 64 N test) with (wide_count N test) in X.
  assert (Hc : (2 ^ 259 <= 2 ^ 512 / ell + 1)%Z) by (vm_compute; discriminate).
  set (c1 := (2 ^ 512 / ell + 1)%Z) in *. clearbody c1. unfold wide_total.
  etransitivity; [|exact X]. apply Z.mul_le_mono_nonneg_r; auto. apply Z.abs_nonneg.
Qed.
Lemma ristretto_length : Z.of_nat (length vals) = ell.
Proof. apply (vals_length ofZ ell HQ vals HN HA). Qed.

(** bytes / 2^(512 N) <= a/ell + N/2^259 *)
Definition at_most (a N : nat) (bytes : nat) : Prop :=
  (Z.of_nat bytes * (2 ^ 259 * ell) <= (Z.of_nat a * 2 ^ 259 + Z.of_nat N * ell) * wide_total N)%Z.

Lemma at_most_dec a N bytes : {at_most a N bytes} + {~ at_most a N bytes}.
Proof. apply Z_le_dec. Qed.
Lemma wide_pos N : (0 < wide_total N)%Z.
Proof. unfold wide_total. apply Z.pow_pos_nonneg; [reflexivity|lia]. Qed.

(** a bound for uniform scalars is one for byte strings *)
Theorem C92_at_most N a (test : word -> bool) : 1 <= N ->
  count test (words vals N) <= a * length vals ^ (N - 1) -> at_most a N (wide_count N test).
Proof.
  intros H1 H. unfold at_most. assert (X := C92_ristretto N test).
  apply inj_le in H. rewrite Nat2Z.inj_mul, pow_of_nat, ristretto_length in H.
  assert (HW := wide_pos N). set (W := wide_total N) in *.
  replace (Z.of_nat N) with (Z.succ (Z.of_nat (N - 1))) in X by lia. rewrite Z.pow_succ_r in X by lia.
  replace (Z.succ (Z.of_nat (N - 1))) with (Z.of_nat N) in X by lia.
  assert (HE : (0 < ell ^ Z.of_nat (N - 1))%Z) by (apply Z.pow_pos_nonneg; [reflexivity|lia]).
  assert (Hl := ell_pos). set (e := (ell ^ Z.of_nat (N - 1))%Z) in *.
  set (s := Z.of_nat (count test (words vals N))) in *. set (b := Z.of_nat (wide_count N test)) in *.
  set (n := Z.of_nat N) in *. set (k := Z.of_nat a) in *. set (p := (2 ^ 259)%Z) in *.
  assert (Hp : (0 < p)%Z) by reflexivity. clearbody W e s b n k p. set (q := ell) in *. clearbody q.
  apply (Zmult_le_reg_r _ _ e); [lia|].
  assert (Y : (p * (b * (q * e) - s * W) <= n * (W * (q * e)))%Z).
  { etransitivity; [|exact X]. apply Z.mul_le_mono_nonneg_l; lia. }
  assert (Z1 : (p * W * s <= p * W * (k * e))%Z) by (apply Z.mul_le_mono_nonneg_l; [apply Z.mul_nonneg_nonneg; lia|auto]).
  lia.
Qed.

(** ** what a prover can achieve against the hash function *)
(** number of tables of 64-byte answers for which the proof is accepted *)
Definition wide_successes {X} (V : oracle -> X -> res (bool * transcript)) (p : prover X) (D : list transcript) : nat :=
  wide_count (length D) (fun w => yes (V (table ceq D w) (run (table ceq D w) p))).

Theorem C92_fiat_shamir {X} (V : oracle -> X -> res (bool * transcript)) (p : prover X) (D : list transcript) (a : nat) :
  1 <= length D -> ~ at_most a (length D) (wide_successes V p D) ->
  a * length vals ^ (length D - 1) < successes ceq V p vals D.
Proof.
  intros H1 H. destruct (le_lt_dec (successes ceq V p vals D) (a * length vals ^ (length D - 1))) as [Hle|]; auto.
  exfalso. apply H. apply C92_at_most; auto.
Qed.

Corollary C92_nozk tr (G H : list Point) (Q P : Point) (t : Scalar) d (p : prover NoZK) T D :
  let V := fun ro pf => no_zk_verify ro tr pf G H Q (2 ^ d) P t in
  length G = 2 ^ d -> length H = 2 ^ d -> 1 <= length D ->
  asks T p -> (forall ro, length (R_vec (run ro p)) = length (L_vec (run ro p))) ->
  asks_challenges ceq V tr p vals D ->
  at_most (3 * T) (length D) (wide_successes V p D) \/
  (exists B, good_trees B /\
    all_paths B (fun al path => exists xs, own_run ceq V tr p vals D (al :: xs) (fun pf => path = proof_path pf xs)) /\
    match trees_extract t B with
    | Wit a b c => length a = 2 ^ d /\ length b = 2 ^ d /\ c = t /\
                   P = (comb a G + comb b H + t *: Q)%P /\ dotp a b = t
    | Rel g h q => nontrivial_relation (2 ^ d) G H Q g h q
    end).
Proof.
  intros V HG HH HD HT HR HC. 
  destruct (at_most_dec (3 * T) (length D) (wide_successes V p D)) as [Hle|Hgt]; [left; exact Hle|right].
  apply (C79_nozk_fiat_shamir ceq vals tr G H Q P t d p T D HN HG HH HT HR HC).
  apply C92_fiat_shamir; auto.
Qed.

(** the whole argument: either the proof is accepted with probability at most the stated bound,
    or the prover opens a witness in one of its runs, or a relation between the generators is
    computed from its runs. (That a relation exists would say nothing in a cyclic group.) *)
Corollary C92_qesa tr (G H : list Point) (Q : Point) n d Ms (p : prover (Inner * (list Scalar * list Scalar))) T D :
  let V := fun ro (o : Inner * (list Scalar * list Scalar)) => inner_verify ro tr (fst o) G H Q (mkBlockMatrix Ms) in
  let k := min (length Ms) n in
  n = 2 ^ d -> 3 <= n -> length G = n -> length H = n -> 1 <= length Ms -> Forall (rect (n - 2) (n - 2)) Ms ->
  1 <= length D -> asks T p ->
  (forall ro, let '(pf, (w', u)) := run ro p in
     length (R_vec (az_NoZK (alm_zk pf))) = length (L_vec (az_NoZK (alm_zk pf))) /\
     length w' = n /\ sc w' 0 = s1 /\ decompress (c_prime_w pf) = Some (comb w' G) /\
     length u = n /\ decompress (c_prime_prime_w pf) = Some (comb u H)) ->
  asks_challenges ceq V tr p vals D ->
  at_most (max (max 3 (n - 2)) k * T) (length D) (wide_successes V p D) \/
  (exists x c1 c2 T w' u g h q, x <> s0 /\ good_sb n T /\ qesa_own ceq fst V tr p vals D x c1 c2 T /\
     (exists cs, own_run ceq V tr p vals D cs (fun o => c_prime_w (fst o) = c1 /\ fst (snd o) = w')) /\
     (exists cs, own_run ceq V tr p vals D cs (fun o => c_prime_prime_w (fst o) = c2 /\ snd (snd o) = u)) /\
     q_compare n Ms x T w' u = Some (g, h, q) /\ nontrivial_relation n G H Q g h q) \/
  (exists cs, own_run ceq V tr p vals D cs (fun o => forall t, t < k -> quad (nth t Ms []) (firstn (n - 2) (fst (snd o))) = s0)).
Proof.
  intros V k Hn H3 HG HH HM HF HD HT HR HC.
  destruct (at_most_dec (max (max 3 (n - 2)) k * T) (length D) (wide_successes V p D)) as [Hle|Hgt]; [left; exact Hle|right].
  apply (C79_qesa_fiat_shamir ceq vals tr G H Q n d Ms p T D HN Hn H3 HG HH HM HF HT HR HC).
  apply C92_fiat_shamir; auto.
Qed.

(** ** honest provers *)
Corollary C92_qesa_failures (ros : list Scalar -> oracle) tr d (G H : list Point) (Q : Point) Ms (w : list Scalar) K :
  let n := 2 ^ S (S d) in
  length G = n -> length H = n -> length w = n - 2 ->
  1 <= length Ms -> Forall (rect (n - 2) (n - 2)) Ms ->
  sc w 0 = s1 -> (forall i, i < length Ms -> quad (nth i Ms []) w = s0) ->
  (forall x s b al r0 r1, answers (ros [x; s; b; al]) tr n G H Ms w [r0; r1] x s b al) ->
  4 * S d + 10 <= K ->
  at_most (2 * n + 30) (4 + K) (wide_count (4 + K) (fun u => negb (zk_run (ros (firstn 4 u)) (tape (skipn 4 u)) 0 tr G H Q Ms w))).
Proof.
  intros n HG HH Hw HM HF H0 Hsat Hro HK. apply C92_at_most; [lia|]. replace (4 + K - 1) with (K + 3) by lia.
  now apply C74_qesa_zk_failures.
Qed.

(** ** zero-knowledge *)
(** two probabilities, b1 and b2 of wide_total N, differ by at most a/ell + e/2^259 *)
Definition differ_at_most (a e N b1 b2 : nat) : Prop :=
  (2 ^ 259 * ell * Z.abs (Z.of_nat b1 - Z.of_nat b2) <= (Z.of_nat a * 2 ^ 259 + Z.of_nat e * ell) * wide_total N)%Z.

Theorem C92_differ N a (f g : word -> bool) : 1 <= N ->
  count f (words vals N) <= count g (words vals N) + a * length vals ^ (N - 1) ->
  count g (words vals N) <= count f (words vals N) + a * length vals ^ (N - 1) ->
  differ_at_most a (2 * N) N (wide_count N f) (wide_count N g).
Proof.
  intros H1 Hf Hg. unfold differ_at_most. assert (X := C92_ristretto N f). assert (Y := C92_ristretto N g).
  apply inj_le in Hf, Hg. rewrite Nat2Z.inj_add, Nat2Z.inj_mul, pow_of_nat, ristretto_length in Hf, Hg.
  assert (HW := wide_pos N). set (W := wide_total N) in *.
  replace (Z.of_nat N) with (Z.succ (Z.of_nat (N - 1))) in X, Y by lia. rewrite Z.pow_succ_r in X, Y by lia.
  replace (Z.succ (Z.of_nat (N - 1))) with (Z.of_nat N) in X, Y by lia.
  assert (HE : (0 < ell ^ Z.of_nat (N - 1))%Z) by (apply Z.pow_pos_nonneg; [reflexivity|lia]).
  assert (Hl := ell_pos). set (e := (ell ^ Z.of_nat (N - 1))%Z) in *.
  set (s := Z.of_nat (count f (words vals N))) in *. set (b := Z.of_nat (wide_count N f)) in *.
  set (s' := Z.of_nat (count g (words vals N))) in *. set (b' := Z.of_nat (wide_count N g)) in *.
  replace (Z.of_nat (2 * N)) with (2 * Z.of_nat N)%Z by lia.
  set (n := Z.of_nat N) in *. set (k := Z.of_nat a) in *. set (p := (2 ^ 259)%Z) in *.
  assert (Hp : (0 < p)%Z) by reflexivity. clearbody W e s b s' b' n k p. set (q := ell) in *. clearbody q.
  apply (Zmult_le_reg_r _ _ e); [lia|].
  assert (U : forall x y, (p * Z.abs x <= y -> p * x <= y /\ - (p * x) <= y)%Z) by (intros; nia).
  apply U in X, Y. destruct X as [X1 X2], Y as [Y1 Y2].
  assert (Z1 : (p * W * s <= p * W * (s' + k * e))%Z) by (apply Z.mul_le_mono_nonneg_l; [apply Z.mul_nonneg_nonneg; lia|auto]).
  assert (Z2 : (p * W * s' <= p * W * (s + k * e))%Z) by (apply Z.mul_le_mono_nonneg_l; [apply Z.mul_nonneg_nonneg; lia|auto]).
  destruct (Z.abs_spec (b - b')) as [[_ ->]|[_ ->]]; lia.
Qed.

(** two witnesses for one linear map: the tapes leading to any event about the output *)
Corollary C92_simple_zk (ro : oracle) tr m (A : list (list Point)) (G H : list Point)
    (Q : Point) (w1 w2 : list Scalar) (test : res (SimpleZK * transcript) -> bool) :
  let n := length G in
  1 <= n -> rect m n A -> length w1 = n -> length w2 = n -> pmv A w1 = pmv A w2 ->
  let tapes w := wide_count n (fun u => test (simple_zk_create ro (tape u) 0 tr A G H Q w)) in
  differ_at_most 0 (2 * n) n (tapes w1) (tapes w2).
Proof.
  intros n Hn HR H1 H2 E tapes. assert (X := C41_simple_zk_same_distribution ro tr 0 m A G H Q w1 w2 vals test HN HA HR H1 H2 E).
  fold n in X. assert (Y : forall w, count (fun u => test (simple_zk_create ro (tape_at 0 u) 0 tr A G H Q w)) (words vals n) =
    count (fun u => test (simple_zk_create ro (tape u) 0 tr A G H Q w)) (words vals n)).
  { intros w. apply count_ext. intros u _. unfold simple_zk_create. replace (draw (tape_at 0 u) 0 (length G)) with (draw (tape u) 0 (length G)); auto.
    unfold draw, tape, tape_at, sc. apply map_ext. intros i. f_equal. lia. }
  rewrite !Y in X. apply C92_differ; auto; rewrite X; lia.
Qed.

(** the game of C82 with byte strings for every answer of the hash function and every draw *)
Definition wide_plays (T1 T2 k m : nat) (game : word -> word -> word -> word -> bool) : nat :=
  let bytes := words (all_bytes 64) in
  list_sum (map (fun b1 => list_sum (map (fun b2 =>
    count (fun z => game (reduced ofZ b1) (reduced ofZ b2) (reduced ofZ (firstn k z)) (reduced ofZ (skipn k z))) (bytes (k + m))) (bytes T2))) (bytes T1)).

Lemma words_length {A} (l : list A) K w : In w (words l K) -> length w = K.
Proof. intros H. now apply words_In in H. Qed.
Lemma firstn_exact {A} (u v : list A) n : length u = n -> firstn n (u ++ v) = u.
Proof. intros <-. rewrite firstn_app, firstn_all, Nat.sub_diag. cbn. apply app_nil_r. Qed.
Lemma skipn_exact {A} (u v : list A) n : length u = n -> skipn n (u ++ v) = v.
Proof. intros <-. now rewrite skipn_app, skipn_all, Nat.sub_diag. Qed.
Lemma nested_count {A} (l : list A) T1 T2 K (F : list A -> list A -> list A -> bool) :
  list_sum (map (fun u1 => list_sum (map (fun u2 => count (F u1 u2) (words l K)) (words l T2))) (words l T1)) =
  count (fun z => F (firstn T1 z) (firstn T2 (skipn T1 z)) (skipn T2 (skipn T1 z))) (words l (T1 + (T2 + K))).
Proof.
  rewrite count_words_app. f_equal. apply map_ext_in. intros u1 H1. apply words_length in H1.
  rewrite count_words_app. f_equal. apply map_ext_in. intros u2 H2. apply words_length in H2.
  apply count_ext. intros z _. rewrite !firstn_exact, !skipn_exact by auto. now rewrite ?firstn_exact, ?skipn_exact by auto.
Qed.
Lemma plays_flat T1 T2 k m game : exists F : word -> bool,
  plays vals T1 T2 k m game = count F (words vals (T1 + (T2 + (k + m)))) /\
  wide_plays T1 T2 k m game = wide_count (T1 + (T2 + (k + m))) F.
Proof.
  exists (fun z => game (firstn T1 z) (firstn T2 (skipn T1 z)) (firstn k (skipn T2 (skipn T1 z))) (skipn k (skipn T2 (skipn T1 z)))). split.
  - unfold plays. now rewrite (nested_count vals T1 T2 (k + m) (fun u1 u2 z => game u1 u2 (firstn k z) (skipn k z))).
  - unfold wide_plays, wide_count, byte_count.
    rewrite (nested_count (all_bytes 64) T1 T2 (k + m) (fun u1 u2 z => game (reduced ofZ u1) (reduced ofZ u2) (reduced ofZ (firstn k z)) (reduced ofZ (skipn k z)))).
    apply count_ext. intros z _. unfold reduced. cbv beta. now rewrite !skipn_map, !firstn_map.
Qed.

(** two witnesses: no observer of the proof with T1 + T2 queries can tell which one was used *)
Corollary C92_qesa_witness_hidden {St} tr d (g h : list Scalar) (q : Scalar) (B : Point) Ms (w w' : list Scalar)
    (T1 T2 : nat) (ask : prover St) (judge : St -> Zk -> prover bool) :
  let n := 2 ^ S d in let K := 2 * d + 4 in
  2 <= d -> length g = n -> length h = n -> length w = n - 2 -> length w' = n - 2 -> 1 <= length Ms -> Forall (rect (n - 2) (n - 2)) Ms ->
  sc w 0 = s1 -> (forall i, i < length Ms -> quad (nth i Ms []) w = s0) ->
  sc w' 0 = s1 -> (forall i, i < length Ms -> quad (nth i Ms []) w' = s0) ->
  B <> p0 ->
  (sc g (n - 2)%nat * sc h (n - 2)%nat + sc g (n - 1)%nat * sc h (n - 1)%nat <> s0)%S ->
  zk_generators d h -> asks T1 ask ->
  let real := fun w => wide_plays T1 T2 (d + 6) (2 + (K + K))
    (real_game ceq tr (fun ro rng => zk_create ro rng 0 tr (mulB B g) (mulB B h) (q *: B)%P (mkBlockMatrix Ms) w) ask judge) in
  let N := T1 + (T2 + (d + 6 + (2 + (K + K)))) in
  differ_at_most (2 * ((3 * d + 12) * ((8 * n + 2 * d + 1) * (4 * n * n) + 32 * n + d + 5) + 6 + T1)) (2 * N) N (real w) (real w').
Proof.
  intros n K Hd Hg Hh Hw Hw' HM HF H0 Hs H0' Hs' HB Nd Z HT real N.
  assert (X := C82_qesa_witness_hidden ceq vals tr d g h q B Ms w w' T1 T2 ask judge Hd Hg Hh Hw Hw' HM HF H0 Hs H0' Hs' HN HA HB Nd Z HT).
  cbv zeta in X. fold n K in X.
  set (err := (3 * d + 12) * ((8 * n + 2 * d + 1) * (4 * n * n) + 32 * n + d + 5) + 6 + T1) in *.
  assert (EN : N - 1 = d + 6 + (2 + (K + K)) - 1 + (T1 + T2)) by (unfold N; lia). rewrite <- EN in X.
  unfold real. 
  destruct (plays_flat T1 T2 (d + 6) (2 + (K + K))
    (real_game ceq tr (fun ro rng => zk_create ro rng 0 tr (mulB B g) (mulB B h) (q *: B)%P (mkBlockMatrix Ms) w) ask judge)) as (F & E1 & E2).
  destruct (plays_flat T1 T2 (d + 6) (2 + (K + K))
    (real_game ceq tr (fun ro rng => zk_create ro rng 0 tr (mulB B g) (mulB B h) (q *: B)%P (mkBlockMatrix Ms) w') ask judge)) as (F' & E1' & E2').
  rewrite E2, E2'. rewrite E1, E1' in X. fold N in X |- *. destruct X as [X1 X2].
  apply C92_differ; [unfold N; lia| |]; rewrite <- Nat.mul_assoc; assumption.
Qed.
End Ristretto.

(** ** cases *)
(** one byte reduced modulo 3: 0 has 86 preimages, 1 and 2 have 85; the scalars are 1/3 each *)
Example C92_case_small :
  let C3 := fp_crypto 3 1 in
  let is := fun z (w : list (@Scalar C3)) => forallb (fun x => Z.eqb (val 3 x) z) w in
  byte_count (C := C3) (fp 3) 1 1 (is 0%Z) = 86 /\ byte_count (C := C3) (fp 3) 1 1 (is 1%Z) = 85 /\
  byte_count (C := C3) (fp 3) 1 1 (is 2%Z) = 85 /\ (256 / 3 = 85)%Z /\
  (86 * Z.abs (1 * 256 - 86 * 3) <= 1 * (256 * 3))%Z.
Proof. vm_compute. repeat split; discriminate. Qed.

(** the scalars can be listed, and a challenge is 0 with probability at most 1/ell + 1/2^259 *)
Example C92_case_zero : exists vals : list (@Scalar (RC 1)), NoDup vals /\ (forall x, In x vals) /\
  at_most 1 1 (wide_count (C := RC 1) (fp ell) 1 (fun w => seqb (sc w 0) s0)).
Proof.
  set (l := map (fun i => fp ell (Z.of_nat i)) (seq 0 (Z.to_nat ell)) : list (@Scalar (RC 1))).
  assert (HN : NoDup l).
  { unfold l. assert (X : forall n, (Z.of_nat n <= ell)%Z -> NoDup (map (fun i => fp ell (Z.of_nat i)) (seq 0 n))).
    { induction n as [|n IH]; intros Hn; [constructor|]. rewrite seq_S, map_app. cbn [map Nat.add].
      apply PropZkCount.NoDup_app; [apply IH; lia|repeat constructor; auto|]. intros x Hx [E|[]]. subst x.
      apply in_map_iff in Hx as (i & E & Hx). apply in_seq in Hx. apply (f_equal (val ell)) in E. rewrite !val_fp in E.
      rewrite !Z.mod_small in E by lia. lia. }
    apply X. rewrite Z2Nat.id by (pose proof ell_pos; lia). apply Z.le_refl. }
  assert (HA : forall x, In x l).
  { intros x. apply in_map_iff. exists (Z.to_nat (val ell x)). assert (R := val_range x). rewrite Z2Nat.id by lia. split.
    - apply Fp_eq. rewrite val_fp. apply Z.mod_small. auto.
    - apply in_seq. split; [lia|]. cbn [Nat.add]. apply Z2Nat.inj_lt; lia. }
  exists l. split; auto. split; auto. clearbody l.
  apply (@C92_at_most (RC 1) (RC_laws 1) (fp ell) (proj1 (C92_numbering 1)) l HN HA); auto.
  rewrite (count_ext _ (fun w => negb (negb (seqb (sc w 0) s0)))) by (intros; now rewrite negb_involutive).
  apply (@letter_zero (RC 1) (RC_laws 1)); auto.
Qed.
