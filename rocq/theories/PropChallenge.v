(** C49: challenges are reductions of 64 bytes; how many byte strings give each scalar *)
From Coq Require Import String.
From Verif Require Export Challenge Ex.
Local Open Scope Z_scope.

(** ** byte strings *)
Fixpoint to_bytes (k : nat) (z : Z) : list Z :=
  match k with O => [] | S k' => (z mod 256) :: to_bytes k' (z / 256) end.
Lemma to_bytes_ok k : forall z, byte_string k (to_bytes k z).
Proof.
  induction k as [|k IH]; intros z; cbn [to_bytes]; [repeat constructor|].
  destruct (IH (z / 256)) as [H1 H2]. split; [cbn; now rewrite H1|]. constructor; auto. apply Z.mod_pos_bound. lia.
Qed.
Lemma pow256_S k : 256 ^ Z.of_nat (S k) = 256 * 256 ^ Z.of_nat k.
Proof. rewrite Nat2Z.inj_succ, Z.pow_succ_r by lia. reflexivity. Qed.
Lemma le_to_bytes k : forall z, 0 <= z < 256 ^ Z.of_nat k -> le_value (to_bytes k z) = z.
Proof.
  induction k as [|k IH]; intros z Hz; cbn [to_bytes le_value]; [cbn in Hz; lia|].
  rewrite pow256_S in Hz. rewrite IH.
  - assert (H := Z.div_mod z 256 ltac:(lia)). lia.
  - split; [apply Z.div_pos; lia|]. apply Z.div_lt_upper_bound; lia.
Qed.
Lemma le_bound k : forall buf, byte_string k buf -> 0 <= le_value buf < 256 ^ Z.of_nat k.
Proof.
  induction k as [|k IH]; intros buf [H1 H2]; destruct buf as [|b buf]; try discriminate; cbn [le_value]; [cbn; lia|].
  injection H1 as H1. assert (A := Forall_inv H2). assert (B := IH buf (conj H1 (Forall_inv_tail H2))). cbv beta in A.
  rewrite pow256_S. lia.
Qed.
Lemma to_bytes_le k : forall buf, byte_string k buf -> to_bytes k (le_value buf) = buf.
Proof.
  induction k as [|k IH]; intros buf [H1 H2]; destruct buf as [|b buf]; try discriminate; cbn [le_value to_bytes]; auto.
  injection H1 as H1. assert (A := Forall_inv H2). cbv beta in A.
  replace (b + 256 * le_value buf) with (b + le_value buf * 256) by lia.
  rewrite Z.mod_add, Z.mod_small by lia. rewrite Z.div_add, Z.div_small by lia. cbn [Z.add].
  rewrite IH by (split; auto; exact (Forall_inv_tail H2)). reflexivity.
Qed.

(** ** residues *)
(** the numbers below M congruent to s modulo l, for 0 <= s < l *)
Lemma residues (l M s : Z) : 0 < l -> 0 <= M -> 0 <= s < l ->
  exists zs, NoDup zs /\ (forall z, In z zs <-> 0 <= z < M /\ z mod l = s) /\
    Z.of_nat (length zs) = (if s <? M mod l then M / l + 1 else M / l).
Proof.
  intros Hl HM Hs. set (c := if s <? M mod l then M / l + 1 else M / l).
  assert (HD := Z.div_mod M l ltac:(lia)). assert (HB := Z.mod_pos_bound M l Hl). assert (HP := Z.div_pos M l HM Hl).
  assert (Hc : 0 <= c) by (unfold c; destruct (s <? M mod l); lia).
  exists (map (fun i => s + Z.of_nat i * l) (seq 0 (Z.to_nat c))).
  split; [|split].
  - apply FinFun.Injective_map_NoDup; [|apply seq_NoDup]. intros i j E. apply Nat2Z.inj. nia.
  - intros z. rewrite in_map_iff. split.
    + intros (i & <- & Hi). apply in_seq in Hi. assert (Hi' : Z.of_nat i < c) by lia. split.
      * unfold c in Hi'. destruct (Z.ltb_spec s (M mod l)); nia.
      * rewrite Z.mod_add by lia. apply Z.mod_small. lia.
    + intros [Hz Ez]. assert (Dz := Z.div_mod z l ltac:(lia)). assert (Pz := Z.div_pos z l ltac:(lia) Hl).
      exists (Z.to_nat (z / l)). rewrite Z2Nat.id by lia. split; [lia|]. apply in_seq. split; [lia|].
      cbn [Nat.add]. apply Z2Nat.inj_lt; auto. unfold c. destruct (Z.ltb_spec s (M mod l)) as [H|H].
      * assert (z / l <= M / l) by (apply Z.div_le_mono; lia). lia.
      * assert (z / l <= M / l) by (apply Z.div_le_mono; lia). nia.
  - rewrite map_length, seq_length. now rewrite Z2Nat.id.
Qed.

Lemma ell_pos : 0 < ell. Proof. reflexivity. Qed.
Lemma val_range (x : Fp ell) : 0 <= val ell x < ell.
Proof. rewrite <- val_mod. apply Z.mod_pos_bound, ell_pos. Qed.

Section C49.
Context (m : nat).
Notation SC := (@Scalar (RC m)).

(** every challenge is the reduction of a number below 2^512, a canonical scalar *)
Theorem C49_challenge_is_reduction (hb : @transcript (RC m) -> list Z) tr label :
  (forall h, byte_string 64 (hb h)) ->
  let '(x, tr') := challenge_scalar_bytes hb tr label in
  tr' = tr ++ [EvChal label] /\
  0 <= le_value (hb tr') < 2 ^ 512 /\ val ell x = le_value (hb tr') mod ell /\ 0 <= val ell x < ell.
Proof.
  intros Hb. unfold challenge_scalar_bytes. split; auto. split; [|split].
  - change (2 ^ 512) with (256 ^ Z.of_nat 64). apply le_bound, Hb.
  - reflexivity.
  - apply Z.mod_pos_bound. exact ell_pos.
Qed.

(** number of byte strings reducing to a given scalar *)
Theorem C49_preimage_count (x : SC) :
  exists bufs, NoDup bufs /\
    (forall buf, In buf bufs <-> byte_string 64 buf /\ from_bytes_mod_order_wide (m := m) buf = x) /\
    Z.of_nat (length bufs) = (if val ell x <? 2 ^ 512 mod ell then 2 ^ 512 / ell + 1 else 2 ^ 512 / ell).
Proof.
  destruct (residues ell (2 ^ 512) (val ell x)) as (zs & HN & HI & HL).
  - exact ell_pos.
  - apply Z.pow_nonneg. lia.
  - apply val_range.
  - exists (map (to_bytes 64) zs). split; [|split].
    + clear HL. assert (HI' : forall z, In z zs -> 0 <= z < 256 ^ Z.of_nat 64).
      { intros z Hz. change (256 ^ Z.of_nat 64) with (2 ^ 512). now apply HI. }
      clear HI. induction HN as [|z zs Hz HN IH]; cbn [map]; constructor.
      * intros Hin. apply in_map_iff in Hin as (z' & E & Hz'). apply Hz.
        rewrite <- (le_to_bytes 64 z), <- E, le_to_bytes; auto; apply HI'; cbn; auto.
      * apply IH. intros; apply HI'. now right.
    + intros buf. rewrite in_map_iff. split.
      * intros (z & <- & Hz). apply HI in Hz as [Hz Ez]. split; [apply to_bytes_ok|]. apply Fp_eq.
        unfold from_bytes_mod_order_wide. rewrite val_fp. rewrite le_to_bytes by (change (256 ^ Z.of_nat 64) with (2 ^ 512); lia). exact Ez.
      * intros [Hb <-]. exists (le_value buf). split; [now apply to_bytes_le|]. apply HI. split; [|reflexivity].
        change (2 ^ 512) with (256 ^ Z.of_nat 64). now apply le_bound.
    + now rewrite map_length.
Qed.

(** bias: the probability of each scalar differs from 1/l by less than 1/2^512 *)
Corollary C49_bias (x : SC) :
  exists bufs, NoDup bufs /\
    (forall buf, In buf bufs <-> byte_string 64 buf /\ from_bytes_mod_order_wide (m := m) buf = x) /\
    Z.abs (Z.of_nat (length bufs) * ell - 2 ^ 512) < ell.
Proof.
  destruct (C49_preimage_count x) as (bufs & H1 & H2 & H3). exists bufs. split; auto. split; auto. rewrite H3.
  assert (HB := Z.mod_pos_bound (2 ^ 512) ell ell_pos). assert (HD := Z.div_mod (2 ^ 512) ell ltac:(pose proof ell_pos; lia)).
  assert (Hx := val_range x).
  set (q := 2 ^ 512 / ell) in *. set (r := 2 ^ 512 mod ell) in *. rewrite HD. clearbody q r. clear HD.
  destruct (Z.ltb_spec (val ell x) r) as [H|H].
  - replace ((q + 1) * ell - (ell * q + r)) with (ell - r) by ring. lia.
  - replace (q * ell - (ell * q + r)) with (- r) by ring. lia.
Qed.

(** the byte-level function is the model's [challenge_scalar] for the induced oracle, so
    every theorem about all oracles covers all byte-level hash functions *)
Theorem C49_oracle (hb : @transcript (RC m) -> list Z) tr label :
  challenge_scalar_bytes hb tr label = challenge_scalar (fun h => from_bytes_mod_order_wide (hb h)) tr label.
Proof. reflexivity. Qed.
(** and every oracle arises from 64-byte strings *)
Theorem C49_every_oracle (ro : @oracle (RC m)) :
  exists hb, (forall h, byte_string 64 (hb h)) /\ forall tr label, challenge_scalar_bytes hb tr label = challenge_scalar ro tr label.
Proof.
  exists (fun h => to_bytes 64 (val ell (ro h))). split; [intros; apply to_bytes_ok|]. intros tr label.
  unfold challenge_scalar_bytes, challenge_scalar. f_equal. apply Fp_eq. unfold from_bytes_mod_order_wide. rewrite val_fp.
  assert (Hx := val_range (ro (tr ++ [EvChal label]))).
  rewrite le_to_bytes.
  - now apply Z.mod_small.
  - assert (ell < 256 ^ Z.of_nat 64) by reflexivity. lia.
Qed.
End C49.

(** 64 bytes 0xff; the integer l itself; and the two possible counts *)
Example C49_case :
  zR (from_bytes_mod_order_wide (m := 1) (repeat 255 64)) = (2 ^ 512 - 1) mod ell /\
  zR (from_bytes_mod_order_wide (m := 1) (to_bytes 64 (ell + 5))) = 5 /\
  (val ell (sR 5) <? 2 ^ 512 mod ell) = true /\ (val ell (sR (-1)) <? 2 ^ 512 mod ell) = false.
Proof. vm_compute. auto. Qed.
