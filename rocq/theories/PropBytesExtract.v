(** C105: the extractors of C93 and C104 with the program's own hash function values: 64-byte
    strings reduced modulo ell. The extractor runs the prover with a table of such strings, which is
    the table of the accepted run; it is correct for every table, it fails on few of the accepted ones,
    and its mean number of runs is that of C93, C104 up to the factor (1 + 2^-259)^N. Any prover. *)
From Coq Require Import String.
From Verif Require Export PropBytes PropFsAny PropAdaptiveExtract.
From Verif Require Import CopyFacts PropMapping PropCopy PropCopySound Ex ExSmall.
Local Open Scope nat_scope.
Local Open Scope list_scope.

(** ** vocabulary *)
(** acc and fnd count tables of N strings of 64 bytes; as probabilities,
    acc <= fnd + a/ell + 2N/2^259 *)
Definition mostly (a N acc fnd : nat) : Prop :=
  (Z.of_nat acc * (2 ^ 258 * ell) <= Z.of_nat fnd * (2 ^ 258 * ell) + (Z.of_nat a * 2 ^ 258 + Z.of_nat N * ell) * wide_total N)%Z.
(** the mean of c over all tables of N strings of 64 bytes is at most b (1 + 2^-259)^N *)
Definition mean_at_most {C : Crypto} (ofZ : Z -> Scalar) (b N : nat) (c : list Scalar -> nat) : Prop :=
  (Z.of_nat (total (fun bufs => c (reduced ofZ bufs)) (words (all_bytes 64) N)) * (2 ^ 259) ^ Z.of_nat N
   <= Z.of_nat b * (2 ^ 259 + 1) ^ Z.of_nat N * wide_total N)%Z.

(** ** totals over fibres *)
Lemma total_words_S {A} (vals : list A) K (f : list A -> nat) :
  total f (words vals (S K)) = total (fun v => total (fun w => f (v :: w)) (words vals K)) vals.
Proof.
  unfold total. cbn [words]. generalize (words vals K). intros ws. induction vals as [|v vs IH]; [reflexivity|].
  cbn [flat_map map]. rewrite map_app, list_sum_app, IH, map_map. reflexivity.
Qed.
Section Fibres.
Context {A B : Type} (eqb : A -> A -> bool) (eqb_ok : forall x y, eqb x y = true <-> x = y).
Context (g : B -> A) (vals : list A) (HN : NoDup vals).
Context (bs : list B) (lo hi : nat) (Hg : forall b, In b bs -> In (g b) vals)
  (Hf : forall v, In v vals -> lo <= count (fun b => eqb (g b) v) bs <= hi).
Lemma total_reduced_bound K : forall f,
  total (fun w => f (map g w)) (words bs K) <= hi ^ K * total f (words vals K).
Proof.
  induction K as [|K IH]; intros f; [cbn; lia|].
  rewrite !total_words_S, Nat.pow_succ_r'.
  etransitivity; [apply (sum_fibres_bounds eqb eqb_ok g vals HN bs lo hi Hg Hf (fun v => total (fun w => f (v :: map g w)) (words bs K)))|].
  rewrite <- Nat.mul_assoc. apply Nat.mul_le_mono_l. clear HN Hg Hf. unfold total at 2.
  assert (Y : forall vs, list_sum (map (fun v => total (fun w => f (v :: map g w)) (words bs K)) vs) <=
    hi ^ K * list_sum (map (fun v => total (fun w => f (v :: w)) (words vals K)) vs)); [|apply Y].
  induction vs as [|v vs IHv]; [cbn; lia|]. cbn [map]. rewrite !sum_cons, Nat.mul_add_distr_l.
  specialize (IH (fun w => f (v :: w))). cbv beta in IH. lia.
Qed.
End Fibres.

Section Bytes.
Context {C : Crypto} {L : CryptoLaws C} (ceq : @encodings_comparable C).
Context (ofZ : Z -> Scalar) (HQ : numbers_scalars ofZ ell) (vals : list Scalar) (HN : NoDup vals) (HA : forall x, In x vals).
Notation word := (list Scalar).
Notation table := (table ceq).
Notation own_run := (own_run ceq).
Notation wide_successes := (wide_successes ceq ofZ).
Notation wide_count := (wide_count ofZ).
Notation reduced := (reduced ofZ).
Notation mean_at_most := (mean_at_most ofZ).
Notation cstmt := (list (list (list Scalar)) * list Point)%type.

(** ** transfer *)
Theorem C105_transfer N a (acc fnd : word -> bool) : 1 <= N ->
  count acc (words vals N) <= count fnd (words vals N) + a * length vals ^ (N - 1) ->
  mostly a N (wide_count N acc) (wide_count N fnd).
Proof.
  intros H1 H. unfold mostly. assert (X := C92_ristretto ofZ HQ vals HN HA N acc). assert (Y := C92_ristretto ofZ HQ vals HN HA N fnd).
  apply inj_le in H. rewrite Nat2Z.inj_add, Nat2Z.inj_mul, pow_of_nat, (ristretto_length ofZ HQ vals HN HA) in H.
  assert (HW := wide_pos N). set (W := wide_total N) in *.
  replace (Z.of_nat N) with (Z.succ (Z.of_nat (N - 1))) in X, Y by lia. rewrite Z.pow_succ_r in X, Y by lia.
  replace (Z.succ (Z.of_nat (N - 1))) with (Z.of_nat N) in X, Y by lia.
  assert (HE : (0 < ell ^ Z.of_nat (N - 1))%Z) by (apply Z.pow_pos_nonneg; [reflexivity|lia]).
  assert (Hl := ell_pos). set (e := (ell ^ Z.of_nat (N - 1))%Z) in *.
  set (s := Z.of_nat (count acc (words vals N))) in *. set (b := Z.of_nat (wide_count N acc)) in *.
  set (s' := Z.of_nat (count fnd (words vals N))) in *. set (b' := Z.of_nat (wide_count N fnd)) in *.
  set (n := Z.of_nat N) in *. set (k := Z.of_nat a) in *.
  change (2 ^ 259)%Z with (2 * 2 ^ 258)%Z in X, Y. set (p := (2 ^ 258)%Z) in *.
  assert (Hp : (0 < p)%Z) by reflexivity. clearbody W e s b s' b' n k p. set (q := ell) in *. clearbody q.
  apply (Zmult_le_reg_r _ _ (2 * e)); [lia|].
  assert (X' : (2 * p * (b * (q * e) - s * W) <= n * (W * (q * e)))%Z).
  { etransitivity; [|exact X]. apply Z.mul_le_mono_nonneg_l; lia. }
  assert (Y' : (2 * p * (s' * W - b' * (q * e)) <= n * (W * (q * e)))%Z).
  { etransitivity; [|exact Y]. apply Z.mul_le_mono_nonneg_l; lia. }
  assert (Z1 : (2 * p * W * s <= 2 * p * W * (s' + k * e))%Z) by (apply Z.mul_le_mono_nonneg_l; [apply Z.mul_nonneg_nonneg; lia|auto]).
  lia.
Qed.
Theorem C105_runs N b (c : word -> nat) :
  total c (words vals N) <= b * length vals ^ N -> mean_at_most b N c.
Proof.
  intros H. unfold mean_at_most.
  set (h := (2 ^ 512 / ell + 1)%Z).
  assert (X := total_reduced_bound seqb seqb_eq (fun buf => ofZ (le_value buf)) vals HN (all_bytes 64)
    0 (Z.to_nat h) ltac:(auto)
    ltac:(intros v _; assert (X := fibre_size ofZ ell HQ 64 v); cbv zeta in X; change (256 ^ Z.of_nat 64)%Z with (2 ^ 512)%Z in X; unfold h; lia) N c).
  change (fun w => c (map (fun buf => ofZ (le_value buf)) w)) with (fun bufs => c (reduced bufs)) in X.
  set (t := total (fun bufs => c (reduced bufs)) (words (all_bytes 64) N)) in *. clearbody t.
  assert (X2 : t <= Z.to_nat h ^ N * (b * length vals ^ N)) by (etransitivity; [exact X|]; apply Nat.mul_le_mono_l; exact H).
  apply inj_le in X2. rewrite !Nat2Z.inj_mul, !pow_of_nat, (ristretto_length ofZ HQ vals HN HA), Z2Nat.id in X2 by (vm_compute; discriminate).
  assert (Hh : ((h * ell) * 2 ^ 259 <= (2 ^ 259 + 1) * 2 ^ 512)%Z) by (vm_compute; discriminate).
  assert (Hh0 : (0 <= h * ell)%Z) by (vm_compute; discriminate).
  assert (Z1 : (((h * ell) * 2 ^ 259) ^ Z.of_nat N <= ((2 ^ 259 + 1) * 2 ^ 512) ^ Z.of_nat N)%Z).
  { apply Z.pow_le_mono_l. split; [|exact Hh]. apply Z.mul_nonneg_nonneg; [exact Hh0|]. now apply Z.pow_nonneg. }
  rewrite !Z.pow_mul_l in Z1. unfold wide_total.
  assert (HP : (0 <= (2 ^ 259) ^ Z.of_nat N)%Z) by (apply Z.pow_nonneg; now apply Z.pow_nonneg).
  set (u := ((2 ^ 259) ^ Z.of_nat N)%Z) in *. set (v := ((2 ^ 259 + 1) ^ Z.of_nat N)%Z) in *. set (w := ((2 ^ 512) ^ Z.of_nat N)%Z) in *.
  set (x := (h ^ Z.of_nat N)%Z) in *. set (y := (ell ^ Z.of_nat N)%Z) in *. clearbody u v w x y.
  apply (Z.mul_le_mono_nonneg_r _ _ u HP) in X2.
  assert (Z2 : (Z.of_nat b * (x * y * u) <= Z.of_nat b * (v * w))%Z) by (apply Z.mul_le_mono_nonneg_l; [lia|exact Z1]).
  lia.
Qed.
Lemma reduced_In N bufs : In bufs (words (all_bytes 64) N) -> In (reduced bufs) (words vals N).
Proof.
  intros H. apply words_In in H as [H _]. apply words_In. unfold reduced. rewrite map_length. split; auto.
  apply Forall_forall. auto.
Qed.

Corollary C105_nozk tr (G H : list Point) (Q P : Point) (t : Scalar) d (p : prover NoZK) T D :
  let V := fun ro pf => no_zk_verify ro tr pf G H Q (2 ^ d) P t in
  let p' := finish_nozk tr d G H Q p in
  let E := nozk_fs_extractor ceq vals tr G H Q d P t p' D in
  let N := length D in let K := 3 * 4 ^ d in let T' := T + S d in
  length G = 2 ^ d -> length H = 2 ^ d -> asks T p -> incl (reach vals p') D ->
  1 <= N ->
  (forall bufs e, In bufs (words (all_bytes 64) N) -> let w := reduced bufs in fst (E w) = Some e ->
     match e with
     | Wit a b c => length a = 2 ^ d /\ length b = 2 ^ d /\ c = t /\
                    P = (comb a G + comb b H + t *: Q)%P /\ dotp a b = t
     | Rel g h q => nontrivial_relation (2 ^ d) G H Q g h q
     end) /\
  mostly ((2 + 3 * d) * T') N (wide_successes V p D) (wide_count N (fun w => found (E w))) /\
  mean_at_most (K + T' * (K - 1)) N (fun w => snd (E w)).
Proof.
  intros V p' E N K T'. intros.
  edestruct (C93_nozk_extractor ceq vals tr G H Q P t d p T D) as (X1 & X2 & X3); eauto.
  split; [|split; [apply C105_transfer; [assumption|exact X2]|apply C105_runs; exact X3]].
  intros bufs e Hb w. apply X1. now apply reduced_In.
Qed.

Corollary C105_almzk tr (G H : list Point) (Q Cw : Point) (t : Scalar) d (p : prover AlmZK) T D :
  let V := fun ro pf => alm_zk_verify ro tr pf G H Q (2 ^ d) Cw t in
  let p' := finish_alm tr d G H Q Cw t p in
  let E := almzk_fs_extractor ceq vals tr G H Q d Cw t p' D in
  let N := length D in let K := 9 * 4 ^ d in let T' := T + (d + 2) in
  length G = 2 ^ d -> length H = 2 ^ d -> asks T p -> incl (reach vals p') D ->
  1 <= N ->
  (forall bufs e, In bufs (words (all_bytes 64) N) -> let w := reduced bufs in fst (E w) = Some e ->
     match e with
     | Wit a b c => length a = 2 ^ d /\ length b = 2 ^ d /\ c = t /\ Cw = (comb a G + comb b H)%P /\ dotp a b = t
     | Rel g h q => nontrivial_relation (2 ^ d) G H Q g h q
     end) /\
  mostly ((4 + 3 * d) * T') N (wide_successes V p D) (wide_count N (fun w => found (E w))) /\
  mean_at_most (K + T' * (K - 1)) N (fun w => snd (E w)).
Proof.
  intros V p' E N K T'. intros.
  edestruct (C93_almzk_extractor ceq vals tr G H Q Cw t d p T D) as (X1 & X2 & X3); eauto.
  split; [|split; [apply C105_transfer; [assumption|exact X2]|apply C105_runs; exact X3]].
  intros bufs e Hb w. apply X1. now apply reduced_In.
Qed.

Corollary C105_qesa_batched tr (G H : list Point) (Q : Point) n d Ms (p : prover Inner) T D :
  let V := fun ro pf => inner_verify ro tr pf G H Q (mkBlockMatrix Ms) in
  let p' := finish_inner tr n d G H Q Ms p in
  let E := qesa_batched_fs_extractor ceq vals tr G H Q n d Ms p' D in
  let N := length D in let K := 54 * n ^ 3 in let T' := T + (5 + d) in
  n = 2 ^ d -> 3 <= n -> length G = n -> length H = n -> 1 <= length Ms -> Forall (rect (n - 2) (n - 2)) Ms ->
  asks T p -> incl (reach vals p') D ->
  1 <= N ->
  (forall bufs x e, In bufs (words (all_bytes 64) N) -> let w := reduced bufs in fst (E w) = Some (x, e) -> x <> s0 /\
     match e with
     | Wit v u _ => exists cs pf, own_run V tr p' vals D (x :: cs) (fun pf' => pf' = pf) /\
       c_prime_w pf = c_prime_w (run (table D w) p) /\
       length v = n /\ length u = n /\ (dec (c_prime_w pf) + dec (c_prime_prime_w pf))%P = (comb v G + comb u H)%P /\
       let y := set_first (s1 + x * x * (sc v 0 - s1))%S v in
       u = mv n (q_gamma' n (q_gamma n Ms x)) y /\
       sum_S (min (length Ms) n) (fun t => spow x (S t) * quad (nth t Ms []) (firstn (n - 2) y))%S = s0
     | Rel g h q => nontrivial_relation n G H Q g h q
     end) /\
  mostly ((n + 5 + 3 * d) * T') N (wide_successes V p D) (wide_count N (fun w => found (E w))) /\
  mean_at_most (K + T' * (K - 1)) N (fun w => snd (E w)).
Proof.
  intros V p' E N K T'. intros.
  edestruct (C93_qesa_batched_extractor ceq vals tr G H Q n d Ms p T D) as (X1 & X2 & X3); eauto.
  split; [|split; [apply C105_transfer; [assumption|exact X2]|apply C105_runs; exact X3]].
  intros bufs x e Hb w. apply X1. now apply reduced_In.
Qed.

Corollary C105_qesa tr (G H : list Point) (Q : Point) n d Ms (p : prover (Inner * (word * word))) T D :
  let V := fun ro (o : Inner * (word * word)) => inner_verify ro tr (fst o) G H Q (mkBlockMatrix Ms) in
  let m := min (length Ms) n in
  let p' := finish_qesa tr n d G H Q Ms p in
  let E := qesa_fs_extractor ceq vals tr G H Q n d Ms p' D in
  let N := length D in let K := 27 * S m * n ^ 3 in let T' := T + (5 + d) in
  n = 2 ^ d -> 3 <= n -> length G = n -> length H = n -> 1 <= length Ms -> Forall (rect (n - 2) (n - 2)) Ms ->
  asks T p ->
  (forall ro, let '(pf, (w', u)) := run ro p in
     length w' = n /\ sc w' 0 = s1 /\ decompress (c_prime_w pf) = Some (comb w' G) /\
     length u = n /\ decompress (c_prime_prime_w pf) = Some (comb u H)) ->
  incl (reach vals p') D ->
  1 <= N ->
  (forall bufs e, In bufs (words (all_bytes 64) N) -> let w := reduced bufs in fst (E w) = Some e ->
     match e with
     | Some (g, h, q) => nontrivial_relation n G H Q g h q
     | None => forall t, t < m -> quad (nth t Ms []) (firstn (n - 2) (fst (snd (run (table D w) p)))) = s0
     end) /\
  mostly ((m + n + 4 + 3 * d) * T') N (wide_successes V p D) (wide_count N (fun w => found (E w))) /\
  mean_at_most (K + T' * (K - 1)) N (fun w => snd (E w)).
Proof.
  intros V m p' E N K T'. intros.
  edestruct (C93_qesa_extractor ceq vals tr G H Q n d Ms p T D) as (X1 & X2 & X3); eauto.
  split; [|split; [apply C105_transfer; [assumption|exact X2]|apply C105_runs; exact X3]].
  intros bufs e Hb w. apply X1. now apply reduced_In.
Qed.

Corollary C105_copy tr (G H : list Point) (Q : Point) n d Ms (ws : N) (sets : list (list N)) mp
    (msgs : list word) (rs : word) (Cs : list Point) (p : prover (Copy * (word * word))) T D :
  let V := fun ro (o : Copy * (word * word)) => copy_verify ro tr (fst o) G H Q (mkBlockMatrix Ms) mp Cs in
  let m := length Ms + length (unique_commitment_indices mp) in
  let p' := finish_copy tr n d G H Q Ms mp Cs p in
  let E := copy_fs_extractor ceq vals tr G H Q n d Ms sets mp msgs rs Cs p' D in
  let N := length D in let K := 27 * S (2 * length sets) * S m * n ^ 3 in let T' := T + (6 + d) in
  n = 2 ^ d ->
  3 <= n -> (N.of_nat n < 65536)%N -> (ws < 65536)%N -> (N.of_nat (length sets) <= 65536)%N ->
  length G = n -> length H = n -> Forall (rect (n - 2) (n - 2)) Ms ->
  (forall s i, In s sets -> In i s -> 1 <= N.to_nat i < n - 2) -> Forall (@NoDup BinNums.N) sets ->
  compute_mapping (N.of_nat n) ws sets = Ok mp -> m <= n ->
  length Cs = length sets ->
  (forall k, k < length sets -> commit G (nth k sets []) (nth k msgs []) (sc rs k) = Ok (pt Cs k)) ->
  asks T p ->
  (forall ro, let '(pf, (w', u)) := run ro p in
     length w' = n /\ sc w' 0 = s1 /\ decompress (cp_C_w pf) = Some (comb w' G) /\
     length u = n /\ decompress (c_prime_prime_w (cp_inner pf)) = Some (comb u H)) ->
  incl (reach vals p') D ->
  1 <= N ->
  (forall bufs e, In bufs (words (all_bytes 64) N) -> let w := reduced bufs in fst (E w) = Some e ->
     match e with
     | Some (g, h, q) => nontrivial_relation n G H Q g h q
     | None => let w' := fst (snd (run (table D w) p)) in
       (forall M, In M Ms -> quad M (firstn (n - 2) w') = s0) /\
       (forall k j, k < length sets -> j < length (nth k sets []) ->
          exists mm, nth_error (msgs_map mp) (cm_offset sets k + j) = Some mm /\
            sc (nth k msgs []) j = sc w' (mpos mm)) /\
       (forall s i, In s sets -> In i s -> sc w' (N.to_nat i) = s0)
     end) /\
  mostly ((2 * length sets + m + n + 4 + 3 * d) * T') N (wide_successes V p D) (wide_count N (fun w => found (E w))) /\
  mean_at_most (K + T' * (K - 1)) N (fun w => snd (E w)).
Proof.
  intros V m p' E N K T'. intros.
  edestruct (C93_copy_extractor ceq vals tr G H Q n d Ms ws sets mp msgs rs Cs p T D) as (X1 & X2 & X3); eauto.
  split; [|split; [apply C105_transfer; [assumption|exact X2]|apply C105_runs; exact X3]].
  intros bufs e Hb w. apply X1. now apply reduced_In.
Qed.

Corollary C105_nozk_chosen tr (G H : list Point) (Q : Point) d (enc : Point * Scalar -> list event) sel
    (p : prover ((Point * Scalar) * NoZK)) T D :
  let V := fun (st : Point * Scalar) tr ro pf => no_zk_verify ro tr pf G H Q (2 ^ d) (fst st) (snd st) in
  let W := on_chosen enc sel tr V in
  let p' := finish_chosen enc tr (fun _ tr => complete tr d G H Q) p in
  let E := nozk_chosen_extractor ceq vals tr G H Q d enc sel p' D in
  let N := length D in let K := 3 * 4 ^ d in
  readable enc -> length G = 2 ^ d -> length H = 2 ^ d ->
  asks T p -> incl (reach vals p') D ->
  1 <= N ->
  (forall bufs e, In bufs (words (all_bytes 64) N) -> let w := reduced bufs in fst (E w) = Some e ->
     let '(P, t) := fst (run (table D w) p) in sel (P, t) = true /\
     match e with
     | Wit a b c => length a = 2 ^ d /\ length b = 2 ^ d /\ c = t /\ P = (comb a G + comb b H + t *: Q)%P /\ dotp a b = t
     | Rel g h q => nontrivial_relation (2 ^ d) G H Q g h q
     end) /\
  mostly ((2 + 3 * d) * (T + S d)) N (wide_successes W p D) (wide_count N (fun w => found (E w))) /\
  mean_at_most (K + (T + S d) * (K - 1)) N (fun w => snd (E w)).
Proof.
  intros V W p' E N K. intros.
  edestruct (C104_nozk_every_prover ceq vals tr G H Q d enc sel p T D) as (X1 & X2 & X3); eauto.
  split; [|split; [apply C105_transfer; [assumption|exact X2]|apply C105_runs; exact X3]].
  intros bufs e Hb w. apply X1. now apply reduced_In.
Qed.

Corollary C105_almzk_chosen tr (G H : list Point) (Q : Point) d (enc : Point * Scalar -> list event) sel
    (p : prover ((Point * Scalar) * AlmZK)) T D :
  let V := fun (st : Point * Scalar) tr ro pf => alm_zk_verify ro tr pf G H Q (2 ^ d) (fst st) (snd st) in
  let W := on_chosen enc sel tr V in
  let p' := finish_chosen enc tr (fun st tr => complete_alm tr d G H Q (fst st) (snd st)) p in
  let E := almzk_chosen_extractor ceq vals tr G H Q d enc sel p' D in
  let N := length D in let K := 9 * 4 ^ d in
  readable enc -> length G = 2 ^ d -> length H = 2 ^ d ->
  asks T p -> incl (reach vals p') D ->
  1 <= N ->
  (forall bufs e, In bufs (words (all_bytes 64) N) -> let w := reduced bufs in fst (E w) = Some e ->
     let '(Cw, t) := fst (run (table D w) p) in sel (Cw, t) = true /\
     match e with
     | Wit a b c => length a = 2 ^ d /\ length b = 2 ^ d /\ c = t /\ Cw = (comb a G + comb b H)%P /\ dotp a b = t
     | Rel g h q => nontrivial_relation (2 ^ d) G H Q g h q
     end) /\
  mostly ((4 + 3 * d) * (T + (2 + d))) N (wide_successes W p D) (wide_count N (fun w => found (E w))) /\
  mean_at_most (K + (T + (2 + d)) * (K - 1)) N (fun w => snd (E w)).
Proof.
  intros V W p' E N K. intros.
  edestruct (C104_almzk_every_prover ceq vals tr G H Q d enc sel p T D) as (X1 & X2 & X3); eauto.
  split; [|split; [apply C105_transfer; [assumption|exact X2]|apply C105_runs; exact X3]].
  intros bufs e Hb w. apply X1. now apply reduced_In.
Qed.

Corollary C105_lmpa_chosen tr d m (G H : list Point) (Q : Point) (enc : list (list Point) * list Point -> list event) sel
    (p : prover ((list (list Point) * list Point) * LmpaNoZK)) T D :
  let V := fun (st : list (list Point) * list Point) tr ro pf => lmpa_verify ro tr pf (fst st) G H Q (2 ^ d) (snd st) in
  let W := on_chosen enc sel tr V in
  let p' := then_ask p (chosen_queries enc tr (fun tr => lmpa_queries tr d)) in
  let E := lmpa_chosen_extractor ceq vals tr G H Q d enc sel p' D in
  let N := length D in let K := 3 ^ d in
  readable enc -> 1 <= m -> (forall A t, sel (A, t) = true -> rect m (2 ^ d) A) ->
  asks T p -> incl (reach vals p') D ->
  1 <= N ->
  (forall bufs x, In bufs (words (all_bytes 64) N) -> let w := reduced bufs in fst (E w) = Some x ->
     let '(A, t) := fst (run (table D w) p) in sel (A, t) = true /\ length x = 2 ^ d /\ comb x (nth 0 A []) = pt t 0) /\
  mostly (2 * d * (T + d)) N (wide_successes W p D) (wide_count N (fun w => found (E w))) /\
  mean_at_most (K + (T + d) * (K - 1)) N (fun w => snd (E w)).
Proof.
  intros V W p' E N K. intros.
  edestruct (C104_lmpa_every_prover ceq vals tr d m G H Q enc sel p T D) as (X1 & X2 & X3); eauto.
  split; [|split; [apply C105_transfer; [assumption|exact X2]|apply C105_runs; exact X3]].
  intros bufs x Hb w. apply X1. now apply reduced_In.
Qed.

Corollary C105_simplezk_chosen tr d m (G H : list Point) (Q : Point) (enc : list (list Point) * list Point -> list event) sel
    (p : prover ((list (list Point) * list Point) * SimpleZK)) T D :
  let V := fun (st : list (list Point) * list Point) tr ro pf => simple_zk_verify ro tr pf (fst st) G H Q (2 ^ d) (snd st) in
  let W := on_chosen enc sel tr V in
  let p' := then_ask p (chosen_queries enc tr (fun tr => simplezk_queries tr d)) in
  let E := simplezk_chosen_extractor ceq vals tr G H Q d enc sel p' D in
  let N := length D in let K := 2 * 3 ^ d in
  readable enc -> 1 <= m -> (forall A t, sel (A, t) = true -> rect m (2 ^ d) A) ->
  asks T p -> incl (reach vals p') D ->
  1 <= N ->
  (forall bufs x, In bufs (words (all_bytes 64) N) -> let w := reduced bufs in fst (E w) = Some x ->
     let '(A, t) := fst (run (table D w) p) in sel (A, t) = true /\ length x = 2 ^ d /\ comb x (nth 0 A []) = pt t 0) /\
  mostly ((1 + 2 * d) * (T + S d)) N (wide_successes W p D) (wide_count N (fun w => found (E w))) /\
  mean_at_most (K + (T + S d) * (K - 1)) N (fun w => snd (E w)).
Proof.
  intros V W p' E N K. intros.
  edestruct (C104_simplezk_every_prover ceq vals tr d m G H Q enc sel p T D) as (X1 & X2 & X3); eauto.
  split; [|split; [apply C105_transfer; [assumption|exact X2]|apply C105_runs; exact X3]].
  intros bufs x Hb w. apply X1. now apply reduced_In.
Qed.

Corollary C105_qesa_chosen tr (G H : list Point) (Q : Point) n d (enc : list (list (list Scalar)) -> list event) sel
    (p : prover (list (list (list Scalar)) * (Inner * (list Scalar * list Scalar)))) T D :
  let V := fun Ms tr ro (o : Inner * (list Scalar * list Scalar)) => inner_verify ro tr (fst o) G H Q (mkBlockMatrix Ms) in
  let W := on_chosen enc sel tr V in
  let p' := finish_chosen enc tr (fun Ms tr => on_fst (complete_inner tr n d G H Q Ms)) p in
  let E := qesa_chosen_extractor ceq vals tr G H Q n d enc sel p' D in
  let N := length D in let K := 27 * S n * n ^ 3 in
  readable enc -> n = 2 ^ d -> 3 <= n -> length G = n -> length H = n ->
  (forall Ms, sel Ms = true -> 1 <= length Ms /\ Forall (rect (n - 2) (n - 2)) Ms) ->
  asks T p ->
  (forall ro, let '(pf, (w', u)) := snd (run ro p) in
     length w' = n /\ sc w' 0 = s1 /\ decompress (c_prime_w pf) = Some (comb w' G) /\
     length u = n /\ decompress (c_prime_prime_w pf) = Some (comb u H)) ->
  incl (reach vals p') D ->
  1 <= N ->
  (forall bufs e, In bufs (words (all_bytes 64) N) -> let w := reduced bufs in fst (E w) = Some e ->
     let '(Ms, (pf, (w', u))) := run (table D w) p in sel Ms = true /\
     match e with
     | Some (g, h, q) => nontrivial_relation n G H Q g h q
     | None => forall t, t < min (length Ms) n -> quad (nth t Ms []) (firstn (n - 2) w') = s0
     end) /\
  mostly ((2 * n + 4 + 3 * d) * (T + (5 + d))) N (wide_successes W p D) (wide_count N (fun w => found (E w))) /\
  mean_at_most (K + (T + (5 + d)) * (K - 1)) N (fun w => snd (E w)).
Proof.
  intros V W p' E N K. intros.
  edestruct (C104_qesa_every_prover ceq vals tr G H Q n d enc sel p T D) as (X1 & X2 & X3); eauto.
  split; [|split; [apply C105_transfer; [assumption|exact X2]|apply C105_runs; exact X3]].
  intros bufs e Hb w. apply X1. now apply reduced_In.
Qed.

Corollary C105_copy_chosen tr (G H : list Point) (Q : Point) n d (ws : N) (sets : list (list N)) mp
    (msgs : cstmt -> list (list Scalar)) (rs : cstmt -> list Scalar) (enc : cstmt -> list event) sel
    (p : prover (cstmt * (Copy * (list Scalar * list Scalar)))) T D :
  let V := fun (st : cstmt) tr ro (o : Copy * (list Scalar * list Scalar)) => copy_verify ro tr (fst o) G H Q (mkBlockMatrix (fst st)) mp (snd st) in
  let W := on_chosen enc sel tr V in
  let p' := finish_chosen enc tr (fun st tr => on_fst (complete_copy tr n d G H Q (fst st) mp (snd st))) p in
  let E := copy_chosen_extractor ceq vals tr G H Q n d sets mp msgs rs enc sel p' D in
  let N := length D in let K := 27 * S (2 * length sets) * S n * n ^ 3 in
  readable enc -> n = 2 ^ d -> 3 <= n -> (N.of_nat n < 65536)%N -> (ws < 65536)%N -> (N.of_nat (length sets) <= 65536)%N ->
  length G = n -> length H = n ->
  (forall s i, In s sets -> In i s -> 1 <= N.to_nat i < n - 2) -> Forall (@NoDup BinNums.N) sets ->
  compute_mapping (N.of_nat n) ws sets = Ok mp ->
  (forall Ms Cs, sel (Ms, Cs) = true -> Forall (rect (n - 2) (n - 2)) Ms /\ length Ms + length (unique_commitment_indices mp) <= n /\
     length Cs = length sets /\
     forall k, k < length sets -> commit G (nth k sets []) (nth k (msgs (Ms, Cs)) []) (sc (rs (Ms, Cs)) k) = Ok (pt Cs k)) ->
  asks T p ->
  (forall ro, let '(pf, (w', u)) := snd (run ro p) in
     length w' = n /\ sc w' 0 = s1 /\ decompress (cp_C_w pf) = Some (comb w' G) /\
     length u = n /\ decompress (c_prime_prime_w (cp_inner pf)) = Some (comb u H)) ->
  incl (reach vals p') D ->
  1 <= N ->
  (forall bufs e, In bufs (words (all_bytes 64) N) -> let w := reduced bufs in fst (E w) = Some e ->
     let st := fst (run (table D w) p) in let w' := fst (snd (snd (run (table D w) p))) in sel st = true /\
     match e with
     | Some (g, h, q) => nontrivial_relation n G H Q g h q
     | None =>
       (forall M, In M (fst st) -> quad M (firstn (n - 2) w') = s0) /\
       (forall k j, k < length sets -> j < length (nth k sets []) ->
          exists mm, nth_error (msgs_map mp) (cm_offset sets k + j) = Some mm /\
            sc (nth k (msgs st) []) j = sc w' (mpos mm)) /\
       (forall s i, In s sets -> In i s -> sc w' (N.to_nat i) = s0)
     end) /\
  mostly ((2 * length sets + 2 * n + 4 + 3 * d) * (T + (6 + d))) N (wide_successes W p D) (wide_count N (fun w => found (E w))) /\
  mean_at_most (K + (T + (6 + d)) * (K - 1)) N (fun w => snd (E w)).
Proof.
  intros V W p' E N K. intros.
  edestruct (C104_copy_every_prover ceq vals tr G H Q n d ws sets mp msgs rs enc sel p T D) as (X1 & X2 & X3); eauto.
  split; [|split; [apply C105_transfer; [assumption|exact X2]|apply C105_runs; exact X3]].
  intros bufs e Hb w. apply X1. now apply reduced_In.
Qed.

End Bytes.

(** ** concrete cases *)
(** a prover accepted for all tables is extracted for some; with a = 10 and one string *)
Example C105_case_mostly :
  (forall acc, Z.of_nat acc = wide_total 1 -> ~ mostly 10 1 acc 0) /\
  (exists acc, Z.of_nat acc = wide_total 1) /\ mostly 10 1 0 0.
Proof.
  split; [|split].
  - intros acc E H. unfold mostly in H. rewrite E in H. vm_compute in H. now apply H.
  - exists (length (words (all_bytes 64) 1)). apply wide_length.
  - unfold mostly. vm_compute. discriminate.
Qed.
(** acceptance of a round-less proof with b = 0, t = 0, for every answer *)
Section Accepted.
Context {C : Crypto} {L : CryptoLaws C}.
Add Field Sf105 : (@S_field C L).
Lemma accepted105 (G H Q : Point) (a : Scalar) tr ro :
  yes (no_zk_verify ro tr (mkNoZK [] [] a s0) [G] [H] Q 1 (a *: G)%P s0) = true.
Proof.
  unfold no_zk_verify. cbn [L_vec R_vec mapM bind length Nat.pow Nat.eqb assertb].
  destruct (challenge_scalar ro (append_u64 tr "n" 1) "alpha") as [al tr'] eqn:E. cbn.
  match goal with |- (if ?b then _ else _) = _ => assert (F : b = true); [apply peqb_eq; pring|now rewrite F] end.
Qed.
End Accepted.
Lemma count_true {B} (f : B -> bool) l : (forall x, In x l -> f x = true) -> count f l = length l.
Proof.
  induction l as [|x l IH]; intros H; [reflexivity|]. rewrite count_cons, (H x (or_introl eq_refl)), IH; [reflexivity|].
  intros y Hy. apply H. now right.
Qed.
(** P = 3 G, t = 0 chosen and hashed, over Ristretto's scalars: the prover sends a = 3, b = 0 and asks
    nothing itself. Its extractor finds a witness or a relation for some table of 64-byte answers *)
Lemma count_ex {B} (f : B -> bool) l : count f l <> 0 -> exists x, In x l /\ f x = true.
Proof.
  unfold count. destruct (filter f l) as [|x r] eqn:E; [easy|]. intros _. exists x. apply filter_In. rewrite E. now left.
Qed.
Section Case.
Context {C : Crypto} {L : CryptoLaws C} (ceq : @encodings_comparable C).
Context (ofZ : Z -> Scalar) (HQ : numbers_scalars ofZ ell) (vals : list Scalar) (HN : NoDup vals) (HA : forall x, In x vals).
Lemma found105 (G H Q B : Point) (a : Scalar) D :
  let enc := enc_pair enc_point (enc_scalar B) in
  let p := Done (((a *: G)%P, s0), mkNoZK [] [] a s0) in
  let p' := finish_chosen enc [] (fun _ tr => complete tr 0 [G] [H] Q) p in
  let E := nozk_chosen_extractor ceq vals [] [G] [H] Q 0 enc (fun _ => true) p' D in
  B <> p0 -> incl (reach vals p') D -> length D = 1 ->
  exists bufs, In bufs (words (all_bytes 64) 1) /\ found (E (reduced ofZ bufs)) = true.
Proof.
  intros enc p p' E HB HD H1.
  destruct (C105_nozk_chosen ceq ofZ HQ vals HN HA [] [G] [H] Q 0 enc (fun _ => true) p 0 D) as (_ & X & _); auto.
  - apply prefix_readable. apply pair_code; [apply point_code|now apply scalar_code].
  - exact I.
  - lia.
  - fold p' E in X. unfold wide_successes, wide_count, byte_count in X. rewrite H1 in X.
    assert (HL := wide_length 1). revert X HL. generalize (words (all_bytes 64) 1). intros ws X HL.
    apply count_ex. intros F. rewrite F in X. unfold mostly in X. rewrite count_true, HL in X.
    + revert X. apply Z.lt_nge. vm_compute. reflexivity.
    + intros w _. apply accepted105.
Qed.
End Case.
Definition B105 (i : nat) : @Point (RC 3) := vtab ell 3 (fun j => fp ell (if Nat.eqb j i then 1 else 0)).
Example C105_case_nozk (ceq : @encodings_comparable (RC 3)) (vals : list (@Scalar (RC 3))) (HN : NoDup vals) (HA : forall x, In x vals) D :
  let enc := enc_pair enc_point (enc_scalar (B105 0)) in
  let a := fp ell 3 : @Scalar (RC 3) in
  let p := Done (((a *: B105 0)%P, s0), mkNoZK [] [] a s0) in
  let p' := finish_chosen enc [] (fun _ tr => complete tr 0 [B105 0] [B105 1] (B105 2)) p in
  let E := nozk_chosen_extractor ceq vals [] [B105 0] [B105 1] (B105 2) 0 enc (fun _ => true) p' D in
  incl (reach vals p') D -> length D = 1 ->
  exists bufs, In bufs (words (all_bytes 64) 1) /\ found (E (reduced (C := RC 3) (fp ell) bufs)) = true.
Proof.
  intros enc a p p' E. apply (@found105 (RC 3) (RC_laws 3) ceq (fp ell) (proj1 (C92_numbering 3)) vals HN HA (B105 0) (B105 1) (B105 2) (B105 0) a D).
  intros F. apply (f_equal (fun v : Vm ell 3 => map (val ell) (proj1_sig v))) in F. revert F. vm_compute. discriminate.
Qed.
