(** C106: the discrete logarithms of C93 and C104 with the program's own hash function values:
    64-byte strings reduced modulo ell. Generators are random combinations of B and X as in C91; all
    sums are over the generators and all tables of M strings. *)
From Coq Require Import String.
From Verif Require Export PropBytesExtract.
From Verif Require Import CopyFacts PropMapping PropCopy PropCopySound Ex ExSmall.
Local Open Scope nat_scope.
Local Open Scope list_scope.

(** ** vocabulary *)
(** acc and fnd count pairs of generators (ell^N * ell^N choices) and tables of M strings; as
    probabilities, acc <= fnd + (a + 1)/ell + k M/2^259 *)
Definition breaks (a k M N acc fnd : nat) : Prop :=
  (Z.of_nat acc * (2 ^ 259 * ell) <= Z.of_nat fnd * (2 ^ 259 * ell) +
   ((Z.of_nat a + 1) * 2 ^ 259 + Z.of_nat k * Z.of_nat M * ell) * (ell ^ Z.of_nat N * ell ^ Z.of_nat N * wide_total M))%Z.
(** the mean over generators and tables is at most b (1 + 2^-259)^M *)
Definition gens_mean (b M N t : nat) : Prop :=
  (Z.of_nat t * (2 ^ 259) ^ Z.of_nat M <= Z.of_nat b * (2 ^ 259 + 1) ^ Z.of_nat M * (ell ^ Z.of_nat N * ell ^ Z.of_nat N * wide_total M))%Z.

Lemma total_Z {A} (f g : A -> nat) (a b c : Z) l : (forall x, In x l -> (a * Z.of_nat (f x) <= b * Z.of_nat (g x) + c)%Z) ->
  (a * Z.of_nat (total f l) <= b * Z.of_nat (total g l) + Z.of_nat (length l) * c)%Z.
Proof.
  unfold total. induction l as [|x l IH]; intros H; [cbn [map list_sum fold_right length]; lia|].
  cbn [map length]. rewrite !sum_cons, !Nat2Z.inj_add, Nat2Z.inj_succ.
  assert (H1 := H x (or_introl eq_refl)). specialize (IH (fun y Hy => H y (or_intror Hy))). lia.
Qed.
Lemma total2_Z {C : Crypto} vals N (F G : list Scalar -> list Scalar -> nat) (a b c : Z) :
  (forall r s, (a * Z.of_nat (F r s) <= b * Z.of_nat (G r s) + c)%Z) ->
  (a * Z.of_nat (total2 vals N F) <= b * Z.of_nat (total2 vals N G) + Z.of_nat (length vals ^ N) * Z.of_nat (length vals ^ N) * c)%Z.
Proof.
  intros H. unfold total2. rewrite <- Z.mul_assoc, <- (words_count vals N).
  apply total_Z. intros s _. apply total_Z. intros r _. apply H.
Qed.

Section Bytes.
Context {C : Crypto} {L : CryptoLaws C} (ceq : @encodings_comparable C).
Context (ofZ : Z -> Scalar) (HQ : numbers_scalars ofZ ell) (vals : list Scalar) (HN : NoDup vals) (HA : forall x, In x vals).
Notation word := (list Scalar).
Notation table := (table ceq).
Notation own_run := (own_run ceq).
Notation asks_challenges := (asks_challenges ceq).
Notation wide_successes := (wide_successes ceq ofZ).
Notation wide_count := (wide_count ofZ).
Notation reduced := (reduced ofZ).
Notation cstmt := (list (list (list Scalar)) * list Point)%type.
(** number of tables of 64-byte answers for which the proof is accepted and bad *)
Definition wide_cheats {X} (V : oracle -> X -> res (bool * transcript)) (bad : X -> bool) (p : prover X) (D : list transcript) : nat :=
  wide_count (length D) (fun w => yes (V (table D w) (run (table D w) p)) && bad (run (table D w) p)).

(** ** transfer *)
Lemma dist2 M N (f : word -> word -> word -> bool) :
  let m := (ell ^ Z.of_nat M)%Z in let c := (Z.of_nat M * (wide_total M * m))%Z in
  let g := (ell ^ Z.of_nat N * ell ^ Z.of_nat N)%Z in
  let S := Z.of_nat (total2 vals N (fun r s => count (f r s) (words vals M))) in
  let S' := Z.of_nat (total2 vals N (fun r s => wide_count M (f r s))) in
  (2 ^ 259 * m * S' <= 2 ^ 259 * wide_total M * S + g * c /\ 2 ^ 259 * wide_total M * S <= 2 ^ 259 * m * S' + g * c)%Z.
Proof.
  intros m c g S S'.
  assert (G : (Z.of_nat (length vals ^ N) * Z.of_nat (length vals ^ N) = g)%Z).
  { rewrite pow_of_nat, (ristretto_length ofZ HQ vals HN HA). reflexivity. }
  rewrite <- G. set (p := (2 ^ 259)%Z).
  split; apply total2_Z; intros r s; assert (X := C92_ristretto ofZ HQ vals HN HA M (f r s)); fold m c p in X;
    set (x := Z.of_nat (count (f r s) (words vals M))) in *; set (y := Z.of_nat (wide_count M (f r s))) in *;
    assert (Hp : (0 < p)%Z) by reflexivity; set (W := wide_total M) in *; clearbody x y W m c p;
    destruct (Z.abs_spec (x * W - y * m)) as [[H E]|[H E]]; rewrite E in X; nia.
Qed.

Theorem C106_transfer M N a k (acc : word -> word -> word -> bool) (fs : list (word -> word -> word -> bool)) : 1 <= M -> 1 <= N -> k = S (length fs) ->
  let q := length vals in
  total2 vals N (fun r s => count (acc r s) (words vals M)) <=
    total (fun f => total2 vals N (fun r s => count (f r s) (words vals M))) fs +
    q ^ M * (q ^ N * q ^ (N - 1)) + q ^ N * q ^ N * (a * q ^ (M - 1)) ->
  breaks a k M N (total2 vals N (fun r s => wide_count M (acc r s))) (total (fun f => total2 vals N (fun r s => wide_count M (f r s))) fs).
Proof.
  intros H1 H2 -> q H. unfold breaks.
  destruct (dist2 M N acc) as [X _].
  set (sf := total (fun f => total2 vals N (fun r s => count (f r s) (words vals M))) fs) in *.
  set (bf := total (fun f => total2 vals N (fun r s => wide_count M (f r s))) fs).
  assert (Y : (2 ^ 259 * wide_total M * Z.of_nat sf <= 2 ^ 259 * ell ^ Z.of_nat M * Z.of_nat bf +
    Z.of_nat (length fs) * (ell ^ Z.of_nat N * ell ^ Z.of_nat N * (Z.of_nat M * (wide_total M * ell ^ Z.of_nat M))))%Z).
  { apply total_Z. intros f _. apply (dist2 M N f). }
  set (sa := total2 vals N (fun r s => count (acc r s) (words vals M))) in *.
  set (ba := total2 vals N (fun r s => wide_count M (acc r s))) in *.
  apply inj_le in H. rewrite !Nat2Z.inj_add, !Nat2Z.inj_mul, !pow_of_nat in H. unfold q in H. rewrite !(ristretto_length ofZ HQ vals HN HA) in H.
  assert (EM : (ell ^ Z.of_nat M = ell * ell ^ Z.of_nat (M - 1))%Z).
  { rewrite <- Z.pow_succ_r by lia. f_equal. lia. }
  assert (EN : (ell ^ Z.of_nat N = ell * ell ^ Z.of_nat (N - 1))%Z).
  { rewrite <- Z.pow_succ_r by lia. f_equal. lia. }
  assert (PM : (0 < ell ^ Z.of_nat (M - 1))%Z) by (apply Z.pow_pos_nonneg; [reflexivity|lia]).
  assert (PN : (0 < ell ^ Z.of_nat (N - 1))%Z) by (apply Z.pow_pos_nonneg; [reflexivity|lia]).
  assert (HW := wide_pos M). rewrite Nat2Z.inj_succ.
  rewrite EM, EN in *. clear EM EN.
  set (e := (ell ^ Z.of_nat (M - 1))%Z) in *. set (u := (ell ^ Z.of_nat (N - 1))%Z) in *. set (W := wide_total M) in *.
  set (l := Z.of_nat (length fs)) in *. set (zm := Z.of_nat M) in *. set (za := Z.of_nat a) in *.
  set (A := Z.of_nat sa) in *. set (A' := Z.of_nat ba) in *. set (F := Z.of_nat sf) in *. set (F' := Z.of_nat bf) in *.
  assert (Hl := ell_pos). set (z := ell) in *. set (p := (2 ^ 259)%Z) in *. assert (Hp : (0 < p)%Z) by reflexivity.
  clearbody e u W l zm za A A' F F' z p.
  apply (Zmult_le_reg_r _ _ e); [lia|].
  assert (Z1 : (p * W * A <= p * W * (F + z * e * (z * u * u) + z * u * (z * u) * (za * e)))%Z)
    by (apply Z.mul_le_mono_nonneg_l; [apply Z.mul_nonneg_nonneg; lia|exact H]).
  lia.
Qed.
Theorem C106_runs M N b (c : word -> word -> word -> nat) :
  let q := length vals in
  total2 vals N (fun r s => total (c r s) (words vals M)) <= q ^ N * q ^ N * (b * q ^ M) ->
  gens_mean b M N (total2 vals N (fun r s => total (fun bufs => c r s (reduced bufs)) (words (all_bytes 64) M))).
Proof.
  intros q H. unfold gens_mean. set (h := (2 ^ 512 / ell + 1)%Z).
  assert (Hh1 : (0 <= h)%Z) by (vm_compute; discriminate).
  assert (X := total2_Z vals N (fun r s => total (fun bufs => c r s (reduced bufs)) (words (all_bytes 64) M)) (fun r s => total (c r s) (words vals M))
    1 (h ^ Z.of_nat M) 0).
  set (t := total2 vals N (fun r s => total (fun bufs => c r s (reduced bufs)) (words (all_bytes 64) M))) in *.
  set (t' := total2 vals N (fun r s => total (c r s) (words vals M))) in *.
  assert (X2 : (Z.of_nat t <= h ^ Z.of_nat M * Z.of_nat t')%Z).
  { etransitivity; [|etransitivity; [apply X|]]; [lia| |lia].
    intros r s. assert (Y := total_reduced_bound seqb seqb_eq (fun buf => ofZ (le_value buf)) vals HN (all_bytes 64)
      0 (Z.to_nat h) ltac:(auto)
      ltac:(intros v _; assert (Y := fibre_size ofZ ell HQ 64 v); cbv zeta in Y; change (256 ^ Z.of_nat 64)%Z with (2 ^ 512)%Z in Y; unfold h; lia) M (c r s)).
    change (fun w => c r s (map (fun buf => ofZ (le_value buf)) w)) with (fun bufs => c r s (reduced bufs)) in Y.
    apply inj_le in Y. rewrite Nat2Z.inj_mul, pow_of_nat, Z2Nat.id in Y by exact Hh1. lia. }
  clear X. apply inj_le in H. rewrite !Nat2Z.inj_mul, !pow_of_nat in H. unfold q in H. rewrite (ristretto_length ofZ HQ vals HN HA) in H.
  assert (Hh : ((h * ell) * 2 ^ 259 <= (2 ^ 259 + 1) * 2 ^ 512)%Z) by (vm_compute; discriminate).
  assert (Hh0 : (0 <= h * ell)%Z) by (vm_compute; discriminate).
  assert (Z1 : (((h * ell) * 2 ^ 259) ^ Z.of_nat M <= ((2 ^ 259 + 1) * 2 ^ 512) ^ Z.of_nat M)%Z).
  { apply Z.pow_le_mono_l. split; [|exact Hh]. apply Z.mul_nonneg_nonneg; [exact Hh0|]. now apply Z.pow_nonneg. }
  rewrite !Z.pow_mul_l in Z1. unfold wide_total.
  assert (HP : (0 <= (2 ^ 259) ^ Z.of_nat M)%Z) by (apply Z.pow_nonneg; now apply Z.pow_nonneg).
  assert (HhM : (0 <= h ^ Z.of_nat M)%Z) by (now apply Z.pow_nonneg).
  assert (Hg : (0 <= ell ^ Z.of_nat N * ell ^ Z.of_nat N)%Z) by (apply Z.mul_nonneg_nonneg; apply Z.pow_nonneg; discriminate).
  set (g := (ell ^ Z.of_nat N * ell ^ Z.of_nat N)%Z) in *.
  set (u := ((2 ^ 259) ^ Z.of_nat M)%Z) in *. set (v := ((2 ^ 259 + 1) ^ Z.of_nat M)%Z) in *. set (w := ((2 ^ 512) ^ Z.of_nat M)%Z) in *.
  set (x := (h ^ Z.of_nat M)%Z) in *. set (y := (ell ^ Z.of_nat M)%Z) in *. clearbody g u v w x y t t'.
  apply (Z.mul_le_mono_nonneg_r _ _ u HP) in X2.
  assert (Z2 : (g * Z.of_nat b * (x * y * u) <= g * Z.of_nat b * (v * w))%Z) by (apply Z.mul_le_mono_nonneg_l; [apply Z.mul_nonneg_nonneg; lia|exact Z1]).
  assert (Z3 : (x * u * Z.of_nat t' <= x * u * (g * (Z.of_nat b * y)))%Z) by (apply Z.mul_le_mono_nonneg_l; [now apply Z.mul_nonneg_nonneg|exact H]).
  lia.
Qed.
(** the number of strings of each run is the same for all generators *)
Lemma total2_count N (B X : Point) M (D : list Point -> list transcript) (f : list Point -> word -> bool) :
  (forall gs, length gs = N -> length (D gs) = M) ->
  total2 vals N (fun r s => count (f (gens B X N r s)) (words vals (length (D (gens B X N r s))))) =
    total2 vals N (fun r s => count (f (gens B X N r s)) (words vals M)) /\
  total2 vals N (fun r s => wide_count (length (D (gens B X N r s))) (f (gens B X N r s))) =
    total2 vals N (fun r s => wide_count M (f (gens B X N r s))).
Proof.
  intros H. split; apply Nat.le_antisymm; apply total2_le; intros r s; now rewrite H by apply gens_length.
Qed.

Corollary C106_nozk tr d (B X : Point) (x : Scalar) (P : list Point -> Point) (t : list Point -> Scalar)
    (p : list Point -> prover NoZK) T (D : list Point -> list transcript) M :
  let n := 2 ^ d in let N := 2 * n + 1 in let K := 3 * 4 ^ d in let T' := T + S d in
  let V := fun gs ro pf => no_zk_verify ro tr pf (gG n gs) (gH n gs) (gQ n gs) n (P gs) (t gs) in
  let p' := fun gs => finish_nozk tr d (gG n gs) (gH n gs) (gQ n gs) (p gs) in
  let E := fun gs => nozk_fs_extractor ceq vals tr (gG n gs) (gH n gs) (gQ n gs) d (P gs) (t gs) (p' gs) (D gs) in
  X = (x *: B)%P ->
  (forall gs, length gs = N -> length (D gs) = M /\ asks T (p gs) /\ incl (reach vals (p' gs)) (D gs)) ->
  1 <= M ->
  breaks ((2 + 3 * d) * T') 3 M N (total2 vals N (fun r s => let gs := gens B X N r s in wide_successes (V gs) (p gs) (D gs)))
    (total2 vals N (fun r s => wide_count M (wins E rel_of (gens B X N r s))) +
     total2 vals N (fun r s => wide_count M (solves E rel_of B X N r s))) /\
  gens_mean (K + T' * (K - 1)) M N (total2 vals N (fun r s => total (fun bufs => snd (E (gens B X N r s) (reduced bufs))) (words (all_bytes 64) M))) /\
  (forall gs bufs, length gs = N -> In bufs (words (all_bytes 64) M) -> let w := reduced bufs in wins E rel_of gs w = true -> exists a b, length a = n /\ length b = n /\
     P gs = (comb a (gG n gs) + comb b (gH n gs) + t gs *: gQ n gs)%P /\ dotp a b = t gs).
Proof.
  intros n N K T' V p' E. intros.
  assert (HD : forall gs, length gs = N -> length (D gs) = M) by (intros gs Hgs; match goal with F : forall gs, length gs = N -> _ |- _ => now apply (F gs Hgs) end).
  assert (X0 := C93_nozk_dlog ceq vals tr d B X x P t p T D M). cbv zeta in X0. fold n in X0. fold N in X0.
  assert (HNN : 1 <= N) by (unfold N; lia).
  edestruct X0 as (X1 & X2 & X3); eauto. clear X0.
  destruct (total2_count N B X M D (fun gs w => yes (V gs (table (D gs) w) (run (table (D gs) w) (p gs)))) HD) as [E1 E2].
  split; [|split].
  - assert (Y := C106_transfer M N ((2 + 3 * d) * T') 3 (fun r s => (fun gs w => yes (V gs (table (D gs) w) (run (table (D gs) w) (p gs)))) (gens B X N r s)) [fun r s => wins E rel_of (gens B X N r s); fun r s => solves E rel_of B X N r s]). cbv zeta in Y.
    unfold total in Y. cbn [map list_sum fold_right] in Y. rewrite !Nat.add_0_r in Y. cbv beta in Y, E1, E2.
    unfold wide_successes. rewrite E2. apply Y; auto. rewrite <- E1. exact X1.
  - exact (C106_runs M N _ (fun r s w => snd (E (gens B X N r s) w)) X2).
  - intros gs bufs Hgs Hb w. apply X3; auto. now apply (reduced_In ofZ vals HA).
Qed.

Corollary C106_almzk tr d (B X : Point) (x : Scalar) (Cw : list Point -> Point) (t : list Point -> Scalar)
    (p : list Point -> prover AlmZK) T (D : list Point -> list transcript) M :
  let n := 2 ^ d in let N := 2 * n + 1 in let K := 9 * 4 ^ d in let T' := T + (d + 2) in
  let V := fun gs ro pf => alm_zk_verify ro tr pf (gG n gs) (gH n gs) (gQ n gs) n (Cw gs) (t gs) in
  let p' := fun gs => finish_alm tr d (gG n gs) (gH n gs) (gQ n gs) (Cw gs) (t gs) (p gs) in
  let E := fun gs => almzk_fs_extractor ceq vals tr (gG n gs) (gH n gs) (gQ n gs) d (Cw gs) (t gs) (p' gs) (D gs) in
  X = (x *: B)%P ->
  (forall gs, length gs = N -> length (D gs) = M /\ asks T (p gs) /\ incl (reach vals (p' gs)) (D gs)) ->
  1 <= M ->
  breaks ((4 + 3 * d) * T') 3 M N (total2 vals N (fun r s => let gs := gens B X N r s in wide_successes (V gs) (p gs) (D gs)))
    (total2 vals N (fun r s => wide_count M (wins E rel_of (gens B X N r s))) +
     total2 vals N (fun r s => wide_count M (solves E rel_of B X N r s))) /\
  gens_mean (K + T' * (K - 1)) M N (total2 vals N (fun r s => total (fun bufs => snd (E (gens B X N r s) (reduced bufs))) (words (all_bytes 64) M))) /\
  (forall gs bufs, length gs = N -> In bufs (words (all_bytes 64) M) -> let w := reduced bufs in wins E rel_of gs w = true -> exists a b, length a = n /\ length b = n /\
     Cw gs = (comb a (gG n gs) + comb b (gH n gs))%P /\ dotp a b = t gs).
Proof.
  intros n N K T' V p' E. intros.
  assert (HD : forall gs, length gs = N -> length (D gs) = M) by (intros gs Hgs; match goal with F : forall gs, length gs = N -> _ |- _ => now apply (F gs Hgs) end).
  assert (X0 := C93_almzk_dlog ceq vals tr d B X x Cw t p T D M). cbv zeta in X0. fold n in X0. fold N in X0.
  assert (HNN : 1 <= N) by (unfold N; lia).
  edestruct X0 as (X1 & X2 & X3); eauto. clear X0.
  destruct (total2_count N B X M D (fun gs w => yes (V gs (table (D gs) w) (run (table (D gs) w) (p gs)))) HD) as [E1 E2].
  split; [|split].
  - assert (Y := C106_transfer M N ((4 + 3 * d) * T') 3 (fun r s => (fun gs w => yes (V gs (table (D gs) w) (run (table (D gs) w) (p gs)))) (gens B X N r s)) [fun r s => wins E rel_of (gens B X N r s); fun r s => solves E rel_of B X N r s]). cbv zeta in Y.
    unfold total in Y. cbn [map list_sum fold_right] in Y. rewrite !Nat.add_0_r in Y. cbv beta in Y, E1, E2.
    unfold wide_successes. rewrite E2. apply Y; auto. rewrite <- E1. exact X1.
  - exact (C106_runs M N _ (fun r s w => snd (E (gens B X N r s) w)) X2).
  - intros gs bufs Hgs Hb w. apply X3; auto. now apply (reduced_In ofZ vals HA).
Qed.

Corollary C106_qesa tr d (B X : Point) (x : Scalar) Ms (p : list Point -> prover (Inner * (word * word))) T
    (D : list Point -> list transcript) M (bad : word * word -> bool) :
  let n := 2 ^ d in let N := 2 * n + 1 in let m := min (length Ms) n in let K := 27 * S m * n ^ 3 in
  let T' := T + (5 + d) in
  let V := fun gs ro (o : Inner * (word * word)) => inner_verify ro tr (fst o) (gG n gs) (gH n gs) (gQ n gs) (mkBlockMatrix Ms) in
  let p' := fun gs => finish_qesa tr n d (gG n gs) (gH n gs) (gQ n gs) Ms (p gs) in
  let E := fun gs => qesa_fs_extractor ceq vals tr (gG n gs) (gH n gs) (gQ n gs) n d Ms (p' gs) (D gs) in
  X = (x *: B)%P -> 3 <= n -> 1 <= length Ms -> Forall (rect (n - 2) (n - 2)) Ms ->
  (forall o, bad o = true -> exists t, t < m /\ quad (nth t Ms []) (firstn (n - 2) (fst o)) <> s0) ->
  (forall gs, length gs = N -> length (D gs) = M /\ asks T (p gs) /\
     (forall ro, let '(pf, (w', u)) := run ro (p gs) in
        length w' = n /\ sc w' 0 = s1 /\ decompress (c_prime_w pf) = Some (comb w' (gG n gs)) /\
        length u = n /\ decompress (c_prime_prime_w pf) = Some (comb u (gH n gs))) /\
     incl (reach vals (p' gs)) (D gs)) ->
  1 <= M ->
  breaks ((m + n + 4 + 3 * d) * T') 2 M N (total2 vals N (fun r s => let gs := gens B X N r s in wide_cheats (V gs) (fun o => bad (snd o)) (p gs) (D gs)))
    (total2 vals N (fun r s => wide_count M (solves E rel_opt B X N r s))) /\
  gens_mean (K + T' * (K - 1)) M N (total2 vals N (fun r s => total (fun bufs => snd (E (gens B X N r s) (reduced bufs))) (words (all_bytes 64) M))).
Proof.
  intros n N m K T' V p' E. intros.
  assert (HD : forall gs, length gs = N -> length (D gs) = M) by (intros gs Hgs; match goal with F : forall gs, length gs = N -> _ |- _ => now apply (F gs Hgs) end).
  assert (X0 := C93_qesa_dlog ceq vals tr d B X x Ms p T D M bad). cbv zeta in X0. fold n in X0. fold N in X0.
  assert (HNN : 1 <= N) by (unfold N; lia).
  edestruct X0 as (X1 & X2); eauto. clear X0.
  destruct (total2_count N B X M D (fun gs w => yes (V gs (table (D gs) w) (run (table (D gs) w) (p gs))) && (fun o => bad (snd o)) (run (table (D gs) w) (p gs))) HD) as [E1 E2].
  split; [|exact (C106_runs M N _ (fun r s w => snd (E (gens B X N r s) w)) X2)].
  - assert (Y := C106_transfer M N ((m + n + 4 + 3 * d) * T') 2 (fun r s => (fun gs w => yes (V gs (table (D gs) w) (run (table (D gs) w) (p gs))) && (fun o => bad (snd o)) (run (table (D gs) w) (p gs))) (gens B X N r s)) [fun r s => solves E rel_opt B X N r s]). cbv zeta in Y.
    unfold total in Y. cbn [map list_sum fold_right] in Y. rewrite !Nat.add_0_r in Y. cbv beta in Y, E1, E2.
    unfold wide_cheats. rewrite E2. apply Y; auto. rewrite <- E1. exact X1.
Qed.

Corollary C106_copy tr d (B X : Point) (x : Scalar) Ms (ws : N) (sets : list (list N)) mp
    (msgs : list Point -> list word) (rs : list Point -> word) (Cs : list Point -> list Point)
    (p : list Point -> prover (Copy * (word * word))) T (D : list Point -> list transcript) M (bad : list Point -> word * word -> bool) :
  let n := 2 ^ d in let N := 2 * n + 1 in let m := length Ms + length (unique_commitment_indices mp) in
  let K := 27 * S (2 * length sets) * S m * n ^ 3 in let T' := T + (6 + d) in
  let V := fun gs ro (o : Copy * (word * word)) => copy_verify ro tr (fst o) (gG n gs) (gH n gs) (gQ n gs) (mkBlockMatrix Ms) mp (Cs gs) in
  let p' := fun gs => finish_copy tr n d (gG n gs) (gH n gs) (gQ n gs) Ms mp (Cs gs) (p gs) in
  let E := fun gs => copy_fs_extractor ceq vals tr (gG n gs) (gH n gs) (gQ n gs) n d Ms sets mp (msgs gs) (rs gs) (Cs gs) (p' gs) (D gs) in
  X = (x *: B)%P ->
  3 <= n -> (N.of_nat n < 65536)%N -> (ws < 65536)%N -> (N.of_nat (length sets) <= 65536)%N ->
  Forall (rect (n - 2) (n - 2)) Ms ->
  (forall s i, In s sets -> In i s -> 1 <= N.to_nat i < n - 2) -> Forall (@NoDup BinNums.N) sets ->
  compute_mapping (N.of_nat n) ws sets = Ok mp -> m <= n ->
  (forall gs o, bad gs o = true -> let w' := fst o in
     ~ ((forall M, In M Ms -> quad M (firstn (n - 2) w') = s0) /\
        (forall k j, k < length sets -> j < length (nth k sets []) ->
           exists mm, nth_error (msgs_map mp) (cm_offset sets k + j) = Some mm /\
             sc (nth k (msgs gs) []) j = sc w' (mpos mm)) /\
        (forall s i, In s sets -> In i s -> sc w' (N.to_nat i) = s0))) ->
  (forall gs, length gs = N -> length (D gs) = M /\ asks T (p gs) /\ length (Cs gs) = length sets /\
     (forall k, k < length sets -> commit (gG n gs) (nth k sets []) (nth k (msgs gs) []) (sc (rs gs) k) = Ok (pt (Cs gs) k)) /\
     (forall ro, let '(pf, (w', u)) := run ro (p gs) in
        length w' = n /\ sc w' 0 = s1 /\ decompress (cp_C_w pf) = Some (comb w' (gG n gs)) /\
        length u = n /\ decompress (c_prime_prime_w (cp_inner pf)) = Some (comb u (gH n gs))) /\
     incl (reach vals (p' gs)) (D gs)) ->
  1 <= M ->
  breaks ((2 * length sets + m + n + 4 + 3 * d) * T') 2 M N (total2 vals N (fun r s => let gs := gens B X N r s in wide_cheats (V gs) (fun o => bad gs (snd o)) (p gs) (D gs)))
    (total2 vals N (fun r s => wide_count M (solves E rel_opt B X N r s))) /\
  gens_mean (K + T' * (K - 1)) M N (total2 vals N (fun r s => total (fun bufs => snd (E (gens B X N r s) (reduced bufs))) (words (all_bytes 64) M))).
Proof.
  intros n N m K T' V p' E. intros.
  assert (HD : forall gs, length gs = N -> length (D gs) = M) by (intros gs Hgs; match goal with F : forall gs, length gs = N -> _ |- _ => now apply (F gs Hgs) end).
  assert (X0 := C93_copy_dlog ceq vals tr d B X x Ms ws sets mp msgs rs Cs p T D M bad). cbv zeta in X0. fold n in X0. fold N in X0.
  assert (HNN : 1 <= N) by (unfold N; lia).
  edestruct X0 as (X1 & X2); eauto. clear X0.
  destruct (total2_count N B X M D (fun gs w => yes (V gs (table (D gs) w) (run (table (D gs) w) (p gs))) && (fun o => bad gs (snd o)) (run (table (D gs) w) (p gs))) HD) as [E1 E2].
  split; [|exact (C106_runs M N _ (fun r s w => snd (E (gens B X N r s) w)) X2)].
  - assert (Y := C106_transfer M N ((2 * length sets + m + n + 4 + 3 * d) * T') 2 (fun r s => (fun gs w => yes (V gs (table (D gs) w) (run (table (D gs) w) (p gs))) && (fun o => bad gs (snd o)) (run (table (D gs) w) (p gs))) (gens B X N r s)) [fun r s => solves E rel_opt B X N r s]). cbv zeta in Y.
    unfold total in Y. cbn [map list_sum fold_right] in Y. rewrite !Nat.add_0_r in Y. cbv beta in Y, E1, E2.
    unfold wide_cheats. rewrite E2. apply Y; auto. rewrite <- E1. exact X1.
Qed.

Corollary C106_nozk_chosen tr d (B X : Point) (x : Scalar) (enc : Point * Scalar -> list event) sel
    (p : list Point -> prover ((Point * Scalar) * NoZK)) T (D : list Point -> list transcript) M :
  let n := 2 ^ d in let N := 2 * n + 1 in let K := 3 * 4 ^ d in
  let V := fun gs (st : Point * Scalar) tr ro pf => no_zk_verify ro tr pf (gG n gs) (gH n gs) (gQ n gs) n (fst st) (snd st) in
  let Wf := fun gs => on_chosen enc sel tr (V gs) in
  let E := fun gs => nozk_chosen_extractor ceq vals tr (gG n gs) (gH n gs) (gQ n gs) d enc sel (p gs) (D gs) in
  readable enc -> X = (x *: B)%P ->
  (forall gs, length gs = N -> length (D gs) = M /\ asks T (p gs) /\
     (forall ro, length (R_vec (snd (run ro (p gs)))) = length (L_vec (snd (run ro (p gs))))) /\ asks_challenges (Wf gs) tr (p gs) vals (D gs)) ->
  1 <= M ->
  breaks ((2 + 3 * d) * T) 3 M N (total2 vals N (fun r s => let gs := gens B X N r s in wide_successes (Wf gs) (p gs) (D gs)))
    (total2 vals N (fun r s => wide_count M (wins E rel_of (gens B X N r s))) +
     total2 vals N (fun r s => wide_count M (solves E rel_of B X N r s))) /\
  gens_mean (K + T * (K - 1)) M N (total2 vals N (fun r s => total (fun bufs => snd (E (gens B X N r s) (reduced bufs))) (words (all_bytes 64) M))) /\
  (forall gs bufs, length gs = N -> In bufs (words (all_bytes 64) M) -> let w := reduced bufs in wins E rel_of gs w = true -> 
     let '((P, t), pf) := run (table (D gs) w) (p gs) in sel (P, t) = true /\ exists a b, length a = n /\ length b = n /\
     P = (comb a (gG n gs) + comb b (gH n gs) + t *: gQ n gs)%P /\ dotp a b = t).
Proof.
  intros n N K V Wf E. intros.
  assert (HD : forall gs, length gs = N -> length (D gs) = M) by (intros gs Hgs; match goal with F : forall gs, length gs = N -> _ |- _ => now apply (F gs Hgs) end).
  assert (X0 := C104_nozk_dlog ceq vals tr d B X x enc sel p T D M). cbv zeta in X0. fold n in X0. fold N in X0.
  assert (HNN : 1 <= N) by (unfold N; lia).
  edestruct X0 as (X1 & X2 & X3); eauto. clear X0.
  destruct (total2_count N B X M D (fun gs w => yes (Wf gs (table (D gs) w) (run (table (D gs) w) (p gs)))) HD) as [E1 E2].
  split; [|split].
  - assert (Y := C106_transfer M N ((2 + 3 * d) * T) 3 (fun r s => (fun gs w => yes (Wf gs (table (D gs) w) (run (table (D gs) w) (p gs)))) (gens B X N r s)) [fun r s => wins E rel_of (gens B X N r s); fun r s => solves E rel_of B X N r s]). cbv zeta in Y.
    unfold total in Y. cbn [map list_sum fold_right] in Y. rewrite !Nat.add_0_r in Y. cbv beta in Y, E1, E2.
    unfold wide_successes. rewrite E2. apply Y; auto. rewrite <- E1. exact X1.
  - exact (C106_runs M N _ (fun r s w => snd (E (gens B X N r s) w)) X2).
  - intros gs bufs Hgs Hb w. apply X3; auto. now apply (reduced_In ofZ vals HA).
Qed.

Corollary C106_almzk_chosen tr d (B X : Point) (x : Scalar) (enc : Point * Scalar -> list event) sel
    (p : list Point -> prover ((Point * Scalar) * AlmZK)) T (D : list Point -> list transcript) M :
  let n := 2 ^ d in let N := 2 * n + 1 in let K := 9 * 4 ^ d in
  let V := fun gs (st : Point * Scalar) tr ro pf => alm_zk_verify ro tr pf (gG n gs) (gH n gs) (gQ n gs) n (fst st) (snd st) in
  let Wf := fun gs => on_chosen enc sel tr (V gs) in
  let E := fun gs => almzk_chosen_extractor ceq vals tr (gG n gs) (gH n gs) (gQ n gs) d enc sel (p gs) (D gs) in
  readable enc -> X = (x *: B)%P ->
  (forall gs, length gs = N -> length (D gs) = M /\ asks T (p gs) /\
     (forall ro, length (R_vec (az_NoZK (snd (run ro (p gs))))) = length (L_vec (az_NoZK (snd (run ro (p gs)))))) /\ asks_challenges (Wf gs) tr (p gs) vals (D gs)) ->
  1 <= M ->
  breaks ((4 + 3 * d) * T) 3 M N (total2 vals N (fun r s => let gs := gens B X N r s in wide_successes (Wf gs) (p gs) (D gs)))
    (total2 vals N (fun r s => wide_count M (wins E rel_of (gens B X N r s))) +
     total2 vals N (fun r s => wide_count M (solves E rel_of B X N r s))) /\
  gens_mean (K + T * (K - 1)) M N (total2 vals N (fun r s => total (fun bufs => snd (E (gens B X N r s) (reduced bufs))) (words (all_bytes 64) M))) /\
  (forall gs bufs, length gs = N -> In bufs (words (all_bytes 64) M) -> let w := reduced bufs in wins E rel_of gs w = true -> 
     let '((Cw, t), pf) := run (table (D gs) w) (p gs) in sel (Cw, t) = true /\ exists a b, length a = n /\ length b = n /\
     Cw = (comb a (gG n gs) + comb b (gH n gs))%P /\ dotp a b = t).
Proof.
  intros n N K V Wf E. intros.
  assert (HD : forall gs, length gs = N -> length (D gs) = M) by (intros gs Hgs; match goal with F : forall gs, length gs = N -> _ |- _ => now apply (F gs Hgs) end).
  assert (X0 := C104_almzk_dlog ceq vals tr d B X x enc sel p T D M). cbv zeta in X0. fold n in X0. fold N in X0.
  assert (HNN : 1 <= N) by (unfold N; lia).
  edestruct X0 as (X1 & X2 & X3); eauto. clear X0.
  destruct (total2_count N B X M D (fun gs w => yes (Wf gs (table (D gs) w) (run (table (D gs) w) (p gs)))) HD) as [E1 E2].
  split; [|split].
  - assert (Y := C106_transfer M N ((4 + 3 * d) * T) 3 (fun r s => (fun gs w => yes (Wf gs (table (D gs) w) (run (table (D gs) w) (p gs)))) (gens B X N r s)) [fun r s => wins E rel_of (gens B X N r s); fun r s => solves E rel_of B X N r s]). cbv zeta in Y.
    unfold total in Y. cbn [map list_sum fold_right] in Y. rewrite !Nat.add_0_r in Y. cbv beta in Y, E1, E2.
    unfold wide_successes. rewrite E2. apply Y; auto. rewrite <- E1. exact X1.
  - exact (C106_runs M N _ (fun r s w => snd (E (gens B X N r s) w)) X2).
  - intros gs bufs Hgs Hb w. apply X3; auto. now apply (reduced_In ofZ vals HA).
Qed.

Corollary C106_qesa_chosen tr d (B X : Point) (x : Scalar) (enc : list (list (list Scalar)) -> list event) sel
    (p : list Point -> prover (list (list (list Scalar)) * (Inner * (word * word)))) T
    (D : list Point -> list transcript) M (bad : list (list (list Scalar)) * (Inner * (word * word)) -> bool) :
  let n := 2 ^ d in let N := 2 * n + 1 in let K := 27 * S n * n ^ 3 in
  let V := fun gs Ms tr ro (o : Inner * (word * word)) => inner_verify ro tr (fst o) (gG n gs) (gH n gs) (gQ n gs) (mkBlockMatrix Ms) in
  let Wf := fun gs => on_chosen enc sel tr (V gs) in
  let E := fun gs => qesa_chosen_extractor ceq vals tr (gG n gs) (gH n gs) (gQ n gs) n d enc sel (p gs) (D gs) in
  readable enc -> X = (x *: B)%P -> 3 <= n ->
  (forall Ms, sel Ms = true -> 1 <= length Ms /\ Forall (rect (n - 2) (n - 2)) Ms) ->
  (forall Ms pf w' u, bad (Ms, (pf, (w', u))) = true ->
     exists t, t < min (length Ms) n /\ quad (nth t Ms []) (firstn (n - 2) w') <> s0) ->
  (forall gs, length gs = N -> length (D gs) = M /\ asks T (p gs) /\
     (forall ro, qesa_opened n (gG n gs) (gH n gs) (snd (run ro (p gs)))) /\ asks_challenges (Wf gs) tr (p gs) vals (D gs)) ->
  1 <= M ->
  breaks ((2 * n + 4 + 3 * d) * T) 2 M N (total2 vals N (fun r s => let gs := gens B X N r s in wide_cheats (Wf gs) bad (p gs) (D gs)))
    (total2 vals N (fun r s => wide_count M (solves E rel_opt B X N r s))) /\
  gens_mean (K + T * (K - 1)) M N (total2 vals N (fun r s => total (fun bufs => snd (E (gens B X N r s) (reduced bufs))) (words (all_bytes 64) M))).
Proof.
  intros n N K V Wf E. intros.
  assert (HD : forall gs, length gs = N -> length (D gs) = M) by (intros gs Hgs; match goal with F : forall gs, length gs = N -> _ |- _ => now apply (F gs Hgs) end).
  assert (X0 := C104_qesa_dlog ceq vals tr d B X x enc sel p T D M bad). cbv zeta in X0. fold n in X0. fold N in X0.
  assert (HNN : 1 <= N) by (unfold N; lia).
  edestruct X0 as (X1 & X2); eauto. clear X0.
  destruct (total2_count N B X M D (fun gs w => yes (Wf gs (table (D gs) w) (run (table (D gs) w) (p gs))) && bad (run (table (D gs) w) (p gs))) HD) as [E1 E2].
  split; [|exact (C106_runs M N _ (fun r s w => snd (E (gens B X N r s) w)) X2)].
  - assert (Y := C106_transfer M N ((2 * n + 4 + 3 * d) * T) 2 (fun r s => (fun gs w => yes (Wf gs (table (D gs) w) (run (table (D gs) w) (p gs))) && bad (run (table (D gs) w) (p gs))) (gens B X N r s)) [fun r s => solves E rel_opt B X N r s]). cbv zeta in Y.
    unfold total in Y. cbn [map list_sum fold_right] in Y. rewrite !Nat.add_0_r in Y. cbv beta in Y, E1, E2.
    unfold wide_cheats. rewrite E2. apply Y; auto. rewrite <- E1. exact X1.
Qed.

Corollary C106_copy_chosen tr d (B X : Point) (x : Scalar) (ws : N) (sets : list (list N)) mp
    (msgs : list Point -> cstmt -> list word) (rs : list Point -> cstmt -> word) (enc : cstmt -> list event) (sel : list Point -> cstmt -> bool)
    (p : list Point -> prover (cstmt * (Copy * (word * word)))) T (D : list Point -> list transcript) M
    (bad : list Point -> cstmt * (Copy * (word * word)) -> bool) :
  let n := 2 ^ d in let N := 2 * n + 1 in let K := 27 * S (2 * length sets) * S n * n ^ 3 in
  let V := fun gs (st : cstmt) tr ro (o : Copy * (word * word)) => copy_verify ro tr (fst o) (gG n gs) (gH n gs) (gQ n gs) (mkBlockMatrix (fst st)) mp (snd st) in
  let Wf := fun gs => on_chosen enc (sel gs) tr (V gs) in
  let E := fun gs => copy_chosen_extractor ceq vals tr (gG n gs) (gH n gs) (gQ n gs) n d sets mp (msgs gs) (rs gs) enc (sel gs) (p gs) (D gs) in
  readable enc -> X = (x *: B)%P ->
  3 <= n -> (N.of_nat n < 65536)%N -> (ws < 65536)%N -> (N.of_nat (length sets) <= 65536)%N ->
  (forall s i, In s sets -> In i s -> 1 <= N.to_nat i < n - 2) -> Forall (@NoDup BinNums.N) sets ->
  compute_mapping (N.of_nat n) ws sets = Ok mp ->
  (forall gs o, bad gs o = true -> let w' := fst (snd (snd o)) in
     ~ ((forall M, In M (fst (fst o)) -> quad M (firstn (n - 2) w') = s0) /\
        (forall k j, k < length sets -> j < length (nth k sets []) ->
           exists mm, nth_error (msgs_map mp) (cm_offset sets k + j) = Some mm /\
             sc (nth k (msgs gs (fst o)) []) j = sc w' (mpos mm)) /\
        (forall s i, In s sets -> In i s -> sc w' (N.to_nat i) = s0))) ->
  (forall gs, length gs = N -> length (D gs) = M /\ asks T (p gs) /\
     (forall Ms Cs, sel gs (Ms, Cs) = true -> Forall (rect (n - 2) (n - 2)) Ms /\ length Ms + length (unique_commitment_indices mp) <= n /\
        length Cs = length sets /\
        forall k, k < length sets -> commit (gG n gs) (nth k sets []) (nth k (msgs gs (Ms, Cs)) []) (sc (rs gs (Ms, Cs)) k) = Ok (pt Cs k)) /\
     (forall ro, copy_opened n (gG n gs) (gH n gs) (snd (run ro (p gs)))) /\ asks_challenges (Wf gs) tr (p gs) vals (D gs)) ->
  1 <= M ->
  breaks ((2 * length sets + 2 * n + 4 + 3 * d) * T) 2 M N (total2 vals N (fun r s => let gs := gens B X N r s in wide_cheats (Wf gs) (bad gs) (p gs) (D gs)))
    (total2 vals N (fun r s => wide_count M (solves E rel_opt B X N r s))) /\
  gens_mean (K + T * (K - 1)) M N (total2 vals N (fun r s => total (fun bufs => snd (E (gens B X N r s) (reduced bufs))) (words (all_bytes 64) M))).
Proof.
  intros n N K V Wf E. intros.
  assert (HD : forall gs, length gs = N -> length (D gs) = M) by (intros gs Hgs; match goal with F : forall gs, length gs = N -> _ |- _ => now apply (F gs Hgs) end).
  assert (X0 := C104_copy_dlog ceq vals tr d B X x ws sets mp msgs rs enc sel p T D M bad). cbv zeta in X0. fold n in X0. fold N in X0.
  assert (HNN : 1 <= N) by (unfold N; lia).
  edestruct X0 as (X1 & X2); eauto. clear X0.
  destruct (total2_count N B X M D (fun gs w => yes (Wf gs (table (D gs) w) (run (table (D gs) w) (p gs))) && (bad gs) (run (table (D gs) w) (p gs))) HD) as [E1 E2].
  split; [|exact (C106_runs M N _ (fun r s w => snd (E (gens B X N r s) w)) X2)].
  - assert (Y := C106_transfer M N ((2 * length sets + 2 * n + 4 + 3 * d) * T) 2 (fun r s => (fun gs w => yes (Wf gs (table (D gs) w) (run (table (D gs) w) (p gs))) && (bad gs) (run (table (D gs) w) (p gs))) (gens B X N r s)) [fun r s => solves E rel_opt B X N r s]). cbv zeta in Y.
    unfold total in Y. cbn [map list_sum fold_right] in Y. rewrite !Nat.add_0_r in Y. cbv beta in Y, E1, E2.
    unfold wide_cheats. rewrite E2. apply Y; auto. rewrite <- E1. exact X1.
Qed.

(** a prover accepted for every table: P = a G, t = 0 (C105_case_nozk). For some generators and
    some table of 64 bytes there is a witness or the logarithm of X comes out *)
Lemma solved106 (B X : Point) (x a : Scalar) (D : list Point -> list transcript) :
  let P := fun gs => (a *: pt gs 0)%P in let t := fun _ : list Point => s0 in
  let p := fun _ : list Point => Done (mkNoZK [] [] a s0) in
  let p' := fun gs => finish_nozk [] 0 (gG 1 gs) (gH 1 gs) (gQ 1 gs) (p gs) in
  let E := fun gs => nozk_fs_extractor ceq vals [] (gG 1 gs) (gH 1 gs) (gQ 1 gs) 0 (P gs) (t gs) (p' gs) (D gs) in
  X = (x *: B)%P ->
  (forall gs, length gs = 3 -> length (D gs) = 1 /\ incl (reach vals (p' gs)) (D gs)) ->
  total2 vals 3 (fun r s => wide_count 1 (wins E rel_of (gens B X 3 r s))) +
  total2 vals 3 (fun r s => wide_count 1 (solves E rel_of B X 3 r s)) <> 0.
Proof.
  intros P t p p' E HX HD F.
  destruct (C106_nozk [] 0 B X x P t p 0 D 1) as (Y & _); auto.
  { intros gs Hgs. destruct (HD gs Hgs). split; auto. split; [exact I|auto]. }
  set (acc := total2 vals 3 (fun r s => wide_successes (fun ro pf => no_zk_verify ro [] pf (gG 1 (gens B X 3 r s)) (gH 1 (gens B X 3 r s)) (gQ 1 (gens B X 3 r s)) 1
                   (P (gens B X 3 r s)) (t (gens B X 3 r s))) (p (gens B X 3 r s)) (D (gens B X 3 r s)))).
  match type of F with ?s = 0 => assert (Y1 : breaks ((2 + 3 * 0) * (0 + 1)) 3 1 3 acc s) by exact Y end. rewrite F in Y1. clear Y. rename Y1 into Y.
  assert (HL : (Z.of_nat acc = ell ^ Z.of_nat 3 * ell ^ Z.of_nat 3 * wide_total 1)%Z).
  { assert (E1 : acc = total2 vals 3 (fun _ _ => length (words (all_bytes 64) 1))).
    { assert (Q : forall r s, wide_successes (fun ro pf => no_zk_verify ro [] pf (gG 1 (gens B X 3 r s)) (gH 1 (gens B X 3 r s)) (gQ 1 (gens B X 3 r s)) 1
                   (P (gens B X 3 r s)) (t (gens B X 3 r s))) (p (gens B X 3 r s)) (D (gens B X 3 r s)) = length (words (all_bytes 64) 1)).
      { intros r s. unfold PropBytes.wide_successes, PropBytes.wide_count, byte_count. rewrite (proj1 (HD _ (gens_length B X 3 r s))).
        apply count_true. intros bufs _. apply accepted105. }
      apply Nat.le_antisymm; apply total2_le; intros r s; cbv zeta; rewrite Q; auto. }
    rewrite E1, total2_const, !Nat2Z.inj_mul, wide_length, pow_of_nat, (ristretto_length ofZ HQ vals HN HA), Z.mul_assoc. reflexivity. }
  unfold breaks in Y. rewrite HL in Y. revert Y. apply Z.lt_nge. vm_compute. reflexivity.
Qed.

End Bytes.

(** the case of Ristretto's scalars, the group RC 1 of order ell, X = 321 B *)
Example C106_case_nozk (ceq : @encodings_comparable (RC 1)) (vals : list (@Scalar (RC 1))) (HN : NoDup vals) (HA : forall x, In x vals)
    (D : list (@Point (RC 1)) -> list transcript) :
  let B := vtab ell 1 (fun _ => fp ell 1) : @Point (RC 1) in let X := pmul (Crypto := RC 1) (fp ell 321) B in let a := fp ell 3 : @Scalar (RC 1) in
  let p := fun _ : list (@Point (RC 1)) => Done (mkNoZK [] [] a s0) in
  let p' := fun gs => finish_nozk [] 0 (gG 1 gs) (gH 1 gs) (gQ 1 gs) (p gs) in
  let E := fun gs => nozk_fs_extractor ceq vals [] (gG 1 gs) (gH 1 gs) (gQ 1 gs) 0 (a *: pt gs 0)%P s0 (p' gs) (D gs) in
  (forall gs, length gs = 3 -> length (D gs) = 1 /\ incl (reach vals (p' gs)) (D gs)) ->
  total2 vals 3 (fun r s => wide_count (C := RC 1) (fp ell) 1 (wins E rel_of (gens B X 3 r s))) +
  total2 vals 3 (fun r s => wide_count (C := RC 1) (fp ell) 1 (solves E rel_of B X 3 r s)) <> 0.
Proof.
  intros B X a p p' E HD.
  exact (@solved106 (RC 1) (RC_laws 1) ceq (fp ell) (proj1 (C92_numbering 1)) vals HN HA B X (fp ell 321) a D eq_refl HD).
Qed.
