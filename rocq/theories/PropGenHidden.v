(** C100: generators drawn at random: nobody learns which witnesses were used in any number of
    adaptively chosen proofs, with no condition left on the generators. The observer may know the
    logarithms of the generators, and everything it chooses may depend on them. *)
From Coq Require Import String.
From Verif Require Export PropBytesAll PropZkGen.
From Verif Require Import PropQesaCount PropZkCount PropCopySound CopyFacts PropMapping PropCopy Ex ExSmall.
Local Open Scope nat_scope.
Local Open Scope list_scope.

Section C100.
Context {C : Crypto} {L : CryptoLaws C} (ceq : @encodings_comparable C).
Notation word := (list Scalar).

(** number of sessions with verdict true over all pairs of lists of n generators *)
Definition drawn_sessions (vals : word) (n T P l : nat) (session : word -> word -> word -> list word -> bool) : nat :=
  list_sum (map (fun gh => sessions vals T P l (session (firstn n gh) (skipn n gh))) (words vals (2 * n))).

Lemma sessions_all vals T P l s : sessions vals T P l s <= length vals ^ (T + l * P).
Proof.
  unfold sessions. rewrite Nat.pow_add_r, <- words_count. induction (words vals T) as [|w W IH]; [apply Nat.le_0_l|].
  cbn [map length]. rewrite PropBytes.sum_cons. cbn [Nat.mul]. apply Nat.add_le_mono; [|exact IH].
  eapply Nat.le_trans; [apply count_all|]. rewrite !words_count, <- Nat.pow_mul_r. reflexivity.
Qed.
Lemma drawn_close (vals : word) d T P l a s s' :
  let n := 2 ^ S d in let N := T + l * P in
  1 <= d -> NoDup vals -> 1 <= N ->
  (forall g h, length g = n -> length h = n -> good_generators d g h ->
     sessions vals T P l (s g h) <= sessions vals T P l (s' g h) + a * length vals ^ (N - 1) /\
     sessions vals T P l (s' g h) <= sessions vals T P l (s g h) + a * length vals ^ (N - 1)) ->
  let err := (a + 2 * n * (2 * d + 2)) * length vals ^ (2 * n + N - 1) in
  drawn_sessions vals n T P l s <= drawn_sessions vals n T P l s' + err /\ drawn_sessions vals n T P l s' <= drawn_sessions vals n T P l s + err.
Proof.
  intros n N Hd HN H1 HG err. set (V := length vals) in *.
  destruct (few_bad vals d Hd HN) as (bad & Hb & Cb). fold n V in Hb, Cb.
  assert (Y := sum_close (words vals (2 * n)) (fun gh => sessions vals T P l (s (firstn n gh) (skipn n gh)))
    (fun gh => sessions vals T P l (s' (firstn n gh) (skipn n gh))) bad 1 (a * V ^ (N - 1)) (V ^ N)).
  rewrite words_count in Y. fold V in Y.
  change (list_sum (map (fun gh => sessions vals T P l (s (firstn n gh) (skipn n gh))) (words vals (2 * n)))) with (drawn_sessions vals n T P l s) in Y.
  change (list_sum (map (fun gh => sessions vals T P l (s' (firstn n gh) (skipn n gh))) (words vals (2 * n)))) with (drawn_sessions vals n T P l s') in Y.
  assert (HS : V ^ (2 * n) * (a * V ^ (N - 1)) + count bad (words vals (2 * n)) * V ^ N <= err).
  { unfold err. assert (Pn : 1 <= n) by (unfold n; apply pow2_pos).
    assert (P1 : V ^ (2 * n + N - 1) = V ^ (2 * n) * V ^ (N - 1)) by (rewrite <- Nat.pow_add_r; f_equal; lia).
    assert (P2 : V ^ (2 * n + N - 1) = V ^ (2 * n - 1) * V ^ N) by (rewrite <- Nat.pow_add_r; f_equal; lia).
    rewrite Nat.mul_add_distr_r. apply Nat.add_le_mono; [rewrite P1; lia|]. rewrite P2, Nat.mul_assoc. now apply Nat.mul_le_mono_r. }
  destruct Y as [Y1 Y2]; [| |split; lia].
  - intros gh Hg Nb. apply words_In in Hg as [Lg _]. rewrite !Nat.mul_1_l. apply HG.
    + rewrite firstn_length. lia.
    + rewrite skipn_length. lia.
    + now apply Hb.
  - intros gh _. rewrite Nat.mul_1_l. split; apply sessions_all.
Qed.

(** ** QESA *)
Theorem C100_qesa_witnesses_hidden {I} (vals : word) d (q : Scalar) (B : Point)
    (tr : I -> transcript) (Ms : word -> word -> I -> list (list word)) (w w' : word -> word -> I -> word) (T P : nat) (c : word -> word -> client I Zk) :
  let n := 2 ^ S d in let K := 2 * d + 4 in
  2 <= d -> NoDup vals -> (forall x, In x vals) -> B <> p0 ->
  (forall g h i, 1 <= length (Ms g h i) /\ Forall (rect (n - 2) (n - 2)) (Ms g h i)) ->
  let honest := fun w : word -> word -> I -> word => forall g h i, length (w g h i) = n - 2 /\
     sc (w g h i) 0 = s1 /\ (forall j, j < length (Ms g h i) -> quad (nth j (Ms g h i) []) (w g h i) = s0) in
  honest w -> honest w' -> 1 <= P -> (forall g h, fits T P (c g h)) ->
  let l := d + 6 + (2 + (K + K)) in
  let real := fun w : word -> word -> I -> word => drawn_sessions vals n T P l (fun g h =>
    real_session ceq tr (fun i ro rng => zk_create ro rng 0 (tr i) (mulB B g) (mulB B h) (q *: B)%P (mkBlockMatrix (Ms g h i)) (w g h i)) (d + 6) [] (c g h)) in
  let a := P * ((3 * d + 12) * ((8 * n + 2 * d + 1) * (4 * n * n) + 32 * n + d + 5) + 5 + (T + (d + 6) * P) + 1) in
  let err := (2 * a + 2 * n * (2 * d + 2)) * length vals ^ (2 * n + (T + l * P) - 1) in
  real w <= real w' + err /\ real w' <= real w + err.
Proof.
  intros n K Hd HN HA HB HM honest HW HW' HP HF l real a err.
  apply drawn_close; [lia|exact HN|unfold l; nia|]. intros g h Hg Hh [Z1 Z2]. rewrite <- !Nat.mul_assoc.
  exact (C83_qesa_many_witnesses_hidden ceq vals d g h q B tr (Ms g h) (w g h) (w' g h) T P (c g h) Hd Hg Hh HN HA HB Z2 Z1 (HM g h) (HW g h) (HW' g h) (HF g h)).
Qed.

(** ** copy argument: the commitments are made with the drawn generators *)
Theorem C100_copy_witnesses_hidden {I} (vals : word) d (q : Scalar) (B : Point) (k : nat)
    (tr : I -> transcript) (mp : word -> word -> I -> Mapping) (Ms : word -> word -> I -> list (list word)) (w w' : word -> word -> I -> word)
    (sets : word -> word -> I -> list (list N)) (openings openings' : word -> word -> I -> list (word * Scalar)) (Cs : word -> word -> I -> list Point)
    (T P : nat) (c : word -> word -> client I Copy) :
  let n := 2 ^ S d in let K := 2 * d + 4 in
  2 <= d -> (N.of_nat n < 65536)%N -> (N.of_nat k <= 65536)%N -> NoDup vals -> (forall x, In x vals) -> B <> p0 ->
  let honest := fun (w : word -> word -> I -> word) openings => forall g h i, length g = n -> length h = n ->
     length (sets g h i) <= k /\ compute_mapping (N.of_nat n) (N.of_nat (length (w g h i))) (sets g h i) = Ok (mp g h i) /\
     (forall s j, In s (sets g h i) -> In j s -> length (w g h i) <= N.to_nat j < n - 2) /\
     length (openings g h i) = length (sets g h i) /\ length (Cs g h i) = length (sets g h i) /\
     (forall j, j < length (sets g h i) ->
        commit (mulB B g) (nth j (sets g h i) []) (fst (nth j (openings g h i) ([], s0))) (snd (nth j (openings g h i) ([], s0))) = Ok (pt (Cs g h i) j)) /\
     1 <= length (w g h i) /\ length (w g h i) <= n - 2 /\ sc (w g h i) 0 = s1 /\ Forall (rect (n - 2) (n - 2)) (Ms g h i) /\
     (forall al j, j < length (Ms g h i) -> quad (nth j (Ms g h i) []) (cp_witness n (mp g h i) (w g h i) (concat (map fst (openings g h i))) al) = s0) in
  honest w openings -> honest w' openings' -> 1 <= P -> (forall g h, fits T P (c g h)) ->
  let l := d + 7 + (2 + (K + K)) in
  let real := fun (w : word -> word -> I -> word) openings => drawn_sessions vals n T P l (fun g h =>
    real_session ceq tr (fun i ro rng => copy_create ro rng 0 (tr i) (mulB B g) (mulB B h) (q *: B)%P (mp g h i) (mkBlockMatrix (Ms g h i)) (w g h i) (openings g h i)) (d + 7) [] (c g h)) in
  let a := P * ((3 * d + 13) * ((8 * (n + k) + 2 * d + 1) * (4 * n * n) + 32 * (n + k) + d + 5) + 6 + (T + (d + 7) * P) + 1) in
  let err := (2 * a + 2 * n * (2 * d + 2)) * length vals ^ (2 * n + (T + l * P) - 1) in
  real w openings <= real w' openings' + err /\ real w' openings' <= real w openings + err.
Proof.
  intros n K Hd Hn16 HK HN HA HB honest HW HW' HP HF l real a err.
  apply drawn_close; [lia|exact HN|unfold l; nia|]. intros g h Hg Hh [Z1 Z2]. rewrite <- !Nat.mul_assoc.
  exact (C83_copy_many_witnesses_hidden ceq vals d g h q B k tr (mp g h) (Ms g h) (w g h) (w' g h) (sets g h) (openings g h) (openings' g h) (Cs g h) T P (c g h)
    Hd Hn16 Hg Hh HK HN HA HB Z2 Z1 (fun i => HW g h i Hg Hh) (fun i => HW' g h i Hg Hh) (HF g h)).
Qed.

(** ** 64-byte strings for the generators' logarithms too *)
Context (ofZ : Z -> Scalar) (HQ : numbers_scalars ofZ ell) (vals : word) (HN : NoDup vals) (HA : forall x, In x vals).
Definition wide_drawn_sessions (n T P l : nat) (session : word -> word -> word -> list word -> bool) : nat :=
  list_sum (map (fun gh => wide_sessions ofZ T P l (session (reduced ofZ (firstn n gh)) (reduced ofZ (skipn n gh)))) (words (all_bytes 64) (2 * n))).
Lemma drawn_flat n T P l session : exists F : word -> bool,
  drawn_sessions vals n T P l session = count F (words vals (2 * n + (T + l * P))) /\
  wide_drawn_sessions n T P l session = wide_count ofZ (2 * n + (T + l * P)) F.
Proof.
  exists (fun z => let gh := firstn (2 * n) z in let y := skipn (2 * n) z in
    session (firstn n gh) (skipn n gh) (firstn T y) (pieces l P (skipn T y))). split.
  - unfold drawn_sessions. rewrite count_words_app. f_equal. apply map_ext_in. intros u Hu. apply words_length in Hu.
    unfold sessions. rewrite count_words_app. f_equal. apply map_ext_in. intros v Hv. apply words_length in Hv.
    rewrite pieces_count. apply count_ext. intros z _. cbv zeta. now rewrite (firstn_exact u), (skipn_exact u), (firstn_exact v), (skipn_exact v) by auto.
  - unfold wide_drawn_sessions, wide_count, byte_count. rewrite count_words_app. f_equal. apply map_ext_in. intros u Hu. apply words_length in Hu.
    unfold wide_sessions. rewrite count_words_app. f_equal. apply map_ext_in. intros v Hv. apply words_length in Hv.
    rewrite pieces_count. apply count_ext. intros z _. cbv zeta. unfold reduced. rewrite (firstn_map _ _ (u ++ v ++ z)), (skipn_map _ _ (u ++ v ++ z)).
    rewrite (firstn_exact u), (skipn_exact u) by auto. rewrite !(firstn_map _ _ u), !(skipn_map _ _ u), (firstn_map _ _ (v ++ z)), (skipn_map _ _ (v ++ z)).
    rewrite (firstn_exact v), (skipn_exact v) by auto. now rewrite pieces_map.
Qed.
Lemma drawn_differ n T P l a s s' : let N := 2 * n + (T + l * P) in 1 <= N ->
  drawn_sessions vals n T P l s <= drawn_sessions vals n T P l s' + a * length vals ^ (N - 1) /\
  drawn_sessions vals n T P l s' <= drawn_sessions vals n T P l s + a * length vals ^ (N - 1) ->
  differ_at_most a (2 * N) N (wide_drawn_sessions n T P l s) (wide_drawn_sessions n T P l s').
Proof.
  intros N H1 [X1 X2]. destruct (drawn_flat n T P l s) as (F & E1 & E2), (drawn_flat n T P l s') as (F' & E1' & E2').
  rewrite E2, E2'. rewrite E1, E1' in X1, X2. fold N in X1, X2 |- *. now apply (C92_differ ofZ HQ vals HN HA).
Qed.

Corollary C100_qesa_bytes {I} d (q : Scalar) (B : Point)
    (tr : I -> transcript) (Ms : word -> word -> I -> list (list word)) (w w' : word -> word -> I -> word) (T P : nat) (c : word -> word -> client I Zk) :
  let n := 2 ^ S d in let K := 2 * d + 4 in
  2 <= d -> B <> p0 ->
  (forall g h i, 1 <= length (Ms g h i) /\ Forall (rect (n - 2) (n - 2)) (Ms g h i)) ->
  let honest := fun w : word -> word -> I -> word => forall g h i, length (w g h i) = n - 2 /\
     sc (w g h i) 0 = s1 /\ (forall j, j < length (Ms g h i) -> quad (nth j (Ms g h i) []) (w g h i) = s0) in
  honest w -> honest w' -> 1 <= P -> (forall g h, fits T P (c g h)) ->
  let l := d + 6 + (2 + (K + K)) in
  let real := fun w : word -> word -> I -> word => wide_drawn_sessions n T P l (fun g h =>
    real_session ceq tr (fun i ro rng => zk_create ro rng 0 (tr i) (mulB B g) (mulB B h) (q *: B)%P (mkBlockMatrix (Ms g h i)) (w g h i)) (d + 6) [] (c g h)) in
  let a := P * ((3 * d + 12) * ((8 * n + 2 * d + 1) * (4 * n * n) + 32 * n + d + 5) + 5 + (T + (d + 6) * P) + 1) in
  let N := 2 * n + (T + l * P) in
  differ_at_most (2 * a + 2 * n * (2 * d + 2)) (2 * N) N (real w) (real w').
Proof.
  intros n K Hd HB HM honest HW HW' HP HF l real a N. apply drawn_differ; [unfold l; nia|].
  exact (C100_qesa_witnesses_hidden vals d q B tr Ms w w' T P c Hd HN HA HB HM HW HW' HP HF).
Qed.
Corollary C100_copy_bytes {I} d (q : Scalar) (B : Point) (k : nat)
    (tr : I -> transcript) (mp : word -> word -> I -> Mapping) (Ms : word -> word -> I -> list (list word)) (w w' : word -> word -> I -> word)
    (sets : word -> word -> I -> list (list N)) (openings openings' : word -> word -> I -> list (word * Scalar)) (Cs : word -> word -> I -> list Point)
    (T P : nat) (c : word -> word -> client I Copy) :
  let n := 2 ^ S d in let K := 2 * d + 4 in
  2 <= d -> (N.of_nat n < 65536)%N -> (N.of_nat k <= 65536)%N -> B <> p0 ->
  let honest := fun (w : word -> word -> I -> word) openings => forall g h i, length g = n -> length h = n ->
     length (sets g h i) <= k /\ compute_mapping (N.of_nat n) (N.of_nat (length (w g h i))) (sets g h i) = Ok (mp g h i) /\
     (forall s j, In s (sets g h i) -> In j s -> length (w g h i) <= N.to_nat j < n - 2) /\
     length (openings g h i) = length (sets g h i) /\ length (Cs g h i) = length (sets g h i) /\
     (forall j, j < length (sets g h i) ->
        commit (mulB B g) (nth j (sets g h i) []) (fst (nth j (openings g h i) ([], s0))) (snd (nth j (openings g h i) ([], s0))) = Ok (pt (Cs g h i) j)) /\
     1 <= length (w g h i) /\ length (w g h i) <= n - 2 /\ sc (w g h i) 0 = s1 /\ Forall (rect (n - 2) (n - 2)) (Ms g h i) /\
     (forall al j, j < length (Ms g h i) -> quad (nth j (Ms g h i) []) (cp_witness n (mp g h i) (w g h i) (concat (map fst (openings g h i))) al) = s0) in
  honest w openings -> honest w' openings' -> 1 <= P -> (forall g h, fits T P (c g h)) ->
  let l := d + 7 + (2 + (K + K)) in
  let real := fun (w : word -> word -> I -> word) openings => wide_drawn_sessions n T P l (fun g h =>
    real_session ceq tr (fun i ro rng => copy_create ro rng 0 (tr i) (mulB B g) (mulB B h) (q *: B)%P (mp g h i) (mkBlockMatrix (Ms g h i)) (w g h i) (openings g h i)) (d + 7) [] (c g h)) in
  let a := P * ((3 * d + 13) * ((8 * (n + k) + 2 * d + 1) * (4 * n * n) + 32 * (n + k) + d + 5) + 6 + (T + (d + 7) * P) + 1) in
  let N := 2 * n + (T + l * P) in
  differ_at_most (2 * a + 2 * n * (2 * d + 2)) (2 * N) N (real w openings) (real w' openings').
Proof.
  intros n K Hd Hn16 HK HB honest HW HW' HP HF l real a N. apply drawn_differ; [unfold l; nia|].
  exact (C100_copy_witnesses_hidden vals d q B k tr mp Ms w w' sets openings openings' Cs T P c Hd Hn16 HK HN HA HB HW HW' HP HF).
Qed.
End C100.

(** the system of C77 with its two witnesses, size 8, whatever the observer does with the
    generators: over a field of 50 bits *)
Example C100_case (ceq : @encodings_comparable EX) (vals : list (@Scalar EX)) (HN : NoDup vals) (HA : forall x, In x vals) (B : @Point EX)
    (T P : nat) (c : list (@Scalar EX) -> list Scalar -> client transcript Zk) : B <> p0 -> 1 <= P -> (forall g h, fits T P (c g h)) ->
  let real := fun w => drawn_sessions vals 8 T P 26 (fun g h =>
    real_session ceq (fun tr => tr) (fun tr ro rng => zk_create ro rng 0 tr (mulB B g) (mulB B h) (sN 77 *: B)%P (mkBlockMatrix M77) w) 8 [] (c g h)) in
  let err := (2 * (P * (18 * (69 * 256 + 263) + 5 + (T + 8 * P) + 1)) + 96) * length vals ^ (16 + (T + 26 * P) - 1) in
  real w77 <= real w77' + err /\ real w77' <= real w77 + err.
Proof.
  intros HB HP HF real err.
  assert (Q : forall w, forallb (fun M => Z.eqb (zs (quad M w)) (zs (@s0 EX))) M77 = true -> forall i, i < length M77 -> quad (nth i M77 []) w = s0).
  { intros w Hw i Hi. rewrite forallb_forall in Hw. assert (Y := Hw _ (nth_In M77 [] Hi)). apply Z.eqb_eq in Y. now apply zs_inj. }
  assert (X := @C100_qesa_witnesses_hidden EX EX_laws ceq transcript vals 2 (sN 77) B (fun tr => tr) (fun _ _ _ => M77) (fun _ _ _ => w77) (fun _ _ _ => w77') T P c).
  cbv zeta in X. apply X; clear X; try assumption; try lia.
  - intros _ _ _. split; [cbn; lia|]. repeat constructor.
  - intros _ _ _. split; [reflexivity|]. split; [reflexivity|]. apply Q. vm_compute. reflexivity.
  - intros _ _ _. split; [reflexivity|]. split; [reflexivity|]. apply Q. vm_compute. reflexivity.
Qed.
