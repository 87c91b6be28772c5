(** C83: zero-knowledge with hashed challenges for many proofs. A client queries the hash
    function and requests proofs, of statements it chooses as it goes along. *)
From Coq Require Import String.
From Verif Require Export PropNizk.
From Verif Require Import Ex ExSmall.
Local Open Scope string_scope.
Local Open Scope nat_scope.
Local Open Scope list_scope.

Section C83.
Context {C : Crypto} {L : CryptoLaws C} (ceq : @encodings_comparable C).

Lemma unused_scalars (M d K : nat) : K = 2 * d + 4 -> (M - 1) ^ 2 * M ^ (2 * d + 2) * M ^ (2 + (2 + (2 * d + 2))) <= M ^ (2 + (K + K)).
Proof.
  intros ->. replace (2 + (2 * d + 4 + (2 * d + 4))) with (2 + (2 * d + 2) + (2 + (2 + (2 * d + 2)))) by lia. rewrite !(Nat.pow_add_r M _ (2 + (2 + (2 * d + 2)))).
  apply Nat.mul_le_mono_r. rewrite (Nat.pow_add_r M 2 (2 * d + 2)). apply Nat.mul_le_mono_r, Nat.pow_le_mono_l. lia.
Qed.
Lemma total_error (M c e q l T P : nat) : 1 <= l ->
  P * (c * M ^ (l - 1) + (q + e) * M ^ (l - 1)) * (M ^ T * M ^ (l * (P - 1))) = P * (c + q + e) * M ^ (T + l * P - 1).
Proof.
  intros Hl. destruct P as [|P]; [reflexivity|]. replace (S P - 1) with P by lia. replace (T + l * S P - 1) with ((l - 1) + (T + l * P)) by lia.
  rewrite !Nat.pow_add_r. generalize (M ^ (l - 1)), (M ^ T), (M ^ (l * P)). intros. nia.
Qed.

Theorem C83_qesa_many {I} (vals : list Scalar) d (g h : list Scalar) (q : Scalar) (B : Point)
    (tr : I -> transcript) (Ms : I -> list (list (list Scalar))) (w : I -> list Scalar) (T P : nat) (c : client I Zk) :
  let n := 2 ^ S d in let K := 2 * d + 4 in
  2 <= d -> length g = n -> length h = n ->
  NoDup vals -> (forall x, In x vals) -> B <> p0 ->
  (sc g (n - 2)%nat * sc h (n - 2)%nat + sc g (n - 1)%nat * sc h (n - 1)%nat <> s0)%S -> zk_generators d h ->
  (forall i, length (w i) = n - 2 /\ 1 <= length (Ms i) /\ Forall (rect (n - 2) (n - 2)) (Ms i) /\
     sc (w i) 0 = s1 /\ (forall j, j < length (Ms i) -> quad (nth j (Ms i) []) (w i) = s0)) ->
  fits T P c ->
  let l := d + 6 + (2 + (K + K)) in
  let real := sessions vals T P l
    (real_session ceq tr (fun i ro rng => zk_create ro rng 0 (tr i) (mulB B g) (mulB B h) (q *: B)%P (mkBlockMatrix (Ms i)) (w i)) (d + 6) [] c) in
  let simd := sessions vals T P (d + 6 + (2 + (2 + (2 * d + 2))))
    (sim_session ceq tr (fun i ro pf => zk_verify ro (tr i) pf (mulB B g) (mulB B h) (q *: B)%P (mkBlockMatrix (Ms i)))
       (fun i cs v => zk_sim d g h q B (Ms i) cs (sc v 0) (sc v 1) (skipn 2 v)) (d + 6) [] c) in
  let N := (length vals - 1) ^ 2 * length vals ^ (2 * d + 2) in
  let err := P * ((3 * d + 12) * ((8 * n + 2 * d + 1) * (4 * n * n) + 32 * n + d + 5) + 5 + (T + (d + 6) * P) + 1) * length vals ^ (T + l * P - 1) in
  real <= N ^ P * simd + err /\ N ^ P * simd <= real + err.
Proof.
  intros n K Hd Hg Hh HN HA HB Nd Zp HI HF l real simd N err.
  assert (HS : forall i, simulatable ceq vals (tr i) (d + 6) (2 + (K + K)) (2 + (2 + (2 * d + 2))) N
    (((3 * d + 12) * ((8 * n + 2 * d + 1) * (4 * n * n) + 32 * n + d + 5) + 5) * length vals ^ (d + 6 + (2 + (K + K)) - 1)) 1
    (fun ro rng => zk_create ro rng 0 (tr i) (mulB B g) (mulB B h) (q *: B)%P (mkBlockMatrix (Ms i)) (w i))
    (fun ro pf => zk_verify ro (tr i) pf (mulB B g) (mulB B h) (q *: B)%P (mkBlockMatrix (Ms i)))
    (fun cs v => zk_sim d g h q B (Ms i) cs (sc v 0) (sc v 1) (skipn 2 v))).
  { intros i. destruct (HI i) as (I1 & I2 & I3 & I4 & I5).
    exact (qesa_simulatable ceq vals (tr i) d g h q B (Ms i) (w i) Hd Hg Hh I1 I2 I3 I4 I5 HN HA HB Nd Zp). }
  assert (X := nizk_many ceq vals tr (d + 6) (2 + (K + K)) (2 + (2 + (2 * d + 2))) N _ 1 _ _ _ c (T + (d + 6) * P) HN ltac:(lia) ltac:(lia)
    (unused_scalars (length vals) d K eq_refl) HS T P [] HF (le_n _)). cbv zeta in X. fold l in X. rewrite total_error in X by (unfold l; lia). exact X.
Qed.
Theorem C83_qesa_many_witnesses_hidden {I} (vals : list Scalar) d (g h : list Scalar) (q : Scalar) (B : Point)
    (tr : I -> transcript) (Ms : I -> list (list (list Scalar))) (w w' : I -> list Scalar) (T P : nat) (c : client I Zk) :
  let n := 2 ^ S d in let K := 2 * d + 4 in
  2 <= d -> length g = n -> length h = n ->
  NoDup vals -> (forall x, In x vals) -> B <> p0 ->
  (sc g (n - 2)%nat * sc h (n - 2)%nat + sc g (n - 1)%nat * sc h (n - 1)%nat <> s0)%S -> zk_generators d h ->
  (forall i, 1 <= length (Ms i) /\ Forall (rect (n - 2) (n - 2)) (Ms i)) ->
  let honest := fun w : I -> list Scalar => forall i, length (w i) = n - 2 /\
     sc (w i) 0 = s1 /\ (forall j, j < length (Ms i) -> quad (nth j (Ms i) []) (w i) = s0) in
  honest w -> honest w' -> fits T P c ->
  let l := d + 6 + (2 + (K + K)) in
  let real := fun w : I -> list Scalar => sessions vals T P l
    (real_session ceq tr (fun i ro rng => zk_create ro rng 0 (tr i) (mulB B g) (mulB B h) (q *: B)%P (mkBlockMatrix (Ms i)) (w i)) (d + 6) [] c) in
  let err := P * ((3 * d + 12) * ((8 * n + 2 * d + 1) * (4 * n * n) + 32 * n + d + 5) + 5 + (T + (d + 6) * P) + 1) * length vals ^ (T + l * P - 1) in
  real w <= real w' + 2 * err /\ real w' <= real w + 2 * err.
Proof.
  intros n K Hd Hg Hh HN HA HB Nd Zp HM honest HW HW' HF l real err.
  assert (X := C83_qesa_many vals d g h q B tr Ms w T P c Hd Hg Hh HN HA HB Nd Zp
    (fun i => match HM i, HW i with conj M1 M2, conj I1 (conj I2 I3) => conj I1 (conj M1 (conj M2 (conj I2 I3))) end) HF).
  assert (Y := C83_qesa_many vals d g h q B tr Ms w' T P c Hd Hg Hh HN HA HB Nd Zp
    (fun i => match HM i, HW' i with conj M1 M2, conj I1 (conj I2 I3) => conj I1 (conj M1 (conj M2 (conj I2 I3))) end) HF).
  cbv zeta in X, Y. fold n K l err in X, Y.
  change (sessions vals T P l _) with (real w) in X. change (sessions vals T P l _) with (real w') in Y.
  destruct X as [X1 X2], Y as [Y1 Y2]. split.
  - eapply Nat.le_trans; [exact X1|]. eapply Nat.le_trans; [apply Nat.add_le_mono_r, Y2|]. lia.
  - eapply Nat.le_trans; [exact Y1|]. eapply Nat.le_trans; [apply Nat.add_le_mono_r, X2|]. lia.
Qed.

(** ** copy argument: each statement has its own system, commitments and index sets *)
Theorem C83_copy_many {I} (vals : list Scalar) d (g h : list Scalar) (q : Scalar) (B : Point) (k : nat)
    (tr : I -> transcript) (mp : I -> Mapping) (Ms : I -> list (list (list Scalar))) (w : I -> list Scalar) (sets : I -> list (list N))
    (openings : I -> list (list Scalar * Scalar)) (Cs : I -> list Point) (T P : nat) (c : client I Copy) :
  let n := 2 ^ S d in let K := 2 * d + 4 in
  2 <= d -> (N.of_nat n < 65536)%N -> length g = n -> length h = n -> (N.of_nat k <= 65536)%N ->
  NoDup vals -> (forall x, In x vals) -> B <> p0 ->
  (sc g (n - 2)%nat * sc h (n - 2)%nat + sc g (n - 1)%nat * sc h (n - 1)%nat <> s0)%S -> zk_generators d h ->
  (forall i, length (sets i) <= k /\ compute_mapping (N.of_nat n) (N.of_nat (length (w i))) (sets i) = Ok (mp i) /\
     (forall s j, In s (sets i) -> In j s -> length (w i) <= N.to_nat j < n - 2) /\
     length (openings i) = length (sets i) /\ length (Cs i) = length (sets i) /\
     (forall j, j < length (sets i) ->
        commit (mulB B g) (nth j (sets i) []) (fst (nth j (openings i) ([], s0))) (snd (nth j (openings i) ([], s0))) = Ok (pt (Cs i) j)) /\
     1 <= length (w i) /\ length (w i) <= n - 2 /\ sc (w i) 0 = s1 /\ Forall (rect (n - 2) (n - 2)) (Ms i) /\
     (forall al j, j < length (Ms i) -> quad (nth j (Ms i) []) (cp_witness n (mp i) (w i) (concat (map fst (openings i))) al) = s0)) ->
  fits T P c ->
  let l := d + 7 + (2 + (K + K)) in
  let real := sessions vals T P l
    (real_session ceq tr (fun i ro rng => copy_create ro rng 0 (tr i) (mulB B g) (mulB B h) (q *: B)%P (mp i) (mkBlockMatrix (Ms i)) (w i) (openings i)) (d + 7) [] c) in
  let simd := sessions vals T P (d + 7 + (2 + (2 + (2 * d + 2))))
    (sim_session ceq tr (fun i ro pf => copy_verify ro (tr i) pf (mulB B g) (mulB B h) (q *: B)%P (mkBlockMatrix (Ms i)) (mp i) (Cs i))
       (fun i cs v => copy_sim d g h q B (mp i) (Ms i) (Cs i) cs (sc v 0) (sc v 1) (skipn 2 v)) (d + 7) [] c) in
  let N := (length vals - 1) ^ 2 * length vals ^ (2 * d + 2) in
  let err := P * ((3 * d + 13) * ((8 * (n + k) + 2 * d + 1) * (4 * n * n) + 32 * (n + k) + d + 5) + 6 + (T + (d + 7) * P) + 1) * length vals ^ (T + l * P - 1) in
  real <= N ^ P * simd + err /\ N ^ P * simd <= real + err.
Proof.
  intros n K Hd Hn16 Hg Hh HK HN HA HB Nd Zp HI HF l real simd N err.
  assert (HS : forall i, simulatable ceq vals (tr i) (d + 7) (2 + (K + K)) (2 + (2 + (2 * d + 2))) N
    (((3 * d + 13) * ((8 * (n + k) + 2 * d + 1) * (4 * n * n) + 32 * (n + k) + d + 5) + 6) * length vals ^ (d + 7 + (2 + (K + K)) - 1)) 1
    (fun ro rng => copy_create ro rng 0 (tr i) (mulB B g) (mulB B h) (q *: B)%P (mp i) (mkBlockMatrix (Ms i)) (w i) (openings i))
    (fun ro pf => copy_verify ro (tr i) pf (mulB B g) (mulB B h) (q *: B)%P (mkBlockMatrix (Ms i)) (mp i) (Cs i))
    (fun cs v => copy_sim d g h q B (mp i) (Ms i) (Cs i) cs (sc v 0) (sc v 1) (skipn 2 v))).
  { intros i. destruct (HI i) as (I0 & I1 & I2 & I3 & I4 & I5 & I6 & I7 & I8 & I9 & I10).
    refine (simulatable_le ceq vals (tr i) _ _ _ _ _ _ 1 _ _ _ _
      (copy_simulatable ceq vals (tr i) d g h q B (mp i) (Ms i) (w i) (sets i) (openings i) (Cs i)
         Hd Hn16 Hg Hh ltac:(lia) I1 I2 I3 I4 I5 I6 I7 I8 I9 I10 HN HA HB Nd Zp)).
    fold n. apply Nat.mul_le_mono_r, Nat.add_le_mono_r, Nat.mul_le_mono_l. revert I0. generalize (4 * n * n), (length (sets i)). clear. intros. nia. }
  assert (X := nizk_many ceq vals tr (d + 7) (2 + (K + K)) (2 + (2 + (2 * d + 2))) N _ 1 _ _ _ c (T + (d + 7) * P) HN ltac:(lia) ltac:(lia)
    (unused_scalars (length vals) d K eq_refl) HS T P [] HF (le_n _)). cbv zeta in X. fold l in X. rewrite total_error in X by (unfold l; lia). exact X.
Qed.
Theorem C83_copy_many_witnesses_hidden {I} (vals : list Scalar) d (g h : list Scalar) (q : Scalar) (B : Point) (k : nat)
    (tr : I -> transcript) (mp : I -> Mapping) (Ms : I -> list (list (list Scalar))) (w w' : I -> list Scalar) (sets : I -> list (list N))
    (openings openings' : I -> list (list Scalar * Scalar)) (Cs : I -> list Point)
    (T P : nat) (c : client I Copy) :
  let n := 2 ^ S d in let K := 2 * d + 4 in
  2 <= d -> (N.of_nat n < 65536)%N -> length g = n -> length h = n -> (N.of_nat k <= 65536)%N ->
  NoDup vals -> (forall x, In x vals) -> B <> p0 ->
  (sc g (n - 2)%nat * sc h (n - 2)%nat + sc g (n - 1)%nat * sc h (n - 1)%nat <> s0)%S -> zk_generators d h ->
  let honest := fun w openings => forall i : I,
     length (sets i) <= k /\ compute_mapping (N.of_nat n) (N.of_nat (length (w i))) (sets i) = Ok (mp i) /\
     (forall s j, In s (sets i) -> In j s -> length (w i) <= N.to_nat j < n - 2) /\
     length (openings i) = length (sets i) /\ length (Cs i) = length (sets i) /\
     (forall j, j < length (sets i) ->
        commit (mulB B g) (nth j (sets i) []) (fst (nth j (openings i) ([], s0))) (snd (nth j (openings i) ([], s0))) = Ok (pt (Cs i) j)) /\
     1 <= length (w i) /\ length (w i) <= n - 2 /\ sc (w i) 0 = s1 /\ Forall (rect (n - 2) (n - 2)) (Ms i) /\
     (forall al j, j < length (Ms i) -> quad (nth j (Ms i) []) (cp_witness n (mp i) (w i) (concat (map fst (openings i))) al) = s0) in
  honest w openings -> honest w' openings' -> fits T P c ->
  let l := d + 7 + (2 + (K + K)) in
  let real := fun w openings => sessions vals T P l
    (real_session ceq tr (fun i ro rng => copy_create ro rng 0 (tr i) (mulB B g) (mulB B h) (q *: B)%P (mp i) (mkBlockMatrix (Ms i)) (w i) (openings i)) (d + 7) [] c) in
  let err := P * ((3 * d + 13) * ((8 * (n + k) + 2 * d + 1) * (4 * n * n) + 32 * (n + k) + d + 5) + 6 + (T + (d + 7) * P) + 1) * length vals ^ (T + l * P - 1) in
  real w openings <= real w' openings' + 2 * err /\ real w' openings' <= real w openings + 2 * err.
Proof.
  intros n K Hd Hn16 Hg Hh HK HN HA HB Nd Zp honest HW HW' HF l real err.
  assert (X := C83_copy_many vals d g h q B k tr mp Ms w sets openings Cs T P c Hd Hn16 Hg Hh HK HN HA HB Nd Zp HW HF).
  assert (Y := C83_copy_many vals d g h q B k tr mp Ms w' sets openings' Cs T P c Hd Hn16 Hg Hh HK HN HA HB Nd Zp HW' HF).
  cbv zeta in X, Y. fold n K l err in X, Y.
  change (sessions vals T P l _) with (real w openings) in X. change (sessions vals T P l _) with (real w' openings') in Y.
  destruct X as [X1 X2], Y as [Y1 Y2]. split.
  - eapply Nat.le_trans; [exact X1|]. eapply Nat.le_trans; [apply Nat.add_le_mono_r, Y2|]. lia.
  - eapply Nat.le_trans; [exact Y1|]. eapply Nat.le_trans; [apply Nat.add_le_mono_r, X2|]. lia.
Qed.
End C83.

(** ** size 8, over a field of 50 bits *)
(** the client chooses the application's transcript for each of P proofs; T queries *)
Example C83_case (ceq : @encodings_comparable EX) (vals : list (@Scalar EX)) (HN : NoDup vals) (HA : forall x, In x vals) (g : list Scalar) (B : Point)
    (T P : nat) (c : client transcript Zk) : length g = 8 -> sc g 6 = s1 -> sc g 7 = s0 -> B <> p0 -> fits T P c ->
  let real := fun w => sessions vals T P 26
    (real_session ceq (fun tr => tr) (fun tr ro rng => zk_create ro rng 0 tr (mulB B g) (mulB B sh76) (sN 77 *: B)%P (mkBlockMatrix M77) w) 8 [] c) in
  let err := P * (18 * (69 * 256 + 263) + 5 + (T + 8 * P) + 1) * length vals ^ (T + 26 * P - 1) in
  real w77 <= real w77' + 2 * err /\ real w77' <= real w77 + 2 * err.
Proof.
  intros Hg G6 G7 HB HF real err. assert (Z := C77_case_generators).
  assert (Q : forall w, forallb (fun M => Z.eqb (zs (quad M w)) (zs (@s0 EX))) M77 = true -> forall i, i < length M77 -> quad (nth i M77 []) w = s0).
  { intros w Hw i Hi. rewrite forallb_forall in Hw. assert (Y := Hw _ (nth_In M77 [] Hi)). apply Z.eqb_eq in Y. now apply zs_inj. }
  assert (X := @C83_qesa_many_witnesses_hidden EX EX_laws ceq transcript vals 2 g sh76 (sN 77) B (fun tr => tr) (fun _ => M77) (fun _ => w77) (fun _ => w77') T P c).
  cbv zeta in X. apply X; clear X; try assumption; try reflexivity.
  - change (2 ^ 3 - 2) with 6. change (2 ^ 3 - 1) with 7. rewrite G6, G7. apply zs_neq. vm_compute. reflexivity.
  - intros _. split; [cbn; lia|repeat constructor].
  - intros _. split; [reflexivity|]. split; [reflexivity|]. apply Q; vm_compute; reflexivity.
  - intros _. split; [reflexivity|]. split; [reflexivity|]. apply Q; vm_compute; reflexivity.
Qed.
Example C83_case_copy (ceq : @encodings_comparable EX) (vals : list (@Scalar EX)) (HN : NoDup vals) (HA : forall x, In x vals) (B : Point)
    (T P : nat) (c : client transcript Copy) : B <> p0 -> fits T P c ->
  let real := fun w openings => sessions vals T P 27
    (real_session ceq (fun tr => tr) (fun tr ro rng => copy_create ro rng 0 tr (mulB B g78) (mulB B sh76) (sN 77 *: B)%P mp78 (mkBlockMatrix M78) w openings) 9 [] c) in
  let err := P * (19 * (77 * 256 + 295) + 6 + (T + 9 * P) + 1) * length vals ^ (T + 27 * P - 1) in
  real [sN 1; sN 2] (o78 4 9 5) <= real [sN 1; sN 3] (o78 9 5 7) + 2 * err /\
  real [sN 1; sN 3] (o78 9 5 7) <= real [sN 1; sN 2] (o78 4 9 5) + 2 * err.
Proof.
  intros HB HF real err.
  assert (X := @C83_copy_many_witnesses_hidden EX EX_laws ceq transcript vals 2 g78 sh76 (sN 77) B 1 (fun tr => tr) (fun _ => mp78) (fun _ => M78)
     (fun _ => [sN 1; sN 2]) (fun _ => [sN 1; sN 3]) (fun _ => sets78) (fun _ => o78 4 9 5) (fun _ => o78 9 5 7)
     (fun _ => [(sN 118 *: B)%P]) T P c).
  cbv zeta in X.
  apply X; clear X; try assumption; try reflexivity.
  - cbn. lia.
  - apply zs_neq. vm_compute. reflexivity.
  - exact C77_case_generators.
  - intros _. destruct (honest78 B 2 4 9 5) as (O1 & O2 & O3 & O4); [vm_compute; reflexivity|reflexivity| |].
    { intros al v. repeat split; apply zs_inj; vm_compute; reflexivity. }
    split; [cbn; lia|]. split; [reflexivity|]. split; [intros s i [<-|[]] [<-|[<-|[]]]; cbn; lia|]. split; [exact O1|]. split; [reflexivity|]. split; [exact O2|].
    split; [cbn; lia|]. split; [cbn; lia|]. split; [exact O3|]. split; [repeat constructor|]. exact O4.
  - intros _. destruct (honest78 B 3 9 5 7) as (O1 & O2 & O3 & O4); [vm_compute; reflexivity|reflexivity| |].
    { intros al v. repeat split; apply zs_inj; vm_compute; reflexivity. }
    split; [cbn; lia|]. split; [reflexivity|]. split; [intros s i [<-|[]] [<-|[<-|[]]]; cbn; lia|]. split; [exact O1|]. split; [reflexivity|]. split; [exact O2|].
    split; [cbn; lia|]. split; [cbn; lia|]. split; [exact O3|]. split; [repeat constructor|]. exact O4.
Qed.

(** ** size 4: single sessions *)
Section C83sessions.
Let fceq : @encodings_comparable FS := list_eq_dec Z.eq_dec.
Let G := mulB (qN 1) (map fN [1; 6; 1; 8]%Z).
Let H := mulB (qN 1) (map fN [2; 7; 1; 8]%Z).
Let Q := (fN 77 *: qN 1)%P.
(** w_1^2 = a w_0^2 *)
Let Ms (a : Z) : list (list (list (@Scalar FS))) := [ map (map fN) [[- a; 0]; [0; 1]]%Z ].
Let tr (a : Z) : @transcript FS := [EvU64 "a" (Z.to_nat a)].
Let create (a : Z) : @oracle FS -> (nat -> @Scalar FS) -> res (@Zk FS * transcript * nat) :=
  fun ro rng => zk_create ro rng 0 (tr a) G H Q (mkBlockMatrix (Ms a)) (map fN [1; Z.sqrt a]%Z).
Let verify (a : Z) : @oracle FS -> @Zk FS -> res (bool * transcript) := fun ro pf => zk_verify ro (tr a) pf G H Q (mkBlockMatrix (Ms a)).
Let sim (a : Z) := fun cs v : list (@Scalar FS) => zk_sim 1 (map fN [1; 6; 1; 8]%Z) (map fN [2; 7; 1; 8]%Z) (fN 77) (qN 1) (Ms a) cs (sc v 0) (sc v 1) (skipn 2 v).
Let z (x : Z) := map fN [3; 5; x; 6; 7; 11; 13; 40; x + 1; 1; 2; 3; x; 5; 6; 7; 8; 9; 10; 11; 12]%Z.
(** ask for the challenges of a proof and verify it *)
Fixpoint check83 (k : nat) (m : @memo FS) (V : @oracle FS -> option (bool * list (@transcript FS))) (next : bool -> @client FS Z (@Zk FS)) : @client FS Z (@Zk FS) :=
  let ro := recall fceq m (fun _ => s1) in
  match V ro with
  | None => next false
  | Some (b, hs) => match k with O => next b | S k => Query (nth (length m) hs []) (fun v => check83 k (m ++ [(nth (length m) hs [], v)]) V next) end
  end.
Let V (a : Z) (pf : @Zk FS) ro := match verify a ro pf with Ok (b, tr') => Some (b, drawn (tr a) (skipn 1 tr')) | _ => None end.
(** two proofs, of w_1^2 = 4 w_0^2 and of w_1^2 = a w_0^2, where a is the answer to a query *)
Let talk : @client FS Z (@Zk FS) :=
  Request 4%Z (fun pf => check83 7 [] (V 4%Z pf) (fun b => Query [EvChal "a"] (fun a =>
  Request (zf a) (fun pf' => check83 7 [] (V (zf a) pf') (fun b' => Verdict (b && b')))))).
(** the first seven queries and the last seven are answered from what is known; the letters are skipped *)
Let ws (a : Z) := map fN [0; 0; 0; 0; 0; 0; 0; a; 0; 0; 0; 0; 0; 0; 0]%Z.
Example C83_case_sessions :
  real_session fceq tr create 7 [] talk (ws 9%Z) [z 2%Z; z 8%Z] = true /\ sim_session fceq tr verify sim 7 [] talk (ws 9%Z) [z 2%Z; z 8%Z] = true /\
  real_session fceq tr create 7 [] talk (ws 10%Z) [z 2%Z; z 8%Z] = false /\ sim_session fceq tr verify sim 7 [] talk (ws 10%Z) [z 2%Z; z 8%Z] = true.
Proof. repeat split; vm_compute; reflexivity. Qed.
End C83sessions.
