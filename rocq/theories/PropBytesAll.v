(** C99: every argument of the crate with the program's own randomness: 64 byte strings reduced
    modulo ell for each answer of the hash function and each draw. Soundness against any prover,
    and hiding of the witnesses in any number of adaptively chosen proofs. *)
From Coq Require Import String.
From Verif Require Export PropBytes PropShort PropNizkMany PropNizkAlm PropNizkLmpa.
From Verif Require Import PropQesaCount PropZkCount PropCopySound CopyFacts PropMapping PropCopy PropSimpleZK Ex ExSmall.
Local Open Scope nat_scope.
Local Open Scope list_scope.

Section Any.
Context {C : Crypto} {L : CryptoLaws C} (ceq : @encodings_comparable C).
Context (ofZ : Z -> Scalar) (HQ : numbers_scalars ofZ ell) (vals : list Scalar) (HN : NoDup vals) (HA : forall x, In x vals).
Notation word := (list Scalar).
Notation wide_count := (wide_count ofZ).
Notation wide_successes := (wide_successes ceq ofZ).
Notation own_run := (own_run ceq).

(** ** soundness: any prover, with at most T queries *)
Corollary C99_nozk tr (G H : list Point) (Q P : Point) (t : Scalar) d (p : prover NoZK) T D :
  let V := fun ro pf => no_zk_verify ro tr pf G H Q (2 ^ d) P t in
  let p' := finish_nozk tr d G H Q p in
  length G = 2 ^ d -> length H = 2 ^ d -> asks T p -> 1 <= length D -> incl (reach vals p') D ->
  at_most (3 * (T + S d)) (length D) (wide_successes V p D) \/
  (exists B, good_trees B /\
    all_paths B (fun al path => exists xs, own_run V tr p' vals D (al :: xs) (fun pf => path = proof_path pf xs)) /\
    match trees_extract t B with
    | Wit a b c => length a = 2 ^ d /\ length b = 2 ^ d /\ c = t /\
                   P = (comb a G + comb b H + t *: Q)%P /\ dotp a b = t
    | Rel g h q => nontrivial_relation (2 ^ d) G H Q g h q
    end).
Proof.
  intros V p' HG HH HT H1 HD. destruct (at_most_dec (3 * (T + S d)) (length D) (wide_successes V p D)) as [Hle|Hgt]; [left; exact Hle|right].
  apply (C80_nozk_fiat_shamir ceq vals tr G H Q P t d p T D HN HG HH HT HD).
  apply (C92_fiat_shamir ceq ofZ HQ vals HN HA); auto.
Qed.

Corollary C99_almzk tr (G H : list Point) (Q Cw : Point) (t : Scalar) d (p : prover AlmZK) T D :
  let V := fun ro pf => alm_zk_verify ro tr pf G H Q (2 ^ d) Cw t in
  let p' := finish_alm tr d G H Q Cw t p in
  length G = 2 ^ d -> length H = 2 ^ d -> asks T p -> 1 <= length D -> incl (reach vals p') D ->
  at_most (3 * (T + (d + 2))) (length D) (wide_successes V p D) \/
  (exists B, good_beta B /\
    beta_paths B (fun cr be al path => exists xs, own_run V tr p' vals D (be :: al :: xs)
                    (fun pf => C_r pf = cr /\ path = proof_path (az_NoZK pf) xs)) /\
    match beta_extract t B with
    | Wit a b c => length a = 2 ^ d /\ length b = 2 ^ d /\ c = t /\ Cw = (comb a G + comb b H)%P /\ dotp a b = t
    | Rel g h q => nontrivial_relation (2 ^ d) G H Q g h q
    end).
Proof.
  intros V p' HG HH HT H1 HD. destruct (at_most_dec (3 * (T + (d + 2))) (length D) (wide_successes V p D)) as [Hle|Hgt]; [left; exact Hle|right].
  apply (C80_almzk_fiat_shamir ceq vals tr G H Q Cw t d p T D HN HG HH HT HD).
  apply (C92_fiat_shamir ceq ofZ HQ vals HN HA); auto.
Qed.

Corollary C99_qesa tr (G H : list Point) (Q : Point) n d Ms (p : prover (Inner * (word * word))) T D :
  let V := fun ro (o : Inner * (word * word)) => inner_verify ro tr (fst o) G H Q (mkBlockMatrix Ms) in
  let p' := finish_qesa tr n d G H Q Ms p in let m := min (length Ms) n in
  n = 2 ^ d -> 3 <= n -> length G = n -> length H = n -> 1 <= length Ms -> Forall (rect (n - 2) (n - 2)) Ms -> asks T p ->
  (forall ro, let '(pf, (w', u)) := run ro p in
     length w' = n /\ sc w' 0 = s1 /\ decompress (c_prime_w pf) = Some (comb w' G) /\
     length u = n /\ decompress (c_prime_prime_w pf) = Some (comb u H)) ->
  1 <= length D -> incl (reach vals p') D ->
  at_most (max (max 3 (n - 2)) m * (T + (5 + d))) (length D) (wide_successes V p D) \/
  (exists x c1 c2 T w' u g h q, x <> s0 /\ good_sb n T /\ qesa_own ceq fst V tr p' vals D x c1 c2 T /\
     (exists cs, own_run V tr p' vals D cs (fun o => c_prime_w (fst o) = c1 /\ fst (snd o) = w')) /\
     (exists cs, own_run V tr p' vals D cs (fun o => c_prime_prime_w (fst o) = c2 /\ snd (snd o) = u)) /\
     q_compare n Ms x T w' u = Some (g, h, q) /\ nontrivial_relation n G H Q g h q) \/
  (exists cs, own_run V tr p' vals D cs (fun o => forall t, t < m -> quad (nth t Ms []) (firstn (n - 2) (fst (snd o))) = s0)).
Proof.
  intros V p' m Hn H3 HG HH HM HF HT HO H1 HD.
  destruct (at_most_dec (max (max 3 (n - 2)) m * (T + (5 + d))) (length D) (wide_successes V p D)) as [Hle|Hgt]; [left; exact Hle|right].
  apply (C80_qesa_fiat_shamir ceq vals tr G H Q n d Ms p T D HN Hn H3 HG HH HM HF HT HO HD).
  apply (C92_fiat_shamir ceq ofZ HQ vals HN HA); auto.
Qed.

Corollary C99_copy tr (G H : list Point) (Q : Point) n d Ms (ws : N) (sets : list (list N)) mp
    (msgs : list word) (rs : word) (Cs : list Point) (p : prover (Copy * (word * word))) T D :
  let V := fun ro (o : Copy * (word * word)) => copy_verify ro tr (fst o) G H Q (mkBlockMatrix Ms) mp Cs in
  let p' := finish_copy tr n d G H Q Ms mp Cs p in
  let m := length Ms + length (unique_commitment_indices mp) in
  n = 2 ^ d -> 3 <= n -> (N.of_nat n < 65536)%N -> (ws < 65536)%N -> (N.of_nat (length sets) <= 65536)%N ->
  length G = n -> length H = n -> Forall (rect (n - 2) (n - 2)) Ms ->
  (forall s i, In s sets -> In i s -> 1 <= N.to_nat i < n - 2) -> Forall (@NoDup N) sets ->
  compute_mapping (N.of_nat n) ws sets = Ok mp -> m <= n -> length Cs = length sets ->
  (forall k, k < length sets -> commit G (nth k sets []) (nth k msgs []) (sc rs k) = Ok (pt Cs k)) ->
  asks T p ->
  (forall ro, let '(pf, (w', u)) := run ro p in
     length w' = n /\ sc w' 0 = s1 /\ decompress (cp_C_w pf) = Some (comb w' G) /\
     length u = n /\ decompress (c_prime_prime_w (cp_inner pf)) = Some (comb u H)) ->
  1 <= length D -> incl (reach vals p') D ->
  at_most (max (max 3 (n - 2)) (max m (2 * length sets)) * (T + (6 + d))) (length D) (wide_successes V p D) \/
  (exists a0 x cw c2 T w' u g h q, x <> s0 /\ good_sb n T /\ copy_own ceq V tr p' vals D a0 x cw c2 T /\
     (exists cs, own_run V tr p' vals D cs (fun o => cp_C_w (fst o) = cw /\ fst (snd o) = w')) /\
     (exists cs, own_run V tr p' vals D cs (fun o => c_prime_prime_w (cp_inner (fst o)) = c2 /\ snd (snd o) = u)) /\
     q_compare n (cp_system n mp a0 Ms) x T (cp_full n sets msgs rs w' a0) u = Some (g, h, q) /\
     nontrivial_relation n G H Q g h q) \/
  (exists cs, own_run V tr p' vals D cs (fun o => let w' := fst (snd o) in
     (forall M, In M Ms -> quad M (firstn (n - 2) w') = s0) /\
     (forall k j, k < length sets -> j < length (nth k sets []) ->
        exists mm, nth_error (msgs_map mp) (cm_offset sets k + j) = Some mm /\
          sc (nth k msgs []) j = sc w' (mpos mm)) /\
     (forall s i, In s sets -> In i s -> sc w' (N.to_nat i) = s0))).
Proof.
  intros V p' m Hn H3 Hn16 Hws HSz HG HH HF Hidx HND Emp Hm LC HCm HT HO H1 HD.
  destruct (at_most_dec (max (max 3 (n - 2)) (max m (2 * length sets)) * (T + (6 + d))) (length D) (wide_successes V p D)) as [Hle|Hgt]; [left; exact Hle|right].
  apply (C80_copy_fiat_shamir ceq vals tr G H Q n d Ms ws sets mp msgs rs Cs p T D HN Hn H3 Hn16 Hws HSz HG HH HF Hidx HND Emp Hm LC HCm HT HO HD).
  apply (C92_fiat_shamir ceq ofZ HQ vals HN HA); auto.
Qed.

(** linear maps: no witness for the first row, hence a small chance whatever the prover does *)
Corollary C99_lmpa tr d m (A : list (list Point)) (G H : list Point) (Q : Point) t (p : prover LmpaNoZK) T D :
  let V := fun ro pf => lmpa_verify ro tr pf A G H Q (2 ^ d) t in
  1 <= m -> rect m (2 ^ d) A -> (forall w, length w = 2 ^ d -> comb w (nth 0 A []) <> pt t 0) ->
  asks T p -> 1 <= length D -> incl (reach vals (then_ask p (lmpa_queries tr d))) D ->
  at_most (2 * (T + d)) (length D) (wide_successes V p D).
Proof.
  intros V Hm HR HF HT H1 HD. apply (C92_at_most ofZ HQ vals HN HA); auto.
  exact (C79_lmpa_any_prover ceq vals tr d m A G H Q t p T D HN Hm HR HF HT HD).
Qed.
Corollary C99_simplezk tr d m (A : list (list Point)) (G H : list Point) (Q : Point) t (p : prover SimpleZK) T D :
  let V := fun ro pf => simple_zk_verify ro tr pf A G H Q (2 ^ d) t in
  1 <= m -> rect m (2 ^ d) A -> (forall w, length w = 2 ^ d -> comb w (nth 0 A []) <> pt t 0) ->
  asks T p -> 1 <= length D -> incl (reach vals (then_ask p (simplezk_queries tr d))) D ->
  at_most (2 * (T + S d)) (length D) (wide_successes V p D).
Proof.
  intros V Hm HR HF HT H1 HD. apply (C92_at_most ofZ HQ vals HN HA); auto.
  exact (C79_simplezk_any_prover ceq vals tr d m A G H Q t p T D HN Hm HR HF HT HD).
Qed.

(** ** honest provers of the copy argument *)
Corollary C99_copy_failures (ros : word -> oracle) tr d (G H : list Point) (Q : Point) mp Ms (w : word)
    (sets : list (list N)) (openings : list (word * Scalar)) (Cs : list Point) K :
  let n := 2 ^ S (S d) in
  let msgs := concat (map fst openings) in
  (N.of_nat n < 65536)%N -> length G = n -> length H = n -> (N.of_nat (length sets) <= 65536)%N ->
  compute_mapping (N.of_nat n) (N.of_nat (length w)) sets = Ok mp ->
  (forall s i, In s sets -> In i s -> length w <= N.to_nat i < n - 2) ->
  length openings = length sets -> length Cs = length sets ->
  (forall k, k < length sets ->
     commit G (nth k sets []) (fst (nth k openings ([], s0))) (snd (nth k openings ([], s0))) = Ok (pt Cs k)) ->
  1 <= length w -> length w <= n - 2 -> sc w 0 = s1 -> 1 <= length Ms -> Forall (rect (n - 2) (n - 2)) Ms ->
  (forall alpha i, i < length Ms -> quad (nth i Ms []) (cp_witness n mp w msgs alpha) = s0) ->
  (forall alpha x s b al r0 r1,
     let cw := compress (lin (tab (n - 2) (cp_placed mp w msgs) ++ [r0; r1]) G) in
     ros [alpha; x; s; b; al] (cp_hist tr cw) = alpha /\
     answers (ros [alpha; x; s; b; al]) (cp_hist tr cw) n G H (cp_system n mp alpha Ms) (cp_witness n mp w msgs alpha)
       [r0; (r1 + cp_rand openings alpha)%S] x s b al) ->
  4 * S d + 10 <= K ->
  at_most (2 * n + 30) (5 + K)
    (wide_count (5 + K) (fun u => negb (copy_run_ok (ros (firstn 5 u)) (tape (skipn 5 u)) 0 tr G H Q mp Ms w openings Cs))).
Proof.
  intros n msgs B1 B2 B3 B4 B5 B6 B7 B8 B9 B10 B11 B12 B13 B14 B15 B16 B17. apply (C92_at_most ofZ HQ vals HN HA); [lia|].
  replace (5 + K - 1) with (K + 4) by lia. now apply (C74_copy_failures ros tr d G H Q mp Ms w sets openings Cs vals K).
Qed.

(** ** many proofs *)
(** the sessions of C83 with byte strings for every answer of the hash function and every draw *)
Definition wide_sessions (T P l : nat) (session : word -> list word -> bool) : nat :=
  let bytes := all_bytes 64 in
  list_sum (map (fun b => count (fun bs => session (reduced ofZ b) (map (reduced ofZ) bs)) (words (words bytes l) P)) (words bytes T)).

Fixpoint pieces {A} (l P : nat) (z : list A) : list (list A) :=
  match P with O => [] | S P => firstn l z :: pieces l P (skipn l z) end.
Lemma pieces_map {A B} (f : A -> B) l P : forall z, pieces l P (map f z) = map (map f) (pieces l P z).
Proof. induction P as [|P IH]; intros z; cbn; [reflexivity|]. now rewrite firstn_map, skipn_map, IH. Qed.
Lemma pieces_count {A} (vs : list A) l P : forall F, count F (words (words vs l) P) = count (fun z => F (pieces l P z)) (words vs (l * P)).
Proof.
  induction P as [|P IH]; intros F; [rewrite Nat.mul_0_r; unfold count; cbn; now destruct (F [])|].
  rewrite Nat.mul_succ_r, Nat.add_comm, count_words_app, count_words_S. f_equal. apply map_ext_in. intros u Hu. apply words_length in Hu.
  rewrite IH. apply count_ext. intros z _. cbn [pieces]. now rewrite firstn_exact, skipn_exact by auto.
Qed.
Lemma sessions_flat T P l session : exists F : word -> bool,
  sessions vals T P l session = count F (words vals (T + l * P)) /\
  wide_sessions T P l session = wide_count (T + l * P) F.
Proof.
  exists (fun z => session (firstn T z) (pieces l P (skipn T z))). split.
  - unfold sessions. rewrite count_words_app. f_equal. apply map_ext_in. intros u Hu. apply words_length in Hu.
    rewrite pieces_count. apply count_ext. intros z _. now rewrite firstn_exact, skipn_exact by auto.
  - unfold wide_sessions, PropBytes.wide_count, byte_count. rewrite count_words_app. f_equal. apply map_ext_in. intros u Hu. apply words_length in Hu.
    rewrite pieces_count. apply count_ext. intros z _. unfold reduced. rewrite firstn_map, skipn_map, firstn_exact, skipn_exact by auto.
    now rewrite pieces_map.
Qed.
Lemma sessions_differ T P l a s s' : 1 <= T + l * P ->
  sessions vals T P l s <= sessions vals T P l s' + 2 * (a * length vals ^ (T + l * P - 1)) ->
  sessions vals T P l s' <= sessions vals T P l s + 2 * (a * length vals ^ (T + l * P - 1)) ->
  differ_at_most (2 * a) (2 * (T + l * P)) (T + l * P) (wide_sessions T P l s) (wide_sessions T P l s').
Proof.
  intros H1 X1 X2. destruct (sessions_flat T P l s) as (F & E1 & E2), (sessions_flat T P l s') as (F' & E1' & E2').
  rewrite E2, E2'. rewrite E1, E1' in X1, X2. apply (C92_differ ofZ HQ vals HN HA); auto; rewrite <- Nat.mul_assoc; assumption.
Qed.

(** an observer who asks for P proofs of statements of its choice, with T queries, cannot tell
    which witnesses were used *)
Corollary C99_qesa_witnesses_hidden {I} d (g h : word) (q : Scalar) (B : Point)
    (tr : I -> transcript) (Ms : I -> list (list word)) (w w' : I -> word) (T P : nat) (c : client I Zk) :
  let n := 2 ^ S d in let K := 2 * d + 4 in
  2 <= d -> length g = n -> length h = n -> B <> p0 ->
  (sc g (n - 2)%nat * sc h (n - 2)%nat + sc g (n - 1)%nat * sc h (n - 1)%nat <> s0)%S -> zk_generators d h ->
  (forall i, 1 <= length (Ms i) /\ Forall (rect (n - 2) (n - 2)) (Ms i)) ->
  let honest := fun w : I -> word => forall i, length (w i) = n - 2 /\
     sc (w i) 0 = s1 /\ (forall j, j < length (Ms i) -> quad (nth j (Ms i) []) (w i) = s0) in
  honest w -> honest w' -> 1 <= P -> fits T P c ->
  let l := d + 6 + (2 + (K + K)) in
  let real := fun w : I -> word => wide_sessions T P l
    (real_session ceq tr (fun i ro rng => zk_create ro rng 0 (tr i) (mulB B g) (mulB B h) (q *: B)%P (mkBlockMatrix (Ms i)) (w i)) (d + 6) [] c) in
  let a := P * ((3 * d + 12) * ((8 * n + 2 * d + 1) * (4 * n * n) + 32 * n + d + 5) + 5 + (T + (d + 6) * P) + 1) in
  differ_at_most (2 * a) (2 * (T + l * P)) (T + l * P) (real w) (real w').
Proof.
  intros n K Hd Hg Hh HB Nd Zp HM honest HW HW' HP HF l real a.
  destruct (C83_qesa_many_witnesses_hidden ceq vals d g h q B tr Ms w w' T P c Hd Hg Hh HN HA HB Nd Zp HM HW HW' HF) as [X1 X2].
  apply sessions_differ; [unfold l; nia|exact X1|exact X2].
Qed.

Corollary C99_copy_witnesses_hidden {I} d (g h : word) (q : Scalar) (B : Point) (k : nat)
    (tr : I -> transcript) (mp : I -> Mapping) (Ms : I -> list (list word)) (w w' : I -> word) (sets : I -> list (list N))
    (openings openings' : I -> list (word * Scalar)) (Cs : I -> list Point) (T P : nat) (c : client I Copy) :
  let n := 2 ^ S d in let K := 2 * d + 4 in
  2 <= d -> (N.of_nat n < 65536)%N -> length g = n -> length h = n -> (N.of_nat k <= 65536)%N -> B <> p0 ->
  (sc g (n - 2)%nat * sc h (n - 2)%nat + sc g (n - 1)%nat * sc h (n - 1)%nat <> s0)%S -> zk_generators d h ->
  let honest := fun (w : I -> word) openings => forall i : I,
     length (sets i) <= k /\ compute_mapping (N.of_nat n) (N.of_nat (length (w i))) (sets i) = Ok (mp i) /\
     (forall s j, In s (sets i) -> In j s -> length (w i) <= N.to_nat j < n - 2) /\
     length (openings i) = length (sets i) /\ length (Cs i) = length (sets i) /\
     (forall j, j < length (sets i) ->
        commit (mulB B g) (nth j (sets i) []) (fst (nth j (openings i) ([], s0))) (snd (nth j (openings i) ([], s0))) = Ok (pt (Cs i) j)) /\
     1 <= length (w i) /\ length (w i) <= n - 2 /\ sc (w i) 0 = s1 /\ Forall (rect (n - 2) (n - 2)) (Ms i) /\
     (forall al j, j < length (Ms i) -> quad (nth j (Ms i) []) (cp_witness n (mp i) (w i) (concat (map fst (openings i))) al) = s0) in
  honest w openings -> honest w' openings' -> 1 <= P -> fits T P c ->
  let l := d + 7 + (2 + (K + K)) in
  let real := fun (w : I -> word) openings => wide_sessions T P l
    (real_session ceq tr (fun i ro rng => copy_create ro rng 0 (tr i) (mulB B g) (mulB B h) (q *: B)%P (mp i) (mkBlockMatrix (Ms i)) (w i) (openings i)) (d + 7) [] c) in
  let a := P * ((3 * d + 13) * ((8 * (n + k) + 2 * d + 1) * (4 * n * n) + 32 * (n + k) + d + 5) + 6 + (T + (d + 7) * P) + 1) in
  differ_at_most (2 * a) (2 * (T + l * P)) (T + l * P) (real w openings) (real w' openings').
Proof.
  intros n K Hd Hn16 Hg Hh HK HB Nd Zp honest HW HW' HP HF l real a.
  destruct (C83_copy_many_witnesses_hidden ceq vals d g h q B k tr mp Ms w w' sets openings openings' Cs T P c Hd Hn16 Hg Hh HK HN HA HB Nd Zp HW HW' HF) as [X1 X2].
  apply sessions_differ; [unfold l; nia|exact X1|exact X2].
Qed.

Corollary C99_simplezk_witnesses_hidden {I} d (G H : list Point) (Q : Point)
    (tr : I -> transcript) (m : I -> nat) (A : I -> list (list Point)) (w w' : I -> word) (T P : nat) (c : client I SimpleZK) :
  let n := 2 ^ d in
  length G = n ->
  (forall i, 1 <= m i /\ rect (m i) n (A i) /\ exists j, j < n /\ pt (nth 0 (A i) []) j <> p0) ->
  (forall i, length (w i) = n /\ length (w' i) = n /\ pmv (A i) (w i) = pmv (A i) (w' i)) -> 1 <= P -> fits T P c ->
  let l := d + 1 + n in
  let real := fun w : I -> word => wide_sessions T P l (real_session ceq tr (fun i ro rng => sz_create ro rng (tr i) (A i) G H Q (w i)) (d + 1) [] c) in
  differ_at_most (2 * (P * (T + (d + 1) * P))) (2 * (T + l * P)) (T + l * P) (real w) (real w').
Proof.
  intros n HG HM HW HP HF l real.
  destruct (C84_simple_zk_witnesses_hidden ceq vals d G H Q tr m A w w' T P c HG HN HA HM HW HF) as [X1 X2].
  apply sessions_differ; [unfold l; nia|exact X1|exact X2].
Qed.

(** the almost zero-knowledge argument: one proof, with two witnesses of one statement *)
Corollary C99_almzk_witness_hidden {St} tr d (g h : word) (q : Scalar) (B : Point) (a b a' b' cs0 u0 cs0' u0' : word)
    (T1 T2 : nat) (ask : prover St) (judge : St -> AlmZK -> prover bool) :
  let n := 2 ^ S d in let K := 2 * d + 4 in
  let G := mulB B g in let H := mulB B h in let Q := (q *: B)%P in
  2 <= d -> length g = n -> length h = n -> length a = n -> length b = n -> length a' = n -> length b' = n ->
  B <> p0 -> dotp a a <> s0 -> dotp b b <> s0 -> dotp a' a' <> s0 -> dotp b' b' <> s0 ->
  length cs0 = d + 3 -> length u0 = K -> zk_point d h a b q cs0 u0 ->
  length cs0' = d + 3 -> length u0' = K -> zk_point d h a' b' q cs0' u0' ->
  (comb a G + comb b H = comb a' G + comb b' H)%P -> dotp a b = dotp a' b' -> asks T1 ask ->
  let real := fun a b => wide_plays ofZ T1 T2 (d + 3) (K + K)
    (real_game ceq tr (fun ro rng => alm_zk_create ro rng 0 tr G H Q (comb a G + comb b H)%P a b (dotp a b)) ask judge) in
  let N := T1 + (T2 + (d + 3 + (K + K))) in
  differ_at_most (2 * (2 * ((3 * d + 7) * ((2 * d + 1) * (4 * n * n) + d + 5) + T1))) (2 * N) N (real a b) (real a' b').
Proof.
  intros n K G H Q Hd Hg Hh Ha Hb Ha' Hb' HB N1 N2 N3 N4 Lc Lu Z Lc' Lu' Z' EC Et HT real N.
  assert (X := C89_almzk_witness_hidden ceq vals tr d g h q B a b a' b' cs0 u0 cs0' u0' T1 T2 ask judge
    Hd Hg Hh Ha Hb Ha' Hb' HN HA HB N1 N2 N3 N4 Lc Lu Z Lc' Lu' Z' EC Et HT).
  cbv zeta in X. fold n K in X. fold G H Q in X.
  set (e := (3 * d + 7) * ((2 * d + 1) * (4 * n * n) + d + 5) + T1) in *.
  assert (EN : d + 3 + (K + K) + T1 + T2 - 1 = N - 1) by (unfold N; lia). rewrite EN in X.
  unfold real.
  destruct (plays_flat ofZ vals T1 T2 (d + 3) (K + K)
    (real_game ceq tr (fun ro rng => alm_zk_create ro rng 0 tr G H Q (comb a G + comb b H)%P a b (dotp a b)) ask judge)) as (F & E1 & E2).
  destruct (plays_flat ofZ vals T1 T2 (d + 3) (K + K)
    (real_game ceq tr (fun ro rng => alm_zk_create ro rng 0 tr G H Q (comb a' G + comb b' H)%P a' b' (dotp a' b')) ask judge)) as (F' & E1' & E2').
  rewrite E2, E2'. rewrite E1, E1' in X. fold N in X |- *. destruct X as [X1 X2].
  apply (C92_differ ofZ HQ vals HN HA); [unfold N; lia| |]; rewrite <- !Nat.mul_assoc in *; assumption.
Qed.
End Any.

(** ** cases, over the scalars of Ristretto *)
Definition rN (z : Z) : @Scalar (RC 1) := fp ell z.
Definition rP (z : Z) : @Point (RC 1) := vtab ell 1 (fun _ => fp ell z).
Definition r_ceq : @encodings_comparable (RC 1) := list_eq_dec Z.eq_dec.

(** a matrix of zeros and the target -3: any prover with T queries convinces the verifier with
    probability at most 2(T+1)/ell + |D|/2^259 *)
Example C99_case_lmpa (vals : list (@Scalar (RC 1))) (HN : NoDup vals) (HA : forall x, In x vals) (p : @prover (RC 1) LmpaNoZK) T D :
  asks T p -> 1 <= length D -> incl (reach vals (then_ask p (lmpa_queries [] 1))) D ->
  at_most (2 * (T + 1)) (length D)
    (wide_successes r_ceq (fp ell) (fun ro pf => lmpa_verify ro [] pf [[rP 0; rP 0]] [] [] (rP 1) 2 [rP (-3)]) p D).
Proof.
  intros HT H1 HD.
  refine (@C99_lmpa (RC 1) (RC_laws 1) r_ceq (fp ell) (proj1 (C92_numbering 1)) vals HN HA [] 1 1 [[rP 0; rP 0]] [] [] (rP 1) [rP (-3)] p T D _ _ _ HT H1 HD).
  - lia.
  - split; [reflexivity|repeat constructor].
  - intros w Hw E. destruct w as [|x [|y [|]]]; try discriminate. unfold comb in E. cbn [length sum_P nth] in E.
    change (pt [rP (-3)] 0) with (rP (-3)) in E. unfold pt, sc in E. cbn [nth] in E.
    change (rP 0) with (@p0 (RC 1)) in E. rewrite !(@pmul_0_r (RC 1) (RC_laws 1)), !(@padd_0_l (RC 1) (RC_laws 1)) in E.
    apply (f_equal (fun P => match @compress (RC 1) P with z :: _ => z | _ => 0%Z end)) in E. vm_compute in E. discriminate.
Qed.

(** one row (B, 2B): the witnesses (3, 4) and (1, 5) in any number of proofs *)
Example C99_case_hidden (vals : list (@Scalar (RC 1))) (HN : NoDup vals) (HA : forall x, In x vals) (B : @Point (RC 1))
    (T P : nat) (c : client transcript SimpleZK) : B <> p0 -> 1 <= P -> fits T P c ->
  let real := fun w => wide_sessions (C := RC 1) (fp ell) T P 4
    (real_session r_ceq (fun tr => tr) (fun tr ro rng => sz_create ro rng tr [mulB B [rN 1; rN 2]] [rP 5; rP 7] [] (rP 1) w) 2 [] c) in
  differ_at_most (2 * (P * (T + 2 * P))) (2 * (T + 4 * P)) (T + 4 * P) (real [rN 3; rN 4]) (real [rN 1; rN 5]).
Proof.
  intros HB HP HF real.
  refine (@C99_simplezk_witnesses_hidden (RC 1) (RC_laws 1) r_ceq (fp ell) (proj1 (C92_numbering 1)) vals HN HA transcript 1 [rP 5; rP 7] [] (rP 1)
    (fun tr => tr) (fun _ => 1) (fun _ => [mulB B [rN 1; rN 2]]) (fun _ => [rN 3; rN 4]) (fun _ => [rN 1; rN 5]) T P c eq_refl _ _ HP HF).
  - intros _. split; [lia|]. split; [split; [reflexivity|repeat constructor]|]. exists 0. split; [cbn; lia|].
    cbn [nth]. intros Z. rewrite (@pt_mulB (RC 1) (RC_laws 1)) in Z. apply (@pmul_eq_0 (RC 1) (RC_laws 1)) in Z as [Z|Z]; [|contradiction].
    apply (f_equal (val ell)) in Z. vm_compute in Z. discriminate.
  - intros _. split; [reflexivity|]. split; [reflexivity|]. unfold pmv. cbn [map].
    rewrite <- !(@lin_comb (RC 1) (RC_laws 1)) by reflexivity. rewrite !(@lin_mulB (RC 1) (RC_laws 1)) by reflexivity.
    do 2 f_equal.
Qed.
