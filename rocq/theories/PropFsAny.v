(** C93: the extractors of C90 and the discrete-logarithm solvers of C91 for every prover. Nothing
    is assumed about which queries it makes, and the lists L and R of its proofs may have different
    lengths: the extractor runs the prover followed by the completion of C80, which asks the
    challenges of the proof and makes it well-formed. *)
From Coq Require Import String.
From Verif Require Export PropShort PropFsDlog.
From Verif Require Import PropMalleable Poly KaryFacts CopyFacts PropMapping PropCopy PropCopySound Ex ExSmall.
Local Open Scope nat_scope.
Local Open Scope list_scope.

Section C93.
Context {C : Crypto} {L : CryptoLaws C} (ceq : @encodings_comparable C).
Notation word := (list Scalar).
Notation table := (table ceq).

(** ** the completed provers meet the premises of C90 *)
Lemma nozk_finished vals tr (G H : list Point) (Q P : Point) (t : Scalar) d (p : prover NoZK) T D :
  let V := fun ro pf => no_zk_verify ro tr pf G H Q (2 ^ d) P t in
  let p' := finish_nozk tr d G H Q p in
  length G = 2 ^ d -> length H = 2 ^ d -> asks T p -> incl (reach vals p') D ->
  asks (T + S d) p' /\ (forall ro, length (R_vec (run ro p')) = length (L_vec (run ro p'))) /\
  asks_challenges ceq V tr p' vals D /\ successes ceq V p vals D <= successes ceq V p' vals D.
Proof.
  intros V p' HG HH HT HD. split; [|split; [|split]].
  - apply asks_pbind; auto. apply asks_complete.
  - intros ro. unfold p', finish_nozk. rewrite run_pbind. apply complete_shape.
  - apply finish_asks; auto. intros ro pf b tr' E. rewrite complete_asked. apply C50_ipa_layout in E as (_ & -> & _).
    eexists. split; [reflexivity|]. intros h Hh. exact Hh.
  - apply finish_successes. intros ro pf tr' E. apply C80_complete in E as (_ & _ & _ & _ & _ & E & _); eauto.
Qed.
Lemma alm_finished vals tr (G H : list Point) (Q Cw : Point) (t : Scalar) d (p : prover AlmZK) T D :
  let V := fun ro pf => alm_zk_verify ro tr pf G H Q (2 ^ d) Cw t in
  let p' := finish_alm tr d G H Q Cw t p in
  length G = 2 ^ d -> length H = 2 ^ d -> asks T p -> incl (reach vals p') D ->
  asks (T + (d + 2)) p' /\ (forall ro, length (R_vec (az_NoZK (run ro p'))) = length (L_vec (az_NoZK (run ro p')))) /\
  asks_challenges ceq V tr p' vals D /\ successes ceq V p vals D <= successes ceq V p' vals D.
Proof.
  intros V p' HG HH HT HD. split; [|split; [|split]].
  - apply asks_pbind; auto. intros pf. rewrite Nat.add_comm. apply asks_complete_alm.
  - intros ro. unfold p', finish_alm. rewrite run_pbind. apply complete_alm_shape.
  - apply finish_asks; auto. intros ro pf. apply complete_alm_covers.
  - apply finish_successes. intros ro pf tr' E. eapply complete_alm_accepted; eauto.
Qed.
Lemma inner_finished vals tr (G H : list Point) (Q : Point) n d Ms (p : prover Inner) T D :
  let V := fun ro pf => inner_verify ro tr pf G H Q (mkBlockMatrix Ms) in
  let p' := finish_inner tr n d G H Q Ms p in
  n = 2 ^ d -> 3 <= n -> length G = n -> length H = n -> 1 <= length Ms -> Forall (rect (n - 2) (n - 2)) Ms ->
  asks T p -> incl (reach vals p') D ->
  asks (T + (5 + d)) p' /\
  (forall ro, length (R_vec (az_NoZK (alm_zk (run ro p')))) = length (L_vec (az_NoZK (alm_zk (run ro p'))))) /\
  asks_challenges ceq V tr p' vals D /\ successes ceq V p vals D <= successes ceq V p' vals D.
Proof.
  intros V p' Hd Hn HG HH HM HF HT HD. split; [|split; [|split]].
  - apply asks_pbind; auto. intros pf. apply asks_complete_inner.
  - intros ro. unfold p', finish_inner. rewrite run_pbind. apply complete_inner_shape.
  - apply finish_asks; auto. intros ro pf. now apply complete_inner_covers.
  - apply finish_successes. intros ro pf tr' E. eapply complete_inner_accepted; eauto.
Qed.
(** the completion does not touch the openings, and accepted outputs stay accepted *)
Lemma qesa_opening tr n d G H Q Ms (p : prover (Inner * (word * word))) ro : snd (run ro (finish_qesa tr n d G H Q Ms p)) = snd (run ro p).
Proof. unfold finish_qesa. now rewrite run_pbind, run_on_fst. Qed.
Lemma copy_opening tr n d G H Q Ms mp Cs (p : prover (Copy * (word * word))) ro : snd (run ro (finish_copy tr n d G H Q Ms mp Cs p)) = snd (run ro p).
Proof. unfold finish_copy. now rewrite run_pbind, run_on_fst. Qed.
Lemma qesa_finished vals tr (G H : list Point) (Q : Point) n d Ms (p : prover (Inner * (word * word))) T D (bad : word * word -> bool) :
  let V := fun ro (o : Inner * (word * word)) => inner_verify ro tr (fst o) G H Q (mkBlockMatrix Ms) in
  let p' := finish_qesa tr n d G H Q Ms p in
  n = 2 ^ d -> 3 <= n -> length G = n -> length H = n -> 1 <= length Ms -> Forall (rect (n - 2) (n - 2)) Ms ->
  asks T p ->
  (forall ro, let '(pf, (w', u)) := run ro p in
     length w' = n /\ sc w' 0 = s1 /\ decompress (c_prime_w pf) = Some (comb w' G) /\
     length u = n /\ decompress (c_prime_prime_w pf) = Some (comb u H)) ->
  incl (reach vals p') D ->
  asks (T + (5 + d)) p' /\
  (forall ro, let '(pf, (w', u)) := run ro p' in
     length (R_vec (az_NoZK (alm_zk pf))) = length (L_vec (az_NoZK (alm_zk pf))) /\
     length w' = n /\ sc w' 0 = s1 /\ decompress (c_prime_w pf) = Some (comb w' G) /\
     length u = n /\ decompress (c_prime_prime_w pf) = Some (comb u H)) /\
  asks_challenges ceq V tr p' vals D /\ successes ceq V p vals D <= successes ceq V p' vals D /\
  cheats ceq V (fun o => bad (snd o)) p vals D <= cheats ceq V (fun o => bad (snd o)) p' vals D.
Proof.
  intros V p' Hd Hn HG HH HM HF HT HO HD.
  assert (HS : forall ro o tr', V ro o = Ok (true, tr') -> exists tr'', V ro (run ro (on_fst (complete_inner tr n d G H Q Ms) o)) = Ok (true, tr'')).
  { intros ro o tr' E. unfold V. rewrite run_on_fst. cbn [fst]. eapply complete_inner_accepted; eauto. }
  split; [|split; [|split; [|split]]].
  - apply asks_pbind; auto. intros o. apply asks_on_fst. apply asks_complete_inner.
  - intros ro. unfold p', finish_qesa. rewrite run_pbind, run_on_fst. generalize (HO ro). destruct (run ro p) as [pf [w' u]]. cbn [fst snd].
    destruct (complete_inner_shape ro tr n d G H Q Ms pf) as (S1 & S2 & S3). rewrite S2, S3. intros Z. split; [exact S1|exact Z].
  - apply finish_asks; auto. intros ro o.
    apply (covers_on_fst (fun ro pf => inner_verify ro tr pf G H Q (mkBlockMatrix Ms)) tr ro (complete_inner tr n d G H Q Ms) o).
    now apply complete_inner_covers.
  - apply finish_successes. exact HS.
  - unfold cheats. apply count_le. intros w _. unfold p'. rewrite qesa_opening. intros HB. apply andb_true_iff in HB as [H1 ->].
    rewrite andb_true_r. unfold finish_qesa. rewrite run_pbind. revert H1.
    destruct (V (table D w) (run (table D w) p)) as [[[|] tr']| |] eqn:E; cbn; try discriminate. intros _.
    destruct (HS _ _ _ E) as [tr'' E']. now rewrite E'.
Qed.
Lemma copy_finished vals tr (G H : list Point) (Q : Point) n d Ms (ws : N) (sets : list (list N)) mp
    (Cs : list Point) (p : prover (Copy * (word * word))) T D (bad : word * word -> bool) :
  let V := fun ro (o : Copy * (word * word)) => copy_verify ro tr (fst o) G H Q (mkBlockMatrix Ms) mp Cs in
  let p' := finish_copy tr n d G H Q Ms mp Cs p in
  n = 2 ^ d -> 3 <= n -> (N.of_nat n < 65536)%N -> (ws < 65536)%N -> (N.of_nat (length sets) <= 65536)%N ->
  length G = n -> length H = n -> Forall (rect (n - 2) (n - 2)) Ms ->
  (forall s i, In s sets -> In i s -> 1 <= N.to_nat i < n - 2) ->
  compute_mapping (N.of_nat n) ws sets = Ok mp -> length Cs = length sets ->
  asks T p ->
  (forall ro, let '(pf, (w', u)) := run ro p in
     length w' = n /\ sc w' 0 = s1 /\ decompress (cp_C_w pf) = Some (comb w' G) /\
     length u = n /\ decompress (c_prime_prime_w (cp_inner pf)) = Some (comb u H)) ->
  incl (reach vals p') D ->
  asks (T + (6 + d)) p' /\
  (forall ro, let '(pf, (w', u)) := run ro p' in
     length (R_vec (az_NoZK (alm_zk (cp_inner pf)))) = length (L_vec (az_NoZK (alm_zk (cp_inner pf)))) /\
     length w' = n /\ sc w' 0 = s1 /\ decompress (cp_C_w pf) = Some (comb w' G) /\
     length u = n /\ decompress (c_prime_prime_w (cp_inner pf)) = Some (comb u H)) /\
  asks_challenges ceq V tr p' vals D /\ successes ceq V p vals D <= successes ceq V p' vals D /\
  cheats ceq V (fun o => bad (snd o)) p vals D <= cheats ceq V (fun o => bad (snd o)) p' vals D.
Proof.
  intros V p' Hd Hn Hn16 Hws HSz HG HH HF Hidx Emp LC HT HO HD.
  destruct (compute_mapping_good n ws sets mp Hn16 Hws Emp HSz) as (HMap & _ & _).
  { intros s i Hs Hi. apply (Hidx s i Hs Hi). }
  assert (HT1 : 1 <= cm_total sets) by (apply compute_mapping_inv in Emp as (_ & HT' & _); exact HT').
  assert (HS1 : 1 <= length Cs) by (rewrite LC; destruct sets; [cbn in HT1; lia|cbn; lia]).
  assert (HM : 1 <= length Ms + length (msgs_map mp)).
  { destruct (C29_metadata _ _ sets _ ltac:(lia) Emp) as (_ & Z & _). rewrite Z. lia. }
  rewrite <- LC in HMap.
  assert (HS : forall ro o tr', V ro o = Ok (true, tr') -> exists tr'', V ro (run ro (on_fst (complete_copy tr n d G H Q Ms mp Cs) o)) = Ok (true, tr'')).
  { intros ro o tr' E. unfold V. rewrite run_on_fst. cbn [fst]. eapply complete_copy_accepted; eauto. }
  split; [|split; [|split; [|split]]].
  - apply asks_pbind; auto. intros o. apply asks_on_fst. apply asks_complete_copy.
  - intros ro. unfold p', finish_copy. rewrite run_pbind, run_on_fst. generalize (HO ro). destruct (run ro p) as [pf [w' u]]. cbn [fst snd].
    destruct (complete_copy_shape ro tr n d G H Q Ms mp Cs pf) as (S1 & S2 & S3). rewrite S2, S3. intros Z. split; [exact S1|exact Z].
  - apply finish_asks; auto. intros ro o.
    apply (covers_on_fst (fun ro pf => copy_verify ro tr pf G H Q (mkBlockMatrix Ms) mp Cs) tr ro (complete_copy tr n d G H Q Ms mp Cs) o).
    now apply complete_copy_covers.
  - apply finish_successes. exact HS.
  - unfold cheats. apply count_le. intros w _. unfold p'. rewrite copy_opening. intros HB. apply andb_true_iff in HB as [H1 ->].
    rewrite andb_true_r. unfold finish_copy. rewrite run_pbind.
    destruct (V (table D w) (run (table D w) p)) as [[[|] tr']| |] eqn:E; unfold yes in H1; try discriminate.
    destruct (HS _ _ _ E) as [tr'' E']. unfold yes. rewrite E'. reflexivity.
Qed.

(** ** extractors *)
Theorem C93_nozk_extractor vals tr (G H : list Point) (Q P : Point) (t : Scalar) d (p : prover NoZK) T D :
  let V := fun ro pf => no_zk_verify ro tr pf G H Q (2 ^ d) P t in
  let p' := finish_nozk tr d G H Q p in
  let E := nozk_fs_extractor ceq vals tr G H Q d P t p' D in
  let q := length vals in let N := length D in let K := 3 * 4 ^ d in let T' := T + S d in
  NoDup vals -> length G = 2 ^ d -> length H = 2 ^ d -> asks T p -> incl (reach vals p') D ->
  (forall w e, In w (words vals N) -> fst (E w) = Some e ->
     match e with
     | Wit a b c => length a = 2 ^ d /\ length b = 2 ^ d /\ c = t /\
                    P = (comb a G + comb b H + t *: Q)%P /\ dotp a b = t
     | Rel g h q => nontrivial_relation (2 ^ d) G H Q g h q
     end) /\
  successes ceq V p vals D <= count (fun w => found (E w)) (words vals N) + (2 + 3 * d) * T' * q ^ (N - 1) /\
  total (fun w => snd (E w)) (words vals N) <= (K + T' * (K - 1)) * q ^ N.
Proof.
  intros V p' E q N K T' HN HG HH HT HD. destruct (nozk_finished vals tr G H Q P t d p T D HG HH HT HD) as (F1 & F2 & F3 & F4).
  destruct (C90_nozk_extractor ceq vals tr G H Q P t d p' T' D HN HG HH F1 F2 F3) as (X1 & X2 & X3).
  split; [exact X1|]. split; [etransitivity; [exact F4|exact X2]|exact X3].
Qed.
Theorem C93_almzk_extractor vals tr (G H : list Point) (Q Cw : Point) (t : Scalar) d (p : prover AlmZK) T D :
  let V := fun ro pf => alm_zk_verify ro tr pf G H Q (2 ^ d) Cw t in
  let p' := finish_alm tr d G H Q Cw t p in
  let E := almzk_fs_extractor ceq vals tr G H Q d Cw t p' D in
  let q := length vals in let N := length D in let K := 9 * 4 ^ d in let T' := T + (d + 2) in
  NoDup vals -> length G = 2 ^ d -> length H = 2 ^ d -> asks T p -> incl (reach vals p') D ->
  (forall w e, In w (words vals N) -> fst (E w) = Some e ->
     match e with
     | Wit a b c => length a = 2 ^ d /\ length b = 2 ^ d /\ c = t /\ Cw = (comb a G + comb b H)%P /\ dotp a b = t
     | Rel g h q => nontrivial_relation (2 ^ d) G H Q g h q
     end) /\
  successes ceq V p vals D <= count (fun w => found (E w)) (words vals N) + (4 + 3 * d) * T' * q ^ (N - 1) /\
  total (fun w => snd (E w)) (words vals N) <= (K + T' * (K - 1)) * q ^ N.
Proof.
  intros V p' E q N K T' HN HG HH HT HD. destruct (alm_finished vals tr G H Q Cw t d p T D HG HH HT HD) as (F1 & F2 & F3 & F4).
  destruct (C90_almzk_extractor ceq vals tr G H Q Cw t d p' T' D HN HG HH F1 F2 F3) as (X1 & X2 & X3).
  split; [exact X1|]. split; [etransitivity; [exact F4|exact X2]|exact X3].
Qed.
Theorem C93_qesa_batched_extractor vals tr (G H : list Point) (Q : Point) n d Ms (p : prover Inner) T D :
  let V := fun ro pf => inner_verify ro tr pf G H Q (mkBlockMatrix Ms) in
  let p' := finish_inner tr n d G H Q Ms p in
  let E := qesa_batched_fs_extractor ceq vals tr G H Q n d Ms p' D in
  let q := length vals in let N := length D in let K := 54 * n ^ 3 in let T' := T + (5 + d) in
  NoDup vals -> n = 2 ^ d -> 3 <= n -> length G = n -> length H = n -> 1 <= length Ms -> Forall (rect (n - 2) (n - 2)) Ms ->
  asks T p -> incl (reach vals p') D ->
  (forall w x e, In w (words vals N) -> fst (E w) = Some (x, e) -> x <> s0 /\
     match e with
     | Wit v u _ => exists cs pf, own_run ceq V tr p' vals D (x :: cs) (fun pf' => pf' = pf) /\
       c_prime_w pf = c_prime_w (run (table D w) p) /\
       length v = n /\ length u = n /\ (dec (c_prime_w pf) + dec (c_prime_prime_w pf))%P = (comb v G + comb u H)%P /\
       let y := set_first (s1 + x * x * (sc v 0 - s1))%S v in
       u = mv n (q_gamma' n (q_gamma n Ms x)) y /\
       sum_S (min (length Ms) n) (fun t => spow x (S t) * quad (nth t Ms []) (firstn (n - 2) y))%S = s0
     | Rel g h q => nontrivial_relation n G H Q g h q
     end) /\
  successes ceq V p vals D <= count (fun w => found (E w)) (words vals N) + (n + 5 + 3 * d) * T' * q ^ (N - 1) /\
  total (fun w => snd (E w)) (words vals N) <= (K + T' * (K - 1)) * q ^ N.
Proof.
  intros V p' E q N K T' HN Hd Hn HG HH HM HF HT HD.
  destruct (inner_finished vals tr G H Q n d Ms p T D Hd Hn HG HH HM HF HT HD) as (F1 & F2 & F3 & F4).
  destruct (C90_qesa_batched_extractor ceq vals tr G H Q n d Ms p' T' D HN Hd Hn HG HH HM HF F1 F2 F3) as (X1 & X2 & X3).
  split; [|split; [etransitivity; [exact F4|exact X2]|exact X3]].
  assert (Z : forall ro, c_prime_w (run ro p') = c_prime_w (run ro p)).
  { intros ro. unfold p', finish_inner. rewrite run_pbind. apply complete_inner_shape. }
  intros w x e Hw He. specialize (X1 w x e Hw He). rewrite Z in X1. exact X1.
Qed.
Theorem C93_qesa_extractor vals tr (G H : list Point) (Q : Point) n d Ms (p : prover (Inner * (word * word))) T D :
  let V := fun ro (o : Inner * (word * word)) => inner_verify ro tr (fst o) G H Q (mkBlockMatrix Ms) in
  let m := min (length Ms) n in
  let p' := finish_qesa tr n d G H Q Ms p in
  let E := qesa_fs_extractor ceq vals tr G H Q n d Ms p' D in
  let q := length vals in let N := length D in let K := 27 * S m * n ^ 3 in let T' := T + (5 + d) in
  NoDup vals -> n = 2 ^ d -> 3 <= n -> length G = n -> length H = n -> 1 <= length Ms -> Forall (rect (n - 2) (n - 2)) Ms ->
  asks T p ->
  (forall ro, let '(pf, (w', u)) := run ro p in
     length w' = n /\ sc w' 0 = s1 /\ decompress (c_prime_w pf) = Some (comb w' G) /\
     length u = n /\ decompress (c_prime_prime_w pf) = Some (comb u H)) ->
  incl (reach vals p') D ->
  (forall w e, In w (words vals N) -> fst (E w) = Some e ->
     match e with
     | Some (g, h, q) => nontrivial_relation n G H Q g h q
     | None => forall t, t < m -> quad (nth t Ms []) (firstn (n - 2) (fst (snd (run (table D w) p)))) = s0
     end) /\
  successes ceq V p vals D <= count (fun w => found (E w)) (words vals N) + (m + n + 4 + 3 * d) * T' * q ^ (N - 1) /\
  total (fun w => snd (E w)) (words vals N) <= (K + T' * (K - 1)) * q ^ N.
Proof.
  intros V m p' E q N K T' HN Hd Hn HG HH HM HF HT HO HD.
  destruct (qesa_finished vals tr G H Q n d Ms p T D (fun _ => true) Hd Hn HG HH HM HF HT HO HD) as (F1 & F2 & F3 & F4 & _).
  destruct (C90_qesa_extractor ceq vals tr G H Q n d Ms p' T' D HN Hd Hn HG HH HM HF F1 F2 F3) as (X1 & X2 & X3).
  split; [|split; [etransitivity; [exact F4|exact X2]|exact X3]].
  intros w e Hw He. specialize (X1 w e Hw He). unfold p' in X1. rewrite qesa_opening in X1. exact X1.
Qed.
Theorem C93_copy_extractor vals tr (G H : list Point) (Q : Point) n d Ms (ws : N) (sets : list (list N)) mp
    (msgs : list word) (rs : word) (Cs : list Point) (p : prover (Copy * (word * word))) T D :
  let V := fun ro (o : Copy * (word * word)) => copy_verify ro tr (fst o) G H Q (mkBlockMatrix Ms) mp Cs in
  let m := length Ms + length (unique_commitment_indices mp) in
  let p' := finish_copy tr n d G H Q Ms mp Cs p in
  let E := copy_fs_extractor ceq vals tr G H Q n d Ms sets mp msgs rs Cs p' D in
  let q := length vals in let N := length D in let K := 27 * S (2 * length sets) * S m * n ^ 3 in let T' := T + (6 + d) in
  NoDup vals -> n = 2 ^ d ->
  3 <= n -> (N.of_nat n < 65536)%N -> (ws < 65536)%N -> (N.of_nat (length sets) <= 65536)%N ->
  length G = n -> length H = n -> Forall (rect (n - 2) (n - 2)) Ms ->
  (forall s i, In s sets -> In i s -> 1 <= N.to_nat i < n - 2) -> Forall (@NoDup BinNums.N) sets ->
  compute_mapping (N.of_nat n) ws sets = Ok mp -> m <= n ->
  length Cs = length sets ->
  (forall k, k < length sets -> commit G (nth k sets []) (nth k msgs []) (sc rs k) = Ok (pt Cs k)) ->
  asks T p ->
  (forall ro, let '(pf, (w', u)) := run ro p in
     length w' = n /\ sc w' 0 = s1 /\ decompress (cp_C_w pf) = Some (comb w' G) /\
     length u = n /\ decompress (c_prime_prime_w (cp_inner pf)) = Some (comb u H)) ->
  incl (reach vals p') D ->
  (forall w e, In w (words vals N) -> fst (E w) = Some e ->
     match e with
     | Some (g, h, q) => nontrivial_relation n G H Q g h q
     | None => let w' := fst (snd (run (table D w) p)) in
       (forall M, In M Ms -> quad M (firstn (n - 2) w') = s0) /\
       (forall k j, k < length sets -> j < length (nth k sets []) ->
          exists mm, nth_error (msgs_map mp) (cm_offset sets k + j) = Some mm /\
            sc (nth k msgs []) j = sc w' (mpos mm)) /\
       (forall s i, In s sets -> In i s -> sc w' (N.to_nat i) = s0)
     end) /\
  successes ceq V p vals D <= count (fun w => found (E w)) (words vals N) + (2 * length sets + m + n + 4 + 3 * d) * T' * q ^ (N - 1) /\
  total (fun w => snd (E w)) (words vals N) <= (K + T' * (K - 1)) * q ^ N.
Proof.
  intros V m p' E q N K T' HN Hd Hn Hn16 Hws HSz HG HH HF Hidx HND Emp Hm LC HCm HT HO HD.
  destruct (copy_finished vals tr G H Q n d Ms ws sets mp Cs p T D (fun _ => true) Hd Hn Hn16 Hws HSz HG HH HF Hidx Emp LC HT HO HD) as (F1 & F2 & F3 & F4 & _).
  destruct (C90_copy_extractor ceq vals tr G H Q n d Ms ws sets mp msgs rs Cs p' T' D HN Hd Hn Hn16 Hws HSz HG HH HF Hidx HND Emp Hm LC HCm F1 F2 F3) as (X1 & X2 & X3).
  split; [|split; [etransitivity; [exact F4|exact X2]|exact X3]].
  intros w e Hw He. specialize (X1 w e Hw He). unfold p' in X1. rewrite copy_opening in X1. exact X1.
Qed.

(** ** discrete logarithms *)
Theorem C93_nozk_dlog vals tr d (B X : Point) (x : Scalar) (P : list Point -> Point) (t : list Point -> Scalar)
    (p : list Point -> prover NoZK) T (D : list Point -> list transcript) M :
  let n := 2 ^ d in let N := 2 * n + 1 in let q := length vals in let K := 3 * 4 ^ d in let T' := T + S d in
  let V := fun gs ro pf => no_zk_verify ro tr pf (gG n gs) (gH n gs) (gQ n gs) n (P gs) (t gs) in
  let p' := fun gs => finish_nozk tr d (gG n gs) (gH n gs) (gQ n gs) (p gs) in
  let E := fun gs => nozk_fs_extractor ceq vals tr (gG n gs) (gH n gs) (gQ n gs) d (P gs) (t gs) (p' gs) (D gs) in
  let W := words vals M in
  NoDup vals -> (forall v, In v vals) -> X = (x *: B)%P ->
  (forall gs, length gs = N -> length (D gs) = M /\ asks T (p gs) /\ incl (reach vals (p' gs)) (D gs)) ->
  total2 vals N (fun r s => let gs := gens B X N r s in successes ceq (V gs) (p gs) vals (D gs)) <=
    total2 vals N (fun r s => count (wins E rel_of (gens B X N r s)) W) +
    total2 vals N (fun r s => count (solves E rel_of B X N r s) W) +
    q ^ M * (q ^ N * q ^ (N - 1)) + q ^ N * q ^ N * ((2 + 3 * d) * T' * q ^ (M - 1)) /\
  total2 vals N (fun r s => total (fun o => snd (E (gens B X N r s) o)) W) <= q ^ N * q ^ N * ((K + T' * (K - 1)) * q ^ M) /\
  (forall gs w, length gs = N -> In w W -> wins E rel_of gs w = true -> exists a b, length a = n /\ length b = n /\
     P gs = (comb a (gG n gs) + comb b (gH n gs) + t gs *: gQ n gs)%P /\ dotp a b = t gs).
Proof.
  intros n N q K T' V p' E W HN HA HX HP.
  assert (HF : forall gs, length gs = N -> _) by (intros gs Hgs; destruct (HP gs Hgs) as (_ & H1 & H2);
    exact (nozk_finished vals tr (gG n gs) (gH n gs) (gQ n gs) (P gs) (t gs) d (p gs) T (D gs) (gG_length n gs Hgs) (gH_length n gs Hgs) H1 H2)).
  cbv zeta in HF.
  destruct (C91_nozk_dlog ceq vals tr d B X x P t p' T' D M HN HA HX) as (X1 & X2 & X3).
  { intros gs Hgs. split; [now apply HP|]. destruct (HF gs Hgs) as (F1 & F2 & F3 & _). auto. }
  split; [|split; [exact X2|exact X3]]. etransitivity; [|exact X1]. apply total2_le. intros r s. cbv zeta.
  now apply (HF _ (gens_length B X N r s)).
Qed.
Theorem C93_almzk_dlog vals tr d (B X : Point) (x : Scalar) (Cw : list Point -> Point) (t : list Point -> Scalar)
    (p : list Point -> prover AlmZK) T (D : list Point -> list transcript) M :
  let n := 2 ^ d in let N := 2 * n + 1 in let q := length vals in let K := 9 * 4 ^ d in let T' := T + (d + 2) in
  let V := fun gs ro pf => alm_zk_verify ro tr pf (gG n gs) (gH n gs) (gQ n gs) n (Cw gs) (t gs) in
  let p' := fun gs => finish_alm tr d (gG n gs) (gH n gs) (gQ n gs) (Cw gs) (t gs) (p gs) in
  let E := fun gs => almzk_fs_extractor ceq vals tr (gG n gs) (gH n gs) (gQ n gs) d (Cw gs) (t gs) (p' gs) (D gs) in
  let W := words vals M in
  NoDup vals -> (forall v, In v vals) -> X = (x *: B)%P ->
  (forall gs, length gs = N -> length (D gs) = M /\ asks T (p gs) /\ incl (reach vals (p' gs)) (D gs)) ->
  total2 vals N (fun r s => let gs := gens B X N r s in successes ceq (V gs) (p gs) vals (D gs)) <=
    total2 vals N (fun r s => count (wins E rel_of (gens B X N r s)) W) +
    total2 vals N (fun r s => count (solves E rel_of B X N r s) W) +
    q ^ M * (q ^ N * q ^ (N - 1)) + q ^ N * q ^ N * ((4 + 3 * d) * T' * q ^ (M - 1)) /\
  total2 vals N (fun r s => total (fun o => snd (E (gens B X N r s) o)) W) <= q ^ N * q ^ N * ((K + T' * (K - 1)) * q ^ M) /\
  (forall gs w, length gs = N -> In w W -> wins E rel_of gs w = true -> exists a b, length a = n /\ length b = n /\
     Cw gs = (comb a (gG n gs) + comb b (gH n gs))%P /\ dotp a b = t gs).
Proof.
  intros n N q K T' V p' E W HN HA HX HP.
  assert (HF : forall gs, length gs = N -> _) by (intros gs Hgs; destruct (HP gs Hgs) as (_ & H1 & H2);
    exact (alm_finished vals tr (gG n gs) (gH n gs) (gQ n gs) (Cw gs) (t gs) d (p gs) T (D gs) (gG_length n gs Hgs) (gH_length n gs Hgs) H1 H2)).
  cbv zeta in HF.
  destruct (C91_almzk_dlog ceq vals tr d B X x Cw t p' T' D M HN HA HX) as (X1 & X2 & X3).
  { intros gs Hgs. split; [now apply HP|]. destruct (HF gs Hgs) as (F1 & F2 & F3 & _). auto. }
  split; [|split; [exact X2|exact X3]]. etransitivity; [|exact X1]. apply total2_le. intros r s. cbv zeta.
  now apply (HF _ (gens_length B X N r s)).
Qed.

Theorem C93_qesa_dlog vals tr d (B X : Point) (x : Scalar) Ms (p : list Point -> prover (Inner * (word * word))) T
    (D : list Point -> list transcript) M (bad : word * word -> bool) :
  let n := 2 ^ d in let N := 2 * n + 1 in let m := min (length Ms) n in let q := length vals in let K := 27 * S m * n ^ 3 in
  let T' := T + (5 + d) in
  let V := fun gs ro (o : Inner * (word * word)) => inner_verify ro tr (fst o) (gG n gs) (gH n gs) (gQ n gs) (mkBlockMatrix Ms) in
  let p' := fun gs => finish_qesa tr n d (gG n gs) (gH n gs) (gQ n gs) Ms (p gs) in
  let E := fun gs => qesa_fs_extractor ceq vals tr (gG n gs) (gH n gs) (gQ n gs) n d Ms (p' gs) (D gs) in
  let W := words vals M in
  NoDup vals -> (forall v, In v vals) -> X = (x *: B)%P -> 3 <= n -> 1 <= length Ms -> Forall (rect (n - 2) (n - 2)) Ms ->
  (forall o, bad o = true -> exists t, t < m /\ quad (nth t Ms []) (firstn (n - 2) (fst o)) <> s0) ->
  (forall gs, length gs = N -> length (D gs) = M /\ asks T (p gs) /\
     (forall ro, let '(pf, (w', u)) := run ro (p gs) in
        length w' = n /\ sc w' 0 = s1 /\ decompress (c_prime_w pf) = Some (comb w' (gG n gs)) /\
        length u = n /\ decompress (c_prime_prime_w pf) = Some (comb u (gH n gs))) /\
     incl (reach vals (p' gs)) (D gs)) ->
  total2 vals N (fun r s => let gs := gens B X N r s in cheats ceq (V gs) (fun o => bad (snd o)) (p gs) vals (D gs)) <=
    total2 vals N (fun r s => count (solves E rel_opt B X N r s) W) +
    q ^ M * (q ^ N * q ^ (N - 1)) + q ^ N * q ^ N * ((m + n + 4 + 3 * d) * T' * q ^ (M - 1)) /\
  total2 vals N (fun r s => total (fun o => snd (E (gens B X N r s) o)) W) <= q ^ N * q ^ N * ((K + T' * (K - 1)) * q ^ M).
Proof.
  intros n N m q K T' V p' E W HN HA HX Hn HM HR HB HP.
  assert (HF : forall gs, length gs = N -> _) by (intros gs Hgs; destruct (HP gs Hgs) as (_ & H1 & H2 & H3);
    exact (qesa_finished vals tr (gG n gs) (gH n gs) (gQ n gs) n d Ms (p gs) T (D gs) bad eq_refl Hn (gG_length n gs Hgs) (gH_length n gs Hgs) HM HR H1 H2 H3)).
  cbv zeta in HF.
  destruct (C91_qesa_dlog ceq vals tr d B X x Ms p' T' D M (fun o => bad (snd o)) HN HA HX Hn HM HR) as (X1 & X2).
  { intros o Ho. now apply HB. }
  { intros gs Hgs. split; [now apply HP|]. destruct (HF gs Hgs) as (F1 & F2 & F3 & _). auto. }
  split; [|exact X2]. etransitivity; [|exact X1]. apply total2_le. intros r s. cbv zeta.
  now apply (HF _ (gens_length B X N r s)).
Qed.
Theorem C93_copy_dlog vals tr d (B X : Point) (x : Scalar) Ms (ws : N) (sets : list (list N)) mp
    (msgs : list Point -> list word) (rs : list Point -> word) (Cs : list Point -> list Point)
    (p : list Point -> prover (Copy * (word * word))) T (D : list Point -> list transcript) M (bad : list Point -> word * word -> bool) :
  let n := 2 ^ d in let N := 2 * n + 1 in let m := length Ms + length (unique_commitment_indices mp) in
  let q := length vals in let K := 27 * S (2 * length sets) * S m * n ^ 3 in let T' := T + (6 + d) in
  let V := fun gs ro (o : Copy * (word * word)) => copy_verify ro tr (fst o) (gG n gs) (gH n gs) (gQ n gs) (mkBlockMatrix Ms) mp (Cs gs) in
  let p' := fun gs => finish_copy tr n d (gG n gs) (gH n gs) (gQ n gs) Ms mp (Cs gs) (p gs) in
  let E := fun gs => copy_fs_extractor ceq vals tr (gG n gs) (gH n gs) (gQ n gs) n d Ms sets mp (msgs gs) (rs gs) (Cs gs) (p' gs) (D gs) in
  let W := words vals M in
  NoDup vals -> (forall v, In v vals) -> X = (x *: B)%P ->
  3 <= n -> (N.of_nat n < 65536)%N -> (ws < 65536)%N -> (N.of_nat (length sets) <= 65536)%N ->
  Forall (rect (n - 2) (n - 2)) Ms ->
  (forall s i, In s sets -> In i s -> 1 <= N.to_nat i < n - 2) -> Forall (@NoDup BinNums.N) sets ->
  compute_mapping (N.of_nat n) ws sets = Ok mp -> m <= n ->
  (forall gs o, bad gs o = true -> let w' := fst o in
     ~ ((forall M, In M Ms -> quad M (firstn (n - 2) w') = s0) /\
        (forall k j, k < length sets -> j < length (nth k sets []) ->
           exists mm, nth_error (msgs_map mp) (cm_offset sets k + j) = Some mm /\
             sc (nth k (msgs gs) []) j = sc w' (mpos mm)) /\
        (forall s i, In s sets -> In i s -> sc w' (N.to_nat i) = s0))) ->
  (forall gs, length gs = N -> length (D gs) = M /\ asks T (p gs) /\ length (Cs gs) = length sets /\
     (forall k, k < length sets -> commit (gG n gs) (nth k sets []) (nth k (msgs gs) []) (sc (rs gs) k) = Ok (pt (Cs gs) k)) /\
     (forall ro, let '(pf, (w', u)) := run ro (p gs) in
        length w' = n /\ sc w' 0 = s1 /\ decompress (cp_C_w pf) = Some (comb w' (gG n gs)) /\
        length u = n /\ decompress (c_prime_prime_w (cp_inner pf)) = Some (comb u (gH n gs))) /\
     incl (reach vals (p' gs)) (D gs)) ->
  total2 vals N (fun r s => let gs := gens B X N r s in cheats ceq (V gs) (fun o => bad gs (snd o)) (p gs) vals (D gs)) <=
    total2 vals N (fun r s => count (solves E rel_opt B X N r s) W) +
    q ^ M * (q ^ N * q ^ (N - 1)) + q ^ N * q ^ N * ((2 * length sets + m + n + 4 + 3 * d) * T' * q ^ (M - 1)) /\
  total2 vals N (fun r s => total (fun o => snd (E (gens B X N r s) o)) W) <= q ^ N * q ^ N * ((K + T' * (K - 1)) * q ^ M).
Proof.
  intros n N m q K T' V p' E W HN HA HX Hn Hn2 Hws Hsets HR Hidx Hnd Hmp Hm HB HP.
  assert (HF : forall gs, length gs = N -> _) by (intros gs Hgs; destruct (HP gs Hgs) as (_ & H1 & V1 & _ & H2 & H3);
    exact (copy_finished vals tr (gG n gs) (gH n gs) (gQ n gs) n d Ms ws sets mp (Cs gs) (p gs) T (D gs) (bad gs) eq_refl Hn Hn2 Hws Hsets
      (gG_length n gs Hgs) (gH_length n gs Hgs) HR Hidx Hmp V1 H1 H2 H3)).
  cbv zeta in HF.
  destruct (C91_copy_dlog ceq vals tr d B X x Ms ws sets mp msgs rs Cs p' T' D M (fun gs o => bad gs (snd o)) HN HA HX Hn Hn2 Hws Hsets HR Hidx Hnd Hmp Hm) as (X1 & X2).
  { intros gs o Ho. now apply (HB gs (snd o)). }
  { intros gs Hgs. destruct (HP gs Hgs) as (ED & _ & V1 & V2 & _). destruct (HF gs Hgs) as (F1 & F2 & F3 & _). exact (conj ED (conj F1 (conj V1 (conj V2 (conj F2 F3))))). }
  split; [|exact X2]. etransitivity; [|exact X1]. apply total2_le. intros r s. cbv zeta.
  now apply (HF _ (gens_length B X N r s)).
Qed.
End C93.

(** the short proof of C80_case, sent without a single query: n = 2, no L, one unused R. The prover's
    own runs ask nothing, so C90 does not apply to it; run with the completion, the extractor
    finds the witness (3, 0), (6, 0) of P = 3 G_0 + 6 H_0 + 18 Q *)
Definition p93 : @prover FS NoZK := finish_nozk [] 1 [qN 5; qN 11] [qN 2; qN 7] (qN 17) (Done short80).
Definition E93 D := nozk_fs_extractor fs_ceq (v75 4) [] [qN 5; qN 11] [qN 2; qN 7] (qN 17) 1 P80 (fN 18) p93 D.
Definition D93 := reach (v75 4) p93.
Example C93_case_nozk :
  length D93 = 5 /\
  match E93 D93 (map fN [1; 2; 3; 4; 2]%Z) with
  | (Some (Wit a b c), 12) => map zf a = [3; 0]%Z /\ map zf b = [6; 0]%Z /\ zf c = 18%Z
  | _ => False end /\
  count (fun w => found (E93 D93 w)) (map (fun w => w ++ repeat (fN 2) 3) (words (v75 4) 2)) = 16.
Proof. vm_compute. repeat split; auto. Qed.
(** the theorem bounds the runs of all 4 ^ 5 tables: 34 on average *)
Example C93_case_runs : total (fun w => snd (E93 D93 w)) (words (v75 4) 5) <= 34 * 4 ^ 5.
Proof.
  apply (@C93_nozk_extractor FS FS_laws fs_ceq (v75 4) [] [qN 5; qN 11] [qN 2; qN 7] (qN 17) P80 (fN 18) 1 (Done short80) 0 D93);
    [|reflexivity|reflexivity|exact I|intros h Hh; exact Hh].
  apply (NoDup_map_inv zf). vm_compute. repeat constructor; cbn; intuition discriminate.
Qed.
