(** C91: hashed challenges and random generators together. The generators are random combinations
    of two points B and X; a prover that sees them makes T queries to the hash function and outputs
    a proof. Counted over all generators and all tables of answers: if its proof is accepted more
    often than the soundness error, running the extractor of C90 gives a witness or the discrete
    logarithm of X to the base B. *)
From Coq Require Import String.
From Verif Require Export PropFsExtract PropDlog.
From Verif Require Import PropMalleable Poly KaryFacts CopyFacts PropMapping PropCopy PropCopySound Ex ExSmall.
Local Open Scope nat_scope.
Local Open Scope list_scope.

Section C91.
Context {C : Crypto} {L : CryptoLaws C} (ceq : @encodings_comparable C).
Notation word := (list Scalar).
Notation table := (table ceq).

Theorem C91_nozk_dlog vals tr d (B X : Point) (x : Scalar) (P : list Point -> Point) (t : list Point -> Scalar)
    (p : list Point -> prover NoZK) T (D : list Point -> list transcript) M :
  let n := 2 ^ d in let N := 2 * n + 1 in let q := length vals in let K := 3 * 4 ^ d in
  let V := fun gs ro pf => no_zk_verify ro tr pf (gG n gs) (gH n gs) (gQ n gs) n (P gs) (t gs) in
  let E := fun gs => nozk_fs_extractor ceq vals tr (gG n gs) (gH n gs) (gQ n gs) d (P gs) (t gs) (p gs) (D gs) in
  let W := words vals M in
  NoDup vals -> (forall v, In v vals) -> X = (x *: B)%P ->
  (forall gs, length gs = N -> length (D gs) = M /\ asks T (p gs) /\
     (forall ro, length (R_vec (run ro (p gs))) = length (L_vec (run ro (p gs)))) /\ asks_challenges ceq (V gs) tr (p gs) vals (D gs)) ->
  total2 vals N (fun r s => let gs := gens B X N r s in successes ceq (V gs) (p gs) vals (D gs)) <=
    total2 vals N (fun r s => count (wins E rel_of (gens B X N r s)) W) +
    total2 vals N (fun r s => count (solves E rel_of B X N r s) W) +
    q ^ M * (q ^ N * q ^ (N - 1)) + q ^ N * q ^ N * ((2 + 3 * d) * T * q ^ (M - 1)) /\
  total2 vals N (fun r s => total (fun o => snd (E (gens B X N r s) o)) W) <= q ^ N * q ^ N * ((K + T * (K - 1)) * q ^ M) /\
  (forall gs w, length gs = N -> In w W -> wins E rel_of gs w = true -> exists a b, length a = n /\ length b = n /\
     P gs = (comb a (gG n gs) + comb b (gH n gs) + t gs *: gQ n gs)%P /\ dotp a b = t gs).
Proof.
  intros n N q K V E W HN HA HX HP.
  assert (X0 : length W = q ^ M) by apply words_count.
  assert (HE : forall gs, length gs = N -> _) by (intros gs Hgs; destruct (HP gs Hgs) as (ED & H1 & H2 & H3);
    exact (conj ED (C90_nozk_extractor ceq vals tr (gG n gs) (gH n gs) (gQ n gs) (P gs) (t gs) d (p gs) T (D gs) HN (gG_length n gs Hgs) (gH_length n gs Hgs) H1 H2 H3))).
  cbv zeta in HE. rewrite <- and_assoc. split.
  - apply (extract_or_solve E rel_of vals B X x N (fun gs => successes ceq (V gs) (p gs) vals (D gs)) W); auto.
    intros gs Hgs. destruct (HE gs Hgs) as (ED & H1 & H2 & H3). rewrite ED in H1, H2, H3. split; [|split; [exact H2|exact H3]].
    intros w [a b c|g h r] cc Hw Ee Er; [discriminate|]. injection Er as <-. apply nontrivial_is_relation; auto. exact (H1 w _ Hw Ee).
  - intros gs w Hgs Hw. unfold wins. destruct (HE gs Hgs) as (ED & H1 & _). rewrite ED in H1. specialize (H1 w). fold (E gs) in H1.
    destruct (fst (E gs w)) as [[a b c|g h r]|]; try discriminate. intros _. destruct (H1 _ Hw eq_refl) as (La & Lb & -> & Hp & Hd). exists a, b. auto.
Qed.

Theorem C91_almzk_dlog vals tr d (B X : Point) (x : Scalar) (Cw : list Point -> Point) (t : list Point -> Scalar)
    (p : list Point -> prover AlmZK) T (D : list Point -> list transcript) M :
  let n := 2 ^ d in let N := 2 * n + 1 in let q := length vals in let K := 9 * 4 ^ d in
  let V := fun gs ro pf => alm_zk_verify ro tr pf (gG n gs) (gH n gs) (gQ n gs) n (Cw gs) (t gs) in
  let E := fun gs => almzk_fs_extractor ceq vals tr (gG n gs) (gH n gs) (gQ n gs) d (Cw gs) (t gs) (p gs) (D gs) in
  let W := words vals M in
  NoDup vals -> (forall v, In v vals) -> X = (x *: B)%P ->
  (forall gs, length gs = N -> length (D gs) = M /\ asks T (p gs) /\
     (forall ro, length (R_vec (az_NoZK (run ro (p gs)))) = length (L_vec (az_NoZK (run ro (p gs))))) /\
     asks_challenges ceq (V gs) tr (p gs) vals (D gs)) ->
  total2 vals N (fun r s => let gs := gens B X N r s in successes ceq (V gs) (p gs) vals (D gs)) <=
    total2 vals N (fun r s => count (wins E rel_of (gens B X N r s)) W) +
    total2 vals N (fun r s => count (solves E rel_of B X N r s) W) +
    q ^ M * (q ^ N * q ^ (N - 1)) + q ^ N * q ^ N * ((4 + 3 * d) * T * q ^ (M - 1)) /\
  total2 vals N (fun r s => total (fun o => snd (E (gens B X N r s) o)) W) <= q ^ N * q ^ N * ((K + T * (K - 1)) * q ^ M) /\
  (forall gs w, length gs = N -> In w W -> wins E rel_of gs w = true -> exists a b, length a = n /\ length b = n /\
     Cw gs = (comb a (gG n gs) + comb b (gH n gs))%P /\ dotp a b = t gs).
Proof.
  intros n N q K V E W HN HA HX HP.
  assert (X0 : length W = q ^ M) by apply words_count.
  assert (HE : forall gs, length gs = N -> _) by (intros gs Hgs; destruct (HP gs Hgs) as (ED & H1 & H2 & H3);
    exact (conj ED (C90_almzk_extractor ceq vals tr (gG n gs) (gH n gs) (gQ n gs) (Cw gs) (t gs) d (p gs) T (D gs) HN (gG_length n gs Hgs) (gH_length n gs Hgs) H1 H2 H3))).
  cbv zeta in HE. rewrite <- and_assoc. split.
  - apply (extract_or_solve E rel_of vals B X x N (fun gs => successes ceq (V gs) (p gs) vals (D gs)) W); auto.
    intros gs Hgs. destruct (HE gs Hgs) as (ED & H1 & H2 & H3). rewrite ED in H1, H2, H3. split; [|split; [exact H2|exact H3]].
    intros w [a b c|g h r] cc Hw Ee Er; [discriminate|]. injection Er as <-. apply nontrivial_is_relation; auto. exact (H1 w _ Hw Ee).
  - intros gs w Hgs Hw. unfold wins. destruct (HE gs Hgs) as (ED & H1 & _). rewrite ED in H1. specialize (H1 w). fold (E gs) in H1.
    destruct (fst (E gs w)) as [[a b c|g h r]|]; try discriminate. intros _. destruct (H1 _ Hw eq_refl) as (La & Lb & -> & Hp & Hd). exists a, b. auto.
Qed.

(** ** Outputs that are accepted although the opening violates the statement *)
(** number of tables for which the proof is accepted and the output is in the set [bad] *)
Definition cheats {X} (V : oracle -> X -> res (bool * transcript)) (bad : X -> bool) (p : prover X) (vals : word) (D : list transcript) : nat :=
  count (fun w => yes (V (table D w) (run (table D w) p)) && bad (run (table D w) p)) (words vals (length D)).

Lemma cheats_break {Y O} (E : O -> option Y * nat) (brk acc bad : O -> bool) os err :
  count acc os <= count (fun o => found (E o)) os + err ->
  (forall o, In o os -> found (E o) = true -> acc o = true) ->
  (forall o, In o os -> found (E o) = true -> bad o = true -> brk o = true) ->
  count (fun o => acc o && bad o) os <= count brk os + err.
Proof.
  intros H1 H2 H3.
  assert (E1 : count acc os = count (fun o => found (E o)) os + count (fun o => acc o && negb (found (E o))) os).
  { clear H1 H3. induction os as [|o os IH]; [reflexivity|]. rewrite !count_cons. rewrite IH by (intros o' Ho; apply H2; now right).
    specialize (H2 o (or_introl eq_refl)). destruct (found (E o)); [rewrite H2 by auto|destruct (acc o)]; cbn [andb negb]; lia. }
  assert (E2 : count (fun o => acc o && bad o) os <= count brk os + count (fun o => acc o && negb (found (E o))) os).
  { etransitivity; [|apply count_or]. apply count_le. intros o Ho HB. apply andb_true_iff in HB as [A1 A2].
    destruct (found (E o)) eqn:F; [rewrite (H3 o Ho F A2); reflexivity|]. rewrite A1. apply orb_true_r. }
  lia.
Qed.
Lemma fs_found_yes {X Y} V tr (p : prover X) vals D ks (f : ttree Scalar -> Y) w :
  found (after f (fs_rewind ceq V tr p vals D ks w)) = true -> yes (V (table D w) (run (table D w) p)) = true.
Proof.
  rewrite after_found. intros HF. apply found_path in HF as [pa HF]. unfold chal_path in HF. unfold yes.
  destruct (V (table D w) (run (table D w) p)) as [[[|] tr']| |]; try discriminate. reflexivity.
Qed.

Theorem C91_qesa_dlog vals tr d (B X : Point) (x : Scalar) Ms (p : list Point -> prover (Inner * (word * word))) T
    (D : list Point -> list transcript) M (bad : Inner * (word * word) -> bool) :
  let n := 2 ^ d in let N := 2 * n + 1 in let m := min (length Ms) n in let q := length vals in let K := 27 * S m * n ^ 3 in
  let V := fun gs ro (o : Inner * (word * word)) => inner_verify ro tr (fst o) (gG n gs) (gH n gs) (gQ n gs) (mkBlockMatrix Ms) in
  let E := fun gs => qesa_fs_extractor ceq vals tr (gG n gs) (gH n gs) (gQ n gs) n d Ms (p gs) (D gs) in
  let W := words vals M in
  NoDup vals -> (forall v, In v vals) -> X = (x *: B)%P -> 3 <= n -> 1 <= length Ms -> Forall (rect (n - 2) (n - 2)) Ms ->
  (forall o, bad o = true -> exists t, t < m /\ quad (nth t Ms []) (firstn (n - 2) (fst (snd o))) <> s0) ->
  (forall gs, length gs = N -> length (D gs) = M /\ asks T (p gs) /\
     (forall ro, let '(pf, (w', u)) := run ro (p gs) in
        length (R_vec (az_NoZK (alm_zk pf))) = length (L_vec (az_NoZK (alm_zk pf))) /\
        length w' = n /\ sc w' 0 = s1 /\ decompress (c_prime_w pf) = Some (comb w' (gG n gs)) /\
        length u = n /\ decompress (c_prime_prime_w pf) = Some (comb u (gH n gs))) /\
     asks_challenges ceq (V gs) tr (p gs) vals (D gs)) ->
  total2 vals N (fun r s => let gs := gens B X N r s in cheats (V gs) bad (p gs) vals (D gs)) <=
    total2 vals N (fun r s => count (solves E rel_opt B X N r s) W) +
    q ^ M * (q ^ N * q ^ (N - 1)) + q ^ N * q ^ N * ((m + n + 4 + 3 * d) * T * q ^ (M - 1)) /\
  total2 vals N (fun r s => total (fun o => snd (E (gens B X N r s) o)) W) <= q ^ N * q ^ N * ((K + T * (K - 1)) * q ^ M).
Proof.
  intros n N m q K V E W HN HA HX Hn HM HR HB HP.
  assert (X0 : length W = q ^ M) by apply words_count.
  assert (HE : forall gs, length gs = N -> _) by (intros gs Hgs; destruct (HP gs Hgs) as (ED & H1 & H2 & H3);
    exact (conj ED (C90_qesa_extractor ceq vals tr (gG n gs) (gH n gs) (gQ n gs) n d Ms (p gs) T (D gs) HN eq_refl Hn
      (gG_length n gs Hgs) (gH_length n gs Hgs) HM HR H1 H2 H3))).
  cbv zeta in HE. split.
  - etransitivity; [apply (total2_le _ _ _ (fun r s => count (breaks E rel_opt (gens B X N r s)) W + (m + n + 4 + 3 * d) * T * q ^ (M - 1)))|].
    { intros r s. cbv zeta. assert (Hgs := gens_length B X N r s). set (gs := gens B X N r s) in *.
      destruct (HE gs Hgs) as (ED & H1 & H2 & _). rewrite ED in H1, H2. unfold cheats. rewrite ED. fold W in H1, H2 |- *.
      apply (cheats_break (E gs) _ (fun w => yes (V gs (table (D gs) w) (run (table (D gs) w) (p gs)))) (fun w => bad (run (table (D gs) w) (p gs)))).
      - unfold successes in H2. rewrite ED in H2. exact H2.
      - intros w _ HF. eapply fs_found_yes. exact HF.
      - intros w Hw HF Hb. unfold breaks. specialize (H1 w). fold (E gs) in H1. unfold found in HF.
        destruct (fst (E gs w)) as [[[[g h] r']|]|]; [reflexivity| |discriminate]. exfalso. specialize (H1 _ Hw eq_refl). cbv beta iota in H1.
        destruct (HB _ Hb) as (t & Ht & Hq). exact (Hq (H1 t Ht)). }
    rewrite total2_add, total2_const, (Nat.mul_assoc (length vals ^ N)). apply Nat.add_le_mono_r.
    apply (relations_solve E rel_opt vals B X x); auto.
    intros gs Hgs w [[[g h] r]|] cc Hw Ee Er; [|discriminate]. injection Er as <-. apply nontrivial_is_relation; auto.
    destruct (HE gs Hgs) as (ED & H1 & _). rewrite ED in H1. exact (H1 w _ Hw Ee).
  - etransitivity; [apply (total2_le _ _ _ (fun _ _ => (K + T * (K - 1)) * q ^ M))|rewrite total2_const; unfold q; lia].
    intros r s. destruct (HE _ (gens_length B X N r s)) as (ED & _ & _ & H3). rewrite ED in H3. exact H3.
Qed.

Theorem C91_copy_dlog vals tr d (B X : Point) (x : Scalar) Ms (ws : N) (sets : list (list N)) mp
    (msgs : list Point -> list word) (rs : list Point -> word) (Cs : list Point -> list Point)
    (p : list Point -> prover (Copy * (word * word))) T (D : list Point -> list transcript) M (bad : list Point -> Copy * (word * word) -> bool) :
  let n := 2 ^ d in let N := 2 * n + 1 in let m := length Ms + length (unique_commitment_indices mp) in
  let q := length vals in let K := 27 * S (2 * length sets) * S m * n ^ 3 in
  let V := fun gs ro (o : Copy * (word * word)) => copy_verify ro tr (fst o) (gG n gs) (gH n gs) (gQ n gs) (mkBlockMatrix Ms) mp (Cs gs) in
  let E := fun gs => copy_fs_extractor ceq vals tr (gG n gs) (gH n gs) (gQ n gs) n d Ms sets mp (msgs gs) (rs gs) (Cs gs) (p gs) (D gs) in
  let W := words vals M in
  NoDup vals -> (forall v, In v vals) -> X = (x *: B)%P ->
  3 <= n -> (N.of_nat n < 65536)%N -> (ws < 65536)%N -> (N.of_nat (length sets) <= 65536)%N ->
  Forall (rect (n - 2) (n - 2)) Ms ->
  (forall s i, In s sets -> In i s -> 1 <= N.to_nat i < n - 2) -> Forall (@NoDup BinNums.N) sets ->
  compute_mapping (N.of_nat n) ws sets = Ok mp -> m <= n ->
  (forall gs o, bad gs o = true -> let w' := fst (snd o) in
     ~ ((forall M, In M Ms -> quad M (firstn (n - 2) w') = s0) /\
        (forall k j, k < length sets -> j < length (nth k sets []) ->
           exists mm, nth_error (msgs_map mp) (cm_offset sets k + j) = Some mm /\
             sc (nth k (msgs gs) []) j = sc w' (mpos mm)) /\
        (forall s i, In s sets -> In i s -> sc w' (N.to_nat i) = s0))) ->
  (forall gs, length gs = N -> length (D gs) = M /\ asks T (p gs) /\ length (Cs gs) = length sets /\
     (forall k, k < length sets -> commit (gG n gs) (nth k sets []) (nth k (msgs gs) []) (sc (rs gs) k) = Ok (pt (Cs gs) k)) /\
     (forall ro, let '(pf, (w', u)) := run ro (p gs) in
        length (R_vec (az_NoZK (alm_zk (cp_inner pf)))) = length (L_vec (az_NoZK (alm_zk (cp_inner pf)))) /\
        length w' = n /\ sc w' 0 = s1 /\ decompress (cp_C_w pf) = Some (comb w' (gG n gs)) /\
        length u = n /\ decompress (c_prime_prime_w (cp_inner pf)) = Some (comb u (gH n gs))) /\
     asks_challenges ceq (V gs) tr (p gs) vals (D gs)) ->
  total2 vals N (fun r s => let gs := gens B X N r s in cheats (V gs) (bad gs) (p gs) vals (D gs)) <=
    total2 vals N (fun r s => count (solves E rel_opt B X N r s) W) +
    q ^ M * (q ^ N * q ^ (N - 1)) + q ^ N * q ^ N * ((2 * length sets + m + n + 4 + 3 * d) * T * q ^ (M - 1)) /\
  total2 vals N (fun r s => total (fun o => snd (E (gens B X N r s) o)) W) <= q ^ N * q ^ N * ((K + T * (K - 1)) * q ^ M).
Proof.
  intros n N m q K V E W HN HA HX Hn Hn2 Hws Hsets HR Hidx Hnd Hmp Hm HB HP.
  assert (X0 : length W = q ^ M) by apply words_count.
  assert (HE : forall gs, length gs = N -> _) by (intros gs Hgs; destruct (HP gs Hgs) as (ED & H1 & V1 & V2 & H2 & H3);
    exact (conj ED (C90_copy_extractor ceq vals tr (gG n gs) (gH n gs) (gQ n gs) n d Ms ws sets mp (msgs gs) (rs gs) (Cs gs) (p gs) T (D gs)
      HN eq_refl Hn Hn2 Hws Hsets (gG_length n gs Hgs) (gH_length n gs Hgs) HR Hidx Hnd Hmp Hm V1 V2 H1 H2 H3))).
  cbv zeta in HE. split.
  - etransitivity; [apply (total2_le _ _ _ (fun r s => count (breaks E rel_opt (gens B X N r s)) W + (2 * length sets + m + n + 4 + 3 * d) * T * q ^ (M - 1)))|].
    { intros r s. cbv zeta. assert (Hgs := gens_length B X N r s). set (gs := gens B X N r s) in *.
      destruct (HE gs Hgs) as (ED & H1 & H2 & _). rewrite ED in H1, H2. unfold cheats. rewrite ED. fold W in H1, H2 |- *.
      apply (cheats_break (E gs) _ (fun w => yes (V gs (table (D gs) w) (run (table (D gs) w) (p gs)))) (fun w => bad gs (run (table (D gs) w) (p gs)))).
      - unfold successes in H2. rewrite ED in H2. exact H2.
      - intros w _ HF. eapply fs_found_yes. exact HF.
      - intros w Hw HF Hb. unfold breaks. specialize (H1 w). fold (E gs) in H1. unfold found in HF.
        destruct (fst (E gs w)) as [[[[g h] r']|]|]; [reflexivity| |discriminate]. exfalso. specialize (H1 _ Hw eq_refl). cbv beta iota in H1.
        exact (HB gs _ Hb H1). }
    rewrite total2_add, total2_const, (Nat.mul_assoc (length vals ^ N)). apply Nat.add_le_mono_r.
    apply (relations_solve E rel_opt vals B X x); auto.
    intros gs Hgs w [[[g h] r]|] cc Hw Ee Er; [|discriminate]. injection Er as <-. apply nontrivial_is_relation; auto.
    destruct (HE gs Hgs) as (ED & H1 & _). rewrite ED in H1. exact (H1 w _ Hw Ee).
  - etransitivity; [apply (total2_le _ _ _ (fun _ _ => (K + T * (K - 1)) * q ^ M))|rewrite total2_const; unfold q; lia].
    intros r s. destruct (HE _ (gens_length B X N r s)) as (ED & _ & _ & H3). rewrite ED in H3. exact H3.
Qed.
End C91.

(** ** Concrete cases over Z/1009 *)
(** n = 1. Points are field elements here, so a prover can divide by them: it fixes b = 5 and, for
    every alpha, solves the verifier's equation for a. With the generators 3 B + X, 7 B + 2 X and
    B + 4 X and the statement P = G + H + 3 Q, t = 3, for which it knows no opening, it passes, and the
    extractor returns a relation between the generators, from which x = 321 is read off *)
Definition gs91 := gens (qN 1) (qN 321) 3 [fN 3; fN 7; fN 1] [fN 1; fN 2; fN 4].
Definition cheat91 (gs : list (@Point FS)) : @prover FS NoZK :=
  Ask (ipa_start [] 1) (fun al =>
    let z i := fN (zq (pt gs i)) in
    let a := smul (ssub (sadd (sadd (z 0) (z 1)) (smul (smul (fN 3) (sinv al)) (z 2))) (smul (fN 5) (z 1)))
               (sinv (sadd (z 0) (smul (smul (sinv al) (fN 5)) (z 2)))) in
    Done (mkNoZK [] [] a (fN 5))).
Definition P91 (gs : list (@Point FS)) : @Point FS := padd (padd (pt gs 0) (pt gs 1)) (pmul (fN 3) (pt gs 2)).
Definition E91 (gs : list (@Point FS)) := nozk_fs_extractor fs_ceq (v75 5) [] (gG 1 gs) (gH 1 gs) (gQ 1 gs) 0 (P91 gs) (fN 3) (cheat91 gs) [ipa_start [] 1].
Example C91_case_nozk :
  let V ro pf := no_zk_verify ro [] pf (gG 1 gs91) (gH 1 gs91) (gQ 1 gs91) 1 (P91 gs91) (fN 3) in
  successes fs_ceq V (cheat91 gs91) (v75 5) [ipa_start [] 1] = 5 /\
  map (fun w => option_map zf (solver E91 rel_of (qN 1) (qN 321) 3 [fN 3; fN 7; fN 1] [fN 1; fN 2; fN 4] w)) [[fN 2]; [fN 5]]
    = [Some 321; Some 321]%Z /\
  match fst (E91 gs91 [fN 2]) with Some (Rel g h q) => map zf (g ++ h ++ [q]) = [781; 0; 487]%Z | _ => False end.
Proof. vm_compute. auto. Qed.
(** the honest prover of C79_case_nozk gives a witness and no logarithm *)
Example C91_case_honest :
  let gs := [qN 5; qN 2; qN 17] in
  let E gs := nozk_fs_extractor fs_ceq (v75 5) [] (gG 1 gs) (gH 1 gs) (gQ 1 gs) 0 (qN (3 * 5 + 6 * 2 + 18 * 17)) (fN 18) hon79 [ipa_start [] 1] in
  map (wins E rel_of gs) [[fN 2]; [fN 5]] = [true; true].
Proof. vm_compute. auto. Qed.
