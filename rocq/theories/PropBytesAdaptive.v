(** C103: the bounds of C102, with statements the prover chooses and the caller hashes first, for the
    program's own hash function values: 64-byte strings reduced modulo ell. Any prover. *)
From Coq Require Import String.
From Verif Require Export PropAdaptiveAny PropBytes.
From Verif Require Import CopyFacts PropMapping PropCopy PropCopySound Ex ExSmall.
Local Open Scope nat_scope.
Local Open Scope list_scope.

Section Bytes.
Context {C : Crypto} {L : CryptoLaws C} (ceq : @encodings_comparable C).
Context (ofZ : Z -> Scalar) (HQ : numbers_scalars ofZ ell) (vals : list Scalar) (HN : NoDup vals) (HA : forall x, In x vals).
Notation own_run := (own_run ceq).
Notation wide_successes := (wide_successes ceq ofZ).

Corollary C103_nozk tr (G H : list Point) (Q : Point) d (enc : Point * Scalar -> list event) sel
    (p : prover ((Point * Scalar) * NoZK)) T D :
  let V := fun (st : Point * Scalar) tr ro pf => no_zk_verify ro tr pf G H Q (2 ^ d) (fst st) (snd st) in
  let W := on_chosen enc sel tr V in
  let p' := finish_chosen enc tr (fun _ tr => complete tr d G H Q) p in
  readable enc -> length G = 2 ^ d -> length H = 2 ^ d ->
  asks T p -> incl (reach vals p') D ->
  1 <= length D ->
  at_most (3 * (T + S d)) (length D) (wide_successes W p D) \/
  (exists P t B, sel (P, t) = true /\ good_trees B /\
    all_paths B (fun al path => exists xs, own_run W tr p' vals D (al :: xs) (fun o => fst o = (P, t) /\ path = proof_path (snd o) xs)) /\
    match trees_extract t B with
    | Wit a b c => length a = 2 ^ d /\ length b = 2 ^ d /\ c = t /\
                   P = (comb a G + comb b H + t *: Q)%P /\ dotp a b = t
    | Rel g h q => nontrivial_relation (2 ^ d) G H Q g h q
    end).
Proof.
  intros V W p' HE HG HH HT HD H1. destruct (at_most_dec (3 * (T + S d)) (length D) (wide_successes W p D)) as [Hle|Hgt]; [left; exact Hle|right].
  apply (C102_nozk_every_prover ceq vals tr G H Q d enc sel p T D HE HN HG HH HT HD).
  apply (C92_fiat_shamir ceq ofZ HQ vals HN HA); auto.
Qed.

Corollary C103_almzk tr (G H : list Point) (Q : Point) d (enc : Point * Scalar -> list event) sel
    (p : prover ((Point * Scalar) * AlmZK)) T D :
  let V := fun (st : Point * Scalar) tr ro pf => alm_zk_verify ro tr pf G H Q (2 ^ d) (fst st) (snd st) in
  let W := on_chosen enc sel tr V in
  let p' := finish_chosen enc tr (fun st tr => complete_alm tr d G H Q (fst st) (snd st)) p in
  readable enc -> length G = 2 ^ d -> length H = 2 ^ d ->
  asks T p -> incl (reach vals p') D ->
  1 <= length D ->
  at_most (3 * (T + (2 + d))) (length D) (wide_successes W p D) \/
  (exists Cw t B, sel (Cw, t) = true /\ good_beta B /\
    beta_paths B (fun cr be al path => exists xs, own_run W tr p' vals D (be :: al :: xs)
                    (fun o => fst o = (Cw, t) /\ C_r (snd o) = cr /\ path = proof_path (az_NoZK (snd o)) xs)) /\
    match beta_extract t B with
    | Wit a b c => length a = 2 ^ d /\ length b = 2 ^ d /\ c = t /\ Cw = (comb a G + comb b H)%P /\ dotp a b = t
    | Rel g h q => nontrivial_relation (2 ^ d) G H Q g h q
    end).
Proof.
  intros V W p' HE HG HH HT HD H1. destruct (at_most_dec (3 * (T + (2 + d))) (length D) (wide_successes W p D)) as [Hle|Hgt]; [left; exact Hle|right].
  apply (C102_almzk_every_prover ceq vals tr G H Q d enc sel p T D HE HN HG HH HT HD).
  apply (C92_fiat_shamir ceq ofZ HQ vals HN HA); auto.
Qed.

Corollary C103_qesa tr (G H : list Point) (Q : Point) n d (enc : list (list (list Scalar)) -> list event) sel
    (p : prover (list (list (list Scalar)) * (Inner * (list Scalar * list Scalar)))) T D :
  let V := fun Ms tr ro (o : Inner * (list Scalar * list Scalar)) => inner_verify ro tr (fst o) G H Q (mkBlockMatrix Ms) in
  let W := on_chosen enc sel tr V in
  let p' := finish_chosen enc tr (fun Ms tr => on_fst (complete_inner tr n d G H Q Ms)) p in
  readable enc -> n = 2 ^ d -> 3 <= n -> length G = n -> length H = n ->
  (forall Ms, sel Ms = true -> 1 <= length Ms /\ Forall (rect (n - 2) (n - 2)) Ms) ->
  asks T p ->
  (forall ro, let '(pf, (w', u)) := snd (run ro p) in
     length w' = n /\ sc w' 0 = s1 /\ decompress (c_prime_w pf) = Some (comb w' G) /\
     length u = n /\ decompress (c_prime_prime_w pf) = Some (comb u H)) ->
  incl (reach vals p') D ->
  1 <= length D ->
  at_most (n * (T + (5 + d))) (length D) (wide_successes W p D) \/
  (exists Ms, sel Ms = true /\
  ((exists x c1 c2 T w' u g h q, x <> s0 /\ good_sb n T /\
     sb_paths T (fun s b cr be al path => exists xs, own_run W tr p' vals D (x :: s :: b :: be :: al :: xs)
       (fun o => fst o = Ms /\ let pf := fst (snd o) in
          c_prime_w pf = c1 /\ c_prime_prime_w pf = c2 /\ C_r (alm_zk pf) = cr /\ path = proof_path (az_NoZK (alm_zk pf)) xs)) /\
     (exists cs, own_run W tr p' vals D cs (fun o => fst o = Ms /\ c_prime_w (fst (snd o)) = c1 /\ fst (snd (snd o)) = w')) /\
     (exists cs, own_run W tr p' vals D cs (fun o => fst o = Ms /\ c_prime_prime_w (fst (snd o)) = c2 /\ snd (snd (snd o)) = u)) /\
     q_compare n Ms x T w' u = Some (g, h, q) /\ nontrivial_relation n G H Q g h q) \/
   (exists cs, own_run W tr p' vals D cs (fun o => fst o = Ms /\
      forall t, t < min (length Ms) n -> quad (nth t Ms []) (firstn (n - 2) (fst (snd (snd o)))) = s0)))).
Proof.
  intros V W p' HE Hd Hn HG HH HS HT HO HD H1. destruct (at_most_dec (n * (T + (5 + d))) (length D) (wide_successes W p D)) as [Hle|Hgt]; [left; exact Hle|right].
  apply (C102_qesa_every_prover ceq vals tr G H Q n d enc sel p T D HE HN Hd Hn HG HH HS HT HO HD).
  apply (C92_fiat_shamir ceq ofZ HQ vals HN HA); auto.
Qed.

Corollary C103_copy tr (G H : list Point) (Q : Point) n d (ws : N) (sets : list (list N)) mp
    (enc : list (list (list Scalar)) * list Point -> list event) sel
    (p : prover ((list (list (list Scalar)) * list Point) * (Copy * (list Scalar * list Scalar)))) T D :
  let V := fun (st : list (list (list Scalar)) * list Point) tr ro (o : Copy * (list Scalar * list Scalar)) =>
             copy_verify ro tr (fst o) G H Q (mkBlockMatrix (fst st)) mp (snd st) in
  let W := on_chosen enc sel tr V in
  let p' := finish_chosen enc tr (fun st tr => on_fst (complete_copy tr n d G H Q (fst st) mp (snd st))) p in
  readable enc -> n = 2 ^ d -> 3 <= n -> (N.of_nat n < 65536)%N -> (ws < 65536)%N -> (N.of_nat (length sets) <= 65536)%N ->
  length G = n -> length H = n ->
  (forall s i, In s sets -> In i s -> 1 <= N.to_nat i < n - 2) -> Forall (@NoDup N) sets ->
  compute_mapping (N.of_nat n) ws sets = Ok mp ->
  (forall Ms Cs, sel (Ms, Cs) = true -> Forall (rect (n - 2) (n - 2)) Ms /\ length Ms + length (unique_commitment_indices mp) <= n /\ length Cs = length sets) ->
  asks T p ->
  (forall ro, let '(pf, (w', u)) := snd (run ro p) in
     length w' = n /\ sc w' 0 = s1 /\ decompress (cp_C_w pf) = Some (comb w' G) /\
     length u = n /\ decompress (c_prime_prime_w (cp_inner pf)) = Some (comb u H)) ->
  incl (reach vals p') D ->
  1 <= length D ->
  at_most (max (2 * length sets) n * (T + (6 + d))) (length D) (wide_successes W p D) \/
  (exists Ms Cs, sel (Ms, Cs) = true /\
  forall msgs rs, (forall k, k < length sets -> commit G (nth k sets []) (nth k msgs []) (sc rs k) = Ok (pt Cs k)) ->
  (exists a0 x cw c2 T w' u g h q, x <> s0 /\ good_sb n T /\
     sb_paths T (fun s b cr be al path => exists xs, own_run W tr p' vals D (a0 :: x :: s :: b :: be :: al :: xs)
       (fun o => fst o = (Ms, Cs) /\ let pf := fst (snd o) in
          cp_C_w pf = cw /\ c_prime_prime_w (cp_inner pf) = c2 /\ C_r (alm_zk (cp_inner pf)) = cr /\
          path = proof_path (az_NoZK (alm_zk (cp_inner pf))) xs)) /\
     (exists cs, own_run W tr p' vals D cs (fun o => fst o = (Ms, Cs) /\ cp_C_w (fst (snd o)) = cw /\ fst (snd (snd o)) = w')) /\
     (exists cs, own_run W tr p' vals D cs (fun o => fst o = (Ms, Cs) /\ c_prime_prime_w (cp_inner (fst (snd o))) = c2 /\ snd (snd (snd o)) = u)) /\
     q_compare n (cp_system n mp a0 Ms) x T (cp_full n sets msgs rs w' a0) u = Some (g, h, q) /\
     nontrivial_relation n G H Q g h q) \/
  (exists cs, own_run W tr p' vals D cs (fun o => fst o = (Ms, Cs) /\ let w' := fst (snd (snd o)) in
     (forall M, In M Ms -> quad M (firstn (n - 2) w') = s0) /\
     (forall k j, k < length sets -> j < length (nth k sets []) ->
        exists mm, nth_error (msgs_map mp) (cm_offset sets k + j) = Some mm /\
          sc (nth k msgs []) j = sc w' (mpos mm)) /\
     (forall s i, In s sets -> In i s -> sc w' (N.to_nat i) = s0)))).
Proof.
  intros V W p' HE Hd Hn Hn16 Hws HSt HG HH Hidx HND Emp HS HT HO HD H1. destruct (at_most_dec (max (2 * length sets) n * (T + (6 + d))) (length D) (wide_successes W p D)) as [Hle|Hgt]; [left; exact Hle|right].
  apply (C102_copy_every_prover ceq vals tr G H Q n d ws sets mp enc sel p T D HE HN Hd Hn Hn16 Hws HSt HG HH Hidx HND Emp HS HT HO HD).
  apply (C92_fiat_shamir ceq ofZ HQ vals HN HA); auto.
Qed.

Corollary C103_lmpa tr d m (G H : list Point) (Q : Point) (enc : list (list Point) * list Point -> list event) sel
    (p : prover ((list (list Point) * list Point) * LmpaNoZK)) T D :
  let V := fun (st : list (list Point) * list Point) tr ro pf => lmpa_verify ro tr pf (fst st) G H Q (2 ^ d) (snd st) in
  let W := on_chosen enc sel tr V in
  readable enc -> 1 <= m ->
  (forall A t, sel (A, t) = true -> rect m (2 ^ d) A /\ forall w, length w = 2 ^ d -> comb w (nth 0 A []) <> pt t 0) ->
  asks T p -> incl (reach vals (then_ask p (chosen_queries enc tr (fun tr => lmpa_queries tr d)))) D ->
  1 <= length D -> at_most (2 * (T + d)) (length D) (wide_successes W p D).
Proof.
  intros V W HE Hm HF HT HD H1. apply (C92_at_most ofZ HQ vals HN HA); auto.
  apply (C102_lmpa_any_prover ceq vals tr d m G H Q enc sel p T D); auto.
Qed.

Corollary C103_simplezk tr d m (G H : list Point) (Q : Point) (enc : list (list Point) * list Point -> list event) sel
    (p : prover ((list (list Point) * list Point) * SimpleZK)) T D :
  let V := fun (st : list (list Point) * list Point) tr ro pf => simple_zk_verify ro tr pf (fst st) G H Q (2 ^ d) (snd st) in
  let W := on_chosen enc sel tr V in
  readable enc -> 1 <= m ->
  (forall A t, sel (A, t) = true -> rect m (2 ^ d) A /\ forall w, length w = 2 ^ d -> comb w (nth 0 A []) <> pt t 0) ->
  asks T p -> incl (reach vals (then_ask p (chosen_queries enc tr (fun tr => simplezk_queries tr d)))) D ->
  1 <= length D -> at_most (2 * (T + S d)) (length D) (wide_successes W p D).
Proof.
  intros V W HE Hm HF HT HD H1. apply (C92_at_most ofZ HQ vals HN HA); auto.
  apply (C102_simplezk_any_prover ceq vals tr d m G H Q enc sel p T D); auto.
Qed.

End Bytes.

(** ** a case, over the scalars of Ristretto: the prover may choose any target other than 0 for the
    matrix of zeros. Whatever it does with T queries, it convinces the verifier with probability at
    most 2(T+1)/ell + |D|/2^259 *)
Definition sel103 (st : list (list (@Point (RC 1))) * list (@Point (RC 1))) : bool :=
  match st with
  | ([[a; b]], [t]) => peqb a p0 && peqb b p0 && negb (peqb t p0)
  | _ => false
  end.
Lemma sel103_false A t : sel103 (A, t) = true ->
  rect 1 (2 ^ 1) A /\ forall w, length w = 2 ^ 1 -> comb w (nth 0 A []) <> pt t 0.
Proof.
  destruct A as [|[|a [|b [|]]] [|]]; try discriminate. destruct t as [|t [|]]; try discriminate. cbn [sel103]. intros E.
  apply andb_prop in E as [E Et]. apply andb_prop in E as [Ea Eb]. apply Bool.negb_true_iff in Et.
  apply (@peqb_eq (RC 1) (RC_laws 1)) in Ea, Eb. subst a b. split; [split; [reflexivity|repeat constructor]|].
  intros w _ Ew. assert (E0 : comb w [p0; p0] = @p0 (RC 1)).
  { apply (@sum_P_0 (RC 1) (RC_laws 1)). intros i _. unfold pt. destruct i as [|[|i]]; cbn [nth]; try apply (@pmul_0_r (RC 1) (RC_laws 1)).
    destruct i; apply (@pmul_0_r (RC 1) (RC_laws 1)). }
  cbn [nth] in Ew. rewrite E0 in Ew. unfold pt in Ew. cbn [nth] in Ew. subst t.
  rewrite (proj2 (@peqb_eq (RC 1) (RC_laws 1) _ _) eq_refl) in Et. discriminate.
Qed.
Example C103_case_lmpa (ceq : @encodings_comparable (RC 1)) (vals : list (@Scalar (RC 1))) (HN : NoDup vals) (HA : forall x, In x vals)
    (p : @prover (RC 1) ((list (list (@Point (RC 1))) * list (@Point (RC 1))) * LmpaNoZK)) T D :
  let enc := enc_pair (enc_list (enc_list enc_point)) (enc_list enc_point) in
  let B := vtab ell 1 (fun _ => fp ell 1) : @Point (RC 1) in
  let W := on_chosen enc sel103 [] (fun st tr ro pf => lmpa_verify ro tr pf (fst st) [B; B] [] B 2 (snd st)) in
  (sel103 ([[p0; p0]], [B]) = true /\ sel103 ([[p0; p0]], [p0]) = false) /\
  (asks T p -> 1 <= length D -> incl (reach vals (then_ask p (chosen_queries enc [] (fun tr => lmpa_queries tr 1)))) D ->
   at_most (2 * (T + 1)) (length D) (wide_successes ceq (fp ell) W p D)).
Proof.
  intros enc B W. split; [split; vm_compute; reflexivity|]. intros HT H1 HD.
  apply (@C103_lmpa (RC 1) (RC_laws 1) ceq (fp ell) (proj1 (C92_numbering 1)) vals HN HA [] 1 1 [B; B] [] B enc sel103 p T D); auto.
  - assert (PC := @point_code (RC 1) (RC_laws 1)). apply prefix_readable. apply pair_code; [apply list_code, list_code, PC|apply list_code, PC].
  - apply sel103_false.
Qed.
