(** A second way to bound the error of one simulated proof: the first message may be hard to
    foresee only because the simulated one is. *)
From Coq Require Import String.
From Verif Require Export Nizk.
Local Open Scope string_scope.
Local Open Scope nat_scope.
Local Open Scope list_scope.

Section Hit.
Context {C : Crypto} {L : CryptoLaws C} (ceq : @encodings_comparable C).
Notation word := (list Scalar).
Notation recall := (recall ceq).

(** msg is the first message of a proof. It does not depend on the challenges, nor does the
    question whether a run succeeds, and simulated ones are spread. *)
Definition hit_simulatable {X} (vals : list Scalar) (tr : transcript) (k m m' N slack f : nat)
    (create : oracle -> (nat -> Scalar) -> res (X * transcript * nat)) (verify : oracle -> X -> res (bool * transcript)) (sim : word -> word -> X) : Prop :=
  exists (lab : string) (msg : X -> Compressed),
  (forall test : word -> X -> bool,
     let real := count (fun z => on_proof (test (firstn k z)) (create (coins tr (firstn k z)) (tape (skipn k z)))) (words vals (k + m)) in
     let simd := count (fun z => test (firstn k z) (sim (firstn k z) (skipn k z))) (words vals (k + m')) in
     real <= N * simd + slack /\ N * simd <= real + slack) /\
  (forall cs u pf tr' p, create (coins tr cs) (tape u) = Ok (pf, tr', p) -> exists b, verify (coins tr cs) pf = Ok (b, tr')) /\
  (forall u ro ro' pf tr' p, create ro (tape u) = Ok (pf, tr', p) ->
     (forall e', ro (tr ++ EvMsg lab (msg pf) :: e') = ro' (tr ++ EvMsg lab (msg pf) :: e')) -> create ro' (tape u) = create ro (tape u)) /\
  (forall u ro ro' pf tr' p, create ro (tape u) = Ok (pf, tr', p) -> exists r, create ro' (tape u) = Ok r) /\
  (forall u ro pf tr' p, create ro (tape u) = Ok (pf, tr', p) -> exists e', tr' = tr ++ EvMsg lab (msg pf) :: e' /\ nchal e' = k) /\
  (forall c, count (fun z => if ceq (msg (sim (firstn k z) (skipn k z))) c then true else false) (words vals (k + m')) <= f * length vals ^ (k + m' - 1)).

Lemma hit_spread {X} (g : X -> Compressed) (l : list X) tr (mm : memo) A : (forall c, count (fun z => if ceq (g z) c then true else false) l <= A) ->
  count (fun z => hit ceq tr mm (g z)) l <= length mm * A.
Proof.
  intros H. unfold hit. induction mm as [|[h v] mm IH].
  - cbn [existsb]. rewrite count_none by reflexivity. lia.
  - cbn [existsb length fst]. change (S (length mm) * A) with (A + length mm * A). apply count_or_le; [|exact IH].
    destruct (msg_at tr h) as [c|]; [apply H|]. rewrite count_none by reflexivity. lia.
Qed.

Lemma hit_step {X} (vals : list Scalar) (tr : transcript) (k m m' N slack f T : nat) create verify (sim : word -> word -> X) :
  1 <= k -> 1 <= m' -> N * length vals ^ m' <= length vals ^ m -> hit_simulatable vals tr k m m' N slack f create verify sim ->
  step_close ceq vals tr k m m' N create verify sim T (2 * slack + f * T * length vals ^ (k + m - 1)).
Proof.
  intros Hk Hm' HNM (lab & msg & ZK & Sync & Agree & Runs & Lay & Hit) mm J Lm HJ R S0. set (M := length vals) in *.
  set (test := fun cs pf => match verify (coins tr cs) pf with
     | Ok (_, tr') => J pf (revealed (coins tr cs) tr tr' ++ mm)
     | _ => J pf mm end).
  destruct (ZK test) as [Z1 Z2]. cbv zeta in Z1, Z2.
  change (count (fun z => test (firstn k z) (sim (firstn k z) (skipn k z))) (words vals (k + m'))) with S0 in Z1, Z2.
  set (R' := count _ (words vals (k + m))) in Z1, Z2.
  set (bad := fun z => on_proof (fun pf => hit ceq tr mm (msg pf)) (create (coins tr (firstn k z)) (tape (skipn k z)))).
  assert (Same : forall z, bad z = false ->
    match create (recall mm (coins tr (firstn k z))) (tape (skipn k z)) with
    | Ok (pf, tr', _) => J pf (mm ++ revealed (recall mm (coins tr (firstn k z))) tr tr')
    | _ => false end = on_proof (test (firstn k z)) (create (coins tr (firstn k z)) (tape (skipn k z)))).
  { intros z Hb. unfold bad in Hb. set (cs := firstn k z) in *. set (u := skipn k z) in *.
    destruct (create (coins tr cs) (tape u)) as [[[pf tr'] p]| |] eqn:E.
    2,3: (destruct (create (recall mm (coins tr cs)) (tape u)) as [[[pf' tr''] p']| |] eqn:E'; [|reflexivity|reflexivity];
          destruct (Runs u _ (coins tr cs) _ _ _ E') as [r Er]; congruence).
    cbn [on_proof] in Hb |- *.
    assert (Out : forall e', recall mm (coins tr cs) (tr ++ EvMsg lab (msg pf) :: e') = coins tr cs (tr ++ EvMsg lab (msg pf) :: e')).
    { intros e'. apply recall_out. intros I. apply (hit_In ceq) in I. congruence. }
    rewrite (Agree u (coins tr cs) (recall mm (coins tr cs)) _ _ _ E) by (intros; now rewrite Out). rewrite E.
    unfold test. destruct (Sync cs u pf tr' p E) as [b ->].
    destruct (Lay u _ _ _ _ E) as (e' & -> & _).
    assert (Ed : drawn tr (skipn (length tr) (tr ++ EvMsg lab (msg pf) :: e')) = drawn (tr ++ [EvMsg lab (msg pf)]) e').
    { rewrite skipn_app, skipn_all, Nat.sub_diag. reflexivity. }
    assert (Ext : forall h, In h (drawn (tr ++ [EvMsg lab (msg pf)]) e') -> exists e1, h = tr ++ EvMsg lab (msg pf) :: e1).
    { intros h Hh. apply drawn_In in Hh as (e1 & l & e2 & -> & ->). rewrite <- app_assoc. cbn. eauto. }
    assert (Ea : revealed (recall mm (coins tr cs)) tr (tr ++ EvMsg lab (msg pf) :: e') = revealed (coins tr cs) tr (tr ++ EvMsg lab (msg pf) :: e')).
    { unfold revealed. rewrite Ed. apply map_ext_in. intros h Hh. apply Ext in Hh as [e1 ->]. now rewrite Out. }
    rewrite Ea. apply HJ. intros ro h. apply recall_swap. intros h0 I0 I1. unfold revealed in I1. rewrite Ed, map_map in I1. cbn [fst] in I1.
    rewrite map_id in I1. apply Ext in I1 as [e1 ->]. apply (hit_In ceq) in I0. congruence. }
  assert (Cb : count bad (words vals (k + m)) <= slack + f * T * M ^ (k + m - 1)).
  { destruct (ZK (fun _ pf => hit ceq tr mm (msg pf))) as [Y _]. cbv zeta in Y. fold bad in Y.
    assert (Y' := hit_spread (fun z => msg (sim (firstn k z) (skipn k z))) (words vals (k + m')) tr mm _ Hit). cbv beta in Y'.
    set (Sh := count _ (words vals (k + m'))) in Y, Y'. fold M in Y'.
    assert (W : N * Sh <= f * T * M ^ (k + m - 1)).
    { replace (k + m' - 1) with (k - 1 + m') in Y' by lia. replace (k + m - 1) with (k - 1 + m) by lia. rewrite Nat.pow_add_r in *.
      transitivity (N * (T * (f * (M ^ (k - 1) * M ^ m')))).
      - apply Nat.mul_le_mono_l. etransitivity; [exact Y'|]. now apply Nat.mul_le_mono_r.
      - revert HNM. generalize (M ^ (k - 1)), (M ^ m'), (M ^ m). clear. intros a b c H.
        replace (N * (T * (f * (a * b)))) with (f * T * (a * (N * b))) by nia. now apply Nat.mul_le_mono_l, Nat.mul_le_mono_l. }
    change (count bad (words vals (k + m)) <= N * Sh + slack) in Y. lia. }
  assert (R1 : R <= R' + count bad (words vals (k + m))).
  { etransitivity; [|apply count_or]. apply count_le. intros z Hz E. destruct (bad z) eqn:Eb; [apply orb_true_r|]. rewrite orb_false_r.
    rewrite <- (Same z Eb). exact E. }
  assert (R2 : R' <= R + count bad (words vals (k + m))).
  { etransitivity; [|apply count_or]. apply count_le. intros z Hz E. destruct (bad z) eqn:Eb; [apply orb_true_r|]. rewrite orb_false_r.
    cbv zeta. rewrite (Same z Eb). exact E. }
  lia.
Qed.
End Hit.
