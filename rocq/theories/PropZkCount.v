(** C41 in terms of random tapes: over a uniformly drawn tape the proofs for two
    witnesses, and the simulated proofs, have the same distribution. *)
From Coq Require Import String Permutation.
From Verif Require Export Count PropSimpleZK.
From Verif Require Import Ex ExSmall.
Local Open Scope nat_scope.
Local Open Scope list_scope.

Section Bij.
Context {A : Type}.
Lemma NoDup_app (l l' : list A) : NoDup l -> NoDup l' -> (forall x, In x l -> In x l' -> False) -> NoDup (l ++ l').
Proof.
  intros Hl Hl'. induction Hl as [|x l Hx Hl IH]; intros HD; [exact Hl'|]. cbn. constructor.
  - intros Z. apply in_app_or in Z as [Z|Z]; [contradiction|]. eapply HD; [now left|exact Z].
  - apply IH. intros y Hy. apply HD. now right.
Qed.
Lemma count_perm (f : A -> bool) l l' : Permutation l l' -> count f l = count f l'.
Proof.
  unfold count. induction 1; cbn; auto; [destruct (f x); cbn; auto|destruct (f y), (f x); reflexivity|congruence].
Qed.
End Bij.
Section Bij2.
Context {A : Type}.
Lemma words_NoDup (vals : list A) K : NoDup vals -> NoDup (words vals K).
Proof.
  intros HN. induction K as [|K IH]; cbn [words]; [constructor; [cbn; tauto|constructor]|].
  revert IH. generalize (words vals K) as W. intros W HW.
  assert (X : forall v, NoDup (map (cons v) W)).
  { intros v. apply FinFun.Injective_map_NoDup; auto. intros x y E. now injection E. }
  induction HN as [|v vs Hv HN IHv]; cbn [flat_map]; [constructor|].
  apply NoDup_app; auto.
  intros x Hx Hy. apply in_map_iff in Hx as (w & <- & _). apply in_flat_map in Hy as (v' & Hv' & Hy).
  apply in_map_iff in Hy as (w' & E & _). injection E as -> _. contradiction.
Qed.
(** a bijection between words of length K over all values does not change a count *)
Lemma count_bij (vals : list A) K (f g : list A -> list A) (P : list A -> bool) :
  NoDup vals -> (forall x, In x vals) ->
  (forall r, length r = K -> length (f r) = K /\ g (f r) = r) ->
  (forall r, length r = K -> length (g r) = K /\ f (g r) = r) ->
  count (fun r => P (f r)) (words vals K) = count P (words vals K).
Proof.
  intros HN HA Hf Hg. rewrite <- count_map. apply count_perm.
  assert (HW : forall r, In r (words vals K) <-> length r = K).
  { intros r. rewrite words_In. split; [tauto|]. intros H. split; auto. apply Forall_forall. auto. }
  apply NoDup_Permutation_bis.
  - assert (X := words_NoDup vals K HN).
    assert (Y : forall l, (forall r, In r l -> length r = K) -> NoDup l -> NoDup (map f l)).
    { clear -Hf. induction l as [|r l IH]; intros HK Hl; cbn; [constructor|]. inversion Hl; subst. constructor.
      - intros Z. apply in_map_iff in Z as (r' & E & Hr'). apply (f_equal g) in E.
        rewrite (proj2 (Hf r' (HK r' (or_intror Hr')))), (proj2 (Hf r (HK r (or_introl eq_refl)))) in E. now subst.
      - apply IH; auto. intros r' Hr'. apply HK. now right. }
    apply Y; auto. intros r Hr. now apply HW.
  - now rewrite map_length.
  - intros r Hr. apply in_map_iff in Hr as (r' & <- & Hr'). apply HW. apply Hf. now apply HW.
Qed.
End Bij2.

Section C41.
Context {C : Crypto} {L : CryptoLaws C}.

(** the random source from position pos on is the word u *)
Definition tape_at (pos : nat) (u : list Scalar) : nat -> Scalar := fun i => sc u (i - pos).
Lemma draw_tape_at pos u : draw (tape_at pos u) pos (length u) = u.
Proof.
  unfold draw, tape_at. apply (list_eq_nth s0); [now rewrite map_length, seq_length|].
  rewrite map_length, seq_length. intros i Hi. 
  rewrite (nth_indep _ s0 ((fun i => sc u (pos + i - pos)) 0)) by (now rewrite map_length, seq_length).
  rewrite (map_nth (fun i => sc u (pos + i - pos))), seq_nth by auto. unfold sc. f_equal. lia.
Qed.

(** two witnesses of one statement: every event about the output has the same number of tapes *)
Theorem C41_simple_zk_same_distribution (ro : oracle) tr pos m (A : list (list Point)) (G H : list Point)
    (Q : Point) (w1 w2 vals : list Scalar) (test : res (SimpleZK * transcript) -> bool) :
  let n := length G in
  NoDup vals -> (forall x, In x vals) ->
  rect m n A -> length w1 = n -> length w2 = n -> pmv A w1 = pmv A w2 ->
  count (fun u => test (simple_zk_create ro (tape_at pos u) pos tr A G H Q w1)) (words vals n) =
  count (fun u => test (simple_zk_create ro (tape_at pos u) pos tr A G H Q w2)) (words vals n).
Proof.
  intros n HN HA HR H1 H2 E.
  destruct (C41_simple_zk_witness_indistinguishable ro tr m A G H Q w1 w2 HR H1 H2 E) as (f & g & Hf & Hg & X).
  fold n in Hf, Hg, X.
  rewrite <- (count_bij vals n f g (fun u => test (simple_zk_create ro (tape_at pos u) pos tr A G H Q w2))); auto.
  apply count_ext. intros u Hu. apply words_In in Hu as [Hu _]. f_equal. symmetry. apply X.
  rewrite <- Hu at 2. rewrite draw_tape_at.
  replace n with (length (f u)) by (now apply Hf). apply draw_tape_at.
Qed.

(** a verifier that answers beta: the simulator, fed with uniform w', produces the prover's
    distribution from the statement A w alone *)
Theorem C41_simple_zk_simulated_distribution (ro : oracle) tr pos m (A : list (list Point)) (G H : list Point)
    (Q : Point) (w vals : list Scalar) (beta : Scalar) (test : res (SimpleZK * transcript) -> bool) :
  let n := length G in
  NoDup vals -> (forall x, In x vals) ->
  rect m n A -> length w = n -> (forall a, ro (sz_hist tr a) = beta) ->
  count (fun u => test (simple_zk_create ro (tape_at pos u) pos tr A G H Q w)) (words vals n) =
  count (fun w' => test (sz_simulate ro tr A G H Q (pmv A w) beta w')) (words vals n).
Proof.
  intros n HN HA HR Hw Hb.
  destruct (C41_simple_zk_simulation ro tr m A G H Q w HR Hw beta) as (f & g & Hf & Hg & X).
  fold n in Hf, Hg, X.
  rewrite <- (count_bij vals n f g (fun w' => test (sz_simulate ro tr A G H Q (pmv A w) beta w'))); auto.
  apply count_ext. intros u Hu. apply words_In in Hu as [Hu _]. f_equal. rewrite X by apply Hb.
  rewrite <- Hu. now rewrite draw_tape_at.
Qed.
End C41.

(** n = 2 over Z/1009, A = (2, 3), witnesses (4, 1) and (1, 3) of t = 11: the number of tapes
    on which the proof has a given first message, and a given response *)
Definition all41 : list (@Scalar FS) := map (fun i => fN (Z.of_nat i)) (seq 0 1009).
Definition create41 (w u : list (@Scalar FS)) :=
  simple_zk_create (fun _ => fN 5) (tape_at 3 u) 3 [] [[qN 2; qN 3]] [qN 0; qN 0] [] (qN 0) w.
Definition resp41 (r : res (@SimpleZK FS * @transcript FS)) : option (Z * Z) :=
  match r with Ok (pf, _) => Some (match sz_a pf with a :: _ => zq a | [] => 0%Z end, zf (lm_w (sz_no_zk pf))) | _ => None end.
Example C41_case_tapes :
  map (fun u => resp41 (create41 [fN 4; fN 1] (map fN u))) [[100; 200]; [7; 8]; [0; 0]]%Z
    = [Some (800, 805); Some (38, 148); Some (0, 105)]%Z /\
  map (fun u => resp41 (create41 [fN 1; fN 3] (map fN u))) [[115; 190]; [22; 1007]; [15; 999]]%Z
    = [Some (800, 805); Some (38, 148); Some (0, 105)]%Z /\
  resp41 (create41 [fN 1; fN 3] (map fN [100; 200]%Z)) = Some (800, 740)%Z.
Proof. vm_compute. auto. Qed.
Lemma all41_NoDup : NoDup all41.
Proof.
  apply (NoDup_map_inv zf). assert (E : map zf all41 = map Z.of_nat (seq 0 1009)) by (vm_compute; reflexivity).
  rewrite E. apply FinFun.Injective_map_NoDup; [exact Nat2Z.inj|apply seq_NoDup].
Qed.
Lemma all41_all x : In x all41.
Proof.
  apply in_map_iff. exists (Z.to_nat (zf x)).
  assert (B : (0 <= zf x < 1009)%Z) by (unfold zf; rewrite <- (val_mod 1009 x); apply Z.mod_pos_bound; lia).
  split; [rewrite Z2Nat.id by lia; apply (fp_val 1009 x)|apply in_seq; split; [lia|]].
  apply Nat2Z.inj_lt. rewrite Z2Nat.id by lia. change (Z.of_nat (0 + 1009)) with 1009%Z. lia.
Qed.
Lemma fq_eq (x y : @Point FS) : Z.eqb (zq x) (zq y) = true -> x = y.
Proof.
  intros E. apply (Vm_ext 1009 1). intros i Hi. apply Fp_eq. replace i with 0 by lia. now apply Z.eqb_eq.
Qed.
Lemma stmt41 : pmv [[qN 2; qN 3]] [fN 4; fN 1] = pmv [[qN 2; qN 3]] [fN 1; fN 3].
Proof. cbn [pmv map]. f_equal. apply fq_eq. vm_compute. reflexivity. Qed.
Example C41_case_distribution : forall test,
  count (fun u => test (create41 [fN 4; fN 1] u)) (words all41 2) = count (fun u => test (create41 [fN 1; fN 3] u)) (words all41 2).
Proof.
  intros test. unfold create41.
  assert (R : rect 1 2 [[qN 2; qN 3]]) by (split; [reflexivity|repeat constructor]).
  exact (@C41_simple_zk_same_distribution FS FS_laws (fun _ => fN 5) [] 3 1 [[qN 2; qN 3]] [qN 0; qN 0] [] (qN 0)
           [fN 4; fN 1] [fN 1; fN 3] all41 test all41_NoDup all41_all R eq_refl eq_refl stmt41).
Qed.
