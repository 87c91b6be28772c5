(** C40-C42, C48, C51: SimpleZK, Pedersen commitments, and what the linear-map
    arguments do not absorb. *)
From Coq Require Import String.
From Verif Require Export PropLmpa.
From Verif Require Import PropIpa.
Local Open Scope nat_scope.
Local Open Scope list_scope.

Section SimpleFacts.
Context {C : Crypto} {L : CryptoLaws C}.
Add Field SfSZ : (@S_field C L).

Lemma draw_length rng pos n : length (draw rng pos n) = n.
Proof. unfold draw. now rewrite map_length, seq_length. Qed.
Lemma sz_hist_eq tr a : append_points tr "a" a ++ [EvChal "beta"] = sz_hist tr a.
Proof. rewrite append_points_eq. unfold sz_hist. now rewrite <- app_assoc. Qed.
(** beta w + r *)
Definition blind (beta : Scalar) (w r : list Scalar) : list Scalar :=
  map2 (fun a b => beta * a + b)%S w r.
Lemma blind_length beta w r : length w = length r -> length (blind beta w r) = length w.
Proof. intros H. unfold blind. rewrite map2_length. lia. Qed.
Lemma simple_zk_create_eq ro rng pos tr m A (G H : list Point) Q w :
  rect m (length G) A ->
  simple_zk_create ro rng pos tr A G H Q w =
  (let r := draw rng pos (length G) in let a := pmv A r in let tr1 := sz_hist tr a in
   '(p, tr') <- lmpa_create ro tr1 A G H Q (blind (ro tr1) w r) ;; Ok (mkSimpleZK p a, tr')).
Proof.
  intros HA. unfold simple_zk_create, challenge_scalar. cbv zeta.
  rewrite (pmv_lin m (length G)) by (auto; apply draw_length). now rewrite sz_hist_eq.
Qed.
Lemma simple_zk_verify_eq ro tr p a A (G H : list Point) Q n t : n = length G ->
  simple_zk_verify ro tr (mkSimpleZK p a) A G H Q n t =
  lmpa_verify ro (sz_hist tr a) p A G H Q n (sz_t (ro (sz_hist tr a)) t a).
Proof.
  intros ->. unfold simple_zk_verify, challenge_scalar. rewrite Nat.eqb_refl. cbn [assertb bind sz_a sz_no_zk].
  now rewrite sz_hist_eq.
Qed.
Lemma comb_affine beta w r row : length w = length r -> length row = length w ->
  comb (blind beta w r) row = (beta *: comb w row + comb r row)%P.
Proof.
  intros H1 H2. rewrite <- !lin_comb by (rewrite ?blind_length; lia). unfold blind.
  rewrite (map2_ext _ (fun x y => beta * x + s1 * y)%S) by (intros; ring).
  rewrite lin_affine_s by auto. pring.
Qed.
Lemma pmv_blind m n A beta w r : rect m n A -> length w = n -> length r = n ->
  pmv A (blind beta w r) = sz_t beta (pmv A w) (pmv A r).
Proof.
  intros [_ HA] Hw Hr. unfold pmv, sz_t. induction A as [|row A IH]; [reflexivity|].
  cbn [map map2]. f_equal.
  - apply comb_affine; [lia|]. rewrite (Forall_inv HA). lia.
  - apply IH. exact (Forall_inv_tail HA).
Qed.
End SimpleFacts.

Section C40.
Context {C : Crypto} {L : CryptoLaws C}.
Theorem C40_simple_zk_completeness (ro : oracle) (rng : nat -> Scalar) pos tr d m (A : list (list Point))
    (G H : list Point) (Q : Point) (w : list Scalar) :
  1 <= m -> rect m (2 ^ d) A -> length G = 2 ^ d -> length w = 2 ^ d ->
  exists proof tr',
    simple_zk_create ro rng pos tr A G H Q w = Ok (proof, tr') /\
    simple_zk_verify ro tr proof A G H Q (2 ^ d) (pmv A w) = Ok (true, tr').
Proof.
  intros Hm HA HG Hw. rewrite (simple_zk_create_eq _ _ _ _ m) by (now rewrite HG). cbv zeta. rewrite HG.
  set (r := draw rng pos (2 ^ d)). set (a := pmv A r). set (tr1 := sz_hist tr a).
  assert (Hr : length r = 2 ^ d) by apply draw_length.
  destruct (C36_lmpa_completeness ro tr1 d m A G H Q (blind (ro tr1) w r)) as (p & tr' & E & V); auto.
  { rewrite blind_length; lia. }
  rewrite E. cbn [bind]. exists (mkSimpleZK p a), tr'. split; auto.
  rewrite simple_zk_verify_eq by auto. fold tr1.
  rewrite (pmv_blind m (2 ^ d)) in V by auto. exact V.
Qed.
End C40.
Definition rngA (i : nat) : @Scalar EX := sN (Z.of_nat i * 31 + 5).
Example C40_case :
  rmap (fun '(p, tr) =>
          (map zp (sz_a p), rmap (fun '(b, tr') => (b, length tr, length tr'))
          (simple_zk_verify ro1 [] p A24 G4 H4 (pN 17) 4 [pN (1*5+2*11+3*3+4*8); pN (1*2+2*9+3*6+4*13)])))
     (simple_zk_create ro1 rngA 0 [] A24 G4 H4 (pN 17) [sN 1; sN 2; sN 3; sN 4])
  = Ok ([5*5+11*36+3*67+8*98; 2*5+9*36+6*67+13*98]%Z, Ok (true, 13, 13)).
Proof. vm_compute. auto. Qed.

(** ** C41 *)
Section C41.
Context {C : Crypto} {L : CryptoLaws C}.
Add Field SfC41 : (@S_field C L).

(** r + beta (w1 - w2), beta being the challenge for the first message A r *)
Definition wi_shift (ro : oracle) tr (A : list (list Point)) (w1 w2 r : list Scalar) : list Scalar :=
  map2 sadd r (vscale (ro (sz_hist tr (pmv A r))) (map2 ssub w1 w2)).

Lemma pmv_shift m n A w1 w2 r (beta : Scalar) : rect m n A -> length w1 = n -> length w2 = n -> length r = n ->
  pmv A w1 = pmv A w2 ->
  pmv A (map2 sadd r (vscale beta (map2 ssub w1 w2))) = pmv A r.
Proof.
  intros [_ HA] H1 H2 Hr E. unfold pmv in *. apply map_ext_in. intros row Hrow.
  assert (E' : comb w1 row = comb w2 row).
  { apply (ext_in_map E). exact Hrow. }
  rewrite Forall_forall in HA. assert (Hl := HA row Hrow).
  rewrite <- !lin_comb in E' by lia.
  rewrite <- !lin_comb by (rewrite ?map2_length, ?vscale_length, ?map2_length; lia).
  rewrite lin_add_s by (rewrite ?vscale_length, ?map2_length; lia).
  rewrite lin_vscale, lin_sub_s by lia. rewrite E'. pring.
Qed.
Lemma wi_shift_length ro tr A w1 w2 r n : length w1 = n -> length w2 = n -> length r = n ->
  length (wi_shift ro tr A w1 w2 r) = n.
Proof. intros H1 H2 Hr. unfold wi_shift. rewrite map2_length, vscale_length, map2_length. lia. Qed.
Lemma wi_shift_inv ro tr m n A w1 w2 r : rect m n A -> length w1 = n -> length w2 = n -> length r = n ->
  pmv A w1 = pmv A w2 ->
  wi_shift ro tr A w2 w1 (wi_shift ro tr A w1 w2 r) = r.
Proof.
  intros HA H1 H2 Hr E. unfold wi_shift at 1.
  assert (Ep : pmv A (wi_shift ro tr A w1 w2 r) = pmv A r) by (now apply (pmv_shift m n)).
  rewrite Ep. unfold wi_shift. set (beta := ro _).
  apply (list_eq_nth s0).
  - rewrite !map2_length, !vscale_length, !map2_length. lia.
  - intros i Hi. rewrite !map2_length, !vscale_length, !map2_length in Hi.
    change (sc (map2 sadd (map2 sadd r (vscale beta (map2 ssub w1 w2))) (vscale beta (map2 ssub w2 w1))) i = sc r i).
    rewrite !sc_map2; rewrite ?map2_length, ?vscale_length, ?map2_length; try lia.
    rewrite !vscale_nth, !sc_map2 by lia. ring.
Qed.

(** Perfect witness indistinguishability: for two witnesses of the same statement
    there is a bijection between blinding vectors (its inverse exchanges the
    witnesses) under which the two provers output the same proof and transcript. *)
Theorem C41_simple_zk_witness_indistinguishable (ro : oracle) tr m (A : list (list Point)) (G H : list Point)
    (Q : Point) (w1 w2 : list Scalar) :
  let n := length G in
  rect m n A -> length w1 = n -> length w2 = n -> pmv A w1 = pmv A w2 ->
  exists f g : list Scalar -> list Scalar,
    (forall r, length r = n -> length (f r) = n /\ g (f r) = r) /\
    (forall r, length r = n -> length (g r) = n /\ f (g r) = r) /\
    (forall rng1 pos1 rng2 pos2,
       draw rng2 pos2 n = f (draw rng1 pos1 n) ->
       simple_zk_create ro rng2 pos2 tr A G H Q w2 = simple_zk_create ro rng1 pos1 tr A G H Q w1).
Proof.
  intros n HA H1 H2 E. exists (wi_shift ro tr A w1 w2), (wi_shift ro tr A w2 w1).
  split; [|split].
  - intros r Hr. split; [now apply wi_shift_length|now apply (wi_shift_inv ro tr m n)].
  - intros r Hr. split; [now apply wi_shift_length|now apply (wi_shift_inv ro tr m n)].
  - intros rng1 pos1 rng2 pos2 Hd. rewrite !(simple_zk_create_eq _ _ _ _ m) by exact HA. cbv zeta.
    fold n. rewrite Hd. set (r := draw rng1 pos1 n). assert (Hr : length r = n) by apply draw_length.
    assert (Ep : pmv A (wi_shift ro tr A w1 w2 r) = pmv A r) by (now apply (pmv_shift m n)).
    rewrite Ep. set (tr1 := sz_hist tr (pmv A r)).
    replace (blind (ro tr1) w2 (wi_shift ro tr A w1 w2 r)) with (blind (ro tr1) w1 r); [reflexivity|].
    unfold blind, wi_shift. fold tr1. apply (list_eq_nth s0).
    + rewrite !map2_length, !vscale_length, !map2_length. lia.
    + intros i Hi. rewrite map2_length in Hi.
      change (sc (map2 (fun a b => ro tr1 * a + b)%S w1 r) i =
              sc (map2 (fun a b => ro tr1 * a + b)%S w2 (map2 sadd r (vscale (ro tr1) (map2 ssub w1 w2)))) i).
      rewrite !sc_map2; rewrite ?map2_length, ?vscale_length, ?map2_length; try lia.
      rewrite !vscale_nth, !sc_map2 by lia. ring.
Qed.

(** The simulator: it gets the statement, a value for beta and a vector w', and no witness. *)
Definition sz_simulate (ro : oracle) tr (A : list (list Point)) (G H : list Point) (Q : Point)
    (t : list Point) (beta : Scalar) (w' : list Scalar) : res (SimpleZK * transcript) :=
  let a := map2 (fun u v => u - beta *: v)%P (pmv A w') t in
  '(p, tr') <- lmpa_create ro (sz_hist tr a) A G H Q w' ;; Ok (mkSimpleZK p a, tr').

(** With beta the challenge that the hash returns, the simulator's output on
    w' = beta w + r is the prover's output, and r -> w' is a bijection for every beta. *)
Theorem C41_simple_zk_simulation (ro : oracle) tr m (A : list (list Point)) (G H : list Point)
    (Q : Point) (w : list Scalar) :
  let n := length G in
  rect m n A -> length w = n ->
  (forall beta, exists f g : list Scalar -> list Scalar,
     (forall r, length r = n -> length (f r) = n /\ g (f r) = r) /\
     (forall r, length r = n -> length (g r) = n /\ f (g r) = r) /\
     (forall rng pos, ro (sz_hist tr (pmv A (draw rng pos n))) = beta ->
        simple_zk_create ro rng pos tr A G H Q w =
        sz_simulate ro tr A G H Q (pmv A w) beta (f (draw rng pos n)))).
Proof.
  intros n HA Hw beta.
  exists (blind beta w), (fun v => map2 ssub v (vscale beta w)).
  assert (K : forall r, length r = n -> map2 ssub (blind beta w r) (vscale beta w) = r).
  { intros r Hr. apply (list_eq_nth s0).
    - rewrite map2_length, vscale_length, blind_length by lia. lia.
    - intros i Hi. rewrite map2_length, vscale_length, blind_length in Hi by lia.
      change (sc (map2 ssub (blind beta w r) (vscale beta w)) i = sc r i). unfold blind.
      rewrite !sc_map2; rewrite ?map2_length, ?vscale_length; try lia.
      rewrite vscale_nth. ring. }
  assert (K' : forall r, length r = n -> blind beta w (map2 ssub r (vscale beta w)) = r).
  { intros r Hr. apply (list_eq_nth s0).
    - rewrite blind_length; rewrite ?map2_length, ?vscale_length; lia.
    - intros i Hi. rewrite blind_length in Hi by (rewrite map2_length, vscale_length; lia).
      change (sc (blind beta w (map2 ssub r (vscale beta w))) i = sc r i). unfold blind.
      rewrite !sc_map2; rewrite ?map2_length, ?vscale_length; try lia.
      rewrite vscale_nth. ring. }
  split; [|split].
  - intros r Hr. split; [rewrite blind_length; lia|auto].
  - intros r Hr. split; [rewrite map2_length, vscale_length; lia|auto].
  - intros rng pos Hb. rewrite (simple_zk_create_eq _ _ _ _ m) by exact HA. cbv zeta. fold n.
    set (r := draw rng pos n) in *. assert (Hr : length r = n) by apply draw_length.
    rewrite Hb. unfold sz_simulate.
    replace (map2 _ (pmv A (blind beta w r)) (pmv A w)) with (pmv A r); [reflexivity|].
    rewrite (pmv_blind m n) by auto. unfold sz_t, pmv. clear -L.
    induction A as [|row A IH]; [reflexivity|]. cbn [map map2]. f_equal; [pring|exact IH].
Qed.
(** the simulated proof is accepted when the hash is programmed to return beta,
    whether or not t has a witness *)
Theorem C41_simple_zk_simulator_accepted (ro : oracle) tr d m (A : list (list Point)) (G H : list Point)
    (Q : Point) (t : list Point) beta w' :
  1 <= m -> rect m (2 ^ d) A -> length G = 2 ^ d -> length w' = 2 ^ d -> length t = m ->
  ro (sz_hist tr (map2 (fun u v => u - beta *: v)%P (pmv A w') t)) = beta ->
  exists proof tr',
    sz_simulate ro tr A G H Q t beta w' = Ok (proof, tr') /\
    simple_zk_verify ro tr proof A G H Q (2 ^ d) t = Ok (true, tr').
Proof.
  intros Hm HA HG Hw Ht Hb. unfold sz_simulate. cbv zeta.
  set (a := map2 _ _ _) in *.
  destruct (C36_lmpa_completeness ro (sz_hist tr a) d m A G H Q w') as (p & tr' & E & V); auto.
  rewrite E. cbn [bind]. exists (mkSimpleZK p a), tr'. split; auto.
  rewrite simple_zk_verify_eq by auto. rewrite Hb.
  replace (sz_t beta t a) with (pmv A w'); [exact V|].
  assert (Hl : length (pmv A w') = length t) by (unfold pmv; rewrite map_length, Ht; apply HA).
  unfold sz_t, a. clear -Hl L. revert t Hl. induction (pmv A w') as [|u us IH]; intros [|v t] Hl; cbn in *; try lia; auto.
  f_equal; [pring|]. apply IH. lia.
Qed.
End C41.
(** two witnesses of the same statement, blinding vectors related by the bijection *)
Definition A12 : list (list (@Point EX)) := [[pN 2; pN 3]].
Definition rngB (i : nat) : @Scalar EX := nth i [sN 100; sN 200] (sN 0).
Example C41_case :
  let f := wi_shift ro1 [] A12 [sN 4; sN 1] [sN 1; sN 3] in
  let show r := rmap (fun '(p, tr) =>
       (map zp (sz_a p), map (map zp) (lm_L (sz_no_zk p)), map (map zp) (lm_R (sz_no_zk p)), zs (lm_w (sz_no_zk p)))) r in
  let r2 := f [sN 100; sN 200] in
  map zs r2 <> [100; 200]%Z /\
  show (simple_zk_create ro1 (fun i => nth i r2 (sN 0)) 0 [] A12 [pN 0; pN 0] [] (pN 0) [sN 1; sN 3]) =
  show (simple_zk_create ro1 rngB 0 [] A12 [pN 0; pN 0] [] (pN 0) [sN 4; sN 1]) /\
  rmap (fun '(p, tr) => map zp (sz_a p)) (simple_zk_create ro1 rngB 0 [] A12 [pN 0; pN 0] [] (pN 0) [sN 4; sN 1])
  = Ok [800]%Z.
Proof. vm_compute. repeat split; congruence. Qed.

(** ** C42 *)
Section C42.
Context {C : Crypto} {L : CryptoLaws C}.
Add Field SfC42 : (@S_field C L).

(** accepting SimpleZK run along a path, with first message a and challenge beta *)
Definition sz_accepts_along tr A (G H : list Point) (Q : Point) n t a beta (p : lm_path) : Prop :=
  exists ro tr',
    simple_zk_verify ro tr
      (mkSimpleZK (mkLmpaNoZK (map (fun q => fst (fst q)) (fst p)) (map (fun q => snd (fst q)) (fst p)) (snd p)) a)
      A G H Q n t = Ok (true, tr') /\
    ro (sz_hist tr a) = beta /\
    forall j q, nth_error (fst p) j = Some q -> ro (lm_hist (sz_hist tr a) (map fst (fst p)) (S j)) = snd q.

Lemma sz_accepts_lm tr d m A (G H : list Point) Q t a beta T :
  1 <= m -> rect m (2 ^ d) A -> lm_good d T ->
  (forall p, In p (lm_paths T) -> sz_accepts_along tr A G H Q (2 ^ d) t a beta p) ->
  length (lm_extract T) = 2 ^ d /\
  comb (lm_extract T) (nth 0 A []) = (beta *: pt t 0 + pt a 0)%P.
Proof.
  intros Hm HA HT HP.
  assert (HP' : forall p, In p (lm_paths T) -> lm_accepts_along (sz_hist tr a) A G H Q (2 ^ d) (sz_t beta t a) p).
  { intros p Hp. destruct (HP p Hp) as (ro & tr' & HV & Hb & Hx). exists ro, tr'. split; auto.
    assert (Hn : 2 ^ d = length G).
    { unfold simple_zk_verify in HV. apply bind_Ok_inv in HV as (u & Hu & _). apply assertb_Ok in Hu.
      now apply Nat.eqb_eq in Hu. }
    rewrite simple_zk_verify_eq, Hb in HV by exact Hn. exact HV. }
  destruct (C37_lmpa_soundness_row0 _ d m A G H Q _ T Hm HA HT HP') as [E1 E2].
  split; auto. rewrite E2.
  assert (Hne : sz_t beta t a <> []).
  { intros Z. assert (exists p, In p (lm_paths T)) as [p Hp].
    { clear -HT. revert T HT. induction d as [|d IH]; intros [w|l r x1 T1 x2 T2 x3 T3] HT; cbn in *; try contradiction.
      - eauto.
      - destruct HT as (_ & G1 & _). destruct (IH _ G1) as [p Hp]. eexists. apply in_app_iff. left.
        apply in_map. exact Hp. }
    destruct (HP' p Hp) as (ro & tr' & HV & _). unfold lmpa_verify in HV.
    apply bind_Ok_inv in HV as (u & _ & HV). rewrite Z in HV. now apply lm_verify_loop_nil in HV. }
  unfold sz_t in *. destruct t, a; cbn in *; congruence.
Qed.

Theorem C42_simple_zk_soundness_row0 tr d m (A : list (list Point)) (G H : list Point) (Q : Point)
    (t a : list Point) b1 b2 (T1 T2 : lm_tree) :
  1 <= m -> rect m (2 ^ d) A -> lm_good d T1 -> lm_good d T2 -> b1 <> b2 ->
  (forall p, In p (lm_paths T1) -> sz_accepts_along tr A G H Q (2 ^ d) t a b1 p) ->
  (forall p, In p (lm_paths T2) -> sz_accepts_along tr A G H Q (2 ^ d) t a b2 p) ->
  length (sz_extract b1 T1 b2 T2) = 2 ^ d /\
  comb (sz_extract b1 T1 b2 T2) (nth 0 A []) = pt t 0.
Proof.
  intros Hm HA HT1 HT2 Hb HP1 HP2.
  destruct (sz_accepts_lm _ d m _ _ _ _ _ _ _ _ Hm HA HT1 HP1) as [L1 E1].
  destruct (sz_accepts_lm _ d m _ _ _ _ _ _ _ _ Hm HA HT2 HP2) as [L2 E2].
  assert (Hl : length (sz_extract b1 T1 b2 T2) = 2 ^ d).
  { unfold sz_extract, vslope. rewrite vscale_length, map2_length. lia. }
  split; [exact Hl|].
  assert (Hr := rect_nth m (2 ^ d) A 0 HA Hm).
  rewrite <- lin_comb in E1, E2 |- * by lia.
  unfold sz_extract, vslope. rewrite lin_vscale, lin_sub_s, E1, E2 by lia.
  transitivity ((sinv (b1 - b2) * (b1 - b2))%S *: pt t 0)%P; [pring|].
  rewrite sinv_l by (now apply ssub_neq). pring.
Qed.
End C42.
(** n = 1: w = 6, r = 50, challenges 2 and 9 *)
Example C42_case :
  let run b w := rmap fst (simple_zk_verify (fun _ => sN b) [] (mkSimpleZK (mkLmpaNoZK [] [] (sN w)) [pN (7 * 50)])
                   [[pN 7]] [pN 0] [] (pN 0) 1 [pN 42]) in
  run 2%Z 62%Z = Ok true /\ run 9%Z 104%Z = Ok true /\ run 9%Z 62%Z = Ok false /\
  map zs (sz_extract (sN 2) (LLeaf (sN 62)) (sN 9) (LLeaf (sN 104))) = [6%Z].
Proof. vm_compute. auto. Qed.

(** ** C48 *)
Section C48.
Context {C : Crypto} {L : CryptoLaws C}.
Add Field SfC48 : (@S_field C L).
Theorem C48_pedersen_value (H : Point) (G : list Point) (msg : list Scalar) (r : Scalar) :
  (length msg = length G -> pedersen_commit H G msg r = Ok (comb msg G + r *: H)%P) /\
  (length msg <> length G -> pedersen_commit H G msg r = Panic).
Proof.
  unfold pedersen_commit. split; intros E.
  - rewrite msm_Ok by auto. cbn [bind]. now rewrite lin_comb.
  - now rewrite msm_Panic.
Qed.
Theorem C48_pedersen_homomorphic (H : Point) (G : list Point) (m1 m2 : list Scalar) (r1 r2 a1 a2 : Scalar) c1 c2 :
  pedersen_commit H G m1 r1 = Ok c1 -> pedersen_commit H G m2 r2 = Ok c2 ->
  pedersen_commit H G (tab (length G) (fun i => a1 * sc m1 i + a2 * sc m2 i)%S) (a1 * r1 + a2 * r2)%S
  = Ok (a1 *: c1 + a2 *: c2)%P.
Proof.
  intros E1 E2.
  destruct (Nat.eq_dec (length m1) (length G)) as [H1|H1];
    [|rewrite (proj2 (C48_pedersen_value _ _ _ _) H1) in E1; discriminate].
  destruct (Nat.eq_dec (length m2) (length G)) as [H2|H2];
    [|rewrite (proj2 (C48_pedersen_value _ _ _ _) H2) in E2; discriminate].
  rewrite (proj1 (C48_pedersen_value _ _ _ _) H1) in E1. rewrite (proj1 (C48_pedersen_value _ _ _ _) H2) in E2.
  injection E1 as <-. injection E2 as <-.
  assert (Hl : length (tab (length G) (fun i => a1 * sc m1 i + a2 * sc m2 i)%S) = length G).
  { unfold tab. now rewrite map_length, seq_length. }
  rewrite (proj1 (C48_pedersen_value _ _ _ _)) by exact Hl. f_equal.
  assert (E : comb (tab (length G) (fun i => a1 * sc m1 i + a2 * sc m2 i)%S) G = (a1 *: comb m1 G + a2 *: comb m2 G)%P).
  { unfold comb. rewrite Hl, H1, H2, <- !sum_P_mul, <- sum_P_add. apply sum_P_ext. intros i Hi.
    replace (sc (tab _ _) i) with (a1 * sc m1 i + a2 * sc m2 i)%S; [pring|].
    symmetry. unfold sc at 1. now rewrite tab_nth by auto. }
  rewrite E. pring.
Qed.
End C48.
Example C48_case :
  rmap zp (pedersen_commit (pN 100) [pN 2; pN 3] [sN 5; sN 7] (sN 4)) = Ok 431%Z /\
  rmap zp (pedersen_commit (pN 100) [pN 2; pN 3] [sN 5] (sN 4)) = Panic /\
  rmap zp (pedersen_commit (pN 100) [pN 2; pN 3] [sN (3*5+2*1); sN (3*7+2*1)] (sN (3*4+2*1))) = Ok (3 * 431 + 2 * 105)%Z.
Proof. vm_compute. auto. Qed.

(** ** C51 *)
Section C51.
Context {C : Crypto} {L : CryptoLaws C}.
Add Field SfC51 : (@S_field C L).

Definition in_image (row : list Point) (P : Point) : Prop :=
  exists w, length w = length row /\ comb w row = P.
Lemma image_comb row P Q x : in_image row P -> in_image row Q -> in_image row (x *: P + Q)%P.
Proof.
  intros (w & Hw & <-) (v & Hv & <-). exists (blind x w v).
  split; [rewrite blind_length; lia|]. apply comb_affine; lia.
Qed.

(** SimpleZK: t is not absorbed. For every A, every first message a and every w'
    the prover can choose t after seeing beta so that the proof is accepted; when
    a_0 is outside the image of row 0 so is t_0. All rows satisfy the final
    equation, so checking every row would not help. *)
Theorem C51_simple_zk_statement_not_bound (ro : oracle) tr d m (A : list (list Point)) (G H : list Point)
    (Q : Point) (a : list Point) w' :
  1 <= m -> rect m (2 ^ d) A -> length G = 2 ^ d -> length w' = 2 ^ d -> length a = m ->
  ro (sz_hist tr a) <> s0 ->
  exists t proof tr',
    simple_zk_verify ro tr proof A G H Q (2 ^ d) t = Ok (true, tr') /\ sz_a proof = a /\ length t = m /\
    sz_t (ro (sz_hist tr a)) t a = pmv A w' /\
    forall i, i < m -> ~ in_image (nth i A []) (pt a i) -> ~ in_image (nth i A []) (pt t i).
Proof.
  intros Hm HA HG Hw Ha Hb. set (beta := ro (sz_hist tr a)) in *.
  set (t := map2 (fun u v => sinv beta *: (u - v))%P (pmv A w') a).
  assert (Hp : length (pmv A w') = m) by (unfold pmv; rewrite map_length; apply HA).
  assert (Ht : length t = m) by (unfold t; rewrite map2_length; lia).
  assert (Et : sz_t beta t a = pmv A w').
  { unfold sz_t, t. assert (Hl : length (pmv A w') = length a) by lia. clearbody beta. clear -Hl Hb L. revert Hl. generalize (pmv A w'). intros us.
    revert us. induction a as [|v a IH]; intros [|u us] Hl; cbn in *; try lia; auto. f_equal; [|apply IH; lia].
    transitivity ((beta * sinv beta)%S *: u - (beta * sinv beta)%S *: v + v)%P; [pring|].
    rewrite sinv_r by auto. pring. }
  destruct (C36_lmpa_completeness ro (sz_hist tr a) d m A G H Q w') as (p & tr' & E & V); auto.
  exists t, (mkSimpleZK p a), tr'. repeat split; auto.
  - rewrite simple_zk_verify_eq by auto. fold beta. rewrite Et. exact V.
  - intros i Hi Hni Hin. apply Hni.
    assert (Ei : (pt a i = (- beta)%S *: pt t i + pt (pmv A w') i)%P).
    { rewrite <- Et. unfold sz_t. unfold pt at 3. rewrite (map2_nth _ _ _ _ p0 p0) by lia.
      unfold pt. pring. }
    rewrite Ei. apply image_comb; auto. exists w'. split; [now rewrite (rect_nth m (2 ^ d))|].
    unfold pt, pmv. rewrite nth_indep with (d' := comb w' []) by (rewrite map_length; destruct HA; lia).
    now rewrite (map_nth (fun row => comb w' row)).
Qed.
(** concretely: A = 0, any non-zero first message *)
Corollary C51_simple_zk_zero_map_forged (ro : oracle) tr d (G H : list Point) (Q P : Point) :
  length G = 2 ^ d -> P <> p0 -> ro (sz_hist tr [P]) <> s0 ->
  let A := [repeat p0 (2 ^ d)] in
  exists t0 proof tr',
    (forall w, pmv A w <> [t0]) /\
    simple_zk_verify ro tr proof A G H Q (2 ^ d) [t0] = Ok (true, tr').
Proof.
  intros HG HP Hb A.
  assert (Z : forall w k, comb w (repeat p0 k) = p0).
  { intros w k. unfold comb. apply sum_P_0. intros i _. unfold pt. rewrite nth_repeat. pring. }
  destruct (C51_simple_zk_statement_not_bound ro tr d 1 A G H Q [P] (repeat s0 (2 ^ d)))
    as (t & proof & tr' & V & _ & Ht & _ & Hn); auto; try apply repeat_length.
  { split; auto. repeat constructor. apply repeat_length. }
  apply length1 in Ht as [t0 ->]. exists t0, proof, tr'. split; auto.
  intros w E. unfold pmv, A in E. cbn [map] in E. rewrite Z in E. injection E as E.
  apply (Hn 0); [lia| |].
  - intros (v & _ & Ev). cbn [nth A] in Ev. unfold pt in Ev. cbn in Ev. rewrite Z in Ev. congruence.
  - exists (repeat s0 (2 ^ d)). split; [unfold A; cbn [nth]; now rewrite !repeat_length|].
    unfold pt, A. cbn [nth]. rewrite Z. exact E.
Qed.

(** The argument without blinding does not absorb t either: with at least one
    round, t can be chosen after the first challenge. *)
Theorem C51_lmpa_statement_not_bound (ro : oracle) tr d m (A : list (list Point)) (G H : list Point)
    (Q : Point) (l : list Point) (w' : list Scalar) :
  1 <= m -> rect m (2 ^ S d) A -> length G = 2 ^ S d -> length w' = 2 ^ d -> length l = m ->
  ro (tr ++ lm_round l (repeat p0 m)) <> s0 ->
  exists t proof tr',
    lmpa_verify ro tr proof A G H Q (2 ^ S d) t = Ok (true, tr') /\ length t = m /\
    (~ in_image (nth 0 A []) (pt l 0) -> ~ in_image (nth 0 A []) (pt t 0)).
Proof.
  intros Hm HA HG Hw Hl Hx.
  set (r := repeat p0 m). set (tr1 := tr ++ lm_round l r). fold r in Hx. fold tr1 in Hx. set (x := ro tr1) in *.
  rewrite pow2_S in HA.
  set (A' := map (frow x) A). assert (HA' : rect m (2 ^ d) A') by (now apply frow_rect).
  destruct (lm_create_loop_spec d (S d) ro tr1 m A' w' [] []) as (ls & rs & w0 & _ & E1 & E2 & _ & _ & V); auto.
  set (t := map2 (fun u v => sinv x *: (u - v))%P (pmv A' w') l).
  assert (Hp : length (pmv A' w') = m) by (unfold pmv; rewrite map_length; apply HA').
  assert (Ht : length t = m) by (unfold t; rewrite map2_length; lia).
  assert (Et : ftgt x l r t = pmv A' w').
  { unfold ftgt, t, r. assert (Hlp : length (pmv A' w') = length l) by lia. clearbody x. clear -Hlp Hx Hl L.
    generalize dependent (pmv A' w'). subst m. induction l as [|v l IH]; intros [|u us] Hl; cbn in *; try lia; auto.
    f_equal; [|apply IH; lia].
    transitivity (v + (x * sinv x)%S *: u - (x * sinv x)%S *: v)%P; [pring|].
    rewrite sinv_r by auto. pring. }
  exists t, (mkLmpaNoZK (l :: ls) (r :: rs) w0), (lm_hist tr1 (combine ls rs) d).
  split; [|split; [exact Ht|]].
  - unfold lmpa_verify. rewrite HG, Nat.eqb_refl. cbn [assertb bind].
    rewrite (lm_verify_step _ _ _ _ _ _ _ _ l r) by (auto; apply Nat.eqb_neq, pow2_S_neq1).
    cbv zeta. fold tr1. fold x. rewrite fold_matrix by (eapply rect_even; eauto). cbn [bind].
    rewrite pow2_half. fold A'. rewrite Et. rewrite <- (pmv_lin m (2 ^ d)), mpv_lin by auto.
    apply V; auto. cbn [lm_L length]. lia.
  - intros Hni Hin. apply Hni.
    assert (Hrow : length (nth 0 A []) = 2 ^ d + 2 ^ d) by (now apply (rect_nth m)).
    assert (E0 : nth 0 A' [] = frow x (nth 0 A [])).
    { unfold A'. rewrite nth_indep with (d' := frow x []) by (rewrite map_length; destruct HA; lia). apply map_nth. }
    assert (Ei : (pt l 0 = (- x)%S *: pt t 0 + pt (pmv A' w') 0)%P).
    { rewrite <- Et. rewrite ftgt_nil_inv.
      - unfold r. unfold pt at 5. rewrite nth_repeat. pring.
      - rewrite Et. intros Z. rewrite Z in Hp. cbn in Hp. lia. }
    rewrite Ei. apply image_comb; auto.
    exists (w' ++ vscale x w'). split; [rewrite app_length, vscale_length; lia|].
    rewrite <- lin_comb by (rewrite app_length, vscale_length; lia).
    transitivity (lin (w' ++ vscale x w') (flo (nth 0 A []) ++ fhi (nth 0 A []))).
    { f_equal. unfold flo, fhi. now rewrite firstn_skipn. }
    rewrite lin_app by (rewrite (flo_length (2 ^ d)); auto).
    rewrite lin_vscale, <- (frow_lin (2 ^ d)) by auto.
    rewrite <- E0, lin_comb by (rewrite (rect_nth m (2 ^ d)); auto).
    unfold pt, pmv. rewrite nth_indep with (d' := comb w' []) by (rewrite map_length; destruct HA'; lia).
    now rewrite (map_nth (fun row => comb w' row)).
Qed.
End C51.
(** A = 0, beta = 16 for this transcript length, t = -16^-1 * 5 *)
Example C51_case :
  let t := [(sinv (sN 16) *: pN (-5))%P] in
  zs (ro1 (sz_hist [] [pN 5])) = 16%Z /\ zp (nth 0 t (pN 0)) <> 0%Z /\
  rmap fst (simple_zk_verify ro1 [] (mkSimpleZK (mkLmpaNoZK [[pN 0]] [[pN 0]] (sN 0)) [pN 5])
     [[pN 0; pN 0]] [pN 1; pN 1] [] (pN 0) 2 t) = Ok true.
Proof. vm_compute. repeat split; congruence. Qed.
