(** C36-C39, C51: the binary linear-map preimage argument. *)
From Coq Require Import String.
From Verif Require Export LmpaFacts Ex.
From Verif Require Import PropIpa.
Local Open Scope nat_scope.
Local Open Scope list_scope.

Section C36.
Context {C : Crypto} {L : CryptoLaws C}.
Add Field SfC36 : (@S_field C L).

Theorem C36_lmpa_completeness (ro : oracle) tr d m (A : list (list Point)) (G H : list Point) (Q : Point)
    (w : list Scalar) :
  1 <= m -> rect m (2 ^ d) A -> length G = 2 ^ d -> length w = 2 ^ d ->
  exists proof tr',
    lmpa_create ro tr A G H Q w = Ok (proof, tr') /\
    lmpa_verify ro tr proof A G H Q (2 ^ d) (pmv A w) = Ok (true, tr').
Proof.
  intros Hm HA HG Hw.
  destruct (lmpa_complete d ro tr m A G H Q w HA HG Hw) as (l & r & w0 & E & _ & _ & _ & _ & V).
  eauto.
Qed.
End C36.
Definition A24 : list (list (@Point EX)) := [[pN 5; pN 11; pN 3; pN 8]; [pN 2; pN 9; pN 6; pN 13]].
Example C36_case :
  rmap (fun '(p, tr) =>
          (length (lm_L p), rmap (fun '(b, tr') => (b, length tr, length tr'))
          (lmpa_verify ro1 [] p A24 G4 H4 (pN 17) 4 [pN (1*5+2*11+3*3+4*8); pN (1*2+2*9+3*6+4*13)])))
     (lmpa_create ro1 [] A24 G4 H4 (pN 17) [sN 1; sN 2; sN 3; sN 4])
  = Ok (2, Ok (true, 10, 10)) /\
  rmap (fun '(p, tr) =>
          rmap (fun '(b, tr') => b)
          (lmpa_verify ro1 [] p A24 G4 H4 (pN 17) 4 [pN (1*5+2*11+3*3+4*8 + 1); pN (1*2+2*9+3*6+4*13)]))
     (lmpa_create ro1 [] A24 G4 H4 (pN 17) [sN 1; sN 2; sN 3; sN 4])
  = Ok (Ok false).
Proof. vm_compute. auto. Qed.

(** ** C37 *)
Section C37.
Context {C : Crypto} {L : CryptoLaws C}.
Add Field SfC37 : (@S_field C L).

(** the path is the transcript of an accepting run of the verifier for some hash function *)
Definition lm_accepts_along tr A (G H : list Point) (Q : Point) n t (p : lm_path) : Prop :=
  exists ro tr',
    lmpa_verify ro tr (mkLmpaNoZK (map (fun q => fst (fst q)) (fst p)) (map (fun q => snd (fst q)) (fst p)) (snd p))
                A G H Q n t = Ok (true, tr') /\
    forall j q, nth_error (fst p) j = Some q -> ro (lm_hist tr (map fst (fst p)) (S j)) = snd q.

(** the check on row 0, along given challenges *)
Fixpoint row_ok (rounds : list (list Point * list Point * Scalar)) (w : Scalar) (row : list Point) (t : Point) : Prop :=
  match rounds with
  | [] => (w *: pt row 0)%P = t
  | (l, r, x) :: rs => row_ok rs w (frow x row) (pt l 0 + x *: t + (x * x)%S *: pt r 0)%P
  end.

Lemma ftgt_nil_inv c Lr Rr t : ftgt c Lr Rr t <> [] ->
  pt (ftgt c Lr Rr t) 0 = (pt Lr 0 + c *: pt t 0 + (c * c)%S *: pt Rr 0)%P.
Proof. destruct Lr, Rr, t; cbn; congruence. Qed.
Lemma lm_verify_loop_nil f : forall ro tr proof n A i r, lmpa_verify_loop f ro tr proof n A [] i = Ok r -> False.
Proof.
  induction f as [|f IH]; intros ro tr proof n A i r; cbn [lmpa_verify_loop]; [discriminate|].
  destruct (n =? 1).
  - cbn [idx nth_error]. destruct (idx _ _); discriminate.
  - destruct (idx (lm_L proof) i) as [Lr| |]; cbn [bind]; try discriminate.
    destruct (idx (lm_R proof) i) as [Rr| |]; cbn [bind]; try discriminate.
    destruct (challenge_scalar _ _ _) as [c tr2].
    destruct (matrixpoint_matrix_add _ _) as [A'| |]; cbn [bind]; try discriminate.
    replace (map2 _ _ []) with (@nil Point) by (destruct (combine Lr Rr); reflexivity).
    apply IH.
Qed.

Lemma lm_verify_loop_row0 rounds : forall f ro tr proof m A t i tr',
  1 <= m -> rect m (2 ^ length rounds) A ->
  (forall j q, nth_error rounds j = Some q ->
     nth_error (lm_L proof) (i + j) = Some (fst (fst q)) /\
     nth_error (lm_R proof) (i + j) = Some (snd (fst q)) /\
     ro (lm_hist tr (map fst rounds) (S j)) = snd q) ->
  lmpa_verify_loop f ro tr proof (2 ^ length rounds) A t i = Ok (true, tr') ->
  row_ok rounds (lm_w proof) (nth 0 A []) (pt t 0).
Proof.
  induction rounds as [|[[l r] x] rounds IH]; intros f ro tr proof m A t i tr' Hm HA HP HV;
    (destruct f as [|f]; [discriminate|]); cbn [length] in *.
  - cbn [Nat.pow lmpa_verify_loop Nat.eqb] in HV. rewrite mpv_lin in HV.
    assert (H0 := rect_nth _ _ _ 0 HA Hm). destruct HA as [HA _].
    destruct A as [|row A]; cbn in HA; [lia|]. cbn in H0. apply length1 in H0 as [p ->].
    cbn [map idx nth_error bind] in HV. destruct t as [|t0 t]; cbn in HV; [discriminate|].
    injection HV as HV _. apply peqb_eq in HV. cbn. rewrite <- HV. pring.
  - assert (Hn : 2 ^ S (length rounds) <> 1) by (apply Nat.eqb_neq, pow2_S_neq1).
    destruct (HP 0 (l, r, x) eq_refl) as (HL & HR & Hx). cbn [fst snd] in HL, HR, Hx.
    rewrite Nat.add_0_r in HL, HR.
    rewrite (lm_verify_step _ _ _ _ _ _ _ _ l r) in HV by auto. cbv zeta in HV.
    rewrite pow2_S in HA.
    rewrite fold_matrix in HV by (eapply rect_even; eauto). cbn [bind] in HV. rewrite pow2_half in HV.
    assert (E : ro (tr ++ lm_round l r) = x).
    { rewrite <- Hx. f_equal. unfold lm_hist, lm_rounds. cbn [map firstn concat fst snd]. now rewrite app_nil_r. }
    rewrite E in HV. cbn [row_ok].
    assert (Ht : ftgt x l r t <> []).
    { intros Ht. rewrite Ht in HV. eapply lm_verify_loop_nil; eauto. }
    rewrite <- (ftgt_nil_inv _ _ _ _ Ht).
    assert (H0 : nth 0 (map (frow x) A) [] = frow x (nth 0 A [])).
    { rewrite nth_indep with (d' := frow x []) by (rewrite map_length; destruct HA; lia). apply map_nth. }
    rewrite <- H0. eapply IH; [exact Hm|now apply frow_rect| |exact HV].
    intros j q Hq. destruct (HP (S j) q Hq) as (HL' & HR' & Hx').
    replace (S i + j) with (i + S j) by lia. repeat split; auto.
    rewrite <- Hx'. f_equal. unfold lm_hist, lm_rounds. cbn [map firstn concat fst snd]. now rewrite <- app_assoc.
Qed.

Lemma lm_paths_length d : forall T p, lm_good d T -> In p (lm_paths T) -> length (fst p) = d.
Proof.
  induction d as [|d IH]; intros [w|l r x1 T1 x2 T2 x3 T3] p Hg Hp; cbn in *; try contradiction.
  - destruct Hp as [<-|[]]. reflexivity.
  - destruct Hg as (_ & G1 & G2 & G3). rewrite !in_app_iff, !in_map_iff in Hp.
    destruct Hp as [(q & <- & Hq)|[(q & <- & Hq)|(q & <- & Hq)]]; cbn; f_equal; eauto.
Qed.
Lemma lm_extract_length d : forall T, lm_good d T -> length (lm_extract T) = 2 ^ d.
Proof.
  induction d as [|d IH]; intros [w|l r x1 T1 x2 T2 x3 T3] Hg; cbn in Hg; try contradiction; auto.
  destruct Hg as (_ & G1 & G2 & G3). cbn [lm_extract]. cbv zeta.
  rewrite app_length, !lc3_length by (rewrite ?vscale_length, ?(IH _ G1), ?(IH _ G2), ?(IH _ G3); auto).
  rewrite vscale_length, (IH _ G1). now rewrite pow2_S.
Qed.
Lemma lag1_P x1 x2 x3 (u v w : Point) : x1 <> x2 -> x1 <> x3 -> x2 <> x3 ->
  (let '(l1, l2, l3) := lag1 x1 x2 x3 in
   l1 *: (u + x1 *: v + (x1 * x1)%S *: w) + (l2 *: (u + x2 *: v + (x2 * x2)%S *: w)
   + l3 *: (u + x3 *: v + (x3 * x3)%S *: w)) = v)%P.
Proof.
  intros H1 H2 H3.
  assert (E0 := lag1_quad x1 x2 x3 s0 s0 s1 H1 H2 H3).
  assert (E1 := lag1_quad x1 x2 x3 s0 s1 s0 H1 H2 H3).
  assert (E2 := lag1_quad x1 x2 x3 s1 s0 s0 H1 H2 H3).
  destruct (lag1 x1 x2 x3) as [[l1 l2] l3]. cbn [lc3s] in E0, E1, E2.
  transitivity ((l1 * (x1 * x1 * s0 + x1 * s0 + s1) + (l2 * (x2 * x2 * s0 + x2 * s0 + s1) + l3 * (x3 * x3 * s0 + x3 * s0 + s1)))%S *: u
    + (l1 * (x1 * x1 * s0 + x1 * s1 + s0) + (l2 * (x2 * x2 * s0 + x2 * s1 + s0) + l3 * (x3 * x3 * s0 + x3 * s1 + s0)))%S *: v
    + (l1 * (x1 * x1 * s1 + x1 * s0 + s0) + (l2 * (x2 * x2 * s1 + x2 * s0 + s0) + l3 * (x3 * x3 * s1 + x3 * s0 + s0)))%S *: w)%P;
    [pring|]. rewrite E0, E1, E2. pring.
Qed.
Lemma nodup3 (x1 x2 x3 : Scalar) : NoDup [x1; x2; x3] -> x1 <> x2 /\ x1 <> x3 /\ x2 <> x3.
Proof.
  intros HN. inversion HN as [|? ? N1 HN1]; subst. inversion HN1 as [|? ? N2 HN2]; subst.
  cbn in N1, N2. repeat split; intros ->; tauto.
Qed.

Lemma lm_extract_ok d : forall T row t, lm_good d T -> length row = 2 ^ d ->
  (forall p, In p (lm_paths T) -> row_ok (fst p) (snd p) row t) ->
  lin (lm_extract T) row = t.
Proof.
  induction d as [|d IH]; intros [w|l r x1 T1 x2 T2 x3 T3] row t Hg Hr HP; cbn in Hg; try contradiction.
  - cbn in Hr. apply length1 in Hr as [p ->].
    assert (H := HP _ (or_introl eq_refl)). cbn in *. rewrite <- H. pring.
  - destruct Hg as (HN & G1 & G2 & G3). apply nodup3 in HN as (D12 & D13 & D23).
    rewrite pow2_S in Hr.
    assert (K : forall x T, lm_good d T ->
              (forall p, In p (lm_paths T) -> In (lm_path_cons l r x p) (lm_paths (LNode l r x1 T1 x2 T2 x3 T3))) ->
              (lin (lm_extract T) (flo row) + x *: lin (lm_extract T) (fhi row)
               = pt l 0 + x *: t + (x * x)%S *: pt r 0)%P).
    { intros x T HT Hin. rewrite <- (frow_lin (2 ^ d)); auto using lm_extract_length.
      apply IH; auto; [now apply frow_length|].
      intros p Hp. exact (HP _ (Hin p Hp)). }
    assert (K1 := K x1 T1 G1). assert (K2 := K x2 T2 G2). assert (K3 := K x3 T3 G3). clear K.
    cbn [lm_paths] in K1, K2, K3.
    specialize (K1 ltac:(intros p Hp; rewrite !in_app_iff, !in_map_iff; left; eauto)).
    specialize (K2 ltac:(intros p Hp; rewrite !in_app_iff, !in_map_iff; right; left; eauto)).
    specialize (K3 ltac:(intros p Hp; rewrite !in_app_iff, !in_map_iff; right; right; eauto)).
    assert (E1 := lm_extract_length d T1 G1). assert (E2 := lm_extract_length d T2 G2).
    assert (E3 := lm_extract_length d T3 G3).
    cbn [lm_extract]. cbv zeta.
    set (w1 := lm_extract T1) in *. set (w2 := lm_extract T2) in *. set (w3 := lm_extract T3) in *.
    transitivity (lin (lc3 (lag1 x1 x2 x3) w1 w2 w3) (flo row)
                  + lin (lc3 (lag1 x1 x2 x3) (vscale x1 w1) (vscale x2 w2) (vscale x3 w3)) (fhi row))%P.
    { rewrite <- lin_app.
      - f_equal. unfold flo, fhi. now rewrite firstn_skipn.
      - rewrite lc3_length by lia. rewrite (flo_length (2 ^ d)); auto. }
    rewrite !lin_lc3 by (rewrite ?vscale_length; lia). rewrite !lin_vscale.
    assert (F := lag1_P x1 x2 x3 (pt l 0) t (pt r 0) D12 D13 D23).
    destruct (lag1 x1 x2 x3) as [[l1 l2] l3].
    rewrite <- F, <- K1, <- K2, <- K3. pring.
Qed.

Theorem C37_lmpa_soundness_row0 tr d m (A : list (list Point)) (G H : list Point) (Q : Point)
    (t : list Point) (T : lm_tree) :
  1 <= m -> rect m (2 ^ d) A -> lm_good d T ->
  (forall p, In p (lm_paths T) -> lm_accepts_along tr A G H Q (2 ^ d) t p) ->
  length (lm_extract T) = 2 ^ d /\
  comb (lm_extract T) (nth 0 A []) = pt t 0.
Proof.
  intros Hm HA HT HP.
  assert (Hl := lm_extract_length d T HT). split; [exact Hl|].
  rewrite <- lin_comb by (rewrite Hl, (rect_nth m (2 ^ d)); auto).
  apply (lm_extract_ok d); auto; [now apply (rect_nth m)|].
  intros p Hp. destruct (HP p Hp) as (ro & tr' & HV & Hx).
  unfold lmpa_verify in HV. apply bind_Ok_inv in HV as (u & _ & HV).
  assert (Hd := lm_paths_length d T p HT Hp).
  rewrite <- Hd in HV. eapply lm_verify_loop_row0 in HV; [exact HV|exact Hm|now rewrite Hd|].
  intros j q Hq. cbn [lm_L lm_R Nat.add]. rewrite !nth_error_map, Hq. cbn. repeat split; auto.
Qed.

(** hence: with a single row the argument is sound for the whole statement *)
Corollary C37_lmpa_soundness_single_row tr d (row : list Point) (G H : list Point) (Q : Point)
    (t0 : Point) (T : lm_tree) :
  length row = 2 ^ d -> lm_good d T ->
  (forall p, In p (lm_paths T) -> lm_accepts_along tr [row] G H Q (2 ^ d) [t0] p) ->
  length (lm_extract T) = 2 ^ d /\ pmv [row] (lm_extract T) = [t0].
Proof.
  intros Hr HT HP. destruct (C37_lmpa_soundness_row0 tr d 1 [row] G H Q [t0] T) as [E1 E2]; auto.
  { split; auto. }
  split; auto. unfold pmv. cbn [map]. cbn [nth pt] in E2. f_equal. exact E2.
Qed.
End C37.

(** a tree for n = 2: the honest prover answering three challenges; its witness is recovered *)
Definition lm_htree : @lm_tree EX :=
  let w1 := 7%Z in let w2 := 9%Z in
  let nd x := sN (x * w1 + w2) in
  LNode [pN (5 * w2); pN (2 * w2)] [pN (11 * w1); pN (3 * w1)]
    (sN 2) (LLeaf (nd 2%Z)) (sN 3) (LLeaf (nd 3%Z)) (sN 10) (LLeaf (nd 10%Z)).
Example C37_case :
  map (fun p => rmap fst (lmpa_verify (fun _ => nth 0 (map snd (fst p)) (sN 0)) []
         (mkLmpaNoZK (map (fun q => fst (fst q)) (fst p)) (map (fun q => snd (fst q)) (fst p)) (snd p))
         [[pN 5; pN 11]; [pN 2; pN 3]] [pN 0; pN 0] [] (pN 0) 2 [pN (5 * 7 + 11 * 9); pN (2 * 7 + 3 * 9)]))
      (lm_paths lm_htree) = [Ok true; Ok true; Ok true] /\
  map zs (lm_extract lm_htree) = [7%Z; 9%Z].
Proof. vm_compute. auto. Qed.

(** ** C38 *)
Section C38.
Context {C : Crypto} {L : CryptoLaws C}.
Add Field SfC38 : (@S_field C L).

Lemma lm_verify_loop_head f : forall ro tr proof n A i t t', nth_error t 0 = nth_error t' 0 ->
  lmpa_verify_loop f ro tr proof n A t i = lmpa_verify_loop f ro tr proof n A t' i.
Proof.
  induction f as [|f IH]; intros ro tr proof n A i t t' Ht; cbn [lmpa_verify_loop]; [reflexivity|].
  destruct (n =? 1).
  - destruct (idx (matrixpoint_vector_mul A _) 0); cbn [bind]; auto.
    unfold idx. now rewrite Ht.
  - destruct (idx (lm_L proof) i) as [Lr| |]; cbn [bind]; auto.
    destruct (idx (lm_R proof) i) as [Rr| |]; cbn [bind]; auto.
    destruct (challenge_scalar _ _ _) as [c tr2].
    destruct (matrixpoint_matrix_add _ _) as [A'| |]; cbn [bind]; auto.
    apply IH. destruct (combine Lr Rr) as [|[l r] lr], t as [|t0 t], t' as [|t0' t']; cbn in *; congruence.
Qed.

(** the verdict and the transcript depend on t only through t_0 *)
Theorem C38_lmpa_only_first_row (ro : oracle) tr proof A (G H : list Point) (Q : Point) n
    (t0 : Point) (t t' : list Point) :
  lmpa_verify ro tr proof A G H Q n (t0 :: t) = lmpa_verify ro tr proof A G H Q n (t0 :: t').
Proof.
  unfold lmpa_verify. destruct (assertb _); cbn [bind]; auto. now apply lm_verify_loop_head.
Qed.
Theorem C38_simple_zk_only_first_row (ro : oracle) tr proof A (G H : list Point) (Q : Point) n
    (t0 : Point) (t t' : list Point) :
  simple_zk_verify ro tr proof A G H Q n (t0 :: t) = simple_zk_verify ro tr proof A G H Q n (t0 :: t').
Proof.
  unfold simple_zk_verify. destruct (assertb _); cbn [bind]; auto.
  destruct (challenge_scalar _ _ _) as [beta tr1].
  unfold lmpa_verify. destruct (assertb _); cbn [bind]; auto. apply lm_verify_loop_head.
  destruct (sz_a proof); reflexivity.
Qed.
(** so the honest proof for A w is also accepted for every t' that agrees with
    A w in row 0, in particular for statements without any witness *)
Theorem C38_lmpa_false_statement_accepted (ro : oracle) tr d m (A : list (list Point)) (G H : list Point)
    (Q : Point) (w : list Scalar) (t' : list Point) :
  1 <= m -> rect m (2 ^ d) A -> length G = 2 ^ d -> length w = 2 ^ d ->
  nth_error t' 0 = nth_error (pmv A w) 0 ->
  exists proof tr',
    lmpa_create ro tr A G H Q w = Ok (proof, tr') /\
    lmpa_verify ro tr proof A G H Q (2 ^ d) t' = Ok (true, tr').
Proof.
  intros Hm HA HG Hw Ht.
  destruct (lmpa_complete d ro tr m A G H Q w HA HG Hw) as (l & r & w0 & E & _ & _ & _ & _ & V).
  exists (mkLmpaNoZK l r w0), (lm_hist tr (combine l r) d). split; auto. rewrite <- V by auto.
  unfold lmpa_verify. destruct (assertb _); cbn [bind]; auto. now apply lm_verify_loop_head.
Qed.
(** a statement of this kind without witness exists for every n: A = 0, t = (0, P) *)
Theorem C38_lmpa_sound_for_all_rows_refuted (ro : oracle) tr d (G H : list Point) (Q P : Point) :
  length G = 2 ^ d -> P <> p0 ->
  let A := [repeat p0 (2 ^ d); repeat p0 (2 ^ d)] in
  (forall w, pmv A w <> [p0; P]) /\
  exists proof tr', lmpa_verify ro tr proof A G H Q (2 ^ d) [p0; P] = Ok (true, tr').
Proof.
  intros HG HP A.
  assert (Z : forall w k, comb w (repeat p0 k) = p0).
  { intros w k. unfold comb. apply sum_P_0. intros i _. unfold pt. rewrite nth_repeat. pring. }
  split.
  - intros w E. unfold pmv, A in E. cbn [map] in E. rewrite Z in E. congruence.
  - destruct (C38_lmpa_false_statement_accepted ro tr d 2 A G H Q (repeat s0 (2 ^ d)) [p0; P])
      as (proof & tr' & _ & V); auto; [|apply repeat_length| |eauto].
    + split; auto. repeat constructor; apply repeat_length.
    + cbn. now rewrite Z.
Qed.
End C38.
Example C38_case :
  rmap (fun '(p, tr) =>
          (rmap fst (lmpa_verify ro1 [] p A24 G4 H4 (pN 17) 4 [pN (1*5+2*11+3*3+4*8); pN 12345]),
           rmap fst (lmpa_verify ro1 [] p A24 G4 H4 (pN 17) 4 [pN (1*5+2*11+3*3+4*8)]),
           rmap fst (lmpa_verify ro1 [] p A24 G4 H4 (pN 17) 4 [])))
     (lmpa_create ro1 [] A24 G4 H4 (pN 17) [sN 1; sN 2; sN 3; sN 4])
  = Ok (Ok true, Ok true, Panic).
Proof. vm_compute. auto. Qed.

(** ** C39 *)
Section C39.
Context {C : Crypto} {L : CryptoLaws C}.

Lemma nat_even_dec n : {Nat.Even n} + {~ Nat.Even n}.
Proof.
  destruct (Nat.even n) eqn:E; [left|right].
  - now apply Nat.even_spec.
  - intros H. apply Nat.even_spec in H. congruence.
Qed.
Lemma even_half n : Nat.Even n -> n = n / 2 + n / 2.
Proof. intros [h ->]. replace (2 * h) with (h + h) by lia. now rewrite half_even. Qed.
Lemma lm_create_loop_panic f : forall ro tr m n A w Ls Rs,
  n < f -> 1 <= m -> 1 <= n -> rect m n A -> (forall d, n <> 2 ^ d) ->
  lmpa_create_loop f ro tr n A w Ls Rs = Panic.
Proof.
  induction f as [|f IH]; intros ro tr m n A w Ls Rs Hf Hm Hn HA Hp; [lia|].
  assert (H1 : n <> 1) by exact (Hp 0).
  rewrite lm_create_step by auto. cbv zeta.
  destruct (Nat.Even_or_Odd n) as [E|O].
  - assert (Eh := even_half _ E). set (h := n / 2) in *.
    rewrite Eh in HA. rewrite fold_matrix by (eapply rect_even; eauto). cbn [bind].
    apply (IH _ _ m); try lia.
    + now apply frow_rect.
    + intros d Hd. apply (Hp (S d)). rewrite pow2_S. lia.
  - rewrite fold_matrix_panic; [reflexivity|]. intros F.
    destruct HA as [Hl HA]. destruct A as [|row A]; cbn in Hl; [lia|].
    apply Forall_inv in F. apply Forall_inv in HA. rewrite HA in F.
    exact (Nat.Even_Odd_False _ F O).
Qed.
Lemma lm_create_loop_0 f : forall ro tr A w Ls Rs m, rect m 0 A ->
  lmpa_create_loop f ro tr 0 A w Ls Rs = Diverge.
Proof.
  induction f as [|f IH]; intros ro tr A w Ls Rs m HA; [reflexivity|].
  rewrite (lm_create_step_ok _ _ _ _ _ _ _ _ m 0) by (auto; lia). cbv zeta.
  cbn [Nat.div Nat.divmod fst Nat.sub]. apply (IH _ _ _ _ _ _ m). now apply (frow_rect m 0).
Qed.

(** on well-shaped input creation returns exactly for powers of two, with log2 n
    rounds of m points; otherwise it panics, except for n = 0 *)
Theorem C39_lmpa_create_returns (ro : oracle) tr m n A (G H : list Point) Q w :
  1 <= m -> rect m n A -> length G = n -> length w = n ->
  (exists d proof tr', n = 2 ^ d /\ lmpa_create ro tr A G H Q w = Ok (proof, tr') /\
     length (lm_L proof) = d /\ length (lm_R proof) = d /\
     Forall (fun u => length u = m) (lm_L proof) /\ Forall (fun u => length u = m) (lm_R proof)) \/
  ((forall d, n <> 2 ^ d) /\ 1 <= n /\ lmpa_create ro tr A G H Q w = Panic) \/
  (n = 0 /\ forall fuel, lmpa_create_loop fuel ro tr n A w [] [] = Diverge).
Proof.
  intros Hm HA HG Hw. destruct (is_power_of_two n) eqn:E.
  - apply is_power_of_two_spec in E as [d ->].
    destruct (lmpa_complete d ro tr m A G H Q w HA HG Hw) as (l & r & w0 & E & Hl & Hr & Fl & Fr & _).
    left. exists d, (mkLmpaNoZK l r w0), (lm_hist tr (combine l r) d). cbn. repeat split; auto.
  - right. assert (Hp : forall d, n <> 2 ^ d).
    { intros d Hd. rewrite (proj2 (is_power_of_two_spec n)) in E; [discriminate|eauto]. }
    destruct n as [|n].
    + right. split; auto. intros fuel. now apply (lm_create_loop_0 _ _ _ _ _ _ _ m).
    + left. repeat split; auto; [lia|]. unfold lmpa_create. rewrite HG.
      apply (lm_create_loop_panic _ _ _ m); auto; lia.
Qed.
(** the fuel of the model is enough: the result of the loop does not depend on
    it, so for n >= 1 the loop always terminates, whatever the shapes *)
Theorem C39_lmpa_create_terminates (ro : oracle) n : forall f g tr A w Ls Rs,
  1 <= n -> n <= f -> n <= g ->
  lmpa_create_loop f ro tr n A w Ls Rs = lmpa_create_loop g ro tr n A w Ls Rs /\
  lmpa_create_loop f ro tr n A w Ls Rs <> Diverge.
Proof.
  induction n as [n IH] using lt_wf_ind. intros f g tr A w Ls Rs Hn Hf Hg.
  destruct f as [|f], g as [|g]; try lia.
  destruct (Nat.eq_dec n 1) as [->|H1].
  - cbn [lmpa_create_loop Nat.eqb]. split; [reflexivity|]. unfold idx. destruct (nth_error w 0); discriminate.
  - rewrite !lm_create_step by auto. cbv zeta.
    assert (Hh : n / 2 < n) by (apply Nat.div_lt; lia).
    assert (Hh1 : 1 <= n / 2) by (apply Nat.div_le_lower_bound; lia).
    destruct (matrixpoint_matrix_add _ _) as [A'| |] eqn:E; cbn [bind].
    + apply IH; lia.
    + split; [reflexivity|discriminate].
    + exfalso. set (c := ro _) in E.
      destruct (Forall_dec (fun row => Nat.Even (length row)) (fun row => nat_even_dec (length row)) A) as [F|F].
      * rewrite fold_matrix in E by auto. discriminate.
      * rewrite fold_matrix_panic in E by auto. discriminate.
Qed.
(** verification terminates on every input *)
Lemma lm_verify_loop_terminates k : forall f g ro tr proof n A t i,
  length (lm_L proof) - i <= k -> k < f -> k < g ->
  lmpa_verify_loop f ro tr proof n A t i = lmpa_verify_loop g ro tr proof n A t i /\
  lmpa_verify_loop f ro tr proof n A t i <> Diverge.
Proof.
  induction k as [|k IH]; intros f g ro tr proof n A t i Hk Hf Hg; destruct f as [|f], g as [|g]; try lia;
    cbn [lmpa_verify_loop]; (destruct (n =? 1);
      [split; [reflexivity|]; unfold idx;
       destruct (nth_error (matrixpoint_vector_mul A _) 0); cbn [bind]; [|discriminate];
       destruct (nth_error t 0); discriminate|]).
  - rewrite idx_ge by lia. split; [reflexivity|discriminate].
  - unfold idx. destruct (nth_error (lm_L proof) i) as [Lr|] eqn:EL; cbn [bind]; [|split; [reflexivity|discriminate]].
    destruct (nth_error (lm_R proof) i) as [Rr|]; cbn [bind]; [|split; [reflexivity|discriminate]].
    destruct (challenge_scalar _ _ _) as [c tr2].
    assert (Hi : i < length (lm_L proof)) by (apply nth_error_Some; congruence).
    destruct (matrixpoint_matrix_add _ _) as [A'| |] eqn:E; cbn [bind].
    + apply IH; lia.
    + split; [reflexivity|discriminate].
    + exfalso.
      destruct (Forall_dec (fun row => Nat.Even (length row)) (fun row => nat_even_dec (length row)) A) as [F|F].
      * rewrite fold_matrix in E by auto. discriminate.
      * rewrite fold_matrix_panic in E by auto. discriminate.
Qed.
Theorem C39_lmpa_verify_terminates (ro : oracle) tr proof A (G H : list Point) Q n t :
  lmpa_verify ro tr proof A G H Q n t <> Diverge /\
  forall f, length (lm_L proof) < f ->
    lmpa_verify ro tr proof A G H Q n t =
    (assertb (n =? length G) ;;; lmpa_verify_loop f ro tr proof n A t 0).
Proof.
  unfold lmpa_verify. split.
  - destruct (n =? length G); cbn [assertb bind]; [|discriminate].
    apply (lm_verify_loop_terminates (length (lm_L proof)) _ (S (length (lm_L proof)))); lia.
  - intros f Hf. destruct (n =? length G); cbn [assertb bind]; [|reflexivity].
    apply (lm_verify_loop_terminates (length (lm_L proof))); lia.
Qed.
End C39.
Example C39_case :
  let run n := rmap (fun '(p, tr) => (length (lm_L p), map (@length _) (lm_R p)))
     (lmpa_create ro1 [] (repeat (repeat (pN 3) n) 2) (repeat (pN 3) n) [] (pN 1) (repeat (sN 3) n)) in
  run 8 = Ok (3, [2; 2; 2]) /\ run 1 = Ok (0, []) /\ run 6 = Panic /\ run 3 = Panic /\ run 0 = Diverge.
Proof. vm_compute. repeat split. Qed.
