(** C61: accepted proofs can be altered without being rejected. *)
From Coq Require Import String.
From Verif Require Export PropPanic PropKary PropCopyCases.
Local Open Scope string_scope.
Local Open Scope nat_scope.
Local Open Scope list_scope.

Section C61.
Context {C : Crypto}.

(** ** binary version: rounds beyond the d-th are never looked at *)
Lemma lmpa_loop_agree ro pf pf' : lm_w pf = lm_w pf' -> forall d f f' tr A t i,
  d < f -> d < f' ->
  (forall j, j < d -> nth_error (lm_L pf) (i + j) = nth_error (lm_L pf') (i + j)) ->
  (forall j, j < d -> nth_error (lm_R pf) (i + j) = nth_error (lm_R pf') (i + j)) ->
  lmpa_verify_loop f ro tr pf (2 ^ d) A t i = lmpa_verify_loop f' ro tr pf' (2 ^ d) A t i.
Proof.
  intros Hw. induction d as [|d IH]; intros f f' tr A t i Hf Hf' HL HR;
    (destruct f as [|f]; [lia|]); (destruct f' as [|f']; [lia|]); cbn [lmpa_verify_loop].
  - change (2 ^ 0 =? 1) with true. cbv iota zeta. now rewrite Hw.
  - rewrite pow2_half. destruct (2 ^ S d =? 1); [now rewrite Hw|]. cbv zeta.
    unfold idx. assert (HL0 := HL 0 ltac:(lia)). assert (HR0 := HR 0 ltac:(lia)). rewrite Nat.add_0_r in HL0, HR0.
    rewrite HL0. destruct (nth_error (lm_L pf') i) as [l|]; [|reflexivity]. cbn [bind].
    rewrite HR0. destruct (nth_error (lm_R pf') i) as [r|]; [|reflexivity]. cbn [bind].
    destruct (challenge_scalar _ _ _) as [c tr1].
    destruct (matrixpoint_matrix_add _ _) as [A'| |]; [|reflexivity|reflexivity]. cbn [bind].
    apply IH; try lia; intros j Hj; replace (S i + j) with (i + S j) by lia; [apply HL|apply HR]; lia.
Qed.
Theorem C61_lmpa_surplus_rounds (ro : oracle) tr ls rs w xl xr A (G H : list Point) Q d t :
  d <= length ls -> d <= length rs ->
  lmpa_verify ro tr (mkLmpaNoZK (ls ++ xl) (rs ++ xr) w) A G H Q (2 ^ d) t =
  lmpa_verify ro tr (mkLmpaNoZK ls rs w) A G H Q (2 ^ d) t.
Proof.
  intros Hl Hr. unfold lmpa_verify. destruct (assertb _) as [u| |]; [|reflexivity|reflexivity]. cbn [bind].
  apply lmpa_loop_agree; cbn [lm_L lm_R lm_w]; auto; rewrite ?app_length; try lia;
    intros j Hj; apply nth_error_app1; lia.
Qed.
Theorem C61_simplezk_surplus_rounds (ro : oracle) tr a ls rs w xl xr A (G H : list Point) Q d t :
  d <= length ls -> d <= length rs ->
  simple_zk_verify ro tr (mkSimpleZK (mkLmpaNoZK (ls ++ xl) (rs ++ xr) w) a) A G H Q (2 ^ d) t =
  simple_zk_verify ro tr (mkSimpleZK (mkLmpaNoZK ls rs w) a) A G H Q (2 ^ d) t.
Proof.
  intros Hl Hr. unfold simple_zk_verify. destruct (assertb _) as [u| |]; [|reflexivity|reflexivity]. cbn [bind sz_a sz_no_zk].
  destruct (challenge_scalar _ _ _) as [be tr1]. now apply C61_lmpa_surplus_rounds.
Qed.

(** ** k-ary version: surplus blocks, and the field t_Vec whatever its value *)
Lemma kary_loop_agree ro pf pf' k m one zero : 2 <= k -> A_Matrix pf = A_Matrix pf' -> w_Vec pf = w_Vec pf' ->
  forall d f f' tr A t n i, d < f -> d < f' -> n < k ^ S d ->
  (forall j, j < d -> nth_error (u_proof_Block pf) (i + j) = nth_error (u_proof_Block pf') (i + j)) ->
  kary_verify_loop f ro tr pf A t n m k one zero i = kary_verify_loop f' ro tr pf' A t n m k one zero i.
Proof.
  intros Hk HA Hw. induction d as [|d IH]; intros f f' tr A t n i Hf Hf' Hn HU;
    (destruct f as [|f]; [lia|]); (destruct f' as [|f']; [lia|]); cbn [kary_verify_loop]; rewrite HA, Hw.
  - destruct (Nat.leb_spec k n); [rewrite Nat.pow_1_r in Hn; lia|reflexivity].
  - destruct (Nat.leb_spec k n); [|reflexivity].
    assert (HU0 := HU 0 ltac:(lia)). rewrite Nat.add_0_r in HU0. 
    assert (HI : idx (u_proof_Block pf) i = idx (u_proof_Block pf') i) by (unfold idx; now rewrite HU0). rewrite HI. clear HI.
    destruct (udiv n k) as [c| |]; [|reflexivity|reflexivity]. cbn [bind].
    destruct (matrix_split A c) as [AT| |]; [|reflexivity|reflexivity]. cbn [bind].
    destruct (usub k 1) as [sh| |]; [|reflexivity|reflexivity]. cbn [bind].
    destruct (idx (u_proof_Block pf') i) as [u| |]; [|reflexivity|reflexivity]. cbn [bind].
    destruct (challenge_scalar _ _ _) as [x tr1].
    destruct (vandemonde_vector x k) as [xv| |]; [|reflexivity|reflexivity]. cbn [bind].
    destruct (vandemonde_vector (sinv x) k) as [yv| |]; [|reflexivity|reflexivity]. cbn [bind].
    destruct (z_vec_loop _ _ _ _) as [zv| |]; [|reflexivity|reflexivity]. cbn [bind].
    destruct (sum_loop _ matrixpoint_matrix_add k) as [A'| |]; [|reflexivity|reflexivity]. cbn [bind].
    destruct (sum_loop _ rowpoint_rowpoint_add _) as [t'| |]; [|reflexivity|reflexivity]. cbn [bind].
    apply IH; try lia.
    + apply Nat.div_lt_upper_bound; [lia|]. now rewrite <- Nat.pow_succ_r'.
    + intros j Hj. replace (S i + j) with (i + S j) by lia. apply HU. lia.
Qed.
Theorem C61_kary_surplus_blocks (ro : oracle) tr Am tv tv' w U xU A t n m k one zero d :
  2 <= k -> n < k ^ S d -> d <= length U ->
  verify_lmpa_noZK ro tr (mkLmpaKary Am tv' w (U ++ xU)) A t n m k one zero =
  verify_lmpa_noZK ro tr (mkLmpaKary Am tv w U) A t n m k one zero.
Proof.
  intros Hk Hn Hd. unfold verify_lmpa_noZK. cbn [u_proof_Block].
  apply (kary_loop_agree ro _ _ k m one zero) with (d := d); cbn [u_proof_Block A_Matrix w_Vec]; auto; rewrite ?app_length; try lia.
  intros j Hj. apply nth_error_app1. lia.
Qed.

(** ** copy argument: the inner c'_w is replaced by the verifier *)
Theorem C61_copy_inner_commitment_ignored (ro : oracle) tr cw az c c' c2 (G H : list Point) Q Ms mp Cs :
  copy_verify ro tr (mkCopy cw (mkInner az c' c2)) G H Q Ms mp Cs =
  copy_verify ro tr (mkCopy cw (mkInner az c c2)) G H Q Ms mp Cs.
Proof. reflexivity. Qed.

(** ** so none of the four arguments is strongly unforgeable *)
Theorem C61_every_accepted_proof_has_a_twin (ro : oracle) tr :
  (forall pf A (G H : list Point) Q d t r, d <= length (lm_L pf) -> d <= length (lm_R pf) ->
     lmpa_verify ro tr pf A G H Q (2 ^ d) t = Ok (true, r) ->
     exists pf', pf' <> pf /\ lmpa_verify ro tr pf' A G H Q (2 ^ d) t = Ok (true, r)) /\
  (forall pf A (G H : list Point) Q d t r, d <= length (lm_L (sz_no_zk pf)) -> d <= length (lm_R (sz_no_zk pf)) ->
     simple_zk_verify ro tr pf A G H Q (2 ^ d) t = Ok (true, r) ->
     exists pf', pf' <> pf /\ simple_zk_verify ro tr pf' A G H Q (2 ^ d) t = Ok (true, r)) /\
  (forall pf A t n m k one zero r d, 2 <= k -> n < k ^ S d -> d <= length (u_proof_Block pf) ->
     verify_lmpa_noZK ro tr pf A t n m k one zero = Ok (true, r) ->
     exists pf', pf' <> pf /\ verify_lmpa_noZK ro tr pf' A t n m k one zero = Ok (true, r)) /\
  (forall pf (G H : list Point) Q Ms mp Cs r c', c' <> c_prime_w (cp_inner pf) ->
     copy_verify ro tr pf G H Q Ms mp Cs = Ok (true, r) ->
     exists pf', pf' <> pf /\ copy_verify ro tr pf' G H Q Ms mp Cs = Ok (true, r)).
Proof.
  assert (X : forall T (l : list T) x, l ++ [x] <> l).
  { intros T l x E. apply (f_equal (@length T)) in E. rewrite app_length in E. cbn in E. lia. }
  repeat split.
  - intros [ls rs w] A G H Q d t r Hl Hr V. exists (mkLmpaNoZK (ls ++ [[]]) (rs ++ []) w). split.
    + intros E. injection E as E _. now apply X in E.
    + now rewrite C61_lmpa_surplus_rounds.
  - intros [[ls rs w] a] A G H Q d t r Hl Hr V. exists (mkSimpleZK (mkLmpaNoZK (ls ++ [[]]) (rs ++ []) w) a). split.
    + intros E. injection E as E _. now apply X in E.
    + now rewrite C61_simplezk_surplus_rounds.
  - intros [Am tv w U] A t n m k one zero r d Hk Hn Hd V. exists (mkLmpaKary Am tv w (U ++ [[]])). split.
    + intros E. injection E as E. now apply X in E.
    + rewrite (C61_kary_surplus_blocks ro tr Am tv tv w U [[]] A t n m k one zero d) by auto. exact V.
  - intros [cw [az c c2]] G H Q Ms mp Cs r c' Hc V. cbn in Hc.
    exists (mkCopy cw (mkInner az c' c2)). split; [congruence|].
    now rewrite (C61_copy_inner_commitment_ignored ro tr cw az c c').
Qed.
End C61.

(** an honest binary and an honest k-ary proof, lengthened *)
Example C61_case :
  let A := [[pN 1; pN 2]; [pN 3; pN 4]] in let G := [pN 1; pN 1] in let w := [sN 5; sN 6] in
  let t := [pN 17; pN 39] in
  rmap (fun '(p, _) => (rmap fst (lmpa_verify ro1 [] p A G G p0 2 t),
         rmap fst (lmpa_verify ro1 [] (mkLmpaNoZK (C := EX) (lm_L p ++ [[pN 9]; []]) (lm_R p ++ [[pN 8; pN 7]]) (lm_w p)) A G G p0 2 t)))
     (lmpa_create ro1 [] A G G p0 w) = Ok (Ok true, Ok true) /\
  rmap (fun '(p, _) => (rmap fst (verify_lmpa_noZK ro1 [] p A t 2 2 2 s1 p0),
         rmap fst (verify_lmpa_noZK ro1 [] (mkLmpaKary (C := EX) (A_Matrix p) [pN 77] (w_Vec p) (u_proof_Block p ++ [[[pN 1]]])) A t 2 2 2 s1 p0)))
     (create_lmpa_noZK ro1 [] A w t 2 2 2 s1 p0) = Ok (Ok true, Ok true).
Proof. vm_compute. auto. Qed.
