(** C43-C47: the k-ary linear-map preimage argument and its "SimpleZK" wrapper. *)
From Coq Require Import String.
From Verif Require Export KaryFacts PropSimpleZK.
From Verif Require Import PropIpa.
Local Open Scope nat_scope.
Local Open Scope list_scope.

Section KaryRuns.
Context {C : Crypto} {L : CryptoLaws C}.
Add Field SfKR : (@S_field C L).

Lemma kpow_pos k d : 1 <= k -> 1 <= k ^ d.
Proof. intros H. assert (E : k ^ d <> 0) by (apply Nat.pow_nonzero; lia). lia. Qed.
Lemma kpow_gt k d : 2 <= k -> d < k ^ d.
Proof. intros H. apply Nat.pow_gt_lin_r. lia. Qed.
Lemma kpow_S r k d : r * k ^ S d = k * (r * k ^ d).
Proof. cbn [Nat.pow]. lia. Qed.
Lemma ka_hist_cons tr u us d : ka_hist (tr ++ ka_round u) us d = ka_hist tr (u :: us) (S d).
Proof. unfold ka_hist. cbn [firstn map concat]. now rewrite <- app_assoc. Qed.
Lemma ka_hist_0 tr us : ka_hist tr us 0 = tr.
Proof. unfold ka_hist. cbn. apply app_nil_r. Qed.
(** challenges of the d rounds *)
Definition ka_chals (ro : oracle) tr (us : list (list (list Point))) (d : nat) : list Scalar :=
  map (fun j => ro (ka_hist tr us (S j))) (seq 0 d).
Lemma ka_chals_cons ro tr u us d :
  ka_chals ro tr (u :: us) (S d) = ro (tr ++ ka_round u) :: ka_chals ro (tr ++ ka_round u) us d.
Proof.
  unfold ka_chals. cbn [seq map]. f_equal.
  - f_equal. now rewrite <- ka_hist_cons, ka_hist_0.
  - rewrite <- seq_shift, map_map. apply map_ext. intros j. now rewrite ka_hist_cons.
Qed.

Lemma kary_run d : forall f ro tr m k r A w t us, 2 <= k -> 1 <= m -> 1 <= r -> r < k -> d < f ->
  rect m (r * k ^ d) A -> length w = r * k ^ d -> length t = m ->
  exists l A' w' t',
    kary_create_loop f ro tr A w t (r * k ^ d) m k s1 p0 us =
      Ok (mkLmpaKary A' t' w' (us ++ l), ka_hist tr l d) /\
    length l = d /\ Forall (rect (2 * (k - 1) + 1) m) l /\
    rect m r A' /\ length w' = r /\ length t' = m /\
    w' = ka_fold_w k r d (ka_chals ro tr l d) w /\
    (t = pmv A w -> Forall (fun x => x <> s0) (ka_chals ro tr l d) -> t' = pmv A' w') /\
    (forall g proof i ta, d < g ->
       (forall j, j < d -> nth_error (u_proof_Block proof) (i + j) = nth_error l j) ->
       A_Matrix proof = A' -> w_Vec proof = w' -> (d = 0 -> ta = t) ->
       kary_verify_loop g ro tr proof A ta (r * k ^ d) m k s1 p0 i =
       Ok (peqb (pt (pmv A' w') 0) (pt t' 0), ka_hist tr l d)).
Proof.
  induction d as [|d IH]; intros f ro tr m k r A w t us Hk Hm Hr Hrk Hf HA Hw Ht; destruct f as [|f]; try lia.
  - cbn [Nat.pow] in *. rewrite Nat.mul_1_r in *. exists [], A, w, t.
    cbn [kary_create_loop]. destruct (Nat.leb_spec k r); [lia|]. rewrite app_nil_r, ka_hist_0.
    repeat (split; [auto; fail|]). intros g proof i ta Hg _ EA Ew Eta. rewrite (Eta eq_refl).
    destruct g as [|g]; [lia|]. cbn [kary_verify_loop]. destruct (Nat.leb_spec k r); [lia|].
    rewrite EA, Ew, (pmv_lin m r) by auto.
    rewrite (idx_lt _ _ p0) by (unfold pmv; rewrite map_length; destruct HA; lia). cbn [bind].
    rewrite (idx_lt _ _ p0) by lia. reflexivity.
  - set (c := r * k ^ d). rewrite kpow_S in *. fold c in HA, Hw |- *.
    assert (Hc : 1 <= c) by (unfold c; assert (H := kpow_pos k d ltac:(lia)); nia).
    assert (Hk1 : 1 <= k) by lia.
    rewrite kary_create_step by auto. cbv zeta.
    set (u := ka_u k c m A w t). set (tr1 := tr ++ ka_round u). set (x := ro tr1).
    destruct (IH f ro tr1 m k r (ka_A k c m x A) (ka_w k c x w) (ktgt k m x u) (us ++ [u]))
      as (l & A' & w' & t' & E & Hl & HF & HA' & Hw' & Ht' & Ew & Hc' & V); auto.
    { lia. } { apply ka_A_rect. } { apply ka_w_length. } { apply ktgt_length. }
    exists (u :: l), A', w', t'. rewrite ka_chals_cons. fold tr1. fold x.
    split. { fold c in E. rewrite E. rewrite <- app_assoc. cbn [app]. now rewrite <- ka_hist_cons. }
    split. { cbn [length]. now rewrite Hl. }
    split. { constructor; auto. apply ka_u_rect. }
    split; [auto|]. split; [auto|]. split; [auto|].
    split. { cbn [ka_fold_w]. exact Ew. }
    split.
    { intros Et Hx. inversion Hx as [|? ? Hx0 Hx1]; subst. apply Hc'; auto.
      rewrite ktgt_eq by auto. unfold u. rewrite <- round_id; auto. }
    intros g proof i ta Hg HP EA Ewp _. destruct g as [|g]; [lia|].
    rewrite (kary_verify_step _ _ _ _ _ _ _ _ _ _ u); auto.
    + cbv zeta. fold tr1. fold x. rewrite <- ka_hist_cons. unfold c. apply V; auto; [lia|].
      intros j Hj. replace (S i + j) with (i + S j) by lia. rewrite HP by lia. reflexivity.
    + replace i with (i + 0) by lia. now rewrite HP by lia.
    + apply ka_u_rect.
Qed.
End KaryRuns.

Section C43.
Context {C : Crypto} {L : CryptoLaws C}.
(** create returns a proof with d rounds of 2k-1 messages of m points, whose
    response is the folded witness; verify accepts it when no round challenge is 0 *)
Theorem C43_kary_completeness (ro : oracle) tr m k r d (A : list (list Point)) (w : list Scalar) :
  2 <= k -> 1 <= r -> r < k -> 1 <= m ->
  let n := r * k ^ d in
  rect m n A -> length w = n ->
  exists proof tr',
    create_lmpa_noZK ro tr A w (pmv A w) n m k s1 p0 = Ok (proof, tr') /\
    length (u_proof_Block proof) = d /\
    Forall (rect (2 * (k - 1) + 1) m) (u_proof_Block proof) /\
    length (w_Vec proof) = r /\ rect m r (A_Matrix proof) /\
    ((forall j, j < d -> ro (ka_hist tr (u_proof_Block proof) (S j)) <> s0) ->
     verify_lmpa_noZK ro tr proof A (pmv A w) n m k s1 p0 = Ok (true, tr')).
Proof.
  intros Hk Hr Hrk Hm n HA Hw. unfold create_lmpa_noZK.
  destruct (kary_run d (S n) ro tr m k r A w (pmv A w) [] Hk Hm Hr Hrk)
    as (l & A' & w' & t' & E & Hl & HF & HA' & Hw' & Ht' & _ & Hc & V); auto.
  { assert (H := kpow_gt k d Hk). unfold n. nia. }
  { unfold pmv. rewrite map_length. apply HA. }
  fold n in E, V. exists (mkLmpaKary A' t' w' l), (ka_hist tr l d). cbn [u_proof_Block w_Vec A_Matrix].
  repeat (split; [auto; fail|]). intros Hx. unfold verify_lmpa_noZK. cbn [u_proof_Block].
  rewrite V; auto; [|lia]. rewrite <- Hc; auto.
  - now rewrite peqb_refl.
  - apply Forall_forall. intros x Hin. unfold ka_chals in Hin. apply in_map_iff in Hin as (j & <- & Hj).
    apply in_seq in Hj. apply Hx. lia.
Qed.
End C43.
Definition A13 : list (list (@Point EX)) := [[pN 5; pN 11; pN 3; pN 8; pN 1; pN 9]; [pN 2; pN 9; pN 6; pN 13; pN 4; pN 7]].
Definition w6 : list (@Scalar EX) := map sN [1; 2; 3; 4; 5; 6]%Z.
Definition t13 : list (@Point EX) := [pN (5+22+9+32+5+54); pN (2+18+18+52+20+42)].
(** n = 6, k = 3 (one round, r = 2); and n = 6 with k = 2 has 6 = 3*2 with 3 >= k: not of the form *)
Example C43_case :
  map zp (pmv A13 w6) = map zp t13 /\
  rmap (fun '(p, tr) => (map (@length _) (u_proof_Block p), map zs (w_Vec p),
          rmap (fun '(b, tr') => (b, length tr, length tr')) (verify_lmpa_noZK ro1 [] p A13 t13 6 2 3 (sN 1) (pN 0))))
     (create_lmpa_noZK ro1 [] A13 w6 t13 6 2 3 (sN 1) (pN 0))
  = Ok ([5], map zs (ka_w 3 2 (sN 79) w6), Ok (true, 11, 11)) /\
  rmap (fun '(p, tr) => rmap fst (verify_lmpa_noZK (fun _ => sN 0) [] p A13 t13 6 2 3 (sN 1) (pN 0)))
     (create_lmpa_noZK (fun _ => sN 0) [] A13 w6 t13 6 2 3 (sN 1) (pN 0))
  = Ok (Ok false).
Proof. vm_compute. auto. Qed.

(** ** C44 *)
Section C44.
Context {C : Crypto} {L : CryptoLaws C}.
Add Field SfC44 : (@S_field C L).

(** a proof computed from t and the dimensions only *)
Definition ka_forge (k m d : nat) (t : list Point) : LmpaKary :=
  match d with
  | O => mkLmpaKary [[pt t 0]] [] [s1] []
  | _ => mkLmpaKary [[p0]] [] [s0] (repeat (repeat (repeat p0 m) (2 * (k - 1) + 1)) d)
  end.
Lemma zeros_rect n m : rect n m (repeat (repeat (@p0 C) m) n).
Proof.
  split; [apply repeat_length|]. apply Forall_forall. intros x H. apply repeat_spec in H. subst. apply repeat_length.
Qed.
Lemma ktgt_zeros k m x : ktgt k m x (repeat (repeat p0 m) (2 * (k - 1) + 1)) = repeat p0 m.
Proof.
  symmetry. apply (tab_eq p0); [apply repeat_length|]. intros r Hr. rewrite nth_repeat. symmetry.
  apply sum_P_0. intros l Hl. unfold pent, pt. rewrite (nth_indep _ [] (repeat p0 m)) by (now rewrite repeat_length).
  rewrite !nth_repeat. pring.
Qed.
Lemma forge_run d : forall g ro tr m k r A proof i, 2 <= k -> 1 <= m -> 1 <= r -> r < k -> d < g ->
  rect m (r * k ^ d) A ->
  (forall j, j < d -> nth_error (u_proof_Block proof) (i + j) = Some (repeat (repeat p0 m) (2 * (k - 1) + 1))) ->
  A_Matrix proof = [[p0]] -> w_Vec proof = [s0] ->
  exists tr', kary_verify_loop g ro tr proof A (repeat p0 m) (r * k ^ d) m k s1 p0 i = Ok (true, tr').
Proof.
  induction d as [|d IH]; intros g ro tr m k r A proof i Hk Hm Hr Hrk Hg HA HP EA Ew; destruct g as [|g]; try lia.
  - cbn [Nat.pow] in *. rewrite Nat.mul_1_r in *. exists tr. cbn [kary_verify_loop].
    destruct (Nat.leb_spec k r); [lia|]. rewrite EA, Ew, mpv_lin. cbn [map lin idx nth_error bind].
    destruct m as [|m]; [lia|]. cbn [repeat idx nth_error bind]. f_equal. f_equal. apply peqb_eq. pring.
  - set (c := r * k ^ d). rewrite kpow_S in *. fold c in HA |- *.
    assert (Hc : 1 <= c) by (unfold c; assert (H := kpow_pos k d ltac:(lia)); nia).
    rewrite (kary_verify_step _ _ _ _ _ _ _ _ _ _ (repeat (repeat p0 m) (2 * (k - 1) + 1))); auto; try lia.
    + cbv zeta. rewrite ktgt_zeros. apply IH; auto; [lia|apply ka_A_rect|].
      intros j Hj. replace (S i + j) with (i + S j) by lia. apply HP. lia.
    + replace i with (i + 0) by lia. apply HP. lia.
    + apply zeros_rect.
Qed.
Lemma verify_first_round_t f ro tr proof A t t' n m k one zero i : k <= n ->
  kary_verify_loop f ro tr proof A t n m k one zero i = kary_verify_loop f ro tr proof A t' n m k one zero i.
Proof.
  intros H. destruct f as [|f]; [reflexivity|]. cbn [kary_verify_loop].
  destruct (Nat.leb_spec k n); [reflexivity|lia].
Qed.

(** every statement has an accepted proof, whatever the hash function *)
Theorem C44_kary_universal_forgery (ro : oracle) tr m k r d (A : list (list Point)) (t : list Point) :
  2 <= k -> 1 <= r -> r < k -> 1 <= m ->
  let n := r * k ^ d in
  rect m n A -> length t = m ->
  exists tr', verify_lmpa_noZK ro tr (ka_forge k m d t) A t n m k s1 p0 = Ok (true, tr').
Proof.
  intros Hk Hr Hrk Hm n HA Ht. unfold verify_lmpa_noZK. destruct d as [|d].
  - cbn [ka_forge u_proof_Block length]. unfold n. cbn [Nat.pow]. rewrite Nat.mul_1_r. cbn [kary_verify_loop].
    destruct (Nat.leb_spec k r); [lia|]. rewrite mpv_lin. cbn [A_Matrix w_Vec map lin idx nth_error bind].
    rewrite (idx_lt _ _ p0) by lia. cbn [bind]. exists tr. f_equal. f_equal. apply peqb_eq. unfold pt. pring.
  - assert (Hn : k <= n) by (unfold n; rewrite kpow_S; assert (H := kpow_pos k d ltac:(lia)); rewrite <- (Nat.mul_1_r k) at 1; apply Nat.mul_le_mono_l; nia).
    rewrite (verify_first_round_t _ _ _ _ _ _ (repeat p0 m)) by exact Hn.
    apply forge_run; auto.
    + cbn [ka_forge u_proof_Block]. rewrite repeat_length. lia.
    + intros j Hj. cbn [ka_forge u_proof_Block Nat.add]. now apply nth_error_repeat.
Qed.
(** with at least one round the target is never looked at *)
Theorem C44_kary_target_ignored (ro : oracle) tr proof A (t t' : list Point) n m k one zero :
  k <= n ->
  verify_lmpa_noZK ro tr proof A t n m k one zero = verify_lmpa_noZK ro tr proof A t' n m k one zero.
Proof. apply verify_first_round_t. Qed.

(** only the dimensions of A matter *)
Lemma matrix_split_shape m n c (A A' : list (list Point)) : rect m n A -> rect m n A' ->
  (matrix_split A c = Panic /\ matrix_split A' c = Panic) \/
  (exists q, n = q * c /\ matrix_split A c = Ok (tab q (part_of A c)) /\ matrix_split A' c = Ok (tab q (part_of A' c)) /\ 1 <= m /\ 1 <= c).
Proof.
  intros HA HA'. assert (Hm : m = 0 \/ 1 <= m) by lia. destruct Hm as [->|Hm].
  { left. destruct HA as [HA _], HA' as [HA' _]. destruct A, A'; try discriminate. auto. }
  destruct (Nat.eq_dec c 0) as [->|Hc].
  { left. unfold matrix_split. destruct HA as [HA _], HA' as [HA' _].
    destruct A, A'; cbn in HA, HA'; try lia. auto. }
  destruct (Nat.eq_dec (n mod c) 0) as [Hd|Hd].
  - right. exists (n / c). assert (En : n = n / c * c).
    { rewrite (Nat.div_mod n c) at 1 by auto. lia. }
    split; auto. rewrite !(matrix_split_eq m c (n / c)); auto; try lia.
    + repeat split; auto. lia.
    + now rewrite <- En.
    + now rewrite <- En.
  - left. assert (K : forall B : list (list Point), rect m n B -> matrix_split B c = Panic).
    { intros B HB. unfold matrix_split. destruct (Nat.ltb_spec 0 (length B)) as [_|]; [|destruct HB; lia].
      cbn [assertb bind]. rewrite (idx_lt _ _ []) by (destruct HB; lia). cbn [bind].
      rewrite (rect_row m n) by (auto; lia). unfold urem. destruct (Nat.eqb_spec c 0); [contradiction|]. cbn [bind].
      destruct (Nat.eqb_spec (n mod c) 0); [contradiction|]. reflexivity. }
    auto.
Qed.
Lemma verify_shape f : forall ro tr proof A A' t n m k one zero i, rect m n A -> rect m n A' ->
  kary_verify_loop f ro tr proof A t n m k one zero i = kary_verify_loop f ro tr proof A' t n m k one zero i.
Proof.
  induction f as [|f IH]; intros ro tr proof A A' t n m k one zero i HA HA'; cbn [kary_verify_loop]; auto.
  destruct (Nat.leb_spec k n) as [Hkn|]; auto.
  unfold udiv. destruct (Nat.eqb_spec k 0) as [|Hk]; cbn [bind]; auto.
  destruct (matrix_split_shape m n (n / k) A A' HA HA') as [[-> ->]|(q & En & -> & -> & Hm & Hc)]; cbn [bind]; auto.
  destruct (usub k 1); cbn [bind]; auto.
  destruct (idx (u_proof_Block proof) i) as [u| |]; cbn [bind]; auto.
  destruct (challenge_scalar _ _ _) as [x tr1].
  rewrite !vandemonde_vector_eq by lia. cbn [bind].
  destruct (z_vec_loop _ _ _ _); cbn [bind]; auto.
  assert (Hq : k <= q).
  { assert (k * (n / k) <= n) by (apply Nat.mul_div_le; lia). nia. }
  rewrite !(fold_A_loop m q) by (auto; try lia; now rewrite <- En). cbn [bind].
  destruct (sum_loop _ rowpoint_rowpoint_add _); cbn [bind]; auto.
  apply IH; apply ka_A_rect.
Qed.
Theorem C44_kary_matrix_ignored (ro : oracle) tr proof A A' (t : list Point) n m k one zero :
  rect m n A -> rect m n A' ->
  verify_lmpa_noZK ro tr proof A t n m k one zero = verify_lmpa_noZK ro tr proof A' t n m k one zero.
Proof. apply verify_shape. Qed.
End C44.
Example C44_case :
  rmap fst (verify_lmpa_noZK ro1 [] (ka_forge 3 2 1 [pN 42; pN 43]) A13 [pN 42; pN 43] 6 2 3 (sN 1) (pN 0)) = Ok true /\
  rmap fst (verify_lmpa_noZK ro1 [] (ka_forge 3 1 0 [pN 42]) [[pN 0; pN 0]] [pN 42] 2 1 3 (sN 1) (pN 0)) = Ok true /\
  rmap fst (verify_lmpa_noZK ro1 [] (ka_forge 3 1 0 [pN 42]) [[pN 0; pN 0]] [pN 41] 2 1 3 (sN 1) (pN 0)) = Ok false.
Proof. vm_compute. auto. Qed.

(** ** C45 *)
Section C45.
Context {C : Crypto} {L : CryptoLaws C}.
Add Field SfC45 : (@S_field C L).

Theorem C45_kary_k0_panics (ro : oracle) tr A w t n m one zero :
  create_lmpa_noZK ro tr A w t n m 0 one zero = Panic.
Proof. reflexivity. Qed.

Lemma k1_loop f : forall ro tr m n A w t us, 1 <= n -> 1 <= m -> rect m n A -> length w = n -> length t = m ->
  kary_create_loop f ro tr A w t n m 1 s1 p0 us = Diverge.
Proof.
  induction f as [|f IH]; intros ro tr m n A w t us Hn Hm HA Hw Ht; [reflexivity|].
  replace n with (1 * n) by lia.
  rewrite kary_create_step by (auto; rewrite Nat.mul_1_l; auto). cbv zeta.
  apply IH; auto using ka_A_rect, ka_w_length, ktgt_length.
Qed.
Theorem C45_kary_k1_diverges (ro : oracle) tr m n A w t : 1 <= n -> 1 <= m ->
  rect m n A -> length w = n -> length t = m ->
  create_lmpa_noZK ro tr A w t n m 1 s1 p0 = Diverge /\
  forall fuel, kary_create_loop fuel ro tr A w t n m 1 s1 p0 [] = Diverge.
Proof. intros Hn Hm HA Hw Ht. split; [|intros fuel]; now apply k1_loop. Qed.

(** too many pieces: the message index leaves the range *)
Lemma u_vec_loop_panic k q (A_T : list (list (list Point))) (w_T : list (list (list Scalar))) t u :
  1 <= k -> length A_T = q -> length w_T = q -> k < q -> length u = 2 * (k - 1) + 1 ->
  u_vec_loop (k - 1) A_T w_T t u = Panic.
Proof.
  intros Hk HA HW Hq Hu. unfold u_vec_loop.
  assert (ND : forall i A_t a b, (fun (u_vec : list (list Point)) '(j, w_vec) =>
      l <- usub (k - 1 + j) i ;;
      if negb (l =? k - 1) then
        w_0 <- idx w_vec 0 ;;
        let u_l_t := matrixpoint_vector_mul A_t w_0 in
        u_l <- idx u_vec l ;;
        s <- rowpoint_rowpoint_add u_l u_l_t ;;
        upd u_vec l s
      else upd u_vec l t) a b <> Diverge).
  { intros i A_t a [j w_vec]. unfold usub, upd, idx, rowpoint_rowpoint_add.
    destruct (_ <=? _); cbn [bind]; [|discriminate]. destruct (negb _).
    - destruct (nth_error w_vec 0); cbn [bind]; [|discriminate].
      destruct (nth_error a _); cbn [bind]; [|discriminate].
      destruct (_ =? _); cbn [bind assertb]; [|discriminate]. destruct (_ <? _); discriminate.
    - destruct (_ <? _); discriminate. }
  destruct A_T as [|A_t A_T]; cbn in HA; [lia|]. 
  change (enumerate (A_t :: A_T)) with ((0, A_t) :: combine (seq 1 (length A_T)) A_T). cbn [foldM].
  match goal with |- bind (foldM ?g ?l ?a) _ = _ => destruct (foldM g l a) as [u'| |] eqn:E; cbn [bind]; auto end.
  2:{ exfalso. revert E. apply foldM_not_Diverge. intros a b _. exact (ND 0 A_t a b). }
  exfalso.
  assert (Hsplit : exists l1 w_vec l2, enumerate w_T = l1 ++ (k, w_vec) :: l2).
  { assert (Hn : exists w_vec, nth_error w_T k = Some w_vec).
    { destruct (nth_error w_T k) eqn:En; eauto. apply nth_error_None in En. lia. }
    destruct Hn as [w_vec Hn]. assert (Hn' := enumerate_nth_error w_T k). rewrite Hn in Hn'.
    apply nth_error_split in Hn' as (l1 & l2 & E' & _). eauto. }
  destruct Hsplit as (l1 & w_vec & l2 & Ew). rewrite Ew, foldM_app in E.
  apply bind_Ok_inv in E as (u1 & E1 & E2). cbn [foldM] in E2.
  assert (Hu1 : length u1 = 2 * (k - 1) + 1).
  { revert E1. apply (foldM_inv (fun u => length u = 2 * (k - 1) + 1)); auto.
    intros a [j wv] a' _ Ha Hs. apply bind_Ok_inv in Hs as (l & _ & Hs). destruct (negb _).
    - apply bind_Ok_inv in Hs as (w_0 & _ & Hs). cbv zeta in Hs. apply bind_Ok_inv in Hs as (u_l & _ & Hs).
      apply bind_Ok_inv in Hs as (s & _ & Hs). apply upd_Ok in Hs as [_ ->]. now rewrite set_at_length.
    - apply upd_Ok in Hs as [_ ->]. now rewrite set_at_length. }
  rewrite usub_le in E2 by lia. cbn [bind] in E2.
  destruct (Nat.eqb_spec (k - 1 + k - 0) (k - 1)); [lia|]. cbn [negb] in E2.
  destruct (idx w_vec 0); cbn [bind] in E2; try discriminate. cbv zeta in E2.
  rewrite idx_ge in E2 by lia. discriminate.
Qed.
Lemma kary_form_dec k : 2 <= k -> forall n, (exists r d, r < k /\ n = r * k ^ d) \/ (forall r d, r < k -> n <> r * k ^ d).
Proof.
  intros Hk. induction n as [n IH] using lt_wf_ind.
  destruct (Nat.lt_ge_cases n k) as [Hn|Hn].
  { left. exists n, 0. cbn. lia. }
  destruct (Nat.eq_dec (n mod k) 0) as [Hd|Hd].
  - assert (En : n = k * (n / k)) by (rewrite (Nat.div_mod n k) at 1; lia).
    destruct (IH (n / k)) as [(r & d & Hr & E)|H].
    + apply Nat.div_lt; lia.
    + left. exists r, (S d). rewrite kpow_S, <- E. auto.
    + right. intros r [|d] Hr E.
      * cbn in E. lia.
      * apply (H r d Hr). rewrite kpow_S in E. nia.
  - right. intros r [|d] Hr E; [cbn in E; lia|]. apply Hd. rewrite E, kpow_S, Nat.mul_comm. apply Nat.mod_mul. lia.
Qed.
Lemma kary_panic f : forall ro tr m k n A w t us, 2 <= k -> 1 <= m -> n < f ->
  rect m n A -> length w = n -> length t = m -> (forall r d, r < k -> n <> r * k ^ d) ->
  kary_create_loop f ro tr A w t n m k s1 p0 us = Panic.
Proof.
  induction f as [|f IH]; intros ro tr m k n A w t us Hk Hm Hf HA Hw Ht Hn; [lia|].
  assert (Hkn : k <= n).
  { destruct (Nat.le_gt_cases k n); auto. exfalso. apply (Hn n 0); auto. cbn. lia. }
  destruct (Nat.eq_dec (n mod k) 0) as [Hd|Hd].
  - assert (En : n = k * (n / k)) by (rewrite (Nat.div_mod n k) at 1; lia).
    set (c := n / k) in *. clearbody c. clear Hd. rewrite En in Hf, HA, Hw, Hn, Hkn |- *. clear En. assert (Hc : 1 <= c) by nia.
    rewrite kary_create_step by (auto; lia). cbv zeta.
    apply IH; auto using ka_A_rect, ka_w_length, ktgt_length; [nia|].
    intros r d Hr E. apply (Hn r (S d) Hr). rewrite kpow_S, <- E. reflexivity.
  - cbn [kary_create_loop]. destruct (Nat.leb_spec k n); [|lia].
    unfold udiv. destruct (Nat.eqb_spec k 0); [lia|]. cbn [bind].
    destruct (matrix_split_shape m n (n / k) A A HA HA) as [[-> _]|(q & En & -> & _ & _ & Hc)]; cbn [bind]; auto.
    rewrite (matrix_split_eq 1 (n / k) q) by (auto; apply rect1; lia). cbn [bind].
    rewrite usub_le by lia. cbn [bind].
    rewrite (u_vec_loop_panic k q); auto using tab_length; try lia.
    + assert (k * (n / k) <= n) by (apply Nat.mul_div_le; lia).
      assert (k * (n / k) <> n).
      { intros E. apply Hd. rewrite <- E, Nat.mul_comm. apply Nat.mod_mul. lia. }
      nia.
    + apply repeat_length.
Qed.
(** for k >= 2 and well-shaped input: returns exactly for n = r k^d with r < k, panics otherwise *)
Theorem C45_kary_create_returns (ro : oracle) tr m k n A w t :
  2 <= k -> 1 <= m -> rect m n A -> length w = n -> length t = m ->
  ((exists r d, r < k /\ n = r * k ^ d) /\
   exists proof tr', create_lmpa_noZK ro tr A w t n m k s1 p0 = Ok (proof, tr')) \/
  ((forall r d, r < k -> n <> r * k ^ d) /\
   create_lmpa_noZK ro tr A w t n m k s1 p0 = Panic).
Proof.
  intros Hk Hm HA Hw Ht. destruct (kary_form_dec k Hk n) as [(r & d & Hr & E)|H].
  - left. split; [eauto|]. destruct r as [|r].
    + cbn in E. unfold create_lmpa_noZK. cbn [kary_create_loop].
      destruct (Nat.leb_spec k n); [lia|]. eauto.
    + unfold create_lmpa_noZK. rewrite E in HA, Hw |- *.
      destruct (kary_run d (S (S r * k ^ d)) ro tr m k (S r) A w t []) as (l & A' & w' & t' & E' & _); auto; try lia.
      { assert (H := kpow_gt k d Hk). nia. }
      rewrite E'. eauto.
  - right. split; auto. apply kary_panic; auto.
Qed.
(** for k >= 2 the loop ends on every input, whatever the shapes: its result
    does not depend on the fuel once that exceeds n *)
Theorem C45_kary_create_terminates (ro : oracle) k : 2 <= k -> forall n f g tr A w t m one zero us,
  n < f -> n < g ->
  kary_create_loop f ro tr A w t n m k one zero us = kary_create_loop g ro tr A w t n m k one zero us.
Proof.
  intros Hk. induction n as [n IH] using lt_wf_ind. intros f g tr A w t m one zero us Hf Hg.
  destruct f as [|f], g as [|g]; try lia. cbn [kary_create_loop].
  destruct (Nat.leb_spec k n); auto.
  destruct (udiv n k); cbn [bind]; auto.
  destruct (matrix_split A _); cbn [bind]; auto. destruct (matrix_split [w] _); cbn [bind]; auto.
  destruct (usub k 1); cbn [bind]; auto. destruct (u_vec_loop _ _ _ _ _); cbn [bind]; auto.
  destruct (challenge_scalar _ _ _) as [x tr1].
  destruct (vandemonde_vector x k); cbn [bind]; auto. destruct (vandemonde_vector (sinv x) k); cbn [bind]; auto.
  destruct (z_vec_loop _ _ _ _); cbn [bind]; auto.
  destruct (sum_loop _ matrixpoint_matrix_add _); cbn [bind]; auto.
  destruct (sum_loop _ matrix_matrix_add _); cbn [bind]; auto.
  destruct (unwrap _); cbn [bind]; auto.
  destruct (sum_loop _ rowpoint_rowpoint_add _); cbn [bind]; auto.
  assert (n / k < n) by (apply Nat.div_lt; lia). apply IH; lia.
Qed.
Lemma kary_verify_fuel j : forall f g ro tr proof A t n m k one zero i,
  length (u_proof_Block proof) - i <= j -> j < f -> j < g ->
  kary_verify_loop f ro tr proof A t n m k one zero i = kary_verify_loop g ro tr proof A t n m k one zero i.
Proof.
  induction j as [|j IH]; intros f g ro tr proof A t n m k one zero i Hj Hf Hg; destruct f as [|f], g as [|g]; try lia;
    cbn [kary_verify_loop]; destruct (k <=? n); auto;
    (destruct (udiv n k); cbn [bind]; auto); (destruct (matrix_split A _); cbn [bind]; auto);
    (destruct (usub k 1); cbn [bind]; auto).
  - rewrite idx_ge by lia. reflexivity.
  - destruct (idx (u_proof_Block proof) i) as [u| |] eqn:E; cbn [bind]; auto.
    assert (Hi := idx_Ok_lt _ _ _ E).
    destruct (challenge_scalar _ _ _) as [x tr1].
    destruct (vandemonde_vector x k); cbn [bind]; auto. destruct (vandemonde_vector (sinv x) k); cbn [bind]; auto.
    destruct (z_vec_loop _ _ _ _); cbn [bind]; auto.
    destruct (sum_loop _ matrixpoint_matrix_add _); cbn [bind]; auto.
    destruct (sum_loop _ rowpoint_rowpoint_add _); cbn [bind]; auto.
    apply IH; lia.
Qed.
Theorem C45_kary_verify_terminates (ro : oracle) tr proof A t n m k one zero fuel :
  length (u_proof_Block proof) < fuel ->
  kary_verify_loop fuel ro tr proof A t n m k one zero 0 = verify_lmpa_noZK ro tr proof A t n m k one zero.
Proof. intros H. apply (kary_verify_fuel (length (u_proof_Block proof))); lia. Qed.
End C45.
Example C45_case :
  let run n k := rmap (fun '(p, tr) => (length (u_proof_Block p), length (w_Vec p)))
     (create_lmpa_noZK ro1 [] (repeat (repeat (pN 3) n) 2) (repeat (sN 3) n) [pN 1; pN 1] n 2 k (sN 1) (pN 0)) in
  run 6 3 = Ok (1, 2) /\ run 9 3 = Ok (2, 1) /\ run 2 3 = Ok (0, 2) /\ run 0 3 = Ok (0, 0) /\
  run 7 3 = Panic /\ run 6 2 = Panic /\ run 8 2 = Ok (3, 1) /\ run 4 1 = Diverge /\ run 4 0 = Panic.
Proof. vm_compute. repeat split. Qed.

(** ** C46, C47: the "SimpleZK" wrapper of the k-ary argument *)
Section C46.
Context {C : Crypto} {L : CryptoLaws C}.
Add Field SfC46 : (@S_field C L).

Lemma create_general_eq ro rng pos tr m n k A w t : rect m n A ->
  create_general ro rng pos tr A w t n m k =
  (let a := pmv A (draw rng pos n) in
   '(p, tr') <- create_lmpa_noZK ro (sz_hist tr a) A w t n m k s1 p0 ;; Ok (mkSimpleZKGeneral p a, tr')).
Proof.
  intros HA. unfold create_general, challenge_scalar. cbv zeta.
  rewrite (pmv_lin m n) by (auto; apply draw_length). now rewrite sz_hist_eq.
Qed.
Lemma verify_general_eq ro tr p a A n m k t :
  verify_general ro tr (mkSimpleZKGeneral p a) A t n m k =
  verify_lmpa_noZK ro (sz_hist tr a) p A (sz_t (ro (sz_hist tr a)) t a) n m k s1 p0.
Proof.
  unfold verify_general, challenge_scalar. cbn [szg_a lamp_no_zk]. now rewrite sz_hist_eq.
Qed.

(** accepted when at least one round is played (d >= 1) *)
Theorem C46_general_completeness (ro : oracle) rng pos tr m k r d (A : list (list Point)) (w : list Scalar) :
  2 <= k -> 1 <= r -> r < k -> 1 <= m -> 1 <= d ->
  let n := r * k ^ d in
  rect m n A -> length w = n ->
  exists proof tr',
    create_general ro rng pos tr A w (pmv A w) n m k = Ok (proof, tr') /\
    szg_a proof = pmv A (draw rng pos n) /\
    ((forall j, j < d -> ro (ka_hist (sz_hist tr (szg_a proof)) (u_proof_Block (lamp_no_zk proof)) (S j)) <> s0) ->
     verify_general ro tr proof A (pmv A w) n m k = Ok (true, tr')).
Proof.
  intros Hk Hr Hrk Hm Hd n HA Hw. rewrite create_general_eq by exact HA. cbv zeta.
  set (a := pmv A (draw rng pos n)).
  destruct (C43_kary_completeness ro (sz_hist tr a) m k r d A w Hk Hr Hrk Hm HA Hw)
    as (p & tr' & E & _ & _ & _ & _ & V). fold n in E, V. rewrite E. cbn [bind].
  exists (mkSimpleZKGeneral p a), tr'. split; auto. split; auto. cbn [szg_a lamp_no_zk]. intros Hx.
  rewrite verify_general_eq. rewrite (C44_kary_target_ignored _ _ _ _ _ (pmv A w)); auto.
  unfold n. destruct d as [|d]; [lia|]. rewrite kpow_S. rewrite <- (Nat.mul_1_r k) at 1. apply Nat.mul_le_mono_l.
  assert (H := kpow_pos k d ltac:(lia)). nia.
Qed.
(** without a round the verdict on the honest proof is a comparison of (A w)_0
    with beta (A w)_0 + (A r)_0, where r is the unused mask *)
Theorem C46_general_no_round_verdict (ro : oracle) rng pos tr m n k (A : list (list Point)) (w : list Scalar) :
  n < k -> 1 <= m -> rect m n A -> length w = n ->
  let a := pmv A (draw rng pos n) in
  let beta := ro (sz_hist tr a) in
  exists proof tr',
    create_general ro rng pos tr A w (pmv A w) n m k = Ok (proof, tr') /\
    verify_general ro tr proof A (pmv A w) n m k =
      Ok (peqb (pt (pmv A w) 0) (beta *: pt (pmv A w) 0 + pt a 0)%P, tr').
Proof.
  intros Hn Hm HA Hw a beta. rewrite create_general_eq by exact HA. cbv zeta. fold a.
  unfold create_lmpa_noZK. cbn [kary_create_loop]. destruct (Nat.leb_spec k n); [lia|]. cbn [bind].
  eexists _, _. split; [reflexivity|]. rewrite verify_general_eq. unfold verify_lmpa_noZK.
  cbn [kary_verify_loop u_proof_Block]. destruct (Nat.leb_spec k n); [lia|]. cbn [A_Matrix w_Vec].
  rewrite (pmv_lin m n) by auto. fold beta.
  assert (HL : forall v, length (pmv A v) = m) by (intros v; unfold pmv; rewrite map_length; apply HA).
  assert (Hat : length a = m) by apply HL.
  rewrite (idx_lt _ _ p0) by (rewrite HL; lia). cbn [bind].
  rewrite (idx_lt _ _ p0) by (unfold sz_t; rewrite map2_length, HL, Hat; lia). cbn [bind].
  unfold sz_t. rewrite (map2_nth _ _ _ _ p0 p0 p0) by (rewrite ?HL, ?Hat; lia). reflexivity.
Qed.
End C46.
(** an honest proof of a true statement that is rejected: n = m = 1, k = 2 *)
Theorem C46_general_complete_refuted :
  ~ (forall (C : Crypto) (L : CryptoLaws C) ro rng pos tr m n k (A : list (list (@Point C))) w proof tr',
       2 <= k -> 1 <= m -> rect m n A -> length w = n ->
       create_general ro rng pos tr A w (pmv A w) n m k = Ok (proof, tr') ->
       exists tr'', verify_general ro tr proof A (pmv A w) n m k = Ok (true, tr'')).
Proof.
  intros H. specialize (H EX EX_laws).
  assert (HA : rect 1 1 [[pN 3]]) by (split; [reflexivity|repeat constructor]).
  destruct (@C46_general_no_round_verdict EX EX_laws ro1 rngA 0 [] 1 1 2 [[pN 3]] [sN 4]) as (p & tr' & E & V);
    auto.
  destruct (H ro1 rngA 0 [] 1 1 2 [[pN 3]] [sN 4] p tr') as (tr'' & V'); auto.
  rewrite V in V'. injection V' as V' _. revert V'. vm_compute. discriminate.
Qed.
Example C46_case :
  rmap (fun '(p, tr) => rmap fst (verify_general ro1 [] p [[pN 3]] [pN 12] 1 1 2))
    (create_general ro1 rngA 0 [] [[pN 3]] [sN 4] [pN 12] 1 1 2) = Ok (Ok false) /\
  rmap (fun '(p, tr) => (map zp (szg_a p), rmap fst (verify_general ro1 [] p A13 t13 6 2 3)))
    (create_general ro1 rngA 0 [] A13 w6 t13 6 2 3) =
  Ok (map zp (pmv A13 (map (fun i => sN (Z.of_nat i * 31 + 5)) (seq 0 6))), Ok true).
Proof. vm_compute. auto. Qed.

Section C47.
Context {C : Crypto} {L : CryptoLaws C}.
(** for every tape the response is the raw witness folded with the public round challenges *)
Theorem C47_general_response_unblinded (ro : oracle) rng pos tr m k r d (A : list (list Point))
    (w : list Scalar) (t : list Point) proof tr' :
  2 <= k -> 1 <= r -> r < k -> 1 <= m ->
  let n := r * k ^ d in
  rect m n A -> length w = n -> length t = m ->
  create_general ro rng pos tr A w t n m k = Ok (proof, tr') ->
  let tr1 := sz_hist tr (szg_a proof) in
  w_Vec (lamp_no_zk proof) =
    ka_fold_w k r d (map (fun j => ro (ka_hist tr1 (u_proof_Block (lamp_no_zk proof)) (S j))) (seq 0 d)) w.
Proof.
  intros Hk Hr Hrk Hm n HA Hw Ht E. rewrite create_general_eq in E by exact HA. cbv zeta in E.
  set (a := pmv A (draw rng pos n)) in E. apply bind_Ok_inv in E as ([p tr2] & E & E'). injection E' as <- <-.
  cbn [szg_a lamp_no_zk]. unfold create_lmpa_noZK in E.
  destruct (kary_run d (S n) ro (sz_hist tr a) m k r A w t [] Hk Hm Hr Hrk)
    as (l & A' & w' & t' & E2 & Hl & HF & HA' & Hw' & Ht' & Ew & _); auto.
  { assert (H := kpow_gt k d Hk). unfold n. nia. }
  fold n in E2. rewrite E2 in E. injection E as <- _. exact Ew.
Qed.
(** with n < k the proof contains the witness itself *)
Theorem C47_general_reveals_witness (ro : oracle) rng pos tr m n k (A : list (list Point))
    (w : list Scalar) (t : list Point) :
  n < k -> rect m n A ->
  exists proof tr', create_general ro rng pos tr A w t n m k = Ok (proof, tr') /\
    w_Vec (lamp_no_zk proof) = w.
Proof.
  intros Hn HA. rewrite create_general_eq by exact HA. cbv zeta. unfold create_lmpa_noZK.
  cbn [kary_create_loop]. destruct (Nat.leb_spec k n); [lia|]. cbn [bind]. eexists _, _. split; reflexivity.
Qed.
(** so there is no witness indistinguishability: proofs for different witnesses
    differ whatever the two tapes are *)
Theorem C47_general_distinguishable (ro : oracle) rng1 pos1 rng2 pos2 tr m n k (A : list (list Point))
    (w1 w2 : list Scalar) (t : list Point) p1 p2 tr1 tr2 :
  n < k -> rect m n A -> w1 <> w2 ->
  create_general ro rng1 pos1 tr A w1 t n m k = Ok (p1, tr1) ->
  create_general ro rng2 pos2 tr A w2 t n m k = Ok (p2, tr2) -> p1 <> p2.
Proof.
  intros Hn HA Hw E1 E2.
  destruct (C47_general_reveals_witness ro rng1 pos1 tr m n k A w1 t Hn HA) as (q1 & s1' & F1 & G1).
  destruct (C47_general_reveals_witness ro rng2 pos2 tr m n k A w2 t Hn HA) as (q2 & s2' & F2 & G2).
  congruence.
Qed.
End C47.
(** two witnesses of 3 a + 5 b = 13 with n = 2 < k = 3; and with rounds, two tapes *)
Example C47_case :
  let W w := rmap (fun '(p, _) => map zs (w_Vec (lamp_no_zk p))) (create_general ro1 rngA 0 [] [[pN 3; pN 5]] w [pN 13] 2 1 3) in
  W [sN 1; sN 2] = Ok [1; 2]%Z /\ W [sN 6; sN (-1)] = Ok [6; pe - 1]%Z /\
  let W6 rng := rmap (fun '(p, _) => map zs (w_Vec (lamp_no_zk p))) (create_general ro1 rng 0 [] A13 w6 t13 6 2 3) in
  W6 rngA = Ok (map zs (ka_w 3 2 (sN 100) w6)) /\ W6 rngB = W6 rngA.
Proof. vm_compute. auto. Qed.
