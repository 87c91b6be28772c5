(** Facts about the folding of the binary linear-map preimage argument. *)
From Coq Require Import String.
From Verif Require Export LmpaSpec IpaSound MatrixFacts LmpaSimpleZK.
Local Open Scope nat_scope.
Local Open Scope list_scope.

Section LmpaFacts.
Context {C : Crypto} {L : CryptoLaws C}.
Add Field SfLF : (@S_field C L).

Lemma append_points_eq tr label us : append_points tr label us = tr ++ lm_msgs label us.
Proof.
  unfold append_points. revert tr; induction us as [|u us IH]; intros tr; cbn.
  - now rewrite app_nil_r.
  - rewrite IH. unfold append_message. now rewrite <- app_assoc.
Qed.
Lemma mpv_lin A v : matrixpoint_vector_mul A v = map (fun row => lin v row) A.
Proof. apply matrixpoint_vector_mul_eq. Qed.
Lemma pmv_lin m n A w : rect m n A -> length w = n -> matrixpoint_vector_mul A w = pmv A w.
Proof.
  intros [_ HA] Hw. rewrite mpv_lin. unfold pmv. apply map_ext_in. intros row Hr.
  rewrite Forall_forall in HA. apply lin_comb. rewrite (HA row Hr). lia.
Qed.

(** one row folded with challenge c *)
Definition frow (c : Scalar) (row : list Point) : list Point :=
  let h := length row / 2 in map2 (fun a b => a + c *: b)%P (firstn h row) (skipn h row).
Definition fwit (c : Scalar) (w : list Scalar) : list Scalar :=
  let h := length w / 2 in map2 (fun a b => a * c + b)%S (firstn h w) (skipn h w).
Definition flo {T} (v : list T) : list T := firstn (length v / 2) v.
Definition fhi {T} (v : list T) : list T := skipn (length v / 2) v.
Definition ftgt (c : Scalar) (Lr Rr t : list Point) : list Point :=
  map2 (fun '(l, r) t => l + c *: t + (c * c)%S *: r)%P (combine Lr Rr) t.

Lemma half_lt n : 2 * (n / 2) <= n.
Proof. apply Nat.mul_div_le. lia. Qed.
Lemma half_even h : (h + h) / 2 = h.
Proof. replace (h + h) with (h * 2) by lia. now apply Nat.div_mul. Qed.
Lemma flo_length {T} h (v : list T) : length v = h + h -> length (flo v) = h.
Proof. intros H. unfold flo. rewrite H, half_even, firstn_length. lia. Qed.
Lemma fhi_length {T} h (v : list T) : length v = h + h -> length (fhi v) = h.
Proof. intros H. unfold fhi. rewrite H, half_even, skipn_length. lia. Qed.
Lemma frow_length h c row : length row = h + h -> length (frow c row) = h.
Proof.
  intros H. unfold frow. cbv zeta. rewrite H, half_even, map2_length, firstn_length, skipn_length. lia.
Qed.
Lemma fwit_length h c row : length row = h + h -> length (fwit c row) = h.
Proof.
  intros H. unfold fwit. cbv zeta. rewrite H, half_even, map2_length, firstn_length, skipn_length. lia.
Qed.
Lemma frow_rect m h c A : rect m (h + h) A -> rect m h (map (frow c) A).
Proof.
  intros [H1 H2]. split; [now rewrite map_length|]. apply Forall_map.
  eapply Forall_impl; [|exact H2]. intros row. apply frow_length.
Qed.

Lemma lin_halves w row h : length w = h + h -> length row = h + h ->
  lin w row = (lin (flo w) (flo row) + lin (fhi w) (fhi row))%P.
Proof. intros H1 H2. unfold flo, fhi. rewrite H1, H2, half_even. apply lin_split. Qed.

(** the identity behind one round *)
Lemma fold_id h c w row : length w = h + h -> length row = h + h ->
  lin (fwit c w) (frow c row) =
  (lin (fhi w) (flo row) + c *: lin w row + (c * c)%S *: lin (flo w) (fhi row))%P.
Proof.
  intros Hw Hr. rewrite (lin_halves w row h Hw Hr).
  change (fwit c w) with (map2 (fun a b => a * c + b)%S (flo w) (fhi w)).
  change (frow c row) with (map2 (fun a b => a + c *: b)%P (flo row) (fhi row)).
  rewrite (map2_ext _ (fun x y => c * x + s1 * y)%S) by (intros; ring).
  rewrite (map2_ext _ (fun x y => s1 *: x + c *: y)%P) by (intros; pring).
  rewrite lin_affine_s by (rewrite (flo_length h), (fhi_length h); auto).
  rewrite !lin_affine_p by (rewrite (flo_length h), (fhi_length h); auto).
  pring.
Qed.
(** the same, read by the extractor *)
Lemma frow_lin h c w row : length row = h + h -> length w = h ->
  lin w (frow c row) = (lin w (flo row) + c *: lin w (fhi row))%P.
Proof.
  intros Hr Hw. change (frow c row) with (map2 (fun a b => a + c *: b)%P (flo row) (fhi row)).
  rewrite (map2_ext _ (fun x y => s1 *: x + c *: y)%P) by (intros; pring).
  rewrite lin_affine_p by (rewrite (flo_length h), (fhi_length h); auto). pring.
Qed.

(** the folded matrix is computed without panic exactly when all rows have even length *)
Lemma fold_matrix c A : Forall (fun row => Nat.Even (length row)) A ->
  matrixpoint_matrix_add (map fst (halve_rows A)) (matrixpoint_scalar_mul (map snd (halve_rows A)) c)
  = Ok (map (frow c) A).
Proof.
  intros H. unfold matrixpoint_matrix_add, matrixpoint_scalar_mul, halve_rows.
  rewrite !map_length, Nat.eqb_refl. cbn [assertb bind].
  rewrite !map_map. cbn [fst snd]. induction A as [|row A IH]; [reflexivity|]. cbn [map map2M fst snd].
  assert (Hr := Forall_inv H). apply Forall_inv_tail in H. destruct Hr as [h Hh].
  unfold rowpoint_rowpoint_add at 1. rewrite map_length, firstn_length, skipn_length.
  rewrite Hh. replace (2 * h) with (h + h) by lia. rewrite half_even.
  replace (min h (h + h) =? h + h - h) with true by (symmetry; apply Nat.eqb_eq; lia).
  cbn [assertb bind]. rewrite IH by exact H. cbn [bind]. f_equal. f_equal.
  unfold frow. rewrite Hh. replace (2 * h) with (h + h) by lia. rewrite half_even.
  now rewrite map2_map_r.
Qed.
Lemma fold_matrix_panic c A : ~ Forall (fun row => Nat.Even (length row)) A ->
  matrixpoint_matrix_add (map fst (halve_rows A)) (matrixpoint_scalar_mul (map snd (halve_rows A)) c)
  = Panic.
Proof.
  intros H. unfold matrixpoint_matrix_add, matrixpoint_scalar_mul, halve_rows.
  rewrite !map_length, Nat.eqb_refl. cbn [assertb bind].
  rewrite !map_map. cbn [fst snd]. induction A as [|row A IH]; [now exfalso; apply H|]. cbn [map map2M fst snd].
  unfold rowpoint_rowpoint_add at 1. rewrite map_length, firstn_length, skipn_length.
  destruct (Nat.Even_or_Odd (length row)) as [E|[h Hh]].
  - assert (HA : ~ Forall (fun row => Nat.Even (length row)) A).
    { intros HA. apply H. now constructor. }
    destruct (_ =? _); cbn [assertb bind]; [|reflexivity].
    now rewrite (IH HA).
  - rewrite Hh. replace ((2 * h + 1) / 2) with h.
    + destruct (Nat.eqb_spec (min h (2 * h + 1)) (2 * h + 1 - h)); [lia|]. reflexivity.
    + rewrite Nat.add_comm, Nat.mul_comm, Nat.div_add by lia. reflexivity.
Qed.
Lemma rect_even {T} m h (A : list (list T)) : rect m (h + h) A ->
  Forall (fun row => Nat.Even (length row)) A.
Proof.
  intros [_ H]. eapply Forall_impl; [|exact H]. cbn. intros row ->. exists h. lia.
Qed.
Lemma rect_nth {T} m n (A : list (list T)) i : rect m n A -> i < m -> length (nth i A []) = n.
Proof.
  intros [H1 H2] Hi. rewrite Forall_forall in H2. apply H2. apply nth_In. lia.
Qed.

Lemma pow2_S d : 2 ^ S d = 2 ^ d + 2 ^ d.
Proof. cbn. lia. Qed.
Lemma pow2_S_neq1 d : 2 ^ S d =? 1 = false.
Proof. apply Nat.eqb_neq. rewrite pow2_S. assert (H := pow2_pos d). lia. Qed.

(** ** One iteration of the two loops *)
Definition cr_L (A : list (list Point)) (w : list Scalar) : list Point :=
  map (fun row => lin (fhi w) (flo row)) A.
Definition cr_R (A : list (list Point)) (w : list Scalar) : list Point :=
  map (fun row => lin (flo w) (fhi row)) A.
Lemma hist_app tr Lr Rr :
  append_points (append_points tr "L" Lr) "R" Rr ++ [EvChal "challenge"] = tr ++ lm_round Lr Rr.
Proof. rewrite !append_points_eq. unfold lm_round. now rewrite <- !app_assoc. Qed.
Lemma lm_create_step f ro tr n A w Ls Rs : n <> 1 ->
  lmpa_create_loop (S f) ro tr n A w Ls Rs =
  (let Lr := cr_L A w in let Rr := cr_R A w in
   let tr := tr ++ lm_round Lr Rr in let c := ro tr in
   A' <- matrixpoint_matrix_add (map fst (halve_rows A)) (matrixpoint_scalar_mul (map snd (halve_rows A)) c) ;;
   lmpa_create_loop f ro tr (n / 2) A' (fwit c w) (Ls ++ [Lr]) (Rs ++ [Rr])).
Proof.
  intros Hn. cbn [lmpa_create_loop]. destruct (Nat.eqb_spec n 1); [contradiction|].
  unfold challenge_scalar. rewrite !mpv_lin, hist_app.
  unfold halve_rows. rewrite !map_map. reflexivity.
Qed.
Lemma lm_create_step_ok f ro tr n A w Ls Rs m h : n <> 1 -> rect m (h + h) A ->
  lmpa_create_loop (S f) ro tr n A w Ls Rs =
  (let Lr := cr_L A w in let Rr := cr_R A w in
   let tr := tr ++ lm_round Lr Rr in let c := ro tr in
   lmpa_create_loop f ro tr (n / 2) (map (frow c) A) (fwit c w) (Ls ++ [Lr]) (Rs ++ [Rr])).
Proof.
  intros Hn HA. rewrite lm_create_step by auto. cbv zeta.
  rewrite fold_matrix by (eapply rect_even; eauto). reflexivity.
Qed.
Lemma lm_verify_step f ro tr proof n A t i Lr Rr : n <> 1 ->
  nth_error (lm_L proof) i = Some Lr -> nth_error (lm_R proof) i = Some Rr ->
  lmpa_verify_loop (S f) ro tr proof n A t i =
  (let tr := tr ++ lm_round Lr Rr in let c := ro tr in
   A' <- matrixpoint_matrix_add (map fst (halve_rows A)) (matrixpoint_scalar_mul (map snd (halve_rows A)) c) ;;
   lmpa_verify_loop f ro tr proof (n / 2) A' (ftgt c Lr Rr t) (S i)).
Proof.
  intros Hn HL HR. cbn [lmpa_verify_loop]. destruct (Nat.eqb_spec n 1); [contradiction|].
  unfold idx. rewrite HL. cbn [bind]. rewrite HR. cbn [bind].
  unfold challenge_scalar. rewrite hist_app. reflexivity.
Qed.

(** ** The honest run *)
Lemma ftgt_honest h c A w : length w = h + h -> Forall (fun row => length row = h + h) A ->
  ftgt c (cr_L A w) (cr_R A w) (map (fun row => lin w row) A) =
  map (fun row => lin (fwit c w) row) (map (frow c) A).
Proof.
  intros Hw HA. unfold ftgt, cr_L, cr_R. induction A as [|row A IH]; [reflexivity|].
  cbn [map combine map2]. f_equal.
  - symmetry. apply (fold_id h); auto. exact (Forall_inv HA).
  - apply IH. exact (Forall_inv_tail HA).
Qed.
Lemma lin1 w w0 row : w = [w0] -> lin w row = lin [w0] row.
Proof. now intros ->. Qed.

(** creation returns; the messages have the right shape; and any verifier loop
    whose proof carries these messages from index i on accepts *)
Lemma lm_create_loop_spec d : forall f ro tr m A w Ls Rs, d < f -> rect m (2 ^ d) A -> length w = 2 ^ d ->
  exists l r w0,
    lmpa_create_loop f ro tr (2 ^ d) A w Ls Rs =
      Ok (mkLmpaNoZK (Ls ++ l) (Rs ++ r) w0, lm_hist tr (combine l r) d) /\
    length l = d /\ length r = d /\
    Forall (fun u => length u = m) l /\ Forall (fun u => length u = m) r /\
    (forall g proof i, 1 <= m -> d < g ->
       (forall j, j < d -> nth_error (lm_L proof) (i + j) = nth_error l j) ->
       (forall j, j < d -> nth_error (lm_R proof) (i + j) = nth_error r j) ->
       lm_w proof = w0 ->
       lmpa_verify_loop g ro tr proof (2 ^ d) A (map (fun row => lin w row) A) i =
       Ok (true, lm_hist tr (combine l r) d)).
Proof.
  induction d as [|d IH]; intros f ro tr m A w Ls Rs Hf HA Hw; destruct f as [|f]; try lia.
  - apply length1 in Hw as [w0 ->]. exists [], [], w0. cbn [Nat.pow lmpa_create_loop Nat.eqb idx nth_error bind].
    rewrite !app_nil_r. unfold lm_hist, lm_rounds. cbn [combine firstn map concat]. rewrite app_nil_r.
    repeat split; auto.
    intros g proof i Hm Hg _ _ Hp. destruct g as [|g]; [lia|].
    cbn [lmpa_verify_loop Nat.eqb]. rewrite mpv_lin, Hp.
    destruct HA as [HA _]. destruct A as [|row A]; cbn in HA; [lia|].
    cbn [map idx nth_error bind]. now rewrite peqb_refl.
  - rewrite pow2_S in HA, Hw.
    assert (Hn : 2 ^ S d <> 1) by (apply Nat.eqb_neq, pow2_S_neq1).
    rewrite (lm_create_step_ok _ _ _ _ _ _ _ _ m (2 ^ d)) by auto. cbv zeta.
    set (l0 := cr_L A w). set (r0 := cr_R A w). set (tr1 := tr ++ lm_round l0 r0). set (c := ro tr1).
    rewrite pow2_half.
    destruct (IH f ro tr1 m (map (frow c) A) (fwit c w) (Ls ++ [l0]) (Rs ++ [r0])) as
      (l & r & w0 & E & Hl & Hr & Fl & Fr & V).
    { lia. } { now apply frow_rect. } { now apply fwit_length. }
    exists (l0 :: l), (r0 :: r), w0. rewrite E.
    assert (Eh : lm_hist tr1 (combine l r) d = lm_hist tr (combine (l0 :: l) (r0 :: r)) (S d)).
    { unfold lm_hist, tr1, lm_rounds. cbn [combine firstn map concat fst snd]. now rewrite <- app_assoc. }
    rewrite <- Eh, <- !app_assoc. cbn [length app].
    assert (HAl : length A = m) by apply HA.
    repeat split; auto.
    { constructor; auto. unfold l0, cr_L. now rewrite map_length. }
    { constructor; auto. unfold r0, cr_R. now rewrite map_length. }
    intros g proof i Hm Hg HL HR Hp. destruct g as [|g]; [lia|].
    rewrite (lm_verify_step _ _ _ _ _ _ _ _ l0 r0).
    + cbv zeta. fold tr1. fold c.
      rewrite fold_matrix by (eapply rect_even; eauto). cbn [bind]. rewrite pow2_half.
      unfold l0, r0. rewrite (ftgt_honest (2 ^ d)) by (auto; apply HA).
      apply V; auto; [lia| |]; intros j Hj.
      * replace (S i + j) with (i + S j) by lia. rewrite HL by lia. reflexivity.
      * replace (S i + j) with (i + S j) by lia. rewrite HR by lia. reflexivity.
    + exact Hn.
    + replace i with (i + 0) by lia. now rewrite HL by lia.
    + replace i with (i + 0) by lia. now rewrite HR by lia.
Qed.

Lemma lmpa_complete d ro tr m A (G H : list Point) Q w : rect m (2 ^ d) A -> length G = 2 ^ d ->
  length w = 2 ^ d ->
  exists l r w0,
    lmpa_create ro tr A G H Q w = Ok (mkLmpaNoZK l r w0, lm_hist tr (combine l r) d) /\
    length l = d /\ length r = d /\
    Forall (fun u => length u = m) l /\ Forall (fun u => length u = m) r /\
    (1 <= m -> lmpa_verify ro tr (mkLmpaNoZK l r w0) A G H Q (2 ^ d) (pmv A w) =
               Ok (true, lm_hist tr (combine l r) d)).
Proof.
  intros HA HG Hw. unfold lmpa_create. rewrite HG.
  destruct (lm_create_loop_spec d (S (2 ^ d + list_max (map (@length Point) A))) ro tr m A w [] []) as (l & r & w0 & E & Hl & Hr & Fl & Fr & V); auto.
  { assert (H' := pow2_gt d). lia. }
  exists l, r, w0. rewrite E. cbn [app]. repeat split; auto. intros Hm.
  unfold lmpa_verify. rewrite HG, Nat.eqb_refl. cbn [assertb bind].
  rewrite <- (pmv_lin m (2 ^ d)), mpv_lin by auto.
  apply V; auto. cbn [lm_L]. lia.
Qed.

End LmpaFacts.
