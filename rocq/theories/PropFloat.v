(** C69: the f64 experiments with protocols 3.9 and 3.14. *)
From Coq Require Import Floats.SpecFloat ZArith.
From Verif Require Export FloatFacts.
From Verif Require Import PropTotal ExSmall.
Local Open Scope nat_scope.
Local Open Scope list_scope.

(** ** what holds for any number type, floating point included *)
Section AnyNum.
Context {T : Type} {NT : Num T}.

Lemma f_row_length n i : length (f_row n i) = n.
Proof. unfold f_row. now rewrite map_length, seq_length. Qed.
Lemma f_mv_length (A : list (list T)) w : length (f_mv A w) = length A.
Proof. unfold f_mv, matrix_vector_mul_general. apply map_length. Qed.
Lemma test_A_rect n m : rect m n (map (f_row n) (seq 0 m)).
Proof.
  split; [now rewrite map_length, seq_length|]. apply Forall_forall. intros r H. apply in_map_iff in H as (i & <- & _).
  apply f_row_length.
Qed.
Lemma rra_ok (a b : list T) : length a = length b -> exists r, row_row_add_general nadd a b = Ok r /\ length r = length a.
Proof.
  intros H. unfold row_row_add_general. rewrite H, Nat.eqb_refl. cbn [assertb bind]. eexists. split; [reflexivity|].
  rewrite map2_length, H. apply Nat.min_id.
Qed.
Lemma set_at_Forall {A} (P : A -> Prop) l i v : Forall P l -> P v -> Forall P (set_at l i v).
Proof.
  intros Hl Hv. revert i. induction Hl as [|a l Ha Hl IH]; intros [|i]; cbn; auto.
Qed.
(** the data of the two 3.14 tests always have the right shape *)
Lemma alm_snd_data_ok n m : exists H ws t, alm_snd_data n m = Ok (H, ws, t) /\
  length H = S m /\ Forall (rect m n) H /\ length ws = S m /\ Forall (fun w => length w = n) ws /\ length t = m.
Proof.
  unfold alm_snd_data. cbv zeta.
  set (st0 := ([map (f_row n) (seq 0 m)], [map nnat (seq 0 n)], [f_mv (map (f_row n) (seq 0 m)) (map nnat (seq 0 n))])).
  assert (E : forall l, Forall (fun i => i < m) l -> forall H r ta,
     Forall (rect m n) H -> Forall (fun v => length v = n) r -> Forall (fun v => length v = m) ta ->
     exists H' r' ta', foldM (fun '(H, r, t_all) i =>
       tmp <- upd (repeat (repeat n0 n) m) i (f_row n i) ;;
       let r_i := map (fun j => nnat (j + i)) (seq 0 n) in
       let t_i := f_mv tmp r_i in
       Ok (H ++ [tmp], r ++ [r_i], t_all ++ [t_i])) l (H, r, ta) = Ok (H', r', ta') /\
       length H' = length H + length l /\ length r' = length r + length l /\ length ta' = length ta + length l /\
       Forall (rect m n) H' /\ Forall (fun v => length v = n) r' /\ Forall (fun v => length v = m) ta').
  { induction 1 as [|i l Hi Hl IH]; intros H r ta F1 F2 F3; cbn [foldM].
    - exists H, r, ta. cbn [length]. rewrite !Nat.add_0_r. auto 10.
    - rewrite upd_lt by (now rewrite repeat_length). cbn [bind].
      set (tmp := set_at (repeat (repeat n0 n) m) i (f_row n i)).
      assert (RT : rect m n tmp).
      { split; [unfold tmp; now rewrite set_at_length, repeat_length|]. apply set_at_Forall; [|apply f_row_length].
        apply Forall_forall. intros v Hv. apply repeat_spec in Hv. subst v. apply repeat_length. }
      cbv zeta. set (ri := map (fun j => nnat (j + i)) (seq 0 n)).
      assert (Lr : length ri = n) by (unfold ri; now rewrite map_length, seq_length).
      destruct (IH (H ++ [tmp]) (r ++ [ri]) (ta ++ [f_mv tmp ri])) as (H' & r' & ta' & E & L1 & L2 & L3 & G).
      + apply Forall_app; auto.
      + apply Forall_app; auto.
      + apply Forall_app; split; auto. constructor; auto. rewrite f_mv_length. apply RT.
      + exists H', r', ta'. split; [exact E|]. rewrite !app_length in *. cbn [length] in *. repeat split; try lia; apply G. }
  destruct (E (seq 0 m)) with (H := [map (f_row n) (seq 0 m)]) (r := [map (@nnat T NT) (seq 0 n)])
      (ta := [f_mv (map (f_row n) (seq 0 m)) (map nnat (seq 0 n))])
    as (H & r & ta & E1 & L1 & L2 & L3 & F1 & F2 & F3).
  { apply Forall_forall. intros i Hi. apply in_seq in Hi. lia. }
  { constructor; auto. apply test_A_rect. }
  { constructor; auto. now rewrite map_length, seq_length. }
  { constructor; auto. rewrite f_mv_length. apply test_A_rect. }
  cbv zeta in E1. unfold st0. rewrite E1. cbn [bind]. cbn [length] in L1, L2, L3. rewrite seq_length in L1, L2, L3.
  set (xs := map (fun j => nnat (j + 2)) (seq 0 (m + 1))).
  assert (Lx : length xs = m + 1) by (unfold xs; now rewrite map_length, seq_length).
  assert (EM : mapM (fun i => r_i <- idx r i ;; x_i <- idx xs i ;; Ok (vector_scalar_mul_general nmul r_i x_i)) (seq 0 (m + 1)) =
               Ok (map (fun i => vector_scalar_mul_general nmul (nth i r []) (nth i xs n0)) (seq 0 (m + 1)))).
  { apply mapM_map. intros i Hi. apply in_seq in Hi.
    rewrite (idx_lt _ _ []) by lia. cbn [bind]. rewrite (idx_lt _ _ n0) by lia. reflexivity. }
  rewrite EM. cbn [bind].
  assert (ET : forall l, Forall (fun i => i < m + 1) l -> forall t, length t = m ->
     exists t', foldM (fun t i => t_i <- idx ta i ;; x_i <- idx xs i ;;
                                  row_row_add_general nadd t (vector_scalar_mul_general nmul t_i x_i)) l t = Ok t' /\ length t' = m).
  { induction 1 as [|i l Hi Hl IH]; intros t Ht; cbn [foldM]; [eauto|].
    rewrite (idx_lt _ _ []) by lia. cbn [bind]. rewrite (idx_lt _ _ n0) by lia. cbn [bind].
    destruct (rra_ok t (vector_scalar_mul_general nmul (nth i ta []) (nth i xs n0))) as (t1 & -> & Lt1).
    - unfold vector_scalar_mul_general. rewrite map_length, Ht. symmetry. rewrite Forall_forall in F3. apply F3, nth_In. lia.
    - cbn [bind]. apply IH. congruence. }
  destruct (ET (seq 0 (m + 1))) with (t := repeat (@n0 T NT) m) as (t' & E2 & Lt).
  { apply Forall_forall. intros i Hi. apply in_seq in Hi. lia. }
  { apply repeat_length. }
  rewrite E2. cbn [bind]. eexists _, _, _. split; [reflexivity|]. rewrite map_length, seq_length.
  repeat split; auto; try lia. apply Forall_forall. intros w Hw. apply in_map_iff in Hw as (i & <- & Hi). apply in_seq in Hi.
  unfold vector_scalar_mul_general. rewrite map_length. rewrite Forall_forall in F2. apply F2, nth_In. lia.
Qed.

(** more blocks than k: the index l leaves u_vec *)
Lemma u_inner_panic k A0 : 1 <= k -> forall (ws : list (list T)) j0 u, length u = 2 * (k - 1) + 1 -> j0 <= k -> k < j0 + length ws ->
  foldM (fun u_vec '(j, w_vec) => l <- usub (k - 1 + j) 0 ;;
          u_l <- idx u_vec l ;; s <- row_row_add_general nadd u_l (f_mv A0 w_vec) ;; upd u_vec l s)
     (combine (seq j0 (length ws)) ws) u = Panic.
Proof.
  intros Hk. induction ws as [|w ws IH]; intros j0 u Hu Hj Hl; cbn [length] in Hl; [lia|].
  cbn [length seq combine foldM]. rewrite usub_le by lia. cbn [bind]. rewrite Nat.sub_0_r.
  destruct (Nat.eq_dec j0 k) as [->|Hne].
  - unfold idx. rewrite (proj2 (nth_error_None u (k - 1 + k))) by lia. reflexivity.
  - rewrite (idx_lt _ _ []) by lia. cbn [bind].
    unfold row_row_add_general at 1. destruct (_ =? _); [|reflexivity]. cbn [assertb bind].
    rewrite upd_lt by lia. cbn [bind]. apply IH; [now rewrite set_at_length|lia|lia].
Qed.
Lemma t_f_u_loop shift A_T w_T (t : option (list T)) u : terminates (f_u_loop shift A_T w_T t u).
Proof. unfold f_u_loop. tsolve. all: unfold row_row_add_general; tsolve. Qed.
Lemma u_loop_panic k (A0 : list (list T)) A_T ws u : 1 <= k -> length u = 2 * (k - 1) + 1 -> k < length ws ->
  f_u_loop (k - 1) (A0 :: A_T) ws None u = Panic.
Proof.
  intros Hk Hu Hl. unfold f_u_loop, enumerate. cbn [length seq combine foldM].
  match goal with |- bind ?X _ = _ => assert (E : X = Panic) end.
  { rewrite <- (u_inner_panic k A0 Hk ws 0 u); auto; lia. }
  now rewrite E.
Qed.
Lemma f_heads_sized (q c : nat) (w : list T) : exists hs, f_heads (tab q (part_of [w] c)) = Ok hs /\ length hs = q.
Proof.
  unfold f_heads. rewrite (mapM_map _ (fun w_vec => nth 0 w_vec [])).
  - eexists. split; [reflexivity|]. now rewrite map_length, tab_length.
  - intros p Hp. unfold tab in Hp. apply in_map_iff in Hp as (i & <- & _). reflexivity.
Qed.
Lemma alm1_two_rounds h w k c m ub : 2 <= k -> 1 <= c -> 1 <= m -> rect m (k * (k * c)) h -> length w = k * (k * c) ->
  @alm1_u_loop T NT (S (k * (k * c))) h w (k * (k * c)) m k (k - 1) (2 * (k - 1) + 1) ub = Panic.
Proof.
  intros Hk Hc Hm Hh Hw.
  assert (EF : k * (k * c) = S (k * (k * c) - 1)) by nia.
  assert (Hle : k <= k * (k * c)) by nia. assert (Hle2 : k <= k * c) by nia.
  assert (D1 : k * (k * c) / k = k * c) by (rewrite Nat.mul_comm; apply Nat.div_mul; lia).
  assert (D2 : k * c / k = c) by (rewrite Nat.mul_comm; apply Nat.div_mul; lia).
  rewrite EF at 1. cbn [alm1_u_loop].
  destruct (Nat.leb_spec k (k * (k * c))); [|lia]. destruct (Nat.leb_spec k (k * (k * c) / k)) as [_|]; [|lia].
  unfold udiv. destruct (Nat.eqb_spec k 0); [lia|]. cbn [bind]. rewrite D1, D2.
  rewrite (matrix_split_eq m (k * c) k) by (auto; nia). cbn [bind].
  rewrite (matrix_split_eq 1 (k * c) k) by (auto using rect1; nia). cbn [bind].
  destruct (f_heads_sized k (k * c) w) as (hs & -> & _). cbn [bind].
  destruct (f_u_loop (k - 1) (tab k (part_of h (k * c))) hs None (repeat (repeat n0 m) (2 * (k - 1) + 1))) as [u| |] eqn:EU;
    [|reflexivity|exfalso; revert EU; apply t_f_u_loop].
  cbn [bind]. rewrite (matrix_split_eq m c (k * k)) by (auto; try lia; now rewrite <- Nat.mul_assoc). cbn [bind].
  rewrite (matrix_split_eq 1 c (k * k)) by (try lia; apply rect1; lia). cbn [bind].
  destruct (f_heads_sized (k * k) c w) as (hs2 & -> & L2). cbn [bind].
  assert (EK : k * k = S (k * k - 1)) by nia. rewrite EK. unfold tab. cbn [seq map].
  rewrite u_loop_panic; [reflexivity|lia|apply repeat_length|nia].
Qed.
(** version 1 cannot do two rounds *)
Theorem C69_version1_two_rounds_panic x k c m h H w ws (t : list T) : 2 <= k -> 1 <= c -> 1 <= m ->
  rect m (k * (k * c)) h -> length w = k * (k * c) ->
  alm_snd_1 x k (k * (k * c)) m (h :: H) (w :: ws) t = Panic.
Proof.
  intros Hk Hc Hm Hh Hw. unfold alm_snd_1. rewrite usub_le by lia. cbn [bind].
  unfold enumerate at 1. cbn [length seq combine foldM idx nth_error bind].
  rewrite alm1_two_rounds by auto. reflexivity.
Qed.
Theorem C69_version1_test_panics x k d m : 2 <= k -> 1 <= m -> @test_lmpa_almSnd_float_1 T NT x k (S (S d)) m = Panic.
Proof.
  intros Hk Hm. unfold test_lmpa_almSnd_float_1. cbv zeta.
  destruct (alm_snd_data_ok (k ^ S (S d)) m) as (H & ws & t & -> & L1 & F1 & L2 & F2 & _). cbn [bind].
  destruct H as [|h H]; [discriminate|]. destruct ws as [|w ws]; [discriminate|].
  replace (k ^ S (S d)) with (k * (k * k ^ d)) in * by reflexivity.
  apply C69_version1_two_rounds_panic; auto.
  - apply kpow_pos. lia.
  - now inversion F1.
  - now inversion F2.
Qed.
(** the claimed sum t_expected never reaches the final comparison *)
Theorem C69_version1_target_ignored x k cols m H ws (t t' : list T) : k <= cols -> H <> [] ->
  alm_snd_1 x k cols m H ws t = alm_snd_1 x k cols m H ws t'.
Proof.
  intros Hk HN. unfold alm_snd_1. destruct (usub k 1) as [sh| |]; cbn [bind]; auto.
  destruct (foldM _ (enumerate H) []) as [ub| |]; cbn [bind]; auto.
  destruct (foldM (matrix_matrix_add_general nadd) ub _) as [ua| |]; cbn [bind]; auto.
  destruct H as [|h H]; [contradiction|]. unfold enumerate. cbn [length seq combine foldM].
  destruct (idx ws 0) as [w| |]; cbn [bind]; auto. cbn [alm1_fold_loop].
  destruct (Nat.leb_spec k cols); [|lia]. reflexivity.
Qed.
Theorem C69_version2_target_ignored x n m H ws A w A' w' (t t' : list T) : 1 <= n ->
  alm_snd_2 x n m H ws A w t = alm_snd_2 x n m H ws A' w' t'.
Proof.
  intros Hn. unfold alm_snd_2. cbv zeta. cbn [alm2_loop]. destruct (Nat.leb_spec (m + 1) (n + m * n)); [|nia]. reflexivity.
Qed.
End AnyNum.

(** ** exact arithmetic *)
Section Exact.
Context {C : Crypto} {L : CryptoLaws C}.
Local Instance NS : Num Scalar := num_scalar C.
Add Field SfF : (@S_field C L).

Lemma self_pmv m n (A : list (list Scalar)) w : rect m n A -> length w = n ->
  pmv (C := SelfC C) A w = tab m (fun i => sum_S n (fun j => ent A i j * sc w j)%S).
Proof.
  intros HA Hw. apply (tab_eq (p0 (Crypto := SelfC C))); [unfold pmv; rewrite map_length; apply HA|].
  intros i Hi. etransitivity; [apply (pmv_pt (C := SelfC C) m n A w i HA Hw Hi)|].
  clear - L. assert (E : forall q, sum_P (C := SelfC C) q (fun s => pmul (Crypto := SelfC C) (sc w s) (ent A i s)) =
                         sum_S q (fun j => ent A i j * sc w j)%S).
  { induction q as [|q IH]; [reflexivity|]. exact (f_equal2 (@sadd C) IH (@smul_comm C L (sc w q) (ent A i q))). }
  apply E.
Qed.
(** protocol 3.9: the run accepts exactly the true products *)
Theorem C69_protocol39_exact x k d r m A w t : x <> s0 -> 2 <= k -> 1 <= m -> 1 <= r -> r < k ->
  rect m (r * k ^ d) A -> length w = r * k ^ d -> length t = m ->
  (t = tab m (fun i => sum_S (r * k ^ d) (fun j => ent A i j * sc w j)%S) -> float39 x k (r * k ^ d) m A w t = Ok tt) /\
  (t <> tab m (fun i => sum_S (r * k ^ d) (fun j => ent A i j * sc w j)%S) -> float39 x k (r * k ^ d) m A w t = Panic).
Proof.
  intros Hx Hk Hm Hr Hrk HA Hw Ht. assert (E := self_pmv m _ A w HA Hw).
  destruct (float39_iff (L0 := L) d x m k r A w t Hk Hm Hr Hrk Hx HA Hw Ht) as [F1 F2]. split; intros HQ.
  - apply F1. exact (eq_trans HQ (eq_sym E)).
  - apply F2. intros Q. apply HQ. exact (eq_trans Q E).
Qed.
Lemma f_mv_sum m n (A : list (list Scalar)) w : rect m n A -> length w = n ->
  f_mv A w = tab m (fun i => sum_S n (fun j => ent A i j * sc w j)%S).
Proof.
  intros HA Hw. etransitivity; [exact (f_mv_eq (L0 := L) A w)|]. etransitivity; [|exact (self_pmv m n A w HA Hw)].
  exact (pmv_lin (C := SelfC C) (L := SelfL C L) m n A w HA Hw).
Qed.
Theorem C69_test39_exact x k d m : x <> s0 -> 2 <= k -> 1 <= m -> test_lmpa_noZK_float x k d m = Ok tt.
Proof.
  intros Hx Hk Hm. unfold test_lmpa_noZK_float. cbv zeta.
  assert (H1 := C69_protocol39_exact x k d 1 m (map (f_row (k ^ d)) (seq 0 m)) (map nnat (seq 0 (k ^ d)))
     (f_mv (map (f_row (k ^ d)) (seq 0 m)) (map nnat (seq 0 (k ^ d))))).
  rewrite Nat.mul_1_l in H1. apply H1; try (auto; lia).
  - apply test_A_rect.
  - now rewrite map_length, seq_length.
  - rewrite f_mv_length. apply test_A_rect.
  - apply f_mv_sum; [apply test_A_rect|now rewrite map_length, seq_length].
Qed.
(** protocol 3.14, version 1: one round accepts whatever the claimed target *)
Theorem C69_version1_exact x k c m H ws t : x <> s0 -> 1 <= c -> c < k -> 1 <= m -> H <> [] -> length H = length ws ->
  Forall (rect m (k * c)) H -> Forall (fun w => length w = k * c) ws -> alm_snd_1 x k (k * c) m H ws t = Ok tt.
Proof.
  intros Hx Hc Hck Hm HN HL HH HW. assert (Hk : 1 <= k) by lia.
  exact (alm_snd_1_ok (L0 := L) x k c m Hk Hc Hck Hm Hx H ws t HN HL HH HW).
Qed.
Theorem C69_version1_test_exact x k m : x <> s0 -> 2 <= k -> 1 <= m -> test_lmpa_almSnd_float_1 x k 1 m = Ok tt.
Proof.
  intros Hx Hk Hm. unfold test_lmpa_almSnd_float_1. cbv zeta.
  destruct (alm_snd_data_ok (k ^ 1) m) as (H & ws & t & -> & L1 & F1 & L2 & F2 & _). cbn [bind Nat.pow] in *.
  apply C69_version1_exact; auto; try lia. intros ->. discriminate.
Qed.
(** version 2 *)
Theorem C69_version2_exact x c m H ws A w t : x <> s0 -> 1 <= c -> 1 <= m ->
  length H = S m -> Forall (rect m c) H -> length ws = S m -> Forall (fun w => length w = c) ws ->
  alm_snd_2 x c m H ws A w t = Ok tt.
Proof. intros Hx Hc Hm H1 H2 W1 W2. exact (alm_snd_2_ok (L0 := L) x c m H ws A w t Hc Hm Hx H1 H2 W1 W2). Qed.
Theorem C69_version2_test_exact x k d m : x <> s0 -> 1 <= k -> 1 <= m -> test_lmpa_almSnd_float_2 x k d m = Ok tt.
Proof.
  intros Hx Hk Hm. unfold test_lmpa_almSnd_float_2. cbv zeta.
  destruct (alm_snd_data_ok (k ^ d) m) as (H & ws & t & -> & L1 & F1 & L2 & F2 & _). cbn [bind].
  apply C69_version2_exact; auto. apply kpow_pos. lia.
Qed.
(** without rows, k = 1 and n stays: the loop never ends *)
Theorem C69_version2_no_rows_diverges x c A0 w0 A w t f : 1 <= c -> rect 0 c A0 -> length w0 = c ->
  alm2_loop f x [A0] [w0] A w t c 0 1 = Diverge.
Proof. intros Hc HA Hw. exact (alm2_m0 (L0 := L) x c A0 w0 f c A w t Hc HA Hw). Qed.
End Exact.

(** ** the three tests as they are written, in binary64, and the same with x = 3.0 *)
Section Binary64.
Local Existing Instance num64.
Let two := f64_of_Z 2.
Theorem C69_tests_as_written :
  test_lmpa_noZK_float two 4 3 1 = Ok tt /\ test_lmpa_almSnd_float_1 two 7 1 3 = Ok tt /\
  test_lmpa_almSnd_float_2 two 4 1 3 = Ok tt.
Proof. repeat split; vm_compute; reflexivity. Qed.
Theorem C69_version1_binary64_refuted :
  ~ (forall z : Z, (0 < z)%Z -> test_lmpa_almSnd_float_1 (f64_of_Z z) 7 1 3 = Ok tt).
Proof. intros H. specialize (H 3%Z eq_refl). revert H. vm_compute. discriminate. Qed.
Theorem C69_version2_binary64_refuted :
  ~ (forall z : Z, (0 < z)%Z -> test_lmpa_almSnd_float_2 (f64_of_Z z) 4 1 3 = Ok tt).
Proof. intros H. specialize (H 3%Z eq_refl). revert H. vm_compute. discriminate. Qed.
(** a wrong target is noticed by the 3.9 experiment and not by the 3.14 ones *)
Example C69_case :
  let A := [[f64_of_Z 1; f64_of_Z 2; f64_of_Z 3; f64_of_Z 4]] in
  let w := [f64_of_Z 5; f64_of_Z 6; f64_of_Z 7; f64_of_Z 8] in
  float39 two 2 4 1 A w [f64_of_Z 70] = Ok tt /\ float39 two 2 4 1 A w [f64_of_Z 71] = Panic /\
  alm_snd_1 two 4 4 1 [A; A] [w; w] [f64_of_Z 140] = Ok tt /\ alm_snd_1 two 4 4 1 [A; A] [w; w] [f64_of_Z 0] = Ok tt /\
  alm_snd_2 two 4 1 [A; A] [w; w] A w [f64_of_Z 0] = Ok tt /\
  alm_snd_1 two 2 4 1 [A; A] [w; w] [f64_of_Z 140] = Panic.
Proof. vm_compute. repeat split. Qed.
End Binary64.
(** the same in the field with 1009 elements *)
Example C69_case_exact :
  let NS := num_scalar FS in
  let A := [[fN 1; fN 2; fN 3; fN 4]] in
  let w := [fN 5; fN 6; fN 7; fN 8] in
  float39 (fN 3) 2 4 1 A w [fN 70] = Ok tt /\ float39 (fN 3) 2 4 1 A w [fN 71] = Panic /\
  alm_snd_1 (fN 3) 4 4 1 [A; A] [w; w] [fN 0] = Ok tt /\ alm_snd_2 (fN 3) 4 1 [A; A] [w; w] A w [fN 0] = Ok tt.
Proof. vm_compute. repeat split. Qed.

(** the numbers: integers are converted homomorphically in the exact version; zero has a positive
    sign in the binary64 version (its inverse is +infinity) *)
Section Numbers.
Context {C : Crypto} {L : CryptoLaws C}.
Add Field Sf69n : (@S_field C L).
Theorem C69_exact_numbers a b :
  @nnat _ (num_scalar C) 0 = s0 /\ @nnat _ (num_scalar C) 1 = s1 /\
  @nnat _ (num_scalar C) (a + b) = (@nnat _ (num_scalar C) a + @nnat _ (num_scalar C) b)%S /\
  @nnat _ (num_scalar C) (a * b) = (@nnat _ (num_scalar C) a * @nnat _ (num_scalar C) b)%S.
Proof.
  cbn [nnat num_scalar].
  assert (A : forall a b, s_of_nat (a + b) = (s_of_nat a + s_of_nat b)%S).
  { intros x y. induction x as [|x IH]; cbn [Nat.add s_of_nat]; [ring|rewrite IH; ring]. }
  split; [reflexivity|]. split; [cbn [s_of_nat]; ring|]. split; [apply A|].
  induction a as [|a IH]; cbn [Nat.mul s_of_nat]; [ring|rewrite A, IH; ring].
Qed.
End Numbers.
Theorem C69_binary64_numbers :
  @ndiv _ num64 (@n1 _ num64) (@n0 _ num64) = S754_infinity false /\
  @ndiv _ num64 (@n1 _ num64) (@nnat _ num64 0) = S754_infinity false /\
  @nnat _ num64 1 = @n1 _ num64 /\ @n1 _ num64 = @ndiv _ num64 (@nnat _ num64 3) (@nnat _ num64 3).
Proof. repeat split; vm_compute; reflexivity. Qed.
