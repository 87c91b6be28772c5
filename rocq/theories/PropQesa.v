(** Properties of src/ipa/qesa_inner.rs and src/qesa_zk.rs: C22-C27, C52 *)
From Coq Require Import String.
From Verif Require Export QesaFacts Basis.
Local Open Scope string_scope.
Local Open Scope nat_scope.
Local Open Scope list_scope.

Section PropQesa.
Context {C : Crypto} {L : CryptoLaws C}.
Add Field SfPQ : (@S_field C L).

Lemma q_w''_eq n Ms x w r0 r1 : 2 <= n -> length w = n - 2 ->
  matrix_vector_mul (q_gamma n Ms x) w ++ [(- r1)%S; r0] = q_w'' n Ms x w [r0; r1].
Proof.
  intros Hn Hw. rewrite (mv_eq (n - 2)) by auto using q_gamma_rect.
  assert (Hwr : length (w ++ [r0; r1]) = n) by (rewrite app_length; cbn; lia).
  apply (list_eq_nth s0).
  - unfold q_w''. rewrite app_length, !mv_length. cbn. lia.
  - intros i Hi. rewrite app_length, mv_length in Hi. cbn in Hi.
    change (sc (mv (n - 2) (q_gamma n Ms x) w ++ [(- r1)%S; r0]) i = sc (q_w'' n Ms x w [r0; r1]) i).
    unfold q_w''.
    destruct (Nat.lt_ge_cases i (n - 2)) as [Hi2|Hi2].
    + rewrite sc_app_l by (rewrite mv_length; auto). rewrite mv_gamma'_top by auto.
      unfold mv. rewrite sc_tab by auto. rewrite Hw. apply sum_S_ext. intros j Hj.
      rewrite sc_app_l by lia. reflexivity.
    + rewrite sc_app_r by (rewrite mv_length; auto). rewrite mv_length.
      destruct (Nat.eq_dec i (n - 2)) as [->|Hne].
      * rewrite mv_gamma'_last2 by auto. rewrite Nat.sub_diag. rewrite sc_app_r by lia.
        rewrite Hw. replace (n - 1 - (n - 2)) with 1 by lia. reflexivity.
      * assert (i = n - 1) by lia. subst i. rewrite mv_gamma'_last1 by auto.
        replace (n - 1 - (n - 2)) with 1 by lia. rewrite sc_app_r by lia.
        rewrite Hw, Nat.sub_diag. reflexivity.
Qed.

Definition q_av n (w r' : list Scalar) s b := map2 ssub (w ++ r') (q_s' n s b).
Definition q_bw n Ms x (w r' : list Scalar) s b :=
  map2 sadd (q_w'' n Ms x w r') (mtv n (q_gamma' n (q_gamma n Ms x)) (q_s' n s b)).

Lemma inner_create_eq ro rng pos tr G H Q Ms w r' n :
  3 <= n -> length G = n -> length H = n -> length w = n - 2 -> length r' = 2 ->
  1 <= length Ms -> Forall (rect (n - 2) (n - 2)) Ms ->
  let c1 := compress (lin (w ++ r') G) in
  let x := ro (q_hist_x tr c1) in
  let c2 := compress (lin (q_w'' n Ms x w r') H) in
  let s := ro (q_hist_s tr c1 c2) in
  let b := ro (q_hist_b tr c1 c2) in
  let G' := q_G (x * x)%S G in
  let a := q_av n w r' s b in
  let bv := q_bw n Ms x w r' s b in
  let Cw := (lin a G' + lin bv H)%P in
  inner_create ro rng pos tr G H Q (mkBlockMatrix Ms) w r' =
  ('(p, tr, pos) <- alm_zk_create ro rng pos (q_hist_w tr c1 c2 (compress Cw)) G' H Q Cw a bv (dot a bv) ;;
   Ok (mkInner p c1 c2, tr, pos)).
Proof.
  intros Hn HG HH Hw Hr HM HF c1 x c2 s b G' a bv Cw. unfold inner_create.
  destruct r' as [|r0 [|r1 [|]]]; try discriminate.
  rewrite HG, usub_le by lia. cbn [bind]. rewrite Hw, Nat.eqb_refl. cbn [assertb bind length Nat.eqb].
  assert (Hwr : length (w ++ [r0; r1]) = n) by (rewrite app_length; cbn; lia).
  rewrite msm_Ok by lia. cbn [bind]. fold c1. unfold append_message, challenge_scalar.
  replace ((tr ++ [EvMsg "c_prime_w" c1]) ++ [EvChal "x"]) with (q_hist_x tr c1)
    by (unfold q_hist_x; now rewrite <- app_assoc).
  fold x.
  rewrite vandemonde_challenge_eq by lia. cbn [bind]. rewrite powers_length, Nat.eqb_refl. cbn [assertb bind].
  rewrite (q_batch n) by (auto; lia). cbn [bind].
  rewrite (idx_lt _ _ s0) by (rewrite powers_length; lia). cbn [bind].
  change (nth 1 (powers x n) s0) with (sc (powers x n) 1). rewrite powers_nth by lia.
  replace (spow x 2) with (x * x)%S by (cbn; ring).
  rewrite (idx_lt _ _ p0) by lia. cbn [bind].
  rewrite upd_lt by lia. cbn [bind]. rewrite q_G_eq by lia. fold G'.
  cbn [idx nth_error bind]. change (idx [r0; r1] 1) with (Ok r1). change (idx [r0; r1] 0) with (Ok r0).
  cbn [bind]. rewrite q_w''_eq by (auto; lia).
  assert (Hw2 : length (q_w'' n Ms x w [r0; r1]) = n) by (unfold q_w''; apply mv_length).
  rewrite msm_Ok by lia. cbn [bind]. fold c2.
  replace ((q_hist_x tr c1 ++ [EvMsg "c_prime_prime_w" c2]) ++ [EvChal "s"])
    with (q_hist_s tr c1 c2) by (unfold q_hist_s; now rewrite <- app_assoc).
  fold s.
  rewrite vandemonde_challenge_eq by lia. cbn [bind].
  change (q_hist_s tr c1 c2 ++ [EvChal "b"]) with (q_hist_b tr c1 c2).
  fold b.
  rewrite vandemonde_challenge_eq by lia. cbn [bind].
  rewrite q_s'_eq by lia. rewrite q_s'_length, Nat.eqb_refl. cbn [assertb bind].
  rewrite q_gamma'_eq by (auto using q_gamma_rect; lia). cbn [bind].
  rewrite (matrix_transpose_rect n n) by (auto using q_gamma'_rect; lia). cbn [bind].
  rewrite (mtv_eq n) by (auto using q_gamma'_rect, q_s'_length).
  rewrite row_row_sub_Ok by (rewrite q_s'_length; lia). cbn [bind].
  rewrite row_row_add_Ok by (rewrite mtv_length; lia). cbn [bind].
  fold (q_av n w [r0; r1] s b). fold a. fold (q_bw n Ms x w [r0; r1] s b). fold bv.
  assert (Ha : length a = n) by (unfold a, q_av; rewrite map2_length, q_s'_length; lia).
  assert (Hb : length bv = n) by (unfold bv, q_bw; rewrite map2_length, mtv_length; lia).
  assert (HG' : length G' = n) by (unfold G'; rewrite q_G_length; lia).
  rewrite msm_Ok by (rewrite !app_length; lia). rewrite lin_app by lia. cbn [bind].
  fold Cw. rewrite inner_product_dot. reflexivity.
Qed.

(** the vectors of the specification are those of the closed form *)
Lemma q_a_eq n w r' s b : length w + length r' = n -> q_a n w r' s b = q_av n w r' s b.
Proof.
  intros Hl. symmetry. apply (tab_eq s0).
  - unfold q_av. rewrite map2_length, app_length, q_s'_length. lia.
  - intros i Hi. unfold q_av. rewrite (map2_nth _ _ _ _ s0 s0) by (rewrite ?app_length, ?q_s'_length; lia).
    reflexivity.
Qed.
Lemma q_bv_eq n Ms x w r' s b : q_bv n Ms x w r' s b = q_bw n Ms x w r' s b.
Proof.
  symmetry. apply (tab_eq s0).
  - unfold q_bw, q_w''. rewrite map2_length, mv_length, mtv_length. lia.
  - intros i Hi. unfold q_bw, q_w''.
    rewrite (map2_nth _ _ _ _ s0 s0) by (rewrite ?mv_length, ?mtv_length; lia).
    reflexivity.
Qed.

(** the quadratic relation the verifier's t encodes *)
Lemma q_dot n Ms x w r' s b : 2 <= n -> length w = n - 2 -> length r' = 2 ->
  dot (q_av n w r' s b) (q_bw n Ms x w r' s b) = (quad (q_gamma n Ms x) w + q_t n Ms x s)%S.
Proof.
  intros Hn Hw Hr. unfold q_av, q_bw.
  assert (Hwr : length (w ++ r') = n) by (rewrite app_length; lia).
  rewrite q_inner by (unfold q_w''; auto using mv_length, q_s'_length).
  fold (q_w'' n Ms x w r').
  unfold q_w'' at 1. rewrite dot_mv_quad by auto. rewrite quad_gamma'_firstn by auto.
  rewrite quad_q_s' by auto. rewrite firstn_app, Hw, Nat.sub_diag, firstn_O, app_nil_r.
  rewrite firstn_all2 by lia. unfold q_t, q_w''. ring.
Qed.

(** the verifier recomputes the prover's commitment *)
Lemma q_commit n G H Ms x s b w r' : 3 <= n -> length G = n -> length H = n ->
  length w = n - 2 -> length r' = 2 -> x <> s0 -> sc w 0 = s1 ->
  q_Cw n G H Ms x s b (lin (w ++ r') G) (lin (q_w'' n Ms x w r') H) =
  (lin (q_av n w r' s b) (q_G (x * x)%S G) + lin (q_bw n Ms x w r' s b) H)%P.
Proof.
  intros Hn HG HH Hw Hr Hx H0.
  assert (Hwr : length (w ++ r') = n) by (rewrite app_length; lia).
  apply q_Cw_eq; auto.
  - unfold q_w''. apply mv_length.
  - assert (Hxx : (x * x)%S <> s0) by (intros E; apply smul_eq_0 in E; tauto).
    rewrite q_shift by (auto; lia). rewrite sc_app_l by lia. rewrite H0. pring.
Qed.

(** C22: honest proofs of satisfied systems are accepted *)
Theorem C22_qesa_inner_completeness (ro : oracle) rng pos tr (G H : list Point) (Q : Point)
    (Ms : list (list (list Scalar))) (w r' : list Scalar) n pf tr' pos' :
  3 <= n -> length G = n -> length H = n -> length w = n - 2 -> length r' = 2 ->
  1 <= length Ms -> Forall (rect (n - 2) (n - 2)) Ms ->
  sc w 0 = s1 -> (forall i, i < length Ms -> quad (nth i Ms []) w = s0) ->
  inner_create ro rng pos tr G H Q (mkBlockMatrix Ms) w r' = Ok (pf, tr', pos') ->
  let x := q_x ro tr pf in
  let a := q_a n w r' (q_s ro tr pf) (q_b ro tr pf) in
  let b := q_bv n Ms x w r' (q_s ro tr pf) (q_b ro tr pf) in
  x <> s0 -> ro (q_alpha_hist ro tr pf G H Q Ms) <> s0 ->
  dotp a a <> s0 -> dotp b b <> s0 ->
  (forall r p ob, sample_gram_schmidt rng pos b = Ok (r, p) -> orth a r = Ok ob -> dotp ob ob <> s0) ->
  inner_verify ro tr pf G H Q (mkBlockMatrix Ms) = Ok (true, tr').
Proof.
  intros Hn HG HH Hw Hr HM HF H0 Hsat E x a b Hx Hal Haa Hbb Hob.
  assert (Hwr : length (w ++ r') = n) by (rewrite app_length; lia).
  assert (CE := inner_create_eq ro rng pos tr G H Q Ms w r' n Hn HG HH Hw Hr HM HF).
  cbv zeta in CE. rewrite CE in E. clear CE.
  set (c1 := compress (lin (w ++ r') G)) in *.
  set (x1 := ro (q_hist_x tr c1)) in *.
  set (c2 := compress (lin (q_w'' n Ms x1 w r') H)) in *.
  apply bind_Ok_inv in E as [[[p trx] posx] [EA E]]. injection E as <- <- <-.
  unfold q_x, q_s, q_b in *. cbn [c_prime_w c_prime_prime_w] in *.
  fold x1 in x. subst x.
  set (s := ro (q_hist_s tr c1 c2)) in *. set (bb := ro (q_hist_b tr c1 c2)) in *.
  assert (Ea : a = q_av n w r' s bb) by (apply q_a_eq; lia).
  assert (Eb : b = q_bw n Ms x1 w r' s bb) by apply q_bv_eq.
  rewrite <- Ea, <- Eb in EA.
  assert (Hla : length a = n) by apply tab_length.
  assert (Hlb : length b = n) by apply tab_length.
  assert (D1 : decompress c1 = Some (lin (w ++ r') G)) by apply decompress_compress.
  assert (D2 : decompress c2 = Some (lin (q_w'' n Ms x1 w r') H)) by apply decompress_compress.
  assert (VE := inner_verify_eq ro tr (mkInner p c1 c2) G H Q Ms n _ _ Hn HG HH HM HF D1 D2).
  cbv zeta in VE. rewrite VE. clear VE. unfold q_x, q_s, q_b. cbn [c_prime_w c_prime_prime_w alm_zk].
  fold x1 s bb. rewrite q_commit by (auto; lia). rewrite <- Ea, <- Eb.
  assert (Et : q_t n Ms x1 s = dot a b).
  { rewrite Ea, Eb, q_dot by (auto; lia). rewrite quad_q_gamma by auto.
    rewrite (sum_S_0 (min (length Ms) n)); [ring|]. intros t Ht. rewrite Hsat by lia. ring. }
  rewrite Et.
  set (G' := q_G (x1 * x1)%S G) in *.
  assert (HG' : length G' = n) by (unfold G'; rewrite q_G_length; lia).
  rewrite (lin_comb a G'), (lin_comb b H) in EA |- * by lia.
  rewrite (dot_dotp a b) in EA |- * by lia. rewrite (dot_dotp a b) in Et by lia.
  eapply C18_almzk_completeness; try eassumption.
  intros Cr DCr. intros Hz. apply Hal. rewrite <- Hz.
  unfold q_alpha_hist, q_run_hist, q_run_Cw, q_x, q_s, q_b. cbn [c_prime_w c_prime_prime_w alm_zk].
  fold x1 s bb. rewrite HH. rewrite (dec_Some _ _ D1), (dec_Some _ _ D2), (dec_Some _ _ DCr).
  rewrite q_commit by (auto; lia). rewrite <- Ea, <- Eb. fold G'. rewrite Et.
  now rewrite (lin_comb a G'), (lin_comb b H) by lia.
Qed.

(** C23: the same through the public interface, for the two scalars it draws *)
Theorem C23_qesa_zk_completeness (ro : oracle) rng pos tr (G H : list Point) (Q : Point)
    (Ms : list (list (list Scalar))) (w : list Scalar) n pf tr' pos' :
  3 <= n -> length G = n -> length H = n -> length w = n - 2 ->
  1 <= length Ms -> Forall (rect (n - 2) (n - 2)) Ms ->
  sc w 0 = s1 -> (forall i, i < length Ms -> quad (nth i Ms []) w = s0) ->
  zk_create ro rng pos tr G H Q (mkBlockMatrix Ms) w = Ok (pf, tr', pos') ->
  let r' := [rng pos; rng (pos + 1)] in
  let ip := zk_inner pf in
  let x := q_x ro tr ip in
  let a := q_a n w r' (q_s ro tr ip) (q_b ro tr ip) in
  let b := q_bv n Ms x w r' (q_s ro tr ip) (q_b ro tr ip) in
  x <> s0 -> ro (q_alpha_hist ro tr ip G H Q Ms) <> s0 ->
  dotp a a <> s0 -> dotp b b <> s0 ->
  (forall r p ob, sample_gram_schmidt rng (pos + 2) b = Ok (r, p) -> orth a r = Ok ob -> dotp ob ob <> s0) ->
  zk_verify ro tr pf G H Q (mkBlockMatrix Ms) = Ok (true, tr').
Proof.
  intros Hn HG HH Hw HM HF H0 Hsat E r' ip x a b Hx Hal Haa Hbb Hob.
  unfold zk_create in E. apply bind_Ok_inv in E as [[[p trx] posx] [EA E]]. injection E as <- <- <-.
  cbn [zk_inner] in *. unfold zk_verify. cbn [zk_inner].
  replace (S (S pos)) with (pos + 2) in EA by lia. replace (S pos) with (pos + 1) in EA by lia.
  eapply (C22_qesa_inner_completeness ro rng (pos + 2) tr G H Q Ms w r'); try eassumption; auto.
Qed.

End PropQesa.

(** n = 4, system w_1 = 2 w_0 and w_0 w_1 = 2 w_0^2 + 0, witness (1,2) and, wrongly, (1,3) *)
Section C22case.
Let Ms : list (list (list (@Scalar EX))) :=
  [ [[sN (-2); sN 1]; [sN 0; sN 0]]; [[sN 0; sN 2]; [sN 0; sN (-1)]] ].
Let run w r :=
  rmap (fun '(pf, tr, pos) =>
     (pos, length tr, rmap (fun '(b, tr') => (b, length tr')) (inner_verify ro1 [] pf G4 H4 (pN 17) (mkBlockMatrix Ms)),
      (zs (q_x ro1 [] pf), zs (ro1 (q_alpha_hist ro1 [] pf G4 H4 (pN 17) Ms)))))
    (inner_create ro1 rng1 0 [] G4 H4 (pN 17) (mkBlockMatrix Ms) w r).
Example C22_case :
  map (fun M => zs (quad M [sN 1; sN 2])) Ms = [0; 0]%Z /\
  map (fun M => zs (quad M [sN 1; sN 3])) Ms = [1; (-3) mod pe]%Z /\
  run [sN 1; sN 2] [sN 5; sN 9] = Ok (12, 17, Ok (true, 17), (16%Z, 79%Z)) /\
  run [sN 1; sN 3] [sN 5; sN 9] = Ok (12, 17, Ok (false, 17), (16%Z, 79%Z)) /\
  rmap (fun '(pf, tr, pos) => rmap fst (zk_verify ro1 [] pf G4 H4 (pN 17) (mkBlockMatrix Ms)))
    (zk_create ro1 rng1 3 [] G4 H4 (pN 17) (mkBlockMatrix Ms) [sN 1; sN 2]) = Ok (Ok true).
Proof. vm_compute. repeat split. Qed.
(** the non-isotropy conditions for that run *)
Example C22_case_conditions :
  rmap (fun '(pf, tr, pos) =>
    let a := q_a 4 [sN 1; sN 2] [sN 5; sN 9] (q_s ro1 [] pf) (q_b ro1 [] pf) in
    let b := q_bv 4 Ms (q_x ro1 [] pf) [sN 1; sN 2] [sN 5; sN 9] (q_s ro1 [] pf) (q_b ro1 [] pf) in
    (negb (zs (dotp a a) =? 0), negb (zs (dotp b b) =? 0))%Z)
    (inner_create ro1 rng1 0 [] G4 H4 (pN 17) (mkBlockMatrix Ms) [sN 1; sN 2] [sN 5; sN 9])
  = Ok (true, true).
Proof. vm_compute. reflexivity. Qed.
End C22case.
