(** The QESA inner prover and verifier in closed form *)
From Coq Require Import String.
From Verif Require Export QesaSpec PropAlm.
Local Open Scope string_scope.
Local Open Scope nat_scope.
Local Open Scope list_scope.

Section QesaFacts.
Context {C : Crypto} {L : CryptoLaws C}.
Add Field SfQF : (@S_field C L).

Lemma sc_tab n f i : i < n -> sc (tab n f) i = f i.
Proof. intros H. unfold sc. now apply tab_nth. Qed.
Lemma pt_tab n f i : i < n -> pt (tab n f) i = f i.
Proof. intros H. unfold pt. now apply tab_nth. Qed.
Lemma ent_mat r c f i j : i < r -> j < c -> ent (mat r c f) i j = f i j.
Proof. intros Hi Hj. unfold ent, sc. now apply mat_nth. Qed.

Lemma q_gamma_rect n Ms x : rect (n - 2) (n - 2) (q_gamma n Ms x).
Proof. apply mat_rect. Qed.
Lemma q_gamma'_rect n Gm : rect n n (q_gamma' n Gm).
Proof. apply mat_rect. Qed.
Lemma q_s'_length n s b : length (q_s' n s b) = n.
Proof. apply tab_length. Qed.
Lemma q_G_length beta G : length (q_G beta G) = length G.
Proof. apply tab_length. Qed.
Lemma mv_length r M v : length (mv r M v) = r.
Proof. apply tab_length. Qed.
Lemma mtv_length r M v : length (mtv r M v) = r.
Proof. apply tab_length. Qed.

Lemma q_batch n Ms x : 1 <= n -> 1 <= length Ms -> Forall (rect (n - 2) (n - 2)) Ms ->
  block_matrix_batch (mkBlockMatrix Ms) (powers x n) = Ok (q_gamma n Ms x).
Proof.
  intros Hn HM HF.
  rewrite (block_matrix_batch_eq (n - 2) (n - 2)) by (rewrite ?powers_length; auto).
  rewrite powers_length. f_equal. apply mat_ext. intros i j Hi Hj. apply sum_S_ext.
  intros t Ht. rewrite powers_nth by lia. reflexivity.
Qed.

Lemma q_G_eq beta G : 1 <= length G -> set_at G 0 (sinv beta *: nth 0 G p0)%P = q_G beta G.
Proof.
  intros HG. destruct G as [|g G]; [cbn in HG; lia|]. unfold q_G. cbn [length].
  rewrite tab_S_l. cbn. f_equal. apply (tab_eq p0); auto.
Qed.

Lemma nth_repeat_any {A} (x d : A) n i : i < n -> nth i (repeat x n) d = x.
Proof. revert i; induction n as [|n IH]; intros [|i] H; cbn; auto; try lia. apply IH. lia. Qed.

Lemma q_gamma'_eq n Gm : 2 <= n -> rect (n - 2) (n - 2) Gm ->
  compute_gamma_prime Gm n = Ok (q_gamma' n Gm).
Proof.
  intros Hn HR. unfold compute_gamma_prime. rewrite usub_le by lia. cbn [bind]. f_equal.
  destruct HR as [HR1 HR2]. rewrite Forall_forall in HR2.
  set (m := n - 2) in *. assert (En : n = S (S m)) by (unfold m; lia).
  assert (E2 : n - 1 = S m) by lia.
  unfold q_gamma', mat. fold m. rewrite E2. rewrite En. rewrite !tab_S. f_equal; [f_equal|].
  - apply (tab_eq []); [now rewrite map_length|]. intros i Hi.
    rewrite (nth_indep _ [] (([] ++ [s0]) ++ [s0])) by (rewrite map_length; lia).
    rewrite (map_nth (fun row => (row ++ [s0]) ++ [s0])).
    assert (Hlen : length (nth i Gm []) = m) by (apply HR2, nth_In; lia).
    rewrite !tab_S. f_equal; [f_equal|].
    + apply (tab_eq s0); auto. intros j Hj. destruct (Nat.ltb_spec i m); [|lia].
      destruct (Nat.ltb_spec j m); [|lia]. reflexivity.
    + do 2 f_equal. destruct (Nat.ltb_spec m m); [lia|]. rewrite andb_false_r.
      destruct (Nat.eqb_spec i m); [lia|]. cbn.
      destruct (Nat.eqb_spec i (S m)); [lia|]. reflexivity.
    + do 2 f_equal. destruct (Nat.ltb_spec (S m) m); [lia|]. rewrite andb_false_r.
      destruct (Nat.eqb_spec i m); [lia|]. cbn.
      destruct (Nat.eqb_spec i (S m)); [lia|]. reflexivity.
  - f_equal. destruct (Nat.ltb_spec m m); [lia|]. cbn [andb].
    rewrite Nat.eqb_refl. destruct (Nat.eqb_spec m (S m)); [lia|]. cbn [andb].
    f_equal; [f_equal|].
    + apply (tab_eq s0); [apply repeat_length|]. intros j Hj. rewrite nth_repeat_any by auto.
      destruct (Nat.eqb_spec j (S m)); [lia|reflexivity].
    + now rewrite Nat.eqb_refl.
  - f_equal. destruct (Nat.ltb_spec (S m) m); [lia|]. cbn [andb].
    rewrite Nat.eqb_refl. destruct (Nat.eqb_spec (S m) m); [lia|]. cbn [andb].
    f_equal. f_equal.
    + apply (tab_eq s0); [apply repeat_length|]. intros j Hj. rewrite nth_repeat_any by auto.
      destruct (Nat.eqb_spec j m); [lia|reflexivity].
    + now rewrite Nat.eqb_refl.
Qed.

Lemma q_s'_eq n s b : 2 <= n -> powers s (n - 2) ++ powers b 2 = q_s' n s b.
Proof.
  intros Hn. unfold q_s'. set (m := n - 2) in *. assert (En : n = S (S m)) by (unfold m; lia).
  rewrite En, !tab_S. rewrite <- app_assoc. f_equal.
  - apply tab_ext. intros i Hi. destruct (Nat.ltb_spec i m); [reflexivity|lia].
  - destruct (Nat.ltb_spec m m); [lia|]. rewrite Nat.eqb_refl.
    destruct (Nat.ltb_spec (S m) m); [lia|]. destruct (Nat.eqb_spec (S m) m); [lia|].
    unfold powers, tab. cbn. f_equal; [ring|]. f_equal. ring.
Qed.

Lemma mtv_eq n M v : rect n n M -> length v = n ->
  matrix_vector_mul (mat n n (fun j i => ent M i j)) v = mtv n M v.
Proof.
  intros HR Hv. apply (tab_eq s0).
  - rewrite matrix_vector_mul_length. apply tab_length.
  - intros i Hi. rewrite matrix_vector_mul_nth by (unfold mat; now rewrite tab_length).
    unfold mat. rewrite tab_nth by auto. rewrite (dot_sum n) by (rewrite ?tab_length; lia).
    rewrite Hv. apply sum_S_ext. intros j Hj. rewrite sc_tab by auto. ring.
Qed.
Lemma mv_eq n M v : rect n n M -> length v = n -> matrix_vector_mul M v = mv n M v.
Proof.
  intros HR Hv. apply (tab_eq s0).
  - rewrite matrix_vector_mul_length. apply HR.
  - intros i Hi. rewrite matrix_vector_mul_nth by (destruct HR; lia).
    rewrite (dot_sum n) by (rewrite ?(rect_row n n); auto; lia).
    rewrite Hv. reflexivity.
Qed.

Lemma dot_mtv n M v : length v = n -> dot v (mtv n M v) = quad M v.
Proof.
  intros Hv. rewrite (dot_sum n) by (rewrite ?mtv_length; lia). unfold quad. rewrite Hv.
  rewrite sum_S_swap. apply sum_S_ext. intros i Hi. unfold mtv. rewrite sc_tab by auto.
  rewrite Hv, <- sum_S_mul. apply sum_S_ext. intros j Hj. ring.
Qed.

(** the verifier *)
Lemma inner_verify_eq ro tr pf G H Q Ms n P1 P2 :
  3 <= n -> length G = n -> length H = n ->
  1 <= length Ms -> Forall (rect (n - 2) (n - 2)) Ms ->
  decompress (c_prime_w pf) = Some P1 -> decompress (c_prime_prime_w pf) = Some P2 ->
  let x := q_x ro tr pf in
  let s := q_s ro tr pf in
  let b := q_b ro tr pf in
  let Cw := q_Cw n G H Ms x s b P1 P2 in
  inner_verify ro tr pf G H Q (mkBlockMatrix Ms) =
  alm_zk_verify ro (q_hist_w tr (c_prime_w pf) (c_prime_prime_w pf) (compress Cw))
    (alm_zk pf) (q_G (x * x)%S G) H Q n Cw (q_t n Ms x s).
Proof.
  intros Hn HG HH HM HF D1 D2 x s b Cw. unfold inner_verify. rewrite D1, D2, HH. cbn [unwrap bind].
  unfold append_message, challenge_scalar.
  replace ((tr ++ [EvMsg "c_prime_w" (c_prime_w pf)]) ++ [EvChal "x"]) with (q_hist_x tr (c_prime_w pf))
    by (unfold q_hist_x; now rewrite <- app_assoc).
  fold x. change (ro (q_hist_x tr (c_prime_w pf))) with x.
  rewrite vandemonde_challenge_eq by lia. cbn [bind].
  rewrite (q_batch n) by (auto; lia). cbn [bind].
  rewrite (idx_lt _ _ s0) by (rewrite powers_length; lia). cbn [bind].
  change (nth 1 (powers x n) s0) with (sc (powers x n) 1). rewrite powers_nth by lia.
  replace (spow x 2) with (x * x)%S by (cbn; ring).
  rewrite (idx_lt _ _ p0) by lia. cbn [bind].
  rewrite upd_lt by lia. cbn [bind]. rewrite q_G_eq by lia.
  rewrite (idx_lt _ _ p0) by (rewrite q_G_length; lia). cbn [bind].
  rewrite usub_le by lia. cbn [bind].
  rewrite (compress_decompress _ _ D2).
  replace ((q_hist_x tr (c_prime_w pf) ++ [EvMsg "c_prime_prime_w" (c_prime_prime_w pf)]) ++ [EvChal "s"])
    with (q_hist_s tr (c_prime_w pf) (c_prime_prime_w pf))
    by (unfold q_hist_s; now rewrite <- app_assoc).
  change (ro (q_hist_s tr (c_prime_w pf) (c_prime_prime_w pf))) with s.
  rewrite vandemonde_challenge_eq by lia. cbn [bind].
  change (q_hist_s tr (c_prime_w pf) (c_prime_prime_w pf) ++ [EvChal "b"])
    with (q_hist_b tr (c_prime_w pf) (c_prime_prime_w pf)).
  change (ro (q_hist_b tr (c_prime_w pf) (c_prime_prime_w pf))) with b.
  rewrite vandemonde_challenge_eq by lia. cbn [bind].
  rewrite q_s'_eq by lia. rewrite q_s'_length, Nat.eqb_refl. cbn [assertb bind].
  rewrite q_gamma'_eq by (auto using q_gamma_rect; lia). cbn [bind].
  rewrite (matrix_transpose_rect n n) by (auto using q_gamma'_rect; lia). cbn [bind].
  rewrite (matrix_transpose_rect (n - 2) (n - 2)) by (auto using q_gamma_rect; lia). cbn [bind].
  rewrite (mtv_eq n) by (auto using q_gamma'_rect, q_s'_length).
  rewrite (mtv_eq (n - 2)) by (auto using q_gamma_rect, powers_length).
  rewrite inner_product_dot, dot_mtv by apply powers_length.
  rewrite msm_Ok by (rewrite mtv_length; lia). cbn [bind].
  rewrite msm_Ok by (rewrite q_s'_length, q_G_length; lia). cbn [bind].
  rewrite !lin_comb by (rewrite ?mtv_length, ?q_s'_length, ?q_G_length; lia).
  reflexivity.
Qed.

Lemma inner_verify_D1 ro tr pf G H Q g : decompress (c_prime_w pf) = None ->
  inner_verify ro tr pf G H Q g = Panic.
Proof. intros E. unfold inner_verify. now rewrite E. Qed.

Lemma q_decodes ro tr pf G H Q g r : inner_verify ro tr pf G H Q g = Ok r ->
  exists P1 P2, decompress (c_prime_w pf) = Some P1 /\ decompress (c_prime_prime_w pf) = Some P2.
Proof.
  intros E. unfold inner_verify in E.
  destruct (decompress (c_prime_w pf)) as [P1|]; [|discriminate]. cbn [unwrap bind] in E.
  unfold append_message, challenge_scalar in E.
  apply bind_Ok_inv in E as [y1 [_ E]]. apply bind_Ok_inv in E as [y2 [_ E]].
  apply bind_Ok_inv in E as [y3 [_ E]]. apply bind_Ok_inv in E as [y4 [_ E]].
  apply bind_Ok_inv in E as [y5 [_ E]].
  destruct (decompress (c_prime_prime_w pf)) as [P2|]; [|discriminate]. eauto.
Qed.
Lemma dec_Some c P : decompress c = Some P -> dec c = P.
Proof. unfold dec. now intros ->. Qed.

(** ** algebra of the extended matrix *)
Lemma q_gamma'_ent n Gm i j : i < n -> j < n ->
  ent (q_gamma' n Gm) i j =
    if (i <? n - 2) && (j <? n - 2) then ent Gm i j
    else if (i =? n - 2) && (j =? n - 1) then (- s1)%S
    else if (i =? n - 1) && (j =? n - 2) then s1 else s0.
Proof. intros Hi Hj. unfold q_gamma'. now rewrite ent_mat by auto. Qed.

Lemma sum_split2 n f : 2 <= n -> sum_S n f = (sum_S (n - 2) f + f (n - 2)%nat + f (n - 1)%nat)%S.
Proof.
  intros Hn. replace n with (S (S (n - 2))) at 1 by lia. cbn [sum_S].
  replace (S (n - 2)) with (n - 1) by lia. reflexivity.
Qed.

Ltac qents n :=
  repeat (rewrite q_gamma'_ent by lia);
  repeat match goal with
  | |- context [?a <? ?b] => destruct (Nat.ltb_spec a b); try lia
  | |- context [?a =? ?b] => destruct (Nat.eqb_spec a b); try lia
  end; cbn [andb].

(** rows of Gamma' v *)
Lemma mv_gamma'_top n Gm v i : 2 <= n -> length v = n -> i < n - 2 ->
  sc (mv n (q_gamma' n Gm) v) i = sum_S (n - 2) (fun j => ent Gm i j * sc v j)%S.
Proof.
  intros Hn Hv Hi. unfold mv. rewrite sc_tab by lia. rewrite Hv, sum_split2 by auto.
  rewrite (sum_S_ext (n - 2) _ (fun j => ent Gm i j * sc v j)%S).
  - qents n. ring.
  - intros j Hj. qents n. reflexivity.
Qed.
Lemma mv_gamma'_last2 n Gm v : 2 <= n -> length v = n ->
  sc (mv n (q_gamma' n Gm) v) (n - 2) = (- sc v (n - 1))%S.
Proof.
  intros Hn Hv. unfold mv. rewrite sc_tab by lia. rewrite Hv, sum_split2 by auto.
  rewrite (sum_S_0 (n - 2)).
  - qents n. ring.
  - intros j Hj. qents n. ring.
Qed.
Lemma mv_gamma'_last1 n Gm v : 2 <= n -> length v = n ->
  sc (mv n (q_gamma' n Gm) v) (n - 1) = sc v (n - 2).
Proof.
  intros Hn Hv. unfold mv. rewrite sc_tab by lia. rewrite Hv, sum_split2 by auto.
  rewrite (sum_S_0 (n - 2)).
  - qents n. ring.
  - intros j Hj. qents n. ring.
Qed.

Lemma dot_mv n M u v : length u = n -> length v = n ->
  dot u (mv n M v) = sum_S n (fun i => sum_S n (fun j => sc u i * ent M i j * sc v j)%S).
Proof.
  intros Hu Hv. rewrite (dot_sum n) by (rewrite ?mv_length; lia). apply sum_S_ext. intros i Hi.
  unfold mv. rewrite sc_tab by auto. rewrite Hv, <- sum_S_mul. apply sum_S_ext. intros j Hj. ring.
Qed.
Lemma dot_mtv2 n M u v : length u = n -> length v = n ->
  dot u (mtv n M v) = dot v (mv n M u).
Proof.
  intros Hu Hv. rewrite dot_mv by auto. rewrite (dot_sum n) by (rewrite ?mtv_length; lia).
  rewrite sum_S_swap. apply sum_S_ext. intros i Hi. unfold mtv. rewrite sc_tab by auto.
  rewrite Hv, <- sum_S_mul. apply sum_S_ext. intros j Hj. ring.
Qed.
Lemma dot_mv_quad n M v : length v = n -> dot v (mv n M v) = quad M v.
Proof. intros Hv. rewrite dot_mv by auto. unfold quad. now rewrite Hv. Qed.

Lemma quad_gamma' n Gm v : 2 <= n -> length v = n ->
  quad (q_gamma' n Gm) v = sum_S (n - 2) (fun i => sum_S (n - 2) (fun j => sc v i * ent Gm i j * sc v j)%S).
Proof.
  intros Hn Hv. rewrite <- (dot_mv_quad n) by auto. rewrite (dot_sum n) by (rewrite ?mv_length; lia).
  rewrite sum_split2 by auto. rewrite mv_gamma'_last2, mv_gamma'_last1 by auto.
  rewrite (sum_S_ext (n - 2) _ (fun i => sum_S (n - 2) (fun j => sc v i * ent Gm i j * sc v j)%S)).
  - ring.
  - intros i Hi. rewrite mv_gamma'_top by auto. rewrite <- sum_S_mul. apply sum_S_ext. intros; ring.
Qed.
Lemma quad_ext M u v : length u = length v -> (forall i, i < length u -> sc u i = sc v i) -> quad M u = quad M v.
Proof.
  intros Hl H. unfold quad. rewrite <- Hl. apply sum_S_ext. intros i Hi. apply sum_S_ext. intros j Hj.
  now rewrite !H.
Qed.
Lemma sc_firstn k v i : i < k -> sc (firstn k v) i = sc v i.
Proof.
  unfold sc. revert k i; induction v as [|a v IH]; intros [|k] [|i] H; cbn; auto; try lia.
  apply IH. lia.
Qed.
Lemma sc_app_l u v i : i < length u -> sc (u ++ v) i = sc u i.
Proof. intros H. unfold sc. now apply app_nth1. Qed.
Lemma sc_app_r u v i : length u <= i -> sc (u ++ v) i = sc v (i - length u).
Proof. intros H. unfold sc. now apply app_nth2. Qed.
Lemma quad_gamma'_firstn n Gm v : 2 <= n -> length v = n ->
  quad (q_gamma' n Gm) v = quad Gm (firstn (n - 2) v).
Proof.
  intros Hn Hv. rewrite quad_gamma' by auto. unfold quad. rewrite firstn_length, Hv.
  replace (min (n - 2) n) with (n - 2) by lia.
  apply sum_S_ext. intros i Hi. apply sum_S_ext. intros j Hj. now rewrite !sc_firstn by auto.
Qed.
Lemma quad_q_s' n Gm s b : 2 <= n ->
  quad (q_gamma' n Gm) (q_s' n s b) = quad Gm (tab (n - 2) (fun i => spow s (S i))).
Proof.
  intros Hn. rewrite quad_gamma'_firstn by (auto using q_s'_length). apply quad_ext.
  - rewrite firstn_length, q_s'_length, tab_length. lia.
  - intros i Hi. rewrite firstn_length, q_s'_length in Hi. rewrite sc_firstn by lia.
    rewrite sc_tab by lia. unfold q_s'. rewrite sc_tab by lia.
    destruct (Nat.ltb_spec i (n - 2)); [reflexivity|lia].
Qed.

(** w^T Gamma(x) w = sum_t x^(t+1) w^T M_t w *)
Lemma quad_q_gamma n Ms x w : length w = n - 2 ->
  quad (q_gamma n Ms x) w = sum_S (min (length Ms) n) (fun t => spow x (S t) * quad (nth t Ms []) w)%S.
Proof.
  intros Hw. unfold quad. rewrite Hw.
  rewrite (sum_S_ext _ (fun t => spow x (S t) * _)%S
    (fun t => sum_S (n - 2) (fun i => sum_S (n - 2) (fun j =>
       spow x (S t) * (sc w i * ent (nth t Ms []) i j * sc w j)))%S)).
  2:{ intros t Ht. rewrite <- sum_S_mul. apply sum_S_ext. intros i Hi. now rewrite <- sum_S_mul. }
  rewrite (sum_S_swap (min (length Ms) n) (n - 2)). apply sum_S_ext. intros i Hi.
  rewrite (sum_S_swap (min (length Ms) n) (n - 2)). apply sum_S_ext. intros j Hj.
  unfold q_gamma. rewrite ent_mat by auto.
  replace (sc w i * sum_S (Nat.min (length Ms) n) (fun t => spow x (S t) * ent (nth t Ms []) i j) * sc w j)%S
    with (sc w i * sc w j * sum_S (Nat.min (length Ms) n) (fun t => spow x (S t) * ent (nth t Ms []) i j))%S by ring.
  rewrite <- sum_S_mul. apply sum_S_ext. intros t Ht. ring.
Qed.

(** <w' - s', w'' + Gamma'^T s'> *)
Lemma q_inner n Gm v u sp : length v = n -> length u = n -> length sp = n ->
  dot (map2 ssub v sp) (map2 sadd u (mtv n Gm sp)) =
  (dot v u + (dot (mv n Gm v) sp - dot u sp) - quad Gm sp)%S.
Proof.
  intros Hv Hu Hs. rewrite dot_sub_l by lia. rewrite !dot_add_r by (rewrite mtv_length; lia).
  rewrite (dot_mtv2 n _ v sp) by auto. rewrite dot_mtv by auto.
  rewrite (dot_comm (mv n Gm v)), (dot_comm u sp). ring.
Qed.

(** the rescaled generators *)
Lemma lin_q_G beta v G : length v = length G -> 1 <= length G ->
  lin v (q_G beta G) = (lin v G + sc v 0 *: (sinv beta *: pt G 0 - pt G 0))%P.
Proof.
  intros Hv HG. rewrite <- q_G_eq by auto. rewrite lin_set_at_p by lia. reflexivity.
Qed.
Lemma pt_q_G beta G : 1 <= length G -> pt (q_G beta G) 0 = (sinv beta *: pt G 0)%P.
Proof. intros HG. unfold q_G. now rewrite pt_tab by lia. Qed.
Lemma q_shift beta v G : beta <> s0 -> length v = length G -> 1 <= length G ->
  (lin v G - (beta - s1)%S *: pt (q_G beta G) 0)%P =
  (lin v (q_G beta G) + ((sc v 0 - s1) * (beta - s1))%S *: pt (q_G beta G) 0)%P.
Proof.
  intros Hb Hv HG. rewrite lin_q_G, pt_q_G by auto.
  assert (E : (sinv beta * beta = s1)%S) by now apply sinv_l.
  replace (pt G 0) with ((sinv beta * beta)%S *: pt G 0)%P at 3 by (rewrite E; pring). pnorm; ring.
Qed.

Lemma q_Cw_eq n G H Ms x s b P1 P2 v u : length G = n -> length H = n -> length v = n -> length u = n ->
  let G' := q_G (x * x)%S G in
  (P1 - (x * x - s1)%S *: pt G' 0 + P2)%P = (lin v G' + lin u H)%P ->
  let sp := q_s' n s b in
  q_Cw n G H Ms x s b P1 P2 =
  (lin (map2 ssub v sp) G' + lin (map2 sadd u (mtv n (q_gamma' n (q_gamma n Ms x)) sp)) H)%P.
Proof.
  intros HG HH Hv Hu G' E sp.
  assert (Hsp : length sp = n) by apply q_s'_length.
  rewrite lin_sub_s by lia. rewrite lin_add_s by (rewrite mtv_length; lia).
  unfold q_Cw. cbv zeta. fold G' sp. rewrite E.
  rewrite <- !lin_comb by (rewrite ?mtv_length; unfold G'; rewrite ?q_G_length; lia). pring.
Qed.
End QesaFacts.
