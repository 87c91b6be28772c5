(** Findings about the QESA verifier: C25, C26, C27, C52 *)
From Coq Require Import String.
From Verif Require Export PropQesa.
Local Open Scope string_scope.
Local Open Scope nat_scope.
Local Open Scope list_scope.

Section Forge.
Context {C : Crypto} {L : CryptoLaws C}.
Add Field SfFo : (@S_field C L).

(** ** the adversary's algorithms *)

(** almost-zk argument without masks: C_r is the identity *)
Definition alm_plain (ro : oracle) tr (G H : list Point) (Q Cw : Point) (a b : list Scalar) (t : Scalar)
  : res (AlmZK * transcript) :=
  let c0 := compress p0 in
  let beta := ro (alm_beta_hist tr c0) in
  '(pf, tr') <- no_zk_create ro (alm_ipa_hist tr c0 (alm_P beta t Cw p0 Q)) G H Q (vscale beta a) (vscale beta b) ;;
  Ok (mkAlmZK c0 pf, tr').

(** QESA proof for an arbitrary point [P1] sent as c'_w: the vector [wf x] is
    chosen after x is known, c''_w makes up the difference *)
Definition q_forge (ro : oracle) tr (G H : list Point) (Q : Point) (Ms : list (list (list Scalar)))
    (P1 : Point) (wf : Scalar -> list Scalar) : res (Inner * transcript) :=
  let n := length H in
  let c1 := compress P1 in
  let x := ro (q_hist_x tr c1) in
  let G' := q_G (x * x)%S G in
  let Gm' := q_gamma' n (q_gamma n Ms x) in
  let v := wf x in
  let u := mv n Gm' v in
  let P2 := (comb v G' + comb u H - (P1 - (x * x - s1)%S *: pt G' 0))%P in
  let c2 := compress P2 in
  let s := ro (q_hist_s tr c1 c2) in
  let b := ro (q_hist_b tr c1 c2) in
  let sp := q_s' n s b in
  let a := tab n (fun i => sc v i - sc sp i)%S in
  let bv := tab n (fun i => sc u i + sc (mtv n Gm' sp) i)%S in
  let Cw := (comb a G' + comb bv H)%P in
  '(pf, tr') <- alm_plain ro (q_hist_w tr c1 c2 (compress Cw)) G' H Q Cw a bv (q_t n Ms x s) ;;
  Ok (mkInner pf c1 c2, tr').

Lemma alm_plain_ok ro tr G H Q a b d :
  length G = 2 ^ d -> length H = 2 ^ d -> length a = 2 ^ d -> length b = 2 ^ d ->
  let Cw := (lin a G + lin b H)%P in
  let c0 := compress p0 in
  exists pf tr', alm_plain ro tr G H Q Cw a b (dot a b) = Ok (pf, tr') /\ C_r pf = c0 /\
    (ro (ipa_start (alm_ipa_hist tr c0 (alm_P (ro (alm_beta_hist tr c0)) (dot a b) Cw p0 Q)) (2 ^ d)) <> s0 ->
     alm_zk_verify ro tr pf G H Q (2 ^ d) Cw (dot a b) = Ok (true, tr')).
Proof.
  intros HG HH Ha Hb Cw c0. unfold alm_plain. fold c0.
  set (beta := ro (alm_beta_hist tr c0)).
  set (tr2 := alm_ipa_hist tr c0 (alm_P beta (dot a b) Cw p0 Q)).
  assert (La : length (vscale beta a) = 2 ^ d) by now rewrite vscale_length.
  assert (Lb : length (vscale beta b) = 2 ^ d) by now rewrite vscale_length.
  destruct (no_zk_complete ro tr2 G H Q _ _ d HG HH La Lb) as (pf & tr' & Hc & _ & _ & _ & Hv & _).
  rewrite Hc. cbn [bind]. exists (mkAlmZK c0 pf), tr'. split; [reflexivity|]. split; [reflexivity|].
  intros Hal.
  rewrite (alm_verify_eq ro tr (mkAlmZK c0 pf) G H Q (2 ^ d) Cw (dot a b) p0) by apply decompress_compress.
  cbn [C_r az_NoZK]. fold beta. fold tr2. apply Hv.
  assert (Ed : dot (vscale beta a) (vscale beta b) = (beta * beta * dot a b)%S).
  { unfold vscale. rewrite dot_map_l, dot_map_r. ring. }
  rewrite <- Ed. rewrite <- P_alpha_honest by exact Hal. f_equal. unfold alm_P, ipa_com, Cw.
  rewrite Ed. unfold vscale. rewrite !lin_map_s. pring.
Qed.

Lemma map2_tab_sub n u v : length u = n -> length v = n -> tab n (fun i => sc u i - sc v i)%S = map2 ssub u v.
Proof.
  intros Hu Hv. symmetry. apply (tab_eq s0); [rewrite map2_length; lia|]. intros i Hi.
  now rewrite (map2_nth _ _ _ _ s0 s0) by lia.
Qed.
Lemma map2_tab_add n u v : length u = n -> length v = n -> tab n (fun i => sc u i + sc v i)%S = map2 sadd u v.
Proof.
  intros Hu Hv. symmetry. apply (tab_eq s0); [rewrite map2_length; lia|]. intros i Hi.
  now rewrite (map2_nth _ _ _ _ s0 s0) by lia.
Qed.

Lemma q_forge_ok ro tr G H Q Ms P1 wf d :
  let n := 2 ^ d in
  3 <= n -> length G = n -> length H = n -> 1 <= length Ms -> Forall (rect (n - 2) (n - 2)) Ms ->
  let x := ro (q_hist_x tr (compress P1)) in
  length (wf x) = n ->
  sum_S (min (length Ms) n) (fun t => spow x (S t) * quad (nth t Ms []) (firstn (n - 2) (wf x)))%S = s0 ->
  exists pf tr',
    q_forge ro tr G H Q Ms P1 wf = Ok (pf, tr') /\
    c_prime_w pf = compress P1 /\
    c_prime_prime_w pf = compress (comb (wf x) (q_G (x * x)%S G)
        + comb (mv n (q_gamma' n (q_gamma n Ms x)) (wf x)) H
        - (P1 - (x * x - s1)%S *: pt (q_G (x * x)%S G) 0))%P /\
    (ro (q_alpha_hist ro tr pf G H Q Ms) <> s0 ->
     inner_verify ro tr pf G H Q (mkBlockMatrix Ms) = Ok (true, tr')).
Proof.
  intros n Hn HG HH HM HF x Lv HE. unfold q_forge. rewrite HH.
  change (ro (q_hist_x tr (compress P1))) with x. cbv zeta.
  set (c1 := compress P1). set (G' := q_G (x * x)%S G). set (Gm' := q_gamma' n (q_gamma n Ms x)).
  set (v := wf x) in *. set (u := mv n Gm' v).
  set (P2 := (comb v G' + comb u H - (P1 - (x * x - s1)%S *: pt G' 0))%P).
  set (c2 := compress P2).
  set (s := ro (q_hist_s tr c1 c2)). set (b := ro (q_hist_b tr c1 c2)). set (sp := q_s' n s b).
  assert (Lu : length u = n) by apply mv_length.
  assert (Lsp : length sp = n) by apply q_s'_length.
  assert (HG' : length G' = n) by (unfold G'; now rewrite q_G_length).
  assert (Lm : length (mtv n Gm' sp) = n) by apply mtv_length.
  rewrite (map2_tab_sub n v sp) by auto. rewrite (map2_tab_add n u) by auto.
  set (a := map2 ssub v sp). set (bv := map2 sadd u (mtv n Gm' sp)).
  assert (La : length a = n) by (unfold a; rewrite map2_length; lia).
  assert (Lb : length bv = n) by (unfold bv; rewrite map2_length; lia).
  rewrite <- (lin_comb a G'), <- (lin_comb bv H) by lia.
  assert (Et : q_t n Ms x s = dot a bv).
  { unfold a, bv. rewrite (q_inner n Gm' v u sp) by auto.
    assert (Ev : dot v u = s0).
    { unfold u. rewrite dot_mv_quad by auto. unfold Gm'. rewrite quad_gamma'_firstn by (auto; lia).
      rewrite quad_q_gamma by (rewrite firstn_length; lia). exact HE. }
    assert (Es : quad Gm' sp = quad (q_gamma n Ms x) (tab (n - 2) (fun i => spow s (S i))))
      by (unfold Gm', sp; apply quad_q_s'; lia).
    rewrite Ev, Es. fold u. unfold q_t. ring. }
  rewrite Et.
  assert (ECw : q_Cw n G H Ms x s b P1 P2 = (lin a G' + lin bv H)%P).
  { apply q_Cw_eq; auto. fold G'. unfold P2. rewrite <- !lin_comb by lia. pring. }
  destruct (alm_plain_ok ro (q_hist_w tr c1 c2 (compress (lin a G' + lin bv H)%P)) G' H Q a bv d)
    as (pf & tr' & EA & EC & HV); auto.
  cbv zeta in EA, HV. rewrite EA. cbn [bind].
  exists (mkInner pf c1 c2), tr'. split; [reflexivity|]. split; [reflexivity|]. split; [reflexivity|].
  intros Hal.
  assert (D1 : decompress c1 = Some P1) by apply decompress_compress.
  assert (D2 : decompress c2 = Some P2) by apply decompress_compress.
  assert (VE := inner_verify_eq ro tr (mkInner pf c1 c2) G H Q Ms n P1 P2 Hn HG HH HM HF D1 D2).
  cbv zeta in VE. rewrite VE. clear VE. unfold q_x, q_s, q_b. cbn [c_prime_w c_prime_prime_w alm_zk].
  change (ro (q_hist_x tr c1)) with x. fold s b. rewrite ECw, Et. apply HV.
  intros Hz. apply Hal. rewrite <- Hz.
  unfold q_alpha_hist, q_run_hist, q_run_Cw, q_x, q_s, q_b. cbn [c_prime_w c_prime_prime_w alm_zk].
  change (ro (q_hist_x tr c1)) with x. fold s b. rewrite HH, (dec_Some _ _ D1), (dec_Some _ _ D2), ECw, Et, EC.
  now rewrite (dec_Some _ _ (decompress_compress p0)).
Qed.

(** the vector (c0, c1, 0, ..., 0) *)
Definition vec2 (n : nat) (c0 c1 : Scalar) : list Scalar :=
  tab n (fun i => if i =? 0 then c0 else if i =? 1 then c1 else s0).
(** the form m00 w_0 w_0 + m01 w_0 w_1 *)
Definition form2 (m : nat) (m00 m01 : Scalar) : list (list Scalar) :=
  mat m m (fun i j => if i =? 0 then (if j =? 0 then m00 else if j =? 1 then m01 else s0) else s0).

Lemma form2_rect m a b : rect m m (form2 m a b).
Proof. apply mat_rect. Qed.
Lemma quad_form2 m a b w : 2 <= m -> length w = m ->
  quad (form2 m a b) w = (sc w 0 * (a * sc w 0 + b * sc w 1))%S.
Proof.
  intros Hm Hw. unfold quad. rewrite Hw. destruct m as [|[|m]]; try lia.
  rewrite sum_S_shift. rewrite (sum_S_0 (S m)).
  - rewrite !sum_S_shift. rewrite sum_S_0.
    + unfold form2. rewrite !ent_mat by lia. cbn [Nat.eqb]. ring.
    + intros j Hj. unfold form2. rewrite ent_mat by lia. cbn [Nat.eqb]. ring.
  - intros i Hi. apply sum_S_0. intros j Hj. unfold form2. rewrite ent_mat by lia. cbn [Nat.eqb]. ring.
Qed.
Lemma vec2_length n a b : length (vec2 n a b) = n.
Proof. apply tab_length. Qed.
Lemma vec2_0 n a b k : 1 <= k -> k <= n -> sc (firstn k (vec2 n a b)) 0 = a.
Proof. intros H1 H2. rewrite sc_firstn by lia. unfold vec2. now rewrite sc_tab by lia. Qed.
Lemma vec2_1 n a b k : 2 <= k -> k <= n -> sc (firstn k (vec2 n a b)) 1 = b.
Proof. intros H1 H2. rewrite sc_firstn by lia. unfold vec2. now rewrite sc_tab by lia. Qed.

(** C52: c'_w is not bound to anything. For every system, every point sent as
    c'_w and every choice, made after seeing x, of a vector satisfying only the
    batched equation, the forged proof is accepted. *)
Theorem C52_qesa_commitment_not_bound (ro : oracle) tr (G H : list Point) (Q : Point) Ms (P1 : Point)
    (wf : Scalar -> list Scalar) d :
  let n := 2 ^ d in
  3 <= n -> length G = n -> length H = n -> 1 <= length Ms -> Forall (rect (n - 2) (n - 2)) Ms ->
  let x := ro (q_hist_x tr (compress P1)) in
  length (wf x) = n ->
  sum_S (min (length Ms) n) (fun t => spow x (S t) * quad (nth t Ms []) (firstn (n - 2) (wf x)))%S = s0 ->
  exists pf tr', q_forge ro tr G H Q Ms P1 wf = Ok (pf, tr') /\ c_prime_w pf = compress P1 /\
    (ro (q_alpha_hist ro tr pf G H Q Ms) <> s0 ->
     zk_verify ro tr (mkZk pf) G H Q (mkBlockMatrix Ms) = Ok (true, tr')).
Proof.
  intros n Hn HG HH HM HF x Lv HE.
  destruct (q_forge_ok ro tr G H Q Ms P1 wf d Hn HG HH HM HF Lv HE) as (pf & tr' & E & E1 & _ & V).
  exists pf, tr'. split; [exact E|]. split; [exact E1|exact V].
Qed.

(** C52, instance: w_0 w_1 = 0 and w_0 w_1 = w_0^2 have no common solution with w_0 = 1,
    and every point whatsoever is accepted as a commitment to one. *)
Theorem C52_qesa_two_equations (ro : oracle) tr (G H : list Point) (Q : Point) (P1 : Point) d :
  let n := 2 ^ d in
  4 <= n -> length G = n -> length H = n ->
  let Ms := [form2 (n - 2) s0 s1; form2 (n - 2) (- s1)%S s1] in
  (forall w, length w = n - 2 -> sc w 0 = s1 -> ~ (forall t, t < 2 -> quad (nth t Ms []) w = s0)) /\
  let x := ro (q_hist_x tr (compress P1)) in
  (s1 + x)%S <> s0 ->
  exists pf tr', c_prime_w pf = compress P1 /\
    (ro (q_alpha_hist ro tr pf G H Q Ms) <> s0 ->
     zk_verify ro tr (mkZk pf) G H Q (mkBlockMatrix Ms) = Ok (true, tr')).
Proof.
  intros n Hn HG HH Ms. split.
  - intros w Lw W0 Hsat. assert (A := Hsat 0 ltac:(lia)). assert (B := Hsat 1 ltac:(lia)). unfold Ms in A, B.
    cbn [nth] in A, B. rewrite quad_form2 in A, B by lia. rewrite W0 in A, B.
    assert (Z : (s1 = s0)%S).
    { transitivity ((s1 * (s0 * s1 + s1 * sc w 1)) - (s1 * (- s1 * s1 + s1 * sc w 1)))%S; [ring|].
      rewrite A, B. ring. }
    now apply s1_neq_s0 in Z.
  - intros x Hx.
    destruct (C52_qesa_commitment_not_bound ro tr G H Q Ms P1 (fun x => vec2 n s1 (x * sinv (s1 + x))%S) d)
      as (pf & tr' & _ & E1 & V); auto; fold n; fold x.
    + lia.
    + unfold Ms. cbn. lia.
    + unfold Ms. repeat constructor; apply form2_rect.
    + apply vec2_length.
    + replace (min (length Ms) n) with 2 by (unfold Ms; cbn [length]; lia). cbn [sum_S]. unfold Ms. cbn [nth].
      assert (Lf : length (firstn (n - 2) (vec2 n s1 (x * sinv (s1 + x))%S)) = n - 2)
        by (rewrite firstn_length, vec2_length; lia).
      rewrite !quad_form2 by lia. rewrite vec2_0, vec2_1 by lia. cbn [spow].
      transitivity (x * x * ((s1 + x) * sinv (s1 + x) - s1))%S; [ring|]. rewrite sinv_r by auto. ring.
    + eauto.
Qed.

(** C25: even with an honestly formed pair of commitments (c'_w over G only, c''_w
    over H only) there is a system of three equations, unsatisfiable with w_0 = 1,
    that the verifier accepts: the challenge beta that should force w_0 = 1 is the
    batching power x^2, so the error in the first entry can be cancelled. *)
Theorem C25_qesa_unsatisfiable_accepted (ro : oracle) tr (G H : list Point) (Q : Point) (c : Scalar) d :
  let n := 2 ^ d in
  4 <= n -> length G = n -> length H = n -> c <> s0 ->
  let m := n - 2 in
  let Ms := [form2 m (- s1)%S s1; form2 m s0 s0; form2 m s0 c] in
  let w := vec2 n (s1 + c)%S s1 in
  (forall w, length w = m -> sc w 0 = s1 -> ~ (forall t, t < 3 -> quad (nth t Ms []) w = s0)) /\
  let x := ro (q_hist_x tr (compress (comb w G))) in
  (x <> s0 ->
   exists pf tr' u, length u = n /\
     c_prime_w pf = compress (comb w G) /\ c_prime_prime_w pf = compress (comb u H) /\
     (ro (q_alpha_hist ro tr pf G H Q Ms) <> s0 ->
      zk_verify ro tr (mkZk pf) G H Q (mkBlockMatrix Ms) = Ok (true, tr'))).
Proof.
  intros n Hn HG HH Hc m Ms w. split.
  - intros w2 Lw W0 Hsat. assert (A := Hsat 0 ltac:(lia)). assert (B := Hsat 2 ltac:(lia)). unfold Ms in A, B.
    cbn [nth] in A, B. rewrite quad_form2 in A, B by lia. rewrite W0 in A, B.
    assert (E1 : sc w2 1 = s1). { apply ssub_0. rewrite <- A. ring. }
    rewrite E1 in B. apply Hc. rewrite <- B. ring.
  - intros x Hx.
    assert (Hxx : (x * x)%S <> s0) by (intros E; apply smul_eq_0 in E; tauto).
    set (wf := fun x : Scalar => vec2 n (s1 + c * (x * x))%S s1).
    destruct (q_forge_ok ro tr G H Q Ms (comb w G) wf d) as (pf & tr' & _ & E1 & E2 & V); auto; fold n; fold x.
    + lia.
    + unfold Ms. cbn. lia.
    + unfold Ms. repeat constructor; apply form2_rect.
    + apply vec2_length.
    + replace (min (length Ms) n) with 3 by (unfold Ms; cbn [length]; lia). cbn [sum_S]. unfold Ms. cbn [nth].
      assert (Lf : length (firstn (n - 2) (wf x)) = m) by (unfold wf; rewrite firstn_length, vec2_length; unfold m; lia).
      rewrite !quad_form2 by (auto; unfold m; lia). unfold wf. rewrite vec2_0, vec2_1 by lia. cbn [spow]. ring.
    + exists pf, tr', (mv n (q_gamma' n (q_gamma n Ms x)) (wf x)). split; [apply mv_length|].
      split; [exact E1|]. split; [|exact V]. fold n in E2. fold x in E2. rewrite E2. f_equal.
      assert (Lw : length w = n) by apply vec2_length.
      assert (Lwf : length (wf x) = n) by apply vec2_length.
      rewrite <- (lin_comb w), <- (lin_comb (wf x)) by (rewrite ?q_G_length; lia).
      rewrite q_shift by (auto; lia).
      assert (Ew : lin (wf x) (q_G (x * x)%S G) =
        (lin w (q_G (x * x)%S G) + (c * (x * x) - c)%S *: pt (q_G (x * x)%S G) 0)%P).
      { unfold wf, w, vec2. rewrite !lin_tab2 by (rewrite ?q_G_length; auto; try lia; intros [|[|i]] H1 H2; cbn; auto; lia).
        cbn [Nat.eqb]. pring. }
      rewrite Ew. replace (sc w 0) with (s1 + c)%S by (unfold w, vec2; now rewrite sc_tab by lia). pring.
Qed.

(** C26: matrices beyond the n-th have no influence, on prover and verifier *)
Lemma map2_app_short {A B X} (f : A -> B -> X) l e (ch : list B) : length ch <= length l ->
  map2 f (l ++ e) ch = map2 f l ch.
Proof.
  revert ch; induction l as [|a l IH]; intros [|c ch] Hl; cbn in *; auto; try lia.
  - now destruct e.
  - f_equal. apply IH. lia.
Qed.
Lemma batch_short Ms extra ch : length ch <= length Ms ->
  block_matrix_batch (mkBlockMatrix (Ms ++ extra)) ch = block_matrix_batch (mkBlockMatrix Ms) ch.
Proof. intros Hl. unfold block_matrix_batch. cbn [block]. now rewrite map2_app_short. Qed.

Theorem C26_qesa_verify_ignores_equations (ro : oracle) tr pf (G H : list Point) (Q : Point) Ms extra :
  length H <= length Ms ->
  inner_verify ro tr pf G H Q (mkBlockMatrix (Ms ++ extra)) = inner_verify ro tr pf G H Q (mkBlockMatrix Ms).
Proof.
  intros Hl. unfold inner_verify.
  destruct (unwrap (decompress (c_prime_w pf))) as [P1| |]; auto. cbn [bind]. unfold append_message, challenge_scalar.
  destruct (vandemonde_challenge _ (length H)) as [ch| |] eqn:EV; auto. cbn [bind].
  apply vandemonde_challenge_Ok_inv in EV as [_ ->]. now rewrite batch_short by (now rewrite powers_length).
Qed.
Theorem C26_qesa_create_ignores_equations (ro : oracle) rng pos tr (G H : list Point) (Q : Point) Ms extra w r' :
  length G <= length Ms ->
  inner_create ro rng pos tr G H Q (mkBlockMatrix (Ms ++ extra)) w r' =
  inner_create ro rng pos tr G H Q (mkBlockMatrix Ms) w r'.
Proof.
  intros Hl. unfold inner_create.
  destruct (usub (length G) 2) as [n2| |]; auto. cbn [bind].
  destruct (assertb (length w =? n2)) as [[]| |]; auto. cbn [bind].
  destruct (assertb (length r' =? 2)) as [[]| |]; auto. cbn [bind].
  destruct (msm (w ++ r') G) as [cpw| |]; auto. cbn [bind]. unfold append_message, challenge_scalar.
  destruct (vandemonde_challenge _ (length G)) as [ch| |] eqn:EV; auto. cbn [bind].
  apply vandemonde_challenge_Ok_inv in EV as [_ ->]. now rewrite batch_short by (now rewrite powers_length).
Qed.
(** so a proof for n satisfiable equations is accepted for any longer list *)
Corollary C26_qesa_unsatisfiable_tail (ro : oracle) tr pf (G H : list Point) (Q : Point) Ms tr' :
  length Ms = length H ->
  inner_verify ro tr pf G H Q (mkBlockMatrix Ms) = Ok (true, tr') ->
  inner_verify ro tr pf G H Q (mkBlockMatrix (Ms ++ [form2 (length H - 2) s1 s0])) = Ok (true, tr') /\
  (3 < length H -> forall w, length w = length H - 2 -> sc w 0 = s1 -> quad (form2 (length H - 2) s1 s0) w <> s0).
Proof.
  intros Hl V. split.
  - now rewrite C26_qesa_verify_ignores_equations by lia.
  - intros Hn w Lw W0. rewrite quad_form2 by lia. rewrite W0. intros E. apply s1_neq_s0. rewrite <- E. ring.
Qed.

(** C27: the system can be chosen after the challenge. w is an honest vector with
    w_0 = 1, committed honestly; the prover then picks the equations
    -x w_0^2 = 0 and w_0^2 = 0. *)
Theorem C27_qesa_equations_not_bound (ro : oracle) tr (G H : list Point) (Q : Point) (w r' : list Scalar) d :
  let n := 2 ^ d in
  4 <= n -> length G = n -> length H = n -> length w = n - 2 -> length r' = 2 -> sc w 0 = s1 ->
  let P1 := comb (w ++ r') G in
  let x := ro (q_hist_x tr (compress P1)) in
  x <> s0 ->
  let Ms := [form2 (n - 2) (- x)%S s0; form2 (n - 2) s1 s0] in
  (forall w, length w = n - 2 -> sc w 0 = s1 -> forall t, t < 2 -> quad (nth t Ms []) w <> s0) /\
  exists pf tr' u, length u = n /\
    c_prime_w pf = compress P1 /\ c_prime_prime_w pf = compress (comb u H) /\
    (ro (q_alpha_hist ro tr pf G H Q Ms) <> s0 ->
     zk_verify ro tr (mkZk pf) G H Q (mkBlockMatrix Ms) = Ok (true, tr')).
Proof.
  intros n Hn HG HH Lw Lr W0 P1 x Hx Ms. split.
  - intros w2 Lw2 W2 t Ht E. assert (D : t = 0 \/ t = 1) by lia. destruct D as [-> | ->];
      unfold Ms in E; cbn [nth] in E; rewrite quad_form2 in E by lia; rewrite W2 in E.
    + apply Hx. transitivity (- (s1 * (- x * s1 + s0 * sc w2 1)))%S; [ring|]. rewrite E. ring.
    + apply s1_neq_s0. rewrite <- E. ring.
  - assert (Lwr : length (w ++ r') = n) by (rewrite app_length; lia).
    destruct (q_forge_ok ro tr G H Q Ms P1 (fun _ => w ++ r') d) as (pf & tr' & _ & E1 & E2 & V); auto; fold n; fold x.
    + lia.
    + unfold Ms. cbn. lia.
    + unfold Ms. repeat constructor; apply form2_rect.
    + replace (min (length Ms) n) with 2 by (unfold Ms; cbn [length]; lia). cbn [sum_S]. unfold Ms. cbn [nth].
      assert (Lf : length (firstn (n - 2) (w ++ r')) = n - 2) by (rewrite firstn_length; lia).
      rewrite !quad_form2 by lia. cbn [spow]. ring.
    + exists pf, tr', (mv n (q_gamma' n (q_gamma n Ms x)) (w ++ r')). split; [apply mv_length|].
      split; [exact E1|]. split; [|exact V]. fold n in E2. fold x in E2. rewrite E2. f_equal.
      assert (Hxx : (x * x)%S <> s0) by (intros E; apply smul_eq_0 in E; tauto).
      unfold P1. rewrite <- (lin_comb (w ++ r')), <- (lin_comb (w ++ r')) by (rewrite ?q_G_length; lia).
      rewrite q_shift by (auto; lia). rewrite sc_app_l by lia. rewrite W0. pring.
Qed.
End Forge.

(** concrete runs, n = 4 *)
Section AttackCases.
Let run (r : res (@Inner EX * @transcript EX)) Ms :=
  rmap (fun '(pf, tr) => (rmap (fun '(b, tr') => (b, length tr')) (zk_verify ro1 [] (mkZk pf) G4 H4 (pN 17) (mkBlockMatrix Ms)),
     zs (q_x ro1 [] pf), zs (ro1 (q_alpha_hist ro1 [] pf G4 H4 (pN 17) Ms)))) r.
Example C25_case :
  let Ms := [form2 2 (sN (-1)) (sN 1); form2 2 (sN 0) (sN 0); form2 2 (sN 0) (sN 3)] in
  run (q_forge ro1 [] G4 H4 (pN 17) Ms (comb [sN 4; sN 1; sN 0; sN 0] G4)
         (fun x => vec2 4 (sN 1 + sN 3 * (x * x))%S (sN 1))) Ms = Ok (Ok (true, 17), 16%Z, 79%Z) /\
  (** an honest-looking vector is rejected *)
  run (q_forge ro1 [] G4 H4 (pN 17) Ms (comb [sN 1; sN 1; sN 0; sN 0] G4)
         (fun x => vec2 4 (sN 1) (sN 1))) Ms = Ok (Ok (false, 17), 16%Z, 79%Z).
Proof. vm_compute. auto. Qed.
Example C52_case :
  let Ms := [form2 2 (sN 0) (sN 1); form2 2 (sN (-1)) (sN 1)] in
  map (fun P1 => run (q_forge ro1 [] G4 H4 (pN 17) Ms (pN P1)
         (fun x => vec2 4 (sN 1) (x * sinv (s1 + x))%S)) Ms) [0; 1; 12345]%Z
  = repeat (Ok (Ok (true, 17), 16%Z, 79%Z)) 3.
Proof. vm_compute. auto. Qed.
Example C26_case :
  let Ms := repeat (form2 2 (sN (-2)) (sN 1)) 4 in
  rmap (fun '(pf, tr, pos) =>
    map (fun Ms' => rmap fst (inner_verify ro1 [] pf G4 H4 (pN 17) (mkBlockMatrix Ms')))
      [Ms; Ms ++ [form2 2 (sN 1) (sN 0)]; form2 2 (sN 1) (sN 0) :: Ms])
    (inner_create ro1 rng1 0 [] G4 H4 (pN 17) (mkBlockMatrix Ms) [sN 1; sN 2] [sN 5; sN 9])
  = Ok [Ok true; Ok true; Ok false].
Proof. vm_compute. auto. Qed.
Example C27_case :
  let Ms x := [form2 2 (sN x) (sN 0); form2 2 (sN 1) (sN 0)] in
  run (q_forge ro1 [] G4 H4 (pN 17) (Ms (-16)%Z) (comb [sN 1; sN 7; sN 5; sN 9] G4)
         (fun x => [sN 1; sN 7; sN 5; sN 9])) (Ms (-16)%Z) = Ok (Ok (true, 17), 16%Z, 79%Z) /\
  run (q_forge ro1 [] G4 H4 (pN 17) (Ms (-15)%Z) (comb [sN 1; sN 7; sN 5; sN 9] G4)
         (fun x => [sN 1; sN 7; sN 5; sN 9])) (Ms (-15)%Z) = Ok (Ok (false, 17), 16%Z, 79%Z).
Proof. vm_compute. auto. Qed.
End AttackCases.
