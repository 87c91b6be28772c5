(** C77: honest-verifier zero-knowledge of the QESA argument (src/qesa_zk.rs with
    src/ipa/qesa_inner.rs), from size 8 on, as counts of challenges and random tapes. *)
From Coq Require Import String Permutation.
From Verif Require Export ZkGen.
From Verif Require Import PropQesa Ex ExSmall.
Local Open Scope string_scope.
Local Open Scope nat_scope.
Local Open Scope list_scope.

(** ** the random tape and the oracle of a sub-protocol *)
Section Shift.
Context {C : Crypto} {L : CryptoLaws C}.
Definition later {X} (k : nat) (r : res (X * nat)) : res (X * nat) :=
  match r with Ok (x, p) => Ok (x, k + p) | Panic => Panic | Diverge => Diverge end.
Lemma sample_loop_later k rng n : forall f i pos r,
  sample_loop f rng n i (k + pos) r = later k (sample_loop f (fun j => rng (k + j)) n i pos r).
Proof.
  induction f as [|f IH]; intros i pos r; [reflexivity|]. cbn [sample_loop]. destruct (i <=? n); [|reflexivity].
  destruct (upd r (i / 2) (rng (k + pos))) as [r1| |]; [|reflexivity|reflexivity]. cbn [bind].
  replace (S (k + pos)) with (k + S pos) by lia.
  destruct (upd r1 (i / 2 + 1) (rng (k + S pos))) as [r2| |]; [|reflexivity|reflexivity]. cbn [bind].
  replace (S (k + S pos)) with (k + S (S pos)) by lia. apply IH.
Qed.
Lemma sample_later k rng n pos : sample_m_n_plus rng (k + pos) n = later k (sample_m_n_plus (fun j => rng (k + j)) pos n).
Proof.
  unfold sample_m_n_plus. replace (S (k + pos)) with (k + S pos) by lia. replace (S (k + S pos)) with (k + S (S pos)) by lia.
  destruct (upd (repeat s0 n) 0 (rng (k + pos))) as [r1| |]; [|reflexivity|reflexivity]. cbn [bind].
  destruct (upd r1 1 (rng (k + S pos))) as [r2| |]; [|reflexivity|reflexivity]. cbn [bind]. rewrite sample_loop_later.
  destruct (sample_loop (S n) (fun j => rng (k + j)) n 4 (S (S pos)) r2) as [[r3 p]| |]; [|reflexivity|reflexivity]. cbn [later bind].
  destruct (usub n 2) as [i2| |]; [|reflexivity|reflexivity]. cbn [bind].
  destruct (upd r3 i2 (rng (k + p))) as [r4| |]; [|reflexivity|reflexivity]. cbn [bind].
  destruct (usub n 1) as [i1| |]; [|reflexivity|reflexivity]. cbn [bind]. replace (S (k + p)) with (k + S p) by lia.
  destruct (upd r4 i1 (rng (k + S p))) as [r5| |]; [|reflexivity|reflexivity]. cbn [bind].
  destruct (n =? length r5); [|reflexivity]. cbn [assertb bind later]. do 2 f_equal. lia.
Qed.
Lemma alm_create_later ro k rng pos tr G H Q Cw a b t :
  alm_zk_create ro rng (k + pos) tr G H Q Cw a b t = later k (alm_zk_create ro (fun j => rng (k + j)) pos tr G H Q Cw a b t).
Proof.
  unfold alm_zk_create, sample_gram_schmidt_twice, sample_gram_schmidt. rewrite sample_later.
  destruct (sample_m_n_plus (fun j => rng (k + j)) pos (length b)) as [[m p]| |]; [|reflexivity|reflexivity]. cbn [later bind].
  destruct (orth b m) as [r1| |]; [|reflexivity|reflexivity]. cbn [bind].
  destruct (orth a r1) as [o| |]; [|reflexivity|reflexivity]. cbn [bind]. rewrite sample_later.
  destruct (sample_m_n_plus (fun j => rng (k + j)) p (length a)) as [[m2 p2]| |]; [|reflexivity|reflexivity]. cbn [later bind].
  destruct (orth a m2) as [r2| |]; [|reflexivity|reflexivity]. cbn [bind].
  destruct (orth o r2) as [r3| |]; [|reflexivity|reflexivity]. cbn [bind].
  destruct (msm (r1 ++ r3) (G ++ H)) as [Cr| |]; [|reflexivity|reflexivity]. cbn [bind].
  destruct (challenge_scalar ro (append_message tr "C_r" (compress Cr)) "beta") as [be tr1].
  destruct (no_zk_create _ _ _ _ _ _ _) as [[nz tr2]| |]; reflexivity.
Qed.

(** only the answers to later challenges matter *)
Lemma loop_oracle (ro ro' : oracle) Q : forall f tr n G H a b Ls Rs,
  (forall h, nchal tr < nchal h -> ro h = ro' h) ->
  no_zk_create_loop f ro tr Q n G H a b Ls Rs = no_zk_create_loop f ro' tr Q n G H a b Ls Rs.
Proof.
  induction f as [|f IH]; intros tr n G H a b Ls Rs Hro; [reflexivity|]. cbn [no_zk_create_loop]. destruct (n =? 1); [reflexivity|].
  destruct (split_at (n / 2) a) as [[aL aR]| |]; [|reflexivity|reflexivity]. cbn [bind].
  destruct (split_at (n / 2) b) as [[bL bR]| |]; [|reflexivity|reflexivity]. cbn [bind].
  destruct (split_at (n / 2) G) as [[GL GR]| |]; [|reflexivity|reflexivity]. cbn [bind].
  destruct (split_at (n / 2) H) as [[HL HR]| |]; [|reflexivity|reflexivity]. cbn [bind].
  destruct (msm _ _) as [L1| |]; [|reflexivity|reflexivity]. cbn [bind].
  destruct (msm _ _) as [R1| |]; [|reflexivity|reflexivity]. cbn [bind]. unfold challenge_scalar, append_message.
  set (tr1 := ((tr ++ _) ++ _) ++ _). assert (E : nchal tr1 = S (nchal tr)) by (unfold tr1; rewrite !nchal_app; cbn; lia).
  rewrite (Hro tr1) by lia. apply IH. intros h Hh. apply Hro. lia.
Qed.
Lemma nozk_oracle (ro ro' : oracle) tr G H Q a b : (forall h, nchal tr < nchal h -> ro h = ro' h) ->
  no_zk_create ro tr G H Q a b = no_zk_create ro' tr G H Q a b.
Proof.
  intros Hro. unfold no_zk_create. unfold challenge_scalar, append_u64. set (tr3 := (tr ++ _) ++ _).
  assert (E3 : nchal tr3 = S (nchal tr)) by (unfold tr3; rewrite !nchal_app; cbn; lia).
  rewrite (Hro tr3) by lia. rewrite (loop_oracle ro ro'); [reflexivity|]. intros h Hh. apply Hro. lia.
Qed.
Lemma alm_create_oracle (ro ro' : oracle) rng pos tr G H Q Cw a b t :
  (forall h, nchal tr < nchal h -> ro h = ro' h) ->
  alm_zk_create ro rng pos tr G H Q Cw a b t = alm_zk_create ro' rng pos tr G H Q Cw a b t.
Proof.
  intros Hro. unfold alm_zk_create.
  destruct (sample_gram_schmidt rng pos b) as [[r1 p1]| |]; cbn [bind]; [|reflexivity|reflexivity].
  destruct (sample_gram_schmidt_twice rng p1 a r1) as [[r2 p2]| |]; cbn [bind]; [|reflexivity|reflexivity].
  destruct (msm _ _) as [Cr| |]; cbn [bind]; [|reflexivity|reflexivity]. unfold challenge_scalar, append_message.
  set (tr1 := (tr ++ _) ++ _). assert (E : nchal tr1 = S (nchal tr)) by (unfold tr1; rewrite !nchal_app; cbn; lia).
  rewrite (Hro tr1) by lia. set (tr2 := tr1 ++ _). assert (E2 : nchal tr2 = nchal tr1) by (unfold tr2; rewrite !nchal_app; cbn; lia).
  rewrite (nozk_oracle ro ro' tr2); [reflexivity|]. intros h Hh. apply Hro. lia.
Qed.
Lemma gen_oracle (ro ro' : oracle) : forall l acc tr, (forall h, nchal tr < nchal h -> ro h = ro' h) ->
  let f := fun (r : oracle) '(challenges, tr) '(L, R) =>
               let tr := append_message tr "L" L in
               let tr := append_message tr "R" R in
               let '(x_i, tr) := challenge_scalar r tr "x_i" in
               (challenges ++ [x_i], tr) in
  fold_left (f ro) l (acc, tr) = fold_left (f ro') l (acc, tr).
Proof.
  induction l as [|[A B] l IH]; intros acc tr Hro f; [reflexivity|]. cbn [fold_left]. unfold f at 2 4. unfold challenge_scalar, append_message.
  set (tr1 := ((tr ++ _) ++ _) ++ _). assert (E : nchal tr1 = S (nchal tr)) by (unfold tr1; rewrite !nchal_app; cbn; lia).
  rewrite (Hro tr1) by lia. apply IH. intros h Hh. apply Hro. lia.
Qed.
Lemma alm_verify_oracle (ro ro' : oracle) tr pf G H Q n Cw t :
  (forall h, nchal tr < nchal h -> ro h = ro' h) ->
  alm_zk_verify ro tr pf G H Q n Cw t = alm_zk_verify ro' tr pf G H Q n Cw t.
Proof.
  intros Hro. unfold alm_zk_verify. destruct (unwrap (decompress (C_r pf))) as [Cr| |]; [|reflexivity|reflexivity]. cbn [bind].
  unfold challenge_scalar, append_message. set (tr1 := (tr ++ _) ++ _).
  assert (E : nchal tr1 = S (nchal tr)) by (unfold tr1; rewrite !nchal_app; cbn; lia).
  rewrite (Hro tr1) by lia. set (tr2 := tr1 ++ _). assert (E2 : nchal tr2 = nchal tr1) by (unfold tr2; rewrite !nchal_app; cbn; lia).
  unfold no_zk_verify. destruct (mapM _ (L_vec (az_NoZK pf))) as [Ls| |]; [|reflexivity|reflexivity]. cbn [bind].
  destruct (mapM _ (R_vec (az_NoZK pf))) as [Rs| |]; [|reflexivity|reflexivity]. cbn [bind].
  destruct (assertb (n =? 2 ^ length Ls)); [|reflexivity|reflexivity]. cbn [bind]. unfold append_u64, challenge_scalar.
  set (tr3 := (tr2 ++ _) ++ _). assert (E3 : nchal tr3 = S (nchal tr2)) by (unfold tr3; rewrite !nchal_app; cbn; lia).
  rewrite (Hro tr3) by lia. unfold generate_challenges.
  assert (Y := gen_oracle ro ro' (combine (L_vec (az_NoZK pf)) (R_vec (az_NoZK pf))) [] tr3). cbv zeta in Y.
  unfold challenge_scalar, append_message in Y |- *. rewrite Y by (intros h Hh; apply Hro; lia). reflexivity.
Qed.
End Shift.

(** ** specification: what the simulator of the QESA argument outputs *)
Section Spec77.
Context {C : Crypto}.
(** logarithms of the rescaled generators *)
Definition q_g (x : Scalar) (g : list Scalar) : list Scalar := tab (length g) (fun i => if i =? 0 then sinv (x * x) * sc g 0 else sc g i)%S.
(** cs = x, s, b, beta, alpha, x_1 ... x_(d+1). The two commitments are any multiples of B. *)
Definition zk_sim (d : nat) (g h : list Scalar) (q : Scalar) (B : Point) Ms (cs : list Scalar) (l1 l2 : Scalar) (v : list Scalar) : Zk :=
  let n := 2 ^ S d in let x := sc cs 0 in let s := sc cs 1 in let b := sc cs 2 in
  let P1 := (l1 *: B)%P in let P2 := (l2 *: B)%P in
  mkZk (mkInner (sim_proof d (skipn 5 cs) (q_g x g) h q B (sc cs 3) (sc cs 4) (q_Cw n (mulB B g) (mulB B h) Ms x s b P1 P2) (q_t n Ms x s)
                   (firstn 2 v) (skipn 2 v)) (compress P1) (compress P2)).
End Spec77.

Section C77.
Context {C : Crypto} {L : CryptoLaws C}.
Add Field SfC77 : (@S_field C L).

Lemma q_G_mulB x B g : q_G (x * x)%S (mulB B g) = mulB B (q_g x g).
Proof.
  unfold q_G. rewrite mulB_length. symmetry. apply (tab_eq p0); [rewrite mulB_length; unfold q_g; now rewrite tab_length|].
  intros i Hi. change (nth i (mulB B (q_g x g)) p0) with (pt (mulB B (q_g x g)) i). rewrite !pt_mulB. unfold q_g. rewrite sc_tab by auto.
  destruct (i =? 0); [pring|reflexivity].
Qed.
Lemma dotp_app2 n (v h : list Scalar) y0 y1 : 2 <= n -> length v = n - 2 ->
  dotp (v ++ [y0; y1]) h = (sum_S (n - 2) (fun i => sc v i * sc h i) + y0 * sc h (n - 2)%nat + y1 * sc h (n - 1)%nat)%S.
Proof.
  intros Hn Hv. unfold dotp. rewrite app_length, Hv. cbn [length]. replace (n - 2 + 2) with n by lia. rewrite sum_split2 by auto.
  rewrite !(sc_app_r v) by lia. rewrite Hv, Nat.sub_diag. replace (n - 1 - (n - 2)) with 1 by lia. change (sc [y0; y1] 0) with y0. change (sc [y0; y1] 1) with y1.
  f_equal. f_equal. apply sum_S_ext. intros i Hi. now rewrite sc_app_l by lia.
Qed.
Lemma wpoly_spow T i k : wpoly T k (fun w => spow (sc w i) k).
Proof.
  induction k as [|k IH]; [exact (wpoly_const T 0 s1)|]. cbn [spow]. replace (S k) with (k + 1) by lia. apply (wpoly_mul T k 1); auto. apply wpoly_letter.
Qed.
Lemma sum_words_app {A} (vals : list A) K2 : forall K1 F, list_sum (map F (words vals (K1 + K2))) =
  list_sum (map (fun u => list_sum (map (fun v => F (u ++ v)) (words vals K2))) (words vals K1)).
Proof.
  assert (Fm : forall l (g : A -> list (list A)) F, list_sum (map F (flat_map g l)) = list_sum (map (fun v => list_sum (map F (g v))) l)).
  { induction l as [|x l IH]; intros g F; [reflexivity|]. cbn [flat_map map]. rewrite map_app, list_sum_app, IH. reflexivity. }
  induction K1 as [|K1 IH]; intros F.
  - cbn [plus words map app]. change (list_sum [?x]) with (x + 0). rewrite Nat.add_0_r. reflexivity.
  - cbn [plus words]. rewrite !Fm. apply sum_ext. intros v _. rewrite !map_map, IH. reflexivity.
Qed.

Section Poly77.
Context (n : nat) (Ms : list (list (list Scalar))) (w : list Scalar).
Lemma gamma_poly i j : i < n - 2 -> j < n - 2 -> wpoly 5 n (fun p => ent (q_gamma n Ms (sc p 0)) i j).
Proof.
  intros Hi Hj. apply (wpoly_ext 5 n (fun p => sum_S (min (length Ms) n) (fun t => ent (nth t Ms []) i j * spow (sc p 0) (S t))%S)).
  - intros p _. unfold q_gamma. rewrite ent_mat by auto. apply sum_S_ext. intros; ring.
  - apply wpoly_sum. intros t Ht. apply wpoly_scale. apply (wpoly_mono 5 (S t)); [lia|]. apply wpoly_spow.
Qed.
Lemma gamma'_poly i j : i < n -> j < n -> wpoly 5 n (fun p => ent (q_gamma' n (q_gamma n Ms (sc p 0))) i j).
Proof.
  intros Hi Hj. apply (wpoly_ext 5 n (fun p => if (i <? n - 2) && (j <? n - 2) then ent (q_gamma n Ms (sc p 0)) i j
    else if (i =? n - 2) && (j =? n - 1) then (- s1)%S else if (i =? n - 1) && (j =? n - 2) then s1 else s0)).
  - intros p _. unfold q_gamma'. now rewrite ent_mat by auto.
  - destruct (Nat.ltb_spec i (n - 2)), (Nat.ltb_spec j (n - 2)); cbn [andb]; [now apply gamma_poly|..];
      destruct ((i =? n - 2) && (j =? n - 1)); try apply wpoly_const; destruct ((i =? n - 1) && (j =? n - 2)); apply wpoly_const.
Qed.
Lemma s'_poly i : i < n -> 2 <= n -> wpoly 5 n (fun p => sc (q_s' n (sc p 1) (sc p 2)) i).
Proof.
  intros Hi Hn. apply (wpoly_ext 5 n (fun p => if i <? n - 2 then spow (sc p 1) (S i) else if i =? n - 2 then sc p 2 else sc p 2 * sc p 2)%S).
  - intros p _. unfold q_s'. now rewrite sc_tab by auto.
  - destruct (Nat.ltb_spec i (n - 2)); [|destruct (i =? n - 2)].
    + apply (wpoly_mono 5 (S i)); [lia|apply wpoly_spow].
    + apply (wpoly_mono 5 1); [lia|apply wpoly_letter].
    + apply (wpoly_mono 5 (1 + 1)); [lia|]. apply wpoly_mul; apply wpoly_letter.
Qed.
Lemma w'_poly i : length w = n - 2 -> wpoly 5 1 (fun p => sc (w ++ skipn 3 p) i).
Proof.
  intros Hw. destruct (Nat.lt_ge_cases i (n - 2)) as [H|H].
  - apply (wpoly_ext 5 1 (fun _ => sc w i)); [|apply wpoly_const]. intros p _. now rewrite sc_app_l by lia.
  - apply (wpoly_ext 5 1 (fun p => sc p (3 + (i - (n - 2))))); [|apply wpoly_letter]. intros p _. rewrite sc_app_r by lia. now rewrite sc_skipn, Hw.
Qed.
Lemma qa_poly i : length w = n - 2 -> 2 <= n -> i < n -> wpoly 5 (2 * n) (fun p => sc (q_a n w (skipn 3 p) (sc p 1) (sc p 2)) i).
Proof.
  intros Hw Hn Hi. apply (wpoly_ext 5 (2 * n) (fun p => sc (w ++ skipn 3 p) i + (- s1) * sc (q_s' n (sc p 1) (sc p 2)) i)%S).
  - intros p _. unfold q_a. rewrite sc_tab by auto. ring.
  - apply wpoly_add; [apply (wpoly_mono 5 1); [lia|now apply w'_poly]|]. apply wpoly_scale. apply (wpoly_mono 5 n); [lia|]. now apply s'_poly.
Qed.
Lemma qbv_poly i : length w = n - 2 -> 2 <= n -> i < n ->
  wpoly 5 (2 * n) (fun p => sc (q_bv n Ms (sc p 0) w (skipn 3 p) (sc p 1) (sc p 2)) i).
Proof.
  intros Hw Hn Hi.
  apply (wpoly_ext 5 (2 * n) (fun p => sum_S n (fun j => ent (q_gamma' n (q_gamma n Ms (sc p 0))) i j * sc (w ++ skipn 3 p) j)
      + sum_S n (fun j => sc (q_s' n (sc p 1) (sc p 2)) j * ent (q_gamma' n (q_gamma n Ms (sc p 0))) j i))%S).
  - intros p Hp. unfold q_bv, q_w'', mv, mtv. rewrite !sc_tab by auto. rewrite q_s'_length.
    replace (length (w ++ skipn 3 p)) with n by (rewrite app_length, skipn_length; lia). reflexivity.
  - apply wpoly_add; apply wpoly_sum; intros j Hj.
    + apply (wpoly_mono 5 (n + 1)); [lia|]. apply wpoly_mul; [now apply gamma'_poly|now apply w'_poly].
    + replace (2 * n) with (n + n) by lia. apply wpoly_mul; [now apply s'_poly|now apply gamma'_poly].
Qed.
End Poly77.

(** one run of the prover as a run of the sub-argument *)
Lemma zk_create_run tr (g h : list Scalar) (q : Scalar) (B : Point) Ms w n x s b r0 r1 cs u (f : Zk -> bool) :
  3 <= n -> length g = n -> length h = n -> length w = n - 2 -> 1 <= length Ms -> Forall (rect (n - 2) (n - 2)) Ms ->
  let c1 := compress (dotp (w ++ [r0; r1]) g *: B)%P in
  let c2 := compress (dotp (q_w'' n Ms x w [r0; r1]) h *: B)%P in
  let a := q_a n w [r0; r1] s b in let bv := q_bv n Ms x w [r0; r1] s b in
  let G' := mulB B (q_g x g) in let H := mulB B h in
  let Cw := (comb a G' + comb bv H)%P in
  let tr' := q_hist_w tr c1 c2 (compress Cw) in
  on_proof f (zk_create (coins tr (x :: s :: b :: cs)) (tape (r0 :: r1 :: u)) 0 tr (mulB B g) H (q *: B)%P (mkBlockMatrix Ms) w) =
  on_proof (fun pf => f (mkZk (mkInner pf c1 c2)))
    (alm_zk_create (coins tr' cs) (tape u) 0 tr' G' H (q *: B)%P Cw a bv (dotp a bv)).
Proof.
  intros Hn Hg Hh Hw HM HF c1 c2 a bv G' H Cw tr'.
  assert (Lw' : length (w ++ [r0; r1]) = n) by (rewrite app_length; cbn; lia).
  assert (Lw'' : forall x, length (q_w'' n Ms x w [r0; r1]) = n) by (intros; unfold q_w''; apply mv_length).
  unfold zk_create. change (tape (r0 :: r1 :: u) 0) with r0. change (tape (r0 :: r1 :: u) 1) with r1.
  assert (X := inner_create_eq (coins tr (x :: s :: b :: cs)) (tape (r0 :: r1 :: u)) 2 tr (mulB B g) (mulB B h) (q *: B)%P Ms w [r0; r1] n
     Hn (eq_trans (mulB_length B g) Hg) (eq_trans (mulB_length B h) Hh) Hw eq_refl HM HF).
  cbv zeta in X. rewrite (lin_mulB B (w ++ [r0; r1]) g) in X by lia.
  assert (E1 : (sum_S (length g) (fun i => sc (w ++ [r0; r1]) i * sc g i)%S = dotp (w ++ [r0; r1]) g)) by (unfold dotp; now rewrite Lw', Hg).
  rewrite E1 in X. fold c1 in X.
  rewrite (coins_at tr (x :: s :: b :: cs) (q_hist_x tr c1) 0) in X by (unfold q_hist_x; rewrite nchal_app; cbn; lia).
  change (sc (x :: s :: b :: cs) 0) with x in X. rewrite (lin_mulB B (q_w'' n Ms x w [r0; r1]) h) in X by (rewrite Lw''; lia).
  assert (E2 : (sum_S (length h) (fun i => sc (q_w'' n Ms x w [r0; r1]) i * sc h i)%S = dotp (q_w'' n Ms x w [r0; r1]) h)) by (unfold dotp; now rewrite Lw'', Hh).
  rewrite E2 in X. fold c2 in X. fold H in X.
  rewrite (coins_at tr (x :: s :: b :: cs) (q_hist_s tr c1 c2) 1) in X by (unfold q_hist_s, q_hist_x; rewrite !nchal_app; cbn; lia).
  rewrite (coins_at tr (x :: s :: b :: cs) (q_hist_b tr c1 c2) 2) in X by (unfold q_hist_b, q_hist_s, q_hist_x; rewrite !nchal_app; cbn; lia).
  change (sc (x :: s :: b :: cs) 1) with s in X. change (sc (x :: s :: b :: cs) 2) with b in X.
  rewrite <- q_a_eq, <- q_bv_eq in X by (cbn; lia). fold a bv in X. rewrite q_G_mulB in X. fold G' in X.
  assert (La : length a = n) by apply tab_length. assert (Lb : length bv = n) by apply tab_length.
  assert (LG : length G' = n) by (unfold G'; rewrite mulB_length; unfold q_g; now rewrite tab_length).
  assert (LH : length H = n) by (unfold H; now rewrite mulB_length).
  rewrite (lin_comb a G'), (lin_comb bv H) in X by lia. fold Cw in X. fold tr' in X. rewrite dot_dotp in X by lia.
  rewrite X. clear X.
  rewrite (alm_create_later _ 2 (tape (r0 :: r1 :: u)) 0). change (fun j => tape (r0 :: r1 :: u) (2 + j)) with (tape u).
  assert (Nt : nchal tr' = nchal tr + 3) by (unfold tr', q_hist_w, q_hist_b, q_hist_s, q_hist_x; rewrite !nchal_app; cbn; lia).
  rewrite (alm_create_oracle (coins tr (x :: s :: b :: cs)) (coins tr' cs)).
  - destruct (alm_zk_create _ _ _ _ _ _ _ _ _ _ _) as [[[pf t1] p1]| |]; reflexivity.
  - intros hh Hhh. unfold coins. replace (nchal hh - nchal tr - 1) with (3 + (nchal hh - nchal tr' - 1)) by lia. reflexivity.
Qed.

Lemma resum {A} (vals : list A) d Z (f : list A -> list A -> bool) :
  count (fun z => f (firstn (d + 6) z) (skipn (d + 6) z)) (words vals (d + 6 + (2 + Z))) =
  list_sum (map (fun p => list_sum (map (fun cs => count (fun u => f (firstn 3 p ++ cs) (skipn 3 p ++ u)) (words vals Z)) (words vals (d + 3)))) (words vals 5)).
Proof.
  assert (Fa : forall k (c u : list A), length c = k -> firstn k (c ++ u) = c).
  { intros k c u Hc. rewrite firstn_app, Hc, Nat.sub_diag, firstn_O, app_nil_r, <- Hc. apply firstn_all. }
  assert (Sa : forall k (c u : list A), length c = k -> skipn k (c ++ u) = u).
  { intros k c u Hc. rewrite skipn_app, Hc, Nat.sub_diag, skipn_O, <- Hc, skipn_all. reflexivity. }
  rewrite count_words_app.
  rewrite (sum_ext _ (fun c => list_sum (map (fun r => count (fun u => f c (r ++ u)) (words vals Z)) (words vals 2)))).
  2:{ intros c Hc. apply words_In in Hc as [Hc _].
      rewrite (count_ext _ (fun u => f c u)) by (intros u _; rewrite Fa, Sa by auto; reflexivity). apply count_words_app. }
  replace (d + 6) with (3 + (d + 3)) by lia. rewrite sum_words_app. change 5 with (3 + 2). rewrite sum_words_app.
  apply sum_ext. intros x Hx. apply words_In in Hx as [Hx _].
  rewrite (sum_swap (fun cs r => count (fun u => f (x ++ cs) (r ++ u)) (words vals Z))). apply sum_ext. intros r Hr.
  apply sum_ext. intros cs _. apply count_ext. intros u _. now rewrite Fa, Sa by auto.
Qed.
Lemma sum_le_const {A} (F : A -> nat) l M : (forall x, F x <= M) -> list_sum (map F l) <= length l * M.
Proof.
  intros H. induction l as [|x l IH]; [apply Nat.le_0_l|]. cbn [map length]. change (list_sum (?x :: ?r)) with (x + list_sum r).
  assert (X := H x). cbn [Nat.mul]. lia.
Qed.

(** the vectors handed to the sub-argument at x = s = b = 0, with blinding scalars rho and 0 *)
Lemma qesa_at_zero n Ms (w : list Scalar) rho : 2 <= n -> length w = n - 2 ->
  let a := q_a n w [rho; s0] s0 s0 in let b := q_bv n Ms s0 w [rho; s0] s0 s0 in
  (forall i, i < n - 2 -> sc a i = sc w i) /\ sc a (n - 2) = rho /\ sc a (n - 1) = s0 /\
  (forall i, i < n - 1 -> sc b i = s0) /\ sc b (n - 1) = rho.
Proof.
  intros Hn Hw a b.
  assert (S0 : forall i, i < n -> sc (q_s' n s0 s0) i = s0).
  { intros i Hi. unfold q_s'. rewrite sc_tab by auto. cbn [spow]. destruct (i <? n - 2); [ring|]. destruct (i =? n - 2); ring. }
  assert (Ea : forall i, i < n -> sc a i = sc (w ++ [rho; s0]) i) by (intros i Hi; unfold a, q_a; rewrite sc_tab, S0 by auto; ring).
  assert (Ga : forall i j, i < n - 2 -> j < n - 2 -> ent (q_gamma n Ms s0) i j = s0).
  { intros i j Hi Hj. unfold ent, sc, q_gamma. rewrite mat_nth by auto. apply sum_S_0. intros t _. cbn [spow]. ring. }
  assert (Eb : forall i, i < n -> sc b i = if i =? n - 1 then rho else s0).
  { intros i Hi. unfold b, q_bv, q_w'', mv, mtv. rewrite !sc_tab by auto.
    rewrite (sum_S_0 (length (q_s' n s0 s0))).
    2:{ intros j Hj. unfold q_s' in Hj. rewrite tab_length in Hj. rewrite S0 by auto. ring. }
    replace (length (w ++ [rho; s0])) with n by (rewrite app_length; cbn [length]; lia).
    assert (Ge : forall j, j < n -> ent (q_gamma' n (q_gamma n Ms s0)) i j = if (i =? n - 2) && (j =? n - 1) then (- s1)%S else if (i =? n - 1) && (j =? n - 2) then s1 else s0).
    { intros j Hj. unfold ent at 1, sc, q_gamma'. rewrite mat_nth by auto. destruct (Nat.ltb_spec i (n - 2)), (Nat.ltb_spec j (n - 2)); cbn [andb]; auto. rewrite Ga by auto.
      destruct (Nat.eqb_spec i (n - 2)), (Nat.eqb_spec i (n - 1)); try lia; reflexivity. }
    destruct (Nat.eqb_spec i (n - 1)) as [->|N1].
    - rewrite (sum_S_single n (n - 2)); [|lia|].
      + rewrite Ge by lia. rewrite !Nat.eqb_refl. destruct (Nat.eqb_spec (n - 1) (n - 2)); [lia|]. cbn [andb]. rewrite sc_app_r by lia. rewrite Hw, Nat.sub_diag. change (sc [rho; s0] 0) with rho. ring.
      + intros j Hj Nj. rewrite Ge by auto. destruct (Nat.eqb_spec (n - 1) (n - 2)); [lia|]. destruct (Nat.eqb_spec j (n - 2)); [contradiction|]. rewrite andb_false_r. cbn [andb]. ring.
    - rewrite sum_S_0; [ring|]. intros j Hj. rewrite Ge by auto. destruct (Nat.eqb_spec i (n - 1)); [contradiction|]. cbn [andb].
      destruct (Nat.eqb_spec j (n - 1)) as [->|]; [|rewrite andb_false_r; ring]. rewrite sc_app_r by lia. replace (n - 1 - length w) with 1 by lia. change (sc [rho; s0] 1) with (@s0 C).
      destruct (i =? n - 2); cbn [andb]; ring. }
  split; [intros i Hi; rewrite Ea, sc_app_l by lia; reflexivity|].
  split; [rewrite Ea, sc_app_r by lia; rewrite Hw, Nat.sub_diag; reflexivity|].
  split; [rewrite Ea, sc_app_r by lia; replace (n - 1 - length w) with 1 by lia; reflexivity|].
  split; [intros i Hi; rewrite Eb by lia; destruct (Nat.eqb_spec i (n - 1)); [lia|reflexivity]|].
  rewrite Eb by lia. now rewrite Nat.eqb_refl.
Qed.

Theorem C77_qesa_statistical_zk (vals : list Scalar) tr d (g h : list Scalar) (q : Scalar) (B : Point) Ms (w : list Scalar)
    (test : list Scalar -> Zk -> bool) :
  let n := 2 ^ S d in let K := 2 * d + 4 in
  2 <= d -> length g = n -> length h = n -> length w = n - 2 -> 1 <= length Ms -> Forall (rect (n - 2) (n - 2)) Ms ->
  sc w 0 = s1 -> (forall i, i < length Ms -> quad (nth i Ms []) w = s0) ->
  NoDup vals -> (forall x, In x vals) ->
  (sc g (n - 2)%nat * sc h (n - 2)%nat + sc g (n - 1)%nat * sc h (n - 1)%nat <> s0)%S ->
  zk_generators d h ->
  let real := count (fun z => let cs := firstn (d + 6) z in let u := skipn (d + 6) z in
      on_proof (test cs) (zk_create (coins tr cs) (tape u) 0 tr (mulB B g) (mulB B h) (q *: B)%P (mkBlockMatrix Ms) w))
      (words vals (d + 6 + (2 + (K + K)))) in
  let sim := count (fun z => let cs := firstn (d + 6) z in let v := skipn (d + 6) z in
      test cs (zk_sim d g h q B Ms cs (sc v 0) (sc v 1) (skipn 2 v))) (words vals (d + 6 + (2 + (2 + (2 * d + 2))))) in
  let N := (length vals - 1) ^ 2 * length vals ^ (2 * d + 2) in
  let slack := ((3 * d + 12) * ((8 * n + 2 * d + 1) * (4 * n * n) + 32 * n + d + 5) + 5) * length vals ^ (d + 6 + (2 + (K + K)) - 1) in
  real <= N * sim + slack /\ N * sim <= real + slack.
Proof.
  intros n K Hd Hg Hh Hw HM HF H0 Hsat HN HA Ndet Zp real sim N slack.
  assert (Hn : 5 <= n) by (unfold n; assert (Y := size8 d Hd); assert (1 <= 2 ^ d) by apply pow2_pos; lia).
  set (A := fun p => q_a n w (skipn 3 p) (sc p 1) (sc p 2)).
  set (Bv := fun p => q_bv n Ms (sc p 0) w (skipn 3 p) (sc p 1) (sc p 2)).
  set (gP := fun p => q_g (sc p 0) g).
  set (l1 := fun p => dotp (w ++ skipn 3 p) g). set (l2 := fun p => dotp (q_w'' n Ms (sc p 0) w (skipn 3 p)) h).
  set (Cw := fun p => (comb (A p) (mulB B (gP p)) + comb (Bv p) (mulB B h))%P).
  set (trP := fun p => q_hist_w tr (compress (l1 p *: B)%P) (compress (l2 p *: B)%P) (compress (Cw p))).
  set (wrap := fun p pf => mkZk (mkInner pf (compress (l1 p *: B)%P) (compress (l2 p *: B)%P))).
  assert (Y := zk_family vals d 5 (2 * n) h q B A Bv gP trP (fun p cs pf => test (firstn 3 p ++ cs) (wrap p pf))).
  cbv zeta in Y. fold n K in Y. change (fun p => (comb (A p) (mulB B (gP p)) + comb (Bv p) (mulB B h))%P) with Cw in Y.
  assert (Y' := Y Hd Hh). clear Y.
  assert (PL : forall p, length p = 5 -> length (A p) = n /\ length (Bv p) = n /\ length (gP p) = n).
  { intros p _. split; [apply tab_length|]. split; [apply tab_length|]. unfold gP, q_g. now rewrite tab_length. }
  specialize (Y' PL). specialize (Y' (fun i Hi => qa_poly n w i Hw ltac:(lia) Hi) (fun i Hi => qbv_poly n Ms w i Hw ltac:(lia) Hi) HN HA).
  assert (FP : 7 <= length vals -> family_points d 5 h q A Bv).
  { intros H7. apply (family_from vals d 5 h q A Bv (sc w)); auto; fold n.
    - intros p Lp. destruct (PL p Lp) as (P1 & P2 & _). auto.
    - intros rho. exists [s0; s0; s0; rho; s0]. split; [reflexivity|]. exact (qesa_at_zero n Ms w rho ltac:(lia) Hw). }
  assert (Y := Y' FP). clear Y' FP.

  fold (trP) in Y.
  set (Rc := fun p cs => count (fun u => on_proof (fun pf => test (firstn 3 p ++ cs) (wrap p pf))
     (alm_zk_create (coins (trP p) cs) (tape u) 0 (trP p) (mulB B (gP p)) (mulB B h) (q *: B)%P (Cw p) (A p) (Bv p) (dotp (A p) (Bv p)))) (words vals (K + K))).
  set (Sc := fun p cs => count (fun v => test (firstn 3 p ++ cs) (wrap p (sim_proof d (skipn 2 cs) (gP p) h q B (sc cs 0) (sc cs 1) (Cw p)
     (dotp (A p) (Bv p)) (firstn 2 v) (skipn 2 v)))) (words vals (2 + (2 * d + 2)))).
  set (total := fun F : list Scalar -> list Scalar -> nat => list_sum (map (fun p => list_sum (map (F p) (words vals (d + 3)))) (words vals 5))).
  assert (Y0 : total Rc <= N * total Sc + (5 + (3 * d + 7)) * ((4 * (2 * n) + 2 * d + 1) * (4 * n * n) + 16 * (2 * n) + d + 5) * length vals ^ (5 + (d + 3 + (K + K)) - 1) /\
     N * total Sc <= total Rc + (5 + (3 * d + 7)) * ((4 * (2 * n) + 2 * d + 1) * (4 * n * n) + 16 * (2 * n) + d + 5) * length vals ^ (5 + (d + 3 + (K + K)) - 1)) by exact Y.
  clear Y. fold n in Y0.
  (* the runs *)
  assert (Er : real = total Rc).
  { unfold real, total. rewrite (resum vals d (K + K) (fun cs u => on_proof (test cs) (zk_create (coins tr cs) (tape u) 0 tr (mulB B g) (mulB B h) (q *: B)%P (mkBlockMatrix Ms) w))).
    apply sum_ext. intros p Hp. apply words_In in Hp as [Hp _]. apply sum_ext. intros cs _. apply count_ext. intros u _.
    destruct p as [|x [|s [|b [|r1 [|r2 [|]]]]]]; try discriminate.
    exact (zk_create_run tr g h q B Ms w n x s b r1 r2 cs u (test (firstn 3 [x; s; b; r1; r2] ++ cs)) ltac:(lia) Hg Hh Hw HM HF). }
  (* the simulated runs *)
  set (SU := fun p cs => count (fun v => test (firstn 3 p ++ cs) (zk_sim d g h q B Ms (firstn 3 p ++ cs) (sc p 3) (sc p 4) v)) (words vals (2 + (2 * d + 2)))).
  assert (Es : sim = total SU).
  { unfold sim, total. rewrite (resum vals d (2 + (2 * d + 2)) (fun cs v => test cs (zk_sim d g h q B Ms cs (sc v 0) (sc v 1) (skipn 2 v)))).
    apply sum_ext. intros p Hp. apply words_In in Hp as [Hp _]. apply sum_ext. intros cs _. apply count_ext. intros v _.
    destruct p as [|x [|s [|b [|r1 [|r2 [|]]]]]]; try discriminate. reflexivity. }
  set (f := fun p => firstn 3 p ++ [l1 p; l2 p]).
  assert (E1 : forall x s b r1 r2, l1 [x; s; b; r1; r2] = (sum_S (n - 2) (fun i => sc w i * sc g i) + r1 * sc g (n - 2)%nat + r2 * sc g (n - 1)%nat)%S).
  { intros x s b r1 r2. unfold l1. cbn [skipn]. apply dotp_app2; auto; lia. }
  assert (E2 : forall x s b r1 r2, l2 [x; s; b; r1; r2] =
     (sum_S (n - 2) (fun i => sc (matrix_vector_mul (q_gamma n Ms x) w) i * sc h i) + (- r2) * sc h (n - 2)%nat + r1 * sc h (n - 1)%nat)%S).
  { intros x s b r1 r2. unfold l2. cbn [skipn]. change (sc [x; s; b; r1; r2] 0) with x. rewrite <- q_w''_eq by (auto; lia). apply dotp_app2; [lia|].
    rewrite (mv_eq (n - 2)) by auto using q_gamma_rect. apply mv_length. }
  assert (Ef : total SU = list_sum (map (fun p => list_sum (map (SU (f p)) (words vals (d + 3)))) (words vals 5))).
  { unfold total. symmetry. apply (sum_inj vals 5 f (fun p => list_sum (map (SU p) (words vals (d + 3))))); auto.
    - intros p Hp. unfold f. rewrite app_length, firstn_length, Hp. reflexivity.
    - intros p p' Hp Hp' E. destruct p as [|x [|s [|b [|r1 [|r2 [|]]]]]]; try discriminate.
      destruct p' as [|x' [|s' [|b' [|r1' [|r2' [|]]]]]]; try discriminate. unfold f in E. cbn [firstn app] in E. injection E as <- <- <- E3 E4.
      rewrite !E1 in E3. rewrite !E2 in E4.
      set (D := (sc g (n - 2)%nat * sc h (n - 2)%nat + sc g (n - 1)%nat * sc h (n - 1)%nat)%S) in *.
      set (sg := sum_S (n - 2) (fun i => sc w i * sc g i)%S) in *. set (sh := sum_S (n - 2) (fun i => sc (matrix_vector_mul (q_gamma n Ms x) w) i * sc h i)%S) in *.
      assert (D1 : (D * (r1 - r1') = s0)%S).
      { transitivity (sc h (n - 2)%nat * ((sg + r1 * sc g (n - 2)%nat + r2 * sc g (n - 1)%nat) - (sg + r1' * sc g (n - 2)%nat + r2' * sc g (n - 1)%nat))
          + sc g (n - 1)%nat * ((sh + (- r2) * sc h (n - 2)%nat + r1 * sc h (n - 1)%nat) - (sh + (- r2') * sc h (n - 2)%nat + r1' * sc h (n - 1)%nat)))%S.
        - unfold D. ring.
        - rewrite E3, E4. ring. }
      assert (D2 : (D * (r2 - r2') = s0)%S).
      { transitivity (sc h (n - 1)%nat * ((sg + r1 * sc g (n - 2)%nat + r2 * sc g (n - 1)%nat) - (sg + r1' * sc g (n - 2)%nat + r2' * sc g (n - 1)%nat))
          - sc g (n - 2)%nat * ((sh + (- r2) * sc h (n - 2)%nat + r1 * sc h (n - 1)%nat) - (sh + (- r2') * sc h (n - 2)%nat + r1' * sc h (n - 1)%nat)))%S.
        - unfold D. ring.
        - rewrite E3, E4. ring. }
      apply smul_eq_0 in D1 as [D1|D1]; [contradiction|]. apply smul_eq_0 in D2 as [D2|D2]; [contradiction|].
      assert (S1 : r1 = r1') by (transitivity (r1 - r1' + r1')%S; [ring|rewrite D1; ring]).
      assert (S2 : r2 = r2') by (transitivity (r2 - r2' + r2')%S; [ring|rewrite D2; ring]).
      now rewrite S1, S2. }
  set (M := length vals ^ (d + 3) * length vals ^ (2 + (2 * d + 2))).
  assert (Cl : total Sc <= total SU + count (fun p => seqb (sc p 0) s0) (words vals 5) * M /\ total SU <= total Sc + count (fun p => seqb (sc p 0) s0) (words vals 5) * M).
  { rewrite Ef. unfold total. apply (sums_close (fun p => seqb (sc p 0) s0) (fun p => list_sum (map (Sc p) (words vals (d + 3))))
      (fun p => list_sum (map (SU (f p)) (words vals (d + 3)))) M).
    - intros p Hp Nx. apply words_In in Hp as [Hp _]. apply sum_ext. intros cs _. apply count_ext. intros v _.
      assert (Nx' : sc p 0 <> s0) by (intros Z; apply seqb_eq in Z; congruence). clear Nx.
      assert (EC : Cw p = q_Cw n (mulB B g) (mulB B h) Ms (sc p 0) (sc p 1) (sc p 2) (l1 p *: B)%P (l2 p *: B)%P).
      { assert (Lr : length (skipn 3 p) = 2) by (rewrite skipn_length; lia).
        assert (Z := q_commit n (mulB B g) (mulB B h) Ms (sc p 0) (sc p 1) (sc p 2) w (skipn 3 p) ltac:(lia) (eq_trans (mulB_length B g) Hg)
            (eq_trans (mulB_length B h) Hh) Hw Lr Nx' H0).
        assert (Lw' : length (w ++ skipn 3 p) = n) by (rewrite app_length; lia).
        assert (Lw'' : length (q_w'' n Ms (sc p 0) w (skipn 3 p)) = n) by (unfold q_w''; apply mv_length).
        rewrite (lin_mulB B (w ++ skipn 3 p) g), (lin_mulB B (q_w'' n Ms (sc p 0) w (skipn 3 p)) h) in Z by lia.
        unfold l1, l2, dotp. rewrite Lw', Lw''. rewrite Hg, Hh in Z. rewrite Z.
        rewrite <- q_a_eq, <- q_bv_eq by lia. rewrite q_G_mulB. destruct (PL p Hp) as (LA & LB & LG).
        fold (A p). fold (Bv p). fold (gP p). rewrite !lin_comb by (rewrite mulB_length, ?LA, ?LB, ?LG, ?Hh; reflexivity). reflexivity. }
      assert (Et : dotp (A p) (Bv p) = q_t n Ms (sc p 0) (sc p 1)).
      { assert (Lr : length (skipn 3 p) = 2) by (rewrite skipn_length; lia).
        assert (Z := q_dot n Ms (sc p 0) w (skipn 3 p) (sc p 1) (sc p 2) ltac:(lia) Hw Lr).
        rewrite <- q_a_eq, <- q_bv_eq in Z by lia. rewrite dot_dotp in Z by (unfold q_a, q_bv; now rewrite !tab_length).
        unfold A, Bv. rewrite Z, quad_q_gamma by auto. rewrite sum_S_0; [ring|]. intros t Ht. rewrite Hsat by lia. ring. }
      rewrite EC, Et. destruct p as [|x [|s [|b [|r1 [|r2 [|]]]]]]; try discriminate. reflexivity.
    - intros p. unfold M. rewrite <- (words_count vals (d + 3)). apply sum_le_const. intros cs. unfold Sc.
      rewrite <- (words_count vals (2 + (2 * d + 2))). apply count_all.
    - intros p. unfold M. rewrite <- (words_count vals (d + 3)). apply sum_le_const. intros cs. unfold SU.
      rewrite <- (words_count vals (2 + (2 * d + 2))). apply count_all. }
  assert (Cx : count (fun p => seqb (sc p 0) s0) (words vals 5) <= 5 * 1 * length vals ^ (5 - 1)).
  { apply (few_roots vals 5 1 (fun p => sc p 0) [s1; s0; s0; s0; s0]); auto; [apply wpoly_letter|]. apply s1_neq_s0. }
  rewrite <- Er, <- Es in *.
  set (c := (3 * d + 12) * ((8 * n + 2 * d + 1) * (4 * n * n) + 32 * n + d + 5)).
  assert (Ec : (5 + (3 * d + 7)) * ((4 * (2 * n) + 2 * d + 1) * (4 * n * n) + 16 * (2 * n) + d + 5) = c).
  { unfold c. f_equal; [lia|]. f_equal. f_equal. f_equal; [|lia]. f_equal. lia. }
  assert (Ex : 5 + (d + 3 + (K + K)) - 1 = d + 6 + (2 + (K + K)) - 1) by lia.
  rewrite Ec, Ex in Y0. fold c in slack.
  assert (NM : N * (count (fun p => seqb (sc p 0) s0) (words vals 5) * M) <= 5 * length vals ^ (d + 6 + (2 + (K + K)) - 1)).
  { transitivity (length vals ^ (2 + (2 * d + 2)) * (5 * length vals ^ 4 * M)).
    - apply Nat.mul_le_mono; [unfold N; rewrite (Nat.pow_add_r _ 2 (2 * d + 2)); apply Nat.mul_le_mono_r, Nat.pow_le_mono_l; lia|]. apply Nat.mul_le_mono_r. exact Cx.
    - unfold M. replace (d + 6 + (2 + (K + K)) - 1) with ((2 + (2 * d + 2)) + (4 + ((d + 3) + (2 + (2 * d + 2))))) by (unfold K; lia).
      rewrite (Nat.pow_add_r _ (2 + (2 * d + 2))), (Nat.pow_add_r _ 4), (Nat.pow_add_r _ (d + 3)).
      generalize (length vals ^ (2 + (2 * d + 2))), (length vals ^ 4), (length vals ^ (d + 3)). clear. intros. nia. }
  destruct Y0 as [Y1 Y2], Cl as [C1 C2].
  assert (N1 : N * total Sc <= N * sim + 5 * length vals ^ (d + 6 + (2 + (K + K)) - 1)).
  { eapply Nat.le_trans; [apply Nat.mul_le_mono_l, C1|]. rewrite Nat.mul_add_distr_l. lia. }
  assert (N2 : N * sim <= N * total Sc + 5 * length vals ^ (d + 6 + (2 + (K + K)) - 1)).
  { eapply Nat.le_trans; [apply Nat.mul_le_mono_l, C2|]. rewrite Nat.mul_add_distr_l. lia. }
  unfold slack. rewrite Nat.mul_add_distr_r. lia.
Qed.

(** the verifier accepts every simulated proof whose x, alpha and x_j are not zero *)
Theorem C77_qesa_simulated_accepted tr d (g h : list Scalar) (q : Scalar) (B : Point) Ms (cs v : list Scalar) (l1 l2 : Scalar) :
  let n := 2 ^ S d in
  1 <= d -> length g = n -> length h = n -> 1 <= length Ms -> Forall (rect (n - 2) (n - 2)) Ms ->
  length cs = d + 6 -> sc cs 4 <> s0 -> (forall x, In x (skipn 5 cs) -> x <> s0) ->
  exists tr', zk_verify (coins tr cs) tr (zk_sim d g h q B Ms cs l1 l2 v) (mulB B g) (mulB B h) (q *: B)%P (mkBlockMatrix Ms) = Ok (true, tr').
Proof.
  intros n Hd Hg Hh HM HF Lc Na Nx.
  assert (Hn : 4 <= n) by (unfold n; rewrite Nat.pow_succ_r'; assert (2 ^ 1 <= 2 ^ d) by (apply Nat.pow_le_mono_r; lia); change (2 ^ 1) with 2 in *; lia).
  destruct cs as [|x [|s [|b [|be [|al xs]]]]]; cbn [length] in Lc; try lia. cbn [skipn] in Nx. change (sc (x :: s :: b :: be :: al :: xs) 4) with al in Na.
  set (cs := x :: s :: b :: be :: al :: xs). set (pf := zk_sim d g h q B Ms cs l1 l2 v).
  unfold zk_verify.
  assert (Q1 : q_x (coins tr cs) tr (zk_inner pf) = x).
  { unfold q_x, q_hist_x. apply (coins_is 0); [reflexivity|]. rewrite nchal_app. cbn. lia. }
  assert (Q2 : q_s (coins tr cs) tr (zk_inner pf) = s).
  { unfold q_s, q_hist_s, q_hist_x. apply (coins_is 1); [reflexivity|]. rewrite !nchal_app. cbn. lia. }
  assert (Q3 : q_b (coins tr cs) tr (zk_inner pf) = b).
  { unfold q_b, q_hist_b, q_hist_s, q_hist_x. apply (coins_is 2); [reflexivity|]. rewrite !nchal_app. cbn. lia. }
  assert (VE := inner_verify_eq (coins tr cs) tr (zk_inner pf) (mulB B g) (mulB B h) (q *: B)%P Ms n (l1 *: B)%P (l2 *: B)%P ltac:(lia)
     (eq_trans (mulB_length B g) Hg) (eq_trans (mulB_length B h) Hh) HM HF (decompress_compress _) (decompress_compress _)).
  cbv zeta in VE. rewrite Q1, Q2, Q3 in VE. rewrite VE. clear VE.
  set (tr' := q_hist_w _ _ _ _).
  assert (Nt : nchal tr' = nchal tr + 3) by (unfold tr', q_hist_w, q_hist_b, q_hist_s, q_hist_x; rewrite !nchal_app; cbn; lia).
  rewrite (alm_verify_oracle (coins tr cs) (coins tr' (be :: al :: xs))).
  - rewrite q_G_mulB.
    apply (C76_simulated_accepted tr' d (q_g x g) h q B (q_Cw n (mulB B g) (mulB B h) Ms x s b (l1 *: B)%P (l2 *: B)%P) (q_t n Ms x s) be al xs
       (firstn 2 v) (skipn 2 v)); auto; [unfold q_g; now rewrite tab_length|lia].
  - intros hh Hhh. unfold coins, cs. replace (nchal hh - nchal tr - 1) with (3 + (nchal hh - nchal tr' - 1)) by lia. reflexivity.
Qed.

(** two witnesses of one system *)
Theorem C77_qesa_witness_indistinguishable (vals : list Scalar) tr d (g h : list Scalar) (q : Scalar) (B : Point) Ms
    (w w' : list Scalar) (test : list Scalar -> Zk -> bool) :
  let n := 2 ^ S d in let K := 2 * d + 4 in
  2 <= d -> length g = n -> length h = n -> length w = n - 2 -> length w' = n - 2 -> 1 <= length Ms -> Forall (rect (n - 2) (n - 2)) Ms ->
  sc w 0 = s1 -> (forall i, i < length Ms -> quad (nth i Ms []) w = s0) ->
  sc w' 0 = s1 -> (forall i, i < length Ms -> quad (nth i Ms []) w' = s0) ->
  NoDup vals -> (forall x, In x vals) ->
  (sc g (n - 2)%nat * sc h (n - 2)%nat + sc g (n - 1)%nat * sc h (n - 1)%nat <> s0)%S ->
  zk_generators d h ->
  let runs := fun w => count (fun z => let cs := firstn (d + 6) z in let u := skipn (d + 6) z in
      on_proof (test cs) (zk_create (coins tr cs) (tape u) 0 tr (mulB B g) (mulB B h) (q *: B)%P (mkBlockMatrix Ms) w))
      (words vals (d + 6 + (2 + (K + K)))) in
  let slack := ((3 * d + 12) * ((8 * n + 2 * d + 1) * (4 * n * n) + 32 * n + d + 5) + 5) * length vals ^ (d + 6 + (2 + (K + K)) - 1) in
  runs w <= runs w' + 2 * slack /\ runs w' <= runs w + 2 * slack.
Proof.
  intros n K Hd Hg Hh Hw Hw' HM HF H0 Hs H0' Hs' HN HA Nd Z runs slack.
  destruct (C77_qesa_statistical_zk vals tr d g h q B Ms w test Hd Hg Hh Hw HM HF H0 Hs HN HA Nd Z) as [X1 X2].
  destruct (C77_qesa_statistical_zk vals tr d g h q B Ms w' test Hd Hg Hh Hw' HM HF H0' Hs' HN HA Nd Z) as [Y1 Y2].
  fold n K in X1, X2, Y1, Y2. fold slack in X1, X2, Y1, Y2. cbv zeta in X1, X2, Y1, Y2. split.
  - eapply Nat.le_trans; [exact X1|]. eapply Nat.le_trans; [apply Nat.add_le_mono_r, Y2|]. unfold runs. lia.
  - eapply Nat.le_trans; [exact Y1|]. eapply Nat.le_trans; [apply Nat.add_le_mono_r, X2|]. unfold runs. lia.
Qed.
End C77.

(** size 8: w_1^2 = w_0 w_2 and w_0 w_3 = w_0 w_1 + w_0 w_2, with the witnesses (1,2,4,6,5,7) and (1,3,9,12,1,8) *)
Section C77case.
Let rows (l : list (list Z)) : list (list (@Scalar EX)) := map (map sN) l.
Definition M77 : list (list (list (@Scalar EX))) :=
  [ rows [[0; 0; -1; 0; 0; 0]; [0; 1; 0; 0; 0; 0]; [0; 0; 0; 0; 0; 0]; [0; 0; 0; 0; 0; 0]; [0; 0; 0; 0; 0; 0]; [0; 0; 0; 0; 0; 0]]%Z;
    rows [[0; -1; -1; 1; 0; 0]; [0; 0; 0; 0; 0; 0]; [0; 0; 0; 0; 0; 0]; [0; 0; 0; 0; 0; 0]; [0; 0; 0; 0; 0; 0]; [0; 0; 0; 0; 0; 0]]%Z ].
Definition w77 := map sN [1; 2; 4; 6; 5; 7]%Z.
Definition w77' := map sN [1; 3; 9; 12; 1; 8]%Z.
Definition nz77 (x : @Scalar EX) : bool := negb (Z.eqb (zs x) (zs (@s0 EX))).
Lemma nz77_neq x : nz77 x = true -> x <> s0.
Proof. intros H E. unfold nz77 in H. rewrite E, Z.eqb_refl in H. discriminate. Qed.
(** with all challenges 1 *)
Definition check77 : bool :=
  let h := sh76 in let h' := fold_hi (@s1 EX) 4 h in
  nz77 (sc h 0 * sc h 5 - sc h 1 * sc h 4)%S && nz77 (sc h' 0 * sc h' 3 - sc h' 1 * sc h' 2)%S && nz77 (@s1 EX).
Lemma check77_holds : check77 = true.
Proof. vm_compute. reflexivity. Qed.
Example C77_case_generators : @zk_generators EX 2 sh76.
Proof.
  assert (Y := check77_holds). unfold check77 in Y. rewrite !andb_true_iff in Y. destruct Y as ((Y1 & Y2) & Y3).
  exists [s1; s1; s1]. split; [reflexivity|]. split.
  - intros x [<-|[<-|[<-|[]]]]; now apply nz77_neq.
  - split; [|split; [|exact I]]; now apply nz77_neq.
Qed.
(** over a field of 50 bits: whatever a test of challenges and proof looks at, it accepts
    about as many of the 26-letter runs on one witness as on the other *)
Example C77_case (vals : list (@Scalar EX)) (HN : NoDup vals) (HA : forall x, In x vals) (g : list Scalar) (B : Point)
    (test : list Scalar -> Zk -> bool) : length g = 8 -> sc g 6 = s1 -> sc g 7 = s0 ->
  let runs := fun w => count (fun z => let cs := firstn 8 z in let u := skipn 8 z in
      on_proof (test cs) (zk_create (coins [] cs) (tape u) 0 [] (mulB B g) (mulB B sh76) (sN 77 *: B)%P (mkBlockMatrix M77) w)) (words vals 26) in
  let slack := (18 * (69 * 256 + 263) + 5) * length vals ^ 25 in
  runs w77 <= runs w77' + 2 * slack /\ runs w77' <= runs w77 + 2 * slack.
Proof.
  intros Hg G6 G7 runs slack. assert (Z := C77_case_generators).
  assert (Q : forall w, forallb (fun M => Z.eqb (zs (quad M w)) (zs (@s0 EX))) M77 = true -> forall i, i < length M77 -> quad (nth i M77 []) w = s0).
  { intros w Hw i Hi. rewrite forallb_forall in Hw. assert (Y := Hw _ (nth_In M77 [] Hi)). apply Z.eqb_eq in Y. now apply zs_inj. }
  assert (X := @C77_qesa_witness_indistinguishable EX EX_laws vals [] 2 g sh76 (sN 77) B M77 w77 w77' test).
  cbv zeta in X. apply X; clear X; try assumption; try reflexivity.
  - cbn. lia.
  - repeat constructor.
  - apply Q. vm_compute. reflexivity.
  - apply Q. vm_compute. reflexivity.
  - change (2 ^ 3 - 2) with 6. change (2 ^ 3 - 1) with 7. rewrite G6, G7. apply zs_neq. vm_compute. reflexivity.
Qed.
End C77case.
(** a simulated proof of an unsatisfiable system (w_0^2 = 0) is accepted under the challenges it was made for *)
Section C77sim.
Let Ms : list (list (list (@Scalar FS))) := [ map (map fN) [[1; 0]; [0; 0]]%Z ].
Let cs := map fN [3; 5; 2; 6; 7; 11; 13]%Z.
Let pf := zk_sim 1 (map fN [1; 6; 1; 8]%Z) (map fN [2; 7; 1; 8]%Z) (fN 77) (qN 1) Ms cs (fN 40) (fN 41) (map fN [1; 2; 3; 4]%Z).
Let verdict cs := rmap fst (zk_verify (coins [] cs) [] pf (mulB (qN 1) (map fN [1; 6; 1; 8]%Z)) (mulB (qN 1) (map fN [2; 7; 1; 8]%Z)) (fN 77 *: qN 1)%P (mkBlockMatrix Ms)).
Example C77_case_simulated : verdict cs = Ok true /\ verdict (map fN [4; 5; 2; 6; 7; 11; 13]%Z) = Ok false.
Proof. split; vm_compute; reflexivity. Qed.
End C77sim.
