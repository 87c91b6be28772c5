(** C82: zero-knowledge with hashed challenges. A distinguisher queries the hash function,
    sees one proof, queries again and decides. Its verdicts on honest proofs and on proofs made
    without a witness, with the hash function's answers at the challenges of that proof replaced,
    are close in number. On the way: prover and verifier arrive at the same transcript, whether
    or not the proof is accepted. *)
From Coq Require Import String.
From Verif Require Export Nizk PropZkCopy.
From Verif Require Import PropAlm PropQesa PropCopy Ex ExSmall.
Local Open Scope string_scope.
Local Open Scope nat_scope.
Local Open Scope list_scope.

Section C82.
Context {C : Crypto} {L : CryptoLaws C}.
Add Field SfC82 : (@S_field C L).

(** ** the verifier draws the challenges the prover has drawn *)
Theorem C82_ipa_same_transcript ro tr (G H : list Point) Q a b pf tr' P t :
  no_zk_create ro tr G H Q a b = Ok (pf, tr') ->
  exists v, no_zk_verify ro tr pf G H Q (length G) P t = Ok (v, tr').
Proof.
  intros E. assert (R : exists r, no_zk_create ro tr G H Q a b = Ok r) by eauto.
  apply C14_nozk_create_returns in R as (d & HG & HH & Ha & Hb).
  destruct (no_zk_create_spec ro tr G H Q a b d HG HH Ha Hb) as (lps & rps & a0 & b0 & Hc & L1 & L2 & _).
  rewrite E in Hc. injection Hc as -> ->. eexists. rewrite HG.
  erewrite no_zk_verify_eq; cbn [L_vec R_vec]; try apply Forall2_decompress_compress; try congruence; try (rewrite L1; congruence).
  rewrite L1. reflexivity.
Qed.
Theorem C82_almzk_same_transcript ro rng pos tr (G H : list Point) Q Cw a b t pf tr' pos' :
  length H = length G -> length a = length G -> length b = length G ->
  alm_zk_create ro rng pos tr G H Q Cw a b t = Ok (pf, tr', pos') ->
  exists v, alm_zk_verify ro tr pf G H Q (length G) Cw t = Ok (v, tr').
Proof.
  intros HH Ha Hb E. destruct (alm_create_inv _ _ _ _ _ _ _ _ _ _ _ _ _ _ _ eq_refl HH Ha Hb E) as (d & r1 & r2 & p1 & _ & _ & _ & _ & _ & EC & EN).
  cbv zeta in EN.
  assert (D : decompress (C_r pf) = Some (lin r1 G + lin r2 H)%P) by (rewrite EC; apply decompress_compress).
  assert (VE := alm_verify_eq ro tr pf G H Q (length G) Cw t _ D). cbv zeta in VE. rewrite VE. eapply C82_ipa_same_transcript. exact EN.
Qed.
Theorem C82_inner_same_transcript ro rng pos tr (G H : list Point) Q Ms w r' n pf tr' pos' :
  3 <= n -> length G = n -> length H = n -> length w = n - 2 -> length r' = 2 -> 1 <= length Ms -> Forall (rect (n - 2) (n - 2)) Ms ->
  sc w 0 = s1 -> (forall i, i < length Ms -> quad (nth i Ms []) w = s0) ->
  inner_create ro rng pos tr G H Q (mkBlockMatrix Ms) w r' = Ok (pf, tr', pos') ->
  q_x ro tr pf <> s0 ->
  exists v, inner_verify ro tr pf G H Q (mkBlockMatrix Ms) = Ok (v, tr').
Proof.
  intros Hn HG HH Hw Hr HM HF H0 Hsat E Hx.
  assert (CE := inner_create_eq ro rng pos tr G H Q Ms w r' n Hn HG HH Hw Hr HM HF). cbv zeta in CE. rewrite CE in E. clear CE.
  set (c1 := compress (lin (w ++ r') G)) in *. set (x := ro (q_hist_x tr c1)) in *. set (c2 := compress (lin (q_w'' n Ms x w r') H)) in *.
  apply bind_Ok_inv in E as [[[p trx] posx] [EA E]]. injection E as <- <- <-. unfold q_x in Hx. cbn [c_prime_w] in Hx. fold x in Hx.
  assert (D1 : decompress c1 = Some (lin (w ++ r') G)) by apply decompress_compress.
  assert (D2 : decompress c2 = Some (lin (q_w'' n Ms x w r') H)) by apply decompress_compress.
  assert (VE := inner_verify_eq ro tr (mkInner p c1 c2) G H Q Ms n _ _ Hn HG HH HM HF D1 D2). cbv zeta in VE. rewrite VE. clear VE.
  unfold q_x, q_s, q_b. cbn [c_prime_w c_prime_prime_w alm_zk]. fold x. rewrite q_commit by (auto; lia).
  set (s := ro (q_hist_s tr c1 c2)) in *. set (bb := ro (q_hist_b tr c1 c2)) in *.
  assert (Et : q_t n Ms x s = dot (q_av n w r' s bb) (q_bw n Ms x w r' s bb)).
  { rewrite q_dot by (auto; lia). rewrite quad_q_gamma by auto.
    rewrite (sum_S_0 (min (length Ms) n)); [ring|]. intros t Ht. rewrite Hsat by lia. ring. }
  rewrite Et. assert (HG' : length (q_G (x * x)%S G) = n) by (rewrite q_G_length; lia).
  assert (La : length (q_av n w r' s bb) = n) by (rewrite <- q_a_eq by lia; apply tab_length).
  assert (Lb : length (q_bw n Ms x w r' s bb) = n) by (rewrite <- q_bv_eq; apply tab_length).
  assert (Y := C82_almzk_same_transcript _ _ _ _ _ _ _ _ _ _ _ _ _ _ (eq_trans HH (eq_sym HG')) (eq_trans La (eq_sym HG')) (eq_trans Lb (eq_sym HG')) EA).
  rewrite HG' in Y. exact Y.
Qed.
Theorem C82_qesa_same_transcript ro rng pos tr (G H : list Point) Q Ms w n pf tr' pos' :
  3 <= n -> length G = n -> length H = n -> length w = n - 2 -> 1 <= length Ms -> Forall (rect (n - 2) (n - 2)) Ms ->
  sc w 0 = s1 -> (forall i, i < length Ms -> quad (nth i Ms []) w = s0) ->
  zk_create ro rng pos tr G H Q (mkBlockMatrix Ms) w = Ok (pf, tr', pos') ->
  q_x ro tr (zk_inner pf) <> s0 ->
  exists v, zk_verify ro tr pf G H Q (mkBlockMatrix Ms) = Ok (v, tr').
Proof.
  intros Hn HG HH Hw HM HF H0 Hsat E Hx. unfold zk_create in E. apply bind_Ok_inv in E as [[[p trx] posx] [EA E]]. injection E as <- <- <-.
  unfold zk_verify. cbn [zk_inner] in *.
  exact (C82_inner_same_transcript ro rng (S (S pos)) tr G H Q Ms w [rng pos; rng (S pos)] n p trx posx Hn HG HH Hw eq_refl HM HF H0 Hsat EA Hx).
Qed.
Theorem C82_copy_same_transcript ro rng pos tr (G H : list Point) Q mp Ms w (sets : list (list N)) (openings : list (list Scalar * Scalar)) Cs n pf tr' pos' :
  3 <= n -> (N.of_nat n < 65536)%N -> length G = n -> length H = n -> (N.of_nat (length sets) <= 65536)%N ->
  compute_mapping (N.of_nat n) (N.of_nat (length w)) sets = Ok mp ->
  (forall s i, In s sets -> In i s -> length w <= N.to_nat i < n - 2) ->
  length openings = length sets -> length Cs = length sets ->
  (forall k, k < length sets ->
     commit G (nth k sets []) (fst (nth k openings ([], s0))) (snd (nth k openings ([], s0))) = Ok (pt Cs k)) ->
  1 <= length w -> length w <= n - 2 -> sc w 0 = s1 -> Forall (rect (n - 2) (n - 2)) Ms ->
  (forall al i, i < length Ms -> quad (nth i Ms []) (cp_witness n mp w (concat (map fst openings)) al) = s0) ->
  copy_create ro rng pos tr G H Q mp (mkBlockMatrix Ms) w openings = Ok (pf, tr', pos') ->
  q_x ro (cp_hist tr (cp_C_w pf)) (cp_inner pf) <> s0 ->
  exists v, copy_verify ro tr pf G H Q (mkBlockMatrix Ms) mp Cs = Ok (v, tr').
Proof.
  intros Hn Hn16 HG HH HK Emp Hidx HO HCs Hcom Hw1 Hw H0 HF Hsat E Hx.
  destruct (copy_setting G n mp Ms w sets openings Cs Hn Hn16 HG HK Emp Hidx HO HCs Hcom Hw1 Hw H0 HF Hsat) as (HM & Hk & Hpw & Hnc & Hms & HS).
  assert (HMo := HM). rewrite <- HO in HMo. assert (HMc := HM). rewrite <- HCs in HMc.
  assert (CE := copy_create_eq ro rng pos tr G H Q mp Ms w openings n Hn HG HMo Hnc ltac:(lia) Hw1 Hw H0 Hpw). cbv zeta in CE.
  rewrite (CE Hms) in E. clear CE.
  set (msgs := concat (map fst openings)) in *. set (wp := tab (n - 2) (cp_placed mp w msgs)) in *.
  set (Cw := lin (wp ++ [rng pos; rng (pos + 1)]) G) in *. set (tr1 := cp_hist tr (compress Cw)) in *. set (al := ro tr1) in *.
  apply bind_Ok_inv in E as ([[p trx] posx] & EA & E). injection E as <- <- <-. cbn [cp_C_w cp_inner] in *. fold tr1 in Hx.
  assert (VE := copy_verify_eq ro tr (mkCopy (compress Cw) p) G H Q mp Ms Cs n Cw Hn HG HMc ltac:(lia) (decompress_compress _)). cbv zeta in VE.
  rewrite VE. clear VE. cbn [cp_C_w cp_inner]. fold tr1. fold al.
  destruct (HS al) as (S1 & S2 & S3 & S4 & S5). specialize (S5 (rng pos) (rng (pos + 1))). fold Cw in S5.
  assert (Lw : length (cp_witness n mp w msgs al) = n - 2) by apply tab_length.
  assert (Ep : c_prime_w p = compress (cp_agg al Cw Cs)).
  { assert (CE := inner_create_eq ro rng (pos + 2) tr1 G H Q _ _ [rng pos; (rng (pos + 1)%nat + cp_rand openings al)%S] n Hn HG HH Lw eq_refl S1 S2).
    cbv zeta in CE. rewrite CE in EA. apply bind_Ok_inv in EA as ([[q trq] posq] & _ & EA). injection EA as <- _ _. cbn [c_prime_w]. now rewrite S5. }
  rewrite <- Ep. replace (mkInner (alm_zk p) (c_prime_w p) (c_prime_prime_w p)) with p by (now destruct p).
  exact (C82_inner_same_transcript ro rng (pos + 2) tr1 G H Q _ _ [rng pos; (rng (pos + 1)%nat + cp_rand openings al)%S] n p trx posx Hn HG HH Lw eq_refl S1 S2 S3 S4 EA Hx).
Qed.

(** ** the prover reads no answer but those at extensions of its first message *)
Definition agree tr (ro ro' : oracle) : Prop := forall e, ro (tr ++ e) = ro' (tr ++ e).
Lemma agree_at tr ro ro' : agree tr ro ro' -> ro tr = ro' tr.
Proof. intros A. rewrite <- (app_nil_r tr). apply A. Qed.
Lemma agree_app tr e ro ro' : agree tr ro ro' -> agree (tr ++ e) ro ro'.
Proof. intros A e'. rewrite <- app_assoc. apply A. Qed.
Hint Resolve agree_app : core.
Lemma loop_agree (ro ro' : oracle) Q : forall f tr n G H a b Ls Rs, agree tr ro ro' ->
  no_zk_create_loop f ro tr Q n G H a b Ls Rs = no_zk_create_loop f ro' tr Q n G H a b Ls Rs.
Proof.
  induction f as [|f IH]; intros tr n G H a b Ls Rs A; [reflexivity|]. cbn [no_zk_create_loop]. destruct (n =? 1); [reflexivity|].
  destruct (split_at (n / 2) a) as [[aL aR]| |]; [|reflexivity|reflexivity]. cbn [bind].
  destruct (split_at (n / 2) b) as [[bL bR]| |]; [|reflexivity|reflexivity]. cbn [bind].
  destruct (split_at (n / 2) G) as [[GL GR]| |]; [|reflexivity|reflexivity]. cbn [bind].
  destruct (split_at (n / 2) H) as [[HL HR]| |]; [|reflexivity|reflexivity]. cbn [bind].
  destruct (msm _ _) as [L1| |]; [|reflexivity|reflexivity]. cbn [bind].
  destruct (msm _ _) as [R1| |]; [|reflexivity|reflexivity]. cbn [bind]. unfold challenge_scalar, append_message.
  set (tr1 := ((tr ++ _) ++ _) ++ _). assert (A1 : agree tr1 ro ro') by (unfold tr1; auto).
  rewrite (agree_at tr1 ro ro' A1). now apply IH.
Qed.
Lemma nozk_agree (ro ro' : oracle) tr G H Q a b : agree tr ro ro' -> no_zk_create ro tr G H Q a b = no_zk_create ro' tr G H Q a b.
Proof.
  intros A. unfold no_zk_create. unfold challenge_scalar, append_u64. set (tr3 := (tr ++ _) ++ _).
  assert (A1 : agree tr3 ro ro') by (unfold tr3; auto). rewrite (agree_at tr3 ro ro' A1). now rewrite (loop_agree ro ro').
Qed.
Lemma alm_agree (ro ro' : oracle) rng pos tr G H Q Cw a b t : agree tr ro ro' ->
  alm_zk_create ro rng pos tr G H Q Cw a b t = alm_zk_create ro' rng pos tr G H Q Cw a b t.
Proof.
  intros A. unfold alm_zk_create.
  destruct (sample_gram_schmidt rng pos b) as [[r1 p1]| |]; cbn [bind]; [|reflexivity|reflexivity].
  destruct (sample_gram_schmidt_twice rng p1 a r1) as [[r2 p2]| |]; cbn [bind]; [|reflexivity|reflexivity].
  destruct (msm _ _) as [Cr| |]; cbn [bind]; [|reflexivity|reflexivity]. unfold challenge_scalar, append_message.
  set (tr1 := (tr ++ _) ++ _). assert (A1 : agree tr1 ro ro') by (unfold tr1; auto). rewrite (agree_at tr1 ro ro' A1).
  now rewrite (nozk_agree ro ro') by auto.
Qed.
Lemma inner_agree (ro ro' : oracle) rng pos tr G H Q Ms w r' n :
  3 <= n -> length G = n -> length H = n -> length w = n - 2 -> length r' = 2 -> 1 <= length Ms -> Forall (rect (n - 2) (n - 2)) Ms ->
  agree (tr ++ [EvMsg "c_prime_w" (compress (lin (w ++ r') G))]) ro ro' ->
  inner_create ro rng pos tr G H Q (mkBlockMatrix Ms) w r' = inner_create ro' rng pos tr G H Q (mkBlockMatrix Ms) w r'.
Proof.
  intros Hn HG HH Hw Hr HM HF A.
  assert (E := inner_create_eq ro rng pos tr G H Q Ms w r' n Hn HG HH Hw Hr HM HF).
  assert (E' := inner_create_eq ro' rng pos tr G H Q Ms w r' n Hn HG HH Hw Hr HM HF). cbv zeta in E, E'. rewrite E, E'. clear E E'.
  set (c1 := compress (lin (w ++ r') G)) in *.
  assert (Ax : agree (q_hist_x tr c1) ro ro') by (unfold q_hist_x; change [EvMsg "c_prime_w" c1; EvChal "x"] with ([EvMsg "c_prime_w" c1] ++ [EvChal "x"]); rewrite app_assoc; auto).
  rewrite <- (agree_at _ _ _ Ax). set (x := ro (q_hist_x tr c1)). set (c2 := compress (lin (q_w'' n Ms x w r') H)).
  assert (As : agree (q_hist_s tr c1 c2) ro ro') by (unfold q_hist_s; auto). rewrite <- (agree_at _ _ _ As).
  assert (Ab : agree (q_hist_b tr c1 c2) ro ro') by (unfold q_hist_b; auto). rewrite <- (agree_at _ _ _ Ab).
  now rewrite (alm_agree ro ro') by (unfold q_hist_w; auto).
Qed.

(** ** the transcript after a run *)
Lemma nozk_extends ro tr G H Q a b d pf tr' : length G = 2 ^ d -> no_zk_create ro tr G H Q a b = Ok (pf, tr') -> exists e, tr' = tr ++ e /\ nchal e = d + 1.
Proof.
  intros Hd E. assert (R : exists r, no_zk_create ro tr G H Q a b = Ok r) by eauto.
  apply C14_nozk_create_returns in R as (d' & HG & HH & Ha & Hb). rewrite Hd in HG. apply Nat.pow_inj_r in HG; [subst d'|lia].
  destruct (no_zk_create_spec ro tr G H Q a b d Hd HH Ha Hb) as (lps & rps & a0 & b0 & Hc & Hl & Hr & _).
  rewrite E in Hc. injection Hc as -> ->. unfold ipa_hist, ipa_start. rewrite <- app_assoc. eexists. split; [reflexivity|].
  rewrite nchal_app, nchal_rounds, firstn_length, combine_length, !map_length, Hl, Hr. change (nchal _) with 1. lia.
Qed.
Lemma alm_extends ro rng pos tr G H Q Cw a b t d pf tr' pos' : length G = 2 ^ d ->
  alm_zk_create ro rng pos tr G H Q Cw a b t = Ok (pf, tr', pos') -> exists e, tr' = tr ++ e /\ nchal e = d + 2.
Proof.
  intros Hd E. unfold alm_zk_create in E. apply bind_Ok_inv in E as [[r1 p1] [_ E]]. apply bind_Ok_inv in E as [[r2 p2] [_ E]].
  apply bind_Ok_inv in E as [Cr [_ E]]. unfold append_message, challenge_scalar in E. apply bind_Ok_inv in E as [[nz tr2] [EN E]]. injection E as _ <- _.
  apply (nozk_extends _ _ _ _ _ _ _ d) in EN as (e & -> & Ne); [|exact Hd]. rewrite <- !app_assoc. eexists. split; [reflexivity|]. rewrite !nchal_app, Ne. cbn. lia.
Qed.
Lemma inner_extends ro rng pos tr G H Q Ms w r' n d pf tr' pos' : n = 2 ^ d ->
  3 <= n -> length G = n -> length H = n -> length w = n - 2 -> length r' = 2 -> 1 <= length Ms -> Forall (rect (n - 2) (n - 2)) Ms ->
  inner_create ro rng pos tr G H Q (mkBlockMatrix Ms) w r' = Ok (pf, tr', pos') ->
  exists e, tr' = tr ++ EvMsg "c_prime_w" (compress (lin (w ++ r') G)) :: e /\ nchal e = d + 5.
Proof.
  intros Hd Hn HG HH Hw Hr HM HF E.
  assert (CE := inner_create_eq ro rng pos tr G H Q Ms w r' n Hn HG HH Hw Hr HM HF). cbv zeta in CE. rewrite CE in E. clear CE.
  apply bind_Ok_inv in E as [[[p trx] posx] [EA E]]. injection E as _ <- _. apply (alm_extends _ _ _ _ _ _ _ _ _ _ _ d) in EA as (e & -> & Ne).
  - unfold q_hist_w, q_hist_b, q_hist_s, q_hist_x. rewrite <- !app_assoc. cbn [app]. eexists. split; [reflexivity|].
    cbn. unfold nchal in Ne. rewrite Ne. lia.
  - unfold q_G. rewrite ?tab_length. congruence.
Qed.

(** the first message takes each value for at most one value of one of the blinding scalars *)
Lemma lin_tail2 (B : Point) (g w : list Scalar) n y0 y1 : 2 <= n -> length g = n -> length w = n - 2 ->
  lin (w ++ [y0; y1]) (mulB B g) = ((sum_S (n - 2) (fun i => sc w i * sc g i) + y0 * sc g (n - 2)%nat + y1 * sc g (n - 1)%nat)%S *: B)%P.
Proof.
  intros Hn Hg Hw. rewrite lin_mulB by (rewrite app_length; cbn; lia). f_equal. rewrite Hg.
  assert (Y := dotp_app2 n w g y0 y1 Hn Hw). unfold dotp in Y. rewrite app_length, Hw in Y. cbn [length] in Y.
  replace (n - 2 + 2) with n in Y by lia. exact Y.
Qed.
Lemma pmul_inj (B : Point) (x y : Scalar) : B <> p0 -> (x *: B = y *: B)%P -> x = y.
Proof.
  intros HB E. assert (Z : ((x - y)%S *: B)%P = p0). { transitivity (x *: B - y *: B)%P; [pring|]. rewrite E. pring. }
  apply pmul_eq_0 in Z as [Z|Z]; [now apply ssub_0|contradiction].
Qed.
Lemma first_spread (ceq : @encodings_comparable C) (vals : list Scalar) (B : Point) (g w : list Scalar) n K c :
  2 <= n -> length g = n -> length w = n - 2 -> NoDup vals -> 2 <= K -> B <> p0 ->
  (sc g (n - 2)%nat <> s0 \/ sc g (n - 1)%nat <> s0) ->
  count (fun u => if ceq (compress (lin (w ++ [tape u 0; tape u 1]) (mulB B g))) c then true else false) (words vals K) <= length vals ^ (K - 1).
Proof.
  intros Hn Hg Hw HN HK HB Hz.
  assert (Inj : forall P P' : Point, compress P = compress P' -> P = P').
  { intros P P' E. assert (X := decompress_compress P). rewrite E, decompress_compress in X. now injection X. }
  assert (Fin : forall z x y k : Scalar, z <> s0 -> (k + x * z = k + y * z)%S -> x = y).
  { intros z x y k Nz E. assert (Z : ((x - y) * z = s0)%S) by (transitivity ((k + x * z) - (k + y * z))%S; [ring|rewrite E; ring]).
    apply smul_eq_0 in Z as [Z|Z]; [now apply ssub_0|contradiction]. }
  set (f := fun u => if ceq (compress (lin (w ++ [tape u 0; tape u 1]) (mulB B g))) c then true else false).
  assert (Df : forall u u', f u = true -> f u' = true ->
    (sum_S (n - 2) (fun i => sc w i * sc g i) + tape u 0 * sc g (n - 2)%nat + tape u 1 * sc g (n - 1)%nat =
     sum_S (n - 2) (fun i => sc w i * sc g i) + tape u' 0 * sc g (n - 2)%nat + tape u' 1 * sc g (n - 1)%nat)%S).
  { intros u u' E E'. unfold f in E, E'. destruct (ceq (compress (lin (w ++ [tape u 0; tape u 1]) _)) c) as [E1|]; [|discriminate].
    destruct (ceq (compress (lin (w ++ [tape u' 0; tape u' 1]) _)) c) as [E2|]; [|discriminate]. rewrite <- E2 in E1. apply Inj in E1.
    rewrite !(lin_tail2 B g w n) in E1 by auto. now apply pmul_inj in E1. }
  destruct Hz as [Hz|Hz].
  - apply (count_forced vals K f 0); [lia|auto|]. intros u v v' Hu E E'. specialize (Df _ _ E E').
    destruct u as [|y0 [|y1 u]]; cbn in Hu; try lia. cbn [set_at] in Df. unfold tape in Df. cbn [nth] in Df.
    apply (Fin (sc g (n - 2)%nat) v v' (sum_S (n - 2) (fun i => sc w i * sc g i) + y1 * sc g (n - 1)%nat)%S Hz).
    etransitivity; [|etransitivity; [exact Df|]]; ring.
  - apply (count_forced vals K f 1); [lia|auto|]. intros u v v' Hu E E'. specialize (Df _ _ E E').
    destruct u as [|y0 [|y1 u]]; cbn in Hu; try lia. cbn [set_at] in Df. unfold tape in Df. cbn [nth] in Df.
    apply (Fin (sc g (n - 1)%nat) v v' (sum_S (n - 2) (fun i => sc w i * sc g i) + y0 * sc g (n - 2)%nat)%S Hz).
    etransitivity; [|etransitivity; [exact Df|]]; ring.
Qed.
Lemma letter_zero (vals : list Scalar) K i : NoDup vals -> i < K -> count (fun cs => negb (negb (seqb (sc cs i) s0))) (words vals K) <= 1 * length vals ^ (K - 1).
Proof.
  intros HN Hi. rewrite Nat.mul_1_l. apply (count_forced vals K _ i Hi HN).
  assert (Sx : forall (u : list Scalar) v, i < length u -> sc (set_at u i v) i = v).
  { clear. unfold sc. revert i. intros i u; revert i; induction u as [|x u IH]; intros i v H; cbn in H; [lia|]. destruct i as [|i]; [reflexivity|]. cbn. apply IH. lia. }
  intros u v v' Hu E E'. rewrite negb_involutive in E, E'. apply seqb_eq in E, E'. rewrite Sx in E, E' by lia. congruence.
Qed.
Lemma det_nz (g h : list Scalar) n : (sc g (n - 2)%nat * sc h (n - 2)%nat + sc g (n - 1)%nat * sc h (n - 1)%nat <> s0)%S ->
  sc g (n - 2)%nat <> s0 \/ sc g (n - 1)%nat <> s0.
Proof.
  intros N. destruct (seqb (sc g (n - 2)%nat) s0) eqn:E; [|left; intros Z; apply seqb_eq in Z; congruence].
  right. intros Z. apply N. apply seqb_eq in E. rewrite E, Z. ring.
Qed.

Context (ceq : @encodings_comparable C).

(** ** QESA *)
Lemma qesa_simulatable (vals : list Scalar) tr d (g h : list Scalar) (q : Scalar) (B : Point) Ms (w : list Scalar) :
  let n := 2 ^ S d in let K := 2 * d + 4 in
  2 <= d -> length g = n -> length h = n -> length w = n - 2 -> 1 <= length Ms -> Forall (rect (n - 2) (n - 2)) Ms ->
  sc w 0 = s1 -> (forall i, i < length Ms -> quad (nth i Ms []) w = s0) ->
  NoDup vals -> (forall x, In x vals) -> B <> p0 ->
  (sc g (n - 2)%nat * sc h (n - 2)%nat + sc g (n - 1)%nat * sc h (n - 1)%nat <> s0)%S ->
  zk_generators d h ->
  simulatable ceq vals tr (d + 6) (2 + (K + K)) (2 + (2 + (2 * d + 2))) ((length vals - 1) ^ 2 * length vals ^ (2 * d + 2))
    (((3 * d + 12) * ((8 * n + 2 * d + 1) * (4 * n * n) + 32 * n + d + 5) + 5) * length vals ^ (d + 6 + (2 + (K + K)) - 1)) 1
    (fun ro rng => zk_create ro rng 0 tr (mulB B g) (mulB B h) (q *: B)%P (mkBlockMatrix Ms) w)
    (fun ro pf => zk_verify ro tr pf (mulB B g) (mulB B h) (q *: B)%P (mkBlockMatrix Ms))
       (fun cs v => zk_sim d g h q B Ms cs (sc v 0) (sc v 1) (skipn 2 v)).
Proof.
  intros n K Hd Hg Hh Hw HM HF H0 Hsat HN HA HB Ndet Zp.
  assert (Hn : 5 <= n) by (unfold n; assert (Y := size8 d Hd); assert (1 <= 2 ^ d) by apply pow2_pos; lia).
  assert (LG : length (mulB B g) = n) by now rewrite mulB_length. assert (LH : length (mulB B h) = n) by now rewrite mulB_length.
  set (create := fun (ro : oracle) (rng : nat -> Scalar) => zk_create ro rng 0 tr (mulB B g) (mulB B h) (q *: B)%P (mkBlockMatrix Ms) w).
  set (verify := fun (ro : oracle) (pf : Zk) => zk_verify ro tr pf (mulB B g) (mulB B h) (q *: B)%P (mkBlockMatrix Ms)).
  set (sim := fun cs v : list Scalar => zk_sim d g h q B Ms cs (sc v 0) (sc v 1) (skipn 2 v)).
  set (first := fun u => compress (lin (w ++ [tape u 0; tape u 1]) (mulB B g))).
  set (good := fun cs : list Scalar => negb (seqb (sc cs 0) s0)).
  assert (H1 : forall test : list Scalar -> Zk -> bool,
     let real := count (fun z => on_proof (test (firstn (d + 6) z)) (create (coins tr (firstn (d + 6) z)) (tape (skipn (d + 6) z)))) (words vals (d + 6 + (2 + (K + K)))) in
     let simd := count (fun z => test (firstn (d + 6) z) (sim (firstn (d + 6) z) (skipn (d + 6) z))) (words vals (d + 6 + (2 + (2 + (2 * d + 2))))) in
     let slack := ((3 * d + 12) * ((8 * n + 2 * d + 1) * (4 * n * n) + 32 * n + d + 5) + 5) * length vals ^ (d + 6 + (2 + (K + K)) - 1) in
     real <= (length vals - 1) ^ 2 * length vals ^ (2 * d + 2) * simd + slack /\ (length vals - 1) ^ 2 * length vals ^ (2 * d + 2) * simd <= real + slack).
  { intros test. exact (C77_qesa_statistical_zk vals tr d g h q B Ms w test Hd Hg Hh Hw HM HF H0 Hsat HN HA Ndet Zp). }
  assert (H2 : forall cs u pf tr' p, length cs = d + 6 -> good cs = true -> create (coins tr cs) (tape u) = Ok (pf, tr', p) ->
     exists b, verify (coins tr cs) pf = Ok (b, tr')).
  { intros cs u pf tr' p Lc Hx E.
    refine (C82_qesa_same_transcript (coins tr cs) (tape u) 0 tr (mulB B g) (mulB B h) (q *: B)%P Ms w n pf tr' p ltac:(lia) LG LH Hw HM HF H0 Hsat E _).
    unfold q_x, q_hist_x. rewrite (coins_at tr cs _ 0) by (rewrite nchal_app; cbn; lia). intros Z. apply seqb_eq in Z. unfold good in Hx. now rewrite Z in Hx. }
  assert (H3 : count (fun cs => negb (good cs)) (words vals (d + 6)) <= 1 * length vals ^ (d + 6 - 1)) by (apply (letter_zero vals (d + 6) 0 HN); lia).
  assert (H4 : forall u ro ro', length u = 2 + (K + K) ->
     (forall e', ro (tr ++ EvMsg "c_prime_w" (first u) :: e') = ro' (tr ++ EvMsg "c_prime_w" (first u) :: e')) -> create ro (tape u) = create ro' (tape u)).
  { intros u ro ro' Lu A. unfold create, zk_create.
    rewrite (inner_agree ro ro' (tape u) 2 tr (mulB B g) (mulB B h) (q *: B)%P Ms w [tape u 0; tape u 1] n ltac:(lia) LG LH Hw eq_refl HM HF); [reflexivity|].
    intros e. rewrite <- !app_assoc. apply A. }
  assert (H5 : forall u ro pf tr' p, length u = 2 + (K + K) -> create ro (tape u) = Ok (pf, tr', p) -> exists e', tr' = tr ++ EvMsg "c_prime_w" (first u) :: e' /\ nchal e' = d + 6).
  { intros u ro pf tr' p Lu E. unfold create, zk_create in E. apply bind_Ok_inv in E as [[[ip trx] posx] [EA E]]. injection E as _ <- _.
    destruct (inner_extends ro (tape u) 2 tr (mulB B g) (mulB B h) (q *: B)%P Ms w [tape u 0; tape u 1] n (S d) ip trx posx eq_refl ltac:(lia) LG LH Hw eq_refl HM HF EA) as (e & -> & Ne).
    exists e. split; [reflexivity|lia]. }
  assert (H6 : forall c, count (fun u => if ceq (first u) c then true else false) (words vals (2 + (K + K))) <= length vals ^ (2 + (K + K) - 1)).
  { intros c. exact (first_spread ceq vals B g w n (2 + (K + K)) c ltac:(lia) Hg Hw HN ltac:(lia) HB (det_nz g h n Ndet)). }
  exists "c_prime_w", first, good. exact (conj H1 (conj H2 (conj H3 (conj H4 (conj H5 H6))))).
Qed.
Theorem C82_qesa_nizk {St} (vals : list Scalar) tr d (g h : list Scalar) (q : Scalar) (B : Point) Ms (w : list Scalar)
    (T1 T2 : nat) (ask : prover St) (judge : St -> Zk -> prover bool) :
  let n := 2 ^ S d in let K := 2 * d + 4 in
  2 <= d -> length g = n -> length h = n -> length w = n - 2 -> 1 <= length Ms -> Forall (rect (n - 2) (n - 2)) Ms ->
  sc w 0 = s1 -> (forall i, i < length Ms -> quad (nth i Ms []) w = s0) ->
  NoDup vals -> (forall x, In x vals) -> B <> p0 ->
  (sc g (n - 2)%nat * sc h (n - 2)%nat + sc g (n - 1)%nat * sc h (n - 1)%nat <> s0)%S ->
  zk_generators d h -> asks T1 ask ->
  let real := plays vals T1 T2 (d + 6) (2 + (K + K))
    (real_game ceq tr (fun ro rng => zk_create ro rng 0 tr (mulB B g) (mulB B h) (q *: B)%P (mkBlockMatrix Ms) w) ask judge) in
  let simd := plays vals T1 T2 (d + 6) (2 + (2 + (2 * d + 2)))
    (sim_game ceq tr (fun ro pf => zk_verify ro tr pf (mulB B g) (mulB B h) (q *: B)%P (mkBlockMatrix Ms))
       (fun cs v => zk_sim d g h q B Ms cs (sc v 0) (sc v 1) (skipn 2 v)) ask judge) in
  let N := (length vals - 1) ^ 2 * length vals ^ (2 * d + 2) in
  let err := (((3 * d + 12) * ((8 * n + 2 * d + 1) * (4 * n * n) + 32 * n + d + 5) + 5) * length vals ^ (d + 6 + (2 + (K + K)) - 1)
              + (T1 + 1) * length vals ^ (d + 6 + (2 + (K + K)) - 1)) * length vals ^ (T1 + T2) in
  real <= N * simd + err /\ N * simd <= real + err.
Proof.
  intros n K Hd Hg Hh Hw HM HF H0 Hsat HN HA HB Ndet Zp HT real simd N err.
  refine (nizk ceq vals tr (d + 6) (2 + (K + K)) (2 + (2 + (2 * d + 2))) N _ 1 _ _ _ T1 T2 ask judge HN _ _ HT
    (qesa_simulatable vals tr d g h q B Ms w Hd Hg Hh Hw HM HF H0 Hsat HN HA HB Ndet Zp)); lia.
Qed.

(** ** copy argument *)
Lemma copy_simulatable (vals : list Scalar) tr d (g h : list Scalar) (q : Scalar) (B : Point) mp Ms (w : list Scalar) (sets : list (list N))
    (openings : list (list Scalar * Scalar)) (Cs : list Point) :
  let n := 2 ^ S d in let K := 2 * d + 4 in let k := length sets in
  let msgs := concat (map fst openings) in
  2 <= d -> (N.of_nat n < 65536)%N -> length g = n -> length h = n -> (N.of_nat k <= 65536)%N ->
  compute_mapping (N.of_nat n) (N.of_nat (length w)) sets = Ok mp ->
  (forall s i, In s sets -> In i s -> length w <= N.to_nat i < n - 2) ->
  length openings = k -> length Cs = k ->
  (forall j, j < k ->
     commit (mulB B g) (nth j sets []) (fst (nth j openings ([], s0))) (snd (nth j openings ([], s0))) = Ok (pt Cs j)) ->
  1 <= length w -> length w <= n - 2 -> sc w 0 = s1 -> Forall (rect (n - 2) (n - 2)) Ms ->
  (forall al i, i < length Ms -> quad (nth i Ms []) (cp_witness n mp w msgs al) = s0) ->
  NoDup vals -> (forall x, In x vals) -> B <> p0 ->
  (sc g (n - 2)%nat * sc h (n - 2)%nat + sc g (n - 1)%nat * sc h (n - 1)%nat <> s0)%S ->
  zk_generators d h ->
  simulatable ceq vals tr (d + 7) (2 + (K + K)) (2 + (2 + (2 * d + 2))) ((length vals - 1) ^ 2 * length vals ^ (2 * d + 2))
    (((3 * d + 13) * ((8 * (n + k) + 2 * d + 1) * (4 * n * n) + 32 * (n + k) + d + 5) + 6) * length vals ^ (d + 7 + (2 + (K + K)) - 1)) 1
    (fun ro rng => copy_create ro rng 0 tr (mulB B g) (mulB B h) (q *: B)%P mp (mkBlockMatrix Ms) w openings)
    (fun ro pf => copy_verify ro tr pf (mulB B g) (mulB B h) (q *: B)%P (mkBlockMatrix Ms) mp Cs)
       (fun cs v => copy_sim d g h q B mp Ms Cs cs (sc v 0) (sc v 1) (skipn 2 v)).
Proof.
  intros n K k msgs Hd Hn16 Hg Hh HK Emp Hidx HO HCs Hcom Hw1 Hw H0 HF Hsat HN HA HB Ndet Zp.
  assert (Hn : 5 <= n) by (unfold n; assert (Y := size8 d Hd); assert (1 <= 2 ^ d) by apply pow2_pos; lia).
  assert (LG : length (mulB B g) = n) by now rewrite mulB_length. assert (LH : length (mulB B h) = n) by now rewrite mulB_length.
  destruct (copy_setting (mulB B g) n mp Ms w sets openings Cs ltac:(lia) Hn16 LG HK Emp Hidx HO HCs Hcom Hw1 Hw H0 HF Hsat)
    as (HM & Hk & Hpw & Hnc & Hms & HS). fold k in HM, Hk. fold msgs in Hms, HS.
  set (wp := tab (n - 2) (cp_placed mp w msgs)) in *. assert (Lwp : length wp = n - 2) by apply tab_length.
  assert (HMo := HM). rewrite <- HO in HMo.
  set (create := fun (ro : oracle) (rng : nat -> Scalar) => copy_create ro rng 0 tr (mulB B g) (mulB B h) (q *: B)%P mp (mkBlockMatrix Ms) w openings).
  set (verify := fun (ro : oracle) (pf : Copy) => copy_verify ro tr pf (mulB B g) (mulB B h) (q *: B)%P (mkBlockMatrix Ms) mp Cs).
  set (sim := fun cs v : list Scalar => copy_sim d g h q B mp Ms Cs cs (sc v 0) (sc v 1) (skipn 2 v)).
  set (first := fun u => compress (lin (wp ++ [tape u 0; tape u 1]) (mulB B g))).
  set (good := fun cs : list Scalar => negb (seqb (sc cs 1) s0)).
  assert (CE : forall ro u, create ro (tape u) =
    ('(p, tr', pos') <- inner_create ro (tape u) 2 (cp_hist tr (first u)) (mulB B g) (mulB B h) (q *: B)%P
       (mkBlockMatrix (cp_system n mp (ro (cp_hist tr (first u))) Ms)) (cp_witness n mp w msgs (ro (cp_hist tr (first u))))
       [tape u 0; (tape u 1 + cp_rand openings (ro (cp_hist tr (first u))))%S] ;;
     Ok (mkCopy (first u) p, tr', pos'))).
  { intros ro u. exact (copy_create_eq ro (tape u) 0 tr (mulB B g) (mulB B h) (q *: B)%P mp Ms w openings n ltac:(lia) LG HMo Hnc ltac:(lia) Hw1 Hw H0 Hpw Hms). }
  assert (H1 : forall test : list Scalar -> Copy -> bool,
     let real := count (fun z => on_proof (test (firstn (d + 7) z)) (create (coins tr (firstn (d + 7) z)) (tape (skipn (d + 7) z)))) (words vals (d + 7 + (2 + (K + K)))) in
     let simd := count (fun z => test (firstn (d + 7) z) (sim (firstn (d + 7) z) (skipn (d + 7) z))) (words vals (d + 7 + (2 + (2 + (2 * d + 2))))) in
     let slack := ((3 * d + 13) * ((8 * (n + k) + 2 * d + 1) * (4 * n * n) + 32 * (n + k) + d + 5) + 6) * length vals ^ (d + 7 + (2 + (K + K)) - 1) in
     real <= (length vals - 1) ^ 2 * length vals ^ (2 * d + 2) * simd + slack /\ (length vals - 1) ^ 2 * length vals ^ (2 * d + 2) * simd <= real + slack).
  { intros test. exact (C78_copy_statistical_zk vals tr d g h q B mp Ms w sets openings Cs test
      Hd Hn16 Hg Hh HK Emp Hidx HO HCs Hcom Hw1 Hw H0 HF Hsat HN HA Ndet Zp). }
  assert (H2 : forall cs u pf tr' p, length cs = d + 7 -> good cs = true -> create (coins tr cs) (tape u) = Ok (pf, tr', p) ->
     exists b, verify (coins tr cs) pf = Ok (b, tr')).
  { intros cs u pf tr' p Lc Hx E.
    refine (C82_copy_same_transcript (coins tr cs) (tape u) 0 tr (mulB B g) (mulB B h) (q *: B)%P mp Ms w sets openings Cs n pf tr' p
      ltac:(lia) Hn16 LG LH HK Emp Hidx HO HCs Hcom Hw1 Hw H0 HF Hsat E _).
    unfold q_x, q_hist_x, cp_hist. rewrite (coins_at tr cs _ 1) by (rewrite !nchal_app; cbn; lia). intros Z. apply seqb_eq in Z. unfold good in Hx. now rewrite Z in Hx. }
  assert (H3 : count (fun cs => negb (good cs)) (words vals (d + 7)) <= 1 * length vals ^ (d + 7 - 1)) by (apply (letter_zero vals (d + 7) 1 HN); lia).
  assert (H4 : forall u ro ro', length u = 2 + (K + K) ->
     (forall e', ro (tr ++ EvMsg "c_w" (first u) :: e') = ro' (tr ++ EvMsg "c_w" (first u) :: e')) -> create ro (tape u) = create ro' (tape u)).
  { intros u ro ro' Lu A. rewrite !CE.
    assert (A1 : agree (cp_hist tr (first u)) ro ro') by (intros e; unfold cp_hist; rewrite <- !app_assoc; apply A).
    rewrite <- (agree_at _ _ _ A1). set (al := ro (cp_hist tr (first u))). destruct (HS al) as (S1 & S2 & _).
    rewrite (inner_agree ro ro' (tape u) 2 (cp_hist tr (first u)) (mulB B g) (mulB B h) (q *: B)%P (cp_system n mp al Ms) (cp_witness n mp w msgs al)
       [tape u 0; (tape u 1 + cp_rand openings al)%S] n ltac:(lia) LG LH (tab_length _ _) eq_refl S1 S2 (agree_app _ _ _ _ A1)). reflexivity. }
  assert (H5 : forall u ro pf tr' p, length u = 2 + (K + K) -> create ro (tape u) = Ok (pf, tr', p) -> exists e', tr' = tr ++ EvMsg "c_w" (first u) :: e' /\ nchal e' = d + 7).
  { intros u ro pf tr' p Lu E. rewrite CE in E. apply bind_Ok_inv in E as [[[ip trx] posx] [EA E]]. injection E as _ <- _.
    set (al := ro (cp_hist tr (first u))) in *. destruct (HS al) as (S1 & S2 & _).
    destruct (inner_extends ro (tape u) 2 (cp_hist tr (first u)) (mulB B g) (mulB B h) (q *: B)%P (cp_system n mp al Ms) (cp_witness n mp w msgs al)
       [tape u 0; (tape u 1 + cp_rand openings al)%S] n (S d) ip trx posx eq_refl ltac:(lia) LG LH (tab_length _ _) eq_refl S1 S2 EA) as (e & -> & Ne).
    unfold cp_hist. rewrite <- app_assoc. cbn [app]. eexists. split; [reflexivity|]. unfold nchal in *. cbn. rewrite Ne. lia. }
  assert (H6 : forall c, count (fun u => if ceq (first u) c then true else false) (words vals (2 + (K + K))) <= length vals ^ (2 + (K + K) - 1)).
  { intros c. exact (first_spread ceq vals B g wp n (2 + (K + K)) c ltac:(lia) Hg Lwp HN ltac:(lia) HB (det_nz g h n Ndet)). }
  exists "c_w", first, good. exact (conj H1 (conj H2 (conj H3 (conj H4 (conj H5 H6))))).
Qed.
Theorem C82_copy_nizk {St} (vals : list Scalar) tr d (g h : list Scalar) (q : Scalar) (B : Point) mp Ms (w : list Scalar) (sets : list (list N))
    (openings : list (list Scalar * Scalar)) (Cs : list Point) (T1 T2 : nat) (ask : prover St) (judge : St -> Copy -> prover bool) :
  let n := 2 ^ S d in let K := 2 * d + 4 in let k := length sets in
  let msgs := concat (map fst openings) in
  2 <= d -> (N.of_nat n < 65536)%N -> length g = n -> length h = n -> (N.of_nat k <= 65536)%N ->
  compute_mapping (N.of_nat n) (N.of_nat (length w)) sets = Ok mp ->
  (forall s i, In s sets -> In i s -> length w <= N.to_nat i < n - 2) ->
  length openings = k -> length Cs = k ->
  (forall j, j < k ->
     commit (mulB B g) (nth j sets []) (fst (nth j openings ([], s0))) (snd (nth j openings ([], s0))) = Ok (pt Cs j)) ->
  1 <= length w -> length w <= n - 2 -> sc w 0 = s1 -> Forall (rect (n - 2) (n - 2)) Ms ->
  (forall al i, i < length Ms -> quad (nth i Ms []) (cp_witness n mp w msgs al) = s0) ->
  NoDup vals -> (forall x, In x vals) -> B <> p0 ->
  (sc g (n - 2)%nat * sc h (n - 2)%nat + sc g (n - 1)%nat * sc h (n - 1)%nat <> s0)%S ->
  zk_generators d h -> asks T1 ask ->
  let real := plays vals T1 T2 (d + 7) (2 + (K + K))
    (real_game ceq tr (fun ro rng => copy_create ro rng 0 tr (mulB B g) (mulB B h) (q *: B)%P mp (mkBlockMatrix Ms) w openings) ask judge) in
  let simd := plays vals T1 T2 (d + 7) (2 + (2 + (2 * d + 2)))
    (sim_game ceq tr (fun ro pf => copy_verify ro tr pf (mulB B g) (mulB B h) (q *: B)%P (mkBlockMatrix Ms) mp Cs)
       (fun cs v => copy_sim d g h q B mp Ms Cs cs (sc v 0) (sc v 1) (skipn 2 v)) ask judge) in
  let N := (length vals - 1) ^ 2 * length vals ^ (2 * d + 2) in
  let err := (((3 * d + 13) * ((8 * (n + k) + 2 * d + 1) * (4 * n * n) + 32 * (n + k) + d + 5) + 6) * length vals ^ (d + 7 + (2 + (K + K)) - 1)
              + (T1 + 1) * length vals ^ (d + 7 + (2 + (K + K)) - 1)) * length vals ^ (T1 + T2) in
  real <= N * simd + err /\ N * simd <= real + err.
Proof.
  intros n K k msgs Hd Hn16 Hg Hh HK Emp Hidx HO HCs Hcom Hw1 Hw H0 HF Hsat HN HA HB Ndet Zp HT real simd N err.
  refine (nizk ceq vals tr (d + 7) (2 + (K + K)) (2 + (2 + (2 * d + 2))) N _ 1 _ _ _ T1 T2 ask judge HN _ _ HT
    (copy_simulatable vals tr d g h q B mp Ms w sets openings Cs Hd Hn16 Hg Hh HK Emp Hidx HO HCs Hcom Hw1 Hw H0 HF Hsat HN HA HB Ndet Zp)); lia.
Qed.

(** ** two witnesses: the distinguisher cannot tell which one was used *)
Theorem C82_qesa_witness_hidden {St} (vals : list Scalar) tr d (g h : list Scalar) (q : Scalar) (B : Point) Ms (w w' : list Scalar)
    (T1 T2 : nat) (ask : prover St) (judge : St -> Zk -> prover bool) :
  let n := 2 ^ S d in let K := 2 * d + 4 in
  2 <= d -> length g = n -> length h = n -> length w = n - 2 -> length w' = n - 2 -> 1 <= length Ms -> Forall (rect (n - 2) (n - 2)) Ms ->
  sc w 0 = s1 -> (forall i, i < length Ms -> quad (nth i Ms []) w = s0) ->
  sc w' 0 = s1 -> (forall i, i < length Ms -> quad (nth i Ms []) w' = s0) ->
  NoDup vals -> (forall x, In x vals) -> B <> p0 ->
  (sc g (n - 2)%nat * sc h (n - 2)%nat + sc g (n - 1)%nat * sc h (n - 1)%nat <> s0)%S ->
  zk_generators d h -> asks T1 ask ->
  let real := fun w => plays vals T1 T2 (d + 6) (2 + (K + K))
    (real_game ceq tr (fun ro rng => zk_create ro rng 0 tr (mulB B g) (mulB B h) (q *: B)%P (mkBlockMatrix Ms) w) ask judge) in
  let err := ((3 * d + 12) * ((8 * n + 2 * d + 1) * (4 * n * n) + 32 * n + d + 5) + 6 + T1) * length vals ^ (d + 6 + (2 + (K + K)) - 1 + (T1 + T2)) in
  real w <= real w' + 2 * err /\ real w' <= real w + 2 * err.
Proof.
  intros n K Hd Hg Hh Hw Hw' HM HF H0 Hs H0' Hs' HN HA HB Nd Z HT real err.
  assert (X := C82_qesa_nizk vals tr d g h q B Ms w T1 T2 ask judge Hd Hg Hh Hw HM HF H0 Hs HN HA HB Nd Z HT).
  assert (X' := C82_qesa_nizk vals tr d g h q B Ms w' T1 T2 ask judge Hd Hg Hh Hw' HM HF H0' Hs' HN HA HB Nd Z HT).
  cbv zeta in X, X'. fold n K in X, X'.
  assert (Ee : forall c, (c * length vals ^ (d + 6 + (2 + (K + K)) - 1) + (T1 + 1) * length vals ^ (d + 6 + (2 + (K + K)) - 1)) * length vals ^ (T1 + T2) =
    (c + 1 + T1) * length vals ^ (d + 6 + (2 + (K + K)) - 1 + (T1 + T2))).
  { intros c. rewrite (Nat.pow_add_r _ _ (T1 + T2)), Nat.mul_assoc. f_equal. rewrite <- Nat.mul_add_distr_r. f_equal. lia. }
  rewrite Ee in X, X'. replace ((3 * d + 12) * ((8 * n + 2 * d + 1) * (4 * n * n) + 32 * n + d + 5) + 5 + 1 + T1) with
    ((3 * d + 12) * ((8 * n + 2 * d + 1) * (4 * n * n) + 32 * n + d + 5) + 6 + T1) in X, X' by lia. fold err in X, X'.
  change (plays vals T1 T2 (d + 6) (2 + (K + K)) _) with (real w) in X. change (plays vals T1 T2 (d + 6) (2 + (K + K)) _) with (real w') in X'.
  destruct X as [X1 X2], X' as [Y1 Y2]. split.
  - eapply Nat.le_trans; [exact X1|]. eapply Nat.le_trans; [apply Nat.add_le_mono_r, Y2|]. lia.
  - eapply Nat.le_trans; [exact Y1|]. eapply Nat.le_trans; [apply Nat.add_le_mono_r, X2|]. lia.
Qed.

(** two witnesses, and two ways of opening the same commitments *)
Theorem C82_copy_witness_hidden {St} (vals : list Scalar) tr d (g h : list Scalar) (q : Scalar) (B : Point) mp Ms (w w' : list Scalar) (sets : list (list N))
    (openings openings' : list (list Scalar * Scalar)) (Cs : list Point)
    (T1 T2 : nat) (ask : prover St) (judge : St -> Copy -> prover bool) :
  let n := 2 ^ S d in let K := 2 * d + 4 in let k := length sets in
  2 <= d -> (N.of_nat n < 65536)%N -> length g = n -> length h = n -> (N.of_nat k <= 65536)%N ->
  compute_mapping (N.of_nat n) (N.of_nat (length w)) sets = Ok mp ->
  (forall s i, In s sets -> In i s -> length w <= N.to_nat i < n - 2) ->
  length Cs = k -> NoDup vals -> (forall x, In x vals) -> B <> p0 -> Forall (rect (n - 2) (n - 2)) Ms ->
  (sc g (n - 2)%nat * sc h (n - 2)%nat + sc g (n - 1)%nat * sc h (n - 1)%nat <> s0)%S -> zk_generators d h ->
  let honest := fun w openings =>
    length openings = k /\
    (forall j, j < k ->
       commit (mulB B g) (nth j sets []) (fst (nth j openings ([], s0))) (snd (nth j openings ([], s0))) = Ok (pt Cs j)) /\
    sc w 0 = s1 /\
    (forall al i, i < length Ms -> quad (nth i Ms []) (cp_witness n mp w (concat (map fst openings)) al) = s0) in
  1 <= length w -> length w <= n - 2 -> length w' = length w ->
  honest w openings -> honest w' openings' -> asks T1 ask ->
  let real := fun w openings => plays vals T1 T2 (d + 7) (2 + (K + K))
    (real_game ceq tr (fun ro rng => copy_create ro rng 0 tr (mulB B g) (mulB B h) (q *: B)%P mp (mkBlockMatrix Ms) w openings) ask judge) in
  let err := ((3 * d + 13) * ((8 * (n + k) + 2 * d + 1) * (4 * n * n) + 32 * (n + k) + d + 5) + 7 + T1) * length vals ^ (d + 7 + (2 + (K + K)) - 1 + (T1 + T2)) in
  real w openings <= real w' openings' + 2 * err /\ real w' openings' <= real w openings + 2 * err.
Proof.
  intros n K k Hd Hn16 Hg Hh HK Emp Hidx HCs HN HA HB HF Nd Zp honest Hw1 Hw Hww (O1 & O2 & O3 & O4) (P1 & P2 & P3 & P4) HT real err.
  assert (X := C82_copy_nizk vals tr d g h q B mp Ms w sets openings Cs T1 T2 ask judge Hd Hn16 Hg Hh HK Emp Hidx O1 HCs O2 Hw1 Hw O3 HF O4 HN HA HB Nd Zp HT).
  rewrite <- Hww in Hw1, Hw, Emp, Hidx.
  assert (X' := C82_copy_nizk vals tr d g h q B mp Ms w' sets openings' Cs T1 T2 ask judge Hd Hn16 Hg Hh HK Emp Hidx P1 HCs P2 Hw1 Hw P3 HF P4 HN HA HB Nd Zp HT).
  cbv zeta in X, X'. fold n K k in X, X'.
  assert (Ee : forall c, (c * length vals ^ (d + 7 + (2 + (K + K)) - 1) + (T1 + 1) * length vals ^ (d + 7 + (2 + (K + K)) - 1)) * length vals ^ (T1 + T2) =
    (c + 1 + T1) * length vals ^ (d + 7 + (2 + (K + K)) - 1 + (T1 + T2))).
  { intros c. rewrite (Nat.pow_add_r _ _ (T1 + T2)), Nat.mul_assoc. f_equal. rewrite <- Nat.mul_add_distr_r. f_equal. lia. }
  rewrite Ee in X, X'. replace ((3 * d + 13) * ((8 * (n + k) + 2 * d + 1) * (4 * n * n) + 32 * (n + k) + d + 5) + 6 + 1 + T1) with
    ((3 * d + 13) * ((8 * (n + k) + 2 * d + 1) * (4 * n * n) + 32 * (n + k) + d + 5) + 7 + T1) in X, X' by lia. fold err in X, X'.
  change (plays vals T1 T2 (d + 7) (2 + (K + K)) _) with (real w openings) in X. change (plays vals T1 T2 (d + 7) (2 + (K + K)) _) with (real w' openings') in X'.
  destruct X as [X1 X2], X' as [Y1 Y2]. split.
  - eapply Nat.le_trans; [exact X1|]. eapply Nat.le_trans; [apply Nat.add_le_mono_r, Y2|]. lia.
  - eapply Nat.le_trans; [exact Y1|]. eapply Nat.le_trans; [apply Nat.add_le_mono_r, X2|]. lia.
Qed.
End C82.

(** ** size 8, over a field of 50 bits *)
(** a distinguisher with T queries before the proof and 9 after it *)
Example C82_case {St} (ceq : @encodings_comparable EX) (vals : list (@Scalar EX)) (HN : NoDup vals) (HA : forall x, In x vals) (g : list Scalar) (B : Point)
    (T : nat) (ask : prover St) (judge : St -> Zk -> prover bool) : length g = 8 -> sc g 6 = s1 -> sc g 7 = s0 -> B <> p0 -> asks T ask ->
  let real := fun w => plays vals T 9 8 18
    (real_game ceq [] (fun ro rng => zk_create ro rng 0 [] (mulB B g) (mulB B sh76) (sN 77 *: B)%P (mkBlockMatrix M77) w) ask judge) in
  let err := (18 * (69 * 256 + 263) + 6 + T) * length vals ^ (25 + (T + 9)) in
  real w77 <= real w77' + 2 * err /\ real w77' <= real w77 + 2 * err.
Proof.
  intros Hg G6 G7 HB HT real err. assert (Z := C77_case_generators).
  assert (Q : forall w, forallb (fun M => Z.eqb (zs (quad M w)) (zs (@s0 EX))) M77 = true -> forall i, i < length M77 -> quad (nth i M77 []) w = s0).
  { intros w Hw i Hi. rewrite forallb_forall in Hw. assert (Y := Hw _ (nth_In M77 [] Hi)). apply Z.eqb_eq in Y. now apply zs_inj. }
  assert (X := @C82_qesa_witness_hidden EX EX_laws ceq St vals [] 2 g sh76 (sN 77) B M77 w77 w77' T 9 ask judge).
  cbv zeta in X. apply X; clear X; try assumption; try reflexivity.
  - cbn. lia.
  - repeat constructor.
  - apply Q. vm_compute. reflexivity.
  - apply Q. vm_compute. reflexivity.
  - change (2 ^ 3 - 2) with 6. change (2 ^ 3 - 1) with 7. rewrite G6, G7. apply zs_neq. vm_compute. reflexivity.
Qed.
Example C82_case_copy {St} (ceq : @encodings_comparable EX) (vals : list (@Scalar EX)) (HN : NoDup vals) (HA : forall x, In x vals) (B : Point)
    (T : nat) (ask : prover St) (judge : St -> Copy -> prover bool) : B <> p0 -> asks T ask ->
  let real := fun w openings => plays vals T 9 9 18
    (real_game ceq [] (fun ro rng => copy_create ro rng 0 [] (mulB B g78) (mulB B sh76) (sN 77 *: B)%P mp78 (mkBlockMatrix M78) w openings) ask judge) in
  let err := (19 * (77 * 256 + 295) + 7 + T) * length vals ^ (26 + (T + 9)) in
  real [sN 1; sN 2] (o78 4 9 5) <= real [sN 1; sN 3] (o78 9 5 7) + 2 * err /\
  real [sN 1; sN 3] (o78 9 5 7) <= real [sN 1; sN 2] (o78 4 9 5) + 2 * err.
Proof.
  intros HB HT real err.
  assert (X := @C82_copy_witness_hidden EX EX_laws ceq St vals [] 2 g78 sh76 (sN 77) B mp78 M78 [sN 1; sN 2] [sN 1; sN 3] sets78 (o78 4 9 5) (o78 9 5 7)
     [(sN 118 *: B)%P] T 9 ask judge).
  cbv zeta in X. apply X; clear X; try assumption; try reflexivity.
  - cbn. lia.
  - intros s i [<-|[]] [<-|[<-|[]]]; cbn; lia.
  - repeat constructor.
  - apply zs_neq. vm_compute. reflexivity.
  - exact C77_case_generators.
  - cbn. lia.
  - cbn. lia.
  - apply (honest78 B 2 4 9 5); [vm_compute; reflexivity|reflexivity|].
    intros al v. repeat split; apply zs_inj; vm_compute; reflexivity.
  - apply (honest78 B 3 9 5 7); [vm_compute; reflexivity|reflexivity|].
    intros al v. repeat split; apply zs_inj; vm_compute; reflexivity.
Qed.

(** ** size 4: single plays *)
Section C82plays.
Let fceq : @encodings_comparable FS := list_eq_dec Z.eq_dec.
Let G := mulB (qN 1) (map fN [1; 6; 1; 8]%Z).
Let H := mulB (qN 1) (map fN [2; 7; 1; 8]%Z).
Let Q := (fN 77 *: qN 1)%P.
(** w_1^2 = 4 w_0^2, with witness (1, 2), and w_0^2 = 0 *)
Let Ms : list (list (list (@Scalar FS))) := [ map (map fN) [[-4; 0]; [0; 1]]%Z ].
Let Ns : list (list (list (@Scalar FS))) := [ map (map fN) [[1; 0]; [0; 0]]%Z ].
Let create (Ms : list (list (list (@Scalar FS)))) w := fun ro rng => zk_create ro rng 0 [] G H Q (mkBlockMatrix Ms) (map fN w).
Let verify Ms := fun ro pf => zk_verify ro [] pf G H Q (mkBlockMatrix Ms).
Let sim Ms := fun cs v : list (@Scalar FS) => zk_sim 1 (map fN [1; 6; 1; 8]%Z) (map fN [2; 7; 1; 8]%Z) (fN 77) (qN 1) Ms cs (sc v 0) (sc v 1) (skipn 2 v).
Let cs := map fN [3; 5; 2; 6; 7; 11; 13]%Z.
Let u := map fN [40; 41; 1; 2; 3; 4; 5; 6; 7; 8; 9; 10; 11; 12]%Z.
(** a distinguisher that asks for the challenges of the proof it is given and verifies it *)
Let history (Ms : list (list (list (@Scalar FS)))) (ro : oracle) (pf : Zk) (i : nat) : transcript :=
  nth i (match verify Ms ro pf with Ok (_, tr') => drawn [] tr' | _ => [] end) [].
Fixpoint checks82 (V : @oracle FS -> @Zk FS -> bool) (hist : @oracle FS -> @Zk FS -> nat -> @transcript FS) (k : nat) (m : @memo FS) (pf : @Zk FS) : @prover FS bool :=
  let ro := recall fceq m (fun _ => s1) in
  match k with
  | O => Done (V ro pf)
  | S k => let h := hist ro pf (length m) in Ask h (fun v => checks82 V hist k (m ++ [(h, v)]) pf)
  end.
Let checks Ms (_ : unit) : Zk -> prover bool :=
  checks82 (fun ro pf => match verify Ms ro pf with Ok (true, _) => true | _ => false end) (history Ms) 7 [].
(** it accepts the honest proof, the simulated proof, and a simulated proof of a false statement,
    but no honest prover's proof without a witness *)
Example C82_case_plays :
  real_game fceq [] (create Ms [1; 2]%Z) (Done tt) (checks Ms) [] [] cs u = true /\
  sim_game fceq [] (verify Ms) (sim Ms) (Done tt) (checks Ms) [] [] cs u = true /\
  sim_game fceq [] (verify Ns) (sim Ns) (Done tt) (checks Ns) [] [] cs u = true /\
  real_game fceq [] (create Ns [1; 2]%Z) (Done tt) (checks Ns) [] [] cs u = false.
Proof. repeat split; vm_compute; reflexivity. Qed.
(** a distinguisher that has guessed the first challenge's history sees the answer change: the
    term T1 of the bound *)
Let guess : transcript := history Ms (coins [] cs) (sim Ms cs u) 0.
Let asks_twice (v : @Scalar FS) (_ : @Zk FS) : @prover FS bool := Ask guess (fun v2 => Done (@seqb FS v v2)).
Example C82_case_guess :
  sim_game fceq [] (verify Ms) (sim Ms) (Ask guess (fun v => Done v)) asks_twice [fN 9] [fN 8] cs u = false /\
  sim_game fceq [] (verify Ms) (sim Ms) (Ask guess (fun v => Done v)) asks_twice [fN 3] [fN 8] cs u = true /\
  real_game fceq [] (create Ms [1; 2]%Z) (Ask guess (fun v => Done v)) asks_twice [fN 9] [fN 8] cs u = true.
Proof. repeat split; vm_compute; reflexivity. Qed.
(** prover and verifier end on the same transcript; with fifth challenge 0 the proof is rejected. With first
    challenge 0, or without a witness, the transcripts differ *)
Let verdict Ms (cs : list Z) : res (bool * bool) :=
  '(pf, tr', _) <- create Ms [1; 2]%Z (coins [] (map fN cs)) (tape u) ;;
  '(b, tr'') <- verify Ms (coins [] (map fN cs)) pf ;;
  Ok (b, if hist_eq_dec fceq tr' tr'' then Nat.eqb (nchal tr') 7 else false).
Example C82_case_same_transcript :
  verdict Ms [3; 5; 2; 6; 7; 11; 13]%Z = Ok (true, true) /\ verdict Ms [3; 5; 2; 6; 0; 11; 13]%Z = Ok (false, true) /\
  verdict Ms [0; 5; 2; 6; 7; 11; 13]%Z = Ok (false, false) /\ verdict Ns [3; 5; 2; 6; 7; 11; 13]%Z = Ok (false, false).
Proof. repeat split; vm_compute; reflexivity. Qed.
End C82plays.
