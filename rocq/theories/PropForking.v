(** C75: how many challenges a prover can answer without knowing a witness. The
    protocols are run interactively: the verifier's challenges are letters of a
    word, the prover's messages are arbitrary functions of the letters seen so far. *)
From Coq Require Import String.
From Verif Require Export Forking PropPanic PropIpa PropAlm PropQesaSound PropLmpa PropSimpleZK.
From Verif Require Import Poly KaryFacts CopyFacts PropMapping PropCopy PropCopySound Ex ExSmall.
Local Open Scope string_scope.
Local Open Scope nat_scope.
Local Open Scope list_scope.

Definition yes {B} (r : res (bool * B)) : bool := match r with Ok (true, _) => true | _ => false end.
Lemma yes_Ok {B} (r : res (bool * B)) : yes r = true -> exists tr, r = Ok (true, tr).
Proof. destruct r as [[[|] tr]| |]; cbn; try discriminate. eauto. Qed.

Section C75.
Context {C : Crypto} {L : CryptoLaws C}.
Notation word := (list Scalar).

(** number of challenges drawn in a history *)
Definition nchal (h : transcript) : nat :=
  length (filter (fun e => match e with EvChal _ => true | _ => false end) h).
(** the verifier's coins: the i-th challenge drawn after the history tr is the i-th letter *)
Definition coins (tr : transcript) (u : word) : oracle := fun h => sc u (nchal h - nchal tr - 1).

Lemma nchal_app h h' : nchal (h ++ h') = nchal h + nchal h'.
Proof. unfold nchal. now rewrite filter_app, app_length. Qed.
Lemma coins_at tr u h i : nchal h = nchal tr + S i -> coins tr u h = sc u i.
Proof. intros E. unfold coins. f_equal. lia. Qed.
Lemma coins_is i tr u h v : sc u i = v -> nchal h = nchal tr + S i -> coins tr u h = v.
Proof. intros <-. apply coins_at. Qed.
Lemma nchal_rounds LRs : nchal (ipa_rounds LRs) = length LRs.
Proof.
  unfold ipa_rounds. induction LRs as [|q LRs IH]; [reflexivity|]. cbn [map concat]. rewrite nchal_app, IH. reflexivity.
Qed.
Lemma nchal_hist tr n LRs j : nchal (ipa_hist tr n LRs j) = nchal tr + S (min j (length LRs)).
Proof. unfold ipa_hist, ipa_start. rewrite !nchal_app, nchal_rounds, firstn_length. cbn. lia. Qed.
Lemma nchal_msgs l us : nchal (lm_msgs l us) = 0.
Proof. unfold lm_msgs. induction us as [|u us IH]; auto. Qed.
Lemma nchal_lm_hist tr LRs j : nchal (lm_hist tr LRs j) = nchal tr + min j (length LRs).
Proof.
  unfold lm_hist. rewrite nchal_app. f_equal. rewrite <- firstn_length. unfold lm_rounds.
  induction (firstn j LRs) as [|q l IH]; [reflexivity|]. cbn [map concat length]. rewrite nchal_app, IH.
  unfold lm_round. rewrite !nchal_app, !nchal_msgs. reflexivity.
Qed.

(** ** the proof sent in the folding rounds *)
Definition st_proof (msg : word -> Compressed * Compressed) (fin : word -> Scalar * Scalar) (pre w : word) : NoZK :=
  let LR := st_LR msg pre w in
  mkNoZK (map fst LR) (map snd LR) (fst (fin (pre ++ w))) (snd (fin (pre ++ w))).

Lemma compress_dec c : decompress c <> None -> compress (dec c) = c.
Proof. unfold dec. destruct (decompress c) as [P|] eqn:E; [|congruence]. intros _. now apply compress_decompress. Qed.
Lemma map_compress_dec l : all_decode l -> map (fun c => compress (dec c)) l = l.
Proof.
  intros H. rewrite <- (map_id l) at 2. apply map_ext_in. intros c Hc. now apply compress_dec, H.
Qed.

Definition p_rounds (p : ipa_path) : list (Point * Point * Scalar) := fst (fst p).
Lemma st_path_proof msg fin pre w : 
  all_decode (L_vec (st_proof msg fin pre w)) -> all_decode (R_vec (st_proof msg fin pre w)) ->
  let '(rounds, a, b) := st_path msg fin pre w in
  st_proof msg fin pre w = mkNoZK (map (fun '(l, r, x) => compress l) rounds) (map (fun '(l, r, x) => compress r) rounds) a b.
Proof.
  intros HL HR. unfold st_path. unfold st_proof in *. cbn [L_vec R_vec] in *. unfold st_LR in *.
  rewrite !map_map in *. f_equal.
  - rewrite <- (map_compress_dec _ HL) at 1. rewrite map_map. reflexivity.
  - rewrite <- (map_compress_dec _ HR) at 1. rewrite map_map. reflexivity.
Qed.
Lemma st_path_nth msg fin pre w j l r x : nth_error (p_rounds (st_path msg fin pre w)) j = Some (l, r, x) ->
  j < length w /\ sc w j = x.
Proof.
  unfold p_rounds, st_path. cbn [fst]. rewrite nth_error_map. intros E.
  destruct (nth_error (st_msgs msg pre w) j) as [q|] eqn:En; [|discriminate]. injection E as _ _ E.
  split. { rewrite <- (st_msgs_length msg pre w). apply nth_error_Some. congruence. }
  rewrite <- (st_msgs_snd msg pre w). unfold sc. apply nth_error_nth. rewrite nth_error_map, En. cbn. now f_equal.
Qed.
Lemma st_path_len msg fin pre w : length (p_rounds (st_path msg fin pre w)) = length w.
Proof. unfold p_rounds, st_path. cbn [fst]. now rewrite map_length, st_msgs_length. Qed.

(** the challenges of the rounds are the letters after the first k *)
Lemma coins_rounds tr u tr2 n msg fin pre w k rounds a b :
  st_path msg fin pre w = (rounds, a, b) -> nchal tr2 = nchal tr + k -> 
  (forall j, sc u (S k + j) = sc w j) ->
  forall j l r x, nth_error rounds j = Some (l, r, x) ->
  coins tr u (ipa_hist tr2 n (combine (map (fun '(l, r, x) => compress l) rounds) (map (fun '(l, r, x) => compress r) rounds)) (S j)) = x.
Proof.
  intros E Hk Hu j l r x Hn.
  assert (ER : rounds = p_rounds (st_path msg fin pre w)) by now rewrite E.
  rewrite ER in Hn. destruct (st_path_nth _ _ _ _ _ _ _ _ Hn) as [Hj Hx].
  rewrite (coins_at _ _ _ (S k + j)); [now rewrite Hu|].
  rewrite nchal_hist, combine_length, !map_length, ER, st_path_len. lia.
Qed.

(** ** inner product argument: the challenges are alpha and one per round *)
Definition nozk_yes tr (G H : list Point) (Q : Point) n P t msg fin (u : word) : bool :=
  match u with
  | al :: w => yes (no_zk_verify (coins tr u) tr (st_proof msg fin [al] w) G H Q n P t)
  | _ => false
  end.

Lemma nozk_yes_along tr G H Q n P t msg fin al w : length G = n -> length H = n ->
  nozk_yes tr G H Q n P t msg fin (al :: w) = true ->
  accepts_along tr G H Q n P t al (st_path msg fin [al] w).
Proof.
  intros HG HH Y. unfold nozk_yes in Y. apply yes_Ok in Y as [tr' Y].
  assert (V : verdict (no_zk_verify (coins tr (al :: w)) tr (st_proof msg fin [al] w) G H Q n P t)) by (eexists; eauto).
  apply C58_ipa_verdict_sized in V as (DL & DR & _); auto.
  assert (E := st_path_proof msg fin [al] w DL DR).
  destruct (st_path msg fin [al] w) as [[rounds a] b] eqn:EP.
  unfold accepts_along. exists (coins tr (al :: w)), tr'. split; [now rewrite <- E|]. split.
  - apply (coins_is 0); [reflexivity|]. unfold ipa_start. rewrite nchal_app. cbn. lia.
  - eapply coins_rounds; [exact EP| |]; [rewrite <- (Nat.add_0_r (nchal tr)) at 1; reflexivity|reflexivity].
Qed.

Theorem C75_nozk_soundness_error vals tr (G H : list Point) (Q P : Point) (t : Scalar) d msg fin :
  NoDup vals -> length G = 2 ^ d -> length H = 2 ^ d ->
  (2 + 3 * d) * length vals ^ d < count (nozk_yes tr G H Q (2 ^ d) P t msg fin) (words vals (S d)) ->
  exists B, good_trees B /\
    all_paths B (fun al p => exists w, length w = d /\
                   nozk_yes tr G H Q (2 ^ d) P t msg fin (al :: w) = true /\ p = st_path msg fin [al] w) /\
    match trees_extract t B with
    | Wit a b c => length a = 2 ^ d /\ length b = 2 ^ d /\ c = t /\
                   P = (comb a G + comb b H + t *: Q)%P /\ dotp a b = t
    | Rel g h q => nontrivial_relation (2 ^ d) G H Q g h q
    end.
Proof.
  intros HN HG HH HC.
  assert (HT : has_tree vals (3 :: repeat 4 d) (nozk_yes tr G H Q (2 ^ d) P t msg fin)).
  { apply fork; auto.
    - constructor; [lia|]. apply Forall_forall. intros k Hk. apply repeat_spec in Hk. lia.
    - unfold slack. cbn [map length]. rewrite repeat_length.
      replace (list_sum _) with (2 + 3 * d); [replace (S d - 1) with d by lia; exact HC|].
      change (list_sum (pred 3 :: ?l)) with (2 + list_sum l). f_equal. clear. induction d as [|d IH]; [reflexivity|].
      cbn [repeat map]. change (list_sum (pred 4 :: ?l)) with (3 + list_sum l). rewrite <- IH. lia. }
  destruct (build_alpha msg fin vals d [] _ HT) as (B & GB & PB). exists B. split; [exact GB|]. split; [exact PB|].
  unfold trees_extract. destruct GB as (N1 & N2 & N3 & D1 & D2). destruct PB as [P1 P2].
  apply (C16_nozk_special_soundness tr); auto.
  - intros p Hp. apply P1 in Hp as (w & _ & Y & ->). now apply nozk_yes_along.
  - intros p Hp. apply P2 in Hp as (w & _ & Y & ->). now apply nozk_yes_along.
Qed.

Lemma slack_repeat k d ks : slack (ks ++ repeat (S k) d) = slack ks + k * d.
Proof.
  unfold slack. rewrite map_app, list_sum_app. f_equal. induction d as [|d IH]; [cbn; lia|].
  cbn [repeat map]. change (list_sum (pred (S k) :: ?l)) with (k + list_sum l). rewrite IH. lia.
Qed.
Lemma fork4 {A} (vals : list A) ks k d ok s : NoDup vals -> Forall (fun k => 1 <= k) ks -> slack ks + k * d <= s ->
  s * length vals ^ (length ks + d - 1) < count ok (words vals (length ks + d)) -> has_tree vals (ks ++ repeat (S k) d) ok.
Proof.
  intros HN HF Hs HC. apply fork; auto.
  - apply Forall_app. split; auto. apply Forall_forall. intros j Hj. apply repeat_spec in Hj. lia.
  - rewrite slack_repeat, app_length, repeat_length.
    eapply Nat.le_lt_trans; [|exact HC]. now apply Nat.mul_le_mono_r.
Qed.

(** ** almost-zk argument: beta in front; C_r is the first message *)
Definition almzk_yes tr (G H : list Point) (Q : Point) n Cw t (cr : Compressed) msg fin (u : word) : bool :=
  match u with
  | be :: al :: w => yes (alm_zk_verify (coins tr u) tr (mkAlmZK cr (st_proof msg fin [be; al] w)) G H Q n Cw t)
  | _ => false
  end.
Lemma almzk_yes_along tr G H Q n Cw t cr msg fin be al w : length G = n -> length H = n ->
  almzk_yes tr G H Q n Cw t cr msg fin (be :: al :: w) = true ->
  alm_accepts_along tr G H Q n Cw t cr be al (st_path msg fin [be; al] w).
Proof.
  intros HG HH Y. unfold almzk_yes in Y. apply yes_Ok in Y as [tr' Y]. set (u := be :: al :: w) in *.
  assert (V : verdict (alm_zk_verify (coins tr u) tr (mkAlmZK cr (st_proof msg fin [be; al] w)) G H Q n Cw t)) by (eexists; eauto).
  apply C58_almzk_verdict_sized in V as (_ & DL & DR & _); auto. cbn [az_NoZK] in DL, DR.
  assert (E := st_path_proof msg fin [be; al] w DL DR).
  destruct (st_path msg fin [be; al] w) as [[rounds a] b] eqn:EP.
  exists (coins tr u), tr'. split; [now rewrite <- E|].
  assert (N1 : nchal (alm_beta_hist tr cr) = nchal tr + 1) by (unfold alm_beta_hist; now rewrite nchal_app).
  split; [now apply (coins_is 0)|]. intros Cr _. cbv zeta.
  assert (N2 : forall P, nchal (alm_ipa_hist tr cr P) = nchal tr + 1).
  { intros P. unfold alm_ipa_hist. rewrite nchal_app, N1. cbn. lia. }
  split.
  - apply (coins_is 1); [reflexivity|]. unfold ipa_start. rewrite nchal_app, N2. cbn. lia.
  - eapply coins_rounds; [exact EP|apply N2|reflexivity].
Qed.

Theorem C75_almzk_soundness_error vals tr (G H : list Point) (Q Cw : Point) (t : Scalar) cr d msg fin :
  NoDup vals -> length G = 2 ^ d -> length H = 2 ^ d ->
  (4 + 3 * d) * length vals ^ (d + 1) < count (almzk_yes tr G H Q (2 ^ d) Cw t cr msg fin) (words vals (d + 2)) ->
  exists B, good_beta B /\
    beta_paths B (fun cr' be al p => cr' = cr /\ exists w, length w = d /\
                   almzk_yes tr G H Q (2 ^ d) Cw t cr msg fin (be :: al :: w) = true /\ p = st_path msg fin [be; al] w) /\
    match beta_extract t B with
    | Wit a b c => length a = 2 ^ d /\ length b = 2 ^ d /\ c = t /\ Cw = (comb a G + comb b H)%P /\ dotp a b = t
    | Rel g h q => nontrivial_relation (2 ^ d) G H Q g h q
    end.
Proof.
  intros HN HG HH HC.
  assert (HT : has_tree vals ([3; 3] ++ repeat 4 d) (almzk_yes tr G H Q (2 ^ d) Cw t cr msg fin)).
  { apply (fork4 _ _ 3 _ _ (4 + 3 * d)); [auto|repeat constructor|cbn; lia|]. cbn [length].
    replace (2 + d - 1) with (d + 1) by lia. now rewrite (Nat.add_comm 2 d). }
  destruct (build_beta msg fin vals d [] _ cr HT) as (B & EB & GB & PB). exists B. split; [exact GB|]. split; [exact PB|].
  unfold beta_extract. destruct GB as (D1 & D2 & D3 & G1 & G2 & G3).
  assert (K : beta_paths B (fun _ be al p => alm_accepts_along tr G H Q (2 ^ d) Cw t cr be al p)).
  { revert PB. apply beta_paths_impl. intros c be al p (_ & w & _ & Y & ->). now apply almzk_yes_along. }
  destruct K as (K1 & K2 & K3).
  now apply (C20_almzk_special_soundness tr G H Q Cw t (2 ^ d) cr).
Qed.

(** ** QESA: x, s, b in front; c'_w is fixed, c''_w depends on x, C_r on x, s, b *)
Definition qesa_yes tr (G H : list Point) (Q : Point) Ms c1 (c2 : Scalar -> Compressed) (cr : word -> Compressed) msg fin (u : word) : bool :=
  match u with
  | x :: s :: b :: be :: al :: w =>
    yes (inner_verify (coins tr u) tr
           (mkInner (mkAlmZK (cr [x; s; b]) (st_proof msg fin [x; s; b; be; al] w)) c1 (c2 x)) G H Q (mkBlockMatrix Ms))
  | _ => false
  end.
Lemma qesa_yes_along tr G H Q n Ms c1 c2 cr msg fin x s b be al w :
  3 <= n -> length G = n -> length H = n -> 1 <= length Ms -> Forall (rect (n - 2) (n - 2)) Ms ->
  qesa_yes tr G H Q Ms c1 c2 cr msg fin (x :: s :: b :: be :: al :: w) = true ->
  q_accepts_along tr G H Q n Ms c1 (c2 x) x s b (cr [x; s; b]) be al (st_path msg fin [x; s; b; be; al] w).
Proof.
  intros Hn HG HH HM HF Y. unfold qesa_yes in Y. apply yes_Ok in Y as [tr' Y].
  set (u := x :: s :: b :: be :: al :: w) in *.
  match type of Y with ?v = _ => assert (V : verdict v) by (eexists; eauto) end.
  apply (C58_qesa_verdict _ _ _ _ _ _ _ n) in V as (_ & _ & (_ & DL & DR & _)); auto. cbn [alm_zk az_NoZK] in DL, DR.
  assert (E := st_path_proof msg fin [x; s; b; be; al] w DL DR).
  destruct (st_path msg fin [x; s; b; be; al] w) as [[rounds a0] b0] eqn:EP.
  exists (coins tr u), tr'. split; [now rewrite <- E|].
  assert (N1 : nchal (q_hist_x tr c1) = nchal tr + 1) by (unfold q_hist_x; now rewrite nchal_app).
  assert (N2 : nchal (q_hist_s tr c1 (c2 x)) = nchal tr + 2) by (unfold q_hist_s; rewrite nchal_app, N1; cbn; lia).
  assert (N3 : nchal (q_hist_b tr c1 (c2 x)) = nchal tr + 3) by (unfold q_hist_b; rewrite nchal_app, N2; cbn; lia).
  split; [now apply (coins_is 0)|]. split; [now apply (coins_is 1)|]. split; [now apply (coins_is 2)|].
  cbv zeta. set (Cw := q_Cw _ _ _ _ _ _ _ _ _). set (tr1 := q_hist_w _ _ _ _).
  assert (N4 : nchal (alm_beta_hist tr1 (cr [x; s; b])) = nchal tr + 4).
  { unfold alm_beta_hist, tr1, q_hist_w. rewrite !nchal_app, N3. cbn. lia. }
  split; [now apply (coins_is 3)|].
  match goal with |- context [alm_ipa_hist ?a ?b ?c] => set (tr2 := alm_ipa_hist a b c) end.
  assert (N5 : nchal tr2 = nchal tr + 4).
  { unfold tr2, alm_ipa_hist. rewrite nchal_app, N4. cbn. lia. }
  split.
  - apply (coins_is 4); [reflexivity|]. unfold ipa_start. rewrite nchal_app, N5. cbn. lia.
  - eapply coins_rounds; [exact EP|exact N5|reflexivity].
Qed.

(** a tree of accepted QESA runs with the same x *)
Definition qesa_runs tr G H Q Ms c1 c2 cr msg fin d (x : Scalar) (T : sb_trees) : Prop :=
  sb_paths T (fun s b cr' be al p => cr' = cr [x; s; b] /\ exists w, length w = d /\
     qesa_yes tr G H Q Ms c1 c2 cr msg fin (x :: s :: b :: be :: al :: w) = true /\
     p = st_path msg fin [x; s; b; be; al] w).

Lemma qesa_tree vals tr G H Q Ms c1 c2 cr msg fin n d x :
  has_tree vals (n - 1 :: 3 :: 3 :: 3 :: repeat 4 d) (fun u => qesa_yes tr G H Q Ms c1 c2 cr msg fin (x :: u)) ->
  exists T, good_sb n T /\ qesa_runs tr G H Q Ms c1 c2 cr msg fin d x T.
Proof.
  intros HT. destruct (build_sb msg fin vals d n [x] _ cr HT) as (T & GT & PT). exists T. split; [exact GT|]. exact PT.
Qed.
Lemma qesa_runs_along tr G H Q n Ms c1 c2 cr msg fin d x T :
  3 <= n -> length G = n -> length H = n -> 1 <= length Ms -> Forall (rect (n - 2) (n - 2)) Ms ->
  qesa_runs tr G H Q Ms c1 c2 cr msg fin d x T -> sb_paths T (q_accepts_along tr G H Q n Ms c1 (c2 x) x).
Proof.
  intros Hn HG HH HM HF PT s b B HI. apply PT in HI. revert HI. apply beta_paths_impl.
  intros cr' be al p (-> & w & _ & Y & ->). now apply qesa_yes_along.
Qed.

(** for one x: the opening of c'_w + c''_w extracted satisfies the batched equation of that x *)
Theorem C75_qesa_batched_soundness_error vals tr (G H : list Point) (Q : Point) n d Ms c1 c2 cr msg fin x :
  NoDup vals -> n = 2 ^ d -> 3 <= n -> length G = n -> length H = n -> 1 <= length Ms -> Forall (rect (n - 2) (n - 2)) Ms ->
  x <> s0 ->
  (n + 4 + 3 * d) * length vals ^ (d + 3) <
    count (fun u => qesa_yes tr G H Q Ms c1 c2 cr msg fin (x :: u)) (words vals (d + 4)) ->
  exists T, good_sb n T /\ qesa_runs tr G H Q Ms c1 c2 cr msg fin d x T /\
  match q_extract n Ms x T with
  | Wit v u _ =>
    length v = n /\ length u = n /\ (dec c1 + dec (c2 x))%P = (comb v G + comb u H)%P /\
    let w := set_first (s1 + x * x * (sc v 0 - s1))%S v in
    u = mv n (q_gamma' n (q_gamma n Ms x)) w /\
    sum_S (min (length Ms) n) (fun t => spow x (S t) * quad (nth t Ms []) (firstn (n - 2) w))%S = s0
  | Rel g h q => nontrivial_relation n G H Q g h q
  end.
Proof.
  intros HN Hd Hn HG HH HM HF Hx HC.
  destruct (qesa_tree vals tr G H Q Ms c1 c2 cr msg fin n d x) as (T & GT & PT).
  { change (n - 1 :: 3 :: 3 :: 3 :: repeat 4 d) with ([n - 1; 3; 3; 3] ++ repeat 4 d).
    apply (fork4 _ _ 3 _ _ (n + 4 + 3 * d)); [auto|repeat constructor; lia|cbn; lia|]. cbn [length].
    replace (4 + d - 1) with (d + 3) by lia. now rewrite (Nat.add_comm 4 d). }
  exists T. split; [exact GT|]. split; [exact PT|].
  apply (C24_qesa_batched_soundness tr); auto. eapply qesa_runs_along; eauto.
Qed.

Lemma nonzero_letters (vs : list Scalar) m : NoDup vs -> length vs = S m ->
  exists us, NoDup us /\ m <= length us /\ forall v, In v us -> In v vs /\ v <> s0.
Proof.
  intros HN HL. exists (filter (fun v => negb (seqb v s0)) vs). split; [now apply NoDup_filter|]. split.
  - revert m HN HL. induction vs as [|v vs IH]; intros m HN HL; [discriminate|]. cbn [filter].
    inversion HN as [|? ? N1 N2]; subst. cbn in HL. injection HL as HL.
    destruct (seqb v s0) eqn:E; cbn [negb].
    + apply seqb_eq in E. subst v.
      assert (X : filter (fun v => negb (seqb v s0)) vs = vs).
      { clear -L N1. induction vs as [|a vs IH]; [reflexivity|]. cbn [filter].
        destruct (seqb a s0) eqn:E; [apply seqb_eq in E; subst; exfalso; apply N1; now left|]. cbn. f_equal. apply IH.
        intros Z. apply N1. now right. }
      rewrite X. lia.
    + cbn [length]. destruct m as [|m]; [lia|]. specialize (IH m N2 HL). lia.
  - intros v Hv. apply filter_In in Hv as [H1 H2]. split; auto. intros ->.
    assert (seqb s0 s0 = true) by now apply seqb_eq. rewrite H in H2. discriminate.
Qed.

(** the whole argument, against provers that know openings of c'_w over G and of c''_w over H *)
Theorem C75_qesa_soundness_error vals tr (G H : list Point) (Q : Point) n d Ms c1 c2 cr msg fin w' (u : Scalar -> list Scalar) :
  let m := min (length Ms) n in
  NoDup vals -> n = 2 ^ d -> 3 <= n -> length G = n -> length H = n -> 1 <= length Ms -> Forall (rect (n - 2) (n - 2)) Ms ->
  length w' = n -> sc w' 0 = s1 -> decompress c1 = Some (comb w' G) ->
  (forall x, length (u x) = n /\ decompress (c2 x) = Some (comb (u x) H)) ->
  (m + n + 4 + 3 * d) * length vals ^ (d + 4) <
    count (qesa_yes tr G H Q Ms c1 c2 cr msg fin) (words vals (d + 5)) ->
  (exists x T g h q, x <> s0 /\ good_sb n T /\ qesa_runs tr G H Q Ms c1 c2 cr msg fin d x T /\
     q_compare n Ms x T w' (u x) = Some (g, h, q) /\ nontrivial_relation n G H Q g h q) \/
  (forall t, t < m -> quad (nth t Ms []) (firstn (n - 2) w') = s0).
Proof.
  intros m HN Hd Hn HG HH HM HF Lw H0 D1 D2 HC.
  assert (HT : has_tree vals ([S m; n - 1; 3; 3; 3] ++ repeat 4 d) (qesa_yes tr G H Q Ms c1 c2 cr msg fin)).
  { apply (fork4 _ _ 3 _ _ (m + n + 4 + 3 * d)); [auto|repeat constructor; lia|cbn; lia|]. cbn [length].
    replace (5 + d - 1) with (d + 4) by lia. now rewrite (Nat.add_comm 5 d). }
  destruct HT as (vs & VN & VL & _ & HV). destruct (nonzero_letters vs m VN VL) as (us & UN & UL & HU).
  destruct (list_choice (fun x T => good_sb n T /\ qesa_runs tr G H Q Ms c1 c2 cr msg fin d x T) us) as (xT & E & HxT).
  { intros x Hx. apply (qesa_tree vals). apply HV. now apply HU. }
  destruct (C24_qesa_soundness tr G H Q n Ms c1 w' (map (fun '(x, T) => (x, c2 x, u x, T)) xT))
    as [(x & c & v & T & g & h & q & HI & HQ & HR)|HS]; auto.
  - rewrite map_length, <- (map_length fst), E. exact UL.
  - rewrite map_map. rewrite <- E in UN. erewrite map_ext; [exact UN|]. now intros [x T].
  - intros x c v T HI. apply in_map_iff in HI as ([x' T'] & EQ & HI). injection EQ as -> <- <- ->.
    destruct (HxT x T HI) as [GT PT]. destruct (D2 x) as [Lu Du].
    assert (Hx : In x us) by (rewrite <- E; now apply (in_map fst) in HI).
    split; [now apply HU|]. split; [auto|]. split; [auto|]. split; [auto|]. eapply qesa_runs_along; eauto.
  - left. apply in_map_iff in HI as ([x' T'] & EQ & HI). injection EQ as -> <- <- ->.
    destruct (HxT x T HI) as [GT PT]. assert (Hx : In x us) by (rewrite <- E; now apply (in_map fst) in HI).
    exists x, T, g, h, q. split; [now apply HU|]. auto.
Qed.

(** ** linear-map argument: no relation is needed, the bound is unconditional *)
Definition lmpa_yes tr A (G H : list Point) (Q : Point) n t (msg : word -> list Point * list Point) (fin : word -> Scalar) (w : word) : bool :=
  let LR := map fst (st_msgs msg [] w) in
  yes (lmpa_verify (coins tr w) tr (mkLmpaNoZK (map fst LR) (map snd LR) (fin w)) A G H Q n t).
Lemma lm_coins tr u tr2 msg fin pre w k : nchal tr2 = nchal tr + k -> (forall j, sc u (k + j) = sc w j) ->
  forall j q, nth_error (fst (st_lm msg fin pre w)) j = Some q ->
  coins tr u (lm_hist tr2 (map fst (fst (st_lm msg fin pre w))) (S j)) = snd q.
Proof.
  intros Hk Hu j q Hq. unfold st_lm in *. cbn [fst] in *.
  assert (Hj : j < length w). { rewrite <- (st_msgs_length msg pre w). apply nth_error_Some. congruence. }
  rewrite (coins_at _ _ _ (k + j)).
  - rewrite Hu. rewrite <- (st_msgs_snd msg pre w). unfold sc. apply nth_error_nth. now rewrite nth_error_map, Hq.
  - rewrite nchal_lm_hist, map_length, st_msgs_length. lia.
Qed.

Theorem C75_lmpa_soundness_error vals tr d m (A : list (list Point)) (G H : list Point) (Q : Point) t msg fin :
  NoDup vals -> 1 <= m -> rect m (2 ^ d) A ->
  2 * d * length vals ^ (d - 1) < count (lmpa_yes tr A G H Q (2 ^ d) t msg fin) (words vals d) ->
  exists T, lm_good d T /\
    (forall p, In p (lm_paths T) -> exists w, length w = d /\ lmpa_yes tr A G H Q (2 ^ d) t msg fin w = true /\ p = st_lm msg fin [] w) /\
    length (lm_extract T) = 2 ^ d /\ comb (lm_extract T) (nth 0 A []) = pt t 0.
Proof.
  intros HN Hm HA HC.
  assert (HT : has_tree vals ([] ++ repeat 3 d) (lmpa_yes tr A G H Q (2 ^ d) t msg fin)).
  { apply (fork4 _ _ 2 _ _ (2 * d)); [auto|constructor|cbn; lia|exact HC]. }
  destruct (build_lm msg fin vals d [] _ HT) as (T & GT & PT). exists T. split; [exact GT|]. split; [exact PT|].
  apply (C37_lmpa_soundness_row0 tr d m A G H Q); auto. intros p Hp. destruct (PT p Hp) as (w & Lw & Y & ->).
  unfold lmpa_yes in Y. apply yes_Ok in Y as [tr' Y]. rewrite !map_map in Y.
  exists (coins tr w), tr'. split; [exact Y|]. eapply lm_coins; [symmetry; apply Nat.add_0_r|reflexivity].
Qed.
(** hence a false first row is accepted for at most 2 d q^(d-1) of the q^d challenge words *)
Corollary C75_lmpa_false_statement vals tr d m (A : list (list Point)) (G H : list Point) (Q : Point) t msg fin :
  NoDup vals -> 1 <= m -> rect m (2 ^ d) A ->
  (forall w, length w = 2 ^ d -> comb w (nth 0 A []) <> pt t 0) ->
  count (lmpa_yes tr A G H Q (2 ^ d) t msg fin) (words vals d) <= 2 * d * length vals ^ (d - 1).
Proof.
  intros HN Hm HA HF. apply Nat.nlt_ge. intros HC.
  destruct (C75_lmpa_soundness_error vals tr d m A G H Q t msg fin HN Hm HA HC) as (T & _ & _ & L1 & E). now apply (HF _ L1).
Qed.

Definition simplezk_yes tr A (G H : list Point) (Q : Point) n t (a : list Point) (msg : word -> list Point * list Point)
    (fin : word -> Scalar) (u : word) : bool :=
  match u with
  | be :: w => let LR := map fst (st_msgs msg [be] w) in
    yes (simple_zk_verify (coins tr u) tr (mkSimpleZK (mkLmpaNoZK (map fst LR) (map snd LR) (fin u)) a) A G H Q n t)
  | _ => false
  end.
Theorem C75_simplezk_soundness_error vals tr d m (A : list (list Point)) (G H : list Point) (Q : Point) t a msg fin :
  NoDup vals -> 1 <= m -> rect m (2 ^ d) A ->
  (1 + 2 * d) * length vals ^ d < count (simplezk_yes tr A G H Q (2 ^ d) t a msg fin) (words vals (S d)) ->
  exists b1 T1 b2 T2, b1 <> b2 /\ lm_good d T1 /\ lm_good d T2 /\
    (forall b T p, (b, T) = (b1, T1) \/ (b, T) = (b2, T2) -> In p (lm_paths T) ->
       exists w, length w = d /\ simplezk_yes tr A G H Q (2 ^ d) t a msg fin (b :: w) = true /\ p = st_lm msg fin [b] w) /\
    length (sz_extract b1 T1 b2 T2) = 2 ^ d /\ comb (sz_extract b1 T1 b2 T2) (nth 0 A []) = pt t 0.
Proof.
  intros HN Hm HA HC.
  assert (HT : has_tree vals ([2] ++ repeat 3 d) (simplezk_yes tr A G H Q (2 ^ d) t a msg fin)).
  { apply (fork4 _ _ 2 _ _ (1 + 2 * d)); [auto|repeat constructor|cbn; lia|]. cbn [length].
    replace (1 + d - 1) with d by lia. exact HC. }
  destruct HT as (vs & VN & VL & _ & HV). destruct vs as [|b1 [|b2 [|? ?]]]; try discriminate.
  destruct (build_lm msg fin vals d [b1] _ (HV b1 (or_introl eq_refl))) as (T1 & G1 & P1).
  destruct (build_lm msg fin vals d [b2] _ (HV b2 (or_intror (or_introl eq_refl)))) as (T2 & G2 & P2).
  assert (Hb : b1 <> b2). { inversion VN as [|? ? N1 _]; subst. intros ->. apply N1. now left. }
  exists b1, T1, b2, T2. split; [exact Hb|]. split; [exact G1|]. split; [exact G2|].
  split. { intros b T p [E|E] Hp; injection E as -> ->; auto. }
  assert (K : forall b w, simplezk_yes tr A G H Q (2 ^ d) t a msg fin (b :: w) = true ->
             sz_accepts_along tr A G H Q (2 ^ d) t a b (st_lm msg fin [b] w)).
  { intros b w Y. unfold simplezk_yes in Y. apply yes_Ok in Y as [tr' Y]. rewrite !map_map in Y.
    exists (coins tr (b :: w)), tr'. split; [exact Y|].
    assert (N1 : nchal (sz_hist tr a) = nchal tr + 1) by (unfold sz_hist; rewrite !nchal_app, nchal_msgs; reflexivity).
    split; [now apply (coins_is 0)|]. eapply lm_coins; [exact N1|reflexivity]. }
  apply (C42_simple_zk_soundness_row0 tr d m A G H Q t a); auto.
  - intros p Hp. destruct (P1 p Hp) as (w & _ & Y & ->). auto.
  - intros p Hp. destruct (P2 p Hp) as (w & _ & Y & ->). auto.
Qed.

(** ** copy argument: the aggregation challenge a0 in front; C_w is fixed *)
Definition copy_yes tr (G H : list Point) (Q : Point) Ms mp Cs cw c1' (c2 : Scalar -> Scalar -> Compressed) (cr : word -> Compressed)
    msg fin (u : word) : bool :=
  match u with
  | a0 :: x :: s :: b :: be :: al :: w =>
    yes (copy_verify (coins tr u) tr
           (mkCopy cw (mkInner (mkAlmZK (cr [a0; x; s; b]) (st_proof msg fin [a0; x; s; b; be; al] w)) c1' (c2 a0 x)))
           G H Q (mkBlockMatrix Ms) mp Cs)
  | _ => false
  end.
Lemma copy_yes_along tr G H Q n Ms mp Cs cw c1' c2 cr msg fin a0 x s b be al w :
  3 <= n -> length G = n -> length H = n -> good_map n (length Cs) mp -> 1 <= length Cs ->
  1 <= length Ms + length (msgs_map mp) -> Forall (rect (n - 2) (n - 2)) Ms ->
  copy_yes tr G H Q Ms mp Cs cw c1' c2 cr msg fin (a0 :: x :: s :: b :: be :: al :: w) = true ->
  cp_accepts_along tr G H Q n Ms mp Cs cw a0 (c2 a0 x) x s b (cr [a0; x; s; b]) be al (st_path msg fin [a0; x; s; b; be; al] w).
Proof.
  intros Hn HG HH HMap HC HM HF Y. unfold copy_yes in Y. apply yes_Ok in Y as [tr' Y].
  set (u := a0 :: x :: s :: b :: be :: al :: w) in *.
  match type of Y with ?v = _ => assert (V : verdict v) by (eexists; eauto) end.
  apply (C58_copy_verdict _ _ _ _ _ _ _ _ _ n) in V as (_ & _ & (_ & DL & DR & _)); auto. cbn [cp_inner alm_zk az_NoZK] in DL, DR.
  assert (E := st_path_proof msg fin [a0; x; s; b; be; al] w DL DR).
  destruct (st_path msg fin [a0; x; s; b; be; al] w) as [[rounds r0] r1] eqn:EP.
  exists (coins tr u), tr', c1'. split; [now rewrite <- E|].
  assert (N0 : nchal (cp_hist tr cw) = nchal tr + 1) by (unfold cp_hist; now rewrite nchal_app).
  split; [now apply (coins_is 0)|]. cbv zeta.
  set (c1 := compress _). set (trc := cp_hist tr cw) in *.
  assert (N1 : nchal (q_hist_x trc c1) = nchal tr + 2) by (unfold q_hist_x; rewrite nchal_app, N0; cbn; lia).
  assert (N2 : nchal (q_hist_s trc c1 (c2 a0 x)) = nchal tr + 3) by (unfold q_hist_s; rewrite nchal_app, N1; cbn; lia).
  assert (N3 : nchal (q_hist_b trc c1 (c2 a0 x)) = nchal tr + 4) by (unfold q_hist_b; rewrite nchal_app, N2; cbn; lia).
  split; [now apply (coins_is 1)|]. split; [now apply (coins_is 2)|]. split; [now apply (coins_is 3)|].
  set (Cw := q_Cw _ _ _ _ _ _ _ _ _). set (tr1 := q_hist_w _ _ _ _).
  assert (N4 : nchal (alm_beta_hist tr1 (cr [a0; x; s; b])) = nchal tr + 5).
  { unfold alm_beta_hist, tr1, q_hist_w. rewrite !nchal_app, N3. cbn. lia. }
  split; [now apply (coins_is 4)|].
  match goal with |- context [alm_ipa_hist ?a ?b ?c] => set (tr2 := alm_ipa_hist a b c) end.
  assert (N5 : nchal tr2 = nchal tr + 5).
  { unfold tr2, alm_ipa_hist. rewrite nchal_app, N4. cbn. lia. }
  split.
  - apply (coins_is 5); [reflexivity|]. unfold ipa_start. rewrite nchal_app, N5. cbn. lia.
  - eapply coins_rounds; [exact EP|exact N5|reflexivity].
Qed.
(** a tree of accepted copy runs with the same a0 and x *)
Definition copy_runs tr G H Q Ms mp Cs cw c1' c2 cr msg fin d (a0 x : Scalar) (T : sb_trees) : Prop :=
  sb_paths T (fun s b cr' be al p => cr' = cr [a0; x; s; b] /\ exists w, length w = d /\
     copy_yes tr G H Q Ms mp Cs cw c1' c2 cr msg fin (a0 :: x :: s :: b :: be :: al :: w) = true /\
     p = st_path msg fin [a0; x; s; b; be; al] w).

Theorem C75_copy_soundness_error vals tr (G H : list Point) (Q : Point) n d Ms (ws : N) (sets : list (list N)) mp
    (msgs : list (list Scalar)) (rs : list Scalar) (Cs : list Point) cw c1' c2 cr msg fin (w' : list Scalar)
    (u : Scalar -> Scalar -> list Scalar) :
  let m := length Ms + length (unique_commitment_indices mp) in
  NoDup vals -> n = 2 ^ d ->
  3 <= n -> (N.of_nat n < 65536)%N -> (ws < 65536)%N -> (N.of_nat (length sets) <= 65536)%N ->
  length G = n -> length H = n -> Forall (rect (n - 2) (n - 2)) Ms ->
  (forall s i, In s sets -> In i s -> 1 <= N.to_nat i < n - 2) -> Forall (@NoDup N) sets ->
  compute_mapping (N.of_nat n) ws sets = Ok mp -> m <= n ->
  length Cs = length sets ->
  (forall k, k < length sets -> commit G (nth k sets []) (nth k msgs []) (sc rs k) = Ok (pt Cs k)) ->
  length w' = n -> sc w' 0 = s1 -> decompress cw = Some (comb w' G) ->
  (forall a0 x, length (u a0 x) = n /\ decompress (c2 a0 x) = Some (comb (u a0 x) H)) ->
  (2 * length sets + m + n + 4 + 3 * d) * length vals ^ (d + 5) <
    count (copy_yes tr G H Q Ms mp Cs cw c1' c2 cr msg fin) (words vals (d + 6)) ->
  (exists a0 x T g h q, x <> s0 /\ good_sb n T /\ copy_runs tr G H Q Ms mp Cs cw c1' c2 cr msg fin d a0 x T /\
     q_compare n (cp_system n mp a0 Ms) x T (cp_full n sets msgs rs w' a0) (u a0 x) = Some (g, h, q) /\
     nontrivial_relation n G H Q g h q) \/
  ((forall M, In M Ms -> quad M (firstn (n - 2) w') = s0) /\
   (forall k j, k < length sets -> j < length (nth k sets []) ->
      exists mm, nth_error (msgs_map mp) (cm_offset sets k + j) = Some mm /\
        sc (nth k msgs []) j = sc w' (mpos mm)) /\
   (forall s i, In s sets -> In i s -> sc w' (N.to_nat i) = s0)).
Proof.
  intros m HN Hd Hn Hn16 Hws HK HG HH HF Hidx HND Emp Hm LC HC Lw H0 D1 D2 HCt.
  destruct (compute_mapping_good n ws sets mp Hn16 Hws Emp HK) as (HMap & _ & _).
  { intros s i Hs Hi. apply (Hidx s i Hs Hi). }
  assert (HT1 : 1 <= cm_total sets) by (apply compute_mapping_inv in Emp as (_ & HT & _); exact HT).
  assert (HS1 : 1 <= length sets) by (destruct sets; [cbn in HT1; lia|cbn; lia]).
  assert (Hmsgs : length (msgs_map mp) = cm_total sets).
  { destruct (C29_metadata _ _ sets _ ltac:(lia) Emp) as (_ & X & _). exact X. }
  assert (HT : has_tree vals ([S (2 * length sets); S m; n - 1; 3; 3; 3] ++ repeat 4 d)
                 (copy_yes tr G H Q Ms mp Cs cw c1' c2 cr msg fin)).
  { apply (fork4 _ _ 3 _ _ (2 * length sets + m + n + 4 + 3 * d)); [auto|repeat (apply Forall_cons; [lia|]); apply Forall_nil| |].
    - unfold slack. cbn [map list_sum fold_right pred]. lia.
    - cbn [length]. replace (6 + d - 1) with (d + 5) by lia. now rewrite (Nat.add_comm 6 d). }
  destruct HT as (vs & VN & VL & _ & HV).
  set (okT := fun a0 x T => x <> s0 /\ good_sb n T /\ copy_runs tr G H Q Ms mp Cs cw c1' c2 cr msg fin d a0 x T).
  destruct (list_choice (fun a0 (xT : list (Scalar * sb_trees)) => m <= length xT /\ NoDup (map fst xT) /\
      forall x T, In (x, T) xT -> okT a0 x T) vs) as (axT & E & HaxT).
  { intros a0 Ha. destruct (HV a0 Ha) as (xs & XN & XL & _ & HX).
    destruct (nonzero_letters xs m XN XL) as (us & UN & UL & HU).
    destruct (list_choice (okT a0) us) as (xT & E & HxT).
    { intros x Hx. destruct (HU x Hx) as [Ix Nx].
      destruct (build_sb msg fin vals d n [a0; x] (fun w => copy_yes tr G H Q Ms mp Cs cw c1' c2 cr msg fin (a0 :: x :: w)) cr (HX x Ix))
        as (T & GT & PT). exists T. split; [auto|]. split; [auto|]. exact PT. }
    exists xT. split; [rewrite <- (map_length fst), E; exact UL|]. split; [now rewrite E|]. exact HxT. }
  destruct (C64_copy_soundness tr G H Q n Ms ws sets mp msgs rs Cs cw w'
     (map (fun '(a0, xT) => (a0, map (fun '(x, T) => (x, c2 a0 x, u a0 x, T)) xT)) axT))
    as [(a0 & runs & x & c & v & T & g & h & q & HI & HJ & HQ & HR)|HS]; auto.
  - rewrite map_map. rewrite <- E in VN. erewrite map_ext; [exact VN|]. now intros [a0 xT].
  - rewrite map_length, <- (map_length fst), E. lia.
  - intros a0 runs HI. apply in_map_iff in HI as ([a xT] & EQ & HI). injection EQ as -> <-.
    destruct (HaxT a0 xT HI) as (X1 & X2 & X3).
    split; [now rewrite map_length|]. split.
    { rewrite map_map. erewrite map_ext; [exact X2|]. now intros [x T]. }
    intros x c v T HJ. apply in_map_iff in HJ as ([x' T'] & EQ & HJ). injection EQ as -> <- <- ->.
    destruct (X3 x T HJ) as (Nx & GT & PT). destruct (D2 a0 x) as [Lu Du].
    split; [auto|]. split; [auto|]. split; [auto|]. split; [auto|].
    intros s b B HB. apply PT in HB. revert HB. apply beta_paths_impl.
    intros cr' be al p (-> & w & _ & Y & ->). eapply copy_yes_along; eauto; try (rewrite LC; auto).
    rewrite Hmsgs. lia.
  - left. apply in_map_iff in HI as ([a xT] & EQ & HI). injection EQ as -> <-.
    apply in_map_iff in HJ as ([x' T'] & EQ & HJ). injection EQ as -> <- <- ->.
    destruct (HaxT a0 xT HI) as (X1 & X2 & X3). destruct (X3 x T HJ) as (Nx & GT & PT).
    exists a0, x, T, g, h, q. auto.
Qed.
End C75.

(** ** Concrete cases over Z/1009 *)
Definition v75 (k : nat) : list (@Scalar FS) := map (fun i => fN (Z.of_nat i)) (seq 1 k).
Definition F75 : list (@Scalar FS) := map (fun i => fN (Z.of_nat i)) (seq 0 1009).
Lemma F75_NoDup : NoDup F75.
Proof.
  apply (NoDup_map_inv zf). assert (E : map zf F75 = map Z.of_nat (seq 0 1009)) by (vm_compute; reflexivity).
  rewrite E. apply FinFun.Injective_map_NoDup; [exact Nat2Z.inj|apply seq_NoDup].
Qed.
Definition z75 (n : nat) : list (list (@Point FS)) := [repeat p0 n].
Lemma z75_false n (w : list (@Scalar FS)) : comb w (nth 0 (z75 n) []) <> pt [qN (-3)] 0.
Proof.
  assert (E : comb w (nth 0 (z75 n) []) = @p0 FS).
  { apply (@sum_P_0 FS FS_laws). intros i _. cbn [nth z75]. unfold pt. rewrite nth_repeat. apply (@pmul_0_r FS FS_laws). }
  rewrite E. intros Z. apply (f_equal zq) in Z. revert Z. vm_compute. discriminate.
Qed.

(** the zero matrix and a non-zero target, one round: the bound 2 is attained
    (these messages make the folded target vanish at the challenges 1 and 2) *)
Definition cheat75 (u : list (@Scalar FS)) : list (@Point FS) * list (@Point FS) := ([qN 2], [qN 1]).
Example C75_case_lmpa_tight :
  count (lmpa_yes [] (z75 2) [qN 0; qN 0] [] (qN 0) (2 ^ 1) [qN (-3)] cheat75 (fun _ => fN 0)) (words F75 1) = 2 /\
  forall msg fin, count (lmpa_yes [] (z75 2) [qN 0; qN 0] [] (qN 0) (2 ^ 1) [qN (-3)] msg fin) (words F75 1) <= 2.
Proof.
  split; [vm_compute; reflexivity|]. intros msg fin.
  apply (@C75_lmpa_false_statement FS FS_laws F75 [] 1 1 (z75 2) [qN 0; qN 0] [] (qN 0) [qN (-3)] msg fin); auto.
  - apply F75_NoDup.
  - split; [reflexivity|repeat constructor].
  - intros w _. apply z75_false.
Qed.
(** two rounds: aiming at two challenges again in the second round gives 4 q - 4 of the 4 q allowed *)
Definition cheat75b (u : list (@Scalar FS)) : list (@Point FS) * list (@Point FS) :=
  match u with
  | [] => ([qN 2], [qN 1])
  | x :: _ => let r := pmul (sinv (fN (-3))) (padd (qN 2) (padd (pmul x (qN (-3))) (pmul (smul x x) (qN 1)))) in
              ([pmul (fN 2) r], [r])
  end.
Example C75_case_lmpa_two_rounds :
  count (lmpa_yes [] (z75 4) (map qN [0; 0; 0; 0]%Z) [] (qN 0) (2 ^ 2) [qN (-3)] cheat75b (fun _ => fN 0)) (words (v75 10) 2) = 36 /\
  forall msg fin,
    count (lmpa_yes [] (z75 4) (map qN [0; 0; 0; 0]%Z) [] (qN 0) (2 ^ 2) [qN (-3)] msg fin) (words F75 2) <= 4 * length F75.
Proof.
  split; [vm_compute; reflexivity|]. intros msg fin.
  etransitivity; [apply (@C75_lmpa_false_statement FS FS_laws F75 [] 2 1 (z75 4)); auto|].
  - apply F75_NoDup.
  - split; [reflexivity|repeat constructor].
  - intros w _. apply z75_false.
  - now rewrite Nat.pow_1_r.
Qed.
(** SimpleZK with the same matrix: beta t + a vanishes at one beta, and two challenges
    are met otherwise *)
Definition cheat75z (u : list (@Scalar FS)) : list (@Point FS) * list (@Point FS) :=
  match u with
  | be :: _ => let r := pmul (sinv (fN (-3))) (padd (pmul be (qN (-3))) (qN 15)) in ([pmul (fN 2) r], [r])
  | [] => ([], [])
  end.
Example C75_case_simplezk :
  count (simplezk_yes [] (z75 2) [qN 0; qN 0] [] (qN 0) (2 ^ 1) [qN (-3)] [qN 15] cheat75z (fun _ => fN 0)) (words (v75 10) 2) = 28.
Proof. vm_compute. reflexivity. Qed.

(** inner product argument, n = 2. The honest prover as a strategy: run it on the
    challenges seen so far *)
Definition g75 : list (@Point FS) := [qN 5; qN 11].
Definition h75 : list (@Point FS) := [qN 2; qN 9].
Definition hon75 (u : list (@Scalar FS)) : @NoZK FS :=
  match no_zk_create (coins [] (u ++ v75 9)) [] g75 h75 (qN 17) [fN 3; fN 4] [fN 6; fN 7] with
  | Ok (pf, _) => pf | _ => mkNoZK [] [] (fN 0) (fN 0) end.
Definition msg75 (e : @Scalar FS -> @Point FS * @Point FS) (u : list (@Scalar FS)) :=
  let pf := hon75 u in let j := length u - 1 in
  (compress (padd (dec (nth j (L_vec pf) (compress (qN 0)))) (fst (e (sc u 0)))),
   compress (padd (dec (nth j (R_vec pf) (compress (qN 0)))) (snd (e (sc u 0))))).
Definition fin75 (u : list (@Scalar FS)) := (nz_a (hon75 u), nz_b (hon75 u)).
Definition P75 (t : Z) : @Point FS := qN (3 * 5 + 4 * 11 + 6 * 2 + 7 * 9 + t * 17).
(** 46 = 3*6 + 4*7 is accepted for every word, above the bound 5 q; the false value 41
    can be made to pass for two challenges per alpha *)
Example C75_case_nozk :
  let run t e := count (nozk_yes [] g75 h75 (qN 17) (2 ^ 1) (P75 t) (fN t) (msg75 e) fin75) (words (v75 6) 2) in
  run 46%Z (fun _ => (qN 0, qN 0)) = 36 /\
  run 41%Z (fun _ => (qN 0, qN 0)) = 0 /\
  run 41%Z (fun al => (pmul (sinv al) (qN 17), pmul (smul (fN 6) (sinv al)) (qN 17))) = 12.
Proof. vm_compute. auto. Qed.
Example C75_case_nozk_extract :
  exists B, good_trees B /\
    match trees_extract (fN 46) B with
    | Wit a b c => length a = 2 /\ P75 46 = (comb a g75 + comb b h75 + fN 46 *: qN 17)%P /\ dotp a b = fN 46
    | Rel g h q => nontrivial_relation 2 g75 h75 (qN 17) g h q
    end.
Proof.
  destruct (@C75_nozk_soundness_error FS FS_laws (v75 6) [] g75 h75 (qN 17) (P75 46) (fN 46) 1
              (msg75 (fun _ => (qN 0, qN 0))) fin75) as (B & GB & _ & E); try reflexivity.
  - apply (NoDup_map_inv zf). assert (E : map zf (v75 6) = [1; 2; 3; 4; 5; 6]%Z) by (vm_compute; reflexivity).
    rewrite E. repeat constructor; cbn; lia.
  - apply Nat.ltb_lt. vm_compute. reflexivity.
  - exists B. split; [exact GB|]. destruct (trees_extract _ B) as [a b c|g h q]; [|exact E].
    destruct E as (E1 & _ & _ & E2 & E3). auto.
Qed.

(** almost-zk argument, n = 2: the honest prover passes on every word, more than the bound
    7 * 8^2 = 448 (here: the 64 words with beta = 5); for the false value 41 the same prover
    passes on none of nine words *)
Definition hon75a (u : list (@Scalar FS)) : @AlmZK FS :=
  match alm_zk_create (coins [] (u ++ v75 9)) (fun i => fN (Z.of_nat (i * i * i + 11))) 0 [] g75 h75 (qN 17) (qN 134)
          [fN 3; fN 4] [fN 6; fN 7] (fN 46) with
  | Ok (pf, _, _) => pf | _ => mkAlmZK (compress (qN 0)) (mkNoZK [] [] (fN 0) (fN 0)) end.
Definition msg75a (u : list (@Scalar FS)) :=
  let pf := az_NoZK (hon75a u) in let j := length u - 2 in
  (nth j (L_vec pf) (compress (qN 0)), nth j (R_vec pf) (compress (qN 0))).
Definition fin75a (u : list (@Scalar FS)) := (nz_a (az_NoZK (hon75a u)), nz_b (az_NoZK (hon75a u))).
Example C75_case_almzk :
  let run t k := count (almzk_yes [] g75 h75 (qN 17) (2 ^ 1) (qN 134) (fN t) (C_r (hon75a [])) msg75a fin75a) (map (cons (fN 5)) (words (v75 k) 2)) in
  run 46%Z 8 = 64 /\ run 41%Z 3 = 0.
Proof. vm_compute. auto. Qed.

(** QESA, n = 4, the equation 2 w_0 w_0 - w_1 w_0 = 0 and w = (1, 2): the honest prover as a
    strategy. Accepted words; with a c''_w that ignores x only the words with that x pass *)
Definition g75q : list (@Point FS) := map qN [2; 3; 5; 7]%Z.
Definition h75q : list (@Point FS) := map qN [23; 29; 31; 37]%Z.
Definition m75q : list (list (list (@Scalar FS))) := [[[fN 2; fN 0]; [fN (-1); fN 0]]].
Definition hon75q (u : list (@Scalar FS)) : @Inner FS :=
  match inner_create (coins [] (u ++ v75 9)) (fun i => fN (Z.of_nat (i * i * i + 11))) 0 [] g75q h75q (qN 77) (mkBlockMatrix m75q)
          [fN 1; fN 2] [fN 31; fN 41] with
  | Ok (pf, _, _) => pf
  | _ => mkInner (mkAlmZK (compress (qN 0)) (mkNoZK [] [] (fN 0) (fN 0))) (compress (qN 0)) (compress (qN 0)) end.
Definition msg75q (u : list (@Scalar FS)) :=
  let pf := az_NoZK (alm_zk (hon75q u)) in let j := length u - 5 in
  (nth j (L_vec pf) (compress (qN 0)), nth j (R_vec pf) (compress (qN 0))).
Definition fin75q (u : list (@Scalar FS)) := let pf := az_NoZK (alm_zk (hon75q u)) in (nz_a pf, nz_b pf).
Definition run75q (Ms : list (list (list (@Scalar FS)))) (c2 : @Scalar FS -> Compressed) : list Z -> bool := fun u =>
  qesa_yes [] g75q h75q (qN 77) Ms (c_prime_w (hon75q [])) c2 (fun u => C_r (alm_zk (hon75q u))) msg75q fin75q (map fN u).
Example C75_case_qesa :
  let c2 x := c_prime_prime_w (hon75q [x]) in
  let us := [[2; 3; 4; 5; 6; 7; 8]; [2; 9; 1; 1; 1; 1; 1]; [11; 12; 13; 14; 15; 16; 17]; [0; 3; 4; 5; 6; 7; 8]]%Z in
  map (run75q m75q c2) us = [true; true; true; false] /\
  map (run75q m75q (fun _ => c2 (fN 2))) us = [true; true; false; false] /\
  map (run75q [[[fN 2; fN 0]; [fN 0; fN 0]]] c2) us = [false; false; false; false].
Proof. vm_compute. auto. Qed.

(** the copy argument, n = 8, one message committed at generator 3: honest prover, and the
    same prover against a commitment to another message *)
Definition g75c : list (@Point FS) := map qN [2; 3; 5; 7; 11; 13; 17; 19]%Z.
Definition h75c : list (@Point FS) := map qN [23; 29; 31; 37; 41; 43; 47; 53]%Z.
Definition m75c : list (list (list (@Scalar FS))) := [[fN 2; fN (-1); fN 0; fN 0; fN 0; fN 0] :: repeat (repeat (fN 0) 6) 5].
Definition mp75 : Mapping := match compute_mapping 8 2 [[3%N]] with Ok mp => mp | _ => mkMapping 0 [] [] 0 end.
Definition c75 (m : Z) : list (@Point FS) := match commit g75c [3%N] [fN m] (fN 4) with Ok c => [c] | _ => [] end.
Definition hon75c (u : list (@Scalar FS)) : @Copy FS :=
  match copy_create (coins [] (u ++ v75 12)) (fun i => fN (Z.of_nat (i * i * i + 11))) 0 [] g75c h75c (qN 77) mp75 (mkBlockMatrix m75c)
          [fN 1; fN 2] [([fN 9], fN 4)] with
  | Ok (pf, _, _) => pf
  | _ => mkCopy (compress (qN 0)) (mkInner (mkAlmZK (compress (qN 0)) (mkNoZK [] [] (fN 0) (fN 0))) (compress (qN 0)) (compress (qN 0))) end.
Definition msg75c (u : list (@Scalar FS)) :=
  let pf := az_NoZK (alm_zk (cp_inner (hon75c u))) in let j := length u - 6 in
  (nth j (L_vec pf) (compress (qN 0)), nth j (R_vec pf) (compress (qN 0))).
Definition fin75c (u : list (@Scalar FS)) := let pf := az_NoZK (alm_zk (cp_inner (hon75c u))) in (nz_a pf, nz_b pf).
Definition run75c (m : Z) (u : list Z) : bool :=
  copy_yes [] g75c h75c (qN 77) m75c mp75 (c75 m) (cp_C_w (hon75c [])) (compress (qN 0))
    (fun a x => c_prime_prime_w (cp_inner (hon75c [a; x]))) (fun u => C_r (alm_zk (cp_inner (hon75c u)))) msg75c fin75c (map fN u).
Example C75_case_copy :
  let us := [[6; 2; 3; 4; 5; 6; 7; 8; 9]; [5; 12; 13; 14; 15; 16; 17; 18; 19]; [6; 0; 3; 4; 5; 6; 7; 8; 9]]%Z in
  map (run75c 9) us = [true; true; false] /\ map (run75c 10) us = [false; false; false].
Proof. vm_compute. auto. Qed.
