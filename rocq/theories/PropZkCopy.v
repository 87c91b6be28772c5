(** C78: honest-verifier zero-knowledge of the copy argument (src/copy/copy.rs), from size 8 on,
    as counts of challenges and random tapes. *)
From Coq Require Import String Permutation.
From Verif Require Export PropZkQesa.
From Verif Require Import PropQesa PropCopy Ex ExSmall.
Local Open Scope string_scope.
Local Open Scope nat_scope.
Local Open Scope list_scope.

(** ** specification: what the simulator of the copy argument outputs *)
Section Spec78.
Context {C : Crypto}.
(** cs = alpha', x, s, b, beta, alpha, x_1 ... x_(d+1); Cs are the public commitments, and the
    commitment to the witness is any multiple of B *)
Definition copy_sim (d : nat) (g h : list Scalar) (q : Scalar) (B : Point) mp Ms (Cs : list Point) (cs : list Scalar) (l1 l2 : Scalar)
    (v : list Scalar) : Copy :=
  let n := 2 ^ S d in let al := sc cs 0 in let x := sc cs 1 in let s := sc cs 2 in let b := sc cs 3 in
  let Ms' := cp_system n mp al Ms in
  let P1 := cp_agg al (l1 *: B)%P Cs in let P2 := (l2 *: B)%P in
  mkCopy (compress (l1 *: B)%P)
    (mkInner (sim_proof d (skipn 6 cs) (q_g x g) h q B (sc cs 4) (sc cs 5) (q_Cw n (mulB B g) (mulB B h) Ms' x s b P1 P2) (q_t n Ms' x s)
                (firstn 2 v) (skipn 2 v)) (compress P1) (compress P2)).
End Spec78.

Section C78.
Context {C : Crypto} {L : CryptoLaws C}.
Add Field SfC78 : (@S_field C L).

(** ** degrees *)
Section Poly78.
Context (T n e1 m : nat) (MSf : list Scalar -> list (list (list Scalar))) (Wf Rf : list Scalar -> list Scalar) (ix iS ib : nat).
Context (HM : forall p, length p = T -> length (MSf p) = m)
        (HE : forall t i j, i < n - 2 -> j < n - 2 -> wpoly T e1 (fun p => ent (nth t (MSf p) []) i j))
        (HW : forall p, length p = T -> length (Wf p) = n - 2) (HR : forall p, length (Rf p) = 2)
        (HP : forall i, i < n -> wpoly T e1 (fun p => sc (Wf p ++ Rf p) i)).
Lemma gamma_polyG i j : i < n - 2 -> j < n - 2 -> wpoly T (n + e1) (fun p => ent (q_gamma n (MSf p) (sc p ix)) i j).
Proof.
  intros Hi Hj. apply (wpoly_ext T (n + e1) (fun p => sum_S (min m n) (fun t => spow (sc p ix) (S t) * ent (nth t (MSf p) []) i j)%S)).
  - intros p Hp. unfold q_gamma. rewrite ent_mat by auto. now rewrite HM.
  - apply (wpoly_sum T (n + e1) (min m n) (fun t p => spow (sc p ix) (S t) * ent (nth t (MSf p) []) i j)%S). intros t Ht.
    apply wpoly_mul; [apply (wpoly_mono T (S t)); [lia|]; apply (wpoly_spow T ix (S t))|now apply HE].
Qed.
Lemma gamma'_polyG i j : i < n -> j < n -> wpoly T (n + e1) (fun p => ent (q_gamma' n (q_gamma n (MSf p) (sc p ix))) i j).
Proof.
  intros Hi Hj. apply (wpoly_ext T (n + e1) (fun p => if (i <? n - 2) && (j <? n - 2) then ent (q_gamma n (MSf p) (sc p ix)) i j
    else if (i =? n - 2) && (j =? n - 1) then (- s1)%S else if (i =? n - 1) && (j =? n - 2) then s1 else s0)).
  - intros p _. unfold q_gamma'. now rewrite ent_mat by auto.
  - destruct (Nat.ltb_spec i (n - 2)), (Nat.ltb_spec j (n - 2)); cbn [andb]; [now apply gamma_polyG|..];
      destruct ((i =? n - 2) && (j =? n - 1)); try apply wpoly_const; destruct ((i =? n - 1) && (j =? n - 2)); apply wpoly_const.
Qed.
Lemma s'_polyG i : i < n -> 2 <= n -> wpoly T n (fun p => sc (q_s' n (sc p iS) (sc p ib)) i).
Proof.
  intros Hi Hn. apply (wpoly_ext T n (fun p => if i <? n - 2 then spow (sc p iS) (S i) else if i =? n - 2 then sc p ib else sc p ib * sc p ib)%S).
  - intros p _. unfold q_s'. now rewrite sc_tab by auto.
  - destruct (Nat.ltb_spec i (n - 2)); [|destruct (i =? n - 2)].
    + apply (wpoly_mono T (S i)); [lia|]. apply (wpoly_spow T iS (S i)).
    + apply (wpoly_mono T 1); [lia|apply wpoly_letter].
    + apply (wpoly_mono T (1 + 1)); [lia|]. apply wpoly_mul; apply wpoly_letter.
Qed.
Lemma qa_polyG i : 2 <= n -> i < n -> wpoly T (2 * (n + e1)) (fun p => sc (q_a n (Wf p) (Rf p) (sc p iS) (sc p ib)) i).
Proof.
  intros Hn Hi. apply (wpoly_ext T (2 * (n + e1)) (fun p => sc (Wf p ++ Rf p) i + (- s1) * sc (q_s' n (sc p iS) (sc p ib)) i)%S).
  - intros p _. unfold q_a. rewrite sc_tab by auto. ring.
  - apply wpoly_add; [apply (wpoly_mono T e1); [lia|now apply HP]|]. apply wpoly_scale. apply (wpoly_mono T n); [lia|]. now apply s'_polyG.
Qed.
Lemma qbv_polyG i : 2 <= n -> i < n ->
  wpoly T (2 * (n + e1)) (fun p => sc (q_bv n (MSf p) (sc p ix) (Wf p) (Rf p) (sc p iS) (sc p ib)) i).
Proof.
  intros Hn Hi.
  apply (wpoly_ext T (2 * (n + e1)) (fun p => sum_S n (fun j => ent (q_gamma' n (q_gamma n (MSf p) (sc p ix))) i j * sc (Wf p ++ Rf p) j)
      + sum_S n (fun j => sc (q_s' n (sc p iS) (sc p ib)) j * ent (q_gamma' n (q_gamma n (MSf p) (sc p ix))) j i))%S).
  - intros p Hp. unfold q_bv, q_w'', mv, mtv. rewrite !sc_tab by auto. rewrite q_s'_length.
    replace (length (Wf p ++ Rf p)) with n by (rewrite app_length, HW, HR; lia). reflexivity.
  - apply wpoly_add; apply wpoly_sum; intros j Hj.
    + apply (wpoly_mono T (n + e1 + e1)); [lia|]. apply wpoly_mul; [now apply gamma'_polyG|now apply HP].
    + apply (wpoly_mono T (n + (n + e1))); [lia|]. apply wpoly_mul; [now apply s'_polyG|now apply gamma'_polyG].
Qed.
End Poly78.

Lemma wpoly_sum_over {X} T e (l : list X) (F : X -> list Scalar -> Scalar) :
  (forall a, In a l -> wpoly T e (F a)) -> wpoly T e (fun p => sum_over (fun a => F a p) l).
Proof.
  induction l as [|a l IH]; intros H; cbn [sum_over]; [apply wpoly_const|]. apply wpoly_add; [apply H; now left|].
  apply IH. intros b Hb. apply H. now right.
Qed.
Section CopyPoly.
Context (T n k : nat) (mp : Mapping) (HC : forall m, In m (msgs_map mp) -> mcrs m < k).
Lemma pow_poly ia c x : c < k -> wpoly T k (fun p => spow (sc p ia) (S c) * x)%S.
Proof.
  intros Hc. apply (wpoly_ext T k (fun p => x * spow (sc p ia) (S c))%S); [intros; ring|]. apply wpoly_scale.
  apply (wpoly_mono T (S c)); [lia|]. apply (wpoly_spow T ia (S c)).
Qed.
Lemma witness_poly ia w msgs i : i < n - 2 -> wpoly T k (fun p => sc (cp_witness n mp w msgs (sc p ia)) i).
Proof.
  intros Hi. apply (wpoly_ext T k (fun p => cp_placed mp w msgs i + cp_added mp msgs (sc p ia) i)%S).
  - intros p _. unfold cp_witness. now rewrite sc_tab.
  - apply wpoly_add; [apply wpoly_const|]. unfold cp_added.
    apply (wpoly_ext T k (fun p => sum_over (fun a => if midx (snd a) =? i then (spow (sc p ia) (S (mcrs (snd a))) * fst a)%S else s0) (combine msgs (msgs_map mp)))).
    + intros p _. apply sum_over_ext. intros [x m] _. reflexivity.
    + apply (wpoly_sum_over T k (combine msgs (msgs_map mp)) (fun a p => if midx (snd a) =? i then (spow (sc p ia) (S (mcrs (snd a))) * fst a)%S else s0)).
      intros [x m] Hin. apply combine_In_r in Hin. cbn [fst snd] in *. destruct (midx m =? i); [|apply wpoly_const]. apply pow_poly. now apply HC.
Qed.
Lemma rand_poly ia (openings : list (list Scalar * Scalar)) : length openings <= k -> wpoly T k (fun p => cp_rand openings (sc p ia)).
Proof.
  intros Ho. unfold cp_rand. apply wpoly_sum. intros i Hi. apply wpoly_scale. apply (wpoly_mono T (S i)); [lia|]. apply (wpoly_spow T ia (S i)).
Qed.
Lemma row_poly ia c j : j < n - 2 -> wpoly T k (fun p => sc (cp_row n mp (sc p ia) c) j).
Proof.
  intros Hj. apply (wpoly_ext T k (fun p => if j =? c then (- s1)%S else
    sum_over (fun m => if (midx m =? c) && (mpos m =? j) then (spow (sc p ia) (S (mcrs m)) * s1)%S else s0) (msgs_map mp))).
  - intros p _. unfold cp_row. rewrite sc_tab by auto. destruct (j =? c); auto. apply sum_over_ext. intros m _. destruct (_ && _); auto. ring.
  - destruct (j =? c); [apply wpoly_const|].
    apply (wpoly_sum_over T k (msgs_map mp) (fun m p => if (midx m =? c) && (mpos m =? j) then (spow (sc p ia) (S (mcrs m)) * s1)%S else s0)).
    intros m Hm. destruct (_ && _); [|apply wpoly_const]. apply pow_poly. now apply HC.
Qed.
Lemma system_poly ia Ms t i j : i < n - 2 -> j < n - 2 -> wpoly T k (fun p => ent (nth t (cp_system n mp (sc p ia) Ms) []) i j).
Proof.
  intros Hi Hj. unfold cp_system. destruct (Nat.lt_ge_cases t (length Ms)) as [Ht|Ht].
  - apply (wpoly_ext T k (fun _ => ent (nth t Ms []) i j)); [|apply wpoly_const]. intros p _. now rewrite app_nth1.
  - destruct (Nat.lt_ge_cases (t - length Ms) (length (unique_commitment_indices mp))) as [Hu|Hu].
    + set (c := nth (t - length Ms) (unique_commitment_indices mp) 0%N).
      apply (wpoly_ext T k (fun p => ent (cp_matrix n mp (sc p ia) c) i j)).
      { intros p _. rewrite app_nth2 by auto. rewrite (nth_indep _ [] (cp_matrix n mp (sc p ia) 0%N)) by now rewrite map_length. now rewrite map_nth. }
      destruct i as [|i]; [exact (row_poly ia (N.to_nat c) j Hj)|].
      apply (wpoly_ext T k (fun _ => s0)); [|apply wpoly_const]. intros p _. unfold cp_matrix, ent. cbn [nth].
      destruct (Nat.lt_ge_cases i (n - 3)) as [H3|H3]; [|rewrite (nth_overflow (repeat _ _)) by (rewrite repeat_length; lia); now destruct j].
      rewrite (nth_indep _ _ (repeat s0 (n - 2))) by (rewrite repeat_length; lia). rewrite nth_repeat. symmetry. apply sc_repeat0.
    + apply (wpoly_ext T k (fun _ => s0)); [|apply wpoly_const]. intros p _. rewrite app_nth2 by auto. rewrite nth_overflow by (rewrite map_length; lia).
      unfold ent. destruct i, j; reflexivity.
Qed.
End CopyPoly.

(** ** a run of the inner prover under any oracle that answers with the given letters *)
Lemma inner_create_run ro rng pos tr (g h : list Scalar) (q : Scalar) (B : Point) Ms w n x s b y0 y1 cs (f : Inner -> bool) :
  3 <= n -> length g = n -> length h = n -> length w = n - 2 -> 1 <= length Ms -> Forall (rect (n - 2) (n - 2)) Ms ->
  (forall hh, nchal tr < nchal hh -> ro hh = coins tr (x :: s :: b :: cs) hh) ->
  let c1 := compress (dotp (w ++ [y0; y1]) g *: B)%P in
  let c2 := compress (dotp (q_w'' n Ms x w [y0; y1]) h *: B)%P in
  let a := q_a n w [y0; y1] s b in let bv := q_bv n Ms x w [y0; y1] s b in
  let G' := mulB B (q_g x g) in let H := mulB B h in
  let Cw := (comb a G' + comb bv H)%P in
  let tr' := q_hist_w tr c1 c2 (compress Cw) in
  on_proof f (inner_create ro rng pos tr (mulB B g) H (q *: B)%P (mkBlockMatrix Ms) w [y0; y1]) =
  on_proof (fun pf => f (mkInner pf c1 c2))
    (alm_zk_create (coins tr' cs) (fun j => rng (pos + j)) 0 tr' G' H (q *: B)%P Cw a bv (dotp a bv)).
Proof.
  intros Hn Hg Hh Hw HM HF Hro c1 c2 a bv G' H Cw tr'.
  assert (Lw' : length (w ++ [y0; y1]) = n) by (rewrite app_length; cbn; lia).
  assert (Lw'' : forall x, length (q_w'' n Ms x w [y0; y1]) = n) by (intros; unfold q_w''; apply mv_length).
  assert (X := inner_create_eq ro rng pos tr (mulB B g) (mulB B h) (q *: B)%P Ms w [y0; y1] n
     Hn (eq_trans (mulB_length B g) Hg) (eq_trans (mulB_length B h) Hh) Hw eq_refl HM HF).
  cbv zeta in X. rewrite (lin_mulB B (w ++ [y0; y1]) g) in X by lia.
  assert (E1 : (sum_S (length g) (fun i => sc (w ++ [y0; y1]) i * sc g i)%S = dotp (w ++ [y0; y1]) g)) by (unfold dotp; now rewrite Lw', Hg).
  rewrite E1 in X. fold c1 in X.
  assert (Q1 : ro (q_hist_x tr c1) = x).
  { rewrite Hro by (unfold q_hist_x; rewrite nchal_app; cbn; lia).
    now rewrite (coins_at tr (x :: s :: b :: cs) (q_hist_x tr c1) 0) by (unfold q_hist_x; rewrite nchal_app; cbn; lia). }
  rewrite Q1 in X. rewrite (lin_mulB B (q_w'' n Ms x w [y0; y1]) h) in X by (rewrite Lw''; lia).
  assert (E2 : (sum_S (length h) (fun i => sc (q_w'' n Ms x w [y0; y1]) i * sc h i)%S = dotp (q_w'' n Ms x w [y0; y1]) h)) by (unfold dotp; now rewrite Lw'', Hh).
  rewrite E2 in X. fold c2 in X. fold H in X.
  assert (Q2 : ro (q_hist_s tr c1 c2) = s).
  { rewrite Hro by (unfold q_hist_s, q_hist_x; rewrite !nchal_app; cbn; lia).
    now rewrite (coins_at tr (x :: s :: b :: cs) (q_hist_s tr c1 c2) 1) by (unfold q_hist_s, q_hist_x; rewrite !nchal_app; cbn; lia). }
  assert (Q3 : ro (q_hist_b tr c1 c2) = b).
  { rewrite Hro by (unfold q_hist_b, q_hist_s, q_hist_x; rewrite !nchal_app; cbn; lia).
    now rewrite (coins_at tr (x :: s :: b :: cs) (q_hist_b tr c1 c2) 2) by (unfold q_hist_b, q_hist_s, q_hist_x; rewrite !nchal_app; cbn; lia). }
  rewrite Q2, Q3 in X.
  rewrite <- q_a_eq, <- q_bv_eq in X by (cbn; lia). fold a bv in X. rewrite q_G_mulB in X. fold G' in X.
  assert (La : length a = n) by apply tab_length. assert (Lb : length bv = n) by apply tab_length.
  assert (LG : length G' = n) by (unfold G'; rewrite mulB_length; unfold q_g; now rewrite tab_length).
  assert (LH : length H = n) by (unfold H; now rewrite mulB_length).
  rewrite (lin_comb a G'), (lin_comb bv H) in X by lia. fold Cw in X. fold tr' in X. rewrite dot_dotp in X by lia.
  rewrite X. clear X.
  replace pos with (pos + 0) at 1 by lia. rewrite (alm_create_later _ pos rng 0).
  assert (Nt : nchal tr' = nchal tr + 3) by (unfold tr', q_hist_w, q_hist_b, q_hist_s, q_hist_x; rewrite !nchal_app; cbn; lia).
  rewrite (alm_create_oracle ro (coins tr' cs)).
  - destruct (alm_zk_create _ _ _ _ _ _ _ _ _ _ _) as [[[pf t1] p1]| |]; reflexivity.
  - intros hh Hhh. rewrite Hro by lia. unfold coins. replace (nchal hh - nchal tr - 1) with (3 + (nchal hh - nchal tr' - 1)) by lia. reflexivity.
Qed.

(** ** what the openings give for each challenge alpha' *)
Section Setting.
Context (G : list Point) (n : nat) (mp : Mapping) (Ms : list (list (list Scalar))) (w : list Scalar) (sets : list (list N))
        (openings : list (list Scalar * Scalar)) (Cs : list Point).
Lemma copy_setting :
  3 <= n -> (N.of_nat n < 65536)%N -> length G = n -> (N.of_nat (length sets) <= 65536)%N ->
  compute_mapping (N.of_nat n) (N.of_nat (length w)) sets = Ok mp ->
  (forall s i, In s sets -> In i s -> length w <= N.to_nat i < n - 2) ->
  length openings = length sets -> length Cs = length sets ->
  (forall k, k < length sets ->
     commit G (nth k sets []) (fst (nth k openings ([], s0))) (snd (nth k openings ([], s0))) = Ok (pt Cs k)) ->
  1 <= length w -> length w <= n - 2 -> sc w 0 = s1 -> Forall (rect (n - 2) (n - 2)) Ms ->
  let msgs := concat (map fst openings) in
  let wp := tab (n - 2) (cp_placed mp w msgs) in
  (forall al i, i < length Ms -> quad (nth i Ms []) (cp_witness n mp w msgs al) = s0) ->
  good_map n (length sets) mp /\ 1 <= length sets /\ (forall m, In m (msgs_map mp) -> length w <= mpos m) /\
  num_commitments mp = length openings /\ length msgs = length (msgs_map mp) /\
  forall al, let w' := cp_witness n mp w msgs al in let Ms' := cp_system n mp al Ms in
    1 <= length Ms' /\ Forall (rect (n - 2) (n - 2)) Ms' /\ sc w' 0 = s1 /\ (forall i, i < length Ms' -> quad (nth i Ms' []) w' = s0) /\
    forall r0 r1, lin (w' ++ [r0; (r1 + cp_rand openings al)%S]) G = cp_agg al (lin (wp ++ [r0; r1]) G) Cs.
Proof.
  intros Hn Hn16 HG HK Emp Hidx HO HCs Hcom Hw1 Hw H0 HF msgs wp Hsat.
  destruct (compute_mapping_good n (N.of_nat (length w)) sets mp Hn16 ltac:(lia) Emp HK) as (HM & Hpw & HI).
  { intros s i Hs Hi. apply (Hidx s i Hs Hi). }
  assert (Hpw' : forall m, In m (msgs_map mp) -> length w <= mpos m) by (intros m Hm; specialize (Hpw m Hm); lia).
  assert (Emp' := Emp). apply compute_mapping_inv in Emp' as (_ & HT & Hav & Emp').
  assert (Hms : length msgs = length (msgs_map mp)).
  { rewrite Emp'. cbn [msgs_map]. unfold cm_msgs. rewrite tab_length. apply concat_openings_length; auto.
    intros j Hj. assert (Hj' := Hcom j Hj). apply commit_inv in Hj' as (Hj' & _). auto. }
  assert (HS1 : 1 <= length sets). { destruct sets; [cbn in HT; lia|cbn; lia]. }
  split; [exact HM|]. split; [exact HS1|]. split; [exact Hpw'|]. split; [rewrite Emp', HO; reflexivity|]. split; [exact Hms|].
  intros al w' Ms'.
  assert (Lw' : length w' = n - 2) by apply tab_length.
  split; [|split; [|split; [|split]]].
  - unfold Ms', cp_system. rewrite app_length, map_length.
    destruct (unique_commitment_indices mp) as [|c l] eqn:EU; [|cbn; lia].
    exfalso. destruct (msgs_map mp) as [|m ms] eqn:Em.
    { assert (Hl : length (msgs_map mp) = cm_total sets) by (rewrite Emp'; apply tab_length). rewrite Em in Hl. cbn in Hl. lia. }
    assert (Hc : In (commitment_index m) (unique_commitment_indices mp)).
    { apply HM. exists m. split; auto. rewrite Em. now left. }
    rewrite EU in Hc. exact Hc.
  - now apply cp_system_rect.
  - unfold w', sc, cp_witness. rewrite tab_nth by lia. unfold cp_placed, cp_added. fold (sc w 0). rewrite H0.
    rewrite !sum_over_0; [ring| |].
    + intros [y m] Hin. apply combine_In_r in Hin. cbn [snd] in Hin. destruct (HI m Hin) as (s & Hs & Hi).
      destruct (Hidx s _ Hs Hi) as [Hi1 _]. unfold midx. destruct (Nat.eqb_spec (N.to_nat (commitment_index m)) 0); [lia|auto].
    + intros [y m] Hin. apply combine_In_r in Hin. cbn [snd] in Hin. specialize (Hpw' m Hin).
      destruct (Nat.eqb_spec (mpos m) 0); [lia|auto].
  - intros i Hi. unfold Ms', cp_system in Hi |- *. rewrite app_length, map_length in Hi.
    destruct (Nat.lt_ge_cases i (length Ms)) as [Hi'|Hi'].
    + rewrite app_nth1 by auto. now apply Hsat.
    + rewrite app_nth2 by auto.
      rewrite (nth_indep _ _ (cp_matrix n mp al 0%N)) by (rewrite map_length; lia). rewrite map_nth.
      set (c := nth (i - length Ms) (unique_commitment_indices mp) 0%N).
      assert (Hc : In c (unique_commitment_indices mp)) by (apply nth_In; lia).
      apply HM in Hc as (m & Hm & Em). destruct (HI m Hm) as (s & Hs & Hi2).
      destruct (Hidx s _ Hs Hi2) as [Hi3 Hi4]. rewrite Em in Hi3, Hi4.
      rewrite (quad_cp_matrix n (length sets)) by auto.
      assert (WI := witness_idx n (length sets) mp w msgs al (N.to_nat c) HM Hms Hpw' Hi3 Hi4
        (ex_intro _ m (conj Hm (f_equal N.to_nat Em)))). fold w' in WI. rewrite WI. ring.
  - intros r0 r1. unfold w'. rewrite (final_opening n (length sets)) by auto. fold wp. unfold cp_agg. f_equal.
    rewrite HCs, <- (agg_commit G al sets openings (pt Cs) (firstn (cm_total sets) (cm_avail (N.of_nat n) (N.of_nat (length w)) sets))) by auto.
    f_equal; [|now rewrite HG]. rewrite Emp'. reflexivity.
Qed.
End Setting.

(** ** re-ordering the letters: alpha', x, s, b and the two blinding scalars first *)
Lemma resumG {A} (vals : list A) c0 d Z (f : list A -> list A -> bool) :
  count (fun z => f (firstn (d + (c0 + 3)) z) (skipn (d + (c0 + 3)) z)) (words vals (d + (c0 + 3) + (2 + Z))) =
  list_sum (map (fun p => list_sum (map (fun cs => count (fun u => f (firstn c0 p ++ cs) (skipn c0 p ++ u)) (words vals Z)) (words vals (d + 3)))) (words vals (c0 + 2))).
Proof.
  assert (Fa : forall k (c u : list A), length c = k -> firstn k (c ++ u) = c).
  { intros k c u Hc. rewrite firstn_app, Hc, Nat.sub_diag, firstn_O, app_nil_r, <- Hc. apply firstn_all. }
  assert (Sa : forall k (c u : list A), length c = k -> skipn k (c ++ u) = u).
  { intros k c u Hc. rewrite skipn_app, Hc, Nat.sub_diag, skipn_O, <- Hc, skipn_all. reflexivity. }
  rewrite count_words_app.
  rewrite (sum_ext _ (fun c => list_sum (map (fun r => count (fun u => f c (r ++ u)) (words vals Z)) (words vals 2)))).
  2:{ intros c Hc. apply words_In in Hc as [Hc _].
      rewrite (count_ext _ (fun u => f c u)) by (intros u _; rewrite Fa, Sa by auto; reflexivity). apply count_words_app. }
  replace (d + (c0 + 3)) with (c0 + (d + 3)) by lia. rewrite !sum_words_app.
  apply sum_ext. intros x Hx. apply words_In in Hx as [Hx _].
  rewrite (sum_swap (fun cs r => count (fun u => f (x ++ cs) (r ++ u)) (words vals Z))). apply sum_ext. intros r Hr.
  apply sum_ext. intros cs _. apply count_ext. intros u _. now rewrite Fa, Sa by auto.
Qed.

Theorem C78_copy_statistical_zk (vals : list Scalar) tr d (g h : list Scalar) (q : Scalar) (B : Point) mp Ms (w : list Scalar) (sets : list (list N))
    (openings : list (list Scalar * Scalar)) (Cs : list Point) (test : list Scalar -> Copy -> bool) :
  let n := 2 ^ S d in let K := 2 * d + 4 in let k := length sets in
  let msgs := concat (map fst openings) in
  2 <= d -> (N.of_nat n < 65536)%N -> length g = n -> length h = n -> (N.of_nat k <= 65536)%N ->
  compute_mapping (N.of_nat n) (N.of_nat (length w)) sets = Ok mp ->
  (forall s i, In s sets -> In i s -> length w <= N.to_nat i < n - 2) ->
  length openings = k -> length Cs = k ->
  (forall j, j < k ->
     commit (mulB B g) (nth j sets []) (fst (nth j openings ([], s0))) (snd (nth j openings ([], s0))) = Ok (pt Cs j)) ->
  1 <= length w -> length w <= n - 2 -> sc w 0 = s1 -> Forall (rect (n - 2) (n - 2)) Ms ->
  (forall al i, i < length Ms -> quad (nth i Ms []) (cp_witness n mp w msgs al) = s0) ->
  NoDup vals -> (forall x, In x vals) ->
  (sc g (n - 2)%nat * sc h (n - 2)%nat + sc g (n - 1)%nat * sc h (n - 1)%nat <> s0)%S ->
  zk_generators d h ->
  let real := count (fun z => let cs := firstn (d + 7) z in let u := skipn (d + 7) z in
      on_proof (test cs) (copy_create (coins tr cs) (tape u) 0 tr (mulB B g) (mulB B h) (q *: B)%P mp (mkBlockMatrix Ms) w openings))
      (words vals (d + 7 + (2 + (K + K)))) in
  let sim := count (fun z => let cs := firstn (d + 7) z in let v := skipn (d + 7) z in
      test cs (copy_sim d g h q B mp Ms Cs cs (sc v 0) (sc v 1) (skipn 2 v))) (words vals (d + 7 + (2 + (2 + (2 * d + 2))))) in
  let N := (length vals - 1) ^ 2 * length vals ^ (2 * d + 2) in
  let slack := ((3 * d + 13) * ((8 * (n + k) + 2 * d + 1) * (4 * n * n) + 32 * (n + k) + d + 5) + 6) * length vals ^ (d + 7 + (2 + (K + K)) - 1) in
  real <= N * sim + slack /\ N * sim <= real + slack.
Proof.
  intros n K k msgs Hd Hn16 Hg Hh HK Emp Hidx HO HCs Hcom Hw1 Hw H0 HF Hsat HN HA Ndet Zp real sim N slack.
  assert (Hn : 5 <= n) by (unfold n; assert (Y := size8 d Hd); assert (1 <= 2 ^ d) by apply pow2_pos; lia).
  destruct (copy_setting (mulB B g) n mp Ms w sets openings Cs ltac:(lia) Hn16 (eq_trans (mulB_length B g) Hg) HK Emp Hidx HO HCs Hcom Hw1 Hw H0 HF Hsat)
    as (HM & Hk & Hpw & Hnc & Hms & HS). fold k in HM, Hk. fold msgs in Hms, HS.
  set (wp := tab (n - 2) (cp_placed mp w msgs)) in *.
  set (Wf := fun p : list Scalar => cp_witness n mp w msgs (sc p 0)).
  set (MSf := fun p : list Scalar => cp_system n mp (sc p 0) Ms).
  set (Rf := fun p : list Scalar => [sc p 4; (sc p 5 + cp_rand openings (sc p 0))%S]).
  assert (LW : forall p, length (Wf p) = n - 2) by (intros; apply tab_length).
  set (A := fun p => q_a n (Wf p) (Rf p) (sc p 2) (sc p 3)).
  set (Bv := fun p => q_bv n (MSf p) (sc p 1) (Wf p) (Rf p) (sc p 2) (sc p 3)).
  set (gP := fun p => q_g (sc p 1) g).
  set (l1 := fun p => dotp (wp ++ skipn 4 p) g). set (l1' := fun p => dotp (Wf p ++ Rf p) g).
  set (l2 := fun p => dotp (q_w'' n (MSf p) (sc p 1) (Wf p) (Rf p)) h).
  set (Cw := fun p => (comb (A p) (mulB B (gP p)) + comb (Bv p) (mulB B h))%P).
  set (trP := fun p => q_hist_w (cp_hist tr (compress (l1 p *: B)%P)) (compress (l1' p *: B)%P) (compress (l2 p *: B)%P) (compress (Cw p))).
  set (wrap := fun p pf => mkCopy (compress (l1 p *: B)%P) (mkInner pf (compress (l1' p *: B)%P) (compress (l2 p *: B)%P))).
  assert (Y := zk_family vals d 6 (2 * (n + k)) h q B A Bv gP trP (fun p cs pf => test (firstn 4 p ++ cs) (wrap p pf))).
  cbv zeta in Y. fold n K in Y. change (fun p => (comb (A p) (mulB B (gP p)) + comb (Bv p) (mulB B h))%P) with Cw in Y.
  assert (Y' := Y Hd Hh). clear Y.
  assert (PL : forall p, length p = 6 -> length (A p) = n /\ length (Bv p) = n /\ length (gP p) = n).
  { intros p _. split; [apply tab_length|]. split; [apply tab_length|]. unfold gP, q_g. now rewrite tab_length. }
  specialize (Y' PL).
  assert (HC : forall m, In m (msgs_map mp) -> mcrs m < k) by (intros m Hm; exact (gm_crs _ _ _ HM m Hm)).
  assert (HP : forall i, i < n -> wpoly 6 k (fun p => sc (Wf p ++ Rf p) i)).
  { intros i Hi. destruct (Nat.lt_ge_cases i (n - 2)) as [H2|H2].
    - apply (wpoly_ext 6 k (fun p => sc (Wf p) i)); [intros p _; now rewrite sc_app_l by (rewrite LW; lia)|]. now apply witness_poly.
    - apply (wpoly_ext 6 k (fun p => if i =? n - 2 then sc p 4 else sc p 5 + cp_rand openings (sc p 0)%nat)%S).
      + intros p _. rewrite sc_app_r by (rewrite LW; lia). rewrite LW. destruct (Nat.eqb_spec i (n - 2)) as [->|Hne]; [now rewrite Nat.sub_diag|].
        replace (i - (n - 2)) with 1 by lia. reflexivity.
      + destruct (i =? n - 2); [apply (wpoly_mono 6 1); [lia|apply wpoly_letter]|]. apply wpoly_add.
        * apply (wpoly_mono 6 1); [lia|apply wpoly_letter].
        * apply rand_poly. lia. }
  specialize (Y' (fun i Hi => qa_polyG 6 n k Wf Rf 2 3 HP i ltac:(lia) Hi)).
  assert (LM : forall p, length p = 6 -> length (MSf p) = length Ms + length (unique_commitment_indices mp)).
  { intros p _. unfold MSf, cp_system. now rewrite app_length, map_length. }
  specialize (Y' (fun i Hi => qbv_polyG 6 n k _ MSf Wf Rf 1 2 3 LM (fun t i j Hi Hj => system_poly 6 n k mp HC 0 Ms t i j Hi Hj) (fun p _ => LW p) (fun p => eq_refl) HP i ltac:(lia) Hi)
    HN HA).
  assert (FP : 7 <= length vals -> family_points d 6 h q A Bv).
  { intros H7. apply (family_from vals d 6 h q A Bv (sc (cp_witness n mp w msgs s0))); auto; fold n.
    - intros p Lp. destruct (PL p Lp) as (P1 & P2 & _). auto.
    - intros rho. set (p := [s0; s0; s0; s0; rho; (- cp_rand openings s0)%S]). exists p. split; [reflexivity|].
      assert (ER : Rf p = [rho; s0]).
      { change (Rf p) with [rho; (- cp_rand openings s0 + cp_rand openings s0)%S]. do 2 f_equal. ring. }
      unfold A, Bv. rewrite ER. exact (qesa_at_zero n (MSf p) (Wf p) rho ltac:(lia) (LW p)). }
  assert (Y := Y' FP). clear Y' FP.
  set (Rc := fun p cs => count (fun u => on_proof (fun pf => test (firstn 4 p ++ cs) (wrap p pf))
     (alm_zk_create (coins (trP p) cs) (tape u) 0 (trP p) (mulB B (gP p)) (mulB B h) (q *: B)%P (Cw p) (A p) (Bv p) (dotp (A p) (Bv p)))) (words vals (K + K))).
  set (Sc := fun p cs => count (fun v => test (firstn 4 p ++ cs) (wrap p (sim_proof d (skipn 2 cs) (gP p) h q B (sc cs 0) (sc cs 1) (Cw p)
     (dotp (A p) (Bv p)) (firstn 2 v) (skipn 2 v)))) (words vals (2 + (2 * d + 2)))).
  set (total := fun F : list Scalar -> list Scalar -> nat => list_sum (map (fun p => list_sum (map (F p) (words vals (d + 3)))) (words vals 6))).
  set (c := (3 * d + 13) * ((8 * (n + k) + 2 * d + 1) * (4 * n * n) + 32 * (n + k) + d + 5)).
  set (c' := (6 + (3 * d + 7)) * ((4 * (2 * (n + k)) + 2 * d + 1) * (4 * n * n) + 16 * (2 * (n + k)) + d + 5)) in Y.
  assert (Y0 : total Rc <= N * total Sc + c' * length vals ^ (6 + (d + 3 + (K + K)) - 1) /\
     N * total Sc <= total Rc + c' * length vals ^ (6 + (d + 3 + (K + K)) - 1)) by exact Y.
  clear Y.
  assert (LP1 : forall p, length p = 6 -> lin (wp ++ skipn 4 p) (mulB B g) = (l1 p *: B)%P).
  { intros p Hp. assert (Lw : length (wp ++ skipn 4 p) = n) by (rewrite app_length, skipn_length; unfold wp; rewrite tab_length; lia).
    rewrite lin_mulB by lia. unfold l1, dotp. now rewrite Lw, Hg. }
  assert (LP2 : forall p, length p = 6 -> lin (Wf p ++ Rf p) (mulB B g) = (l1' p *: B)%P).
  { intros p Hp. assert (Lw : length (Wf p ++ Rf p) = n) by (rewrite app_length, LW; change (length (Rf p)) with 2; lia).
    rewrite lin_mulB by lia. unfold l1', dotp. now rewrite Lw, Hg. }
  (* the runs *)
  assert (Er : real = total Rc).
  { unfold real, total. replace (d + 7) with (d + (4 + 3)) by lia.
    rewrite (resumG vals 4 d (K + K) (fun cs u => on_proof (test cs) (copy_create (coins tr cs) (tape u) 0 tr (mulB B g) (mulB B h) (q *: B)%P mp (mkBlockMatrix Ms) w openings))).
    apply sum_ext. intros p Hp. apply words_In in Hp as [Hp _]. apply sum_ext. intros cs _. apply count_ext. intros u _.
    destruct p as [|al [|x [|s [|b [|r1 [|r2 [|]]]]]]]; try discriminate. cbn [firstn skipn app].
    assert (Z := copy_create_eq (coins tr (al :: x :: s :: b :: cs)) (tape (r1 :: r2 :: u)) 0 tr (mulB B g) (mulB B h) (q *: B)%P mp Ms w openings n ltac:(lia)
      (eq_trans (mulB_length B g) Hg) ltac:(rewrite HO; exact HM) Hnc ltac:(lia) Hw1 Hw H0 Hpw Hms).
    cbv zeta in Z. change (tape (r1 :: r2 :: u) 0) with r1 in Z. change (tape (r1 :: r2 :: u) (0 + 1)) with r2 in Z. fold msgs wp in Z.
    assert (Z1 := LP1 [al; x; s; b; r1; r2] eq_refl). cbn [skipn] in Z1. rewrite Z1 in Z.
    set (tr1 := cp_hist tr (compress (l1 [al; x; s; b; r1; r2] *: B)%P)) in Z.
    assert (Q0 : coins tr (al :: x :: s :: b :: cs) tr1 = al).
    { apply (coins_is 0); [reflexivity|]. unfold tr1, cp_hist. rewrite nchal_app. cbn. lia. }
    rewrite Q0 in Z. rewrite Z. clear Z.
    destruct (HS al) as (S1 & S2 & S3 & S4 & _).
    assert (Z := inner_create_run (coins tr (al :: x :: s :: b :: cs)) (tape (r1 :: r2 :: u)) (0 + 2) tr1 g h q B (cp_system n mp al Ms) (cp_witness n mp w msgs al) n x s b
      r1 (r2 + cp_rand openings al)%S cs (fun pf => test (al :: x :: s :: b :: cs) (mkCopy (compress (l1 [al; x; s; b; r1; r2] *: B)%P) pf)) ltac:(lia) Hg Hh
      (tab_length _ _) S1 S2).
    cbv zeta in Z. transitivity (on_proof (fun pf => test (al :: x :: s :: b :: cs) (mkCopy (compress (l1 [al; x; s; b; r1; r2] *: B)%P) pf))
      (inner_create (coins tr (al :: x :: s :: b :: cs)) (tape (r1 :: r2 :: u)) (0 + 2) tr1 (mulB B g) (mulB B h) (q *: B)%P (mkBlockMatrix (cp_system n mp al Ms)) (cp_witness n mp w msgs al)
        [r1; (r2 + cp_rand openings al)%S])).
    { destruct (inner_create _ _ _ _ _ _ _ _ _ _) as [[[pf tr2] pos2]| |]; reflexivity. }
    rewrite Z; [reflexivity|].
    intros hh Hhh. unfold coins. assert (Nt : nchal tr1 = nchal tr + 1) by (unfold tr1, cp_hist; rewrite nchal_app; cbn; lia).
    replace (nchal hh - nchal tr - 1) with (S (nchal hh - nchal tr1 - 1)) by lia. reflexivity. }
  (* the simulated runs *)
  set (SU := fun p cs => count (fun v => test (firstn 4 p ++ cs) (copy_sim d g h q B mp Ms Cs (firstn 4 p ++ cs) (sc p 4) (sc p 5) v)) (words vals (2 + (2 * d + 2)))).
  assert (Es : sim = total SU).
  { unfold sim, total. replace (d + 7) with (d + (4 + 3)) by lia.
    rewrite (resumG vals 4 d (2 + (2 * d + 2)) (fun cs v => test cs (copy_sim d g h q B mp Ms Cs cs (sc v 0) (sc v 1) (skipn 2 v)))).
    apply sum_ext. intros p Hp. apply words_In in Hp as [Hp _]. apply sum_ext. intros cs _. apply count_ext. intros v _.
    destruct p as [|al [|x [|s [|b [|r1 [|r2 [|]]]]]]]; try discriminate. reflexivity. }
  set (f := fun p => firstn 4 p ++ [l1 p; l2 p]).
  assert (E1 : forall al x s b r1 r2, l1 [al; x; s; b; r1; r2] = (sum_S (n - 2) (fun i => sc wp i * sc g i) + r1 * sc g (n - 2)%nat + r2 * sc g (n - 1)%nat)%S).
  { intros al x s b r1 r2. unfold l1. cbn [skipn]. apply dotp_app2; auto; try lia. apply tab_length. }
  assert (E2 : forall al x s b r1 r2, l2 [al; x; s; b; r1; r2] =
     (sum_S (n - 2) (fun i => sc (matrix_vector_mul (q_gamma n (cp_system n mp al Ms) x) (cp_witness n mp w msgs al)) i * sc h i)
      + (- (r2 + cp_rand openings al)) * sc h (n - 2)%nat + r1 * sc h (n - 1)%nat)%S).
  { intros al x s b r1 r2. destruct (HS al) as (S1 & S2 & _). unfold l2, MSf, Wf, Rf. change (sc [al; x; s; b; r1; r2] 0) with al.
    change (sc [al; x; s; b; r1; r2] 1) with x. change (sc [al; x; s; b; r1; r2] 4) with r1. change (sc [al; x; s; b; r1; r2] 5) with r2.
    assert (Lc : length (cp_witness n mp w msgs al) = n - 2) by apply tab_length.
    rewrite <- q_w''_eq by (try exact Lc; lia). apply dotp_app2; [lia|].
    rewrite (mv_eq (n - 2)) by (try exact Lc; apply q_gamma_rect). apply mv_length. }
  assert (Ef : total SU = list_sum (map (fun p => list_sum (map (SU (f p)) (words vals (d + 3)))) (words vals 6))).
  { unfold total. symmetry. apply (sum_inj vals 6 f (fun p => list_sum (map (SU p) (words vals (d + 3))))); auto.
    - intros p Hp. unfold f. rewrite app_length, firstn_length, Hp. reflexivity.
    - intros p p' Hp Hp' E. destruct p as [|al [|x [|s [|b [|r1 [|r2 [|]]]]]]]; try discriminate.
      destruct p' as [|al' [|x' [|s' [|b' [|r1' [|r2' [|]]]]]]]; try discriminate. unfold f in E. cbn [firstn app] in E. injection E as <- <- <- <- E3 E4.
      rewrite !E1 in E3. rewrite !E2 in E4.
      set (D := (sc g (n - 2)%nat * sc h (n - 2)%nat + sc g (n - 1)%nat * sc h (n - 1)%nat)%S) in *. clearbody wp.
      set (sg := sum_S (n - 2) (fun i => sc wp i * sc g i)%S) in *. set (sh := sum_S (n - 2) (fun i => sc (matrix_vector_mul (q_gamma n (cp_system n mp al Ms) x) (cp_witness n mp w msgs al)) i * sc h i)%S) in *. set (ra := cp_rand openings al) in *.
      assert (D1 : (D * (r1 - r1') = s0)%S).
      { transitivity (sc h (n - 2)%nat * ((sg + r1 * sc g (n - 2)%nat + r2 * sc g (n - 1)%nat) - (sg + r1' * sc g (n - 2)%nat + r2' * sc g (n - 1)%nat))
          + sc g (n - 1)%nat * ((sh + (- (r2 + ra)) * sc h (n - 2)%nat + r1 * sc h (n - 1)%nat) - (sh + (- (r2' + ra)) * sc h (n - 2)%nat + r1' * sc h (n - 1)%nat)))%S.
        - unfold D. ring.
        - rewrite E3, E4. ring. }
      assert (D2 : (D * (r2 - r2') = s0)%S).
      { transitivity (sc h (n - 1)%nat * ((sg + r1 * sc g (n - 2)%nat + r2 * sc g (n - 1)%nat) - (sg + r1' * sc g (n - 2)%nat + r2' * sc g (n - 1)%nat))
          - sc g (n - 2)%nat * ((sh + (- (r2 + ra)) * sc h (n - 2)%nat + r1 * sc h (n - 1)%nat) - (sh + (- (r2' + ra)) * sc h (n - 2)%nat + r1' * sc h (n - 1)%nat)))%S.
        - unfold D. ring.
        - rewrite E3, E4. ring. }
      apply smul_eq_0 in D1 as [D1|D1]; [contradiction|]. apply smul_eq_0 in D2 as [D2|D2]; [contradiction|].
      assert (S1 : r1 = r1') by (transitivity (r1 - r1' + r1')%S; [ring|rewrite D1; ring]).
      assert (S2 : r2 = r2') by (transitivity (r2 - r2' + r2')%S; [ring|rewrite D2; ring]).
      now rewrite S1, S2. }
  set (M := length vals ^ (d + 3) * length vals ^ (2 + (2 * d + 2))).
  assert (Cl : total Sc <= total SU + count (fun p => seqb (sc p 1) s0) (words vals 6) * M /\ total SU <= total Sc + count (fun p => seqb (sc p 1) s0) (words vals 6) * M).
  { rewrite Ef. unfold total. apply (sums_close (fun p => seqb (sc p 1) s0) (fun p => list_sum (map (Sc p) (words vals (d + 3))))
      (fun p => list_sum (map (SU (f p)) (words vals (d + 3)))) M).
    - intros p Hp Nx. apply words_In in Hp as [Hp _]. apply sum_ext. intros cs _. apply count_ext. intros v _.
      assert (Nx' : sc p 1 <> s0) by (intros Z; apply seqb_eq in Z; congruence). clear Nx.
      destruct (HS (sc p 0)) as (S1 & S2 & S3 & S4 & S5).
      assert (EA : (l1' p *: B)%P = cp_agg (sc p 0) (l1 p *: B)%P Cs).
      { rewrite <- LP1, <- LP2 by auto. unfold Wf, Rf. rewrite S5. f_equal. f_equal. f_equal.
        destruct p as [|y0 [|y1 [|y2 [|y3 [|y4 [|y5 [|]]]]]]]; try discriminate. reflexivity. }
      assert (EC : Cw p = q_Cw n (mulB B g) (mulB B h) (MSf p) (sc p 1) (sc p 2) (sc p 3) (l1' p *: B)%P (l2 p *: B)%P).
      { assert (Lr : length (Rf p) = 2) by reflexivity.
        assert (Z := q_commit n (mulB B g) (mulB B h) (MSf p) (sc p 1) (sc p 2) (sc p 3) (Wf p) (Rf p) ltac:(lia) (eq_trans (mulB_length B g) Hg)
            (eq_trans (mulB_length B h) Hh) (LW p) Lr Nx' S3).
        assert (Lw'' : length (q_w'' n (MSf p) (sc p 1) (Wf p) (Rf p)) = n) by (unfold q_w''; apply mv_length).
        rewrite (LP2 p Hp), (lin_mulB B (q_w'' n (MSf p) (sc p 1) (Wf p) (Rf p)) h) in Z by lia.
        unfold l2, dotp. rewrite Lw''. rewrite Hh in Z. rewrite Z.
        rewrite <- q_a_eq, <- q_bv_eq by (rewrite ?LW; auto; lia). rewrite q_G_mulB. destruct (PL p Hp) as (LA & LB & LG).
        fold (A p). fold (Bv p). fold (gP p). rewrite !lin_comb by (rewrite mulB_length, ?LA, ?LB, ?LG, ?Hh; reflexivity). reflexivity. }
      assert (Et : dotp (A p) (Bv p) = q_t n (MSf p) (sc p 1) (sc p 2)).
      { assert (Lr : length (Rf p) = 2) by reflexivity.
        assert (Z := q_dot n (MSf p) (sc p 1) (Wf p) (Rf p) (sc p 2) (sc p 3) ltac:(lia) (LW p) Lr).
        rewrite <- q_a_eq, <- q_bv_eq in Z by (rewrite ?LW; auto; lia). rewrite dot_dotp in Z by (unfold q_a, q_bv; now rewrite !tab_length).
        unfold A, Bv. rewrite Z, quad_q_gamma by auto. rewrite sum_S_0; [ring|]. intros t Ht. unfold MSf, Wf. rewrite S4 by (fold (MSf p); lia). ring. }
      rewrite EC, Et. unfold wrap. rewrite EA. destruct p as [|al [|x [|s [|b [|r1 [|r2 [|]]]]]]]; try discriminate. reflexivity.
    - intros p. unfold M. rewrite <- (words_count vals (d + 3)). apply sum_le_const. intros cs. unfold Sc.
      rewrite <- (words_count vals (2 + (2 * d + 2))). apply count_all.
    - intros p. unfold M. rewrite <- (words_count vals (d + 3)). apply sum_le_const. intros cs. unfold SU.
      rewrite <- (words_count vals (2 + (2 * d + 2))). apply count_all. }
  assert (Cx : count (fun p => seqb (sc p 1) s0) (words vals 6) <= 6 * 1 * length vals ^ (6 - 1)).
  { apply (few_roots vals 6 1 (fun p => sc p 1) [s1; s1; s0; s0; s0; s0]); auto; [apply wpoly_letter|]. apply s1_neq_s0. }
  rewrite <- Er, <- Es in *.
  assert (Ec : c' = c).
  { unfold c', c. f_equal; [lia|]. f_equal. f_equal. f_equal; [|lia]. f_equal. lia. }
  assert (Ex : 6 + (d + 3 + (K + K)) - 1 = d + 7 + (2 + (K + K)) - 1) by lia.
  rewrite Ec, Ex in Y0. fold c in slack.
  assert (NM : N * (count (fun p => seqb (sc p 1) s0) (words vals 6) * M) <= 6 * length vals ^ (d + 7 + (2 + (K + K)) - 1)).
  { transitivity (length vals ^ (2 + (2 * d + 2)) * (6 * length vals ^ 5 * M)).
    - apply Nat.mul_le_mono; [unfold N; rewrite (Nat.pow_add_r _ 2 (2 * d + 2)); apply Nat.mul_le_mono_r, Nat.pow_le_mono_l; lia|]. apply Nat.mul_le_mono_r. exact Cx.
    - unfold M. replace (d + 7 + (2 + (K + K)) - 1) with ((2 + (2 * d + 2)) + (5 + ((d + 3) + (2 + (2 * d + 2))))) by (unfold K; lia).
      rewrite (Nat.pow_add_r _ (2 + (2 * d + 2))), (Nat.pow_add_r _ 5), (Nat.pow_add_r _ (d + 3)).
      generalize (length vals ^ (2 + (2 * d + 2))), (length vals ^ 5), (length vals ^ (d + 3)). clear. intros. nia. }
  destruct Y0 as [Y1 Y2], Cl as [C1 C2].
  assert (N1 : N * total Sc <= N * sim + 6 * length vals ^ (d + 7 + (2 + (K + K)) - 1)).
  { eapply Nat.le_trans; [apply Nat.mul_le_mono_l, C1|]. rewrite Nat.mul_add_distr_l. lia. }
  assert (N2 : N * sim <= N * total Sc + 6 * length vals ^ (d + 7 + (2 + (K + K)) - 1)).
  { eapply Nat.le_trans; [apply Nat.mul_le_mono_l, C2|]. rewrite Nat.mul_add_distr_l. lia. }
  unfold slack. rewrite Nat.mul_add_distr_r. lia.
Qed.

(** the verifier of the copy argument accepts every simulated proof whose alpha and x_j are not zero *)
Theorem C78_copy_simulated_accepted tr d (g h : list Scalar) (q : Scalar) (B : Point) mp Ms (Cs : list Point) (cs v : list Scalar) (l1 l2 : Scalar) :
  let n := 2 ^ S d in
  1 <= d -> length g = n -> length h = n -> good_map n (length Cs) mp -> 1 <= length Cs -> 1 <= length (unique_commitment_indices mp) ->
  Forall (rect (n - 2) (n - 2)) Ms ->
  length cs = d + 7 -> sc cs 5 <> s0 -> (forall x, In x (skipn 6 cs) -> x <> s0) ->
  exists tr', copy_verify (coins tr cs) tr (copy_sim d g h q B mp Ms Cs cs l1 l2 v) (mulB B g) (mulB B h) (q *: B)%P (mkBlockMatrix Ms) mp Cs = Ok (true, tr').
Proof.
  intros n Hd Hg Hh HM HC HU HF Lc Na Nx.
  assert (Hn : 4 <= n) by (unfold n; rewrite Nat.pow_succ_r'; assert (2 ^ 1 <= 2 ^ d) by (apply Nat.pow_le_mono_r; lia); change (2 ^ 1) with 2 in *; lia).
  destruct cs as [|al [|x [|s [|b [|be [|a xs]]]]]]; cbn [length] in Lc; try lia. cbn [skipn] in Nx.
  change (sc (al :: x :: s :: b :: be :: a :: xs) 5) with a in Na.
  set (cs := al :: x :: s :: b :: be :: a :: xs). set (pf := copy_sim d g h q B mp Ms Cs cs l1 l2 v).
  assert (VE := copy_verify_eq (coins tr cs) tr pf (mulB B g) (mulB B h) (q *: B)%P mp Ms Cs n (l1 *: B)%P ltac:(lia) (eq_trans (mulB_length B g) Hg) HM HC
     (decompress_compress _)).
  cbv zeta in VE. set (tr1 := cp_hist tr (cp_C_w pf)) in VE.
  assert (N1 : nchal tr1 = nchal tr + 1) by (unfold tr1, cp_hist; rewrite nchal_app; cbn; lia).
  assert (Q0 : coins tr cs tr1 = al) by (apply (coins_is 0); [reflexivity|lia]).
  rewrite Q0 in VE. rewrite VE. clear VE.
  set (pi := mkInner _ _ _).
  assert (Q1 : q_x (coins tr cs) tr1 pi = x).
  { unfold q_x, q_hist_x. apply (coins_is 1); [reflexivity|]. rewrite nchal_app, N1. cbn. lia. }
  assert (Q2 : q_s (coins tr cs) tr1 pi = s).
  { unfold q_s, q_hist_s, q_hist_x. apply (coins_is 2); [reflexivity|]. rewrite !nchal_app, N1. cbn. lia. }
  assert (Q3 : q_b (coins tr cs) tr1 pi = b).
  { unfold q_b, q_hist_b, q_hist_s, q_hist_x. apply (coins_is 3); [reflexivity|]. rewrite !nchal_app, N1. cbn. lia. }
  assert (HMl : 1 <= length (cp_system n mp al Ms)) by (unfold cp_system; rewrite app_length, map_length; lia).
  assert (HFl : Forall (rect (n - 2) (n - 2)) (cp_system n mp al Ms)) by (apply cp_system_rect; [lia|exact HF]).
  assert (VE := inner_verify_eq (coins tr cs) tr1 pi (mulB B g) (mulB B h) (q *: B)%P (cp_system n mp al Ms) n (cp_agg al (l1 *: B)%P Cs) (l2 *: B)%P ltac:(lia)
     (eq_trans (mulB_length B g) Hg) (eq_trans (mulB_length B h) Hh) HMl HFl (decompress_compress _) (decompress_compress _)).
  cbv zeta in VE. rewrite Q1, Q2, Q3 in VE. rewrite VE. clear VE.
  set (tr' := q_hist_w _ _ _ _).
  assert (Nt : nchal tr' = nchal tr + 4) by (unfold tr', q_hist_w, q_hist_b, q_hist_s, q_hist_x; rewrite !nchal_app, N1; cbn; lia).
  rewrite (alm_verify_oracle (coins tr cs) (coins tr' (be :: a :: xs))).
  - rewrite q_G_mulB.
    apply (C76_simulated_accepted tr' d (q_g x g) h q B (q_Cw n (mulB B g) (mulB B h) (cp_system n mp al Ms) x s b (cp_agg al (l1 *: B)%P Cs) (l2 *: B)%P)
       (q_t n (cp_system n mp al Ms) x s) be a xs (firstn 2 v) (skipn 2 v)); auto; [unfold q_g; now rewrite tab_length|lia].
  - intros hh Hhh. unfold coins, cs. replace (nchal hh - nchal tr - 1) with (4 + (nchal hh - nchal tr' - 1)) by lia. reflexivity.
Qed.

(** two witnesses, and two ways of opening the same commitments *)
Theorem C78_copy_witness_indistinguishable (vals : list Scalar) tr d (g h : list Scalar) (q : Scalar) (B : Point) mp Ms (w w' : list Scalar) (sets : list (list N))
    (openings openings' : list (list Scalar * Scalar)) (Cs : list Point) (test : list Scalar -> Copy -> bool) :
  let n := 2 ^ S d in let K := 2 * d + 4 in let k := length sets in
  2 <= d -> (N.of_nat n < 65536)%N -> length g = n -> length h = n -> (N.of_nat k <= 65536)%N ->
  compute_mapping (N.of_nat n) (N.of_nat (length w)) sets = Ok mp ->
  (forall s i, In s sets -> In i s -> length w <= N.to_nat i < n - 2) ->
  length Cs = k -> NoDup vals -> (forall x, In x vals) -> Forall (rect (n - 2) (n - 2)) Ms ->
  (sc g (n - 2)%nat * sc h (n - 2)%nat + sc g (n - 1)%nat * sc h (n - 1)%nat <> s0)%S -> zk_generators d h ->
  let honest := fun w openings =>
    length openings = k /\
    (forall j, j < k ->
       commit (mulB B g) (nth j sets []) (fst (nth j openings ([], s0))) (snd (nth j openings ([], s0))) = Ok (pt Cs j)) /\
    sc w 0 = s1 /\
    (forall al i, i < length Ms -> quad (nth i Ms []) (cp_witness n mp w (concat (map fst openings)) al) = s0) in
  1 <= length w -> length w <= n - 2 -> length w' = length w ->
  honest w openings -> honest w' openings' ->
  let runs := fun w openings => count (fun z => let cs := firstn (d + 7) z in let u := skipn (d + 7) z in
      on_proof (test cs) (copy_create (coins tr cs) (tape u) 0 tr (mulB B g) (mulB B h) (q *: B)%P mp (mkBlockMatrix Ms) w openings))
      (words vals (d + 7 + (2 + (K + K)))) in
  let slack := ((3 * d + 13) * ((8 * (n + k) + 2 * d + 1) * (4 * n * n) + 32 * (n + k) + d + 5) + 6) * length vals ^ (d + 7 + (2 + (K + K)) - 1) in
  runs w openings <= runs w' openings' + 2 * slack /\ runs w' openings' <= runs w openings + 2 * slack.
Proof.
  intros n K k Hd Hn16 Hg Hh HK Emp Hidx HCs HN HA HF Nd Zp honest Hw1 Hw Hww (O1 & O2 & O3 & O4) (P1 & P2 & P3 & P4) runs slack.
  destruct (C78_copy_statistical_zk vals tr d g h q B mp Ms w sets openings Cs test Hd Hn16 Hg Hh HK Emp Hidx O1 HCs O2 Hw1 Hw O3 HF O4 HN HA Nd Zp) as [X1 X2].
  rewrite <- Hww in Hw1, Hw, Emp, Hidx.
  destruct (C78_copy_statistical_zk vals tr d g h q B mp Ms w' sets openings' Cs test Hd Hn16 Hg Hh HK Emp Hidx P1 HCs P2 Hw1 Hw P3 HF P4 HN HA Nd Zp) as [Y1 Y2].
  fold n K k in X1, X2, Y1, Y2. fold slack in X1, X2, Y1, Y2. cbv zeta in X1, X2, Y1, Y2. split.
  - eapply Nat.le_trans; [exact X1|]. eapply Nat.le_trans; [apply Nat.add_le_mono_r, Y2|]. unfold runs. lia.
  - eapply Nat.le_trans; [exact Y1|]. eapply Nat.le_trans; [apply Nat.add_le_mono_r, X2|]. unfold runs. lia.
Qed.
Lemma commit_two (B : Point) (g : list Scalar) (i j : N) (m0 m1 r : Scalar) : N.to_nat i < length g -> N.to_nat j < length g ->
  commit (mulB B g) [i; j] [m0; m1] r =
  Ok ((m0 * sc g (N.to_nat i) + m1 * sc g (N.to_nat j) + r * sc g (length g - 1)%nat)%S *: B)%P.
Proof.
  intros Hi Hj. destruct (C33_commit_value (mulB B g) [i; j] [m0; m1] r) as [Y _]. rewrite Y; clear Y.
  - f_equal. unfold commit_value. rewrite mulB_length. cbn [length sum_P nth]. rewrite !pt_mulB.
    change (sc [m0; m1] 0) with m0. change (sc [m0; m1] 1) with m1. pring.
  - rewrite mulB_length. split; [reflexivity|]. split; [|lia]. intros k [<-|[<-|[]]]; auto.
Qed.
End C78.

(** ** size 8: the caller's equation is w_1^2 = w_0 w_2; one commitment to two messages at the
    generators 4 and 5, whose copies the mapping puts at 2 and 3. The commitment 118 B is opened by
    (4, 9) with randomness 5 and by (9, 5) with randomness 7; the witnesses are (1, 2) and (1, 3) *)
Section C78case.
Add Field SfC78c : (@S_field EX EX_laws).
Definition M78 : list (list (list (@Scalar EX))) :=
  [ map (map sN) [[0; 0; -1; 0; 0; 0]; [0; 1; 0; 0; 0; 0]; [0; 0; 0; 0; 0; 0]; [0; 0; 0; 0; 0; 0]; [0; 0; 0; 0; 0; 0]; [0; 0; 0; 0; 0; 0]]%Z ].
Definition sets78 : list (list N) := [[4; 5]]%N.
Definition mp78 : Mapping := match compute_mapping 8 2 sets78 with Ok mp => mp | _ => mkMapping 0 [] [] 0 end.
Definition g78 := map sN [3; 1; 4; 1; 4; 8; 2; 6]%Z.
Definition o78 (m0 m1 r : Z) : list (list (@Scalar EX) * @Scalar EX) := [([sN m0; sN m1], sN r)].
Lemma quad78 (w' : list (@Scalar EX)) : length w' = 6 -> quad (nth 0 M78 []) w' = (sc w' 1%nat * sc w' 1%nat - sc w' 0%nat * sc w' 2%nat)%S.
Proof.
  intros Hw. unfold quad. rewrite Hw. cbn [sum_S].
  repeat match goal with |- context [ent (nth 0 M78 []) ?i ?j] =>
    let e := eval cbn in (nth j (nth i (nth 0 M78 []) []) (@s0 EX)) in change (ent (nth 0 M78 []) i j) with e end.
  change (sN 0) with (@s0 EX). change (sN 1) with (@s1 EX).
  assert (E : sN (-1) = (- s1)%S) by (apply zs_inj; vm_compute; reflexivity). rewrite E. ring.
Qed.
Lemma sat78 w1 m0 m1 r : (forall al, let v := cp_witness 8 mp78 [sN 1; sN w1] (concat (map fst (o78 m0 m1 r))) al in
    sc v 0 = sN 1 /\ sc v 1 = sN w1 /\ sc v 2 = sN m0) -> (w1 * w1 = m0)%Z ->
  forall al i, i < length M78 -> quad (nth i M78 []) (cp_witness 8 mp78 [sN 1; sN w1] (concat (map fst (o78 m0 m1 r))) al) = s0.
Proof.
  intros Hv H al i Hi. destruct i as [|i]; [|cbn in Hi; lia]. destruct (Hv al) as (V0 & V1 & V2).
  rewrite quad78 by apply tab_length. rewrite V0, V1, V2, <- H.
  change (sN 1) with (@s1 EX). assert (E : sN (w1 * w1) = (sN w1 * sN w1)%S) by (apply sN_eq; apply Zmult_mod). rewrite E. ring.
Qed.
Lemma honest78 (B : @Point EX) w1 m0 m1 r :
  zs (sN m0 * sN 4 + sN m1 * sN 8 + sN r * sN 6)%S = 118%Z -> (w1 * w1 = m0)%Z ->
  (forall al, let v := cp_witness 8 mp78 [sN 1; sN w1] (concat (map fst (o78 m0 m1 r))) al in
     sc v 0 = sN 1 /\ sc v 1 = sN w1 /\ sc v 2 = sN m0) ->
  let w := [sN 1; sN w1] in let openings := o78 m0 m1 r in
  length openings = 1 /\
  (forall j, j < 1 -> commit (mulB B g78) (nth j sets78 []) (fst (nth j openings ([], s0))) (snd (nth j openings ([], s0))) = Ok (pt [(sN 118 *: B)%P] j)) /\
  sc w 0 = s1 /\
  (forall al i, i < length M78 -> quad (nth i M78 []) (cp_witness 8 mp78 w (concat (map fst openings)) al) = s0).
Proof.
  intros H1 H2 H3 w openings. split; [reflexivity|]. split; [|split; [reflexivity|]].
  - intros [|j] Hj; [|lia]. change (commit (mulB B g78) [4; 5]%N [sN m0; sN m1] (sN r) = Ok (sN 118 *: B)%P).
    rewrite (@commit_two EX EX_laws) by (cbn; lia). f_equal. f_equal. apply zs_inj. exact H1.
  - now apply sat78.
Qed.
(** whatever a test of challenges and proof looks at, it accepts about as many of the 27-letter runs
    on one witness and opening as on the other; the commitment is the same *)
Example C78_case (vals : list (@Scalar EX)) (HN : NoDup vals) (HA : forall x, In x vals) (B : Point) (test : list Scalar -> Copy -> bool) :
  let runs := fun w openings => count (fun z => let cs := firstn 9 z in let u := skipn 9 z in
      on_proof (test cs) (copy_create (coins [] cs) (tape u) 0 [] (mulB B g78) (mulB B sh76) (sN 77 *: B)%P mp78 (mkBlockMatrix M78) w openings)) (words vals 27) in
  let slack := (19 * (77 * 256 + 295) + 6) * length vals ^ 26 in
  runs [sN 1; sN 2] (o78 4 9 5) <= runs [sN 1; sN 3] (o78 9 5 7) + 2 * slack /\
  runs [sN 1; sN 3] (o78 9 5 7) <= runs [sN 1; sN 2] (o78 4 9 5) + 2 * slack.
Proof.
  intros runs slack.
  assert (X := @C78_copy_witness_indistinguishable EX EX_laws vals [] 2 g78 sh76 (sN 77) B mp78 M78 [sN 1; sN 2] [sN 1; sN 3] sets78 (o78 4 9 5) (o78 9 5 7)
     [(sN 118 *: B)%P] test).
  cbv zeta in X. apply X; clear X; try assumption; try reflexivity.
  - cbn. lia.
  - intros s i [<-|[]] [<-|[<-|[]]]; cbn; lia.
  - repeat constructor.
  - apply zs_neq. vm_compute. reflexivity.
  - exact C77_case_generators.
  - cbn. lia.
  - cbn. lia.
  - apply (honest78 B 2 4 9 5); [vm_compute; reflexivity|reflexivity|].
    intros al v. repeat split; apply zs_inj; vm_compute; reflexivity.
  - apply (honest78 B 3 9 5 7); [vm_compute; reflexivity|reflexivity|].
    intros al v. repeat split; apply zs_inj; vm_compute; reflexivity.
Qed.
End C78case.
(** a simulated proof for arbitrary commitments and an unsatisfiable system (w_0^2 = 0) is accepted
    under the challenges it was made for *)
Section C78sim.
Let Ms : list (list (list (@Scalar FS))) := [ map (map fN) [[1; 0]; [0; 0]]%Z ].
Let mp : Mapping := match compute_mapping 4 0 [[1%N]] with Ok mp => mp | _ => mkMapping 0 [] [] 0%N end.
Let cs := map fN [4; 3; 5; 2; 6; 7; 11; 13]%Z.
Let pf := copy_sim 1 (map fN [1; 6; 1; 8]%Z) (map fN [2; 7; 1; 8]%Z) (fN 77) (qN 1) mp Ms [qN 314] cs (fN 40) (fN 41) (map fN [1; 2; 3; 4]%Z).
Let verdict cs c := rmap fst (copy_verify (coins [] cs) [] pf (mulB (qN 1) (map fN [1; 6; 1; 8]%Z)) (mulB (qN 1) (map fN [2; 7; 1; 8]%Z)) (fN 77 *: qN 1)%P (mkBlockMatrix Ms) mp [qN c]).
Example C78_case_simulated : verdict cs 314%Z = Ok true /\ verdict cs 315%Z = Ok false /\ verdict (map fN [5; 3; 5; 2; 6; 7; 11; 13]%Z) 314%Z = Ok false.
Proof. repeat split; vm_compute; reflexivity. Qed.
End C78sim.
