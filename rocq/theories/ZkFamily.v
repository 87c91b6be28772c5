(** Zero-knowledge of the almost-zk argument for vectors that depend polynomially on further
    letters (the challenges and blinding scalars of the QESA arguments). *)
From Coq Require Import String Permutation.
From Verif Require Export PropZkHide.
Local Open Scope string_scope.
Local Open Scope nat_scope.
Local Open Scope list_scope.

Section Family.
Context {C : Crypto} {L : CryptoLaws C}.
Add Field SfZF : (@S_field C L).

Lemma firstn_set_at {A} (w : list A) j v P : length w >= P -> j < length w ->
  firstn P (set_at w j v) = if j <? P then set_at (firstn P w) j v else firstn P w.
Proof.
  revert w j. induction P as [|P IH]; intros w j Hw Hj; [now destruct (j <? 0)|].
  destruct w as [|x w]; cbn in Hw, Hj; [lia|]. destruct j as [|j]; [reflexivity|].
  change (set_at (x :: w) (S j) v) with (x :: set_at w j v). cbn [firstn]. rewrite IH by lia.
  destruct (Nat.ltb_spec j P), (Nat.ltb_spec (S j) (S P)); try lia; reflexivity.
Qed.
Lemma wpoly_firstn P T e F : P <= T -> wpoly P e F -> wpoly T e (fun w => F (firstn P w)).
Proof.
  intros HP HF w j Hw Hj.
  destruct (Nat.ltb_spec j P) as [H|H].
  - apply (deg_lt_ext _ (fun v => F (set_at (firstn P w) j v))).
    + intros v. rewrite firstn_set_at by lia. destruct (Nat.ltb_spec j P); [reflexivity|lia].
    + apply HF; [rewrite firstn_length; lia|lia].
  - apply (deg_lt_ext _ (fun _ => F (firstn P w))); [|apply deg_lt_const]. intros v. rewrite firstn_set_at by lia.
    destruct (Nat.ltb_spec j P); [lia|reflexivity].
Qed.
Lemma last_a_scale d xs c (v v' : list Scalar) : length v = 2 ^ S d -> length v' = 2 ^ S d ->
  (forall i, i < 2 ^ S d -> sc v' i = c * sc v i)%S -> forall i, i < 2 -> (sc (last_a d xs v') i = c * sc (last_a d xs v) i)%S.
Proof.
  intros Hv Hv' E i Hi.
  assert (Ev : v' = lc v v v (c - s1) s0).
  { apply (list_eq_nth s0); [rewrite lc_length; lia|]. intros k Hk. change (sc v' k = sc (lc v v v (c - s1) s0) k). unfold lc.
    rewrite sc_tab by lia. rewrite E by lia. ring. }
  rewrite Ev, last_a_lc by auto. unfold lc. rewrite sc_tab; [ring|]. rewrite last_a_length; auto.
Qed.

Context (vals : list Scalar) (d P e : nat) (h : list Scalar) (q : Scalar) (B : Point)
        (A Bv gP : list Scalar -> list Scalar) (trP : list Scalar -> transcript).
Let n := 2 ^ S d.
Let K := 2 * d + 4.

(** none of the conditions that make a word bad holds for all words *)
Definition on_mask (m : list Scalar) : Prop := length m = n /\ forall i, i < n -> ~ in_mn_plus n i -> sc m i = s0.
Definition family_points : Prop :=
  (exists p xs i j, length p = P /\ length xs = S d /\ dotp (Bv p) (Bv p) <> s0 /\ i < n /\ j < n /\ in_mn_plus n i /\ in_mn_plus n j /\
     let l k := last_a d xs (away (Bv p) (unit_vec n k)) in (sc (l i) 0 * sc (l j) 1 - sc (l i) 1 * sc (l j) 0)%S <> s0) /\
  (exists p m, length p = P /\ on_mask m /\ dotp (Bv p) m <> s0) /\
  (exists p m, length p = P /\ on_mask m /\ dotp (A p) (A p) <> s0 /\ dotp (Bv p) (Bv p) <> s0 /\ dotp (A p) (away (Bv p) m) <> s0) /\
  (exists p m, length p = P /\ on_mask m /\ dotp (A p) (A p) <> s0 /\ dotp (Bv p) (Bv p) <> s0 /\
     let ob := away (A p) (away (Bv p) m) in dotp ob ob <> s0) /\
  (exists p m beta alpha xs, length p = P /\ on_mask m /\ dotp (A p) (A p) <> s0 /\ dotp (Bv p) (Bv p) <> s0 /\ alpha <> s0 /\ length xs = S d /\
     let r1 := away (Bv p) m in
     hides d xs (A p) (away (A p) r1) (tab n (fun i => sc h i + sinv alpha * q * sc (masked beta (A p) r1) i)%S)).

Lemma zk_family (test : list Scalar -> list Scalar -> AlmZK -> bool) :
  2 <= d -> length h = n ->
  (forall p, length p = P -> length (A p) = n /\ length (Bv p) = n /\ length (gP p) = n) ->
  (forall i, i < n -> wpoly P e (fun p => sc (A p) i)) -> (forall i, i < n -> wpoly P e (fun p => sc (Bv p) i)) ->
  NoDup vals -> (forall x, In x vals) ->
  (7 <= length vals -> family_points) ->
  let H := mulB B h in let Q := (q *: B)%P in
  let Cw p := (comb (A p) (mulB B (gP p)) + comb (Bv p) H)%P in
  let Rc p cs := count (fun u => on_proof (test p cs) (alm_zk_create (coins (trP p) cs) (tape u) 0 (trP p) (mulB B (gP p)) H Q
                                   (Cw p) (A p) (Bv p) (dotp (A p) (Bv p)))) (words vals (K + K)) in
  let Sc p cs := count (fun v => test p cs (sim_proof d (skipn 2 cs) (gP p) h q B (sc cs 0) (sc cs 1) (Cw p) (dotp (A p) (Bv p)) (firstn 2 v) (skipn 2 v)))
                   (words vals (2 + (2 * d + 2))) in
  let total F := list_sum (map (fun p => list_sum (map (F p) (words vals (d + 3)))) (words vals P)) in
  let N := (length vals - 1) ^ 2 * length vals ^ (2 * d + 2) in
  let slack := (P + (3 * d + 7)) * ((4 * e + 2 * d + 1) * (4 * n * n) + 16 * e + d + 5) * length vals ^ (P + (d + 3 + (K + K)) - 1) in
  total Rc <= N * total Sc + slack /\ N * total Sc <= total Rc + slack.
Proof.
  intros Hd Hh HL PA0 PB0 HN HA HZ H Q Cw Rc Sc total N slack.
  assert (Lv : 1 <= length vals) by (destruct vals; [destruct (HA s0)|cbn; lia]).
  assert (RcM : forall p cs, Rc p cs <= length vals ^ (K + K)) by (intros p cs; unfold Rc; rewrite <- (words_count vals (K + K)); apply count_all).
  assert (ScM : forall p cs, N * Sc p cs <= length vals ^ (K + K)).
  { intros p cs.
    assert (Y2 : Sc p cs <= length vals ^ (2 + (2 * d + 2))) by (unfold Sc; rewrite <- (words_count vals (2 + (2 * d + 2))); apply count_all).
    unfold K. replace (2 * d + 4) with (2 + (2 * d + 2)) by lia. rewrite (Nat.pow_add_r _ (2 + (2 * d + 2))).
    apply Nat.mul_le_mono; [|exact Y2]. unfold N. rewrite (Nat.pow_add_r _ 2). apply Nat.mul_le_mono_r. apply Nat.pow_le_mono_l. lia. }
  destruct (Nat.le_gt_cases 7 (length vals)) as [H7|H7].
  2:{ (* a small field: the slack exceeds the number of words *)
    assert (SM : forall X0 (F : X0 -> nat) ll c, (forall x, F x <= c) -> list_sum (map F ll) <= length ll * c).
    { intros X0 F ll c HF. induction ll as [|x ll IH]; [apply Nat.le_0_l|]. cbn [map length]. change (list_sum (?x :: ?r)) with (x + list_sum r).
      assert (Y := HF x). cbn [Nat.mul]. lia. }
    assert (TM : forall F, (forall p cs, F p cs <= length vals ^ (K + K)) -> total F <= length vals ^ (P + (d + 3 + (K + K)))).
    { intros F HF. unfold total. rewrite (Nat.pow_add_r _ P), (Nat.pow_add_r _ (d + 3)). rewrite <- (words_count vals P). apply SM. intros p.
      rewrite <- (words_count vals (d + 3)). apply SM. intros cs. apply HF. }
    assert (SM2 : N * total Sc = total (fun p cs => N * Sc p cs)).
    { assert (Y : forall X0 (F : X0 -> nat) ll, N * list_sum (map F ll) = list_sum (map (fun x => N * F x) ll)).
      { intros X0 F ll. induction ll as [|x ll IH]; [apply Nat.mul_0_r|]. cbn [map]. change (list_sum (?x :: ?r)) with (x + list_sum r).
        rewrite Nat.mul_add_distr_l. f_equal. exact IH. }
      unfold total. rewrite Y. f_equal. apply map_ext. intros p. apply Y. }
    assert (S7 : length vals ^ (P + (d + 3 + (K + K))) <= slack).
    { unfold slack. replace (P + (d + 3 + (K + K))) with (S (P + (d + 3 + (K + K)) - 1)) at 1 by lia. cbn [Nat.pow]. apply Nat.mul_le_mono_r.
      generalize ((4 * e + 2 * d + 1) * (4 * n * n) + 16 * e). intros y. nia. }
    rewrite SM2. assert (T1 := TM _ RcM). assert (T2 := TM _ ScM). lia. }
  destruct (HZ H7) as ((p2 & x2 & i & j & Lp2 & Lx2 & Nb2 & Hi & Hj & Mi & Mj & Z3) & (p3 & v3 & Lp3 & Hv3 & Z5) & (p4 & v4 & Lp4 & Hv4 & Na4 & Nb4 & Z6) &
     (p5 & v5 & Lp5 & Hv5 & Na5 & Nb5 & Z7) & (p6 & v6 & be6 & al6 & x6 & Lp6 & Hv6 & Na6 & Nb6 & Nal6 & Lx6 & Z8)). clear HZ.
  cbv zeta in Z3, Z7, Z8. set (T := P + (d + 3 + K)).
  set (u0 := repeat (@s0 C) K). assert (Hu0 : length u0 = K) by apply repeat_length.
  set (c0 := repeat (@s1 C) (d + 3)). assert (Hc0 : length c0 = d + 3) by apply repeat_length.
  destruct (mask_draws 0 d Hd) as (src & HM & _). fold n in HM.
  set (M := fun (i : nat) (w : list Scalar) => if in_mn_plus_dec n i then sc w (P + (d + 3) + src i) else s0).
  set (X := map (fun j (w : list Scalar) => sc w (P + (2 + j))) (seq 0 (S d))).
  set (a := fun i (w : list Scalar) => if i <? n then sc (A (firstn P w)) i else s0).
  set (b := fun i (w : list Scalar) => if i <? n then sc (Bv (firstn P w)) i else s0).
  set (AA := fun w => sum_S n (fun i => a i w * a i w)%S). set (BB := fun w => sum_S n (fun i => b i w * b i w)%S).
  set (R := fun i w => (BB w * M i w + (- s1) * (sum_S n (fun k => b k w * M k w) * b i w))%S).
  set (O := fun i w => (AA w * R i w + (- s1) * (sum_S n (fun k => a k w * R k w) * a i w))%S).
  set (E := fun i (w : list Scalar) => (BB w * (sc h i * sc w (P + 1)) + q * (BB w * (sc w (P + 0) * a i w)) + q * R i w)%S).
  set (F1 := fun w : list Scalar => (sc w (P + 1) * prod_S (S d) (fun j => sc w (P + (2 + j))%nat))%S).
  set (V := fun k i w => (BB w * (if i =? k then s1 else s0) + (- s1) * (b k w * b i w))%S).
  set (l := fun w k => last_a d (map (fun f => f w) X) (tab n (fun i => V k i w))).
  set (F2 := fun w => (sc (l w i) 0 * sc (l w j) 1 + (- s1) * (sc (l w i) 1 * sc (l w j) 0))%S).
  set (F3 := fun w => sum_S n (fun k => b k w * M k w)%S). set (F4 := fun w => sum_S n (fun k => a k w * R k w)%S).
  set (F5 := fun w => sum_S n (fun k => O k w * O k w)%S).
  set (rows := map (fun (r : list Scalar -> nat -> Scalar) w j => r w (mpos d j)) ((fun w i => a i w) :: (fun w i => O i w) :: srowsW d X E)).
  set (badp := fun w => seqb (AA w) s0 || seqb (BB w) s0).
  set (bad := fun w => badp w || seqb (F1 w) s0 || seqb (F2 w) s0 || seqb (F3 w) s0 || seqb (F4 w) s0 || seqb (F5 w) s0 ||
                       negb (full_rank K (map (fun r => r w) rows))).
  assert (HPT : P <= T) by (unfold T; lia).
  (* degrees *)
  assert (PX : forall f, In f X -> wpoly T 1 f).
  { intros f Hf. apply in_map_iff in Hf as (k & <- & _). apply wpoly_letter. }
  assert (PM : forall i, wpoly T 1 (M i)).
  { intros k. unfold M. destruct (in_mn_plus_dec n k); [apply wpoly_letter|apply wpoly_const]. }
  assert (Pa : forall k, wpoly T e (a k)).
  { intros k. unfold a. destruct (Nat.ltb_spec k n); [|apply wpoly_const]. apply (wpoly_firstn P T e (fun p => sc (A p) k)); auto. }
  assert (Pb : forall k, wpoly T e (b k)).
  { intros k. unfold b. destruct (Nat.ltb_spec k n); [|apply wpoly_const]. apply (wpoly_firstn P T e (fun p => sc (Bv p) k)); auto. }
  assert (PAA : wpoly T (2 * e) AA).
  { apply wpoly_sum. intros k _. replace (2 * e) with (e + e) by lia. now apply wpoly_mul. }
  assert (PBB : wpoly T (2 * e) BB).
  { apply wpoly_sum. intros k _. replace (2 * e) with (e + e) by lia. now apply wpoly_mul. }
  assert (PR : forall k, wpoly T (2 * e + 1) (R k)).
  { intros k. apply wpoly_add; [now apply wpoly_mul|]. apply wpoly_scale. replace (2 * e + 1) with ((e + 1) + e) by lia.
    apply wpoly_mul; auto. apply wpoly_sum. intros; now apply wpoly_mul. }
  assert (D4 : wpoly T (3 * e + 1) F4).
  { apply wpoly_sum. intros k _. replace (3 * e + 1) with (e + (2 * e + 1)) by lia. now apply wpoly_mul. }
  assert (PO : forall k, wpoly T (4 * e + 1) (O k)).
  { intros k. apply wpoly_add.
    - replace (4 * e + 1) with (2 * e + (2 * e + 1)) by lia. now apply wpoly_mul.
    - apply wpoly_scale. replace (4 * e + 1) with ((3 * e + 1) + e) by lia. now apply wpoly_mul. }
  assert (PE : forall k, wpoly T (4 * e + 1) (E k)).
  { intros k. apply wpoly_add; [apply wpoly_add|].
    - apply (wpoly_mono T (2 * e + 1)); [lia|]. apply wpoly_mul; auto. apply wpoly_scale, wpoly_letter.
    - apply wpoly_scale. apply (wpoly_mono T (2 * e + (1 + e))); [lia|]. apply wpoly_mul; auto. apply wpoly_mul; auto. apply wpoly_letter.
    - apply wpoly_scale. apply (wpoly_mono T (2 * e + 1)); [lia|]. auto. }
  assert (D1 : wpoly T (d + 2) F1).
  { replace (d + 2) with (1 + S d) by lia. apply wpoly_mul; [apply wpoly_letter|]. apply (wpoly_prod T (S d) (fun j w => sc w (P + (2 + j)))). intros; apply wpoly_letter. }
  assert (PV : forall k i, wpoly T (2 * e) (V k i)).
  { intros k i0. apply wpoly_add.
    - replace (2 * e) with (2 * e + 0) by lia. apply wpoly_mul; auto. apply wpoly_const.
    - apply wpoly_scale. replace (2 * e) with (e + e) by lia. now apply wpoly_mul. }
  assert (Dl : forall k i, i < 2 -> wpoly T (2 * e + d) (fun w => sc (l w k) i)).
  { intros k i0 Hi0. exact (last_poly T d (2 * e) X (V k) PX (PV k) i0 Hi0). }
  assert (D2 : wpoly T (4 * e + 2 * d) F2).
  { replace (4 * e + 2 * d) with ((2 * e + d) + (2 * e + d)) by lia. apply wpoly_add; [|apply wpoly_scale]; apply wpoly_mul; apply Dl; auto. }
  assert (D3 : wpoly T (e + 1) F3).
  { apply wpoly_sum. intros k _. now apply wpoly_mul. }
  assert (D5 : wpoly T (8 * e + 2) F5).
  { apply wpoly_sum. intros k _. replace (8 * e + 2) with ((4 * e + 1) + (4 * e + 1)) by lia. now apply wpoly_mul. }
  assert (Mlt : forall k, k < K -> mpos d k < n).
  { intros k Hk. assert (I : In (mpos d k) (mask_positions d)) by (apply nth_In; rewrite mask_positions_length; exact Hk). now apply mask_positions_In. }
  assert (D6 : forall r, In r rows -> forall k, k < K -> wpoly T (4 * e + 2 * d + 1) (fun w => r w k)).
  { intros r Hr k Hk. apply in_map_iff in Hr as (r' & <- & [<-|[<-|Hr]]).
    - apply (wpoly_mono T e); [lia|]. apply Pa.
    - apply (wpoly_mono T (4 * e + 1)); [lia|]. apply PO.
    - replace (4 * e + 2 * d + 1) with ((4 * e + 1) + 2 * d) by lia. exact (srowsW_poly T d (4 * e + 1) X E PX PE r' Hr (mpos d k)). }
  (* a word of parameters, challenges and draws *)
  assert (W : forall (p cs u : list Scalar) k, length p = P -> k < length cs -> sc (p ++ cs ++ u) (P + k) = sc cs k).
  { intros p cs u k Hp Hk. unfold sc. rewrite app_nth2, app_nth1 by lia. f_equal. lia. }
  assert (XS : forall p cs u, length p = P -> length cs = d + 3 -> map (fun f => f (p ++ cs ++ u)) X = skipn 2 cs).
  { intros p cs u Hp Hc. unfold X. rewrite map_map. symmetry.
    change (map (fun x => sc (p ++ cs ++ u) (P + (2 + x))) (seq 0 (S d))) with (tab (S d) (fun x => sc (p ++ cs ++ u) (P + (2 + x)))).
    apply (tab_eq s0); [rewrite skipn_length; lia|]. intros k Hk. change (nth k (skipn 2 cs) s0) with (sc (skipn 2 cs) k). rewrite sc_skipn. now rewrite W by lia. }
  assert (MK : forall p cs u, length p = P -> length cs = d + 3 -> sample_m_n_plus (tape u) 0 n = Ok (tab n (fun i => M i (p ++ cs ++ u)), K)).
  { intros p cs u Hp Hc. destruct (HM (tape u)) as (m & Em & Lm & X1 & X2). rewrite Em. do 2 f_equal.
    apply (tab_eq s0); [exact Lm|]. intros k Hk. change (nth k m s0) with (sc m k). unfold M. destruct (in_mn_plus_dec n k) as [I|I].
    - destruct (X1 k Hk I) as [-> _]. unfold tape, sc. rewrite !app_nth2 by lia. f_equal. lia.
    - now apply X2. }
  assert (FP : forall p cs u : list Scalar, length p = P -> firstn P (p ++ cs ++ u) = p).
  { intros p cs u Hp. rewrite firstn_app, Hp, Nat.sub_diag, firstn_O, app_nil_r, <- Hp. apply firstn_all. }
  assert (Ea : forall p cs u k, length p = P -> k < n -> a k (p ++ cs ++ u) = sc (A p) k).
  { intros p cs u k Hp Hk. unfold a. rewrite FP by auto. destruct (Nat.ltb_spec k n); [reflexivity|lia]. }
  assert (Eb : forall p cs u k, length p = P -> k < n -> b k (p ++ cs ++ u) = sc (Bv p) k).
  { intros p cs u k Hp Hk. unfold b. rewrite FP by auto. destruct (Nat.ltb_spec k n); [reflexivity|lia]. }
  assert (EAA : forall p cs u, length p = P -> AA (p ++ cs ++ u) = dotp (A p) (A p)).
  { intros p cs u Hp. unfold AA, dotp. rewrite (proj1 (HL p Hp)). apply sum_S_ext. intros k Hk. now rewrite Ea. }
  assert (EBB : forall p cs u, length p = P -> BB (p ++ cs ++ u) = dotp (Bv p) (Bv p)).
  { intros p cs u Hp. unfold BB, dotp. rewrite (proj1 (proj2 (HL p Hp))). apply sum_S_ext. intros k Hk. now rewrite Eb. }
  set (m1 := fun w => tab n (fun i => M i w)).
  set (r1 := fun p w => away (Bv p) (m1 w)). set (ob := fun p w => away (A p) (r1 p w)).
  assert (Lr : forall p w, length p = P -> length (r1 p w) = n) by (intros p w Hp; unfold r1; rewrite away_length; now apply HL).
  assert (Lo : forall p w, length p = P -> length (ob p w) = n) by (intros p w Hp; unfold ob; rewrite away_length; now apply HL).
  assert (E3 : forall p cs u, length p = P -> F3 (p ++ cs ++ u) = dotp (Bv p) (m1 (p ++ cs ++ u))).
  { intros p cs u Hp. unfold F3, dotp, m1. rewrite (proj1 (proj2 (HL p Hp))). apply sum_S_ext. intros k Hk. now rewrite Eb, sc_tab. }
  assert (ER : forall p cs u k, length p = P -> dotp (Bv p) (Bv p) <> s0 -> k < n ->
     (R k (p ++ cs ++ u) = dotp (Bv p) (Bv p) * sc (r1 p (p ++ cs ++ u)) k)%S).
  { intros p cs u k Hp Nb Hk. unfold R. fold (F3 (p ++ cs ++ u)). rewrite E3, EBB, Eb by auto. unfold r1, away.
    rewrite sc_tab by (now rewrite (proj1 (proj2 (HL p Hp)))). unfold m1 at 2. rewrite sc_tab by auto. field. exact Nb. }
  assert (E4 : forall p cs u, length p = P -> dotp (Bv p) (Bv p) <> s0 ->
     (F4 (p ++ cs ++ u) = dotp (Bv p) (Bv p) * dotp (A p) (r1 p (p ++ cs ++ u)))%S).
  { intros p cs u Hp Nb. unfold F4. unfold dotp at 2. rewrite (proj1 (HL p Hp)), <- sum_S_mul. apply sum_S_ext. intros k Hk. rewrite ER, Ea by auto. ring. }
  assert (EO : forall p cs u k, length p = P -> dotp (A p) (A p) <> s0 -> dotp (Bv p) (Bv p) <> s0 -> k < n ->
     (O k (p ++ cs ++ u) = dotp (A p) (A p) * dotp (Bv p) (Bv p) * sc (ob p (p ++ cs ++ u)) k)%S).
  { intros p cs u k Hp Na Nb Hk. unfold O. fold (F4 (p ++ cs ++ u)). rewrite E4, EAA, ER, Ea by auto. unfold ob, away.
    rewrite sc_tab by (now rewrite (proj1 (HL p Hp))). field. exact Na. }
  assert (E5 : forall p cs u, length p = P -> dotp (A p) (A p) <> s0 -> dotp (Bv p) (Bv p) <> s0 ->
     (F5 (p ++ cs ++ u) = (dotp (A p) (A p) * dotp (Bv p) (Bv p)) * (dotp (A p) (A p) * dotp (Bv p) (Bv p)) * dotp (ob p (p ++ cs ++ u)) (ob p (p ++ cs ++ u)))%S).
  { intros p cs u Hp Na Nb. unfold F5. unfold dotp at 5. rewrite Lo by auto. rewrite <- sum_S_mul. apply sum_S_ext. intros k Hk. rewrite EO by auto. ring. }
  assert (El : forall p cs u k i, length p = P -> length cs = d + 3 -> dotp (Bv p) (Bv p) <> s0 -> k < n -> i < 2 ->
     (sc (l (p ++ cs ++ u) k) i = dotp (Bv p) (Bv p) * sc (last_a d (skipn 2 cs) (away (Bv p) (unit_vec n k))) i)%S).
  { intros p cs u k i0 Hp Hc Nb Hk Hi0. unfold l. rewrite XS by auto. apply last_a_scale; auto.
    - rewrite away_length. now apply HL.
    - apply tab_length.
    - fold n. intros i1 Hi1. rewrite sc_tab by auto. unfold V. rewrite EBB, !Eb by auto. unfold away. rewrite sc_tab by (now rewrite (proj1 (proj2 (HL p Hp)))).
      assert (Y : dotp (Bv p) (unit_vec n k) = sc (Bv p) k).
      { unfold dotp. rewrite (proj1 (proj2 (HL p Hp))). rewrite (sum_S_single n k); auto.
        - unfold unit_vec. rewrite sc_tab, Nat.eqb_refl by auto. ring.
        - intros i2 Hi2 Ni2. unfold unit_vec. rewrite sc_tab by auto. destruct (Nat.eqb_spec i2 k); [contradiction|ring]. }
      rewrite Y. unfold unit_vec. rewrite sc_tab by auto. field. exact Nb. }
  assert (E2 : forall p cs u, length p = P -> length cs = d + 3 -> dotp (Bv p) (Bv p) <> s0 ->
     (F2 (p ++ cs ++ u) = (dotp (Bv p) (Bv p) * dotp (Bv p) (Bv p)) *
        (sc (last_a d (skipn 2 cs) (away (Bv p) (unit_vec n i))) 0 * sc (last_a d (skipn 2 cs) (away (Bv p) (unit_vec n j))) 1 -
         sc (last_a d (skipn 2 cs) (away (Bv p) (unit_vec n i))) 1 * sc (last_a d (skipn 2 cs) (away (Bv p) (unit_vec n j))) 0))%S).
  { intros p cs u Hp Hc Nb. unfold F2. rewrite !El by auto. ring. }
  assert (mul_nz : forall x y : Scalar, x <> s0 -> y <> s0 -> (x * y <> s0)%S).
  { intros x y Nx Ny Z. apply smul_eq_0 in Z as [Z|Z]; contradiction. }
  assert (nz_mul : forall x y : Scalar, (x * y <> s0)%S -> y <> s0) by (intros x y N1 Z; apply N1; rewrite Z; ring).
  assert (RK : forall p cs u, length p = P -> length cs = d + 3 -> sc cs 1 <> s0 -> dotp (A p) (A p) <> s0 -> dotp (Bv p) (Bv p) <> s0 ->
     (full_rank K (map (fun r => r (p ++ cs ++ u)) rows) = true <->
      hides d (skipn 2 cs) (A p) (ob p (p ++ cs ++ u))
        (tab n (fun i => sc h i + sinv (sc cs 1) * q * sc (masked (sc cs 0) (A p) (r1 p (p ++ cs ++ u))) i)%S))).
  { intros p cs u Hp Hc Nal Na Nb. set (w := p ++ cs ++ u).
    assert (LA := proj1 (HL p Hp)).
    set (c := (dotp (A p) (A p) * dotp (Bv p) (Bv p))%S). assert (Nc : c <> s0) by (now apply mul_nz).
    set (ob' := tab n (fun i => O i w)). set (e' := tab n (fun i => E i w)).
    set (ex := fun i => E i w).
    assert (Er : forall K' rows1 rows2, (forall r, In r rows1 -> exists r', In r' rows2 /\ forall k, k < K' -> r k = r' k) ->
                 trivial_kernel K' rows1 -> trivial_kernel K' rows2).
    { intros K' rows1 rows2 HR Tk y Hy. apply Tk. intros r Hr. destruct (HR r Hr) as (r' & Hr' & E').
      rewrite <- (Hy r' Hr'). apply sum_S_ext. intros k Hk. now rewrite E'. }
    assert (Eq : full_rank K (map (fun r => r w) rows) = true <-> full_rank K (hide_rows d (skipn 2 cs) (A p) ob' ex) = true).
    { rewrite !full_rank_spec.
      assert (Y1 : map (fun r => r w) rows = map (fun r j => r (mpos d j)) ((fun i => a i w) :: (fun i => O i w) :: srows d (skipn 2 cs) ex)).
      { unfold rows. rewrite map_map. cbn [map]. f_equal. f_equal. rewrite <- (XS p cs u Hp Hc). fold w. unfold ex. rewrite (srowsW_at w d X E).
        rewrite map_map. reflexivity. }
      rewrite Y1. unfold hide_rows. cbn [map].
      assert (Q1 : forall k, k < K -> a (mpos d k) w = sc (A p) (mpos d k)) by (intros k Hk; unfold w; apply Ea; auto).
      assert (Q2 : forall k, k < K -> O (mpos d k) w = sc ob' (mpos d k)) by (intros k Hk; unfold ob'; rewrite sc_tab; auto).
      split; apply Er; (intros r [<-|[<-|Hr]]; [eexists; split; [left; reflexivity|]; intros k Hk; cbv beta; first [apply Q1; exact Hk | symmetry; apply Q1; exact Hk]|
         eexists; split; [right; left; reflexivity|]; intros k Hk; cbv beta; first [apply Q2; exact Hk | symmetry; apply Q2; exact Hk]|
         exists r; split; [right; right; exact Hr|reflexivity]]). }
    rewrite Eq.
    assert (Y := hides_rank d (skipn 2 cs) (A p) ob' e' ex Hd LA (tab_length _ _)). fold K in Y. rewrite <- Y.
    2:{ intros k Hk. unfold e'. now rewrite sc_tab. }
    clear Eq Er Y.
    set (ee := tab n (fun i => (sc h i + sinv (sc cs 1) * q * sc (masked (sc cs 0) (A p) (r1 p w)) i)%S)).
    set (f := (dotp (Bv p) (Bv p) * sc cs 1)%S). assert (Nf : f <> s0) by (now apply mul_nz).
    assert (Ee : forall k, k < n -> (sc e' k = f * sc ee k)%S).
    { intros k Hk. unfold e', ee, f. rewrite !sc_tab by auto. unfold E, masked. rewrite sc_tab by lia. unfold w. rewrite EBB, Ea, ER, !W by (auto; lia). fold w.
      field. exact Nal. }
    assert (Eo : forall y, dotp ob' y = (c * dotp (ob p w) y)%S).
    { intros y. unfold dotp. rewrite Lo by auto. unfold ob' at 1. rewrite tab_length, <- sum_S_mul. apply sum_S_ext. intros k Hk. unfold ob'.
      rewrite sc_tab by auto. unfold w. rewrite EO by auto. unfold c. ring. }
    split; intros Hid y Ly Y0 Ya Yo Ys; apply Hid; auto.
    - rewrite Eo, Yo. ring.
    - apply (silent_scale d (skipn 2 cs) f ee e' y); auto.
    - rewrite Eo in Yo. apply smul_eq_0 in Yo as [Yo|Yo]; [contradiction|exact Yo].
    - apply (silent_scale d (skipn 2 cs) (sinv f) e' ee y); auto.
      + intros Z. apply Nf. transitivity (f * (sinv f * f))%S; [rewrite sinv_l by auto; ring|rewrite Z; ring].
      + intros k Hk. rewrite Ee by auto. transitivity ((sinv f * f) * sc ee k)%S; [rewrite sinv_l by auto; ring|ring]. }
  (* number of bad words *)
  assert (WL : forall p cs u : list Scalar, length p = P -> length cs = d + 3 -> length u = K -> length (p ++ cs ++ u) = T) by (intros; unfold T; rewrite !app_length; lia).
  assert (MM : forall v, on_mask v -> exists u, length u = K /\ forall p cs, length p = P -> length cs = d + 3 -> m1 (p ++ cs ++ u) = v).
  { intros v [Lv' Sv]. destruct (mask_onto d v Hd Lv' Sv) as (u & Lu & Eu). fold n in Eu. exists u. split; [exact Lu|]. intros p cs Hp Hc.
    assert (Y := MK p cs u Hp Hc). rewrite Eu in Y. injection Y as Y. unfold m1. now rewrite <- Y. }
  destruct (MM v3 Hv3) as (u3 & Lu3 & M3). destruct (MM v4 Hv4) as (u4 & Lu4 & M4). destruct (MM v5 Hv5) as (u5 & Lu5 & M5). destruct (MM v6 Hv6) as (u6 & Lu6 & M6).
  set (cs2 := s1 :: s1 :: x2). assert (Lc2 : length cs2 = d + 3) by (unfold cs2; cbn [length]; lia).
  set (cs6 := be6 :: al6 :: x6). assert (Lc6 : length cs6 = d + 3) by (unfold cs6; cbn [length]; lia).
  assert (N1s : @s1 C <> s0) by apply s1_neq_s0.
  assert (CB : count bad (words vals T) <= (P + (3 * d + 7)) * ((4 * e + 2 * d + 1) * (4 * n * n) + 16 * e + d + 5) * length vals ^ (T - 1)).
  { assert (B1 := few_roots vals T (d + 2) F1 (p2 ++ c0 ++ u0) HN D1 (WL _ _ _ Lp2 Hc0 Hu0)).
    assert (B2 := few_roots vals T (4 * e + 2 * d) F2 (p2 ++ cs2 ++ u0) HN D2 (WL _ _ _ Lp2 Lc2 Hu0)).
    assert (B3 := few_roots vals T (e + 1) F3 (p3 ++ c0 ++ u3) HN D3 (WL _ _ _ Lp3 Hc0 Lu3)).
    assert (B4 := few_roots vals T (3 * e + 1) F4 (p4 ++ c0 ++ u4) HN D4 (WL _ _ _ Lp4 Hc0 Lu4)).
    assert (B5 := few_roots vals T (8 * e + 2) F5 (p5 ++ c0 ++ u5) HN D5 (WL _ _ _ Lp5 Hc0 Lu5)).
    assert (B6 := few_singular vals T (4 * e + 2 * d + 1) K rows (p6 ++ cs6 ++ u6) HN D6 (WL _ _ _ Lp6 Lc6 Lu6)).
    assert (B7 := few_roots vals T (2 * e) AA (p4 ++ c0 ++ u0) HN PAA (WL _ _ _ Lp4 Hc0 Hu0)).
    assert (B8 := few_roots vals T (2 * e) BB (p4 ++ c0 ++ u0) HN PBB (WL _ _ _ Lp4 Hc0 Hu0)).
    assert (E2K : 2 ^ K = 4 * n * n).
    { unfold K, n. replace (2 * d + 4) with (2 + (S d + S d)) by lia. rewrite Nat.pow_add_r, (Nat.pow_add_r 2 (S d) (S d)). change (2 ^ 2) with 4. lia. }
    rewrite E2K in B6.
    transitivity (T * (2 * e) * length vals ^ (T - 1) + T * (2 * e) * length vals ^ (T - 1) + T * (d + 2) * length vals ^ (T - 1)
       + T * (4 * e + 2 * d) * length vals ^ (T - 1) + T * (e + 1) * length vals ^ (T - 1) + T * (3 * e + 1) * length vals ^ (T - 1)
       + T * (8 * e + 2) * length vals ^ (T - 1) + T * ((4 * e + 2 * d + 1) * (4 * n * n - 1)) * length vals ^ (T - 1)).
    - unfold bad, badp. repeat apply count_or_le.
      + apply B7. now rewrite EAA.
      + apply B8. now rewrite EBB.
      + apply B1. assert (E1 : forall k, k < d + 3 -> sc (p2 ++ c0 ++ u0) (P + k) = s1).
        { intros k Hk. rewrite W by lia. unfold c0, sc. rewrite (nth_indep _ s0 s1) by (rewrite repeat_length; lia). apply nth_repeat. }
        unfold F1. rewrite E1 by lia. apply mul_nz; auto. apply prod_S_nz. intros k Hk. rewrite E1 by lia. exact N1s.
      + apply B2. rewrite E2 by auto. auto.
      + apply B3. rewrite E3, M3 by auto. exact Z5.
      + apply B4. rewrite E4 by auto. unfold r1. rewrite M4 by auto. auto.
      + apply B5. rewrite E5 by auto. unfold ob, r1. rewrite M5 by auto. auto.
      + apply B6. apply RK; auto. unfold ob, r1. rewrite M6 by auto. exact Z8.
    - assert (ET : T = P + (3 * d + 7)) by (unfold T, K; lia). assert (1 <= n) by (unfold n; apply pow2_pos).
      rewrite <- ET.
      assert (Gs : forall t y a1 a2 a3 a4 a5 a6 a7 a8, t * a1 * y + t * a2 * y + t * a3 * y + t * a4 * y + t * a5 * y + t * a6 * y + t * a7 * y + t * a8 * y
                   = t * (a1 + a2 + a3 + a4 + a5 + a6 + a7 + a8) * y) by (intros; rewrite !Nat.mul_add_distr_l, !Nat.mul_add_distr_r; reflexivity).
      rewrite Gs. apply Nat.mul_le_mono_r, Nat.mul_le_mono_l.
      assert (1 <= 4 * n * n) by nia. revert H1. generalize (4 * n * n). clear. intros y Hy.
      replace ((4 * e + 2 * d + 1) * y) with ((4 * e + 2 * d + 1) * (y - 1) + (4 * e + 2 * d + 1)); [lia|].
      replace y with (S (y - 1)) at 2 by lia. rewrite Nat.mul_succ_r. reflexivity. }
  (* one choice of parameters and challenges *)
  set (nb := fun p cs => count (fun u => bad (p ++ cs ++ u)) (words vals K)).
  assert (One : forall p cs, length p = P -> length cs = d + 3 -> Rc p cs <= N * Sc p cs + nb p cs * length vals ^ K /\
                N * Sc p cs <= Rc p cs + nb p cs * length vals ^ K).
  { intros p cs Hp Hc. destruct (HL p Hp) as (LA & LB & LG).
    destruct (badp (p ++ cs ++ u0) || seqb (F1 (p ++ cs ++ u0)) s0 || seqb (F2 (p ++ cs ++ u0)) s0) eqn:Zc.
    - (* all words are bad *)
      assert (All : nb p cs = length vals ^ K).
      { unfold nb. rewrite <- words_count. assert (Y : forall u, bad (p ++ cs ++ u) = true).
        { intros u. assert (Yp : badp (p ++ cs ++ u) = badp (p ++ cs ++ u0)) by (unfold badp; now rewrite !EAA, !EBB by auto).
          assert (Y1 : F1 (p ++ cs ++ u) = F1 (p ++ cs ++ u0)).
          { unfold F1. rewrite !W by lia. f_equal. apply prod_S_ext. intros k Hk. now rewrite !W by lia. }
          assert (Y2 : F2 (p ++ cs ++ u) = F2 (p ++ cs ++ u0)).
          { unfold F2, l. rewrite !XS by auto.
            assert (Yl : forall k, tab n (fun i => V k i (p ++ cs ++ u)) = tab n (fun i => V k i (p ++ cs ++ u0))).
            { intros k. apply map_ext. intros i0. unfold V, b. rewrite !EBB, !FP by auto. reflexivity. }
            now rewrite !Yl. }
          unfold bad. rewrite Yp, Y1, Y2, Zc. reflexivity. }
        clear -Y. induction (words vals K) as [|u l' IH]; [reflexivity|]. rewrite count_cons, Y, IH. reflexivity. }
      rewrite All. rewrite <- Nat.pow_add_r.
      assert (Y1 := RcM p cs). assert (Y2 := ScM p cs). lia.
    - apply orb_false_elim in Zc as [Zc N2]. apply orb_false_elim in Zc as [Zc N1]. unfold badp in Zc. apply orb_false_elim in Zc as [Na Nb].
      rewrite EAA in Na by auto. rewrite EBB in Nb by auto.
      assert (Nz : forall x : Scalar, seqb x s0 = false -> x <> s0) by (intros x Hx Z; apply seqb_eq in Z; congruence).
      apply Nz in Na, Nb, N1, N2. rewrite E2 in N2 by auto. apply nz_mul in N2.
      unfold F1 in N1. rewrite W in N1 by lia.
      assert (Nal : sc cs 1 <> s0) by (intros Y; apply N1; rewrite Y; ring).
      assert (Nx : forall x, In x (skipn 2 cs) -> x <> s0).
      { intros x Hx. apply (In_nth _ _ s0) in Hx as (k & Hk & <-). rewrite skipn_length in Hk. change (sc (skipn 2 cs) k <> s0). rewrite sc_skipn.
        apply nz_mul in N1. assert (Y := proj1 (prod_S_nz _ _) N1 k ltac:(lia)). cbv beta in Y. now rewrite W in Y by lia. }
      assert (Sp : forall p0 p1 : Scalar, exists w v, sample_m_n_plus (tape w) 0 n = Ok (v, K) /\ last_a d (skipn 2 cs) (away (Bv p) v) = [p0; p1]).
      { intros z1 z2. destruct (span_pair d (skipn 2 cs) (Bv p) i j z1 z2 LB Hi Hj N2) as (s & t' & Ev). fold n in Ev.
        destruct (mask_onto d (lc (unit_vec n i) (unit_vec n i) (unit_vec n j) s t') Hd) as (u & _ & Eu).
        - rewrite lc_length. apply tab_length.
        - fold n. intros k Hk Nk. unfold lc. rewrite sc_tab by (unfold unit_vec; now rewrite tab_length). unfold unit_vec. rewrite !sc_tab by auto.
          destruct (Nat.eqb_spec k i) as [->|_]; [contradiction|]. destruct (Nat.eqb_spec k j) as [->|_]; [contradiction|]. ring.
        - exists u, (lc (unit_vec n i) (unit_vec n i) (unit_vec n j) s t'). auto. }
      destruct (Sp s1 s0) as (w1 & v1 & W1 & A1). destruct (Sp s0 s1) as (w2 & v2 & W2 & A2).
      assert (Hc' : cs = sc cs 0 :: sc cs 1 :: skipn 2 cs).
      { destruct cs as [|y0 [|y1 cs]]; cbn in Hc; try lia. reflexivity. }
      assert (Y := C76_almzk_zero_knowledge vals (trP p) d (gP p) h q B (A p) (Bv p) (sc cs 0) (sc cs 1) (skipn 2 cs) w1 w2 v1 v2 (fun u => bad (p ++ cs ++ u)) (test p cs)).
      cbv zeta in Y. rewrite <- Hc' in Y. apply Y; auto.
      + rewrite skipn_length. lia.
      + intros u1 m1' Hu1 Hgood Hm1. fold n in Hm1. rewrite (MK p cs u1 Hp Hc) in Hm1. injection Hm1 as <-. fold (m1 (p ++ cs ++ u1)).
        fold (r1 p (p ++ cs ++ u1)). fold (ob p (p ++ cs ++ u1)). unfold bad in Hgood. apply orb_false_elim in Hgood as [Hgood G6].
        apply orb_false_elim in Hgood as [Hgood G5]. apply orb_false_elim in Hgood as [Hgood G4]. apply orb_false_elim in Hgood as [_ G3].
        apply Nz in G3, G4, G5. rewrite E3 in G3 by auto. rewrite E4 in G4 by auto. rewrite E5 in G5 by auto.
        split; [exact G3|]. split; [exact (nz_mul _ _ G4)|]. split; [exact (nz_mul _ _ G5)|].
        apply RK; auto. now apply negb_false_iff in G6. }
  (* sums *)
  assert (Sum : forall X0 (F G0 D : X0 -> nat) ll M0 N0, (forall x, In x ll -> F x <= N0 * G0 x + D x * M0 /\ N0 * G0 x <= F x + D x * M0) ->
     list_sum (map F ll) <= N0 * list_sum (map G0 ll) + list_sum (map D ll) * M0 /\
     N0 * list_sum (map G0 ll) <= list_sum (map F ll) + list_sum (map D ll) * M0).
  { intros X0 F G0 D ll M' N' Hl. induction ll as [|x ll IH]; [cbn; lia|]. cbn [map]. change (list_sum (?x :: ?r)) with (x + list_sum r).
    destruct IH as [I1 I2]; [intros; apply Hl; now right|]. destruct (Hl x (or_introl eq_refl)) as [O1 O2].
    revert I1 I2 O1 O2. generalize (F x), (G0 x), (D x), (list_sum (map F ll)), (list_sum (map G0 ll)), (list_sum (map D ll)). clear. intros. nia. }
  assert (Eb2 : count bad (words vals T) = total nb).
  { unfold T, total. rewrite count_words_app. apply sum_ext. intros p _. rewrite count_words_app. reflexivity. }
  assert (Fin : total Rc <= N * total Sc + total nb * length vals ^ K /\ N * total Sc <= total Rc + total nb * length vals ^ K).
  { unfold total. apply (Sum _ (fun p => list_sum (map (Rc p) (words vals (d + 3)))) (fun p => list_sum (map (Sc p) (words vals (d + 3))))).
    intros p Hp. apply words_In in Hp as [Hp _]. apply (Sum _ (Rc p) (Sc p) (nb p)). intros cs Hc. apply words_In in Hc as [Hc _]. now apply One. }
  assert (Sl : total nb * length vals ^ K <= slack).
  { rewrite <- Eb2. unfold slack. replace (P + (d + 3 + (K + K)) - 1) with ((T - 1) + K) by (unfold T, K; lia). rewrite Nat.pow_add_r, Nat.mul_assoc. now apply Nat.mul_le_mono_r. }
  lia.
Qed.
End Family.
