(** The condition on the generators used by the zero-knowledge theorems C77, C78, C82 and C83 holds
    for almost all generators (C85). The condition speaks about the logarithms g and h of the two
    lists of generators with respect to a common base; nothing in /repo computes it. *)
From Verif Require Export PropZkQesa.

Section SpecZG.
Context {C : Crypto}.
(** the two conditions on the generators: h mixes the mask positions, and the last two positions
    of g and h do not cancel *)
Definition good_generators (d : nat) (g h : list Scalar) : Prop :=
  let n := 2 ^ S d in
  zk_generators d h /\ (sc g (n - 2)%nat * sc h (n - 2)%nat + sc g (n - 1)%nat * sc h (n - 1)%nat <> s0)%S.
End SpecZG.

Section C85.
Context {C : Crypto} {L : CryptoLaws C}.
Add Field SfZGn : (@S_field C L).

Lemma mul_neq0 (a b : Scalar) : (a * b)%S <> s0 -> a <> s0 /\ b <> s0.
Proof. intros H. split; intros E; apply H; rewrite E; ring. Qed.

(** the product of the determinants, with all challenges 1 *)
Fixpoint gprod (d : nat) (h : nat -> Scalar) : Scalar :=
  match d with
  | O => s1
  | S d => let k := 2 ^ S d in
      ((h 0 * h (S k) - h 1 * h k) * gprod d (fun i => h i + h (k + i)%nat))%S
  end.
Lemma gprod_S d h : gprod (S d) h = ((h 0 * h (S (2 ^ S d)) - h 1 * h (2 ^ S d)%nat) * gprod d (fun i => h i + h (2 ^ S d + i)%nat))%S.
Proof. reflexivity. Qed.
Lemma gprod_ext d : forall h h', (forall i, i < 2 ^ S d -> h i = h' i) -> gprod d h = gprod d h'.
Proof.
  induction d as [|d IH]; intros h h' E; cbn [gprod]; [reflexivity|]. assert (P : 2 ^ S (S d) = 2 ^ S d + 2 ^ S d) by (cbn; lia).
  assert (Q : 2 <= 2 ^ S d) by (assert (Z := Nat.pow_nonzero 2 d ltac:(lia)); cbn; lia).
  rewrite (E 0), (E (S (2 ^ S d))), (E 1), (E (2 ^ S d)) by lia. f_equal. apply IH. intros i Hi. rewrite !E by lia. reflexivity.
Qed.
Lemma gprod_generic d : forall h, gprod d (sc h) <> s0 -> generic d (repeat s1 (S d)) h.
Proof.
  induction d as [|d IH]; intros h H; [exact I|].
  change (gprod (S d) (sc h)) with ((sc h 0 * sc h (S (2 ^ S d)) - sc h 1 * sc h (2 ^ S d)%nat) * gprod d (fun i => sc h i + sc h (2 ^ S d + i)%nat))%S in H.
  apply mul_neq0 in H as [H1 H2].
  change (generic (S d) (repeat s1 (S (S d))) h) with ((sc h 0 * sc h (S (2 ^ S d)) - sc h 1 * sc h (2 ^ S d)%nat)%S <> s0 /\ generic d (repeat s1 (S d)) (fold_hi s1 (2 ^ S d) h)).
  split; [exact H1|]. apply IH. intros E. apply H2. rewrite <- E. apply gprod_ext. intros i Hi. unfold fold_hi. rewrite sc_tab by auto. ring.
Qed.
Lemma gprod_wpoly K d : forall (F : nat -> list Scalar -> Scalar), (forall i, wpoly K 1 (F i)) -> wpoly K (2 * d) (fun w => gprod d (fun i => F i w)).
Proof.
  induction d as [|d IH]; intros F HF; [exact (wpoly_const K 0 s1)|]. cbn [gprod]. cbv zeta. replace (2 * S d) with (2 + 2 * d) by lia.
  apply (wpoly_mul K 2 (2 * d) (fun w => F 0 w * F (S (2 ^ S d)) w - F 1 w * F (2 ^ S d)%nat w)%S (fun w => gprod d (fun i => F i w + F (2 ^ S d + i)%nat w)%S)).
  - apply (wpoly_ext K 2 (fun w => F 0 w * F (S (2 ^ S d)) w + (- s1) * (F 1 w * F (2 ^ S d)%nat w))%S); [intros; ring|].
    apply wpoly_add; [|apply wpoly_scale]; apply (wpoly_mul K 1 1); auto.
  - apply (IH (fun i w => F i w + F (2 ^ S d + i)%nat w)%S). intros i. apply wpoly_add; auto.
Qed.
(** generators with all determinants 1 *)
Lemma gprod_witness d : exists h, gprod (S d) h = s1 /\ h 1 = s1 /\ h (2 ^ S (S d) - 2) = (- s1)%S /\ h (2 ^ S (S d) - 1) = s0.
Proof.
  induction d as [|d (h & E1 & E2 & E3 & E4)].
  - exists (fun i => if i <? 2 then s1 else if i =? 2 then (- s1)%S else s0). cbn. split; [ring|]. auto.
  - set (k := 2 ^ S (S d)) in *. assert (Q : 4 <= k) by (unfold k; assert (Z := Nat.pow_nonzero 2 d ltac:(lia)); cbn; lia).
    set (u := fun i => if i =? 0 then (h 0 + s1)%S else if i =? 1 then s1 else s0).
    exists (fun i => if i <? k then u i else (h (i - k)%nat - u (i - k)%nat)%S).
    assert (P : 2 ^ S (S (S d)) = k + k) by (unfold k; cbn; lia).
    split; [|split; [|split]].
    + rewrite gprod_S. change (2 ^ S (S d)) with k. destruct (Nat.ltb_spec 0 k), (Nat.ltb_spec 1 k), (Nat.ltb_spec k k), (Nat.ltb_spec (S k) k); try lia.
      replace (S k - k) with 1 by lia. rewrite Nat.sub_diag. unfold u at 1 2 3 4. cbn [Nat.eqb]. rewrite E2.
      rewrite (gprod_ext (S d) _ h).
      * rewrite E1. ring.
      * intros i Hi. change (2 ^ S (S d)) with k in Hi |- *. destruct (Nat.ltb_spec i k), (Nat.ltb_spec (k + i) k); try lia. replace (k + i - k) with i by lia. ring.
    + destruct (Nat.ltb_spec 1 k); [reflexivity|lia].
    + rewrite P. destruct (Nat.ltb_spec (k + k - 2) k); [lia|]. replace (k + k - 2 - k) with (k - 2) by lia. rewrite E3. unfold u.
      destruct (Nat.eqb_spec (k - 2) 0), (Nat.eqb_spec (k - 2) 1); try lia. ring.
    + rewrite P. destruct (Nat.ltb_spec (k + k - 1) k); [lia|]. replace (k + k - 1 - k) with (k - 1) by lia. rewrite E4. unfold u.
      destruct (Nat.eqb_spec (k - 1) 0), (Nat.eqb_spec (k - 1) 1); try lia. ring.
Qed.

Lemma few_bad (vals : list Scalar) d :
  let n := 2 ^ S d in
  1 <= d -> NoDup vals ->
  exists bad : list Scalar -> bool, (forall w, length w = 2 * n -> bad w = false -> good_generators d (firstn n w) (skipn n w)) /\
    count bad (words vals (2 * n)) <= 2 * n * (2 * d + 2) * length vals ^ (2 * n - 1).
Proof.
  intros n Hd HN. assert (Q : 4 <= n) by (unfold n; destruct d as [|d]; [lia|]; assert (Z := Nat.pow_nonzero 2 d ltac:(lia)); cbn; lia).
  set (F := fun w : list Scalar => (gprod d (fun i => sc w (n + i)%nat) * (sc w (n - 2)%nat * sc w (n + (n - 2))%nat + sc w (n - 1)%nat * sc w (n + (n - 1))%nat))%S).
  assert (PF : wpoly (2 * n) (2 * d + 2) F).
  { apply wpoly_mul; [apply (gprod_wpoly (2 * n) d (fun i w => sc w (n + i)%nat)); intros; apply wpoly_letter|].
    apply wpoly_add; apply (wpoly_mul (2 * n) 1 1); apply wpoly_letter. }
  destruct d as [|d]; [lia|]. destruct (gprod_witness d) as (h0 & W1 & W2 & W3 & W4). change (2 ^ S (S d)) with n in W3, W4.
  set (w0 := repeat s1 n ++ tab n h0). assert (L0 : length w0 = 2 * n) by (unfold w0; rewrite app_length, repeat_length, tab_length; lia).
  assert (Slo : forall i, i < n -> sc w0 i = s1).
  { intros i Hi. unfold w0. rewrite sc_app_l by (rewrite repeat_length; lia). unfold sc. rewrite (nth_indep _ s0 s1) by (rewrite repeat_length; lia). apply nth_repeat. }
  assert (Shi : forall i, i < n -> sc w0 (n + i)%nat = h0 i).
  { intros i Hi. unfold w0. rewrite sc_app_r by (rewrite repeat_length; lia). rewrite repeat_length. replace (n + i - n) with i by lia. now rewrite sc_tab. }
  assert (F0 : F w0 <> s0).
  { unfold F. rewrite (gprod_ext (S d) _ h0) by (intros i Hi; now apply Shi). rewrite W1, (Slo (n - 2)), (Slo (n - 1)), (Shi (n - 2)), (Shi (n - 1)) by lia. rewrite W3, W4. intros E. apply (@s1_neq_s0 C L).
    transitivity (- (s1 * (s1 * - s1 + s1 * s0)))%S; [ring|]. rewrite E. ring. }
  exists (fun w => seqb (F w) s0). split; [|exact (few_roots vals (2 * n) (2 * S d + 2) F w0 HN PF L0 F0)].
  intros w Lw E.
  assert (NE : F w <> s0) by (intros E'; apply seqb_eq in E'; congruence).
  unfold F in NE. apply mul_neq0 in NE as [N1 N2].
  assert (Sg : forall i, i < n -> sc (firstn n w) i = sc w i) by (intros i Hi; now apply ZkView.sc_firstn).
  assert (Sh : forall i, sc (skipn n w) i = sc w (n + i)%nat) by (intros i; apply sc_skipn).
  split.
  - exists (repeat s1 (S (S d))). split; [apply repeat_length|]. split; [intros x Hx; apply repeat_spec in Hx; subst x; apply s1_neq_s0|].
    apply gprod_generic. intros E'. apply N1. rewrite <- E'. apply gprod_ext. intros i _. now rewrite Sh.
  - fold n. rewrite (Sg (n - 2)), (Sg (n - 1)), !Sh by lia. exact N2.
Qed.
(** whatever test of the generators flags only bad ones flags at most a fraction 4(d+1)n/|F| *)
Theorem C85_most_generators (vals : list Scalar) d (bad : list Scalar -> list Scalar -> bool) :
  let n := 2 ^ S d in
  1 <= d -> NoDup vals ->
  (forall g h, length g = n -> length h = n -> bad g h = true -> ~ good_generators d g h) ->
  count (fun gh => bad (firstn n gh) (skipn n gh)) (words vals (2 * n)) <= 2 * n * (2 * d + 2) * length vals ^ (2 * n - 1).
Proof.
  intros n Hd HN HB. destruct (few_bad vals d Hd HN) as (b & Hb & Cb). fold n in Hb, Cb. eapply Nat.le_trans; [|exact Cb].
  apply count_le. intros w Hw Fw. apply words_In in Hw as [Lw _]. destruct (b w) eqn:E; [reflexivity|]. exfalso.
  apply (HB (firstn n w) (skipn n w)); auto; [rewrite firstn_length; lia|rewrite skipn_length; lia].
Qed.

Lemma sum_close {A} (l : list A) (R S : A -> nat) (bad : A -> bool) N e T :
  (forall k, In k l -> bad k = false -> R k <= N * S k + e /\ N * S k <= R k + e) ->
  (forall k, In k l -> R k <= T /\ N * S k <= T) ->
  list_sum (map R l) <= N * list_sum (map S l) + (length l * e + count bad l * T) /\
  N * list_sum (map S l) <= list_sum (map R l) + (length l * e + count bad l * T).
Proof.
  induction l as [|k l IH]; intros HG HT; [cbn; lia|].
  destruct IH as [I1 I2]; [intros; apply HG; [now right|auto]|intros; apply HT; now right|].
  assert (G := HG k (or_introl eq_refl)). destruct (HT k (or_introl eq_refl)) as [T1 T2].
  change (list_sum (map R (k :: l))) with (R k + list_sum (map R l)). change (list_sum (map S (k :: l))) with (S k + list_sum (map S l)).
  rewrite count_cons, Nat.mul_add_distr_l, Nat.mul_add_distr_r. change (length (k :: l)) with (1 + length l). rewrite Nat.mul_add_distr_r.
  destruct (bad k); [|destruct (G eq_refl) as [G1 G2]]; lia.
Qed.

(** the generators are drawn at random too: real and simulated runs of the QESA argument, over all
    generators, challenges and coins; the test sees the generators *)
Theorem C85_qesa_random_generators (vals : list Scalar) tr d (q : Scalar) (B : Point) Ms (w : list Scalar)
    (test : list Scalar -> list Scalar -> list Scalar -> Zk -> bool) :
  let n := 2 ^ S d in let K := 2 * d + 4 in
  2 <= d -> length w = n - 2 -> 1 <= length Ms -> Forall (rect (n - 2) (n - 2)) Ms ->
  sc w 0 = s1 -> (forall i, i < length Ms -> quad (nth i Ms []) w = s0) ->
  NoDup vals -> (forall x, In x vals) ->
  let real := count (fun t => let g := firstn n t in let h := firstn n (skipn n t) in let z := skipn (2 * n) t in
      let cs := firstn (d + 6) z in let u := skipn (d + 6) z in
      on_proof (test g h cs) (zk_create (coins tr cs) (tape u) 0 tr (mulB B g) (mulB B h) (q *: B)%P (mkBlockMatrix Ms) w))
      (words vals (2 * n + (d + 6 + (2 + (K + K))))) in
  let sim := count (fun t => let g := firstn n t in let h := firstn n (skipn n t) in let z := skipn (2 * n) t in
      let cs := firstn (d + 6) z in let v := skipn (d + 6) z in
      test g h cs (zk_sim d g h q B Ms cs (sc v 0) (sc v 1) (skipn 2 v))) (words vals (2 * n + (d + 6 + (2 + (2 + (2 * d + 2)))))) in
  let N := (length vals - 1) ^ 2 * length vals ^ (2 * d + 2) in
  let slack := ((3 * d + 12) * ((8 * n + 2 * d + 1) * (4 * n * n) + 32 * n + d + 5) + 5 + 2 * n * (2 * d + 2)) * length vals ^ (2 * n + (d + 6 + (2 + (K + K))) - 1) in
  real <= N * sim + slack /\ N * sim <= real + slack.
Proof.
  intros n K Hd Hw HM HF H0 Hsat HN HA real sim N slack.
  set (M := d + 6 + (2 + (K + K))). set (M' := d + 6 + (2 + (2 + (2 * d + 2)))).
  set (V := length vals). assert (HV : 1 <= V) by (unfold V; specialize (HA s0); destruct vals; [contradiction|cbn; lia]).
  destruct (few_bad vals d ltac:(lia) HN) as (bad & Hb & Cb). fold n V in Hb, Cb.
  set (c := (3 * d + 12) * ((8 * n + 2 * d + 1) * (4 * n * n) + 32 * n + d + 5) + 5).
  set (R := fun gh z => let g := firstn n gh in let h := skipn n gh in let cs := firstn (d + 6) z in let u := skipn (d + 6) z in
      on_proof (test g h cs) (zk_create (coins tr cs) (tape u) 0 tr (mulB B g) (mulB B h) (q *: B)%P (mkBlockMatrix Ms) w)).
  set (Sm := fun gh z => let g := firstn n gh in let h := skipn n gh in let cs := firstn (d + 6) z in let v := skipn (d + 6) z in
      test g h cs (zk_sim d g h q B Ms cs (sc v 0) (sc v 1) (skipn 2 v))).
  assert (Cut : forall gh z : list Scalar, length gh = 2 * n -> firstn n (gh ++ z) = firstn n gh /\ firstn n (skipn n (gh ++ z)) = skipn n gh /\ skipn (2 * n) (gh ++ z) = z).
  { intros gh z Lg. rewrite firstn_app, !skipn_app. replace (n - length gh) with 0 by lia. rewrite firstn_O, app_nil_r, skipn_O.
    split; [reflexivity|]. split.
    - rewrite firstn_app, skipn_length. replace (n - (length gh - n)) with 0 by lia. rewrite firstn_O, app_nil_r. apply firstn_all2. rewrite skipn_length. lia.
    - rewrite skipn_all2 by lia. replace (2 * n - length gh) with 0 by lia. reflexivity. }
  assert (ER : real = list_sum (map (fun gh => count (R gh) (words vals M)) (words vals (2 * n)))).
  { unfold real. fold M. rewrite (count_words_app vals M (2 * n)). apply (f_equal list_sum). apply map_ext_in. intros gh Hg. apply words_In in Hg as [Lg _]. apply count_ext. intros z _.
    destruct (Cut gh z Lg) as (E1 & E2 & E3). cbv zeta. rewrite E1, E2, E3. reflexivity. }
  assert (ES : sim = list_sum (map (fun gh => count (Sm gh) (words vals M')) (words vals (2 * n)))).
  { unfold sim. fold M'. rewrite (count_words_app vals M' (2 * n)). apply (f_equal list_sum). apply map_ext_in. intros gh Hg. apply words_In in Hg as [Lg _]. apply count_ext. intros z _.
    destruct (Cut gh z Lg) as (E1 & E2 & E3). cbv zeta. rewrite E1, E2, E3. reflexivity. }
  assert (Y := sum_close (words vals (2 * n)) (fun gh => count (R gh) (words vals M)) (fun gh => count (Sm gh) (words vals M')) bad N (c * V ^ (M - 1)) (V ^ M)).
  rewrite <- ER, <- ES, words_count in Y. fold V in Y.
  assert (HS : V ^ (2 * n) * (c * V ^ (M - 1)) + count bad (words vals (2 * n)) * V ^ M <= slack).
  { unfold slack. fold c V M. assert (P1 : V ^ (2 * n + M - 1) = V ^ (2 * n) * V ^ (M - 1)) by (rewrite <- Nat.pow_add_r; f_equal; unfold M; lia).
    assert (P2 : V ^ (2 * n + M - 1) = V ^ (2 * n - 1) * V ^ M).
    { rewrite <- Nat.pow_add_r. f_equal. assert (1 <= n) by (unfold n; apply pow2_pos). unfold M. lia. }
    rewrite Nat.mul_add_distr_r. apply Nat.add_le_mono; [rewrite P1; lia|]. rewrite P2.
    replace (2 * n * (2 * d + 2) * (V ^ (2 * n - 1) * V ^ M)) with (2 * n * (2 * d + 2) * V ^ (2 * n - 1) * V ^ M) by lia.
    now apply Nat.mul_le_mono_r. }
  destruct Y as [Y1 Y2]; [| |split; lia].
  - intros gh Hg Nb. apply words_In in Hg as [Lg _]. destruct (Hb gh Lg Nb) as [Z1 Z2]. fold n in Z2.
    exact (C77_qesa_statistical_zk vals tr d (firstn n gh) (skipn n gh) q B Ms w (test (firstn n gh) (skipn n gh)) Hd
      ltac:(rewrite firstn_length; fold n; lia) ltac:(rewrite skipn_length; fold n; lia) Hw HM HF H0 Hsat HN HA Z2 Z1).
  - intros gh Hg. split; [eapply Nat.le_trans; [apply count_all|]; rewrite words_count; reflexivity|].
    assert (S1 : count (Sm gh) (words vals M') <= V ^ M') by (eapply Nat.le_trans; [apply count_all|]; rewrite words_count; reflexivity).
    assert (N1 : N <= V ^ (2 * d + 4)).
    { unfold N. fold V. replace (2 * d + 4) with (2 + (2 * d + 2)) by lia. rewrite (Nat.pow_add_r V 2). apply Nat.mul_le_mono_r. apply Nat.pow_le_mono_l. lia. }
    replace (V ^ M) with (V ^ (2 * d + 4) * V ^ M') by (rewrite <- Nat.pow_add_r; f_equal; unfold M, M', K; lia).
    now apply Nat.mul_le_mono.
Qed.
End C85.

(** eight generators whose logarithms were written down at random satisfy the condition;
    eight equal generators do not *)
Example C85_case : @good_generators EX 2 (map sN [3; 1; 4; 1; 5; 9; 2; 6]%Z) sh76 /\ ~ @good_generators EX 2 (map sN [3; 1; 4; 1; 5; 9; 2; 6]%Z) (repeat s1 8).
Proof.
  split.
  - split; [exact C77_case_generators|]. apply zs_neq. vm_compute. reflexivity.
  - intros [(xs & _ & _ & H & _) _]. apply H. apply zs_inj. vm_compute. reflexivity.
Qed.
(** over a field of 50 bits: about
    one in 10^13 pairs of lists of eight generators is bad at most *)
Example C85_case_count (vals : list (@Scalar EX)) (HN : NoDup vals) (bad : list Scalar -> list Scalar -> bool) :
  (forall g h, length g = 8 -> length h = 8 -> bad g h = true -> ~ @good_generators EX 2 g h) ->
  count (fun gh => bad (firstn 8 gh) (skipn 8 gh)) (words vals 16) <= 96 * length vals ^ 15.
Proof. intros H. exact (@C85_most_generators EX EX_laws vals 2 bad ltac:(lia) HN H). Qed.
