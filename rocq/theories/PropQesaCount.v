(** C74: for how many challenges and random tapes an honest QESA run fails *)
From Coq Require Import String.
From Verif Require Export PropCount PropProver.
From Verif Require Import ExSmall.
Local Open Scope nat_scope.
Local Open Scope list_scope.

(** prover and verifier on the same statement: does the verifier accept? *)
Definition accepts {A B} (r : res A) (v : A -> res (bool * B)) : bool :=
  match r with
  | Ok x => match v x with Ok (true, _) => true | _ => false end
  | _ => false
  end.
Definition inner_run {C : Crypto} (ro : oracle) rng pos tr (G H : list Point) (Q : Point) Ms w r' : bool :=
  accepts (inner_create ro rng pos tr G H Q (mkBlockMatrix Ms) w r')
          (fun '(pf, _, _) => inner_verify ro tr pf G H Q (mkBlockMatrix Ms)).
Definition zk_run {C : Crypto} (ro : oracle) rng pos tr (G H : list Point) (Q : Point) Ms w : bool :=
  accepts (zk_create ro rng pos tr G H Q (mkBlockMatrix Ms) w)
          (fun '(pf, _, _) => zk_verify ro tr pf G H Q (mkBlockMatrix Ms)).
Definition copy_run_ok {C : Crypto} (ro : oracle) rng pos tr (G H : list Point) (Q : Point) mp Ms w openings Cs : bool :=
  accepts (copy_create ro rng pos tr G H Q mp (mkBlockMatrix Ms) w openings)
          (fun '(pf, _, _) => copy_verify ro tr pf G H Q (mkBlockMatrix Ms) mp Cs).

Section C74.
Context {C : Crypto} {L : CryptoLaws C}.
Add Field SfC74 : (@S_field C L).

(** ** polynomials in one letter *)
Fixpoint poly_add (c e : list Scalar) : list Scalar :=
  match c, e with
  | [], _ => e
  | _, [] => c
  | x :: c, y :: e => (x + y)%S :: poly_add c e
  end.
Fixpoint poly_mul (c e : list Scalar) : list Scalar :=
  match c with
  | [] => []
  | x :: c => poly_add (map (smul x) e) (s0 :: poly_mul c e)
  end.
Lemma peval_add c : forall e x, peval (poly_add c e) x = (peval c x + peval e x)%S.
Proof. induction c as [|y c IH]; intros [|z e] x; cbn; try ring. rewrite IH. ring. Qed.
Lemma peval_scale y e x : peval (map (smul y) e) x = (y * peval e x)%S.
Proof. induction e as [|z e IH]; cbn; [ring|]. rewrite IH. ring. Qed.
Lemma peval_mul c : forall e x, peval (poly_mul c e) x = (peval c x * peval e x)%S.
Proof. induction c as [|y c IH]; intros e x; cbn [poly_mul]; [cbn; ring|]. rewrite peval_add, peval_scale. cbn. rewrite IH. ring. Qed.

(** degree below k *)
Definition deg_lt (k : nat) (f : Scalar -> Scalar) : Prop := exists c, length c = k /\ forall x, f x = peval c x.
Lemma peval_app c e x : peval (c ++ e) x = (peval c x + spow x (length c) * peval e x)%S.
Proof. induction c as [|y c IH]; cbn; [ring|]. rewrite IH. ring. Qed.
Lemma peval_zeros k x : peval (repeat s0 k) x = s0.
Proof. induction k as [|k IH]; cbn; [reflexivity|]. rewrite IH. ring. Qed.
Lemma deg_lt_mono k k' f : k <= k' -> deg_lt k f -> deg_lt k' f.
Proof.
  intros Hk (c & Hc & E). exists (c ++ repeat s0 (k' - k)). split; [rewrite app_length, repeat_length; lia|].
  intros x. rewrite peval_app, peval_zeros, E. ring.
Qed.
Lemma deg_lt_mon k j y : j < k -> deg_lt k (fun x => y * spow x j)%S.
Proof.
  intros Hj. apply (deg_lt_mono (S j)); [lia|]. exists (repeat s0 j ++ [y]). split; [rewrite app_length, repeat_length; cbn; lia|].
  intros x. rewrite peval_app, peval_zeros, repeat_length. cbn. ring.
Qed.
Lemma deg_lt_add k f g : deg_lt k f -> deg_lt k g -> deg_lt k (fun x => f x + g x)%S.
Proof.
  intros (c & Hc & Ec) (e & He & Ee). exists (poly_add c e). split; [|intros x; now rewrite peval_add, Ec, Ee].
  clear Ec Ee. revert e k Hc He. induction c as [|y c IH]; intros [|z e] k Hc He; cbn in *; auto; try lia.
  rewrite (IH e (k - 1)); lia.
Qed.
Lemma deg_lt_ext k f g : (forall x, f x = g x) -> deg_lt k f -> deg_lt k g.
Proof. intros H (c & Hc & E). exists c. split; auto. intros x. now rewrite <- H. Qed.

(** sum_i (w_i - s^(i+1))^2 is monic of degree 2m *)
Definition shift_norm (m : nat) (w : list Scalar) (s : Scalar) : Scalar :=
  sum_S m (fun i => (sc w i - spow s (S i)) * (sc w i - spow s (S i)))%S.
Lemma spow_add x i j : spow x (i + j) = (spow x i * spow x j)%S.
Proof. induction i as [|i IH]; cbn; [ring|]. rewrite IH. ring. Qed.
Lemma shift_norm_lead m w : exists g, deg_lt (2 * S m) g /\
  forall s, shift_norm (S m) w s = (g s + spow s (2 * S m))%S.
Proof.
  induction m as [|m (g & Hg & E)].
  - exists (fun s => sc w 0 * sc w 0 * spow s 0 + - (sc w 0 + sc w 0) * spow s 1)%S. split.
    + apply deg_lt_add; apply deg_lt_mon; lia.
    + intros s. unfold shift_norm. cbn. ring.
  - exists (fun s => (g s + s1 * spow s (2 * S m)) + (sc w (S m) * sc w (S m) * spow s 0 + - (sc w (S m) + sc w (S m)) * spow s (S (S m))))%S. split.
    + apply deg_lt_add; [apply deg_lt_add|apply deg_lt_add].
      * apply (deg_lt_mono (2 * S m)); [lia|exact Hg].
      * apply deg_lt_mon; lia.
      * apply deg_lt_mon; lia.
      * apply deg_lt_mon; lia.
    + intros s. unfold shift_norm in *. cbn [sum_S] in *. rewrite E.
      replace (2 * S (S m)) with (S (S m) + S (S m)) by lia. rewrite (spow_add s (S (S m)) (S (S m))). cbn [spow]. ring.
Qed.
Lemma shift_norm_poly m w : 1 <= m -> exists c, length c = S (2 * m) /\ ~ Forall (fun a => a = s0) c /\
  forall s, shift_norm m w s = peval c s.
Proof.
  intros Hm. destruct m as [|m]; [lia|]. destruct (shift_norm_lead m w) as (g & (c & Hc & Ec) & E).
  exists (c ++ [s1]). split; [rewrite app_length; cbn [length]; lia|]. split; [apply monic_not_zero, s1_neq_s0|].
  intros s. rewrite E, Ec, peval_app, Hc. cbn [peval]. ring.
Qed.

(** ** the vectors of the prover *)
Section Vectors.
Context (n : nat) (Hn : 4 <= n) (Ms : list (list (list Scalar))) (w r' : list Scalar) (x s : Scalar).
Context (Hw : length w = n - 2) (Hr : length r' = 2).

Lemma q_a_top b i : i < n - 2 -> sc (q_a n w r' s b) i = (sc w i - spow s (S i))%S.
Proof.
  intros Hi. unfold q_a. rewrite sc_tab by lia. rewrite sc_app_l by lia. unfold q_s'. rewrite sc_tab by lia.
  destruct (Nat.ltb_spec i (n - 2)); [reflexivity|lia].
Qed.
Lemma q_s'_last2 b : sc (q_s' n s b) (n - 2) = b.
Proof.
  unfold q_s'. rewrite sc_tab by lia. destruct (Nat.ltb_spec (n - 2) (n - 2)); [lia|]. now rewrite Nat.eqb_refl.
Qed.
Lemma q_s'_last1 b : sc (q_s' n s b) (n - 1) = (b * b)%S.
Proof.
  unfold q_s'. rewrite sc_tab by lia. destruct (Nat.ltb_spec (n - 1) (n - 2)); [lia|].
  destruct (Nat.eqb_spec (n - 1) (n - 2)); [lia|reflexivity].
Qed.
Lemma q_a_last2 b : sc (q_a n w r' s b) (n - 2) = (sc r' 0 - b)%S.
Proof.
  unfold q_a. rewrite sc_tab by lia. rewrite sc_app_r, q_s'_last2 by lia. now replace (n - 2 - length w) with 0 by lia.
Qed.
Lemma q_a_last1 b : sc (q_a n w r' s b) (n - 1) = (sc r' 1 - b * b)%S.
Proof.
  unfold q_a. rewrite sc_tab by lia. rewrite sc_app_r, q_s'_last1 by lia. now replace (n - 1 - length w) with 1 by lia.
Qed.
Lemma mtv_ent Gm b i : i < n -> sc (mtv n (q_gamma' n Gm) (q_s' n s b)) i =
  (sum_S (n - 2) (fun j => spow s (S j) * ent (q_gamma' n Gm) j i) + b * ent (q_gamma' n Gm) (n - 2) i + b * b * ent (q_gamma' n Gm) (n - 1) i)%S.
Proof.
  intros Hi. unfold mtv. rewrite sc_tab by lia. rewrite q_s'_length, sum_split2 by lia. rewrite q_s'_last2, q_s'_last1.
  do 2 f_equal. apply sum_S_ext. intros j Hj. unfold q_s'. rewrite sc_tab by lia. destruct (Nat.ltb_spec j (n - 2)); [reflexivity|lia].
Qed.
(** the upper part of the second vector does not depend on b *)
Lemma q_bv_top b i : i < n - 2 -> sc (q_bv n Ms x w r' s b) i = sc (q_bv n Ms x w r' s s0) i.
Proof.
  intros Hi. unfold q_bv. rewrite !sc_tab by lia. rewrite !mtv_ent by lia. rewrite !(q_gamma'_ent _ _ _ i) by lia.
  destruct (Nat.ltb_spec (n - 2) (n - 2)); [lia|]. destruct (Nat.ltb_spec (n - 1) (n - 2)); [lia|]. cbn [andb].
  destruct (Nat.eqb_spec i (n - 1)); [lia|]. destruct (Nat.eqb_spec i (n - 2)); [lia|]. rewrite !andb_false_r. ring.
Qed.
Lemma q_bv_last2 b : sc (q_bv n Ms x w r' s b) (n - 2) = (b * b - sc r' 1)%S.
Proof.
  unfold q_bv. rewrite sc_tab by lia. unfold q_w''. rewrite mv_gamma'_last2 by (rewrite ?app_length; lia).
  rewrite sc_app_r by lia. replace (n - 1 - length w) with 1 by lia. rewrite mtv_ent by lia.
  rewrite sum_S_0; [rewrite !q_gamma'_ent by lia|intros j Hj].
  - destruct (Nat.ltb_spec (n - 2) (n - 2)); [lia|]. rewrite !andb_false_r. destruct (Nat.eqb_spec (n - 2) (n - 1)); [lia|].
    rewrite !Nat.eqb_refl, !andb_false_r. destruct (Nat.eqb_spec (n - 1) (n - 2)); [lia|]. cbn [andb]. ring.
  - rewrite q_gamma'_ent by lia. destruct (Nat.ltb_spec (n - 2) (n - 2)); [lia|]. rewrite andb_false_r.
    destruct (Nat.eqb_spec j (n - 2)); [lia|]. destruct (Nat.eqb_spec j (n - 1)); [lia|]. cbn [andb]. ring.
Qed.
Lemma q_bv_last1 b : sc (q_bv n Ms x w r' s b) (n - 1) = (sc r' 0 - b)%S.
Proof.
  unfold q_bv. rewrite sc_tab by lia. unfold q_w''. rewrite mv_gamma'_last1 by (rewrite ?app_length; lia).
  rewrite sc_app_r by lia. replace (n - 2 - length w) with 0 by lia. rewrite mtv_ent by lia.
  rewrite sum_S_0; [rewrite !q_gamma'_ent by lia|intros j Hj].
  - destruct (Nat.ltb_spec (n - 1) (n - 2)); [lia|]. rewrite !andb_false_r.
    rewrite !Nat.eqb_refl. destruct (Nat.eqb_spec (n - 1) (n - 2)); [lia|]. cbn [andb]. ring.
  - rewrite q_gamma'_ent by lia. destruct (Nat.ltb_spec (n - 1) (n - 2)); [lia|]. rewrite andb_false_r.
    destruct (Nat.eqb_spec j (n - 2)); [lia|]. destruct (Nat.eqb_spec j (n - 1)); [lia|]. cbn [andb]. ring.
Qed.

Definition q_U : Scalar := shift_norm (n - 2) w s.
Definition q_V : Scalar := sum_S (n - 2) (fun i => sc (q_bv n Ms x w r' s s0) i * sc (q_bv n Ms x w r' s s0) i)%S.
Definition q_c : Scalar := sum_S (n - 2) (fun i => (sc w i - spow s (S i)) * sc (q_bv n Ms x w r' s s0) i)%S.
Definition q_p (b : Scalar) : Scalar := (sc r' 0 - b)%S.
Definition q_q (b : Scalar) : Scalar := (sc r' 1 - b * b)%S.

Lemma q_a_norm b : dotp (q_a n w r' s b) (q_a n w r' s b) = (q_U + q_p b * q_p b + q_q b * q_q b)%S.
Proof.
  unfold dotp. replace (length (q_a n w r' s b)) with n by (symmetry; apply tab_length). rewrite sum_split2 by lia.
  rewrite q_a_last1, q_a_last2. unfold q_U, shift_norm. do 2 f_equal. apply sum_S_ext. intros i Hi. now rewrite q_a_top.
Qed.
Lemma q_bv_norm b : dotp (q_bv n Ms x w r' s b) (q_bv n Ms x w r' s b) = (q_V + q_p b * q_p b + q_q b * q_q b)%S.
Proof.
  unfold dotp. replace (length (q_bv n Ms x w r' s b)) with n by (symmetry; apply tab_length). rewrite sum_split2 by lia.
  rewrite q_bv_last1, q_bv_last2. unfold q_V, q_p, q_q.
  rewrite (sum_S_ext _ _ (fun i => sc (q_bv n Ms x w r' s s0) i * sc (q_bv n Ms x w r' s s0) i)%S)
    by (intros i Hi; now rewrite q_bv_top). ring.
Qed.
Lemma q_a_bv b : dotp (q_bv n Ms x w r' s b) (q_a n w r' s b) = q_c.
Proof.
  unfold dotp. replace (length (q_bv n Ms x w r' s b)) with n by (symmetry; apply tab_length). rewrite sum_split2 by lia.
  rewrite q_bv_last1, q_bv_last2, q_a_last1, q_a_last2. unfold q_c.
  rewrite (sum_S_ext _ _ (fun i => (sc w i - spow s (S i)) * sc (q_bv n Ms x w r' s s0) i)%S)
    by (intros i Hi; rewrite q_bv_top, q_a_top by auto; ring). ring.
Qed.

(** the challenges b the run may fail on: six polynomials, of total degree 25 *)
Definition q_E5 (b : Scalar) : Scalar := (q_q b * (q_V + q_p b * q_p b + q_q b * q_q b) - q_c * q_p b)%S.
Definition q_E6 (b : Scalar) : Scalar :=
  let B := (q_V + q_p b * q_p b + q_q b * q_q b)%S in
  (B * (q_U * q_V + q_U * (q_q b * q_q b) + q_V * (q_p b * q_p b) + (q_c + q_c) * (q_p b * q_q b)) - q_c * q_c * (q_p b * q_p b))%S.
Definition q_b_bad (b : Scalar) : bool :=
  (true && seqb (q_p b) s0) || ((true && seqb (q_q b) s0) || (
  (true && seqb (q_U + q_p b * q_p b + q_q b * q_q b)%S s0) || ((true && seqb (q_V + q_p b * q_p b + q_q b * q_q b)%S s0) ||
  ((true && seqb (q_E5 b) s0) || (negb (seqb q_U s0) && seqb (q_E6 b) s0))))).

Lemma q_good b : q_U <> s0 -> q_b_bad b = false ->
  let a := q_a n w r' s b in let v := q_bv n Ms x w r' s b in
  sc a (n - 1) <> s0 /\ sc v (n - 1) <> s0 /\ dotp a a <> s0 /\ dotp v v <> s0 /\ sc (away v a) (n - 1) <> s0 /\
  dotp (rest_of a v (n - 1)) (rest_of a v (n - 1)) <> s0.
Proof.
  intros HU F a v. unfold q_b_bad in F. cbn [andb] in F.
  apply orb_false_iff in F as [F1 F]. apply orb_false_iff in F as [F2 F]. apply orb_false_iff in F as [F3 F].
  apply orb_false_iff in F as [F4 F]. apply orb_false_iff in F as [F5 F6].
  destruct (seqb q_U s0) eqn:ZU; [apply seqb_eq in ZU; contradiction|]. cbn [negb andb] in F6. clear ZU.
  apply seqb_dec_iff in F1, F2, F3, F4, F5, F6.
  assert (La : length a = n) by apply tab_length. assert (Lv : length v = n) by apply tab_length.
  assert (Ea : sc a (n - 1) = q_q b) by apply q_a_last1. assert (Ev : sc v (n - 1) = q_p b) by apply q_bv_last1.
  assert (Naa := q_a_norm b). fold a in Naa. assert (Nvv := q_bv_norm b). fold v in Nvv. assert (Nav := q_a_bv b). fold a v in Nav.
  rewrite <- Naa in F3. rewrite <- Nvv in F4. unfold q_E5 in F5. unfold q_E6 in F6. cbv zeta in F6.
  split; [now rewrite Ea|]. split; [now rewrite Ev|]. split; [exact F3|]. split; [exact F4|]. split.
  - unfold away. rewrite sc_tab by lia. rewrite Nav, Ea, Ev. intros X. apply F5. rewrite <- Nvv.
    transitivity (dotp v v * (q_q b - q_c * sinv (dotp v v) * q_p b))%S; [field; exact F4|]. rewrite X. ring.
  - set (u := away v (unit_vec n (n - 1))).
    assert (Lu : length u = n) by (unfold u; now rewrite away_length).
    assert (Euu : dotp u u = (s1 - q_p b * sinv (dotp v v) * q_p b)%S).
    { unfold u at 2. rewrite dotp_away_any by (rewrite ?unit_vec_length; lia). rewrite (dotp_comm u v) by lia.
      assert (X : dotp v u = s0) by (apply dotp_away; [rewrite unit_vec_length; lia|exact F4]). rewrite X, dotp_unit_r by lia.
      unfold u, away. rewrite sc_tab by lia. rewrite dotp_unit_r by lia. unfold unit_vec. rewrite sc_tab by lia. rewrite Nat.eqb_refl, Ev. ring. }
    assert (Eau : dotp a u = (q_q b - q_p b * sinv (dotp v v) * q_c)%S).
    { unfold u. rewrite dotp_away_any by (rewrite ?unit_vec_length; lia). rewrite !dotp_unit_r by lia.
      rewrite (dotp_comm a v) by lia. rewrite Nav, Ea, Ev. ring. }
    assert (Y : dotp (away a u) (away a u) = (dotp u u - dotp a u * sinv (dotp a a) * dotp a u)%S).
    { rewrite dotp_away_any by (rewrite ?away_length; lia). rewrite (dotp_comm (away a u) a) by now rewrite away_length.
      rewrite (dotp_away a) by (auto; lia). rewrite (dotp_comm (away a u) u) by (rewrite away_length; lia).
      rewrite dotp_away_any by lia. rewrite (dotp_comm u a) by lia. ring. }
    unfold rest_of. rewrite La. fold u. intros X. rewrite X, Euu, Eau in Y. apply F6. rewrite <- Nvv.
    set (B := dotp v v) in *. set (A := dotp a a) in *.
    transitivity (A * B * B * (s1 - q_p b * sinv B * q_p b - (q_q b - q_p b * sinv B * q_c) * sinv A * (q_q b - q_p b * sinv B * q_c)))%S; [|rewrite <- Y; ring].
    transitivity (A * B * (B - q_p b * q_p b) - (q_q b * B - q_p b * q_c) * (q_q b * B - q_p b * q_c))%S; [|field; auto].
    rewrite Naa. assert (EB : B = (q_V + q_p b * q_p b + q_q b * q_q b)%S) by exact Nvv. rewrite EB. ring.
Qed.

(** their coefficients *)
Definition cP : list Scalar := [sc r' 0; (- s1)%S].
Definition cQ : list Scalar := [sc r' 1; s0; (- s1)%S].
Definition cN (k : Scalar) : list Scalar := poly_add (poly_add [k] (poly_mul cP cP)) (poly_mul cQ cQ).
Definition cE5 : list Scalar := poly_add (poly_mul cQ (cN q_V)) (map (smul (- q_c)%S) cP).
Definition cE6 : list Scalar :=
  poly_add (poly_mul (cN q_V)
    (poly_add (poly_add [(q_U * q_V)%S] (map (smul q_U) (poly_mul cQ cQ)))
              (poly_add (map (smul q_V) (poly_mul cP cP)) (map (smul (q_c + q_c)%S) (poly_mul cP cQ)))))
    (map (smul (- (q_c * q_c))%S) (poly_mul cP cP)).
Lemma nonzero_coeff (c : list Scalar) i : sc c i <> s0 -> i < length c -> ~ Forall (fun a => a = s0) c.
Proof. intros N Hi F. apply N. rewrite Forall_forall in F. apply F, nth_In, Hi. Qed.
Lemma neg1_neq_0 : (- s1)%S <> s0.
Proof. intros E. apply (@s1_neq_s0 C L). transitivity (- - s1)%S; [ring|]. rewrite E. ring. Qed.
Lemma peval_P b : peval cP b = q_p b.
Proof. unfold cP, q_p. cbn. ring. Qed.
Lemma peval_Q b : peval cQ b = q_q b.
Proof. unfold cQ, q_q. cbn. ring. Qed.
Lemma peval_N k b : peval (cN k) b = (k + q_p b * q_p b + q_q b * q_q b)%S.
Proof. unfold cN. rewrite !peval_add, !peval_mul, peval_P, peval_Q. cbn [peval]. ring. Qed.
Lemma q_b_polys :
  (exists c, length c <= 2 /\ ~ Forall (fun a => a = s0) c /\ forall b, q_p b = peval c b) /\
  (exists c, length c <= 3 /\ ~ Forall (fun a => a = s0) c /\ forall b, q_q b = peval c b) /\
  (forall k, exists c, length c <= 5 /\ ~ Forall (fun a => a = s0) c /\ forall b, (k + q_p b * q_p b + q_q b * q_q b)%S = peval c b) /\
  (exists c, length c <= 7 /\ ~ Forall (fun a => a = s0) c /\ forall b, q_E5 b = peval c b) /\
  (q_U <> s0 -> exists c, length c <= 9 /\ ~ Forall (fun a => a = s0) c /\ forall b, q_E6 b = peval c b).
Proof.
  clear Hn Hw Hr. repeat split.
  - exists cP. split; [cbn; lia|]. split; [|intros; symmetry; apply peval_P]. apply (nonzero_coeff _ 1); [apply neg1_neq_0|cbn; lia].
  - exists cQ. split; [cbn; lia|]. split; [|intros; symmetry; apply peval_Q]. apply (nonzero_coeff _ 2); [apply neg1_neq_0|cbn; lia].
  - intros k. exists (cN k). split; [cbn; lia|]. split; [|intros; symmetry; apply peval_N].
    apply (nonzero_coeff _ 4); [|cbn; lia]. unfold sc. cbn. intros E. apply (@s1_neq_s0 C L). rewrite <- E. ring.
  - exists cE5. split; [cbn; lia|]. split.
    + apply (nonzero_coeff _ 6); [|cbn; lia]. unfold sc. cbn. intros E. apply neg1_neq_0. rewrite <- E. ring.
    + intros b. unfold cE5, q_E5. rewrite peval_add, peval_mul, peval_scale, peval_Q, peval_N, peval_P. ring.
  - intros HU. exists cE6. split; [cbn; lia|]. split.
    + apply (nonzero_coeff _ 8); [|cbn; lia]. unfold sc. cbn. intros E. apply HU. rewrite <- E. ring.
    + intros b. unfold cE6, q_E6. cbv zeta. rewrite !peval_add, !peval_mul, !peval_add, !peval_scale, !peval_mul, !peval_Q, peval_N, !peval_P. cbn [peval]. ring.
Qed.
End Vectors.

(** ** how many challenges are bad: letters jx, js, jb, jal of a word are the challenges,
    system, witness and randomness may depend on the other letters *)
Section BadChallenges.
Context (n : nat) (Hn : 4 <= n) (vals : list Scalar) (HN : NoDup vals) (K jx js jb jal : nat).
Context (Hx : jx < K) (Hs : js < K) (Hb : jb < K) (Hal : jal < K) (Nsb : js <> jb) (Nxb : jx <> jb).
Context (Mf : list Scalar -> list (list (list Scalar))) (Wf Rf : list Scalar -> list Scalar).
Context (Ws : forall u v, length u = K -> Wf (set_at u js v) = Wf u).
Context (Wb : forall u v, length u = K -> Mf (set_at u jb v) = Mf u /\ Wf (set_at u jb v) = Wf u /\ Rf (set_at u jb v) = Rf u).

Definition q_bad (u : list Scalar) : bool :=
  (true && seqb (sc u jx) s0) || ((true && seqb (sc u jal) s0) || ((true && seqb (q_U n (Wf u) (sc u js)) s0) ||
   q_b_bad n (Mf u) (Wf u) (Rf u) (sc u jx) (sc u js) (sc u jb))).
Lemma sc_set_eq (u : list Scalar) j v : j < length u -> sc (set_at u j v) j = v.
Proof. intros Hj. unfold sc. now apply nth_set_at_eq. Qed.
Lemma sc_set_neq (u : list Scalar) j i v : i <> j -> sc (set_at u j v) i = sc u i.
Proof. intros Hj. unfold sc. apply nth_set_at_neq. congruence. Qed.

Lemma q_bad_count : count q_bad (words vals K) <= (2 * n + 23) * length vals ^ (K - 1).
Proof.
  set (q := length vals ^ (K - 1)).
  assert (B1 : forall j, j < K -> count (fun u => true && seqb (sc u j) s0) (words vals K) <= 1 * q).
  { intros j Hj. apply (count_poly_event vals K j 1 (fun _ => true)); auto. intros u Hu. right. exists [s0; s1].
    split; [cbn; lia|]. split; [apply (monic_not_zero [s0]), s1_neq_s0|]. intros v. rewrite sc_set_eq by lia. cbn. ring. }
  assert (BU : count (fun u => true && seqb (q_U n (Wf u) (sc u js)) s0) (words vals K) <= (2 * (n - 2)) * q).
  { apply (count_poly_event vals K js (2 * (n - 2)) (fun _ => true)); auto. intros u Hu. right.
    destruct (shift_norm_poly (n - 2) (Wf u)) as (c & Hc & Nc & Ec); [lia|]. exists c. split; [lia|]. split; [exact Nc|].
    intros v. rewrite Ws, sc_set_eq by lia. unfold q_U. apply Ec. }
  assert (BP : forall e (P : list (list (list Scalar)) -> list Scalar -> list Scalar -> Scalar -> Scalar -> bool)
                 (F : list (list (list Scalar)) -> list Scalar -> list Scalar -> Scalar -> Scalar -> Scalar -> Scalar),
    (forall M W R x s, P M W R x s = false \/ exists c, length c <= S e /\ ~ Forall (fun a => a = s0) c /\ forall b, F M W R x s b = peval c b) ->
    count (fun u => P (Mf u) (Wf u) (Rf u) (sc u jx) (sc u js) &&
                    seqb (F (Mf u) (Wf u) (Rf u) (sc u jx) (sc u js) (sc u jb)) s0) (words vals K) <= e * q).
  { intros e P F HF. apply (count_poly_event vals K jb e); auto. intros u Hu.
    destruct (HF (Mf u) (Wf u) (Rf u) (sc u jx) (sc u js)) as [Z|(c & Hc & Nc & Ec)].
    - left. intros v. destruct (Wb u v Hu) as (-> & -> & ->). rewrite !sc_set_neq by auto. exact Z.
    - right. exists c. split; [exact Hc|]. split; [exact Nc|]. intros v. destruct (Wb u v Hu) as (-> & -> & ->).
      rewrite !sc_set_neq, sc_set_eq by (auto; lia). apply Ec. }
  assert (P1 := BP 1 (fun _ _ _ _ _ => true) (fun _ _ R _ _ b => q_p R b)
     (fun M W R x s => or_intror (proj1 (q_b_polys n M W R x s)))).
  assert (P2 := BP 2 (fun _ _ _ _ _ => true) (fun _ _ R _ _ b => q_q R b)
     (fun M W R x s => or_intror (proj1 (proj2 (q_b_polys n M W R x s))))).
  assert (P3 := BP 4 (fun _ _ _ _ _ => true) (fun _ W R _ s b => q_U n W s + q_p R b * q_p R b + q_q R b * q_q R b)%S
     (fun M W R x s => or_intror (proj1 (proj2 (proj2 (q_b_polys n M W R x s))) (q_U n W s)))).
  assert (P4 := BP 4 (fun _ _ _ _ _ => true) (fun M W R x s b => q_V n M W R x s + q_p R b * q_p R b + q_q R b * q_q R b)%S
     (fun M W R x s => or_intror (proj1 (proj2 (proj2 (q_b_polys n M W R x s))) (q_V n M W R x s)))).
  assert (P5 := BP 6 (fun _ _ _ _ _ => true) (fun M W R x s b => q_E5 n M W R x s b)
     (fun M W R x s => or_intror (proj1 (proj2 (proj2 (proj2 (q_b_polys n M W R x s))))))).
  assert (P6 : count (fun u => negb (seqb (q_U n (Wf u) (sc u js)) s0) &&
                    seqb (q_E6 n (Mf u) (Wf u) (Rf u) (sc u jx) (sc u js) (sc u jb)) s0) (words vals K) <= 8 * q).
  { apply (BP 8 (fun _ W _ _ s => negb (seqb (q_U n W s) s0)) (fun M W R x s b => q_E6 n M W R x s b)).
    intros M W R x s. destruct (seqb (q_U n W s) s0) eqn:Z; [now left|right]. apply seqb_dec_iff in Z.
    exact (proj2 (proj2 (proj2 (proj2 (q_b_polys n M W R x s)))) Z). }
  cbv beta in *.
  assert (BB : count q_bad (words vals K) <= 1 * q + (1 * q + (2 * (n - 2) * q + (1 * q + (2 * q + (4 * q + (4 * q + (6 * q + 8 * q)))))))).
  { unfold q_bad, q_b_bad. apply count_or_le; [now apply B1|]. apply count_or_le; [now apply B1|]. apply count_or_le; [exact BU|].
    apply count_or_le; [exact P1|]. apply count_or_le; [exact P2|]. apply count_or_le; [exact P3|]. apply count_or_le; [exact P4|].
    apply count_or_le; [exact P5|exact P6]. }
  etransitivity; [exact BB|]. rewrite <- !Nat.mul_add_distr_r. apply Nat.mul_le_mono_r. lia.
Qed.
End BadChallenges.

(** ** one choice of challenges: at most seven values per letter of the tape fail *)
Lemma gram_schmidt_away rng pos (b : list Scalar) n m p r p' : length b = n -> sample_m_n_plus rng pos n = Ok (m, p) ->
  sample_gram_schmidt rng pos b = Ok (r, p') -> r = away b m.
Proof.
  intros Hb E. unfold sample_gram_schmidt. rewrite Hb, E. cbn [bind]. assert (Lm := sample_m_n_plus_length _ _ _ _ _ E).
  destruct (S_eq_dec (dotp b m) s0) as [Z|N].
  - rewrite orth_away_panic by (auto; lia). discriminate.
  - rewrite orth_away by (auto; lia). cbn [bind]. intros X. now injection X as <- _.
Qed.
Lemma orth_is_away (a r ob : list Scalar) : length a = length r -> orth a r = Ok ob -> ob = away a r.
Proof.
  intros Hl E. destruct (S_eq_dec (dotp a r) s0) as [Z|N].
  - rewrite orth_away_panic in E by auto. discriminate.
  - rewrite orth_away in E by auto. now injection E as <-.
Qed.
Lemma in_mn_plus_last n : in_mn_plus n (n - 1).
Proof. unfold in_mn_plus. tauto. Qed.

Lemma size_ge_4 d : 4 <= 2 ^ S (S d).
Proof. rewrite !pow2_S. assert (P := pow2_pos d). lia. Qed.

Section FixedChallenges.
Context (ro : oracle) (tr : transcript) (d : nat) (G H : list Point) (Q : Point) (Ms : list (list (list Scalar))) (w r' : list Scalar).
Let n := 2 ^ S (S d).
Context (HG : length G = n) (HH : length H = n) (Hw : length w = n - 2) (Hr : length r' = 2).
Context (HM : 1 <= length Ms) (HF : Forall (rect (n - 2) (n - 2)) Ms) (H0 : sc w 0 = s1).
Context (Hsat : forall i, i < length Ms -> quad (nth i Ms []) w = s0).
Let c1 := compress (lin (w ++ r') G).
Let x := ro (q_hist_x tr c1).
Let c2 := compress (lin (q_w'' n Ms x w r') H).
Let s := ro (q_hist_s tr c1 c2).
Let b := ro (q_hist_b tr c1 c2).
Context (Hx : x <> s0) (Hal : forall h, ro (ipa_start h n) <> s0) (HU : q_U n w s <> s0) (HB : q_b_bad n Ms w r' x s b = false).

Lemma inner_run_masks (rg : list Scalar -> nat -> Scalar) off pos (vals : list Scalar) K :
  drives K off rg -> NoDup vals -> off <= pos -> pos + 4 * S d + 8 <= off + K ->
  exists bad : list Scalar -> bool, count bad (words vals K) <= 7 * length vals ^ (K - 1) /\
    forall v, bad v = false -> exists pf tr' pos',
      inner_create ro (rg v) pos tr G H Q (mkBlockMatrix Ms) w r' = Ok (pf, tr', pos') /\
      c_prime_w pf = c1 /\ c_prime_prime_w pf = c2 /\
      forall r p ob, sample_gram_schmidt (rg v) pos (q_bv n Ms x w r' s b) = Ok (r, p) ->
        orth (q_a n w r' s b) r = Ok ob -> dotp ob ob <> s0.
Proof.
  intros HD HNd Hop HK. assert (Hn := size_ge_4 d). fold n in Hn.
  set (a := q_a n w r' s b) in *. set (bv := q_bv n Ms x w r' s b) in *.
  destruct (q_good n Hn Ms w r' x s Hw Hr b HU HB) as (A1 & A2 & A3 & A4 & A5 & A6). fold a bv in A1, A2, A3, A4, A5, A6.
  assert (La : length a = n) by apply tab_length. assert (Lb : length bv = n) by apply tab_length.
  assert (ML := in_mn_plus_last n).
  destruct (mask_count7 rg off pos a bv (S d) vals K HD La Lb HNd Hop HK) as (bad & C1 & C2).
  { exists (n - 1). split; [lia|]. split; [exact ML|exact A1]. }
  { exists (n - 1). split; [lia|]. split; [exact ML|exact A2]. }
  { exists (n - 1). split; [lia|]. split; [exact ML|exact A5]. }
  { exists (n - 1). split; [lia|]. split; [exact ML|exact A6]. }
  exists bad. split; [exact C1|]. intros v Hv. destruct (C2 v Hv) as (m1 & p1 & m2 & p2 & M1 & M2 & Dr & No). fold n in M1, M2.
  assert (R := C68_qesa_prover_returns_iff ro (rg v) pos tr G H Q Ms (n - 2) (n - 2) w r' HF). cbv zeta in R. rewrite HG in R.
  fold c1 in R. fold x in R. fold c2 in R. fold s in R. fold b in R. fold a bv in R.
  destruct (proj2 R) as [[[pf tr'] pos'] E].
  { split; [now exists d|]. repeat (split; [auto|]). now exists m1, p1, m2, p2. }
  exists pf, tr', pos'. split; [exact E|].
  assert (CE := inner_create_eq ro (rg v) pos tr G H Q Ms w r' n ltac:(lia) HG HH Hw Hr HM HF). cbv zeta in CE.
  fold c1 in CE. fold x in CE. fold c2 in CE. rewrite CE in E. apply bind_Ok_inv in E as ([[p0 t0] q0] & _ & E). injection E as <- <- <-.
  split; [reflexivity|]. split; [reflexivity|]. intros r p ob Er Eo.
  apply (gram_schmidt_away _ _ _ n m1 p1) in Er; auto. subst r.
  apply orth_is_away in Eo; [|rewrite away_length; lia]. now subst ob.
Qed.

Lemma inner_run_fixed (rg : list Scalar -> nat -> Scalar) off pos (vals : list Scalar) K :
  drives K off rg -> NoDup vals -> off <= pos -> pos + 4 * S d + 8 <= off + K ->
  count (fun v => negb (inner_run ro (rg v) pos tr G H Q Ms w r')) (words vals K) <= 7 * length vals ^ (K - 1).
Proof.
  intros HD HNd Hop HK. assert (Hn := size_ge_4 d). fold n in Hn. destruct (inner_run_masks rg off pos vals K HD HNd Hop HK) as (bad & B1 & B2).
  etransitivity; [|exact B1]. apply count_le. intros v _ F. apply negb_true_iff in F. destruct (bad v) eqn:Z; auto. exfalso.
  destruct (B2 v Z) as (pf & tr' & pos' & E & E1 & E2 & Hob).
  destruct (q_good n Hn Ms w r' x s Hw Hr b HU HB) as (_ & _ & A3 & A4 & _).
  unfold inner_run in F. rewrite E in F. cbn [accepts] in F.
  assert (V : inner_verify ro tr pf G H Q (mkBlockMatrix Ms) = Ok (true, tr')).
  { apply (C22_qesa_inner_completeness ro (rg v) pos tr G H Q Ms w r' n pf tr' pos'); try assumption; try lia.
    all: unfold q_x, q_s, q_b; rewrite ?E1, ?E2; auto.
    unfold q_alpha_hist. rewrite HH. apply Hal. }
  rewrite V in F. discriminate.
Qed.
End FixedChallenges.

(** ** the whole run *)
(** the challenges x, s, b the prover meets, and the first challenge of the inner proof *)
Definition answers (ro : oracle) tr (n : nat) (G H : list Point) Ms (w r' : list Scalar) (x s b al : Scalar) : Prop :=
  let c1 := compress (lin (w ++ r') G) in
  let c2 := compress (lin (q_w'' n Ms x w r') H) in
  ro (q_hist_x tr c1) = x /\ ro (q_hist_s tr c1 c2) = s /\ ro (q_hist_b tr c1 c2) = b /\
  forall h, ro (ipa_start h n) = al.

Lemma count_ext' {A} (f g : A -> bool) l : (forall z, f z = g z) -> count f l = count g l.
Proof. intros E. apply count_ext. auto. Qed.

(** words: x, s, b, alpha, then the tape of the prover *)
Theorem C74_qesa_failures (ros : list Scalar -> oracle) tr d (G H : list Point) (Q : Point) Ms (w r' : list Scalar) (vals : list Scalar) K :
  let n := 2 ^ S (S d) in
  length G = n -> length H = n -> length w = n - 2 -> length r' = 2 ->
  1 <= length Ms -> Forall (rect (n - 2) (n - 2)) Ms ->
  sc w 0 = s1 -> (forall i, i < length Ms -> quad (nth i Ms []) w = s0) ->
  (forall x s b al, answers (ros [x; s; b; al]) tr n G H Ms w r' x s b al) ->
  NoDup vals -> 4 * S d + 8 <= K ->
  count (fun u => negb (inner_run (ros (firstn 4 u)) (tape (skipn 4 u)) 0 tr G H Q Ms w r')) (words vals (4 + K))
  <= (2 * n + 30) * length vals ^ (K + 3).
Proof.
  intros n HG HH Hw Hr HM HF H0 Hsat Hro HN HK.
  assert (Hn : 4 <= n) by apply size_ge_4.
  replace (2 * n + 30) with ((2 * n + 23) + 7) by lia. replace (K + 3) with (4 + K - 1) by lia.
  apply (count_two_stages vals 4 K _ (q_bad n 0 1 2 3 (fun _ => Ms) (fun _ => w) (fun _ => r'))); try lia.
  - apply q_bad_count; auto; lia.
  - intros u Hu Hbad. destruct u as [|x [|s [|b [|al [|]]]]]; try discriminate.
    unfold q_bad in Hbad. change (sc [x; s; b; al] 0) with x in Hbad. change (sc [x; s; b; al] 1) with s in Hbad.
    change (sc [x; s; b; al] 2) with b in Hbad. change (sc [x; s; b; al] 3) with al in Hbad. cbn [andb] in Hbad.
    apply orb_false_iff in Hbad as [Z1 Hbad]. apply orb_false_iff in Hbad as [Z2 Hbad]. apply orb_false_iff in Hbad as [Z3 Z4].
    apply seqb_dec_iff in Z1, Z2, Z3. destruct (Hro x s b al) as (E1 & E2 & E3 & E4).
    rewrite (count_ext' _ (fun v => negb (inner_run (ros [x; s; b; al]) (tape v) 0 tr G H Q Ms w r'))) by reflexivity.
    apply (inner_run_fixed (ros [x; s; b; al]) tr d G H Q Ms w r') with (off := 0); auto; try apply tape_drives; try lia.
    all: fold n; rewrite ?E1, ?E2, ?E3; auto. intros h. now rewrite E4.
Qed.

(** the two random scalars of the zero-knowledge wrapper are the first draws of the tape *)
Theorem C74_qesa_zk_failures (ros : list Scalar -> oracle) tr d (G H : list Point) (Q : Point) Ms (w : list Scalar) (vals : list Scalar) K :
  let n := 2 ^ S (S d) in
  length G = n -> length H = n -> length w = n - 2 ->
  1 <= length Ms -> Forall (rect (n - 2) (n - 2)) Ms ->
  sc w 0 = s1 -> (forall i, i < length Ms -> quad (nth i Ms []) w = s0) ->
  (forall x s b al r0 r1, answers (ros [x; s; b; al]) tr n G H Ms w [r0; r1] x s b al) ->
  NoDup vals -> 4 * S d + 10 <= K ->
  count (fun u => negb (zk_run (ros (firstn 4 u)) (tape (skipn 4 u)) 0 tr G H Q Ms w)) (words vals (4 + K))
  <= (2 * n + 30) * length vals ^ (K + 3).
Proof.
  intros n HG HH Hw HM HF H0 Hsat Hro HN HK.
  assert (Hn : 4 <= n) by apply size_ge_4.
  replace (2 * n + 30) with ((2 * n + 23) + 7) by lia.
  assert (EK : K = 2 + (K - 2)) by lia. revert HK. rewrite EK. generalize (K - 2) as K'. intros K' HK. clear K EK.
  replace (2 + K' + 3) with (6 + K' - 1) by lia. change (4 + (2 + K')) with (6 + K').
  apply (count_two_stages vals 6 K' _ (q_bad n 0 1 2 3 (fun _ => Ms) (fun _ => w) (fun u => [sc u 4; sc u 5]))); try lia.
  - apply q_bad_count; auto; try lia. intros u v Hu. rewrite !sc_set_neq by lia. auto.
  - intros u Hu Hbad. destruct u as [|x [|s [|b [|al [|r0 [|r1 [|]]]]]]]; try discriminate.
    unfold q_bad, sc in Hbad. cbn [nth andb] in Hbad.
    apply orb_false_iff in Hbad as [Z1 Hbad]. apply orb_false_iff in Hbad as [Z2 Hbad]. apply orb_false_iff in Hbad as [Z3 Z4].
    apply seqb_dec_iff in Z1, Z2, Z3. destruct (Hro x s b al r0 r1) as (E1 & E2 & E3 & E4).
    rewrite (count_ext' _ (fun v => negb (inner_run (ros [x; s; b; al]) (tape ([r0; r1] ++ v)) 2 tr G H Q Ms w [r0; r1]))).
    2:{ intros v. cbn [app firstn skipn]. unfold zk_run, inner_run, zk_create, zk_verify. change (tape (r0 :: r1 :: v) 0) with r0.
        change (tape (r0 :: r1 :: v) 1) with r1. destruct (inner_create _ _ _ _ _ _ _ _ _ _) as [[[pf t1] p1]| |]; reflexivity. }
    apply (inner_run_fixed (ros [x; s; b; al]) tr d G H Q Ms w [r0; r1]) with (off := 2) (rg := fun v => tape ([r0; r1] ++ v));
      auto; try lia; try apply (tape_app_drives K' [r0; r1]).
    all: fold n; rewrite ?E1, ?E2, ?E3; auto. intros h. now rewrite E4.
Qed.

(** the copy argument: one more challenge in front *)
Theorem C74_copy_failures (ros : list Scalar -> oracle) tr d (G H : list Point) (Q : Point) mp Ms (w : list Scalar)
    (sets : list (list N)) (openings : list (list Scalar * Scalar)) (Cs : list Point) (vals : list Scalar) K :
  let n := 2 ^ S (S d) in
  let msgs := concat (map fst openings) in
  (N.of_nat n < 65536)%N -> length G = n -> length H = n -> (N.of_nat (length sets) <= 65536)%N ->
  compute_mapping (N.of_nat n) (N.of_nat (length w)) sets = Ok mp ->
  (forall s i, In s sets -> In i s -> length w <= N.to_nat i < n - 2) ->
  length openings = length sets -> length Cs = length sets ->
  (forall k, k < length sets ->
     commit G (nth k sets []) (fst (nth k openings ([], s0))) (snd (nth k openings ([], s0))) = Ok (pt Cs k)) ->
  1 <= length w -> length w <= n - 2 -> sc w 0 = s1 -> 1 <= length Ms -> Forall (rect (n - 2) (n - 2)) Ms ->
  (forall alpha i, i < length Ms -> quad (nth i Ms []) (cp_witness n mp w msgs alpha) = s0) ->
  (forall alpha x s b al r0 r1,
     let cw := compress (lin (tab (n - 2) (cp_placed mp w msgs) ++ [r0; r1]) G) in
     ros [alpha; x; s; b; al] (cp_hist tr cw) = alpha /\
     answers (ros [alpha; x; s; b; al]) (cp_hist tr cw) n G H (cp_system n mp alpha Ms) (cp_witness n mp w msgs alpha)
       [r0; (r1 + cp_rand openings alpha)%S] x s b al) ->
  NoDup vals -> 4 * S d + 10 <= K ->
  count (fun u => negb (copy_run_ok (ros (firstn 5 u)) (tape (skipn 5 u)) 0 tr G H Q mp Ms w openings Cs)) (words vals (5 + K))
  <= (2 * n + 30) * length vals ^ (K + 4).
Proof.
  intros n msgs Hn16 HG HH HSz Emp Hidx HO HCs Hcom Hw1 Hw H0 HMs HF Hsat Hro HN HK.
  assert (Hn : 4 <= n) by apply size_ge_4.
  replace (2 * n + 30) with ((2 * n + 23) + 7) by lia.
  assert (EK : K = 2 + (K - 2)) by lia. revert HK. rewrite EK. generalize (K - 2) as K'. intros K' HK. clear K EK.
  replace (2 + K' + 4) with (7 + K' - 1) by lia. change (5 + (2 + K')) with (7 + K').
  apply (count_two_stages vals 7 K' _ (q_bad n 1 2 3 4 (fun u => cp_system n mp (sc u 0) Ms) (fun u => cp_witness n mp w msgs (sc u 0))
                                         (fun u => [sc u 5; (sc u 6 + cp_rand openings (sc u 0))%S]))); try lia.
  - apply q_bad_count; auto; try lia; intros u v Hu; rewrite !sc_set_neq by lia; auto.
  - intros u Hu Hbad. destruct u as [|alpha [|x [|s [|b [|al [|r0 [|r1 [|]]]]]]]]; try discriminate.
    unfold q_bad, sc in Hbad. cbn [nth andb] in Hbad.
    apply orb_false_iff in Hbad as [Z1 Hbad]. apply orb_false_iff in Hbad as [Z2 Hbad]. apply orb_false_iff in Hbad as [Z3 Z4].
    apply seqb_dec_iff in Z1, Z2, Z3.
    set (ro := ros [alpha; x; s; b; al]). destruct (Hro alpha x s b al r0 r1) as (E0 & E1 & E2 & E3 & E4). fold ro in E0, E1, E2, E3, E4.
    set (Cw := lin (tab (n - 2) (cp_placed mp w msgs) ++ [r0; r1]) G) in *.
    set (tr1 := cp_hist tr (compress Cw)) in *. set (Ms' := cp_system n mp alpha Ms) in *. set (w' := cp_witness n mp w msgs alpha) in *.
    set (r' := [r0; (r1 + cp_rand openings alpha)%S]) in *.
    set (c1 := compress (lin (w' ++ r') G)) in *. set (c2 := compress (lin (q_w'' n Ms' x w' r') H)) in *.
    assert (HF' : Forall (rect (n - 2) (n - 2)) Ms') by (apply cp_system_rect; [lia|exact HF]).
    assert (HM' : 1 <= length Ms') by (unfold Ms', cp_system; rewrite app_length; lia).
    assert (Lw' : length w' = n - 2) by apply tab_length.
    destruct (inner_run_masks ro tr1 d G H Q Ms' w' r' HG HH Lw' eq_refl HM' HF') with (rg := fun v => tape ([r0; r1] ++ v))
      (off := 2) (pos := 2) (vals := vals) (K := K') as (bad & B1 & B2); auto; try lia.
    { fold n c1. rewrite E1. fold c2. rewrite E2. exact Z3. }
    { fold n c1. rewrite E1. fold c2. rewrite E2, E3. exact Z4. }
    { apply (tape_app_drives K' [r0; r1]). }
    fold n c1 in B2. rewrite E1 in B2. fold c2 in B2. rewrite E2, E3 in B2.
    etransitivity; [|exact B1]. apply count_le. intros v _ F. apply negb_true_iff in F. destruct (bad v) eqn:Z; auto. exfalso.
    destruct (B2 v Z) as (pf & tr' & pos' & E & F1 & F2 & Hob).
    destruct (q_good n Hn Ms' w' r' x s Lw' eq_refl b Z3 Z4) as (_ & _ & A3 & A4 & _).
    cbn [app firstn skipn] in F. fold ro in F. change ([r0; r1] ++ v) with (r0 :: r1 :: v) in *.
    destruct (compute_mapping_good n (N.of_nat (length w)) sets mp Hn16 ltac:(lia) Emp HSz) as (HGM & Hpw & HI).
    { intros y i Hy Hi. apply (Hidx y i Hy Hi). }
    assert (Hpw' : forall m, In m (msgs_map mp) -> length w <= mpos m) by (intros m Hm; specialize (Hpw m Hm); lia).
    assert (Emp' := Emp). apply compute_mapping_inv in Emp' as (_ & HT & Hav & Emp').
    assert (Hms : length msgs = length (msgs_map mp)).
    { rewrite Emp'. cbn [msgs_map]. unfold cm_msgs. rewrite tab_length. apply concat_openings_length; auto.
      intros j Hj. assert (Hj' := Hcom j Hj). apply commit_inv in Hj' as (Hj' & _). auto. }
    assert (HS1 : 1 <= length sets) by (destruct sets; [cbn in HT; lia|cbn; lia]).
    assert (EC : copy_create ro (tape (r0 :: r1 :: v)) 0 tr G H Q mp (mkBlockMatrix Ms) w openings = Ok (mkCopy (compress Cw) pf, tr', pos')).
    { assert (CE := copy_create_eq ro (tape (r0 :: r1 :: v)) 0 tr G H Q mp Ms w openings n ltac:(lia) HG). cbv zeta in CE.
      rewrite CE; auto; try lia; [|rewrite HO; exact HGM|rewrite Emp', HO; reflexivity].
      change (tape (r0 :: r1 :: v) 0) with r0. change (tape (r0 :: r1 :: v) (0 + 1)) with r1. fold msgs. fold Cw. fold tr1. rewrite E0.
      fold Ms' w' r'. change (0 + 2) with 2. rewrite E. reflexivity. }
    assert (V : copy_verify ro tr (mkCopy (compress Cw) pf) G H Q (mkBlockMatrix Ms) mp Cs = Ok (true, tr')).
    { assert (V := C34_copy_completeness ro (tape (r0 :: r1 :: v)) 0 tr G H Q mp Ms w sets openings Cs n _ tr' pos'
        ltac:(lia) Hn16 HG HH HSz Emp Hidx HO HCs Hcom Hw1 Hw H0 HF EC).
      cbv zeta in V. cbn [cp_C_w cp_inner] in V. fold tr1 in V. rewrite E0 in V. fold msgs in V. fold Ms' in V. fold w' in V.
      change (tape (r0 :: r1 :: v) 0) with r0 in V. change (tape (r0 :: r1 :: v) (0 + 1)) with r1 in V. fold r' in V.
      unfold q_x, q_s, q_b in V. rewrite F1, F2, E1, E2, E3 in V. apply V; auto.
      - intros i Hi. now apply Hsat.
      - unfold q_alpha_hist. rewrite HH, E4. exact Z2. }
    unfold copy_run_ok in F. rewrite EC in F. cbn [accepts] in F. rewrite V in F. discriminate.
Qed.
End C74.

Lemma fs_eq (x y : @Scalar FS) : Z.eqb (zf x) (zf y) = true -> x = y.
Proof. intros H. apply Fp_eq. now apply Z.eqb_eq. Qed.
(** the field of 1009 elements, n = 4, the equation w_1 = 2 w_0 with w = (1, 2) and the zero
    equation; an oracle that answers by the label asked for *)
Definition ros74 (cs : list (@Scalar FS)) : @oracle FS := fun h =>
  match rev h with
  | EvChal l :: EvMsg m _ :: _ =>
      if String.eqb l "x" then (if String.eqb m "c_prime_w" then nth 0 cs s0 else fN 7)
      else if String.eqb l "s" then nth 1 cs s0 else fN 5
  | EvChal l :: EvU64 _ _ :: _ => nth 3 cs s0
  | EvChal l :: _ => nth 2 cs s0
  | _ => fN 3
  end.
Definition m74 : list (list (list (@Scalar FS))) := [[[fN 2; fN (-1)]; [fN 0; fN 0]]; [[fN 0; fN 0]; [fN 0; fN 0]]].
Definition run74 (cs tp : list (@Scalar FS)) : bool :=
  inner_run (ros74 cs) (tape tp) 0 [] g71 h71 (qN 77) m74 [fN 1; fN 2] [fN 31; fN 41].
Example C74_case_all :
  count (fun u => negb (run74 (firstn 4 u) (skipn 4 u))) (words all_FS (4 + 12)) <= 38 * length all_FS ^ 15.
Proof.
  apply (@C74_qesa_failures FS FS_laws ros74 [] 0 g71 h71 (qN 77) m74 [fN 1; fN 2] [fN 31; fN 41] all_FS 12); auto; try apply all_FS_NoDup; try (cbn; lia).
  - repeat constructor.
  - intros i Hi. destruct i as [|[|i]]; [apply fs_eq; vm_compute; reflexivity|apply fs_eq; vm_compute; reflexivity|cbn in Hi; lia].
  - intros x s b al. repeat split.
    intros h. unfold ros74, ipa_start. rewrite rev_app_distr. reflexivity.
Qed.
Example C74_case_zk_all :
  count (fun u => negb (zk_run (ros74 (firstn 4 u)) (tape (skipn 4 u)) 0 [] g71 h71 (qN 77) m74 [fN 1; fN 2])) (words all_FS (4 + 14))
  <= 38 * length all_FS ^ 17.
Proof.
  apply (@C74_qesa_zk_failures FS FS_laws ros74 [] 0 g71 h71 (qN 77) m74 [fN 1; fN 2] all_FS 14); auto; try apply all_FS_NoDup; try (cbn; lia).
  - repeat constructor.
  - intros i Hi. destruct i as [|[|i]]; [apply fs_eq; vm_compute; reflexivity|apply fs_eq; vm_compute; reflexivity|cbn in Hi; lia].
  - intros x s b al r0 r1. repeat split.
    intros h. unfold ros74, ipa_start. rewrite rev_app_distr. reflexivity.
Qed.
(** one run that succeeds; the eight values of b for which it fails, the rest fixed, between
    some others; the only such alpha; a bad x, a bad s *)
Example C74_case_letters :
  run74 (map fN [2; 3; 4; 5]%Z) w71 = true /\
  map (fun '(j, vs) => filter (fun v => negb (run74 (set_at (map fN [2; 3; 4; 5]%Z) j (fN v)) w71)) vs)
      [(2, [0; 53; 54; 76; 161; 306; 500; 659; 740; 769; 843; 1008]%Z); (3, [0; 1; 2; 1008]%Z)] =
    [[53; 76; 161; 306; 659; 740; 769; 843]; [0]]%Z /\
  run74 (map fN [0; 3; 4; 5]%Z) w71 = false /\ run74 (map fN [2; 29; 4; 5]%Z) w71 = false.
Proof. vm_compute. repeat split. Qed.

(** the copy argument, n = 8: one message, committed at generator 3 *)
Definition ros74c (cs : list (@Scalar FS)) : @oracle FS := fun h =>
  match rev h with
  | EvChal l :: EvMsg m _ :: _ =>
      if String.eqb l "alpha" then nth 0 cs s0
      else if String.eqb l "x" then (if String.eqb m "c_prime_w" then nth 1 cs s0 else fN 7)
      else if String.eqb l "s" then nth 2 cs s0 else fN 5
  | EvChal l :: EvU64 _ _ :: _ => nth 4 cs s0
  | EvChal l :: _ => nth 3 cs s0
  | _ => fN 3
  end.
Definition g74 : list (@Point FS) := map qN [2; 3; 5; 7; 11; 13; 17; 19]%Z.
Definition h74 : list (@Point FS) := map qN [23; 29; 31; 37; 41; 43; 47; 53]%Z.
Definition m74c : list (list (list (@Scalar FS))) := [[fN 2; fN (-1); fN 0; fN 0; fN 0; fN 0] :: repeat (repeat (fN 0) 6) 5].
Definition mp74 : Mapping := match compute_mapping 8 2 [[3%N]] with Ok mp => mp | _ => mkMapping 0 [] [] 0 end.
Definition o74 : list (list (@Scalar FS) * @Scalar FS) := [([fN 9], fN 4)].
Definition c74 : list (@Point FS) := match commit g74 [3%N] [fN 9] (fN 4) with Ok c => [c] | _ => [] end.
Definition run74c (cs tp : list (@Scalar FS)) : bool :=
  copy_run_ok (ros74c cs) (tape tp) 0 [] g74 h74 (qN 77) mp74 m74c [fN 1; fN 2] o74 c74.
Section CopyCase.
Add Field SfC74c : (@S_field FS FS_laws).
Example C74_case_copy_all :
  count (fun u => negb (run74c (firstn 5 u) (skipn 5 u))) (words all_FS (5 + 18)) <= 46 * length all_FS ^ 22.
Proof.
  apply (@C74_copy_failures FS FS_laws ros74c [] 1 g74 h74 (qN 77) mp74 m74c [fN 1; fN 2] [[3%N]] o74 c74 all_FS 18); auto;
    try apply all_FS_NoDup; try (cbn; lia).
  - intros s i [<-|[]] [<-|[]]. cbn. lia.
  - intros k Hk. destruct k as [|k]; [|cbn in Hk; lia]. change (commit g74 [3%N] [fN 9] (fN 4) = Ok (pt c74 0)).
    assert (E1 : match commit g74 [3%N] [fN 9] (fN 4) with Ok _ => true | _ => false end = true) by (vm_compute; reflexivity).
    unfold c74. destruct (commit g74 [3%N] [fN 9] (fN 4)) as [c| |]; [reflexivity|discriminate|discriminate].
  - repeat constructor.
  - intros alpha i Hi. destruct i as [|i]; [|cbn in Hi; lia].
    set (w' := cp_witness _ mp74 [fN 1; fN 2] (concat (map fst o74)) alpha).
    assert (E0 : sc w' 0 = fN 1) by (apply fs_eq; vm_compute; reflexivity).
    assert (E1 : sc w' 1 = fN 2) by (apply fs_eq; vm_compute; reflexivity).
    unfold quad. change (length w') with 6. change (nth 0 m74c []) with (hd [] m74c). cbn [sum_S].
    change (fN 0) with (@s0 FS).
    repeat match goal with |- context [ent (hd [] m74c) ?i ?j] =>
      let e := eval cbn in (nth j (nth i (hd [] m74c) []) (@s0 FS)) in change (ent (hd [] m74c) i j) with e end.
    change (fN 0) with (@s0 FS). rewrite E0, E1.
    transitivity (fN 1 * (fN 2 * fN 1 + fN (-1) * fN 2))%S; [ring|]. apply fs_eq. vm_compute. reflexivity.
  - intros alpha x s b al r0 r1. split; [reflexivity|]. repeat split.
    intros h. unfold ros74c, ipa_start. rewrite rev_app_distr. reflexivity.
Qed.
End CopyCase.
Example C74_case_copy :
  let tp := map fN (map Z.of_nat (seq 12 18)) in
  map (fun cs => run74c (map fN cs) tp)
      [[6; 2; 3; 4; 5]; [0; 2; 3; 4; 5]; [6; 0; 3; 4; 5]; [6; 2; 3; 4; 0]; [6; 2; 95; 4; 5]]%Z = [true; true; false; false; false].
Proof. vm_compute. reflexivity. Qed.
