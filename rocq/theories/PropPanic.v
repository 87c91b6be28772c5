(** C58: for a well-formed statement, exactly which proofs make each verifier panic; every
    other proof gets a verdict. *)
From Coq Require Import String.
From Verif Require Export PropTotal.
Local Open Scope string_scope.
Local Open Scope nat_scope.
Local Open Scope list_scope.

Definition verdict {A} (r : res A) : Prop := exists v, r = Ok v.
Lemma verdict_not_panic {A} (r : res A) : terminates r -> (verdict r <-> r <> Panic).
Proof.
  intros T. split.
  - intros [v ->]. discriminate.
  - intros N. destruct r as [v| |]; [now exists v|now destruct N|now destruct T].
Qed.

Section C58.
Context {C : Crypto} {L : CryptoLaws C}.

(** every encoding in the list decodes *)
Definition all_decode (l : list Compressed) : Prop := forall c, In c l -> decompress c <> None.

Lemma mapM_unwrap_ok l : all_decode l <-> exists r, mapM (fun c => unwrap (decompress c)) l = Ok r.
Proof.
  unfold all_decode. induction l as [|c l IH]; cbn [mapM].
  - split; [eauto|]. intros _ c [].
  - destruct (decompress c) as [P|] eqn:E; cbn [unwrap bind].
    + split.
      * intros H. destruct (proj1 IH) as [r ->]; [intros; apply H; now right|]. cbn [bind]. eauto.
      * intros [r H] c' [<-|Hc]; [congruence|]. apply bind_Ok_inv in H as (r' & H & _). apply (proj2 IH); eauto.
    + split; [intros H; exfalso; apply (H c); cbn; auto|intros [r H]; discriminate].
Qed.

(** folding [r] challenges gets through exactly when more than [2^d - 2^(d-r)] generators are left *)
Lemma verify_loop_any xs : forall d (G H : list Point), length xs <= d ->
  ((exists n' G' H', foldM (fun '(n, G, H) challenge =>
                 let n := n / 2 in
                 '(G_L, G_R) <- split_at n G ;;
                 '(H_L, H_R) <- split_at n H ;;
                 let G := vector_vector_add G_L (vector_scalar_mul G_R challenge) in
                 let H := vector_vector_add (vector_scalar_mul H_L challenge) H_R in
                 Ok (n, G, H)) xs (2 ^ d, G, H) = Ok (n', G', H') /\ 1 <= length G' /\ 1 <= length H') <->
   2 ^ d - 2 ^ (d - length xs) < length G /\ 2 ^ d - 2 ^ (d - length xs) < length H).
Proof.
  induction xs as [|x xs IH]; intros d G H Hd; cbn [foldM].
  - cbn [length]. rewrite Nat.sub_0_r, Nat.sub_diag. split.
    + intros (n' & G' & H' & E & L1 & L2). inversion E; subst. lia.
    + intros [L1 L2]. exists (2 ^ d), G, H. auto.
  - cbn [length] in *. destruct d as [|d]; [lia|]. cbv zeta. rewrite pow2_half. cbn [Nat.sub].
    assert (X1 := pow2_pos (d - length xs)).
    assert (X2 : 2 ^ (d - length xs) <= 2 ^ d) by (apply Nat.pow_le_mono_r; lia).
    rewrite pow2_S. split.
    + intros (n' & G' & H' & E & L1 & L2).
      apply bind_Ok_inv in E as ([[n1 GL] GR] & E1 & E).
      apply bind_Ok_inv in E1 as ([GL1 GR1] & E1 & E2). apply bind_Ok_inv in E2 as ([HL1 HR1] & E2 & E3).
      apply split_at_Ok in E1 as (A1 & -> & ->). apply split_at_Ok in E2 as (A2 & -> & ->). inversion E3; subst. clear E3.
      assert (Y := proj1 (IH d _ _ ltac:(lia)) (ex_intro _ n' (ex_intro _ G' (ex_intro _ H' (conj E (conj L1 L2)))))).
      unfold vector_vector_add, vector_scalar_mul in Y.
      rewrite !map2_length, !map_length, !firstn_length, !skipn_length in Y. lia.
    + intros [L1 L2]. rewrite !split_at_le by lia. cbn [bind]. apply IH; [lia|].
      unfold vector_vector_add, vector_scalar_mul. rewrite !map2_length, !map_length, !firstn_length, !skipn_length. lia.
Qed.

Lemma verdict_bind {A B} (r : res A) (f : A -> res B) : verdict (bind r f) <-> exists v, r = Ok v /\ verdict (f v).
Proof.
  unfold verdict. split.
  - intros [v E]. apply bind_Ok_inv in E as (u & E1 & E2). eauto.
  - intros (v & -> & u & E). eauto.
Qed.
Lemma verdict_Ok {A} (v : A) : verdict (Ok v).
Proof. now exists v. Qed.
Lemma verdict_idx {A} (l : list A) i : verdict (idx l i) <-> i < length l.
Proof.
  unfold verdict, idx. split.
  - intros [v E]. apply nth_error_Some. destruct (nth_error l i); discriminate.
  - intros H. apply nth_error_Some in H. destruct (nth_error l i) as [v|]; [now exists v|contradiction].
Qed.

(** ** Inner-product argument *)
(** no assumption on the lengths: r is the number of rounds actually folded; for r = |L| the two
    last conditions say that there are at least n generators of each kind *)
Theorem C58_ipa_verdict ro tr pf (G H : list Point) Q n P t :
  let r := Nat.min (length (L_vec pf)) (length (R_vec pf)) in
  (verdict (no_zk_verify ro tr pf G H Q n P t) <->
   all_decode (L_vec pf) /\ all_decode (R_vec pf) /\ n = 2 ^ length (L_vec pf) /\
   n - n / 2 ^ r < length G /\ n - n / 2 ^ r < length H).
Proof.
  intros r. rewrite !mapM_unwrap_ok. unfold verdict at 1, no_zk_verify.
  destruct (mapM _ (L_vec pf)) as [Ls| |] eqn:E1; cbn [bind];
    [|split; [intros [v E]; discriminate|intros ([x E] & _); discriminate]..].
  destruct (mapM _ (R_vec pf)) as [Rs| |] eqn:E2; cbn [bind];
    [|split; [intros [v E]; discriminate|intros (_ & [x E] & _); discriminate]..].
  rewrite (mapM_Ok_length _ _ _ E1). set (d := length (L_vec pf)) in *.
  destruct (Nat.eqb_spec n (2 ^ d)) as [->|Hn]; cbn [assertb bind];
    [|split; [intros [v E]; discriminate|tauto]].
  destruct (challenge_scalar _ _ _) as [al tr1] eqn:EC. clear EC. cbv zeta.
  rewrite generate_challenges_eq, gen_ch_spec.
  set (xs := tab _ _). assert (Hx : length xs = r) by (unfold xs; now rewrite tab_length, combine_length).
  assert (Hr : r <= d) by (unfold r, d; lia).
  assert (EQ : 2 ^ d / 2 ^ r = 2 ^ (d - r)).
  { replace d with ((d - r) + r) at 1 by lia. rewrite Nat.pow_add_r. apply Nat.div_mul. assert (X := pow2_pos r). lia. }
  rewrite EQ. assert (VL := verify_loop_any xs d G H ltac:(lia)). rewrite Hx in VL. cbv zeta in VL. split.
  - intros [v E]. apply bind_Ok_inv in E as ([[n' G'] H'] & EF & E).
    apply bind_Ok_inv in E as (g0 & Eg & E). apply bind_Ok_inv in E as (h0 & Eh & _).
    split; [eauto|]. split; [eauto|]. split; [reflexivity|]. apply VL. exists n', G', H'. split; [exact EF|].
    split; apply verdict_idx; eexists; eauto.
  - intros (_ & _ & _ & HL). apply VL in HL as (n' & G' & H' & EF & L1 & L2). rewrite EF. cbn [bind].
    rewrite (idx_lt G' 0 p0) by lia. cbn [bind]. rewrite (idx_lt H' 0 p0) by lia. cbn [bind]. eauto.
Qed.
Theorem C58_almzk_verdict ro tr pf (G H : list Point) Q n P t :
  let nz := az_NoZK pf in
  let r := Nat.min (length (L_vec nz)) (length (R_vec nz)) in
  (verdict (alm_zk_verify ro tr pf G H Q n P t) <->
   decompress (C_r pf) <> None /\
   all_decode (L_vec nz) /\ all_decode (R_vec nz) /\ n = 2 ^ length (L_vec nz) /\
   n - n / 2 ^ r < length G /\ n - n / 2 ^ r < length H).
Proof.
  intros nz r. unfold alm_zk_verify. destruct (decompress (C_r pf)) as [Cr|]; cbn [unwrap bind].
  - destruct (challenge_scalar _ _ _) as [be tr1]. cbv zeta. rewrite C58_ipa_verdict.
    split; [intros X; split; [discriminate|exact X]|now intros [_ X]].
  - split; [intros [v E]; discriminate|intros [X _]; now destruct X].
Qed.
(** the usual case: n generators of each kind *)
Corollary C58_ipa_verdict_sized ro tr pf (G H : list Point) Q n P t : length G = n -> length H = n ->
  (verdict (no_zk_verify ro tr pf G H Q n P t) <->
   all_decode (L_vec pf) /\ all_decode (R_vec pf) /\ n = 2 ^ length (L_vec pf)).
Proof.
  intros HG HH. rewrite C58_ipa_verdict. cbv zeta. rewrite HG, HH. set (r := Nat.min _ _). split.
  - tauto.
  - intros (H1 & H2 & H3). do 3 (split; [assumption|]). assert (X := pow2_pos r). assert (Y := pow2_pos (length (L_vec pf))).
    assert (Z : 1 <= n / 2 ^ r); [|lia]. apply Nat.div_le_lower_bound; [lia|]. rewrite Nat.mul_1_r, H3.
    apply Nat.pow_le_mono_r; unfold r; lia.
Qed.
Corollary C58_almzk_verdict_sized ro tr pf (G H : list Point) Q n P t : length G = n -> length H = n ->
  (verdict (alm_zk_verify ro tr pf G H Q n P t) <->
   decompress (C_r pf) <> None /\
   all_decode (L_vec (az_NoZK pf)) /\ all_decode (R_vec (az_NoZK pf)) /\ n = 2 ^ length (L_vec (az_NoZK pf))).
Proof.
  intros HG HH. unfold alm_zk_verify. destruct (decompress (C_r pf)) as [Cr|]; cbn [unwrap bind].
  - destruct (challenge_scalar _ _ _) as [be tr1]. cbv zeta. rewrite C58_ipa_verdict_sized by auto.
    split; [intros X; split; [discriminate|exact X]|now intros [_ X]].
  - split; [intros [v E]; discriminate|intros [X _]; now destruct X].
Qed.

(** ** QESA *)
Definition alm_shape (n : nat) (pf : AlmZK) : Prop :=
  decompress (C_r pf) <> None /\
  all_decode (L_vec (az_NoZK pf)) /\ all_decode (R_vec (az_NoZK pf)) /\ n = 2 ^ length (L_vec (az_NoZK pf)).

Lemma inner_verify_decodes ro tr pf G H Q Ms : verdict (inner_verify ro tr pf G H Q Ms) ->
  decompress (c_prime_w pf) <> None /\ decompress (c_prime_prime_w pf) <> None.
Proof.
  intros [v E]. unfold inner_verify in E. cbv zeta in E.
  destruct (decompress (c_prime_w pf)) as [P1|]; cbn [unwrap bind] in E; [|discriminate].
  split; [discriminate|].
  destruct (challenge_scalar _ _ "x") as [x tr1].
  apply bind_Ok_inv in E as (xs & _ & E). apply bind_Ok_inv in E as (gm & _ & E).
  apply bind_Ok_inv in E as (be & _ & E). apply bind_Ok_inv in E as (g0 & _ & E).
  apply bind_Ok_inv in E as (G1 & _ & E). apply bind_Ok_inv in E as (P2 & E2 & _).
  destruct (decompress (c_prime_prime_w pf)); discriminate.
Qed.

Theorem C58_qesa_verdict ro tr pf (G H : list Point) Q Ms n :
  3 <= n -> length G = n -> length H = n -> 1 <= length Ms -> Forall (rect (n - 2) (n - 2)) Ms ->
  (verdict (inner_verify ro tr pf G H Q (mkBlockMatrix Ms)) <->
   decompress (c_prime_w pf) <> None /\ decompress (c_prime_prime_w pf) <> None /\ alm_shape n (alm_zk pf)).
Proof.
  intros Hn HG HH HM HF.
  enough (X : decompress (c_prime_w pf) <> None -> decompress (c_prime_prime_w pf) <> None ->
              (verdict (inner_verify ro tr pf G H Q (mkBlockMatrix Ms)) <-> alm_shape n (alm_zk pf))).
  { split.
    - intros V. destruct (inner_verify_decodes _ _ _ _ _ _ _ V) as [D1 D2]. split; auto. split; auto. now apply X.
    - intros (D1 & D2 & S). now apply X. }
  destruct (decompress (c_prime_w pf)) as [P1|] eqn:D1; [|congruence].
  destruct (decompress (c_prime_prime_w pf)) as [P2|] eqn:D2; [|congruence].
  intros _ _. assert (VE := inner_verify_eq ro tr pf G H Q Ms n P1 P2 Hn HG HH HM HF D1 D2). cbv zeta in VE. rewrite VE.
  apply C58_almzk_verdict_sized; auto. now rewrite q_G_length.
Qed.
Theorem C58_zk_verdict ro tr pf (G H : list Point) Q Ms n :
  3 <= n -> length G = n -> length H = n -> 1 <= length Ms -> Forall (rect (n - 2) (n - 2)) Ms ->
  (verdict (zk_verify ro tr pf G H Q (mkBlockMatrix Ms)) <->
   decompress (c_prime_w (zk_inner pf)) <> None /\ decompress (c_prime_prime_w (zk_inner pf)) <> None /\
   alm_shape n (alm_zk (zk_inner pf))).
Proof. intros. unfold zk_verify. now apply C58_qesa_verdict. Qed.

(** ** Copy argument. The inner c_prime_w is replaced before use, so it need not decode. *)
Theorem C58_copy_verdict ro tr pf (G H : list Point) Q Ms mp Cs n :
  3 <= n -> length G = n -> length H = n -> good_map n (length Cs) mp -> 1 <= length Cs ->
  1 <= length Ms + length (msgs_map mp) -> Forall (rect (n - 2) (n - 2)) Ms ->
  (verdict (copy_verify ro tr pf G H Q (mkBlockMatrix Ms) mp Cs) <->
   decompress (cp_C_w pf) <> None /\ decompress (c_prime_prime_w (cp_inner pf)) <> None /\
   alm_shape n (alm_zk (cp_inner pf))).
Proof.
  intros Hn HG HH HMap HC HM HF.
  destruct (decompress (cp_C_w pf)) as [Cw|] eqn:D.
  - rewrite (copy_verify_eq ro tr pf G H Q mp Ms Cs n Cw) by auto.
    rewrite C58_qesa_verdict with (n := n); auto.
    + cbn [c_prime_w c_prime_prime_w alm_zk]. rewrite decompress_compress. 
      split; intros (A & B & S); (split; [discriminate|split; assumption]).
    + unfold cp_system. rewrite app_length, map_length.
      destruct (msgs_map mp) as [|m ms] eqn:Em; [cbn in HM; lia|].
      assert (X : In (commitment_index m) (unique_commitment_indices mp)).
      { apply HMap. exists m. split; auto. rewrite Em. now left. }
      destruct (unique_commitment_indices mp); [destruct X|cbn; lia].
    + unfold cp_system. apply Forall_app. split; auto. apply Forall_forall. intros M HMi.
      apply in_map_iff in HMi as (c & <- & _). now apply cp_matrix_rect.
  - split; [|intros [X _]; now destruct X]. intros [v E]. exfalso. unfold copy_verify in E. cbv zeta in E.
    destruct (challenge_scalar _ _ _) as [al tr1]. apply bind_Ok_inv in E as (als & _ & E). rewrite D in E. discriminate.
Qed.

(** ** Linear-map preimage argument *)
Lemma ftgt_nonempty c Lr Rr t : 1 <= length (ftgt c Lr Rr t) <-> Lr <> [] /\ Rr <> [] /\ t <> [].
Proof.
  unfold ftgt. rewrite map2_length, combine_length.
  destruct Lr, Rr, t; cbn; split; intros; try lia; repeat split; try discriminate; try tauto; lia.
Qed.
(** rows of even length halve, so divisibility by [2^(d+1)] becomes divisibility by [2^d] *)
Lemma divide_half d n : Nat.divide (2 ^ S d) n <-> Nat.Even n /\ Nat.divide (2 ^ d) (n / 2).
Proof.
  rewrite pow2_S. split.
  - intros [q E]. replace n with ((q * 2 ^ d) * 2) by lia. rewrite Nat.div_mul by lia.
    split; [exists (q * 2 ^ d); lia|now exists q].
  - intros [[h E] [q E']]. subst n. rewrite Nat.mul_comm, Nat.div_mul in E' by lia. exists q. lia.
Qed.
Lemma frow_length_any c row : Nat.Even (length row) -> length (frow c row) = length row / 2.
Proof.
  intros [h E]. rewrite (frow_length h) by lia. rewrite E, Nat.mul_comm. symmetry. now apply Nat.div_mul.
Qed.
Lemma fold_divides d c A : Forall (fun row => Nat.Even (length row)) A ->
  Forall (fun row => Nat.divide (2 ^ d) (length row)) (map (frow c) A) <->
  Forall (fun row => Nat.divide (2 ^ S d) (length row)) A.
Proof.
  intros HE. rewrite Forall_map. rewrite !Forall_forall in *.
  split; intros H row Hr; specialize (H row Hr); specialize (HE row Hr).
  - apply divide_half. rewrite frow_length_any in H by auto. auto.
  - rewrite frow_length_any by auto. now apply divide_half in H as [_ H].
Qed.
Lemma log2_step n d : 2 ^ S d <= n < 2 ^ S (S d) -> 2 ^ d <= n / 2 < 2 ^ S d.
Proof.
  rewrite !pow2_S. intros H. split; [apply Nat.div_le_lower_bound; lia|apply Nat.div_lt_upper_bound; lia].
Qed.
Lemma map_nonempty {T U} (f : T -> U) A : map f A <> [] <-> A <> [].
Proof. destruct A; cbn; split; intros H; auto; discriminate. Qed.

(** the loop for an arbitrary size, an arbitrary (possibly ragged) matrix *)
Lemma lmpa_loop_verdict pf ro : forall d n f tr A t i, 2 ^ d <= n < 2 ^ S d ->
  length (lm_L pf) < i + f -> i <= length (lm_L pf) -> i <= length (lm_R pf) ->
  (verdict (lmpa_verify_loop f ro tr pf n A t i) <->
   A <> [] /\ Forall (fun row => Nat.divide (2 ^ d) (length row)) A /\
   i + d <= length (lm_L pf) /\ i + d <= length (lm_R pf) /\ t <> [] /\
   forall j, i <= j < i + d -> nth j (lm_L pf) [] <> [] /\ nth j (lm_R pf) [] <> []).
Proof.
  induction d as [|d IH]; intros n f tr A t i Hn Hf Hi Hr.
  - destruct f as [|f]; [lia|]. cbn [lmpa_verify_loop]. assert (E : n = 1) by (cbn in Hn; lia). subst n.
    change (1 =? 1) with true. cbv iota zeta. split.
    + intros V. apply verdict_bind in V as (e0 & E0 & V). apply verdict_bind in V as (t0 & E & _).
      split; [intros ->; discriminate|]. split; [apply Forall_forall; intros; apply Nat.divide_1_l|].
      split; [lia|]. split; [lia|]. split; [intros ->; discriminate|]. intros j Hj. lia.
    + intros (HA & _ & _ & _ & Ht & _). destruct t as [|t0 t]; [now destruct Ht|].
      destruct A as [|row A]; [now destruct HA|]. cbn [matrixpoint_vector_mul map idx nth_error bind]. apply verdict_Ok.
  - destruct f as [|f]; [lia|].
    assert (Hn1 : n <> 1) by (rewrite pow2_S in Hn; assert (X := pow2_pos d); lia).
    destruct (nth_error (lm_L pf) i) as [Lr|] eqn:EL.
    2:{ apply nth_error_None in EL. split; [|lia]. intros [v E]. exfalso. cbn [lmpa_verify_loop] in E.
        destruct (Nat.eqb_spec n 1); [contradiction|]. cbv zeta in E. unfold idx in E.
        rewrite (proj2 (nth_error_None _ _) EL) in E. discriminate. }
    destruct (nth_error (lm_R pf) i) as [Rr|] eqn:ER.
    2:{ apply nth_error_None in ER. split; [|lia]. intros [v E]. exfalso. cbn [lmpa_verify_loop] in E.
        destruct (Nat.eqb_spec n 1); [contradiction|]. cbv zeta in E. unfold idx in E.
        rewrite EL in E. cbn [bind] in E. rewrite (proj2 (nth_error_None _ _) ER) in E. discriminate. }
    assert (BL : i < length (lm_L pf)) by (apply nth_error_Some; congruence).
    assert (BR : i < length (lm_R pf)) by (apply nth_error_Some; congruence).
    rewrite (lm_verify_step _ _ _ _ _ _ _ _ Lr Rr) by auto. cbv zeta.
    set (tr1 := tr ++ lm_round Lr Rr).
    assert (D : Forall (fun row => Nat.Even (length row)) A \/ ~ Forall (fun row => Nat.Even (length row)) A).
    { destruct (Forall_dec (fun row : list Point => Nat.Even (length row))
        (fun row => match Nat.Even_Odd_dec (length row) with
                    | left p => left p
                    | right q => right (fun p => Nat.Even_Odd_False _ p q) end) A); auto. }
    destruct D as [HE|HE].
    2:{ rewrite fold_matrix_panic by auto. cbn [bind]. split; [intros [v E]; discriminate|].
        intros (_ & HD & _). exfalso. apply HE. eapply Forall_impl; [|exact HD]. cbn. intros row Hd.
        now apply divide_half in Hd as [Hd _]. }
    rewrite fold_matrix by auto. cbn [bind].
    rewrite (IH (n / 2) f tr1 (map (frow (ro tr1)) A) (ftgt (ro tr1) Lr Rr t) (S i)) by (try apply log2_step; auto; lia).
    rewrite fold_divides, map_nonempty by auto. clear IH.
    assert (Ht : ftgt (ro tr1) Lr Rr t <> [] <-> Lr <> [] /\ Rr <> [] /\ t <> []).
    { rewrite <- (ftgt_nonempty (ro tr1)). destruct (ftgt _ _ _ _); cbn; split; intros; try lia; try discriminate. now destruct H. }
    rewrite Ht. clear Ht. assert (EL' := nth_error_nth _ _ [] EL). assert (ER' := nth_error_nth _ _ [] ER).
    split.
    * intros (HA & HD & H1 & H2 & (H3 & H4 & H5) & H6). do 2 (split; [assumption|]). repeat split; auto; try lia.
      -- destruct (Nat.eq_dec i j) as [<-|]; [now rewrite EL'|]. apply H6. lia.
      -- destruct (Nat.eq_dec i j) as [<-|]; [now rewrite ER'|]. apply H6. lia.
    * intros (HA & HD & H1 & H2 & H3 & H4). do 2 (split; [assumption|]). destruct (H4 i) as [H5 H6]; [lia|].
      rewrite EL' in H5. rewrite ER' in H6. repeat split; auto; try lia; apply H4; lia.
Qed.
(** with n = 0 the loop never reaches n = 1: it reads L until it runs out of it *)
Lemma lmpa_loop_zero pf ro : forall f tr A t i, ~ verdict (lmpa_verify_loop f ro tr pf 0 A t i).
Proof.
  induction f as [|f IH]; intros tr A t i [v E]; [discriminate|]. cbn [lmpa_verify_loop] in E.
  change (0 =? 1) with false in E. cbv iota zeta in E.
  apply bind_Ok_inv in E as (Lr & _ & E). apply bind_Ok_inv in E as (Rr & _ & E).
  destruct (challenge_scalar _ _ _) as [c tr1]. apply bind_Ok_inv in E as (A' & _ & E).
  change (0 / 2) with 0 in E. eapply IH. exists v. exact E.
Qed.
(** Exactly which inputs get a verdict: the number of rounds is floor(log2 n), n must be
    the number of generators, the matrix must have a row, and every row's length must be
    divisible by 2^rounds - it need not be n, and n need not be a power of two. *)
Theorem C58_lmpa_verdict ro tr pf A (G H : list Point) Q n t :
  let d := Nat.log2 n in
  (verdict (lmpa_verify ro tr pf A G H Q n t) <->
   n = length G /\ 1 <= n /\ A <> [] /\ Forall (fun row => Nat.divide (2 ^ d) (length row)) A /\
   d <= length (lm_L pf) /\ d <= length (lm_R pf) /\ t <> [] /\
   forall j, j < d -> nth j (lm_L pf) [] <> [] /\ nth j (lm_R pf) [] <> []).
Proof.
  intros d. unfold lmpa_verify. destruct (Nat.eqb_spec n (length G)) as [HG|HG]; cbn [assertb bind].
  2:{ split; [intros [v E]; discriminate|tauto]. }
  destruct (Nat.eq_dec n 0) as [->|Hn].
  { split; [intros V; now apply lmpa_loop_zero in V|lia]. }
  rewrite (lmpa_loop_verdict pf ro d n) by (try (apply Nat.log2_spec); lia). cbn [Nat.add].
  assert (X : (forall j, 0 <= j < d -> nth j (lm_L pf) [] <> [] /\ nth j (lm_R pf) [] <> []) <->
              (forall j, j < d -> nth j (lm_L pf) [] <> [] /\ nth j (lm_R pf) [] <> [])).
  { split; intros Y j Hj; apply Y; lia. }
  rewrite X. assert (1 <= n) by lia. tauto.
Qed.
Theorem C58_simplezk_verdict ro tr pf A (G H : list Point) Q n t :
  let d := Nat.log2 n in
  let np := sz_no_zk pf in
  (verdict (simple_zk_verify ro tr pf A G H Q n t) <->
   n = length G /\ 1 <= n /\ A <> [] /\ Forall (fun row => Nat.divide (2 ^ d) (length row)) A /\
   d <= length (lm_L np) /\ d <= length (lm_R np) /\ t <> [] /\ sz_a pf <> [] /\
   forall j, j < d -> nth j (lm_L np) [] <> [] /\ nth j (lm_R np) [] <> []).
Proof.
  intros d np. unfold simple_zk_verify. destruct (Nat.eqb_spec n (length G)) as [HG|HG]; cbn [assertb bind].
  2:{ split; [intros [v E]; discriminate|tauto]. }
  cbv zeta. destruct (challenge_scalar _ _ _) as [be tr1]. rewrite C58_lmpa_verdict. fold np d.
  assert (Ht : map2 (fun t_i a_i => be *: t_i + a_i)%P t (sz_a pf) <> [] <-> t <> [] /\ sz_a pf <> []).
  { destruct t, (sz_a pf); cbn; split; try tauto; intros; repeat split; try discriminate; now destruct H0. }
  rewrite Ht. tauto.
Qed.
(** the usual case: a rectangular matrix of width 2^d over 2^d generators *)
Corollary C58_lmpa_verdict_square ro tr pf A (G H : list Point) Q m d t :
  1 <= m -> rect m (2 ^ d) A -> length G = 2 ^ d ->
  (verdict (lmpa_verify ro tr pf A G H Q (2 ^ d) t) <->
   d <= length (lm_L pf) /\ d <= length (lm_R pf) /\ t <> [] /\
   forall j, j < d -> nth j (lm_L pf) [] <> [] /\ nth j (lm_R pf) [] <> []).
Proof.
  intros Hm [H1 H2] HG. rewrite C58_lmpa_verdict. rewrite Nat.log2_pow2 by lia.
  assert (A <> []) by (intros ->; cbn in H1; lia). assert (X := pow2_pos d).
  assert (Forall (fun row => Nat.divide (2 ^ d) (length row)) A).
  { eapply Forall_impl; [|exact H2]. cbn. intros row ->. apply Nat.divide_refl. }
  assert (1 <= 2 ^ d) by lia. intuition.
Qed.

(** ** k-ary version *)
(** a block of messages the verifier can fold: at least 2k-1 rows, the first 2k-1 of one length *)
Definition kary_block (k : nat) (u : list (list Point)) : Prop :=
  2 * (k - 1) + 1 <= length u /\
  forall l, l < 2 * (k - 1) + 1 -> length (nth l u []) = length (nth 0 u []).

Section Fold.
Context (u : list (list Point)) (N : nat) (zf : nat -> Scalar).
Let body := fun (acc : option (list Point)) i =>
           tmp <- (u_i <- idx u i ;; z_i <- idx (tab N zf) i ;; Ok (vectorpoint_scalar_mul u_i z_i)) ;;
           match acc with
           | None => Ok (Some tmp)
           | Some a => s <- rowpoint_rowpoint_add a tmp ;; Ok (Some s)
           end.
Lemma body_ok acc i : i < N -> (match acc with None => True | Some a => length a = length (nth 0 u []) end) ->
  (acc = None -> i = 0) ->
  (verdict (body acc i) <-> i < length u /\ length (nth i u []) = length (nth 0 u [])) /\
  (forall r, body acc i = Ok r -> exists a, r = Some a /\ length a = length (nth 0 u [])).
Proof.
  intros HiN Ha H0. unfold body.
  destruct (Nat.lt_ge_cases i (length u)) as [Hi|Hi].
  2:{ unfold idx at 1 3. rewrite (proj2 (nth_error_None u i) Hi). cbn [bind].
      split; [|discriminate]. split; [intros [v E]; discriminate|lia]. }
  rewrite !(idx_lt u i []) by auto. cbn [bind].
  rewrite !(idx_lt (tab N zf) i s0) by (now rewrite tab_length). cbn [bind].
  assert (Lv : forall z, length (vectorpoint_scalar_mul (nth i u []) z) = length (nth i u []))
    by (intros z; unfold vectorpoint_scalar_mul; apply map_length).
  destruct acc as [a|].
  - unfold rowpoint_rowpoint_add. rewrite Lv, Ha.
    destruct (Nat.eqb_spec (length (nth 0 u [])) (length (nth i u []))) as [E|E]; cbn [assertb bind].
    + split; [split; [auto|intros; apply verdict_Ok]|]. intros r [= <-]. eexists. split; [reflexivity|].
      rewrite map2_length, Lv. lia.
    + split; [|discriminate]. split; [intros [v X]; discriminate|intros [_ X]; congruence].
  - specialize (H0 eq_refl). subst i. split; [split; [auto|intros; apply verdict_Ok]|].
    intros r [= <-]. eexists. split; [reflexivity|]. apply Lv.
Qed.
Lemma fold_t_verdict : 1 <= N ->
  let r := sum_loop (fun i => u_i <- idx u i ;; z_i <- idx (tab N zf) i ;;
                     Ok (vectorpoint_scalar_mul u_i z_i)) rowpoint_rowpoint_add N in
  (verdict r <-> N <= length u /\ forall l, l < N -> length (nth l u []) = length (nth 0 u [])) /\
  (forall t, r = Ok t -> length t = length (nth 0 u [])).
Proof.
  intros HN. unfold sum_loop. fold body.
  assert (X : forall j, j <= N ->
    (verdict (foldM body (seq 0 j) None) <-> j <= length u /\ forall l, l < j -> length (nth l u []) = length (nth 0 u [])) /\
    (forall r, foldM body (seq 0 j) None = Ok r ->
       match r with None => j = 0 | Some a => length a = length (nth 0 u []) end)).
  { induction j as [|j IH]; intros Hj.
    - cbn [seq foldM]. split; [split; [intros _; split; [lia|intros; lia]|intros; apply verdict_Ok]|].
      intros r [= <-]. reflexivity.
    - destruct IH as [IH1 IH2]; [lia|]. rewrite seq_S, foldM_app. cbn [Nat.add].
      assert (Y : forall acc, foldM body (seq 0 j) None = Ok acc ->
        (verdict (body acc j) <-> j < length u /\ length (nth j u []) = length (nth 0 u [])) /\
        (forall r, body acc j = Ok r -> exists a, r = Some a /\ length a = length (nth 0 u []))).
      { intros acc E. apply body_ok; [lia| |].
        - specialize (IH2 _ E). destruct acc; auto.
        - intros ->. exact (IH2 _ E). }
      split.
      + rewrite verdict_bind. split.
        * intros (acc & E & V). cbn [foldM] in V. apply verdict_bind in V as (r & E' & _).
          destruct (Y acc E) as [Y1 _]. destruct (proj1 Y1 (ex_intro _ r E')) as [A1 A2].
          destruct (proj1 IH1 (ex_intro _ acc E)) as [A3 A4]. split; [lia|].
          intros l Hl. destruct (Nat.eq_dec l j) as [->|]; [auto|apply A4; lia].
        * intros [A1 A2]. destruct (proj2 IH1) as [acc E]; [split; [lia|intros; apply A2; lia]|].
          exists acc. split; auto. cbn [foldM]. destruct (Y acc E) as [Y1 _].
          destruct (proj2 Y1) as [r Er]; [split; [lia|apply A2; lia]|]. rewrite Er. apply verdict_Ok.
      + intros r E. apply bind_Ok_inv in E as (acc & E & E'). cbn [foldM] in E'. apply bind_Ok_inv in E' as (r' & E' & E2).
        injection E2 as <-. destruct (Y acc E) as [_ Y2]. destruct (Y2 _ E') as (a & -> & Ha). exact Ha. }
  destruct (X N) as [X1 X2]; [lia|]. cbv zeta. split.
  - rewrite <- X1, verdict_bind. split.
    + intros (v & E & _). now exists v.
    + intros [v E]. exists v. split; auto. specialize (X2 _ E). destruct v; [apply verdict_Ok|lia].
  - intros t E. apply bind_Ok_inv in E as (v & E & E'). specialize (X2 _ E). destruct v; [|discriminate]. cbn in E'.
    injection E' as <-. exact X2.
Qed.
End Fold.

(** the vector whose first entry is compared: t itself, or the first row of the last block folded *)
Definition kary_last (d : nat) (t : list Point) (U : list (list (list Point))) : list Point :=
  match d with O => t | S d' => nth 0 (nth d' U []) [] end.

Lemma kary_loop_verdict pf ro k r zero m' : 2 <= k -> 1 <= r < k -> forall d f tr m A t i, rect m (r * k ^ d) A -> 1 <= m ->
  length (u_proof_Block pf) < i + f -> i <= length (u_proof_Block pf) ->
  (verdict (kary_verify_loop f ro tr pf A t (r * k ^ d) m' k s1 zero i) <->
   i + d <= length (u_proof_Block pf) /\
   (forall j, i <= j < i + d -> kary_block k (nth j (u_proof_Block pf) [])) /\
   A_Matrix pf <> [] /\
   match d with O => t | S d' => nth 0 (nth (i + d') (u_proof_Block pf) []) [] end <> []).
Proof.
  intros Hk Hr. induction d as [|d IH]; intros f tr m A t i HA Hm Hf Hi.
  - destruct f as [|f]; [lia|]. cbn [kary_verify_loop].
    destruct (Nat.leb_spec k (r * k ^ 0)) as [Hkk|_]; [rewrite Nat.pow_0_r in Hkk; lia|]. cbv zeta.
    split.
    + intros V. apply verdict_bind in V as (e0 & E & V). apply verdict_bind in V as (t0 & E' & _).
      split; [lia|]. split; [intros; lia|]. split; [intros HN; rewrite HN in E; discriminate|intros ->; discriminate].
    + intros (_ & _ & H1 & H2). destruct (A_Matrix pf) as [|a0 As]; [now destruct H1|].
      destruct t as [|t0 t]; [now destruct H2|]. cbn. apply verdict_Ok.
  - destruct f as [|f]; [lia|].
    assert (En : r * k ^ S d = k * (r * k ^ d)) by (rewrite Nat.pow_succ_r'; lia).
    assert (Hc : 1 <= r * k ^ d) by (assert (X := Nat.pow_nonzero k d); nia).
    rewrite En in HA |- *. set (c := r * k ^ d) in *.
    cbn [kary_verify_loop]. destruct (Nat.leb_spec k (k * c)); [|nia].
    unfold udiv. destruct (Nat.eqb_spec k 0); [lia|]. cbn [bind].
    assert (Ec : k * c / k = c) by (rewrite Nat.mul_comm; apply Nat.div_mul; lia).
    rewrite Ec. rewrite (matrix_split_eq m c k) by (auto; lia). cbn [bind].
    rewrite usub_le by lia. cbn [bind].
    destruct (nth_error (u_proof_Block pf) i) as [u|] eqn:EU.
    2:{ unfold idx at 1. rewrite EU. cbn [bind]. apply nth_error_None in EU.
        split; [intros [v E]; discriminate|lia]. }
    assert (BU : i < length (u_proof_Block pf)) by (apply nth_error_Some; congruence).
    assert (EU' := nth_error_nth _ _ [] EU).
    unfold idx at 1. rewrite EU. cbn [bind].
    unfold challenge_scalar. rewrite fold_append. set (tr1 := tr ++ ka_round u). set (x := ro tr1).
    rewrite !vandemonde_vector_eq by lia. cbn [bind]. rewrite z_vec_loop_ok by lia. cbn [bind].
    rewrite (fold_A_loop m k) by (auto; lia). cbn [bind].
    destruct (fold_t_verdict u (2 * (k - 1) + 1) (kzf k x)) as [F1 F2]; [lia|].
    rewrite verdict_bind. split.
    + intros (t' & Et & V). apply (IH _ _ m) in V; [|apply ka_A_rect|auto|lia|lia]. destruct V as (V1 & V2 & V3 & V4).
      assert (B : kary_block k u) by (apply F1; now exists t').
      split; [lia|]. split; [|split; [auto|]].
      * intros j Hj. destruct (Nat.eq_dec j i) as [->|]; [now rewrite EU'|apply V2; lia].
      * destruct d as [|d].
        -- rewrite Nat.add_0_r, EU'. apply F2 in Et. intros E0. rewrite E0 in Et. destruct t'; [now destruct V4|discriminate].
        -- now replace (i + S d) with (S i + d) by lia.
    + intros (V1 & V2 & V3 & V4).
      assert (B : kary_block k u) by (rewrite <- EU'; apply V2; lia).
      destruct (proj2 F1 B) as [t' Et]. exists t'. split; auto.
      apply (IH _ _ m); [apply ka_A_rect|auto|lia|lia|]. split; [lia|]. split; [|split; [auto|]].
      * intros j Hj. apply V2. lia.
      * destruct d as [|d].
        -- rewrite Nat.add_0_r, EU' in V4. apply F2 in Et. intros ->. cbn [length] in Et. symmetry in Et.
           apply length_zero_iff_nil in Et. contradiction.
        -- now replace (S i + d) with (i + S d) by lia.
Qed.
Theorem C58_kary_verdict ro tr pf A t r d m k m' zero : 2 <= k -> 1 <= r < k -> 1 <= m -> rect m (r * k ^ d) A ->
  (verdict (verify_lmpa_noZK ro tr pf A t (r * k ^ d) m' k s1 zero) <->
   d <= length (u_proof_Block pf) /\
   (forall j, j < d -> kary_block k (nth j (u_proof_Block pf) [])) /\
   A_Matrix pf <> [] /\ kary_last d t (u_proof_Block pf) <> []).
Proof.
  intros Hk Hr Hm HA. unfold verify_lmpa_noZK.
  rewrite (kary_loop_verdict pf ro k r zero m' Hk Hr d _ tr m) by (auto; lia). cbn [Nat.add].
  unfold kary_last. split; intros (H1 & H2 & H3); (split; [auto|split; [|auto]]); intros j Hj; apply H2; lia.
Qed.

(** ** Panics are the only other outcome *)
Corollary C58_otherwise_panics ro tr :
  (forall pf (G H : list Point) Q n P t,
     ~ verdict (no_zk_verify ro tr pf G H Q n P t) -> no_zk_verify ro tr pf G H Q n P t = Panic) /\
  (forall pf (G H : list Point) Q n P t,
     ~ verdict (alm_zk_verify ro tr pf G H Q n P t) -> alm_zk_verify ro tr pf G H Q n P t = Panic) /\
  (forall pf (G H : list Point) Q Ms,
     ~ verdict (inner_verify ro tr pf G H Q Ms) -> inner_verify ro tr pf G H Q Ms = Panic) /\
  (forall pf (G H : list Point) Q Ms mp Cs,
     ~ verdict (copy_verify ro tr pf G H Q Ms mp Cs) -> copy_verify ro tr pf G H Q Ms mp Cs = Panic) /\
  (forall pf A (G H : list Point) Q n t,
     ~ verdict (lmpa_verify ro tr pf A G H Q n t) -> lmpa_verify ro tr pf A G H Q n t = Panic) /\
  (forall pf A (G H : list Point) Q n t,
     ~ verdict (simple_zk_verify ro tr pf A G H Q n t) -> simple_zk_verify ro tr pf A G H Q n t = Panic) /\
  (forall pf A t n m k one zero,
     ~ verdict (verify_lmpa_noZK ro tr pf A t n m k one zero) -> verify_lmpa_noZK ro tr pf A t n m k one zero = Panic).
Proof.
  assert (X : forall T (r : res T), terminates r -> ~ verdict r -> r = Panic).
  { intros T r HT HV. destruct r as [v| |]; [exfalso; apply HV; now exists v|reflexivity|now destruct HT]. }
  repeat split; intros; apply X; auto.
  - apply C57_ipa_verifier_terminates.
  - apply C57_almzk_verifier_terminates.
  - apply C57_qesa_verifier_terminates.
  - apply C57_copy_verifier_terminates.
  - apply C57_lmpa_verifier_terminates.
  - apply C57_simplezk_verifier_terminates.
  - apply C57_kary_verifier_terminates.
Qed.
End C58.

(** Concrete case: an undecodable byte string among L makes the inner-product verifier
    panic, a well-shaped wrong proof gets the verdict false. *)
Example C58_case :
  let pf Ls := mkNoZK (C := EX) Ls [[4%Z]] (sN 4) (sN 8) in
  let ipa Ls := rmap fst (no_zk_verify ro1 [] (pf Ls) [pN 5; pN 11] [pN 2; pN 9] (pN 17) 2 (pN 500) (sN 32)) in
  let lm Ls t := rmap fst (lmpa_verify ro1 [] (mkLmpaNoZK (C := EX) Ls [[pN 1; pN 2]] (sN 3))
                     [[pN 1; pN 2]; [pN 3; pN 4]] [pN 1; pN 1] [pN 1; pN 1] p0 2 t) in
  let ka u := rmap fst (verify_lmpa_noZK ro1 [] (mkLmpaKary (C := EX) [[pN 1]] [] [sN 2] [u])
                     [[pN 1; pN 2]] [pN 7] 2 1 2 s1 p0) in
  ipa [[3%Z]] = Ok false /\ ipa [[pe]] = Panic /\ ipa [[3%Z]; [3%Z]] = Panic /\
  lm [[pN 1; pN 2]] [pN 1; pN 1] = Ok false /\ lm [[pN 9]] [pN 1] = Ok false /\
  lm [] [pN 1] = Panic /\ lm [[]] [pN 1] = Panic /\ lm [[pN 1]] [] = Panic /\
  ka [[pN 1]; [pN 2]; [pN 3]] = Ok false /\ ka [[pN 1]; [pN 2]] = Panic /\
  ka [[pN 1]; [pN 2; pN 2]; [pN 3]] = Panic /\ ka [[]; []; []] = Panic /\
  ka [[pN 1]; [pN 2]; [pN 3]; [pN 4; pN 4]] = Ok false.
Proof. vm_compute. repeat split. Qed.

(** Concrete case for the sizes: over two generators the linear-map verifier panics when told
    n = 1 or n = 4 and with an odd number of columns, gets to a verdict on a 4-column matrix
    (and on a ragged one), and with three generators it runs floor(log2 3) = 1 round. *)
Example C58_case_sizes :
  let pf := mkLmpaNoZK (C := EX) [[pN 1]] [[pN 2]] (sN 3) in
  let lm A g n := rmap fst (lmpa_verify ro1 [] pf A (repeat (pN 1) g) [] p0 n [pN 7]) in
  let sz A g n := rmap fst (simple_zk_verify ro1 [] (mkSimpleZK (C := EX) pf [pN 1]) A (repeat (pN 1) g) [] p0 n [pN 7]) in
  let W k := [repeat (pN 5) k] in
  lm (W 2) 2 2 = Ok false /\ lm (W 2) 2 1 = Panic /\ lm (W 2) 2 4 = Panic /\ lm (W 1) 1 2 = Panic /\
  lm (W 3) 2 2 = Panic /\ lm (W 4) 2 2 = Ok false /\ lm (W 2 ++ W 4) 2 2 = Ok false /\
  lm (W 2 ++ W 3) 2 2 = Panic /\ lm (W 2) 3 3 = Ok false /\ lm (W 3) 3 3 = Panic /\
  lm (W 4) 4 4 = Panic /\ lm (W 0) 0 0 = Panic /\ lm [] 2 2 = Panic /\
  sz (W 2) 2 2 = Ok false /\ sz (W 2) 2 1 = Panic /\ sz (W 1) 1 2 = Panic /\ sz (W 2) 3 3 = Ok false.
Proof. vm_compute. repeat split. Qed.
