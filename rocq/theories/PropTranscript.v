(** C50: transcript layouts *)
From Coq Require Import String.
From Verif Require Export TransSpec Ex.
From Verif Require Import IpaFacts LmpaFacts KaryFacts QesaFacts CopyFacts PropIpa PropLmpa PropSimpleZK PropKary.
Local Open Scope string_scope.
Local Open Scope nat_scope.
Local Open Scope list_scope.

Section Follows.
Context {C : Crypto} {L : CryptoLaws C}.

Definition follows (f : oracle -> res (bool * transcript)) (tr : transcript) (lay : transcript -> Prop) : Prop :=
  forall ro b tr', f ro = Ok (b, tr') ->
    exists ext, lay ext /\ tr' = tr ++ ext /\ only_reads f tr ext b ro.

Lemma fol_ext f g tr lay : follows g tr lay -> (forall ro, f ro = g ro) -> follows f tr lay.
Proof.
  intros F H ro b tr' E. rewrite H in E. destruct (F ro b tr' E) as (ext & H1 & H2 & H3). exists ext. split; auto. split; auto.
  intros ro' A. rewrite H. now apply H3.
Qed.
Lemma fol_imp f tr (lay lay' : transcript -> Prop) : follows f tr lay -> (forall e, lay e -> lay' e) -> follows f tr lay'.
Proof. intros F H ro b tr' E. destruct (F ro b tr' E) as (ext & H1 & H2 & H3). exists ext. auto. Qed.
Lemma fol_msg es f tr (lay : transcript -> Prop) : follows f (tr ++ es) (fun e => lay (es ++ e)) -> follows f tr lay.
Proof.
  intros F ro b tr' E. destruct (F ro b tr' E) as (ext & H1 & H2 & H3). exists (es ++ ext). split; auto.
  split; [now rewrite app_assoc|]. intros ro' A. rewrite app_assoc. apply H3. intros h (e1 & l & e2 & -> & ->). apply A.
  exists (es ++ e1), l, e2. split; now rewrite <- !app_assoc.
Qed.
Lemma fol_chal (g : Scalar -> oracle -> res (bool * transcript)) tr l (lay : transcript -> Prop) :
  (forall x, follows (g x) (tr ++ [EvChal l]) (fun e => lay (EvChal l :: e))) ->
  follows (fun ro => g (ro (tr ++ [EvChal l])) ro) tr lay.
Proof.
  intros F ro b tr' E. destruct (F _ ro b tr' E) as (ext & H1 & H2 & H3). exists (EvChal l :: ext). split; auto.
  split. { rewrite H2, <- !app_assoc. reflexivity. }
  intros ro' A. rewrite (A (tr ++ [EvChal l])).
  - replace (tr ++ EvChal l :: ext) with ((tr ++ [EvChal l]) ++ ext) by (now rewrite <- !app_assoc).
    apply H3. intros h (e1 & l' & e2 & -> & ->). apply A. exists (EvChal l :: e1), l', e2.
    split; now rewrite <- ?app_assoc.
  - exists [], l, ext. split; auto.
Qed.
Lemma fol_bind {A} (r : res A) (g : A -> oracle -> res (bool * transcript)) tr lay :
  (forall a, r = Ok a -> follows (g a) tr lay) -> follows (fun ro => bind r (fun a => g a ro)) tr lay.
Proof. intros F ro b tr' E. destruct r as [a| |]; cbn in E; try discriminate. exact (F a eq_refl ro b tr' E). Qed.
Lemma fol_ret (g : bool) tr (lay : transcript -> Prop) : lay [] -> follows (fun _ => Ok (g, tr)) tr lay.
Proof.
  intros H ro b tr' E. injection E as <- <-. exists []. split; auto. split; [now rewrite app_nil_r|].
  intros ro' _. now rewrite app_nil_r.
Qed.
End Follows.

(** next challenge: abstract it from the goal *)
Ltac fchal l :=
  match goal with |- follows ?f ?tr ?lay =>
    let g := constr:(fun (x : Scalar) (ro : oracle) =>
      ltac:(let b := eval cbv beta in (f ro) in
            let b' := eval pattern (ro (tr ++ [EvChal l])) in b in
            match b' with ?h _ => let r := eval cbv beta in (h x) in exact r end)) in
    apply (fol_chal g tr l lay); let x := fresh "ch" in intros x
  end.
Ltac fbind := apply fol_bind; let a := fresh "a" in let E := fresh "E" in intros a E.

Section C50.
Context {C : Crypto} {L : CryptoLaws C}.

Lemma gen_follows LRs : forall (k : list Scalar -> transcript -> oracle -> res (bool * transcript)) tr (lay : transcript -> Prop),
  (forall chs, follows (k chs (tr ++ ipa_rounds LRs)) (tr ++ ipa_rounds LRs) (fun e => lay (ipa_rounds LRs ++ e))) ->
  follows (fun ro => let '(chs, tr') := gen_ch ro LRs tr in k chs tr' ro) tr lay.
Proof.
  induction LRs as [|LR LRs IH]; intros k tr lay H; cbn [gen_ch].
  - unfold ipa_rounds in H. cbn [map concat app] in H. rewrite app_nil_r in H. exact (H []).
  - apply (fol_msg [EvMsg "L" (fst LR); EvMsg "R" (snd LR)]).
    set (T := tr ++ [EvMsg "L" (fst LR); EvMsg "R" (snd LR)]).
    assert (ET : tr ++ ipa_round LR = T ++ [EvChal "x_i"]) by (unfold T; now rewrite <- app_assoc).
    rewrite ET.
    apply (fol_ext _ (fun ro => (fun x ro => let '(xs, tr'') := gen_ch ro LRs (T ++ [EvChal "x_i"]) in
        k (x :: xs) tr'' ro) (ro (T ++ [EvChal "x_i"])) ro)).
    2:{ intros ro. now destruct (gen_ch ro LRs (T ++ [EvChal "x_i"])). }
    apply (fol_chal (fun x ro => let '(xs, tr'') := gen_ch ro LRs (T ++ [EvChal "x_i"]) in k (x :: xs) tr'' ro)).
    intros x. apply (IH (fun chs => k (x :: chs))). intros chs.
    replace ((T ++ [EvChal "x_i"]) ++ ipa_rounds LRs) with (tr ++ ipa_rounds (LR :: LRs)).
    + eapply fol_imp; [apply H|]. intros e He. exact He.
    + unfold ipa_rounds. cbn [map concat]. rewrite app_assoc, ET. reflexivity.
Qed.

Lemma ipa_follows pf (G H : list Point) (Q : Point) n (P : Point) (t : Scalar) tr :
  follows (fun ro => no_zk_verify ro tr pf G H Q n P t) tr (fun e => e = lay_ipa n pf /\ n = 2 ^ length (L_vec pf)).
Proof.
  unfold no_zk_verify, append_u64, challenge_scalar.
  apply fol_bind; intros Ls ELs. fbind. fbind.
  assert (HL : n = 2 ^ length (L_vec pf)).
  { unfold assertb in E0. destruct (Nat.eqb_spec n (2 ^ length Ls)) as [H0|]; [|discriminate].
    rewrite (mapM_Ok_length _ _ _ ELs) in H0. exact H0. }
  rewrite (mapM_Ok_length _ _ _ ELs). rewrite <- HL.
  apply (fol_msg [EvU64 "n" n]). cbv beta zeta.
  fchal "alpha".
  set (T := (tr ++ [EvU64 "n" n]) ++ [EvChal "alpha"]).
  match goal with |- follows (fun ro => let '(chs, tr') := generate_challenges ro pf T in @?k chs tr' ro) _ ?lay =>
    apply (fol_ext _ (fun ro => let '(chs, tr') := gen_ch ro (combine (L_vec pf) (R_vec pf)) T in k chs tr' ro)) end.
  2:{ intros ro. now rewrite generate_challenges_eq. }
  apply gen_follows. intros chs. cbv beta. apply fol_bind. intros [[n' G'] H'] _. cbv beta iota. fbind. fbind.
  apply fol_ret. split; auto. rewrite app_nil_r. reflexivity.
Qed.

Lemma alm_follows pf (G H : list Point) (Q : Point) n (Cw : Point) (t : Scalar) tr :
  follows (fun ro => alm_zk_verify ro tr pf G H Q n Cw t) tr (fun e => exists P, e = lay_alm n pf P).
Proof.
  unfold alm_zk_verify, append_message, challenge_scalar.
  apply (fol_msg [EvMsg "C_r" (C_r pf)]). apply fol_bind. intros Cr _. cbv beta zeta iota.
  fchal "beta". set (P := (ch *: Cw + Cr + (ch * ch * t)%S *: Q)%P).
  apply (fol_msg [EvMsg "P" (compress P)]).
  eapply fol_imp; [apply ipa_follows|]. intros e [-> _]. exists P. reflexivity.
Qed.

Lemma inner_follows pf (G H : list Point) (Q : Point) gamma tr :
  follows (fun ro => inner_verify ro tr pf G H Q gamma) tr
    (fun e => exists Cw P, e = lay_inner (length H) pf Cw P).
Proof.
  unfold inner_verify, append_message, challenge_scalar.
  apply (fol_msg [EvMsg "c_prime_w" (c_prime_w pf)]). apply fol_bind. intros P1 _. cbv beta zeta iota.
  fchal "x". do 5 fbind. apply fol_bind. intros P2 EP2. fbind.
  assert (EC2 : compress P2 = c_prime_prime_w pf).
  { destruct (decompress (c_prime_prime_w pf)) as [P|] eqn:ED; [|discriminate]. injection EP2 as <-.
    now apply compress_decompress. }
  rewrite EC2. apply (fol_msg [EvMsg "c_prime_prime_w" (c_prime_prime_w pf)]). fbind.
  fchal "s". fbind. fchal "b". do 5 fbind.
  apply fol_bind. intros m1 _. apply fol_bind. intros m2 _.
  match goal with |- follows (fun ro => alm_zk_verify ro (?T ++ [EvMsg "c_w" (compress ?Cw)]) _ _ _ _ _ _ _) _ _ =>
    apply (fol_msg [EvMsg "c_w" (compress Cw)]); set (CW := Cw) end.
  eapply fol_imp; [apply alm_follows|]. intros e [P ->]. exists CW, P. reflexivity.
Qed.

Lemma copy_follows pf (G H : list Point) (Q : Point) gamma mp Cs tr :
  follows (fun ro => copy_verify ro tr pf G H Q gamma mp Cs) tr
    (fun e => exists Cagg Cw P, e = lay_copy (length H) pf Cagg Cw P).
Proof.
  unfold copy_verify, append_message, challenge_scalar.
  apply (fol_msg [EvMsg "c_w" (cp_C_w pf)]). cbv beta zeta iota.
  fchal "alpha". apply fol_bind. intros al _. apply fol_bind. intros Cw _. fbind. fbind.
  eapply fol_imp; [apply inner_follows|]. intros e (CW & P & ->). do 3 eexists. reflexivity.
Qed.

Lemma skipn_nth_error {A} (l : list A) i a : nth_error l i = Some a -> skipn i l = a :: skipn (S i) l.
Proof.
  revert i; induction l as [|x l IH]; intros [|i] H; cbn in *; try discriminate.
  - now injection H as ->.
  - now apply IH.
Qed.
Lemma nth_error_combine {A B} (l : list A) (l' : list B) i a b :
  nth_error l i = Some a -> nth_error l' i = Some b -> nth_error (combine l l') i = Some (a, b).
Proof.
  revert l' i; induction l as [|x l IH]; intros [|y l'] [|i] H H'; cbn in *; try discriminate.
  - congruence.
  - now apply IH.
Qed.
Lemma idx_inv {A} (l : list A) i a : idx l i = Ok a -> nth_error l i = Some a.
Proof. unfold idx. destruct (nth_error l i); intros H; [now injection H as ->|discriminate]. Qed.
Lemma nth_error_lt {A} (l : list A) i a : nth_error l i = Some a -> i < length l.
Proof. intros H. apply nth_error_Some. congruence. Qed.

Lemma lmpa_loop_follows pf : forall fuel n (A : list (list Point)) (t : list Point) ci tr,
  follows (fun ro => lmpa_verify_loop fuel ro tr pf n A t ci) tr
    (fun e => 1 <= n /\ (forall j, j < Nat.log2 n -> ci + j < length (lm_L pf) /\ ci + j < length (lm_R pf)) /\
       e = lm_rounds (firstn (Nat.log2 n) (skipn ci (combine (lm_L pf) (lm_R pf))))).
Proof.
  induction fuel as [|f IH]; intros n A t ci tr; cbn [lmpa_verify_loop].
  - intros ro b tr' E. discriminate.
  - destruct (Nat.eqb_spec n 1) as [->|Hn].
    + fbind. fbind. apply fol_ret. cbn. split; auto. split; auto. lia.
    + apply fol_bind. intros Lr EL. apply fol_bind. intros Rr ER. unfold challenge_scalar. rewrite !append_points_eq.
      apply (fol_msg (lm_msgs "L" Lr)). apply (fol_msg (lm_msgs "R" Rr)). cbv beta iota zeta.
      fchal "challenge". fbind. eapply fol_imp; [apply IH|]. intros e (H1 & H2 & ->). apply idx_inv in EL, ER.
      assert (Hl : Nat.log2 n = S (Nat.log2 (n / 2))).
      { rewrite <- Nat.div2_div in H1 |- *. assert (Hn2 : 2 <= n) by (destruct n as [|[|n]]; [cbn in H1; lia|lia|lia]).
        apply Nat.log2_unique; [lia|]. assert (HS := Nat.log2_spec (Nat.div2 n) ltac:(lia)).
        assert (HO := Nat.div2_odd n). cbn [Nat.pow] in *. destruct (Nat.odd n); cbn [Nat.b2n] in HO; lia. }
      split; [destruct n; cbn in H1; lia|]. rewrite Hl. split.
      * intros [|j] Hj.
        -- apply nth_error_lt in EL, ER. lia.
        -- specialize (H2 j ltac:(lia)). lia.
      * rewrite (skipn_nth_error _ _ _ (nth_error_combine _ _ _ _ _ EL ER)). cbn [firstn].
        unfold lm_rounds. cbn [map concat fst snd]. unfold lm_round. now rewrite <- !app_assoc.
Qed.

Lemma lmpa_follows pf (A : list (list Point)) (G H : list Point) (Q : Point) n (t : list Point) tr :
  follows (fun ro => lmpa_verify ro tr pf A G H Q n t) tr
    (fun e => 1 <= n /\ Nat.log2 n <= length (lm_L pf) /\ Nat.log2 n <= length (lm_R pf) /\ e = lay_lmpa (Nat.log2 n) pf).
Proof.
  unfold lmpa_verify. fbind. eapply fol_imp; [apply lmpa_loop_follows|]. intros e (H1 & H2 & ->). split; auto.
  cbn [skipn Nat.add] in *. split; [|split; [|reflexivity]].
  - destruct (Nat.log2 n) as [|d]; [lia|]. specialize (H2 d ltac:(lia)). lia.
  - destruct (Nat.log2 n) as [|d]; [lia|]. specialize (H2 d ltac:(lia)). lia.
Qed.

Lemma simple_follows pf (A : list (list Point)) (G H : list Point) (Q : Point) n (t : list Point) tr :
  follows (fun ro => simple_zk_verify ro tr pf A G H Q n t) tr
    (fun e => 1 <= n /\ Nat.log2 n <= length (lm_L (sz_no_zk pf)) /\ Nat.log2 n <= length (lm_R (sz_no_zk pf)) /\
              e = lay_simple (Nat.log2 n) pf).
Proof.
  unfold simple_zk_verify, challenge_scalar. fbind. rewrite !append_points_eq.
  apply (fol_msg (lm_msgs "a" (sz_a pf))). cbv beta iota zeta. fchal "beta".
  eapply fol_imp; [apply lmpa_follows|]. intros e (H1 & H2 & H3 & ->). unfold lay_simple. auto.
Qed.

Lemma kary_loop_follows pf m k one zero : forall fuel n (A : list (list Point)) (t : list Point) ci tr,
  follows (fun ro => kary_verify_loop fuel ro tr pf A t n m k one zero ci) tr
    (fun e => exists d, n / k ^ d < k /\ (forall j, j < d -> k <= n / k ^ j /\ ci + j < length (u_proof_Block pf)) /\
       e = concat (map ka_round (firstn d (skipn ci (u_proof_Block pf))))).
Proof.
  induction fuel as [|f IH]; intros n A t ci tr; cbn [kary_verify_loop].
  - intros ro b tr' E. discriminate.
  - destruct (Nat.leb_spec k n) as [Hk|Hk].
    + fbind. fbind. fbind. apply fol_bind. intros u Eu. unfold challenge_scalar. cbv beta iota zeta.
      assert (Hk0 : k <> 0). { intros ->. discriminate. }
      apply (fol_msg (concat (map (lm_msgs "u_l") u))).
      assert (ET : fold_left (fun tr u_v => append_points tr "u_l" u_v) u tr = tr ++ concat (map (lm_msgs "u_l") u)).
      { clear. revert tr. induction u as [|p u IH]; intros tr; cbn [fold_left map concat]; [now rewrite app_nil_r|].
        rewrite IH, append_points_eq. now rewrite <- app_assoc. }
      rewrite ET. fchal "challenge_x". do 5 fbind. eapply fol_imp; [apply IH|]. intros e (d & H1 & H2 & ->).
      apply idx_inv in Eu. exists (S d). cbn [Nat.pow]. rewrite <- Nat.div_div by (try apply Nat.pow_nonzero; auto).
      split; auto. split.
      * intros [|j] Hj.
        -- cbn [Nat.pow]. rewrite Nat.div_1_r. apply nth_error_lt in Eu. lia.
        -- specialize (H2 j ltac:(lia)). cbn [Nat.pow]. rewrite <- Nat.div_div by (try apply Nat.pow_nonzero; auto). lia.
      * rewrite (skipn_nth_error _ _ _ Eu). cbn [firstn map concat].
        change (ka_round u) with (concat (map (lm_msgs "u_l") u) ++ [EvChal "challenge_x"]). now rewrite <- !app_assoc.
    + fbind. fbind. apply fol_ret. exists 0. cbn [Nat.pow firstn map concat]. rewrite Nat.div_1_r. split; auto. split; auto. lia.
Qed.

Lemma kary_follows pf (A : list (list Point)) (t : list Point) n m k one zero tr :
  follows (fun ro => verify_lmpa_noZK ro tr pf A t n m k one zero) tr
    (fun e => exists d, n / k ^ d < k /\ (forall j, j < d -> k <= n / k ^ j) /\ d <= length (u_proof_Block pf) /\ e = lay_kary d pf).
Proof.
  unfold verify_lmpa_noZK. eapply fol_imp; [apply kary_loop_follows|]. intros e (d & H1 & H2 & ->). exists d.
  cbn [skipn Nat.add] in *. split; auto. split; [intros j Hj; now apply H2|]. split; [|reflexivity].
  destruct d as [|d]; [lia|]. specialize (H2 d ltac:(lia)). lia.
Qed.
Lemma general_follows pf (A : list (list Point)) (t : list Point) n m k tr :
  follows (fun ro => verify_general ro tr pf A t n m k) tr
    (fun e => exists d, n / k ^ d < k /\ (forall j, j < d -> k <= n / k ^ j) /\ d <= length (u_proof_Block (lamp_no_zk pf)) /\
              e = lay_general d pf).
Proof.
  unfold verify_general, challenge_scalar. rewrite !append_points_eq.
  apply (fol_msg (lm_msgs "a" (szg_a pf))). cbv beta iota zeta. fchal "beta".
  eapply fol_imp; [apply kary_follows|]. intros e (d & H1 & H2 & H3 & ->). exists d. unfold lay_general. auto.
Qed.

(** ** the theorems *)
Theorem C50_ipa_layout (ro : oracle) tr pf (G H : list Point) (Q : Point) n (P : Point) (t : Scalar) b tr' :
  no_zk_verify ro tr pf G H Q n P t = Ok (b, tr') ->
  n = 2 ^ length (L_vec pf) /\ tr' = tr ++ lay_ipa n pf /\
  only_reads (fun ro => no_zk_verify ro tr pf G H Q n P t) tr (lay_ipa n pf) b ro.
Proof. intros E. destruct (ipa_follows pf G H Q n P t tr ro b tr' E) as (e & [-> H1] & H2 & H3). auto. Qed.

Theorem C50_almzk_layout (ro : oracle) tr pf (G H : list Point) (Q : Point) n (Cw : Point) (t : Scalar) b tr' :
  alm_zk_verify ro tr pf G H Q n Cw t = Ok (b, tr') ->
  exists P, tr' = tr ++ lay_alm n pf P /\
    only_reads (fun ro => alm_zk_verify ro tr pf G H Q n Cw t) tr (lay_alm n pf P) b ro.
Proof. intros E. destruct (alm_follows pf G H Q n Cw t tr ro b tr' E) as (e & [P ->] & H2 & H3). eauto. Qed.

Theorem C50_qesa_layout (ro : oracle) tr pf (G H : list Point) (Q : Point) gamma b tr' :
  inner_verify ro tr pf G H Q gamma = Ok (b, tr') ->
  exists Cw P, tr' = tr ++ lay_inner (length H) pf Cw P /\
    only_reads (fun ro => inner_verify ro tr pf G H Q gamma) tr (lay_inner (length H) pf Cw P) b ro.
Proof. intros E. destruct (inner_follows pf G H Q gamma tr ro b tr' E) as (e & (Cw & P & ->) & H2 & H3). eauto. Qed.

Theorem C50_copy_layout (ro : oracle) tr pf (G H : list Point) (Q : Point) gamma mp Cs b tr' :
  copy_verify ro tr pf G H Q gamma mp Cs = Ok (b, tr') ->
  exists Cagg Cw P, tr' = tr ++ lay_copy (length H) pf Cagg Cw P /\
    only_reads (fun ro => copy_verify ro tr pf G H Q gamma mp Cs) tr (lay_copy (length H) pf Cagg Cw P) b ro.
Proof. intros E. destruct (copy_follows pf G H Q gamma mp Cs tr ro b tr' E) as (e & (Ca & Cw & P & ->) & H2 & H3). eauto. Qed.

Theorem C50_lmpa_layout (ro : oracle) tr pf (A : list (list Point)) (G H : list Point) (Q : Point) n (t : list Point) b tr' :
  lmpa_verify ro tr pf A G H Q n t = Ok (b, tr') ->
  1 <= n /\ Nat.log2 n <= length (lm_L pf) /\ Nat.log2 n <= length (lm_R pf) /\
  tr' = tr ++ lay_lmpa (Nat.log2 n) pf /\
  only_reads (fun ro => lmpa_verify ro tr pf A G H Q n t) tr (lay_lmpa (Nat.log2 n) pf) b ro.
Proof. intros E. destruct (lmpa_follows pf A G H Q n t tr ro b tr' E) as (e & (H1 & H2 & H3 & ->) & H4 & H5). auto. Qed.

Theorem C50_simplezk_layout (ro : oracle) tr pf (A : list (list Point)) (G H : list Point) (Q : Point) n (t : list Point) b tr' :
  simple_zk_verify ro tr pf A G H Q n t = Ok (b, tr') ->
  1 <= n /\ Nat.log2 n <= length (lm_L (sz_no_zk pf)) /\ Nat.log2 n <= length (lm_R (sz_no_zk pf)) /\
  tr' = tr ++ lay_simple (Nat.log2 n) pf /\
  only_reads (fun ro => simple_zk_verify ro tr pf A G H Q n t) tr (lay_simple (Nat.log2 n) pf) b ro.
Proof. intros E. destruct (simple_follows pf A G H Q n t tr ro b tr' E) as (e & (H1 & H2 & H3 & ->) & H4 & H5). auto. Qed.

Theorem C50_kary_layout (ro : oracle) tr pf (A : list (list Point)) (t : list Point) n m k one zero b tr' :
  verify_lmpa_noZK ro tr pf A t n m k one zero = Ok (b, tr') ->
  exists d, n / k ^ d < k /\ (forall j, j < d -> k <= n / k ^ j) /\ d <= length (u_proof_Block pf) /\
    tr' = tr ++ lay_kary d pf /\
    only_reads (fun ro => verify_lmpa_noZK ro tr pf A t n m k one zero) tr (lay_kary d pf) b ro.
Proof. intros E. destruct (kary_follows pf A t n m k one zero tr ro b tr' E) as (e & (d & H1 & H2 & H3 & ->) & H4 & H5). eauto 8. Qed.

Theorem C50_general_layout (ro : oracle) tr pf (A : list (list Point)) (t : list Point) n m k b tr' :
  verify_general ro tr pf A t n m k = Ok (b, tr') ->
  exists d, n / k ^ d < k /\ (forall j, j < d -> k <= n / k ^ j) /\ d <= length (u_proof_Block (lamp_no_zk pf)) /\
    tr' = tr ++ lay_general d pf /\
    only_reads (fun ro => verify_general ro tr pf A t n m k) tr (lay_general d pf) b ro.
Proof. intros E. destruct (general_follows pf A t n m k tr ro b tr' E) as (e & (d & H1 & H2 & H3 & ->) & H4 & H5). eauto 8. Qed.
End C50.

(** the labels of an honest QESA run with n = 4, and a hash function that differs from
    ro1 only outside / only at the challenge s *)
Section C50case.
Let lab (e : @event EX) : string :=
  match e with EvMsg l _ => l | EvU64 l _ => l | EvChal l => ("? " ++ l)%string end.
Let Ms : list (list (list (@Scalar EX))) :=
  [ [[sN (-2); sN 1]; [sN 0; sN 0]]; [[sN 0; sN 2]; [sN 0; sN (-1)]] ].
Let ro_len k z : @transcript EX -> @Scalar EX := fun tr => if length tr =? k then sN z else ro1 tr.
Example C50_case :
  rmap (fun '(pf, tr, pos) =>
     (map lab tr,
      map (fun ro => rmap fst (inner_verify ro [] pf G4 H4 (pN 17) (mkBlockMatrix Ms))) [ro1; ro_len 3 5%Z; ro_len 4 5%Z]))
    (inner_create ro1 rng1 0 [] G4 H4 (pN 17) (mkBlockMatrix Ms) [sN 1; sN 2] [sN 5; sN 9])
  = Ok (["c_prime_w"; "? x"; "c_prime_prime_w"; "? s"; "? b"; "c_w"; "C_r"; "? beta"; "P"; "n"; "? alpha";
         "L"; "R"; "? x_i"; "L"; "R"; "? x_i"],
        [Ok true; Ok true; Ok false]).
Proof. vm_compute. reflexivity. Qed.
End C50case.
