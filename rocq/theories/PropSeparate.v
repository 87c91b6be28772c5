(** C97: no two different arguments have a challenge in common, and a common challenge
    of two runs of one argument fixes everything hashed before it *)
From Coq Require Import String.
From Verif Require Export SepSpec Ex.
From Verif Require Import PropIpa PropAlm PropTranscript PropPanic PropRagged.
Local Open Scope string_scope.
Local Open Scope nat_scope.
Local Open Scope list_scope.

Section Cut.
Context {C : Crypto} {L : CryptoLaws C}.

Definition is_chal (e : event) : bool := match e with EvChal _ => true | _ => false end.
Definition quiet (m : list event) : Prop := forall e, In e m -> is_chal e = false.

Lemma cut_chal m l rest e1 l' e2 : quiet m -> m ++ EvChal l :: rest = e1 ++ EvChal l' :: e2 ->
  (e1 = m /\ l = l' /\ rest = e2) \/ exists q, e1 = m ++ EvChal l :: q /\ rest = q ++ EvChal l' :: e2.
Proof.
  revert e1. induction m as [|e m IH]; cbn [app]; intros e1 Hm E.
  - destruct e1 as [|f e1]; injection E as H1 H2.
    + left. auto.
    + right. exists e1. subst. split; congruence.
  - destruct e1 as [|f e1]; cbn [app] in E; injection E as H1 H2.
    + exfalso. specialize (Hm e (or_introl eq_refl)). subst e. discriminate.
    + subst f. destruct (IH e1 (fun x I => Hm x (or_intror I)) H2) as [(-> & -> & ->)|(q & -> & ->)]; eauto.
Qed.

(** a common challenge of two layouts that start with a quiet list and a challenge *)
Lemma shared_cut tr m1 l1 r1 m2 l2 r2 h : quiet m1 -> quiet m2 ->
  chal_prefix tr (m1 ++ EvChal l1 :: r1) h -> chal_prefix tr (m2 ++ EvChal l2 :: r2) h ->
  m1 = m2 /\ l1 = l2 /\
  (h = tr ++ m1 ++ [EvChal l1] \/
   (chal_prefix (tr ++ m1 ++ [EvChal l1]) r1 h /\ chal_prefix (tr ++ m1 ++ [EvChal l1]) r2 h)).
Proof.
  intros Q1 Q2 (a1 & la & b1 & E1 & H1) (a2 & lb & b2 & E2 & H2).
  rewrite H1 in H2. apply app_inv_head in H2. apply app_inj_tail in H2 as [<- K]. injection K as <-.
  destruct (cut_chal _ _ _ _ _ _ Q1 E1) as [(-> & -> & ->)|(q1 & -> & ->)].
  - destruct (cut_chal _ _ _ _ _ _ Q2 E2) as [(-> & -> & ->)|(q2 & -> & ->)]; auto.
    exfalso. specialize (Q1 (EvChal l2)). discriminate Q1. apply in_or_app. right. now left.
  - destruct (cut_chal _ _ _ _ _ _ Q2 E2) as [(<- & -> & ->)|(q2 & K & ->)].
    + exfalso. specialize (Q2 (EvChal l1)). discriminate Q2. apply in_or_app. right. now left.
    + destruct (cut_chal _ _ _ _ _ _ Q1 K) as [(<- & -> & ->)|(q & -> & ->)].
      * split; auto. split; auto. right. split.
        -- exists q2, la, b1. split; auto. rewrite H1, <- !app_assoc. reflexivity.
        -- exists q2, la, b2. split; auto. rewrite H1, <- !app_assoc. reflexivity.
      * exfalso. specialize (Q2 (EvChal l1)). discriminate Q2. apply in_or_app. right. now left.
Qed.
Lemma shared_nil tr h : chal_prefix tr [] h -> False.
Proof. intros (a & l & b & E & _). now destruct a. Qed.

Lemma quiet_nil : quiet [].
Proof. intros e []. Qed.
Lemma quiet_cons e m : is_chal e = false -> quiet m -> quiet (e :: m).
Proof. intros H Q x [<-|I]; auto. Qed.
Lemma quiet_msgs l us : quiet (lm_msgs l us).
Proof. intros e I. apply in_map_iff in I as (u & <- & _). reflexivity. Qed.
Lemma quiet_app a b : quiet a -> quiet b -> quiet (a ++ b).
Proof. intros Qa Qb e I. apply in_app_or in I as [I|I]; auto. Qed.
Lemma quiet_umsgs us : quiet (concat (map (lm_msgs "u_l") us)).
Proof. induction us; cbn; [apply quiet_nil|]. apply quiet_app; auto using quiet_msgs. Qed.

Lemma msgs_app l us us' : lm_msgs l (us ++ us') = lm_msgs l us ++ lm_msgs l us'.
Proof. apply map_app. Qed.
Lemma umsgs_concat us : concat (map (lm_msgs "u_l") us) = lm_msgs "u_l" (concat us).
Proof. induction us as [|u us IH]; cbn [map concat]; auto. now rewrite IH, msgs_app. Qed.
Lemma compress_inj (P P' : Point) : compress P = compress P' -> P = P'.
Proof. intros E. assert (K : decompress (compress P) = decompress (compress P')) by now rewrite E. rewrite !decompress_compress in K. congruence. Qed.
Lemma msgs_inj l us us' : lm_msgs l us = lm_msgs l us' -> us = us'.
Proof.
  revert us'. induction us as [|u us IH]; intros [|u' us'] E; cbn in E; try discriminate; auto.
  injection E as E1 E2. f_equal; auto. now apply compress_inj.
Qed.
(** L messages and R messages *)
Lemma LR_inj a b a' b' : lm_msgs "L" a ++ lm_msgs "R" b = lm_msgs "L" a' ++ lm_msgs "R" b' -> a = a' /\ b = b'.
Proof.
  revert a'. induction a as [|x a IH]; intros [|x' a'] E.
  - split; auto. now apply msgs_inj in E.
  - exfalso. cbn [lm_msgs map app] in E. destruct b; discriminate E.
  - exfalso. cbn [lm_msgs map app] in E. destruct b'; discriminate E.
  - cbn [lm_msgs map app] in E. injection E as E1 E2. apply IH in E2 as [-> ->]. apply compress_inj in E1. now subst.
Qed.

Lemma shared_ipa_rounds R1 R2 : forall tr h,
  chal_prefix tr (ipa_rounds R1) h -> chal_prefix tr (ipa_rounds R2) h ->
  exists j, 0 < j /\ j <= length R1 /\ j <= length R2 /\ firstn j R1 = firstn j R2 /\ h = tr ++ ipa_rounds (firstn j R1).
Proof.
  revert R2. induction R1 as [|[l r] R1 IH]; intros R2 tr h S1 S2; [now apply shared_nil in S1|].
  destruct R2 as [|[l' r'] R2]; [now apply shared_nil in S2|].
  destruct (shared_cut tr [EvMsg "L" l; EvMsg "R" r] "x_i" (ipa_rounds R1)
     [EvMsg "L" l'; EvMsg "R" r'] "x_i" (ipa_rounds R2) h) as (E & _ & K); auto;
     try (repeat (apply quiet_cons; [reflexivity|]); apply quiet_nil).
  injection E as <- <-. destruct K as [->|[K1 K2]].
  - exists 1. cbn [length firstn]. repeat split; auto; lia.
  - destruct (IH _ _ _ K1 K2) as (j & H1 & H2 & H3 & H4 & ->). exists (S j). cbn [length firstn].
    repeat split; try lia; [now rewrite H4|]. unfold ipa_rounds. cbn [map concat ipa_round fst snd]. rewrite <- !app_assoc. reflexivity.
Qed.
Lemma shared_ipa tr n1 n2 p1 p2 h :
  chal_prefix tr (lay_ipa n1 p1) h -> chal_prefix tr (lay_ipa n2 p2) h -> same_ipa tr n1 n2 p1 p2 h.
Proof.
  intros S1 S2. unfold lay_ipa in *.
  destruct (shared_cut tr [EvU64 "n" n1] "alpha" _ [EvU64 "n" n2] "alpha" _ h
    ltac:(apply quiet_cons; [reflexivity|apply quiet_nil]) ltac:(apply quiet_cons; [reflexivity|apply quiet_nil]) S1 S2) as (E & _ & K).
  injection E as <-. split; auto. destruct K as [->|[K1 K2]].
  - exists 0. repeat split; try apply Nat.le_0_l. unfold ipa_hist. now rewrite app_nil_r.
  - destruct (shared_ipa_rounds _ _ _ _ K1 K2) as (j & H1 & H2 & H3 & H4 & ->). exists j. repeat split; auto.
Qed.
Lemma chal_msgs tr m r h : quiet m -> chal_prefix tr (m ++ r) h -> chal_prefix (tr ++ m) r h.
Proof.
  revert tr. induction m as [|e m IH]; intros tr Qm S; [now rewrite app_nil_r|].
  replace (tr ++ e :: m) with ((tr ++ [e]) ++ m) by (now rewrite <- app_assoc).
  apply IH; [intros x I; apply Qm; now right|].
  destruct S as (a & l & b & E & ->). destruct a as [|f a]; cbn [app] in E; injection E as E1 E2.
  - exfalso. specialize (Qm e (or_introl eq_refl)). subst e. discriminate.
  - subst f. exists a, l, b. split; auto. now rewrite <- !app_assoc.
Qed.
Lemma quiet1 e : is_chal e = false -> quiet [e].
Proof. intros H. apply quiet_cons; auto using quiet_nil. Qed.

Lemma quiet_msg l c : quiet [EvMsg l c].
Proof. now apply quiet1. Qed.

Lemma ipa_first n p : lay_ipa n p = [EvU64 "n" n] ++ EvChal "alpha" :: ipa_rounds (combine (L_vec p) (R_vec p)).
Proof. reflexivity. Qed.

Lemma shared_alm tr n1 n2 p1 p2 (P1 P2 : Point) h :
  chal_prefix tr (lay_alm n1 p1 P1) h -> chal_prefix tr (lay_alm n2 p2 P2) h -> same_alm tr n1 n2 p1 p2 h.
Proof.
  intros S1 S2. unfold lay_alm in *.
  destruct (shared_cut tr [EvMsg "C_r" (C_r p1)] "beta" _ [EvMsg "C_r" (C_r p2)] "beta" _ h
    (quiet_msg _ _) (quiet_msg _ _) S1 S2) as (E & _ & K).
  injection E as EC. split; auto. cbv zeta. destruct K as [->|[K1 K2]]; [now left|]. right. exists P1.
  (* P precedes the same challenge alpha *)
  assert (EP : P1 = P2).
  { rewrite ipa_first in K1, K2.
    destruct (shared_cut _ [EvMsg "P" (compress P1); EvU64 "n" n1] "alpha" _ [EvMsg "P" (compress P2); EvU64 "n" n2] "alpha" _ h
      ltac:(apply quiet_cons; auto using quiet1) ltac:(apply quiet_cons; auto using quiet1) K1 K2) as (E & _ & _).
    injection E as E _. now apply compress_inj. }
  subst P2. apply shared_ipa.
  - apply (chal_msgs _ [EvMsg "P" (compress P1)]) in K1; auto using quiet1.
  - apply (chal_msgs _ [EvMsg "P" (compress P1)]) in K2; auto using quiet1.
Qed.
Lemma shared_qesa tr n1 n2 p1 p2 (Cw1 Cw2 P1 P2 : Point) h :
  chal_prefix tr (lay_inner n1 p1 Cw1 P1) h -> chal_prefix tr (lay_inner n2 p2 Cw2 P2) h -> same_qesa tr n1 n2 p1 p2 h.
Proof.
  intros S1 S2. unfold lay_inner in *.
  destruct (shared_cut tr [EvMsg "c_prime_w" (c_prime_w p1)] "x" _ [EvMsg "c_prime_w" (c_prime_w p2)] "x" _ h
    (quiet_msg _ _) (quiet_msg _ _) S1 S2) as (E & _ & K).
  injection E as E1. split; auto. cbv zeta. destruct K as [->|[K1 K2]]; [now left|]. right.
  destruct (shared_cut _ [EvMsg "c_prime_prime_w" (c_prime_prime_w p1)] "s" _ [EvMsg "c_prime_prime_w" (c_prime_prime_w p2)] "s" _ h
    (quiet_msg _ _) (quiet_msg _ _) K1 K2) as (E & _ & K).
  injection E as E2. split; auto. destruct K as [->|[J1 J2]]; [left; now rewrite <- !app_assoc|]. right.
  destruct (shared_cut _ [] "b" _ [] "b" _ h quiet_nil quiet_nil J1 J2) as (_ & _ & K).
  destruct K as [->|[M1 M2]]; [left; now rewrite <- !app_assoc|]. right. exists Cw1.
  assert (EC : Cw1 = Cw2).
  { unfold lay_alm in M1, M2.
    destruct (shared_cut _ [EvMsg "c_w" (compress Cw1); EvMsg "C_r" (C_r (alm_zk p1))] "beta" _
       [EvMsg "c_w" (compress Cw2); EvMsg "C_r" (C_r (alm_zk p2))] "beta" _ h
      ltac:(apply quiet_cons; auto using quiet1) ltac:(apply quiet_cons; auto using quiet1) M1 M2) as (E & _ & _).
    injection E as E _. now apply compress_inj. }
  subst Cw2.
  apply (chal_msgs _ [EvMsg "c_w" (compress Cw1)]) in M1; auto using quiet1.
  apply (chal_msgs _ [EvMsg "c_w" (compress Cw1)]) in M2; auto using quiet1.
  rewrite <- !app_assoc in M1, M2. cbn [app] in M1, M2. rewrite <- !app_assoc. cbn [app].
  eapply shared_alm; eassumption.
Qed.
Lemma shared_copy tr n1 n2 p1 p2 (Ca1 Ca2 Cw1 Cw2 P1 P2 : Point) h :
  chal_prefix tr (lay_copy n1 p1 Ca1 Cw1 P1) h -> chal_prefix tr (lay_copy n2 p2 Ca2 Cw2 P2) h -> same_copy tr n1 n2 p1 p2 h.
Proof.
  intros S1 S2. unfold lay_copy in *.
  destruct (shared_cut tr [EvMsg "c_w" (cp_C_w p1)] "alpha" _ [EvMsg "c_w" (cp_C_w p2)] "alpha" _ h
    (quiet_msg _ _) (quiet_msg _ _) S1 S2) as (E & _ & K).
  injection E as E1. split; auto. cbv zeta. destruct K as [->|[K1 K2]]; [now left|]. right.
  exists Ca1, Ca2. eapply shared_qesa; eassumption.
Qed.
Lemma shared_lm_rounds R1 R2 : forall tr h,
  chal_prefix tr (lm_rounds R1) h -> chal_prefix tr (lm_rounds R2) h ->
  exists j, 0 < j /\ j <= length R1 /\ j <= length R2 /\ firstn j R1 = firstn j R2 /\ h = lm_hist tr R1 j.
Proof.
  revert R2. induction R1 as [|[l r] R1 IH]; intros R2 tr h S1 S2; [now apply shared_nil in S1|].
  destruct R2 as [|[l' r'] R2]; [now apply shared_nil in S2|].
  assert (X : forall a b R, lm_rounds ((a, b) :: R) = (lm_msgs "L" a ++ lm_msgs "R" b) ++ EvChal "challenge" :: lm_rounds R).
  { intros a b R. unfold lm_rounds, lm_round. cbn [map concat fst snd]. rewrite <- !app_assoc. reflexivity. }
  rewrite X in S1, S2.
  destruct (shared_cut _ _ _ _ _ _ _ h (quiet_app _ _ (quiet_msgs _ _) (quiet_msgs _ _))
     (quiet_app _ _ (quiet_msgs _ _) (quiet_msgs _ _)) S1 S2) as (E & _ & K).
  apply LR_inj in E as [<- <-]. destruct K as [->|[K1 K2]].
  - exists 1. cbn [length firstn]. repeat split; auto; try lia. unfold lm_hist. cbn [firstn]. rewrite X. reflexivity.
  - destruct (IH _ _ _ K1 K2) as (j & H1 & H2 & H3 & H4 & ->). exists (S j). cbn [length firstn].
    repeat split; try lia; [now rewrite H4|]. unfold lm_hist. cbn [firstn]. rewrite X, <- !app_assoc. reflexivity.
Qed.
Lemma shared_lmpa tr d1 d2 p1 p2 h :
  chal_prefix tr (lay_lmpa d1 p1) h -> chal_prefix tr (lay_lmpa d2 p2) h -> same_lmpa tr p1 p2 h.
Proof.
  intros S1 S2. destruct (shared_lm_rounds _ _ _ _ S1 S2) as (j & H1 & H2 & H3 & H4 & ->).
  rewrite firstn_length in H2, H3. rewrite !firstn_firstn, !Nat.min_l in H4 by lia. exists j. repeat split; auto; try lia.
  unfold lm_hist. now rewrite firstn_firstn, Nat.min_l by lia.
Qed.
Lemma shared_simple tr d1 d2 p1 p2 h :
  chal_prefix tr (lay_simple d1 p1) h -> chal_prefix tr (lay_simple d2 p2) h -> same_simple tr p1 p2 h.
Proof.
  intros S1 S2. unfold lay_simple in *.
  destruct (shared_cut _ _ _ _ _ _ _ h (quiet_msgs _ _) (quiet_msgs _ _) S1 S2) as (E & _ & K).
  apply msgs_inj in E. split; auto. cbv zeta. destruct K as [->|[K1 K2]]; [now left|]. right. eapply shared_lmpa; eassumption.
Qed.
Lemma shared_ka_rounds U1 U2 : forall tr h,
  chal_prefix tr (concat (map ka_round U1)) h -> chal_prefix tr (concat (map ka_round U2)) h ->
  exists j, 0 < j /\ j <= length U1 /\ j <= length U2 /\
    map (fun u => concat u) (firstn j U1) = map (fun u => concat u) (firstn j U2) /\ h = ka_hist tr U1 j.
Proof.
  revert U2. induction U1 as [|u U1 IH]; intros U2 tr h S1 S2; [now apply shared_nil in S1|].
  destruct U2 as [|u' U2]; [now apply shared_nil in S2|].
  assert (X : forall u U, concat (map ka_round (u :: U)) = lm_msgs "u_l" (concat u) ++ EvChal "challenge_x" :: concat (map ka_round U)).
  { intros v U. unfold ka_round at 1. cbn [map concat]. unfold ka_round at 1. rewrite umsgs_concat, <- !app_assoc. reflexivity. }
  rewrite X in S1, S2.
  destruct (shared_cut _ _ _ _ _ _ _ h (quiet_msgs _ _) (quiet_msgs _ _) S1 S2) as (E & _ & K).
  apply msgs_inj in E. destruct K as [->|[K1 K2]].
  - exists 1. cbn [length firstn map]. repeat split; try lia; [now rewrite E|]. unfold ka_hist. cbn [firstn]. rewrite X. reflexivity.
  - destruct (IH _ _ _ K1 K2) as (j & H1 & H2 & H3 & H4 & ->). exists (S j). cbn [length firstn map].
    repeat split; try lia; [now rewrite E, H4|]. unfold ka_hist. cbn [firstn]. rewrite X, <- !app_assoc. reflexivity.
Qed.
Lemma shared_kary tr d1 d2 p1 p2 h :
  chal_prefix tr (lay_kary d1 p1) h -> chal_prefix tr (lay_kary d2 p2) h -> same_kary tr p1 p2 h.
Proof.
  intros S1 S2. destruct (shared_ka_rounds _ _ _ _ S1 S2) as (j & H1 & H2 & H3 & H4 & ->).
  rewrite firstn_length in H2, H3. rewrite !firstn_firstn, !Nat.min_l in H4 by lia. exists j. repeat split; auto; try lia.
  unfold ka_hist. now rewrite firstn_firstn, Nat.min_l by lia.
Qed.
Lemma shared_general tr d1 d2 p1 p2 h :
  chal_prefix tr (lay_general d1 p1) h -> chal_prefix tr (lay_general d2 p2) h -> same_general tr p1 p2 h.
Proof.
  intros S1 S2. unfold lay_general in *.
  destruct (shared_cut _ _ _ _ _ _ _ h (quiet_msgs _ _) (quiet_msgs _ _) S1 S2) as (E & _ & K).
  apply msgs_inj in E. split; auto. cbv zeta. destruct K as [->|[K1 K2]]; [now left|]. right. eapply shared_kary; eassumption.
Qed.

(** the label of the first event of a run *)
Definition lab (e : event) : string := match e with EvMsg l _ => l | EvU64 l _ => l | EvChal l => l end.
Definition first_labels (k : kind) : list string :=
  match k with
  | KIpa => ["n"] | KAlm => ["C_r"] | KQesa => ["c_prime_w"] | KCopy => ["c_w"]
  | KLmpa => ["L"; "R"; "challenge"] | KSimple | KGeneral => ["a"; "beta"] | KKary => ["u_l"; "challenge_x"]
  end.
Lemma lmpa_first d p e r : lay_lmpa d p = e :: r -> In (lab e) (first_labels KLmpa).
Proof.
  unfold lay_lmpa. destruct (firstn d _) as [|[[|x a] b] R]; [discriminate| |]; intros E.
  - destruct b as [|y b]; injection E as <- _; cbn; auto.
  - injection E as <- _. cbn; auto.
Qed.
Lemma kary_first d p e r : lay_kary d p = e :: r -> In (lab e) (first_labels KKary).
Proof.
  unfold lay_kary. destruct (firstn d _) as [|u R]; [discriminate|]. cbn [map concat]. unfold ka_round at 1.
  rewrite umsgs_concat. destruct (concat u) as [|x a]; intros E; injection E as <- _; cbn; auto.
Qed.
Lemma ran_first k tr e ext : ran k tr (e :: ext) -> In (lab e) (first_labels k).
Proof.
  destruct k; cbn [ran].
  - intros (ro & pf & G & H & Q & n & P & t & b & E). apply C50_ipa_layout in E as (_ & E & _).
    apply app_inv_head in E. injection E as -> _. cbn; auto.
  - intros (ro & pf & G & H & Q & n & Cw & t & b & E). apply C50_almzk_layout in E as (P & E & _).
    apply app_inv_head in E. injection E as -> _. cbn; auto.
  - intros (ro & pf & G & H & Q & gamma & b & E). apply C50_qesa_layout in E as (Cw & P & E & _).
    apply app_inv_head in E. injection E as -> _. cbn; auto.
  - intros (ro & pf & G & H & Q & gamma & mp & Cs & b & E). apply C50_copy_layout in E as (Ca & Cw & P & E & _).
    apply app_inv_head in E. injection E as -> _. cbn; auto.
  - intros (ro & pf & A & G & H & Q & n & t & b & E). apply C50_lmpa_layout in E as (_ & _ & _ & E & _).
    apply app_inv_head in E. symmetry in E. now apply lmpa_first in E.
  - intros (ro & pf & A & G & H & Q & n & t & b & E). apply C50_simplezk_layout in E as (_ & _ & _ & E & _).
    apply app_inv_head in E. unfold lay_simple in E. destruct (sz_a pf); injection E as -> _; cbn; auto.
  - intros (ro & pf & A & t & n & m & k & one & zero & b & E). apply C50_kary_layout in E as (d & _ & _ & _ & E & _).
    apply app_inv_head in E. symmetry in E. now apply kary_first in E.
  - intros (ro & pf & A & t & n & m & k & b & E). apply C50_general_layout in E as (d & _ & _ & _ & E & _).
    apply app_inv_head in E. unfold lay_general in E. destruct (szg_a pf); injection E as -> _; cbn; auto.
Qed.
Lemma shared_head tr e1 e2 h : chal_prefix tr e1 h -> chal_prefix tr e2 h -> exists e r1 r2, e1 = e :: r1 /\ e2 = e :: r2.
Proof.
  intros (a1 & la & b1 & -> & H1) (a2 & lb & b2 & -> & H2).
  rewrite H1 in H2. apply app_inv_head in H2. apply app_inj_tail in H2 as [<- K]. injection K as <-.
  destruct a1 as [|e a]; cbn [app]; eauto 6.
Qed.
End Cut.

Section C97.
Context {C : Crypto} {L : CryptoLaws C}.
Implicit Types (tr h e : transcript).

Lemma simple_general tr e1 e2 h : ran KSimple tr e1 -> ran KGeneral tr e2 -> chal_prefix tr e1 h -> chal_prefix tr e2 h ->
  exists a, h = tr ++ lm_msgs "a" a ++ [EvChal "beta"].
Proof.
  intros (ro & pf & A & G & H & Q & n & t & b & E1) (ro' & pf' & A' & t' & n' & m' & k' & b' & E2) S1 S2.
  apply C50_simplezk_layout in E1 as (_ & _ & _ & E1 & _). apply C50_general_layout in E2 as (d & _ & _ & _ & E2 & _).
  apply app_inv_head in E1. apply app_inv_head in E2. subst e1 e2. unfold lay_simple, lay_general in *.
  destruct (shared_cut _ _ _ _ _ _ _ h (quiet_msgs _ _) (quiet_msgs _ _) S1 S2) as (E & _ & K).
  destruct K as [->|[K1 K2]]; [eauto|]. exfalso. destruct (shared_head _ _ _ _ K1 K2) as (e & r1 & r2 & F1 & F2).
  apply lmpa_first in F1. apply kary_first in F2. cbn [first_labels] in F1, F2.
  destruct F1 as [F1|[F1|[F1|[]]]], F2 as [F2|[F2|[]]]; rewrite <- F1 in F2; discriminate.
Qed.

(** different arguments: only SimpleZK and its k-ary version can share a challenge, the first one *)
Theorem C97_different_arguments k1 k2 tr e1 e2 h :
  ran k1 tr e1 -> ran k2 tr e2 -> k1 <> k2 -> chal_prefix tr e1 h -> chal_prefix tr e2 h ->
  (k1 = KSimple /\ k2 = KGeneral \/ k1 = KGeneral /\ k2 = KSimple) /\
  exists a, h = tr ++ lm_msgs "a" a ++ [EvChal "beta"].
Proof.
  intros R1 R2 N S1 S2.
  destruct (shared_head _ _ _ _ S1 S2) as (e & r1 & r2 & -> & ->).
  pose proof (ran_first _ _ _ _ R1) as F1. pose proof (ran_first _ _ _ _ R2) as F2.
  assert (K : k1 = KSimple /\ k2 = KGeneral \/ k1 = KGeneral /\ k2 = KSimple).
  { destruct k1, k2; try (now auto); try (now contradiction N); exfalso; cbn [first_labels In] in F1, F2;
      repeat match goal with H : _ \/ _ |- _ => destruct H as [H|H] | H : False |- _ => destruct H end;
      rewrite <- F1 in F2; discriminate. }
  split; auto. destruct K as [[-> ->]|[-> ->]].
  - exact (simple_general _ _ _ _ R1 R2 S1 S2).
  - exact (simple_general _ _ _ _ R2 R1 S2 S1).
Qed.

(** the same argument, any statements, any sizes *)
Theorem C97_ipa_same ro1 ro2 tr p1 p2 (G1 G2 H1 H2 : list Point) (Q1 Q2 P1 P2 : Point) n1 n2 (t1 t2 : Scalar) b1 b2 e1 e2 h :
  no_zk_verify ro1 tr p1 G1 H1 Q1 n1 P1 t1 = Ok (b1, tr ++ e1) ->
  no_zk_verify ro2 tr p2 G2 H2 Q2 n2 P2 t2 = Ok (b2, tr ++ e2) ->
  chal_prefix tr e1 h -> chal_prefix tr e2 h -> same_ipa tr n1 n2 p1 p2 h.
Proof.
  intros E1 E2. apply C50_ipa_layout in E1 as (_ & E1 & _). apply C50_ipa_layout in E2 as (_ & E2 & _).
  apply app_inv_head in E1. apply app_inv_head in E2. subst. apply shared_ipa.
Qed.
Theorem C97_alm_same ro1 ro2 tr p1 p2 (G1 G2 H1 H2 : list Point) (Q1 Q2 Cw1 Cw2 : Point) n1 n2 (t1 t2 : Scalar) b1 b2 e1 e2 h :
  alm_zk_verify ro1 tr p1 G1 H1 Q1 n1 Cw1 t1 = Ok (b1, tr ++ e1) ->
  alm_zk_verify ro2 tr p2 G2 H2 Q2 n2 Cw2 t2 = Ok (b2, tr ++ e2) ->
  chal_prefix tr e1 h -> chal_prefix tr e2 h -> same_alm tr n1 n2 p1 p2 h.
Proof.
  intros E1 E2. apply C50_almzk_layout in E1 as (P1 & E1 & _). apply C50_almzk_layout in E2 as (P2 & E2 & _).
  apply app_inv_head in E1. apply app_inv_head in E2. subst. apply shared_alm.
Qed.
Theorem C97_qesa_same ro1 ro2 tr p1 p2 (G1 G2 H1 H2 : list Point) (Q1 Q2 : Point) g1 g2 b1 b2 e1 e2 h :
  inner_verify ro1 tr p1 G1 H1 Q1 g1 = Ok (b1, tr ++ e1) ->
  inner_verify ro2 tr p2 G2 H2 Q2 g2 = Ok (b2, tr ++ e2) ->
  chal_prefix tr e1 h -> chal_prefix tr e2 h -> same_qesa tr (length H1) (length H2) p1 p2 h.
Proof.
  intros E1 E2. apply C50_qesa_layout in E1 as (C1 & P1 & E1 & _). apply C50_qesa_layout in E2 as (C2 & P2 & E2 & _).
  apply app_inv_head in E1. apply app_inv_head in E2. subst. apply shared_qesa.
Qed.
Theorem C97_copy_same ro1 ro2 tr p1 p2 (G1 G2 H1 H2 : list Point) (Q1 Q2 : Point) g1 g2 mp1 mp2 Cs1 Cs2 b1 b2 e1 e2 h :
  copy_verify ro1 tr p1 G1 H1 Q1 g1 mp1 Cs1 = Ok (b1, tr ++ e1) ->
  copy_verify ro2 tr p2 G2 H2 Q2 g2 mp2 Cs2 = Ok (b2, tr ++ e2) ->
  chal_prefix tr e1 h -> chal_prefix tr e2 h -> same_copy tr (length H1) (length H2) p1 p2 h.
Proof.
  intros E1 E2. apply C50_copy_layout in E1 as (A1 & C1 & P1 & E1 & _). apply C50_copy_layout in E2 as (A2 & C2 & P2 & E2 & _).
  apply app_inv_head in E1. apply app_inv_head in E2. subst. apply shared_copy.
Qed.
Theorem C97_lmpa_same ro1 ro2 tr p1 p2 A1 A2 (G1 G2 H1 H2 : list Point) (Q1 Q2 : Point) n1 n2 t1 t2 b1 b2 e1 e2 h :
  lmpa_verify ro1 tr p1 A1 G1 H1 Q1 n1 t1 = Ok (b1, tr ++ e1) ->
  lmpa_verify ro2 tr p2 A2 G2 H2 Q2 n2 t2 = Ok (b2, tr ++ e2) ->
  chal_prefix tr e1 h -> chal_prefix tr e2 h -> same_lmpa tr p1 p2 h.
Proof.
  intros E1 E2. apply C50_lmpa_layout in E1 as (_ & _ & _ & E1 & _). apply C50_lmpa_layout in E2 as (_ & _ & _ & E2 & _).
  apply app_inv_head in E1. apply app_inv_head in E2. subst. apply shared_lmpa.
Qed.
Theorem C97_simplezk_same ro1 ro2 tr p1 p2 A1 A2 (G1 G2 H1 H2 : list Point) (Q1 Q2 : Point) n1 n2 t1 t2 b1 b2 e1 e2 h :
  simple_zk_verify ro1 tr p1 A1 G1 H1 Q1 n1 t1 = Ok (b1, tr ++ e1) ->
  simple_zk_verify ro2 tr p2 A2 G2 H2 Q2 n2 t2 = Ok (b2, tr ++ e2) ->
  chal_prefix tr e1 h -> chal_prefix tr e2 h -> same_simple tr p1 p2 h.
Proof.
  intros E1 E2. apply C50_simplezk_layout in E1 as (_ & _ & _ & E1 & _). apply C50_simplezk_layout in E2 as (_ & _ & _ & E2 & _).
  apply app_inv_head in E1. apply app_inv_head in E2. subst. apply shared_simple.
Qed.
Theorem C97_kary_same ro1 ro2 tr p1 p2 A1 A2 t1 t2 n1 n2 m1 m2 k1 k2 one1 one2 zero1 zero2 b1 b2 e1 e2 h :
  verify_lmpa_noZK ro1 tr p1 A1 t1 n1 m1 k1 one1 zero1 = Ok (b1, tr ++ e1) ->
  verify_lmpa_noZK ro2 tr p2 A2 t2 n2 m2 k2 one2 zero2 = Ok (b2, tr ++ e2) ->
  chal_prefix tr e1 h -> chal_prefix tr e2 h -> same_kary tr p1 p2 h.
Proof.
  intros E1 E2. apply C50_kary_layout in E1 as (d1 & _ & _ & _ & E1 & _). apply C50_kary_layout in E2 as (d2 & _ & _ & _ & E2 & _).
  apply app_inv_head in E1. apply app_inv_head in E2. subst. apply shared_kary.
Qed.
Theorem C97_general_same ro1 ro2 tr p1 p2 A1 A2 t1 t2 n1 n2 m1 m2 k1 k2 b1 b2 e1 e2 h :
  verify_general ro1 tr p1 A1 t1 n1 m1 k1 = Ok (b1, tr ++ e1) ->
  verify_general ro2 tr p2 A2 t2 n2 m2 k2 = Ok (b2, tr ++ e2) ->
  chal_prefix tr e1 h -> chal_prefix tr e2 h -> same_general tr p1 p2 h.
Proof.
  intros E1 E2. apply C50_general_layout in E1 as (d1 & _ & _ & _ & E1 & _). apply C50_general_layout in E2 as (d2 & _ & _ & _ & E2 & _).
  apply app_inv_head in E1. apply app_inv_head in E2. subst. apply shared_general.
Qed.
End C97.

(** FINDING: in the k-ary argument the challenge does not fix how the messages are divided into
    vectors: the same messages, with the same challenge, can be presented as vectors of any
    length r that leaves 2k-1 of them, whatever follows being ignored *)
Section Division.
Context {C : Crypto} {L : CryptoLaws C}.
Lemma concat_cut {T} (r : nat) (ps : list T) : forall N,
  concat (map (fun l => firstn r (skipn (l * r) ps)) (seq 0 N)) = firstn (N * r) ps.
Proof.
  induction N as [|N IH]; auto. rewrite seq_S, map_app, concat_app, IH. cbn [map concat plus]. rewrite app_nil_r.
  replace (S N * r) with (N * r + r) by lia.
  rewrite <- (firstn_skipn (N * r) (firstn (N * r + r) ps)) at 1. rewrite firstn_firstn, Nat.min_l by lia. f_equal.
  rewrite firstn_skipn_comm. reflexivity.
Qed.
Theorem C97_kary_division ro tr (A : list (list Point)) t k m zero (ps : list Point) r :
  2 <= k -> rows_fit k 1 A -> 1 <= r -> (2 * k - 1) * r <= length ps ->
  exists u, concat u = ps /\ length (nth 0 u []) = r /\
    forall pf, A_Matrix pf <> [] -> u_proof_Block pf = [u] ->
    exists b, verify_lmpa_noZK ro tr pf A t k m k s1 zero = Ok (b, tr ++ lm_msgs "u_l" ps ++ [EvChal "challenge_x"]).
Proof.
  intros Hk HA Hr Hps. set (N := 2 * k - 1) in *.
  set (u := map (fun l => firstn r (skipn (l * r) ps)) (seq 0 N) ++ [skipn (N * r) ps]).
  assert (Hl : forall l, l < N -> length (nth l u []) = r).
  { intros l Hlt. unfold u. rewrite app_nth1 by (now rewrite map_length, seq_length).
    rewrite (nth_indep _ _ (firstn r (skipn (0 * r) ps))) by (now rewrite map_length, seq_length).
    rewrite (map_nth (fun l => firstn r (skipn (l * r) ps))), seq_nth by auto. cbn [plus].
    rewrite firstn_length, skipn_length, Nat.min_l; auto. assert (S l * r <= N * r) by (apply Nat.mul_le_mono_r; lia). lia. }
  assert (HN : N <> 0) by lia.
  assert (Hc : concat u = ps).
  { unfold u. rewrite concat_app, concat_cut. cbn [concat]. rewrite app_nil_r. apply firstn_skipn. }
  exists u. split; auto. split; [apply Hl; lia|].
  intros pf HP HU.
  assert (K1 : k / k = 1) by (apply Nat.div_same; lia).
  assert (V : verdict (verify_lmpa_noZK ro tr pf A t k m k s1 zero)).
  { apply (proj2 (C96_kary_verdict ro tr pf A t k 1 k m zero Hk ltac:(cbn; nia) ltac:(right; cbn; lia))).
    rewrite HU, K1. split; [now right|]. split; [intros; lia|]. split; [cbn; lia|]. split.
    - intros j Hj. assert (j = 0) by lia. subst j. cbn [nth]. split.
      + unfold u. rewrite app_length, map_length, seq_length. cbn. lia.
      + intros l Hlt. rewrite !Hl; lia.
    - split; auto. cbn [kary_last nth]. intros E. assert (Hx := Hl 0 ltac:(lia)). rewrite E in Hx. cbn in Hx. lia. }
  destruct V as [[b tr'] E]. exists b. rewrite E. apply C50_kary_layout in E as (d & D1 & D2 & D3 & -> & _).
  f_equal. f_equal. f_equal. unfold lay_kary. rewrite HU in *. cbn [length] in D3.
  destruct d as [|[|d]]; try lia; [rewrite Nat.pow_0_r, Nat.div_1_r in D1; lia|].
  cbn [firstn map concat]. unfold ka_round. rewrite umsgs_concat, Hc, app_nil_r. reflexivity.
Qed.
End Division.

(** two IPA proofs with n = 4 that differ in the second R share the challenges alpha and x_0;
    six messages read as vectors of length 2 or 1 *)
Section C97case.
Let ze (e : @event EX) : string * Z :=
  match e with EvMsg l c => (l, match decompress c with Some P => zp P | None => (-1)%Z end) | EvU64 l n => (l, Z.of_nat n) | EvChal l => (l, (-2)%Z) end.
Let pf c : NoZK := mkNoZK (C := EX) (map compress [pN 1; pN 2]) (map compress [pN 3; pN c]) (sN 1) (sN 2).
Let hist c := rmap (fun '(b, tr) => map ze tr) (no_zk_verify ro1 [] (pf c) G4 H4 (pN 17) 4 (pN 9) (sN 4)).
Let Z0 : list (list (@Point EX)) := repeat (repeat (pN 5) 2) 2.
Let kh u := rmap (fun '(b, tr) => map ze tr)
  (verify_lmpa_noZK ro1 [] (mkLmpaKary (C := EX) [[pN 1]] [] [sN 2] [u]) Z0 [pN 7; pN 7] 2 2 2 s1 p0).
Example C97_case :
  hist 4%Z = Ok [("n", 4); ("alpha", -2); ("L", 1); ("R", 3); ("x_i", -2); ("L", 2); ("R", 4); ("x_i", -2)]%Z /\
  hist 6%Z = Ok [("n", 4); ("alpha", -2); ("L", 1); ("R", 3); ("x_i", -2); ("L", 2); ("R", 6); ("x_i", -2)]%Z /\
  kh [[pN 1; pN 2]; [pN 3; pN 4]; [pN 5; pN 6]] =
    Ok [("u_l", 1); ("u_l", 2); ("u_l", 3); ("u_l", 4); ("u_l", 5); ("u_l", 6); ("challenge_x", -2)]%Z /\
  kh [[pN 1]; [pN 2]; [pN 3]; [pN 4; pN 5; pN 6]] = kh [[pN 1; pN 2]; [pN 3; pN 4]; [pN 5; pN 6]] /\
  kh [[pN 1; pN 2]; [pN 3]; [pN 4; pN 5; pN 6]] = Panic.
Proof. vm_compute. repeat split. Qed.
End C97case.
