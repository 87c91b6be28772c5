(** C98: several proofs on one transcript *)
From Coq Require Import String.
From Verif Require Export SessionSpec Ex.
From Verif Require Import Algebra LmpaFacts PropIpa PropAlm PropLmpa PropTranscript PropSeparate.
Local Open Scope string_scope.
Local Open Scope nat_scope.
Local Open Scope list_scope.

Section Blocks.
Context {C : Crypto} {L : CryptoLaws C}.

(** events cut at the challenges *)
Definition blk : Type := (list event * string)%type.
Definition unb (B : list blk) : list event := concat (map (fun b => fst b ++ [EvChal (snd b)]) B).
Definition qb (B : list blk) : Prop := Forall (fun b => quiet (fst b)) B.

Lemma unb_cons m l B : unb ((m, l) :: B) = m ++ EvChal l :: unb B.
Proof. unfold unb. cbn [map concat fst snd]. now rewrite <- app_assoc. Qed.
Lemma unb_app B B' : unb (B ++ B') = unb B ++ unb B'.
Proof. unfold unb. now rewrite map_app, concat_app. Qed.
Lemma qb_app B B' : qb B -> qb B' -> qb (B ++ B').
Proof. intros H H'. apply Forall_app. auto. Qed.
Lemma qb_firstn j B : qb B -> qb (firstn j B).
Proof. revert j. induction B as [|b B IH]; intros [|j] H; cbn; auto; try constructor; inversion H; auto. now apply IH. Qed.

Lemma unb_inj B : forall B', qb B -> qb B' -> unb B = unb B' -> B = B'.
Proof.
  induction B as [|[m l] B IH]; intros [|[m' l'] B'] Q Q' E; auto.
  - rewrite unb_cons in E. now destruct m'.
  - rewrite unb_cons in E. now destruct m.
  - rewrite !unb_cons in E. inversion Q as [|? ? Qm QB]; subst. inversion Q' as [|? ? Qm' QB']; subst. cbn [fst] in *.
    destruct (cut_chal _ _ _ _ _ _ Qm E) as [(-> & -> & E')|(q & -> & _)].
    + f_equal. now apply IH.
    + exfalso. specialize (Qm' (EvChal l)). discriminate Qm'. apply in_or_app. right. now left.
Qed.
Lemma unb_prefix B : forall tr h, qb B -> chal_prefix tr (unb B) h ->
  exists j, j < length B /\ h = tr ++ unb (firstn (S j) B).
Proof.
  induction B as [|[m l] B IH]; intros tr h Q (e1 & l' & e2 & E & ->).
  - now destruct e1.
  - rewrite unb_cons in E. inversion Q as [|? ? Qm QB]; subst. cbn [fst] in Qm.
    destruct (cut_chal _ _ _ _ _ _ Qm E) as [(-> & -> & E')|(q & -> & E')].
    + exists 0. cbn [length firstn]. split; [lia|]. now rewrite unb_cons.
    + destruct (IH (tr ++ m ++ [EvChal l]) (tr ++ (m ++ EvChal l :: q) ++ [EvChal l']) QB) as (j & Hj & Eh).
      * exists q, l', e2. split; auto. rewrite <- !app_assoc. reflexivity.
      * exists (S j). cbn [length]. split; [lia|]. cbn [firstn] in *. rewrite unb_cons, Eh, <- !app_assoc. reflexivity.
Qed.

(** the layouts as blocks *)
Definition rb (R : list (Compressed * Compressed)) : list blk :=
  map (fun LR => ([EvMsg "L" (fst LR); EvMsg "R" (snd LR)], "x_i")) R.
Definition hd_ipa n : list blk := [([EvU64 "n" n], "alpha")].
Definition hd_alm (pre : list event) c P n : list blk :=
  [(pre ++ [EvMsg "C_r" c], "beta"); ([EvMsg "P" P; EvU64 "n" n], "alpha")].
Definition hd_qesa c1 c2 cw c P n : list blk :=
  [([EvMsg "c_prime_w" c1], "x"); ([EvMsg "c_prime_prime_w" c2], "s"); ([], "b")] ++ hd_alm [EvMsg "c_w" cw] c P n.
Definition hd_copy c0 c1 c2 cw c P n : list blk :=
  ([EvMsg "c_w" c0], "alpha") :: hd_qesa c1 c2 cw c P n.
Definition other (b : blk) : Prop :=
  snd b = "challenge" \/ snd b = "challenge_x" \/ (snd b = "beta" /\ exists us, fst b = lm_msgs "a" us).
Definition isb (k : kind) (B : list blk) : Prop :=
  match k with
  | KIpa => exists n R, B = hd_ipa n ++ rb R
  | KAlm => exists c P n R, B = hd_alm [] c P n ++ rb R
  | KQesa => exists c1 c2 cw c P n R, B = hd_qesa c1 c2 cw c P n ++ rb R
  | KCopy => exists c0 c1 c2 cw c P n R, B = hd_copy c0 c1 c2 cw c P n ++ rb R
  | _ => Forall other B
  end.

Lemma rb_quiet R : qb (rb R).
Proof.
  apply Forall_forall. intros b I. apply in_map_iff in I as ([l r] & <- & _). cbn [fst snd].
  repeat (apply quiet_cons; [reflexivity|]). apply quiet_nil.
Qed.
Lemma rb_unb R : unb (rb R) = ipa_rounds R.
Proof. induction R as [|[l r] R IH]; auto. cbn [rb map fst snd]. rewrite unb_cons. unfold rb in IH. rewrite IH. reflexivity. Qed.

Definition lmb (R : list (list Point * list Point)) : list blk :=
  map (fun LR => (lm_msgs "L" (fst LR) ++ lm_msgs "R" (snd LR), "challenge")) R.
Lemma lmb_unb R : unb (lmb R) = lm_rounds R.
Proof.
  induction R as [|[l r] R IH]; auto. cbn [lmb map fst snd]. rewrite unb_cons. unfold lmb in IH. rewrite IH.
  unfold lm_rounds, lm_round. cbn [map concat fst snd]. now rewrite <- !app_assoc.
Qed.
Lemma lmb_quiet R : qb (lmb R).
Proof. apply Forall_forall. intros b I. apply in_map_iff in I as ([l r] & <- & _). cbn [fst]. apply quiet_app; apply quiet_msgs. Qed.
Lemma lmb_other R : Forall other (lmb R).
Proof. apply Forall_forall. intros b I. apply in_map_iff in I as ([l r] & <- & _). now left. Qed.
Definition kab (U : list (list (list Point))) : list blk :=
  map (fun u => (concat (map (lm_msgs "u_l") u), "challenge_x")) U.
Lemma kab_unb U : unb (kab U) = concat (map ka_round U).
Proof.
  induction U as [|u U IH]; auto. cbn [kab map concat]. rewrite unb_cons. unfold kab in IH. rewrite IH.
  unfold ka_round at 2. now rewrite <- app_assoc.
Qed.
Lemma kab_quiet U : qb (kab U).
Proof. apply Forall_forall. intros b I. apply in_map_iff in I as (u & <- & _). cbn [fst]. apply quiet_umsgs. Qed.
Lemma kab_other U : Forall other (kab U).
Proof. apply Forall_forall. intros b I. apply in_map_iff in I as (u & <- & _). right. now left. Qed.

Lemma qb_heads B : (forall b, In b B -> forall e, In e (fst b) -> is_chal e = false) -> qb B.
Proof. intros H. apply Forall_forall. intros b I e J. eauto. Qed.
Ltac heads := apply qb_heads; cbn; intros; repeat match goal with H : _ \/ _ |- _ => destruct H as [H|H] | H : False |- _ => destruct H | H : _ = _ |- _ => subst; cbn in * end; auto.

Lemma ran_blocks k tr e : ran k tr e -> exists B, e = unb B /\ qb B /\ isb k B.
Proof.
  destruct k; cbn [ran isb].
  - intros (ro & pf & G & H & Q & n & P & t & b & E). apply C50_ipa_layout in E as (_ & E & _).
    apply app_inv_head in E. subst e. exists (hd_ipa n ++ rb (combine (L_vec pf) (R_vec pf))).
    split; [|split; eauto]; [rewrite unb_app, rb_unb; reflexivity|]. apply qb_app; [heads|apply rb_quiet].
  - intros (ro & pf & G & H & Q & n & Cw & t & b & E). apply C50_almzk_layout in E as (P & E & _).
    apply app_inv_head in E. subst e. exists (hd_alm [] (C_r pf) (compress P) n ++ rb (combine (L_vec (az_NoZK pf)) (R_vec (az_NoZK pf)))).
    split; [|split; eauto]; [rewrite unb_app, rb_unb; reflexivity|]. apply qb_app; [heads|apply rb_quiet].
  - intros (ro & pf & G & H & Q & gamma & b & E). apply C50_qesa_layout in E as (Cw & P & E & _).
    apply app_inv_head in E. subst e.
    exists (hd_qesa (c_prime_w pf) (c_prime_prime_w pf) (compress Cw) (C_r (alm_zk pf)) (compress P) (length H)
            ++ rb (combine (L_vec (az_NoZK (alm_zk pf))) (R_vec (az_NoZK (alm_zk pf))))).
    split; [rewrite unb_app, rb_unb; reflexivity|]. split; [|do 7 eexists; reflexivity].
    apply qb_app; [heads|apply rb_quiet].
  - intros (ro & pf & G & H & Q & gamma & mp & Cs & b & E). apply C50_copy_layout in E as (Ca & Cw & P & E & _).
    apply app_inv_head in E. subst e.
    exists (hd_copy (cp_C_w pf) (compress Ca) (c_prime_prime_w (cp_inner pf)) (compress Cw) (C_r (alm_zk (cp_inner pf))) (compress P) (length H)
            ++ rb (combine (L_vec (az_NoZK (alm_zk (cp_inner pf)))) (R_vec (az_NoZK (alm_zk (cp_inner pf)))))).
    split; [rewrite unb_app, rb_unb; reflexivity|]. split; [|do 8 eexists; reflexivity].
    apply qb_app; [heads|apply rb_quiet].
  - intros (ro & pf & A & G & H & Q & n & t & b & E). apply C50_lmpa_layout in E as (_ & _ & _ & E & _).
    apply app_inv_head in E. subst e. eexists. split; [symmetry; apply lmb_unb|]. split; [apply lmb_quiet|apply lmb_other].
  - intros (ro & pf & A & G & H & Q & n & t & b & E). apply C50_simplezk_layout in E as (_ & _ & _ & E & _).
    apply app_inv_head in E. subst e.
    exists ((lm_msgs "a" (sz_a pf), "beta") :: lmb (firstn (Nat.log2 n) (combine (lm_L (sz_no_zk pf)) (lm_R (sz_no_zk pf))))).
    rewrite unb_cons, lmb_unb. split; [reflexivity|]. split; constructor; try apply lmb_quiet; try apply lmb_other.
    + apply quiet_msgs.
    + right. right. cbn. eauto.
  - intros (ro & pf & A & t & n & m & k & one & zero & b & E). apply C50_kary_layout in E as (d & _ & _ & _ & E & _).
    apply app_inv_head in E. subst e. eexists. split; [symmetry; apply kab_unb|]. split; [apply kab_quiet|apply kab_other].
  - intros (ro & pf & A & t & n & m & k & b & E). apply C50_general_layout in E as (d & _ & _ & _ & E & _).
    apply app_inv_head in E. subst e.
    exists ((lm_msgs "a" (szg_a pf), "beta") :: kab (firstn d (u_proof_Block (lamp_no_zk pf)))).
    rewrite unb_cons, kab_unb. split; [reflexivity|]. split; constructor; try apply kab_quiet; try apply kab_other.
    + apply quiet_msgs.
    + right. right. cbn. eauto.
Qed.

(** the run a challenge belongs to, read off the blocks before it, the last one first *)
Definition copy_open (b : blk) : bool :=
  match b with ([EvMsg l _], l') => ((l =? "c_w")%string) && ((l' =? "alpha")%string) | _ => false end.
Fixpoint owner (B : list blk) : option (kind * list blk) :=
  match B with
  | [] => None
  | (m, l) :: D =>
      if (l =? "x_i")%string then owner D else if (l =? "s")%string then owner D else if (l =? "b")%string then owner D else
      if (l =? "alpha")%string then
        match m with [EvU64 _ _] => Some (KIpa, D) | [EvMsg _ _] => Some (KCopy, D) | _ => owner D end else
      if (l =? "beta")%string then
        match m with [EvMsg l1 _] => if (l1 =? "C_r")%string then Some (KAlm, D) else None
                   | [EvMsg l1 _; _] => if (l1 =? "c_w")%string then owner D else None | _ => None end else
      if (l =? "x")%string then
        match D with [] => Some (KQesa, D) | b :: D' => if copy_open b then Some (KCopy, D') else Some (KQesa, D) end
      else None
  end.
Definition closed (D : list blk) : Prop := match D with [] => True | b :: _ => copy_open b = false end.

Lemma owner_rb R X : owner (rev (rb R) ++ X) = owner X.
Proof.
  induction R as [|[l r] R IH] using rev_ind; auto. unfold rb in *. rewrite map_app, rev_app_distr. cbn. exact IH.
Qed.
Lemma firstn_rb i R : firstn i (rb R) = rb (firstn i R).
Proof. unfold rb. apply firstn_map. Qed.
Lemma owner_x m D k E : owner D = Some (k, E) -> owner ((m, "x_i") :: D) = Some (k, E).
Proof. auto. Qed.

Lemma owner_run k B D j : of_ipa k -> isb k B -> closed D -> j < length B ->
  owner (rev (firstn (S j) B) ++ D) = Some (k, D).
Proof.
  intros K I HD Hj.
  assert (X : forall H R, (forall i, i < length H -> owner (rev (firstn (S i) H) ++ D) = Some (k, D)) -> 0 < length H ->
              owner (rev (firstn (S j) (H ++ rb R)) ++ D) = Some (k, D)).
  { intros H R HH HL. destruct (Nat.lt_ge_cases j (length H)) as [J|J].
    - rewrite firstn_app, (proj2 (Nat.sub_0_le (S j) (length H))) by lia. cbn [firstn]. rewrite app_nil_r. now apply HH.
    - rewrite firstn_app, firstn_all2, firstn_rb, rev_app_distr, <- app_assoc, owner_rb by lia.
      specialize (HH (length H - 1) ltac:(lia)). rewrite firstn_all2 in HH by lia. exact HH. }
  assert (Y : forall c P n, owner ([([EvMsg "P" P; EvU64 "n" n], "alpha"); ([EvMsg "C_r" c], "beta")] ++ D) = Some (KAlm, D)) by reflexivity.
  assert (Z : forall m, owner ((m, "x") :: D) = Some (KQesa, D)).
  { intros m. cbn. destruct D as [|b D']; auto. cbn in HD. now rewrite HD. }
  destruct K as [->|[->|[->| ->]]]; cbn [isb] in I.
  - destruct I as (n & R & ->). apply X; [|cbn; lia]. intros [|i] Hi; [reflexivity|cbn in Hi; lia].
  - destruct I as (c & P & n & R & ->). apply X; [|cbn; lia]. intros [|[|i]] Hi; [reflexivity|reflexivity|cbn in Hi; lia].
  - destruct I as (c1 & c2 & cw & c & P & n & R & ->). apply X; [|cbn; lia].
    intros [|[|[|[|[|i]]]]] Hi; try (cbn in Hi; lia); (transitivity (owner (([EvMsg "c_prime_w" c1], "x") :: D)); [reflexivity|apply Z]).
  - destruct I as (c0 & c1 & c2 & cw & c & P & n & R & ->). apply X; [|cbn; lia].
    intros [|[|[|[|[|[|i]]]]]] Hi; try reflexivity; cbn in Hi; lia.
Qed.
Lemma owner_other b D : other b -> owner (b :: D) = None.
Proof.
  destruct b as [m l]. intros [H|[H|[H [us H1]]]]; cbn [fst snd] in *; subst; cbn; auto.
  destruct us as [|u [|u' [|u'' us]]]; reflexivity.
Qed.
Lemma owner_run_other k B D j : ~ of_ipa k -> isb k B -> j < length B -> owner (rev (firstn (S j) B) ++ D) = None.
Proof.
  intros K I Hj. assert (F : Forall other B) by (destruct k; auto; contradiction K; unfold of_ipa; auto).
  destruct (nth_error B j) as [b|] eqn:Eb; [|apply nth_error_None in Eb; lia].
  assert (E : firstn (S j) B = firstn j B ++ [b]).
  { clear -Eb. revert j Eb. induction B as [|c B IH]; intros [|j] E; cbn in *; try discriminate; [congruence|]. f_equal. now apply IH. }
  rewrite E, rev_app_distr. cbn [rev app]. apply owner_other. rewrite Forall_forall in F. apply F. eapply nth_error_In; eauto.
Qed.
Lemma closed_run k B D : isb k B -> closed D -> closed (rev B ++ D).
Proof.
  intros I HD.
  assert (X : forall H R, closed (rev H ++ D) -> closed (rev (H ++ rb R) ++ D)).
  { intros H R HH. rewrite rev_app_distr, <- app_assoc. destruct R as [|[l r] R] using rev_ind; auto.
    unfold rb. rewrite map_app, rev_app_distr. reflexivity. }
  assert (Y : Forall other B -> closed (rev B ++ D)).
  { intros F. destruct B as [|b B _] using rev_ind; auto. rewrite rev_app_distr. cbn.
    apply Forall_app in F as [_ F]. inversion F as [|? ? O _]; subst. destruct b as [m l].
    destruct O as [H|[H|[H [us H1]]]]; cbn [fst snd] in *; subst; cbn.
    - destruct m as [|[? ?|? ?|?] [|? ?]]; auto. now rewrite Bool.andb_false_r.
    - destruct m as [|[? ?|? ?|?] [|? ?]]; auto. now rewrite Bool.andb_false_r.
    - destruct us as [|u [|u' us]]; reflexivity. }
  destruct k; cbn [isb] in I; auto.
  - destruct I as (n & R & ->). now apply X.
  - destruct I as (c & P & n & R & ->). now apply X.
  - destruct I as (c1 & c2 & cw & c & P & n & R & ->). now apply X.
  - destruct I as (c0 & c1 & c2 & cw & c & P & n & R & ->). now apply X.
Qed.
Lemma session_blocks s : forall tr, session tr s ->
  exists B, events s = unb B /\ qb B /\ (forall D, closed D -> closed (rev B ++ D)).
Proof.
  induction s as [|[k e] s IH]; intros tr H.
  - exists []. repeat split; auto. constructor.
  - inversion H as [|? ? ? ? R S]; subst. destruct (ran_blocks _ _ _ R) as (B1 & -> & Q1 & I1).
    destruct (IH _ S) as (B2 & E2 & Q2 & I2). exists (B1 ++ B2). split; [|split].
    + unfold events in *. cbn [map concat snd]. now rewrite unb_app, E2.
    + now apply qb_app.
    + intros D HD. rewrite rev_app_distr, <- app_assoc. apply I2. eapply closed_run; eauto.
Qed.
Lemma session_at a : forall tr k e r, session tr (a ++ (k, e) :: r) -> session tr a /\ ran k (tr ++ events a) e.
Proof.
  induction a as [|[k' e'] a IH]; intros tr k e r H; cbn [app] in H; inversion H as [|? ? ? ? R S]; subst.
  - unfold events. cbn. rewrite app_nil_r. split; auto. constructor.
  - destruct (IH _ _ _ _ S) as [H1 H2]. split; [now constructor|].
    unfold events in *. cbn [map concat snd]. now rewrite app_assoc.
Qed.
(** the blocks up to the challenge [h] *)
Lemma session_owner tr a k e r h : session tr (a ++ (k, e) :: r) -> chal_prefix (tr ++ events a) e h ->
  exists B D, h = tr ++ unb (rev B) /\ qb (rev B) /\ events a = unb (rev D) /\ qb (rev D) /\
    (of_ipa k -> owner B = Some (k, D)) /\ (~ of_ipa k -> owner B = None).
Proof.
  intros S Hh. destruct (session_at _ _ _ _ _ S) as [Sa R].
  destruct (session_blocks _ _ Sa) as (A & EA & QA & CA). destruct (ran_blocks _ _ _ R) as (B & -> & QB & IB).
  destruct (unb_prefix _ _ _ QB Hh) as (j & Hj & Eh).
  exists (rev (firstn (1 + j) B) ++ rev A), (rev A). rewrite rev_app_distr, !rev_involutive.
  split; [rewrite Eh, EA, unb_app; now rewrite <- !app_assoc|]. split; [apply qb_app; auto; now apply qb_firstn|].
  split; auto. split; auto. split; intros K.
  - apply owner_run; auto. specialize (CA [] I). now rewrite app_nil_r in CA.
  - eapply owner_run_other; eauto.
Qed.
End Blocks.

Section C98.
Context {C : Crypto} {L : CryptoLaws C}.
Add Field SfC98 : (@S_field C L).
Implicit Types (tr h e : transcript).

Lemma of_ipa_dec k : {of_ipa k} + {~ of_ipa k}.
Proof. unfold of_ipa. destruct k; (left; tauto) || (right; intros H; repeat destruct H as [H|H]; discriminate). Defined.

(** a challenge of an argument that contains the inner-product argument is, in any other
    session in which it is drawn, a challenge of a run of the same argument that starts at
    the same place *)
Theorem C98_place tr a1 k1 e1 r1 a2 k2 e2 r2 h :
  session tr (a1 ++ (k1, e1) :: r1) -> session tr (a2 ++ (k2, e2) :: r2) ->
  chal_prefix (tr ++ events a1) e1 h -> chal_prefix (tr ++ events a2) e2 h -> of_ipa k1 ->
  k1 = k2 /\ events a1 = events a2.
Proof.
  intros S1 S2 H1 H2 K.
  destruct (session_owner _ _ _ _ _ _ S1 H1) as (B1 & D1 & Eh1 & Q1 & Ea1 & Qa1 & O1 & _).
  destruct (session_owner _ _ _ _ _ _ S2 H2) as (B2 & D2 & Eh2 & Q2 & Ea2 & Qa2 & O2 & N2).
  rewrite Eh1 in Eh2. apply app_inv_head in Eh2. apply unb_inj in Eh2; auto.
  assert (E : B1 = B2) by (rewrite <- (rev_involutive B1), Eh2, rev_involutive; reflexivity). subst B2.
  specialize (O1 K). destruct (of_ipa_dec k2) as [K2|K2].
  - specialize (O2 K2). rewrite O1 in O2. injection O2 as <- <-. split; auto. now rewrite Ea1, Ea2.
  - specialize (N2 K2). rewrite O1 in N2. discriminate.
Qed.

Lemma last_chal k tr e : of_ipa k -> ran k tr e -> chal_prefix tr e (tr ++ e).
Proof.
  intros K R. destruct (ran_blocks _ _ _ R) as (B & -> & _ & I).
  assert (N : B <> []).
  { intros ->. destruct K as [->|[->|[->| ->]]]; cbn [isb] in I.
    - destruct I as (n & Rs & E). discriminate E.
    - destruct I as (c & P & n & Rs & E). discriminate E.
    - destruct I as (c1 & c2 & cw & c & P & n & Rs & E). discriminate E.
    - destruct I as (c0 & c1 & c2 & cw & c & P & n & Rs & E). discriminate E. }
  destruct B as [|[m l] B _] using rev_ind; [easy|]. rewrite unb_app. exists (unb B ++ m), l, []. split.
  - unfold unb at 2. cbn [map concat fst snd]. rewrite app_nil_r, <- app_assoc. reflexivity.
  - unfold unb at 2. cbn [map concat fst snd]. rewrite app_nil_r, <- !app_assoc. reflexivity.
Qed.
(** so the history determines the whole session when all runs are of such arguments *)
Theorem C98_whole_session tr s1 s2 :
  session tr s1 -> session tr s2 -> Forall (fun r => of_ipa (fst r)) s1 -> Forall (fun r => of_ipa (fst r)) s2 ->
  events s1 = events s2 -> s1 = s2.
Proof.
  revert s2. induction s1 as [|[k1 e1] s1 IH] using rev_ind; intros s2 S1 S2 F1 F2 E.
  - destruct s2 as [|[k2 e2] s2 _] using rev_ind; auto. exfalso.
    apply Forall_app in F2 as [_ F2]. inversion F2 as [|? ? K _]; subst.
    destruct (session_at _ _ _ _ _ S2) as [_ R]. destruct (last_chal _ _ _ K R) as (x & l & y & -> & _).
    unfold events in E. rewrite map_app, concat_app in E. cbn in E.
    destruct (concat (map snd s2)); [destruct x|]; discriminate.
  - apply Forall_app in F1 as [F1 G1]. inversion G1 as [|? ? K1 _]; subst. cbn [fst] in K1.
    destruct (session_at _ _ _ _ _ S1) as [T1 R1]. assert (L1 := last_chal _ _ _ K1 R1).
    destruct s2 as [|[k2 e2] s2 _] using rev_ind.
    + exfalso. destruct L1 as (x & l & y & -> & _). unfold events in E. rewrite map_app, concat_app in E. cbn in E.
      destruct (concat (map snd s1)); [destruct x|]; discriminate.
    + apply Forall_app in F2 as [F2 G2]. inversion G2 as [|? ? K2 _]; subst. cbn [fst] in K2.
      destruct (session_at _ _ _ _ _ S2) as [T2 R2]. assert (L2 := last_chal _ _ _ K2 R2).
      assert (X : forall s k e, events (s ++ [(k, e)]) = events s ++ e).
      { intros. unfold events. rewrite map_app, concat_app. cbn. now rewrite app_nil_r. }
      rewrite !X in E. rewrite <- app_assoc in L1, L2. rewrite <- E in L2.
      destruct (C98_place _ _ _ _ _ _ _ _ _ _ S1 S2 L1 L2 K1) as [<- Ea].
      assert (e1 = e2) by (rewrite Ea in E; now apply app_inv_head in E). subst e2. f_equal. now apply IH.
Qed.

(** FINDING: the linear-map arguments do not hash the number of rounds *)
Lemma loop_accepts_some (R : list (list Point * list Point)) : forall i f (ro : oracle) tr proof m A,
  length R < f -> 1 <= m -> rect m (2 ^ length R) A ->
  (forall j q, nth_error R j = Some q -> nth_error (lm_L proof) (i + j) = Some (fst q) /\ nth_error (lm_R proof) (i + j) = Some (snd q)) ->
  lm_live ro tr R ->
  exists t0, lmpa_verify_loop f ro tr proof (2 ^ length R) A [t0] i = Ok (true, tr ++ lm_rounds R).
Proof.
  induction R as [|[l r] R IH]; intros i f ro tr proof m A Hf Hm HA HP [HL Hx]; (destruct f as [|f]; [lia|]); cbn [length] in *.
  - assert (H0 := rect_nth _ _ _ 0 HA Hm). destruct HA as [HA _]. destruct A as [|row A]; cbn in HA; [lia|]. cbn in H0.
    apply length1 in H0 as [p ->]. exists (lin [lm_w proof] [p]).
    cbn [Nat.pow lmpa_verify_loop Nat.eqb]. rewrite mpv_lin. cbn [map idx nth_error bind].
    rewrite (proj2 (peqb_eq _ _) eq_refl). unfold lm_rounds. cbn. now rewrite app_nil_r.
  - assert (Hn : 2 ^ S (length R) <> 1) by (apply Nat.eqb_neq, pow2_S_neq1).
    destruct (HP 0 (l, r) eq_refl) as [P1 P2]. cbn [fst snd] in P1, P2. rewrite Nat.add_0_r in P1, P2.
    rewrite pow2_S in HA. set (x := ro (tr ++ lm_round l r)).
    assert (H1 : lm_hist tr ((l, r) :: R) 1 = tr ++ lm_round l r).
    { unfold lm_hist, lm_rounds. cbn. now rewrite app_nil_r. }
    assert (X : x <> s0) by (unfold x; rewrite <- H1; apply Hx; lia).
    destruct (IH (S i) f ro (tr ++ lm_round l r) proof m (map (frow x) A)) as [t1 E]; auto; try lia.
    { now apply frow_rect. }
    { intros j q Hq. replace (S i + j) with (i + S j) by lia. now apply HP. }
    { split; [intros; apply HL; now right|]. intros j Hj. specialize (Hx (S j) ltac:(lia)).
      unfold lm_hist, lm_rounds in *. cbn [firstn map concat fst snd] in Hx. rewrite app_assoc in Hx. exact Hx. }
    destruct (HL l r (or_introl eq_refl)) as [Nl Nr]. destruct l as [|l0 l]; [easy|]. destruct r as [|r0 r]; [easy|].
    exists (sinv x *: (t1 + (- s1)%S *: l0 + (- (x * x))%S *: r0))%P.
    rewrite (lm_verify_step _ _ _ _ _ _ _ _ _ _ Hn P1 P2). cbv zeta. fold x.
    rewrite fold_matrix by (eapply rect_even; eauto). cbn [bind]. rewrite pow2_half.
    replace (ftgt x (l0 :: l) (r0 :: r) _) with [t1].
    + rewrite E. unfold lm_rounds. cbn [map concat fst snd]. now rewrite <- app_assoc.
    + unfold ftgt. cbn [combine map2]. f_equal; [|now destruct (combine l r)].
      transitivity ((x * sinv x)%S *: t1 + (s1 + - (x * sinv x))%S *: l0 + (x * x * (s1 + - (x * sinv x)))%S *: r0)%P; [|pring].
      rewrite sinv_r by auto. pring.
Qed.
Lemma proof_accepts_some (ro : oracle) tr R m (A : list (list Point)) (G H : list Point) (Q : Point) (w : Scalar) :
  1 <= m -> rect m (2 ^ length R) A -> length G = 2 ^ length R -> lm_live ro tr R ->
  exists t0, lmpa_verify ro tr (lm_proof R w) A G H Q (2 ^ length R) [t0] = Ok (true, tr ++ lm_rounds R).
Proof.
  intros Hm HA HG HL.
  destruct (loop_accepts_some R 0 (S (S (length (lm_L (lm_proof R w))))) ro tr (lm_proof R w) m A) as [t0 E]; auto.
  { cbn [lm_proof lm_L]. rewrite map_length. lia. }
  { intros j q Hq. cbn [lm_proof lm_L lm_R plus]. now rewrite !nth_error_map, Hq. }
  exists t0. unfold lmpa_verify. rewrite HG, Nat.eqb_refl. exact E.
Qed.
Lemma live_app (ro : oracle) tr R1 R2 : lm_live ro tr (R1 ++ R2) ->
  lm_live ro tr R1 /\ lm_live ro (tr ++ lm_rounds R1) R2.
Proof.
  intros [H1 H2]. split; split; try (intros l r I; apply H1; apply in_or_app; auto).
  - intros j Hj. specialize (H2 j ltac:(rewrite app_length; lia)). unfold lm_hist in *.
    rewrite firstn_app, (proj2 (Nat.sub_0_le (S j) (length R1))) in H2 by lia. cbn [firstn] in H2. now rewrite app_nil_r in H2.
  - intros j Hj. specialize (H2 (length R1 + j) ltac:(rewrite app_length; lia)). unfold lm_hist in *.
    rewrite firstn_app, firstn_all2 in H2 by lia. replace (S (length R1 + j) - length R1) with (S j) in H2 by lia.
    unfold lm_rounds in *. now rewrite map_app, concat_app, app_assoc in H2.
Qed.
Lemma rounds_app R1 R2 : lm_rounds (R1 ++ R2) = lm_rounds R1 ++ lm_rounds R2.
Proof. unfold lm_rounds. now rewrite map_app, concat_app. Qed.

(** the same messages are one accepted proof or two accepted proofs, one after the other, of
    statements about any matrices and ending in any scalars *)
Theorem C98_lmpa_boundary (ro : oracle) tr R1 R2 m m1 m2 (A A1 A2 : list (list Point))
    (G H G1 H1 G2 H2 : list Point) (Q Q1 Q2 : Point) (w w1 w2 : Scalar) :
  let d1 := length R1 in let d2 := length R2 in
  1 <= m -> rect m (2 ^ (d1 + d2)) A -> length G = 2 ^ (d1 + d2) ->
  1 <= m1 -> rect m1 (2 ^ d1) A1 -> length G1 = 2 ^ d1 ->
  1 <= m2 -> rect m2 (2 ^ d2) A2 -> length G2 = 2 ^ d2 ->
  lm_live ro tr (R1 ++ R2) ->
  exists t t1 t2 tr1 tr2,
    lmpa_verify ro tr (lm_proof (R1 ++ R2) w) A G H Q (2 ^ (d1 + d2)) t = Ok (true, tr2) /\
    lmpa_verify ro tr (lm_proof R1 w1) A1 G1 H1 Q1 (2 ^ d1) t1 = Ok (true, tr1) /\
    lmpa_verify ro tr1 (lm_proof R2 w2) A2 G2 H2 Q2 (2 ^ d2) t2 = Ok (true, tr2).
Proof.
  intros d1 d2 Hm HA HG Hm1 HA1 HG1 Hm2 HA2 HG2 HL. destruct (live_app _ _ _ _ HL) as [L1 L2].
  destruct (proof_accepts_some ro tr (R1 ++ R2) m A G H Q w) as [t E]; auto; try (now rewrite app_length).
  destruct (proof_accepts_some ro tr R1 m1 A1 G1 H1 Q1 w1) as [t1 E1]; auto.
  destruct (proof_accepts_some ro (tr ++ lm_rounds R1) R2 m2 A2 G2 H2 Q2 w2) as [t2 E2]; auto.
  rewrite app_length in E. exists [t], [t1], [t2]. do 2 eexists. split; [exact E|]. split; [exact E1|].
  rewrite rounds_app, app_assoc. exact E2.
Qed.

Lemma simple_accepts_some (ro : oracle) tr R m (A : list (list Point)) (G H : list Point) (Q : Point) (w : Scalar) a :
  1 <= m -> rect m (2 ^ length R) A -> length G = 2 ^ length R -> a <> [] -> ro (sz_hist tr a) <> s0 ->
  lm_live ro (sz_hist tr a) R ->
  exists t0, simple_zk_verify ro tr (mkSimpleZK (lm_proof R w) a) A G H Q (2 ^ length R) [t0] = Ok (true, sz_hist tr a ++ lm_rounds R).
Proof.
  intros Hm HA HG Ha Hb HL. destruct (proof_accepts_some ro (sz_hist tr a) R m A G H Q w) as [t E]; auto.
  destruct a as [|a0 a]; [easy|]. set (be := ro (sz_hist tr (a0 :: a))) in *.
  exists (sinv be *: (t + (- s1)%S *: a0))%P.
  unfold simple_zk_verify. rewrite HG, Nat.eqb_refl. cbn [bind assertb sz_a sz_no_zk].
  rewrite append_points_eq. unfold challenge_scalar.
  replace ((tr ++ lm_msgs "a" (a0 :: a)) ++ [EvChal "beta"]) with (sz_hist tr (a0 :: a)) by (unfold sz_hist; now rewrite <- app_assoc).
  fold be. cbn [map2].
  replace (be *: (sinv be *: (t + (- s1)%S *: a0)) + a0)%P with t; [exact E|].
  transitivity ((be * sinv be)%S *: t + (s1 + - (be * sinv be))%S *: a0)%P; [|pring]. rewrite sinv_r by auto. pring.
Qed.
(** likewise a SimpleZK proof, or a shorter SimpleZK proof followed by a proof without blinding *)
Theorem C98_simplezk_boundary (ro : oracle) tr a R1 R2 m m1 m2 (A A1 A2 : list (list Point))
    (G H G1 H1 G2 H2 : list Point) (Q Q1 Q2 : Point) (w w1 w2 : Scalar) :
  let d1 := length R1 in let d2 := length R2 in
  1 <= m -> rect m (2 ^ (d1 + d2)) A -> length G = 2 ^ (d1 + d2) ->
  1 <= m1 -> rect m1 (2 ^ d1) A1 -> length G1 = 2 ^ d1 ->
  1 <= m2 -> rect m2 (2 ^ d2) A2 -> length G2 = 2 ^ d2 ->
  a <> [] -> ro (sz_hist tr a) <> s0 -> lm_live ro (sz_hist tr a) (R1 ++ R2) ->
  exists t t1 t2 tr1 tr2,
    simple_zk_verify ro tr (mkSimpleZK (lm_proof (R1 ++ R2) w) a) A G H Q (2 ^ (d1 + d2)) t = Ok (true, tr2) /\
    simple_zk_verify ro tr (mkSimpleZK (lm_proof R1 w1) a) A1 G1 H1 Q1 (2 ^ d1) t1 = Ok (true, tr1) /\
    lmpa_verify ro tr1 (lm_proof R2 w2) A2 G2 H2 Q2 (2 ^ d2) t2 = Ok (true, tr2).
Proof.
  intros d1 d2 Hm HA HG Hm1 HA1 HG1 Hm2 HA2 HG2 Ha Hb HL. destruct (live_app _ _ _ _ HL) as [L1 L2].
  destruct (simple_accepts_some ro tr (R1 ++ R2) m A G H Q w a) as [t E]; auto; try (now rewrite app_length).
  destruct (simple_accepts_some ro tr R1 m1 A1 G1 H1 Q1 w1 a) as [t1 E1]; auto.
  destruct (proof_accepts_some ro (sz_hist tr a ++ lm_rounds R1) R2 m2 A2 G2 H2 Q2 w2) as [t2 E2]; auto.
  rewrite app_length in E. exists [t], [t1], [t2]. do 2 eexists. split; [exact E|]. split; [exact E1|].
  rewrite rounds_app, app_assoc. exact E2.
Qed.
End C98.

(** two inner-product verifications on one transcript, and the two readings of the same
    linear-map messages (the hash function gives 3) *)
Section C98case.
Let ze (e : @event EX) : string * Z :=
  match e with EvMsg l c => (l, match decompress c with Some P => zp P | None => (-1)%Z end) | EvU64 l n => (l, Z.of_nat n) | EvChal l => (l, (-2)%Z) end.
Let ipa tr c := no_zk_verify ro1 tr (mkNoZK (C := EX) [compress (pN 1)] [compress (pN c)] (sN 1) (sN 2)) (firstn 2 G4) (firstn 2 H4) (pN 17) 2 (pN 9) (sN 4).
Let ro3 : @oracle EX := fun _ => sN 3.
Let R1 : list (list (@Point EX) * list (@Point EX)) := [([pN 4], [pN 5])].
Let R2 : list (list (@Point EX) * list (@Point EX)) := [([pN 6], [pN 7])].
Let lm tr R w A n t := lmpa_verify ro3 tr (lm_proof R (sN w)) [A] (repeat (pN 1) n) [] (pN 0) n [pN t].
Example C98_case :
  rmap (fun '(b, tr) => map ze tr) ('(_, tr) <- ipa [] 3%Z ;; ipa tr 5%Z) =
    Ok [("n", 2); ("alpha", -2); ("L", 1); ("R", 3); ("x_i", -2); ("n", 2); ("alpha", -2); ("L", 1); ("R", 5); ("x_i", -2)]%Z /\
  (let one := lm [] (R1 ++ R2) 9%Z [pN 0; pN 0; pN 0; pN 23] 4 183%Z in
   let two := '(b1, tr) <- lm [] R1 2%Z [pN 2; pN 32] 2 49%Z ;; '(b2, tr) <- lm tr R2 5%Z [pN 0; pN 13] 2 42%Z ;; Ok (b1 && b2, tr) in
   rmap fst one = Ok true /\ rmap fst two = Ok true /\
   rmap (fun '(_, tr) => map ze tr) one = rmap (fun '(_, tr) => map ze tr) two).
Proof. vm_compute. repeat split. Qed.
End C98case.
