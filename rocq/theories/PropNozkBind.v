(** C101: the inner-product argument hashes neither P nor t. One proof is accepted for a whole line
    of statements, and since alpha is known before the statement is chosen, false ones are proved. *)
From Coq Require Import String.
From Verif Require Export IpaFacts PropIpa PropAlm Basis.
From Verif Require Import Ex ExSmall.
Local Open Scope nat_scope.
Local Open Scope list_scope.

Section C101.
Context {C : Crypto} {L : CryptoLaws C}.
Add Field SfC101 : (@S_field C L).

(** the outcome depends on the statement only through one point *)
Lemma nozk_shape ro tr pf (G H : list Point) (Q : Point) n :
  (exists r, (forall v, r <> Ok v) /\ forall P t, no_zk_verify ro tr pf G H Q n P t = r) \/
  (exists E LRx tr', (forall lrx, In lrx LRx -> exists j, j < min (length (L_vec pf)) (length (R_vec pf)) /\
       snd lrx = ro (ipa_hist tr n (combine (L_vec pf) (R_vec pf)) (S j))) /\
     forall P t, no_zk_verify ro tr pf G H Q n P t =
       Ok (peqb E (foldP LRx (P_alpha (ro (ipa_start tr n)) t P Q)), tr')).
Proof.
  unfold no_zk_verify.
  destruct (mapM (fun L => unwrap (decompress L)) (L_vec pf)) as [Ls| |]; cbn [bind]; [|left; eexists; split; [|reflexivity]; discriminate..].
  destruct (mapM (fun R => unwrap (decompress R)) (R_vec pf)) as [Rs| |]; cbn [bind]; [|left; eexists; split; [|reflexivity]; discriminate..].
  destruct (Nat.eqb_spec n (2 ^ length Ls)) as [En|]; cbn [assertb bind]; [|left; eexists; split; [|reflexivity]; discriminate].
  rewrite <- En. unfold append_u64, challenge_scalar.
  replace ((tr ++ [EvU64 "n" n]) ++ [EvChal "alpha"]) with (ipa_start tr n) by (unfold ipa_start; now rewrite <- app_assoc).
  rewrite ipa_gen. set (xs := ipa_chals ro tr n (combine (L_vec pf) (R_vec pf))).
  destruct (foldM _ xs (n, G, H)) as [[[n' G'] H']| |]; cbn [bind]; [|left; eexists; split; [|reflexivity]; discriminate..].
  destruct (idx G' 0) as [G0| |]; cbn [bind]; [|left; eexists; split; [|reflexivity]; discriminate..].
  destruct (idx H' 0) as [H0| |]; cbn [bind]; [|left; eexists; split; [|reflexivity]; discriminate..].
  right. do 3 eexists. split; [|intros P t; rewrite fold_left_foldP; reflexivity].
  intros [lr x] Hx. apply in_combine_r in Hx. unfold xs, ipa_chals, tab in Hx. apply in_map_iff in Hx as (j & Ej & Hj).
  apply in_seq in Hj. rewrite combine_length in Hj. exists j. split; [lia|]. now symmetry.
Qed.
Lemma P_alpha_eq al t (P Q : Point) : al <> s0 -> P_alpha al t P Q = (P - t *: Q + (sinv al * t)%S *: Q)%P.
Proof. intros Hal. unfold P_alpha. pnorm; try ring. field. exact Hal. Qed.

(** same point, same outcome (verdict and panics) *)
Theorem C101_same_outcome ro tr pf (G H : list Point) (Q P P' : Point) t t' n :
  let al := ro (ipa_start tr n) in
  al <> s0 -> (P - t *: Q + (sinv al * t)%S *: Q = P' - t' *: Q + (sinv al * t')%S *: Q)%P ->
  no_zk_verify ro tr pf G H Q n P t = no_zk_verify ro tr pf G H Q n P' t'.
Proof.
  intros al Hal E. rewrite <- !P_alpha_eq in E by auto.
  destruct (nozk_shape ro tr pf G H Q n) as [(r & _ & R)|(e & LRx & tr' & _ & R)].
  - now rewrite !R.
  - rewrite !R. fold al. now rewrite E.
Qed.
(** with alpha = 0 the verifier does not look at t *)
Theorem C101_alpha_zero ro tr pf (G H : list Point) (Q P : Point) t t' n :
  ro (ipa_start tr n) = s0 -> no_zk_verify ro tr pf G H Q n P t = no_zk_verify ro tr pf G H Q n P t'.
Proof.
  intros Hal. destruct (nozk_shape ro tr pf G H Q n) as [(r & _ & R)|(e & LRx & tr' & _ & R)]; rewrite !R; auto.
  rewrite Hal. unfold P_alpha. rewrite sinv_0, !pmul_0_l, !pmul_0_r. reflexivity.
Qed.
(** ... and only then: for every proof and every t exactly one P is accepted, if any (P, t) is *)
Theorem C101_accepted_line ro tr pf (G H : list Point) (Q P P' : Point) t t' n tr' :
  let al := ro (ipa_start tr n) in
  al <> s0 ->
  (forall j, j < min (length (L_vec pf)) (length (R_vec pf)) -> ro (ipa_hist tr n (combine (L_vec pf) (R_vec pf)) (S j)) <> s0) ->
  no_zk_verify ro tr pf G H Q n P t = Ok (true, tr') ->
  (no_zk_verify ro tr pf G H Q n P' t' = Ok (true, tr') <-> P' = (P + ((sinv al - s1) * (t - t'))%S *: Q)%P).
Proof.
  intros al Hal HX E. split.
  - destruct (nozk_shape ro tr pf G H Q n) as [(r & V & R)|(e & LRx & tr2 & X & R)].
    + rewrite R in E. now destruct (V (true, tr')).
    + intros E'. rewrite R in E, E'. injection E as E _. injection E' as E' _. apply peqb_eq in E, E'. rewrite E in E'.
      apply foldP_inj in E'.
      * fold al in E'. rewrite !P_alpha_eq in E' by auto.
        transitivity ((P' - t' *: Q + (sinv al * t')%S *: Q) + (t' - sinv al * t')%S *: Q)%P; [pring|]. rewrite <- E'. pring.
      * intros x Hx. apply in_map_iff in Hx as (lrx & <- & Hl). destruct (X lrx Hl) as (j & Hj & ->). now apply HX.
  - intros ->. rewrite <- E. apply C101_same_outcome; auto. fold al. pring.
Qed.

(** a false statement, for any two vectors and any t other than their product: the honest proof for
    the vectors is accepted with this P, which has no opening with the coefficient t at Q *)
Theorem C101_forgery ro tr d (G H : list Point) (Q : Point) (a b : list Scalar) (t : Scalar) :
  let n := 2 ^ d in
  let al := ro (ipa_start tr n) in
  length G = n -> length H = n -> length a = n -> length b = n -> al <> s0 ->
  let P := (comb a G + comb b H + (t + sinv al * (dotp a b - t))%S *: Q)%P in
  (exists pf tr', no_zk_create ro tr G H Q a b = Ok (pf, tr') /\ no_zk_verify ro tr pf G H Q n P t = Ok (true, tr')) /\
  (dotp a b <> t -> independent n G H Q ->
   forall a' b', length a' = n -> length b' = n -> (comb a' G + comb b' H + t *: Q)%P <> P).
Proof.
  intros n al HG HH Ha Hb Hal P. split.
  - destruct (no_zk_complete ro tr G H Q a b d HG HH Ha Hb) as (pf & tr' & Hc & _ & _ & _ & V & _).
    exists pf, tr'. split; [exact Hc|]. apply V. change (ipa_alpha ro tr (2 ^ d)) with al.
    rewrite P_alpha_eq by auto. unfold ipa_com, P. rewrite dot_dotp by lia. rewrite !lin_comb by lia.
    pnorm; ring.
  - intros Hne I a' b' Ha' Hb' E.
    apply (I (map2 ssub a' a) (map2 ssub b' b) (- (sinv al * (dotp a b - t)))%S).
    split; [rewrite map2_length; lia|]. split; [rewrite map2_length; lia|]. split.
    + rewrite <- !lin_comb by (rewrite map2_length; lia). rewrite !lin_sub_s by lia. rewrite !lin_comb by lia.
      transitivity ((comb a' G + comb b' H + t *: Q) - P)%P; [unfold P; pring|]. rewrite E. pring.
    + intros [_ Z]. apply Hne. apply ssub_0.
      transitivity ((sinv al * al) * (dotp a b - t))%S; [rewrite sinv_l by auto; ring|].
      transitivity (- (al * - (sinv al * (dotp a b - t))))%S; [ring|]. rewrite Z. ring.
Qed.
(** the caller hashes P first, as the unit test does (no_zk.rs:209-217): P is now chosen before
    alpha, t after it. tr is arbitrary, so it may contain P *)
Theorem C101_forgery_P_hashed ro tr d (G H : list Point) (Q : Point) (a b : list Scalar) (q : Scalar) :
  let n := 2 ^ d in
  let P := (comb a G + comb b H + q *: Q)%P in
  let tr1 := tr ++ [EvMsg "P" (compress P)] in
  let al := ro (ipa_start tr1 n) in
  length G = n -> length H = n -> length a = n -> length b = n -> al <> s0 -> al <> s1 ->
  let t := (sinv (al - s1) * (al * q - dotp a b))%S in
  (exists pf tr', no_zk_create ro tr1 G H Q a b = Ok (pf, tr') /\ no_zk_verify ro tr1 pf G H Q n P t = Ok (true, tr')) /\
  (dotp a b <> q -> independent n G H Q ->
   forall a' b', length a' = n -> length b' = n -> (comb a' G + comb b' H + t *: Q)%P <> P).
Proof.
  intros n P tr1 al HG HH Ha Hb Hal Hal1 t.
  assert (Hd : (al - s1)%S <> s0) by (intros E; apply Hal1; now apply ssub_0).
  assert (Eq : q = (t + sinv al * (dotp a b - t))%S).
  { unfold t. field. auto. }
  destruct (C101_forgery ro tr1 d G H Q a b t HG HH Ha Hb Hal) as [F1 F2].
  change (ro (ipa_start tr1 (2 ^ d))) with al in F1, F2. cbv zeta in F1, F2. rewrite <- Eq in F1, F2. fold P in F1, F2. split; [exact F1|].
  intros Hne. apply F2. intros E. apply Hne. rewrite Eq. rewrite E. ring.
Qed.
End C101.

(** (1,2,3,4).(5,6,7,8) = 70, proved to be 71 *)
Example C101_case :
  let a := [sN 1; sN 2; sN 3; sN 4] in let b := [sN 5; sN 6; sN 7; sN 8] in
  let t := sN 71 in let al := ro1 (ipa_start [] 4) in
  let Q := pN 17 in
  let P := (comb a G4 + comb b H4 + (t + sinv al * (dotp a b - t))%S *: Q)%P in
  (zs (dotp a b), rmap (fun '(pf, _) => (rmap fst (no_zk_verify ro1 [] pf G4 H4 Q 4 P t),
                                         rmap fst (no_zk_verify ro1 [] pf G4 H4 Q 4 P (sN 70))))
    (no_zk_create ro1 [] G4 H4 Q a b)) = (70%Z, Ok (Ok true, Ok false)).
Proof. vm_compute. reflexivity. Qed.

(** P hashed first: P commits to 70 and 99 instead of the product, t comes out wrong and is accepted *)
Example C101_case_P_hashed :
  let a := [sN 1; sN 2; sN 3; sN 4] in let b := [sN 5; sN 6; sN 7; sN 8] in
  let Q := pN 17 in let P := (comb a G4 + comb b H4 + sN 99 *: Q)%P in
  let tr := [EvMsg "P" (compress P)] in
  let al := ro1 (ipa_start tr 4) in
  let t := (sinv (al - s1) * (al * sN 99 - dotp a b))%S in
  (seqb t (sN 99), rmap (fun '(pf, _) => (rmap fst (no_zk_verify ro1 tr pf G4 H4 Q 4 P t),
                                         rmap fst (no_zk_verify ro1 tr pf G4 H4 Q 4 P (sN 99))))
    (no_zk_create ro1 tr G4 H4 Q a b)) = (false, Ok (Ok true, Ok false)).
Proof. vm_compute. reflexivity. Qed.

(** independent generators, 9 coordinates: the accepted statement has no opening at all *)
Example C101_case_false :
  let C := RC 9 in let two : @Scalar C := fp ell 2 in
  let G := basis 9 0 4 in let H := basis 9 4 4 in let Q := eB 9 8 in
  let t : @Scalar C := fp ell 71 in
  exists P : @Point C,
    (exists pf tr', @no_zk_verify C (fun _ => two) [] pf G H Q 4 P t = Ok (true, tr')) /\
    forall a' b' : list (@Scalar C), length a' = 4 -> length b' = 4 -> (comb a' G + comb b' H + t *: Q)%P <> P.
Proof.
  intros C two G H Q t. assert (L := RC_laws 9).
  set (a := map (fp ell) [1; 2; 3; 4]%Z). set (b := map (fp ell) [5; 6; 7; 8]%Z).
  assert (H2 : two <> s0) by (intros E; apply (f_equal (val ell)) in E; vm_compute in E; discriminate).
  assert (Ht : @dotp C a b <> t) by (intros E; apply (f_equal (val ell)) in E; vm_compute in E; discriminate).
  destruct (C101_forgery (C := C) (fun _ => two) [] 2 G H Q a b t) as [(pf & tr' & _ & V) F]; try reflexivity; [exact H2|].
  eexists. split; [exists pf, tr'; exact V|]. apply F; [exact Ht|exact (basis_independent 4)].
Qed.

Section AlmT.
Context {C : Crypto} {L : CryptoLaws C}.
Add Field SfAlmT : (@S_field C L).
(** Almost-zk argument: hashing C_w first is not enough. For every C_w = <a,G> + <b,H> (already hashed
    into tr or not), all masks r, s and every hash function with non-zero beta and alpha, the t
    computed after beta is accepted; it is wrong unless beta (<a,s> + <r,b>) + <r,s> = 0 *)
Theorem C21_t_not_bound (ro : oracle) tr d (G H : list Point) (Q : Point) (a b r s : list Scalar) :
  let n := 2 ^ d in
  length G = n -> length H = n -> length a = n -> length b = n -> length r = n -> length s = n ->
  let Cw := (comb a G + comb b H)%P in
  let Cr := (comb r G + comb s H)%P in
  let beta := ro (alm_beta_hist tr (compress Cr)) in
  let t := (dotp a b + sinv (beta * beta) * (beta * (dotp a s + dotp r b) + dotp r s))%S in
  beta <> s0 -> ro (ipa_start (alm_ipa_hist tr (compress Cr) (alm_P beta t Cw Cr Q)) n) <> s0 ->
  (exists proof tr', C_r proof = compress Cr /\ alm_zk_verify ro tr proof G H Q n Cw t = Ok (true, tr')) /\
  (t = dotp a b <-> (beta * (dotp a s + dotp r b) + dotp r s = s0)%S) /\
  (independent n G H Q ->
   forall a' b', length a' = n -> length b' = n -> Cw = (comb a' G + comb b' H)%P -> dotp a' b' = dotp a b).
Proof.
  intros n HG HH La Lb Lr Ls Cw Cr beta t Hb Hal.
  split; [|split].
  - set (ma := map2 (fun a r => beta * a + r)%S a r). set (mb := map2 (fun b s => beta * b + s)%S b s).
    set (P := alm_P beta t Cw Cr Q) in *. set (tr2 := alm_ipa_hist tr (compress Cr) P) in *.
    destruct (no_zk_complete ro tr2 G H Q ma mb d) as (pf & tr' & _ & _ & _ & _ & Hv & _);
      try assumption; try (unfold ma, mb; rewrite map2_length; lia).
    exists (mkAlmZK (compress Cr) pf), tr'. split; [reflexivity|].
    assert (VE := alm_verify_eq ro tr (mkAlmZK (compress Cr) pf) G H Q n Cw t Cr (decompress_compress _)).
    cbv zeta in VE. cbn [C_r az_NoZK] in VE. fold beta in VE. fold P in VE. fold tr2 in VE. rewrite VE.
    apply Hv. fold n. fold (ipa_alpha ro tr2 n) in Hal. set (al := ipa_alpha ro tr2 n) in *.
    assert (Ed : dot ma mb = (beta * beta * t)%S).
    { unfold ma, mb. rewrite dot_masked by lia. unfold t. rewrite <- !dot_dotp by lia. field. exact Hb. }
    unfold ipa_com. rewrite Ed. unfold ma, mb. rewrite !lin_masked, !lin_comb by lia.
    unfold P_alpha, P, alm_P, Cw, Cr. pnorm; try ring.
    transitivity (beta * beta * t - beta * beta * t * (sinv al * al) + beta * beta * t * sinv al)%S; [ring|].
    rewrite sinv_l by auto. ring.
  - assert (Nb : (beta * beta)%S <> s0) by (intros Z; apply smul_eq_0 in Z as [Z|Z]; auto). unfold t. split; intros E.
    + set (e := (beta * (dotp a s + dotp r b) + dotp r s)%S) in *. transitivity (beta * beta * (sinv (beta * beta) * e))%S; [field; exact Hb|].
      replace (sinv (beta * beta) * e)%S with s0; [ring|]. symmetry. transitivity (dotp a b + sinv (beta * beta) * e - dotp a b)%S; [ring|]. rewrite E. ring.
    + rewrite E. ring.
  - intros HI a' b' La' Lb' E.
    assert (Z : forall i, i < n -> sc a' i = sc a i /\ sc b' i = sc b i).
    { intros i Hi.
      destruct (S_eq_dec (sc a' i) (sc a i)) as [E1|E1]; [destruct (S_eq_dec (sc b' i) (sc b i)) as [E2|E2]; auto|];
        exfalso; apply (HI (map2 ssub a' a) (map2 ssub b' b) s0); (split; [rewrite map2_length; lia|]);
        (split; [rewrite map2_length; lia|]); (split;
        [rewrite <- !lin_comb by (rewrite map2_length; lia); rewrite !lin_sub_s by lia;
         rewrite !lin_comb by lia;
         transitivity ((comb a' G + comb b' H) - (comb a G + comb b H))%P; [pring|]; rewrite <- E; unfold Cw; pring
        |intros [Z _]; destruct (Z i Hi) as [Z1 Z2]; rewrite !sc_map2 in Z1, Z2 by lia;
         apply ssub_0 in Z1, Z2; contradiction]). }
    assert (Ea : a' = a) by (apply (list_eq_nth s0); try lia; intros i Hi; apply Z; lia).
    assert (Eb : b' = b) by (apply (list_eq_nth s0); try lia; intros i Hi; apply Z; lia).
    now subst.
Qed.
End AlmT.
(** a = (1,2,3,4), b = (2,0,1,5), <a,b> = 25; C_w is hashed first, C_r = G_0 + 2 H_0; the t that is
    accepted is not 25 *)
Example C21_t_case :
  let G := G4 in let H := H4 in let Q := pN 17 in
  let Cw := (lin [sN 1; sN 2; sN 3; sN 4] G + lin [sN 2; sN 0; sN 1; sN 5] H)%P in
  let tr := [EvMsg "C_w" (compress Cw)] in
  let Cr := (pt G 0 + sN 2 *: pt H 0)%P in
  let beta := ro1 (alm_beta_hist tr (compress Cr)) in
  let t := (sN 25 + sinv (beta * beta) * (beta * sN 4 + sN 2))%S in
  rmap (fun '(pf, _) => rmap fst (alm_zk_verify ro1 tr (mkAlmZK (compress Cr) pf) G H Q 4 Cw t))
    (no_zk_create ro1 (alm_ipa_hist tr (compress Cr) (alm_P beta t Cw Cr Q)) G H Q
       [(beta + s1)%S; (beta * sN 2)%S; (beta * sN 3)%S; (beta * sN 4)%S]
       [(beta * sN 2 + sN 2)%S; s0; beta; (beta * sN 5)%S]) = Ok (Ok true) /\ t <> sN 25.
Proof. cbv zeta. split; [vm_compute; reflexivity|]. intros E. apply (f_equal zs) in E. vm_compute in E. discriminate. Qed.
