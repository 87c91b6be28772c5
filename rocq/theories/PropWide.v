(** C72: the verifiers take the problem size from the generators, not from the statement.
    Surplus generators are ignored by the inner-product verifiers; the linear-map verifiers use
    nothing of G but its length, and look at every (width / 2^d)-th column only, d = floor(log2 n). *)
From Coq Require Import String.
From Verif Require Export PropPanic.
From Verif Require Import PropIpa PropLmpa PropSimpleZK.
Local Open Scope string_scope.
Local Open Scope nat_scope.
Local Open Scope list_scope.

Section C72.
Context {C : Crypto} {L : CryptoLaws C}.
Add Field SfC72 : (@S_field C L).

(** ** Inner-product argument *)
Lemma map2_firstn_skipn {U V W} (f : U -> V -> W) h (l : list U) (l' : list V) :
  map2 f (firstn h l) (skipn h (firstn (h + h) l')) = map2 f (firstn h l) (skipn h l').
Proof.
  rewrite skipn_firstn_comm. replace (h + h - h) with h by lia. revert l l'. induction h as [|h IH]; intros l l'; [reflexivity|].
  generalize (skipn (S h) l'). clear l'. intros l'. destruct l as [|u l]; [reflexivity|]. destruct l' as [|v l']; [reflexivity|].
  cbn [firstn map2]. f_equal. clear IH. revert l l'. induction h as [|h IH]; intros l l'; [reflexivity|].
  destruct l; [reflexivity|]. destruct l'; [reflexivity|]. cbn [firstn map2]. f_equal. apply IH.
Qed.
Lemma idx0_firstn {T} n (l : list T) : 1 <= n -> idx (firstn n l) 0 = idx l 0.
Proof. destruct n, l; try lia; reflexivity. Qed.

Theorem C72_ipa_surplus_generators ro tr pf (G H : list Point) Q n P t : n <= length G -> n <= length H ->
  no_zk_verify ro tr pf G H Q n P t = no_zk_verify ro tr pf (firstn n G) (firstn n H) Q n P t.
Proof.
  intros HG HH. unfold no_zk_verify.
  destruct (mapM _ (L_vec pf)) as [Ls| |] eqn:E1; [|reflexivity|reflexivity]. cbn [bind].
  destruct (mapM _ (R_vec pf)) as [Rs| |] eqn:E2; [|reflexivity|reflexivity]. cbn [bind].
  destruct (Nat.eqb_spec n (2 ^ length Ls)) as [En|]; cbn [assertb bind]; [|reflexivity].
  destruct (challenge_scalar _ _ _) as [al tr1] eqn:EC. clear EC. cbv zeta.
  rewrite generate_challenges_eq, gen_ch_spec. set (xs := tab _ _).
  assert (Hx : length xs <= length Ls).
  { unfold xs. rewrite tab_length, combine_length, (mapM_Ok_length _ _ _ E1). lia. }
  set (d := length Ls) in *. rewrite <- En. clearbody xs. destruct xs as [|x xs]; cbn [foldM].
  - cbn [bind]. assert (X := pow2_pos d). rewrite !idx0_firstn by lia. reflexivity.
  - cbn [length] in Hx. destruct d as [|d]; [lia|]. rewrite pow2_S in En. rewrite En.
    rewrite half_even. cbv zeta. rewrite !split_at_le by (rewrite ?firstn_length; lia). cbn [bind].
    unfold vector_vector_add, vector_scalar_mul.
    rewrite !firstn_firstn. replace (Nat.min (2 ^ d) (2 ^ d + 2 ^ d)) with (2 ^ d) by lia.
    rewrite <- !firstn_map, <- !skipn_map, <- !firstn_map. rewrite !map2_firstn_skipn.
    reflexivity.
Qed.
Theorem C72_almzk_surplus_generators ro tr pf (G H : list Point) Q n P t : n <= length G -> n <= length H ->
  alm_zk_verify ro tr pf G H Q n P t = alm_zk_verify ro tr pf (firstn n G) (firstn n H) Q n P t.
Proof.
  intros HG HH. unfold alm_zk_verify. destruct (decompress (C_r pf)) as [Cr|]; [|reflexivity]. cbn [unwrap bind].
  destruct (challenge_scalar _ _ _) as [be tr1]. now apply C72_ipa_surplus_generators.
Qed.

(** ** Linear-map argument: of the generators only their number is used *)
Theorem C72_lmpa_generators_unused ro tr (G G' H H' : list Point) (Q Q' : Point) : length G = length G' ->
  (forall A w, lmpa_create ro tr A G H Q w = lmpa_create ro tr A G' H' Q' w) /\
  (forall pf A n t, lmpa_verify ro tr pf A G H Q n t = lmpa_verify ro tr pf A G' H' Q' n t) /\
  (forall rng pos A w, simple_zk_create ro rng pos tr A G H Q w = simple_zk_create ro rng pos tr A G' H' Q' w) /\
  (forall pf A n t, simple_zk_verify ro tr pf A G H Q n t = simple_zk_verify ro tr pf A G' H' Q' n t).
Proof.
  intros E.
  assert (X : forall tr A w, lmpa_create ro tr A G H Q w = lmpa_create ro tr A G' H' Q' w)
    by (intros; unfold lmpa_create; now rewrite E).
  assert (Y : forall tr pf A n t, lmpa_verify ro tr pf A G H Q n t = lmpa_verify ro tr pf A G' H' Q' n t)
    by (intros; unfold lmpa_verify; now rewrite E).
  split; [auto|]. split; [auto|]. split; intros.
  - unfold simple_zk_create. rewrite E. cbv zeta. destruct (challenge_scalar _ _ _) as [be tr1]. now rewrite X.
  - unfold simple_zk_verify. rewrite E. cbv zeta. destruct (assertb _); [|reflexivity|reflexivity]. cbn [bind].
    destruct (challenge_scalar _ _ _) as [be tr1]. now rewrite Y.
Qed.

(** the columns 0, e, 2e, ... of a row, e = width / 2^d *)
Definition stride (d : nat) (row : list Point) : list Point :=
  map (fun b => nth (b * (length row / 2 ^ d)) row p0) (seq 0 (2 ^ d)).
Lemma stride_length d row : length (stride d row) = 2 ^ d.
Proof. unfold stride. now rewrite map_length, seq_length. Qed.
Lemma frow_nth h c row j : length row = h + h -> j < h ->
  nth j (frow c row) p0 = (nth j row p0 + c *: nth (h + j) row p0)%P.
Proof.
  intros Hr Hj. unfold frow. cbv zeta. rewrite Hr, half_even.
  rewrite (map2_nth _ _ _ _ p0 p0 p0) by (rewrite ?firstn_length, ?skipn_length; lia).
  rewrite nth_firstn_lt', nth_skipn' by lia. reflexivity.
Qed.
Lemma frow_stride d c row : Nat.divide (2 ^ S d) (length row) ->
  frow c (stride (S d) row) = stride d (frow c row).
Proof.
  intros [e He]. rewrite pow2_S in He.
  assert (X := pow2_pos d).
  assert (Hl : length row = e * 2 ^ d + e * 2 ^ d) by lia.
  assert (E1 : length row / 2 ^ S d = e) by (rewrite pow2_S, He; apply Nat.div_mul; lia).
  assert (E2 : length (frow c row) = e * 2 ^ d) by now apply frow_length.
  assert (E3 : length (frow c row) / 2 ^ d = e) by (rewrite E2; apply Nat.div_mul; lia).
  apply (nth_ext _ _ p0 p0).
  { rewrite stride_length. apply frow_length. rewrite stride_length. apply pow2_S. }
  rewrite (frow_length (2 ^ d)) by (rewrite stride_length; apply pow2_S). intros j Hj.
  rewrite (frow_nth (2 ^ d)) by (auto; rewrite stride_length; apply pow2_S).
  unfold stride. rewrite E1, E3.
  fold (tab (2 ^ S d) (fun b => nth (b * e) row p0)). fold (tab (2 ^ d) (fun b => nth (b * e) (frow c row) p0)).
  rewrite !tab_nth by (rewrite ?pow2_S; lia).
  cbn [Nat.add]. destruct e as [|e].
  - rewrite !Nat.mul_0_r. cbn [Nat.mul] in *. rewrite !nth_overflow by lia. pring.
  - rewrite (frow_nth (S e * 2 ^ d)) by (auto; nia). f_equal. f_equal. f_equal. lia.
Qed.
Lemma lmpa_loop_stride pf ro : forall d n f tr A t i, 2 ^ d <= n < 2 ^ S d ->
  Forall (fun row => Nat.divide (2 ^ d) (length row)) A ->
  lmpa_verify_loop f ro tr pf n A t i = lmpa_verify_loop f ro tr pf n (map (stride d) A) t i.
Proof.
  induction d as [|d IH]; intros n f tr A t i Hn HA; (destruct f as [|f]; [reflexivity|]).
  - assert (n = 1) by (cbn in Hn; lia). subst n. cbn [lmpa_verify_loop]. change (1 =? 1) with true. cbv iota zeta.
    rewrite !mpv_lin, map_map. f_equal. f_equal. apply map_ext. intros row. unfold stride. cbn [Nat.pow seq map Nat.mul].
    destruct row as [|p row]; [|reflexivity]. cbn. pring.
  - assert (Hn1 : n <> 1) by (rewrite pow2_S in Hn; assert (X := pow2_pos d); lia).
    destruct (nth_error (lm_L pf) i) as [Lr|] eqn:EL.
    2:{ cbn [lmpa_verify_loop]. destruct (Nat.eqb_spec n 1); [contradiction|]. cbv zeta. unfold idx. now rewrite EL. }
    destruct (nth_error (lm_R pf) i) as [Rr|] eqn:ER.
    2:{ cbn [lmpa_verify_loop]. destruct (Nat.eqb_spec n 1); [contradiction|]. cbv zeta. unfold idx. rewrite EL. cbn [bind]. now rewrite ER. }
    rewrite !(lm_verify_step _ _ _ _ _ _ _ _ Lr Rr) by auto. cbv zeta.
    assert (HE : Forall (fun row => Nat.Even (length row)) A).
    { eapply Forall_impl; [|exact HA]. intros row Hr. now apply divide_half in Hr. }
    rewrite (fold_matrix _ A) by auto.
    rewrite fold_matrix by (apply Forall_map, Forall_forall; intros row _; rewrite stride_length, pow2_S; exists (2 ^ d); lia).
    cbn [bind]. rewrite IH by (try (apply log2_step; auto); apply fold_divides; auto).
    f_equal. rewrite !map_map. apply map_ext_in. intros row Hr. rewrite Forall_forall in HA. symmetry. apply frow_stride. auto.
Qed.

(** FINDING: the verdict depends on every (width / 2^d)-th column only *)
Theorem C72_lmpa_verify_strided ro tr pf A (G H : list Point) Q n t : 1 <= n ->
  Forall (fun row => Nat.divide (2 ^ Nat.log2 n) (length row)) A ->
  lmpa_verify ro tr pf A G H Q n t = lmpa_verify ro tr pf (map (stride (Nat.log2 n)) A) G H Q n t.
Proof.
  intros Hn HA. unfold lmpa_verify. destruct (assertb _); [|reflexivity|reflexivity]. cbn [bind].
  apply lmpa_loop_stride; auto. apply Nat.log2_spec. lia.
Qed.
Theorem C72_simplezk_verify_strided ro tr pf A (G H : list Point) Q n t : 1 <= n ->
  Forall (fun row => Nat.divide (2 ^ Nat.log2 n) (length row)) A ->
  simple_zk_verify ro tr pf A G H Q n t = simple_zk_verify ro tr pf (map (stride (Nat.log2 n)) A) G H Q n t.
Proof.
  intros Hn HA. unfold simple_zk_verify. destruct (assertb _); [|reflexivity|reflexivity]. cbn [bind]. cbv zeta.
  destruct (challenge_scalar _ _ _) as [be tr1]. now apply C72_lmpa_verify_strided.
Qed.

(** ** The honest run on a matrix and witness of width 2^d e *)
Lemma wide_loop_spec e : forall d n f ro tr m A w Ls Rs, 2 ^ d <= n < 2 ^ S d -> d < f ->
  1 <= e -> rect m (e * 2 ^ d) A -> length w = e * 2 ^ d ->
  exists l r cs w0,
    lmpa_create_loop f ro tr n A w Ls Rs = Ok (mkLmpaNoZK (Ls ++ l) (Rs ++ r) w0, lm_hist tr (combine l r) d) /\
    length l = d /\ length r = d /\ length cs = d /\
    (forall j, j < d -> nth j cs s0 = ro (lm_hist tr (combine l r) (S j))) /\
    (forall g proof i, 1 <= m -> d < g ->
       (forall j, j < d -> nth_error (lm_L proof) (i + j) = nth_error l j) ->
       (forall j, j < d -> nth_error (lm_R proof) (i + j) = nth_error r j) ->
       lm_w proof = w0 ->
       let wd := fold_left (fun w c => fwit c w) cs w in
       let rd := fold_left (fun row c => frow c row) cs (nth 0 A []) in
       lmpa_verify_loop g ro tr proof n A (map (fun row => lin w row) A) i =
       Ok (peqb (lin (firstn 1 wd) rd) (lin wd rd), lm_hist tr (combine l r) d)).
Proof.
  induction d as [|d IH]; intros n f ro tr m A w Ls Rs Hn Hf He HA Hw; destruct f as [|f]; try lia.
  - assert (n = 1) by (cbn in Hn; lia). subst n. cbn [Nat.pow] in *. rewrite Nat.mul_1_r in *.
    destruct w as [|w0 w]; [cbn in Hw; lia|]. exists [], [], [], w0.
    cbn [lmpa_create_loop Nat.eqb idx nth_error bind].
    rewrite !app_nil_r. unfold lm_hist, lm_rounds. cbn [combine firstn map concat fold_left]. rewrite app_nil_r.
    repeat split; auto. { intros; lia. }
    intros g proof i Hm Hg _ _ Hp. destruct g as [|g]; [lia|].
    cbn [lmpa_verify_loop Nat.eqb]. rewrite mpv_lin, Hp.
    destruct HA as [HA _]. destruct A as [|row A]; cbn in HA; [lia|].
    cbn [map idx nth_error bind nth]. reflexivity.
  - rewrite pow2_S, Nat.mul_add_distr_l in HA, Hw.
    assert (Hn1 : n <> 1) by (rewrite pow2_S in Hn; assert (X := pow2_pos d); lia).
    rewrite (lm_create_step_ok _ _ _ _ _ _ _ _ m (e * 2 ^ d)) by auto. cbv zeta.
    set (l0 := cr_L A w). set (r0 := cr_R A w). set (tr1 := tr ++ lm_round l0 r0). set (c := ro tr1).
    destruct (IH (n / 2) f ro tr1 m (map (frow c) A) (fwit c w) (Ls ++ [l0]) (Rs ++ [r0])) as
      (l & r & cs & w0 & E & Hl & Hr & Hc & Hch & V).
    { now apply log2_step. } { lia. } { auto. } { now apply frow_rect. } { now apply fwit_length. }
    exists (l0 :: l), (r0 :: r), (c :: cs), w0. rewrite E.
    assert (Eh : forall j, lm_hist tr1 (combine l r) j = lm_hist tr (combine (l0 :: l) (r0 :: r)) (S j)).
    { intros j. unfold lm_hist, tr1, lm_rounds. cbn [combine firstn map concat fst snd]. now rewrite <- app_assoc. }
    rewrite <- Eh, <- !app_assoc. cbn [length app].
    assert (HAl : length A = m) by apply HA.
    repeat split; auto.
    { intros [|j] Hj; cbn [nth].
      - unfold c, tr1, lm_hist, lm_rounds. cbn [combine firstn map concat fst snd]. now rewrite app_nil_r.
      - rewrite Hch by lia. now rewrite Eh. }
    intros g proof i Hm Hg HL HR Hp. destruct g as [|g]; [lia|].
    rewrite (lm_verify_step _ _ _ _ _ _ _ _ l0 r0).
    + cbv zeta. fold tr1. fold c.
      rewrite fold_matrix by (eapply rect_even; eauto). cbn [bind fold_left].
      unfold l0, r0. rewrite (ftgt_honest (e * 2 ^ d)) by (auto; apply HA).
      rewrite V; auto; [|lia| |].
      * f_equal. f_equal. destruct A as [|row A]; [cbn in HAl; lia|]. reflexivity.
      * intros j Hj. replace (S i + j) with (i + S j) by lia. rewrite HL by lia. reflexivity.
      * intros j Hj. replace (S i + j) with (i + S j) by lia. rewrite HR by lia. reflexivity.
    + exact Hn1.
    + replace i with (i + 0) by lia. now rewrite HL by lia.
    + replace i with (i + 0) by lia. now rewrite HR by lia.
Qed.

Lemma lin_firstn1 w row : 1 <= length w -> 1 <= length row ->
  lin w row = (lin (firstn 1 w) row + lin (skipn 1 w) (skipn 1 row))%P.
Proof.
  intros Hw Hr. destruct w as [|w0 w], row as [|r0 row]; cbn [length] in *; try lia.
  cbn [firstn skipn lin]. pring.
Qed.

(** FINDING: with e >= 2 the honest proof of a true statement is accepted only if the columns
    1..e-1 of the folded first row, weighted with the folded witness, happen to cancel. For
    e = 1 nothing is left over: n need not be a power of two for the argument to be complete. *)
Theorem C72_wide_honest_run ro tr e m n A (G H : list Point) Q w :
  let d := Nat.log2 n in
  1 <= e -> 1 <= n -> 1 <= m -> rect m (e * 2 ^ d) A -> length w = e * 2 ^ d -> length G = n ->
  exists proof tr' cs b,
    lmpa_create ro tr A G H Q w = Ok (proof, tr') /\
    lmpa_verify ro tr proof A G H Q n (pmv A w) = Ok (b, tr') /\
    length cs = d /\ (forall j, j < d -> nth j cs s0 = ro (lm_hist tr (combine (lm_L proof) (lm_R proof)) (S j))) /\
    (b = true <->
     lin (skipn 1 (fold_left (fun w c => fwit c w) cs w)) (skipn 1 (fold_left (fun row c => frow c row) cs (nth 0 A []))) = p0).
Proof.
  intros d He Hn Hm HA Hw HG. assert (Hd : 2 ^ d <= n < 2 ^ S d) by (apply Nat.log2_spec; lia).
  destruct (wide_loop_spec e d n (S (n + list_max (map (@length Point) A))) ro tr m A w [] []) as (l & r & cs & w0 & E & Hl & Hr & Hc & Hch & V); auto.
  { assert (X := pow2_gt d). lia. }
  set (wd := fold_left (fun w c => fwit c w) cs w) in *. set (rd := fold_left (fun row c => frow c row) cs (nth 0 A [])) in *.
  exists (mkLmpaNoZK l r w0), (lm_hist tr (combine l r) d), cs, (peqb (lin (firstn 1 wd) rd) (lin wd rd)).
  split; [unfold lmpa_create; rewrite HG, E; reflexivity|]. split.
  { unfold lmpa_verify. rewrite HG, Nat.eqb_refl. cbn [assertb bind].
    rewrite <- (pmv_lin m (e * 2 ^ d)), mpv_lin by auto. apply V; auto. cbn [lm_L]. lia. }
  split; [auto|]. split; [auto|]. fold wd rd. rewrite peqb_eq.
  assert (Lw : length wd = e).
  { unfold wd. clear - Hw Hc. clearbody d. revert cs Hc w Hw. induction d as [|d IH]; intros [|c cs] Hc w Hw; try discriminate; cbn [fold_left].
    - cbn in Hw. lia.
    - apply IH; [now injection Hc|]. apply fwit_length. rewrite pow2_S in Hw. lia. }
  assert (Lr : length rd = e).
  { unfold rd. assert (X := rect_nth m (e * 2 ^ d) A 0 HA Hm). revert X. generalize (nth 0 A []). clear - Hc. clearbody d.
    revert cs Hc. induction d as [|d IH]; intros [|c cs] Hc row X; try discriminate; cbn [fold_left].
    - cbn in X. lia.
    - apply IH; [now injection Hc|]. apply frow_length. rewrite pow2_S in X. lia. }
  rewrite (lin_firstn1 wd rd) by lia. set (u := lin (firstn 1 wd) rd). set (v := lin (skipn 1 wd) (skipn 1 rd)). split.
  - intros X. apply (padd_cancel_l u). rewrite <- X. now rewrite padd_0_r.
  - intros ->. now rewrite padd_0_r.
Qed.
Corollary C72_complete_for_any_n ro tr m n A (G H : list Point) Q w :
  1 <= n -> 1 <= m -> rect m (2 ^ Nat.log2 n) A -> length w = 2 ^ Nat.log2 n -> length G = n ->
  exists proof tr', lmpa_create ro tr A G H Q w = Ok (proof, tr') /\
                    lmpa_verify ro tr proof A G H Q n (pmv A w) = Ok (true, tr').
Proof.
  intros Hn Hm HA Hw HG.
  destruct (C72_wide_honest_run ro tr 1 m n A G H Q w) as (pf & tr' & cs & b & E1 & E2 & Hc & _ & Hb); rewrite ?Nat.mul_1_l; auto.
  exists pf, tr'. split; [exact E1|]. rewrite E2. f_equal. f_equal. apply Hb.
  assert (Lw : length (fold_left (fun w c => fwit c w) cs w) = 1).
  { clear - Hw Hc. revert Hw Hc. generalize (Nat.log2 n) as d. intros d. revert cs w. induction d as [|d IH]; intros [|c cs] w Hw Hc; try discriminate; cbn [fold_left].
    - exact Hw.
    - apply IH; [|now injection Hc]. apply fwit_length. rewrite pow2_S in Hw. lia. }
  apply length1 in Lw as [x ->]. cbn [skipn]. reflexivity.
Qed.
End C72.

(** Concrete cases. Two surplus generators change nothing, one missing generator is a panic, and
    with R shorter than L a generator may even be missing. *)
Example C72_case_ipa :
  let pf Rs := mkNoZK (C := EX) [[3%Z]] Rs (sN 4) (sN 8) in
  let ipa Rs G H := rmap fst (no_zk_verify ro1 [] (pf Rs) G H (pN 17) 2 (pN 500) (sN 32)) in
  let G := [pN 5; pN 11] in let H := [pN 2; pN 9] in
  ipa [[4%Z]] (G ++ [pN 1; pN 7]) (H ++ [pN 3]) = Ok false /\ ipa [[4%Z]] G H = Ok false /\
  ipa [[4%Z]] [pN 5] H = Panic /\ ipa [[4%Z]] G [pN 2] = Panic /\ ipa [] [pN 5] [pN 2] = Ok false /\ ipa [] [] [pN 2] = Panic.
Proof. vm_compute. repeat split. Qed.
(** a real proof for G4, H4 is accepted with eight generators of which the last four are junk *)
Example C72_case_ipa_surplus :
  rmap (fun '(p, _) => rmap fst (no_zk_verify ro1 [] p (G4 ++ H4) (H4 ++ [pN 99]) (pN 17) 4
          (pN (1*5+2*11+3*3+4*8 + 5*2+6*9+7*6+8*13 + 70*17)) (sN 70)))
    (no_zk_create ro1 [] G4 H4 (pN 17) (map sN [1; 2; 3; 4]%Z) (map sN [5; 6; 7; 8]%Z))
  = Ok (Ok true).
Proof. vm_compute. reflexivity. Qed.
(** one row of width 4 over two generators: the honest proof of a true statement is rejected, unless
    the witness vanishes at the columns 1 and 3; over three generators width 2 works *)
Example C72_case_wide :
  let A := [[pN 5; pN 11; pN 3; pN 8]] in
  let run A g w t := rmap (fun '(p, _) => rmap fst (lmpa_verify ro1 [] p A (repeat (pN 1) g) [] p0 g [pN t]))
                          (lmpa_create ro1 [] A (repeat (pN 1) g) [] p0 (map sN w)) in
  run A 4 [1; 2; 3; 4]%Z (1*5+2*11+3*3+4*8)%Z = Ok (Ok true) /\
  run A 2 [1; 2; 3; 4]%Z (1*5+2*11+3*3+4*8)%Z = Ok (Ok false) /\
  run A 2 [1; 0; 3; 0]%Z (1*5+3*3)%Z = Ok (Ok true) /\
  run [[pN 5; pN 11]] 3 [1; 2]%Z (1*5+2*11)%Z = Ok (Ok true) /\
  map (fun r => map (fun p => zp p) (stride 1 r)) A = [[5; 3]]%Z.
Proof. vm_compute. repeat split. Qed.
