(** C81: builds without overflow checks. Wrapping subtractions never turn a panic into an answer;
    the wrapping shift 1 << |L| lets the verifiers accept proofs with bits more points in L, and
    exactly those, which are as good as the proofs without the surplus. *)
From Coq Require Import String.
From Verif Require Export Release PropShort.
From Verif Require Import ListFacts MatrixFacts IpaFacts PropPanic PropMalleable CopyFacts PropForking Ex ExSmall.
Local Open Scope string_scope.
Local Open Scope nat_scope.
Local Open Scope list_scope.

Section C81.
Context {C : Crypto} {L : CryptoLaws C}.
Context (bits cap : nat) (Hcap : 2 <= cap) (HW : 2 * cap + 2 < 2 ^ bits).
Notation usub_wrap := (usub_wrap bits).

Lemma bits_pos : 0 < bits.
Proof. destruct bits; [cbn in HW; lia|lia]. Qed.
Lemma wrap_le a b : b <= a -> usub_wrap a b = a - b.
Proof. intros H. unfold Release.usub_wrap. now destruct (Nat.leb_spec b a); [|lia]. Qed.
Lemma wrap_gt a b : a < b -> usub_wrap a b = 2 ^ bits - (b - a).
Proof. intros H. unfold Release.usub_wrap. now destruct (Nat.leb_spec b a); [lia|]. Qed.
Lemma alloc_le {T} (x : T) k : k <= cap -> alloc cap x k = Ok (repeat x k).
Proof. intros H. unfold alloc. now destruct (Nat.leb_spec k cap); [|lia]. Qed.
Lemma alloc_gt {T} (x : T) k : cap < k -> alloc cap x k = Panic.
Proof. intros H. unfold alloc. now destruct (Nat.leb_spec k cap); [lia|]. Qed.

Theorem C81_vandemonde_challenge x n : n <= cap ->
  vandemonde_challenge_release bits cap x n = vandemonde_challenge x n.
Proof.
  intros H. unfold vandemonde_challenge_release, vandemonde_challenge. destruct n as [|n].
  - rewrite wrap_gt by lia. rewrite usub_gt by lia. cbn [bind]. destruct (Nat.leb_spec (S (2 ^ bits - (1 - 0))) cap); [lia|reflexivity].
  - rewrite wrap_le by lia. rewrite usub_le by lia. cbn [bind]. destruct (Nat.leb_spec (S (S n - 1)) cap); [reflexivity|lia].
Qed.
Theorem C81_vandemonde_vector x n : n <= cap ->
  vandemonde_vector_release bits cap x n = vandemonde_vector x n.
Proof.
  intros H. unfold vandemonde_vector_release, vandemonde_vector. destruct n as [|n].
  - rewrite wrap_gt by lia. rewrite usub_gt by lia. cbn [bind]. destruct (Nat.leb_spec (S (2 ^ bits - (1 - 0))) cap); [lia|reflexivity].
  - rewrite wrap_le by lia. rewrite usub_le by lia. cbn [bind]. destruct (Nat.leb_spec (S (S n - 1)) cap); [reflexivity|lia].
Qed.
Theorem C81_vandemonde_vector_general {T} (mul : T -> T -> T) x n one : n <= cap ->
  vandemonde_vector_general_release bits cap mul x n one = vandemonde_vector_general mul x n one.
Proof.
  intros H. unfold vandemonde_vector_general_release, vandemonde_vector_general. destruct n as [|n].
  - rewrite wrap_gt by lia. rewrite usub_gt by lia. cbn [bind]. destruct (Nat.leb_spec (S (2 ^ bits - (1 - 0))) cap); [lia|reflexivity].
  - rewrite wrap_le by lia. rewrite usub_le by lia. cbn [bind]. destruct (Nat.leb_spec (S (S n - 1)) cap); [reflexivity|lia].
Qed.
(** r[0] and r[1] are written first, so n - 2 and n - 1 do not wrap *)
Theorem C81_sample rng pos n : sample_m_n_plus_release bits rng pos n = sample_m_n_plus rng pos n.
Proof.
  unfold sample_m_n_plus_release, sample_m_n_plus. destruct n as [|[|n]]; [reflexivity|reflexivity|].
  rewrite !wrap_le, !usub_le by lia. reflexivity.
Qed.

Lemma gamma_prime_release gamma n : n <= cap -> compute_gamma_prime_release bits cap gamma n = compute_gamma_prime gamma n.
Proof.
  intros H. unfold compute_gamma_prime_release, compute_gamma_prime. destruct (Nat.le_gt_cases 2 n).
  - rewrite wrap_le, usub_le by lia. rewrite alloc_le by lia. reflexivity.
  - rewrite wrap_gt, usub_gt by lia. rewrite alloc_gt by lia. reflexivity.
Qed.

Lemma bind_ext {A B} (m : res A) (f g : A -> res B) : (forall x, m = Ok x -> f x = g x) -> bind m f = bind m g.
Proof. destruct m; cbn; auto. Qed.

Theorem C81_qesa_prover ro rng pos tr (G H : list Point) (Q : Point) gm w r :
  length G <= cap -> length w <= cap ->
  inner_create_release bits cap ro rng pos tr G H Q gm w r = inner_create ro rng pos tr G H Q gm w r.
Proof.
  intros HG Hw. unfold inner_create_release, inner_create. destruct (Nat.le_gt_cases 2 (length G)) as [Hn|Hn].
  - rewrite wrap_le, usub_le by lia. cbn [bind]. cbv zeta. unfold challenge_scalar. cbv iota.
    repeat (first [rewrite C81_vandemonde_challenge by lia | rewrite gamma_prime_release by lia | apply bind_ext; intros ? _]); reflexivity.
  - rewrite wrap_gt, usub_gt by lia. cbn [bind]. destruct (Nat.eqb_spec (length w) (2 ^ bits - (2 - length G))); [lia|reflexivity].
Qed.

Lemma foldM_ext' {A B} (f g : A -> B -> res A) l : (forall a b, In b l -> f a b = g a b) -> forall a, foldM f l a = foldM g l a.
Proof.
  induction l as [|b l IH]; intros H a; cbn [foldM]; auto. rewrite H by (now left).
  destruct (g a b); cbn [bind]; auto. apply IH. intros; apply H; now right.
Qed.
Theorem C81_copy_prover ro rng pos tr (G H : list Point) (Q : Point) mp gm w openings :
  length G <= cap -> length w <= cap -> length openings <= cap ->
  copy_create_release bits cap ro rng pos tr G H Q mp gm w openings = copy_create ro rng pos tr G H Q mp gm w openings.
Proof.
  intros HG Hw Ho. unfold copy_create_release, copy_create. cbv zeta.
  apply bind_ext; intros _ _. apply bind_ext; intros w0 _. apply bind_ext; intros _ _.
  destruct (Nat.le_gt_cases 2 (length G)) as [Hn|Hn].
  2: { rewrite (wrap_gt (length G) 2) by lia. rewrite usub_gt by lia. rewrite wrap_le by lia. rewrite alloc_gt by lia. reflexivity. }
  rewrite (wrap_le (length G) 2), (usub_le (length G) 2) by lia. cbn [bind].
  destruct (Nat.le_gt_cases (length w) (length G - 2)) as [Hl|Hl].
  2: { rewrite wrap_gt, usub_gt by lia. rewrite alloc_gt by lia. reflexivity. }
  rewrite wrap_le, usub_le by lia. rewrite alloc_le by lia. cbn [bind]. rewrite map_const_repeat.
  apply bind_ext; intros w1 _. apply bind_ext; intros Cw _. unfold challenge_scalar. cbv iota.
  rewrite C81_vandemonde_challenge by lia. apply bind_ext; intros al _. rewrite wrap_le, usub_le by lia. cbn [bind].
  apply bind_ext; intros z _. apply bind_ext; intros w2 _. apply bind_ext; intros w3 _. rewrite alloc_le by lia. cbn [bind].
  rewrite map_const_repeat.
  match goal with |- bind ?m _ = bind ?m' _ => assert (E : m = m') end.
  { apply foldM_ext'. intros a b _. unfold create_copy_matrix_release, create_copy_matrix. cbv zeta. rewrite alloc_le by lia. cbn [bind].
    rewrite map_const_repeat. reflexivity. }
  rewrite E. apply bind_ext; intros g _. apply bind_ext. intros [w4 r4] E4.
  rewrite C81_qesa_prover; [reflexivity|auto|]. unfold split_at in E4. destruct (_ <=? _); [|discriminate]. injection E4 as <- <-.
  rewrite firstn_length. lia.
Qed.

(** ** the double loops of the k-ary argument *)
Lemma foldM_ext_inv {A B} (I : A -> Prop) (f g : A -> B -> res A) l :
  (forall a b, I a -> In b l -> f a b = g a b) -> (forall a b a', I a -> In b l -> g a b = Ok a' -> I a') ->
  forall a, I a -> foldM f l a = foldM g l a.
Proof.
  induction l as [|b l IH]; intros H1 H2 a Ha; cbn [foldM]; auto. rewrite H1 by (auto; now left).
  destruct (g a b) as [a'| |] eqn:E; cbn [bind]; auto. apply IH.
  - intros; apply H1; auto; now right.
  - intros; eapply H2; eauto; now right.
  - eapply H2; eauto. now left.
Qed.
Lemma enumerate_lt {A} (l : list A) i x : In (i, x) (enumerate l) -> i < length l.
Proof. intros H. apply in_combine_l in H. apply in_seq in H. lia. Qed.
Lemma upd_length_ok {A} (l l' : list A) i x : upd l i x = Ok l' -> length l' = length l.
Proof. unfold upd. destruct (_ <? _); intros E; inversion E. apply set_at_length. Qed.
Lemma upd_out {A} (l : list A) i x : length l <= i -> upd l i x = Panic.
Proof. intros H. unfold upd. destruct (Nat.ltb_spec i (length l)); [lia|reflexivity]. Qed.
Lemma idx_out {A} (l : list A) i : length l <= i -> idx l i = Panic.
Proof. intros H. unfold idx. now rewrite (proj2 (nth_error_None l i)). Qed.

Definition u_step shift (t : list Point) i A_t (u_vec : list (list Point)) (b : nat * list (list Scalar)) : res (list (list Point)) :=
  let '(j, w_vec) := b in
  l <- usub (shift + j) i ;;
  if negb (l =? shift) then
    w_0 <- idx w_vec 0 ;;
    let u_l_t := matrixpoint_vector_mul A_t w_0 in
    u_l <- idx u_vec l ;;
    s <- rowpoint_rowpoint_add u_l u_l_t ;;
    upd u_vec l s
  else upd u_vec l t.
Lemma u_step_length shift t i A_t a b a' : u_step shift t i A_t a b = Ok a' -> length a' = length a.
Proof.
  destruct b as [j wv]. unfold u_step, usub. destruct (i <=? shift + j); cbn [bind]; [|discriminate]. destruct (negb _).
  - destruct (idx wv 0); cbn [bind]; try discriminate. cbv zeta. destruct (idx a _); cbn [bind]; try discriminate.
    destruct (rowpoint_rowpoint_add _ _); cbn [bind]; try discriminate. apply upd_length_ok.
  - apply upd_length_ok.
Qed.
Theorem C81_u_vec_loop shift (A_T : list (list (list Point))) w_T (t : list Point) u_vec :
  length A_T + length u_vec <= 2 ^ bits ->
  u_vec_loop_release bits shift A_T w_T t u_vec = u_vec_loop shift A_T w_T t u_vec.
Proof.
  intros HL. unfold u_vec_loop_release. change (u_vec_loop shift A_T w_T t u_vec) with
    (foldM (fun u_vec '(i, A_t) => foldM (u_step shift t i A_t) (enumerate w_T) u_vec) (enumerate A_T) u_vec).
  apply (foldM_ext_inv (fun u => length u = length u_vec)); [| |reflexivity].
  - intros u [i A_t] Hu Hi. apply enumerate_lt in Hi. apply (foldM_ext_inv (fun u => length u = length u_vec)); [| |exact Hu].
    + intros u' [j wv] Hu' _. unfold u_step. destruct (Nat.le_gt_cases i (shift + j)) as [Hl|Hl].
      * rewrite wrap_le, usub_le by lia. reflexivity.
      * rewrite wrap_gt, usub_gt by lia. cbn [bind]. cbv zeta. destruct (negb _).
        -- destruct (idx wv 0) eqn:Ei; cbn [bind]; [rewrite idx_out by lia; reflexivity|reflexivity|].
           unfold idx in Ei. destruct (nth_error wv 0); discriminate.
        -- apply upd_out. lia.
    + intros a b a' Ha _ E. apply u_step_length in E. congruence.
  - intros u [i A_t] u' Hu Hi E.
    refine (foldM_inv (fun u => length u = length u_vec) _ _ _ _ Hu _ E).
    intros a b a' _ Ha E'. apply u_step_length in E'. congruence.
Qed.
Definition z_step shift i x (z_vec : list Scalar) (b : nat * Scalar) : res (list Scalar) :=
  let '(j, y) := b in
  l <- usub (shift + j) i ;;
  if negb (l =? shift) then upd z_vec l (x * y)%S else Ok z_vec.
Lemma z_step_length shift i x a b a' : z_step shift i x a b = Ok a' -> length a' = length a.
Proof.
  destruct b as [j y]. unfold z_step, usub. destruct (i <=? shift + j); cbn [bind]; [|discriminate]. destruct (negb _).
  - apply upd_length_ok.
  - intros E. now inversion E.
Qed.
Theorem C81_z_vec_loop shift x_vec y_vec z_vec :
  length x_vec + length z_vec <= 2 ^ bits -> shift < 2 ^ bits ->
  z_vec_loop_release bits shift x_vec y_vec z_vec = z_vec_loop shift x_vec y_vec z_vec.
Proof.
  intros HL Hs. unfold z_vec_loop_release. change (z_vec_loop shift x_vec y_vec z_vec) with
    (foldM (fun z_vec '(i, x) => foldM (z_step shift i x) (enumerate y_vec) z_vec) (enumerate x_vec) z_vec).
  apply (foldM_ext_inv (fun u => length u = length z_vec)); [| |reflexivity].
  - intros u [i x] Hu Hi. apply enumerate_lt in Hi. apply (foldM_ext_inv (fun u => length u = length z_vec)); [| |exact Hu].
    + intros u' [j y] Hu' _. unfold z_step. destruct (Nat.le_gt_cases i (shift + j)) as [Hl|Hl].
      * rewrite wrap_le, usub_le by lia. reflexivity.
      * rewrite wrap_gt, usub_gt by lia. cbn [bind]. cbv zeta.
        destruct (Nat.eqb_spec (2 ^ bits - (i - (shift + j))) shift); cbn [negb]; [lia|apply upd_out; lia].
    + intros a b a' Ha _ E. apply z_step_length in E. congruence.
  - intros u [i x] u' Hu Hi E.
    refine (foldM_inv (fun u => length u = length z_vec) _ _ _ _ Hu _ E).
    intros a b a' _ Ha E'. apply z_step_length in E'. congruence.
Qed.

(** ** the k-ary argument *)
(** first rows of at most cap entries *)
Definition narrow {T} (A : list (list T)) : Prop := match A with [] => True | r :: _ => length r <= cap end.
Lemma narrow_split {T} (A : list (list T)) c A_T : matrix_split A c = Ok A_T -> narrow A -> length A_T <= cap.
Proof.
  unfold matrix_split. intros E HA. destruct A as [|r A]; [discriminate|]. cbn [narrow] in HA. cbn [length Nat.ltb Nat.leb assertb bind] in E.
  cbn [idx nth_error bind] in E. unfold urem, udiv in E. destruct (c =? 0) eqn:Ec; cbn [bind] in E; [discriminate|].
  destruct (length r mod c =? 0); cbn [assertb bind] in E; [|discriminate].
  assert (Hq : length (repeat (@nil (list T)) (length r / c)) <= cap).
  { rewrite repeat_length. eapply Nat.le_trans; [|exact HA]. apply Nat.div_le_upper_bound; [now apply Nat.eqb_neq|]. apply Nat.eqb_neq in Ec. nia. }
  refine (foldM_inv (fun x => length x <= cap) _ _ _ _ Hq _ E). intros a b a' _ Ha Eb.
  refine (foldM_inv (fun x => length x <= cap) _ _ _ _ Ha _ Eb). intros a0 [i rc] a1 _ Ha0 E1.
  apply bind_Ok_inv in E1 as (p & _ & E1). apply upd_length_ok in E1. lia.
Qed.
Lemma chunks_aux_small {T} c : forall fuel (l : list T) r, In r (chunks_aux fuel c l) -> length r <= c.
Proof.
  induction fuel as [|f IH]; intros l r H; cbn in H; [contradiction|]. destruct l as [|x l]; [contradiction|].
  destruct H as [<-|H]; [rewrite firstn_length; lia|now apply IH in H].
Qed.
Lemma split_rows {T} (A : list (list T)) c A_T : matrix_split A c = Ok A_T -> Forall (Forall (fun r => length r <= c)) A_T.
Proof.
  unfold matrix_split. intros E. apply bind_Ok_inv in E as (u & _ & E). apply bind_Ok_inv in E as (r0 & _ & E). cbv zeta in E.
  apply bind_Ok_inv in E as (r & _ & E). apply bind_Ok_inv in E as (u' & _ & E). apply bind_Ok_inv in E as (q & _ & E).
  assert (H0 : Forall (Forall (fun r : list T => length r <= c)) (repeat [] q)) by (apply Forall_forall; intros x Hx; apply repeat_spec in Hx; subst x; constructor).
  refine (foldM_inv _ _ _ _ _ H0 _ E). intros a b a' _ Ha Eb.
  refine (foldM_inv _ _ _ _ _ Ha _ Eb). intros a0 [i rc] a1 Hi Ha0 E1.
  apply bind_Ok_inv in E1 as (p & Ep & E1). unfold upd in E1. destruct (i <? length a0) eqn:Ei; [|discriminate]. injection E1 as <-.
  assert (Hp : Forall (fun r : list T => length r <= c) (p ++ [rc])).
  { apply Forall_app. split.
    - unfold idx in Ep. destruct (nth_error a0 i) as [p'|] eqn:En; [|discriminate]. injection Ep as <-. rewrite Forall_forall in Ha0. apply Ha0. eapply nth_error_In, En.
    - constructor; [|constructor]. apply in_combine_r in Hi. unfold chunks in Hi. eapply chunks_aux_small, Hi. }
  apply Forall_forall. intros x Hx. apply (In_nth _ _ []) in Hx as (j & Hj & <-). rewrite set_at_length in Hj.
  rewrite Forall_forall in Ha0. destruct (Nat.eq_dec j i) as [->|Ne].
  - rewrite nth_set_at_eq by auto. exact Hp.
  - rewrite nth_set_at_neq by auto. apply Ha0. now apply nth_In.
Qed.
Lemma sum_loop_inv {T} (I : T -> Prop) (f : nat -> res T) add k r :
  (forall i x, f i = Ok x -> I x) -> (forall a b c, I a -> I b -> add a b = Ok c -> I c) -> sum_loop f add k = Ok r -> I r.
Proof.
  intros Hf Ha E. unfold sum_loop in E. apply bind_Ok_inv in E as (acc & E1 & E2).
  assert (X : match acc with None => True | Some a => I a end).
  { refine (foldM_inv (fun acc => match acc with None => True | Some a => I a end) _ _ None _ Logic.I _ E1).
    intros a i a' _ Ia Es. apply bind_Ok_inv in Es as (tmp & Et & Es). destruct a as [a|].
    - apply bind_Ok_inv in Es as (c & Ec & Es). injection Es as <-. exact (Ha a tmp c Ia (Hf _ _ Et) Ec).
    - injection Es as <-. exact (Hf _ _ Et). }
  destruct acc; cbn in E2; [|discriminate]. now injection E2 as <-.
Qed.
Definition rows_small c (A : list (list Point)) : Prop := Forall (fun r => length r <= c) A.
Lemma rows_small_add c A B D : rows_small c A -> rows_small c B -> matrixpoint_matrix_add A B = Ok D -> rows_small c D.
Proof.
  intros HA _ E. unfold matrixpoint_matrix_add in E. apply bind_Ok_inv in E as (u & _ & E). revert B D HA E.
  induction A as [|r A IH]; intros B D HA E; [cbn in E; injection E as <-; constructor|]. destruct B as [|r' B]; cbn in E; [injection E as <-; constructor|].
  apply bind_Ok_inv in E as (s & E1 & E). apply bind_Ok_inv in E as (D' & E2 & E). injection E as <-. inversion HA as [|? ? H1 H2]; subst.
  constructor; [|now apply (IH B)]. unfold rowpoint_rowpoint_add in E1. apply bind_Ok_inv in E1 as (u' & _ & E1). injection E1 as <-. rewrite map2_length. lia.
Qed.
Lemma rows_small_narrow c A : c <= cap -> rows_small c A -> narrow A.
Proof. intros H HA. destruct A; cbn; [exact I|]. inversion HA. lia. Qed.
Lemma u_vec_loop_length shift A_T w_T (t : list Point) u u' : u_vec_loop shift A_T w_T t u = Ok u' -> length u' = length u.
Proof.
  change (u_vec_loop shift A_T w_T t u) with (foldM (fun u_vec '(i, A_t) => foldM (u_step shift t i A_t) (enumerate w_T) u_vec) (enumerate A_T) u).
  intros E. refine (foldM_inv (fun x => length x = length u) _ _ _ _ eq_refl _ E). intros a [i A_t] a' _ Ha Ei.
  refine (foldM_inv (fun x => length x = length u) _ _ _ _ Ha _ Ei). intros a0 b a1 _ H0 E0. apply u_step_length in E0. congruence.
Qed.
Lemma vandemonde_vector_length x n v : vandemonde_vector x n = Ok v -> length v = n.
Proof.
  unfold vandemonde_vector, usub. destruct (Nat.leb_spec 1 n); cbn [bind]; [|discriminate]. intros E.
  assert (X : forall l c c', foldM (fun challenges i => c <- idx challenges i ;; Ok (challenges ++ [(c * x)%S])) l c = Ok c' -> length c' = length c + length l).
  { induction l as [|i l IH]; intros c c' E'; cbn [foldM] in E'; [injection E' as <-; cbn; lia|].
    apply bind_Ok_inv in E' as (c1 & E1 & E'). apply bind_Ok_inv in E1 as (y & _ & E1). injection E1 as <-. apply IH in E'. rewrite app_length in E'. cbn in *. lia. }
  apply X in E. rewrite seq_length in E. cbn in E. lia.
Qed.

Theorem C81_kary_prover ro tr (A : list (list Point)) w (t : list Point) n m k one zero :
  2 * n <= cap -> m <= cap -> narrow A ->
  create_lmpa_noZK_release bits cap ro tr A w t n m k one zero = create_lmpa_noZK ro tr A w t n m k one zero.
Proof.
  intros Hn Hm HA. unfold create_lmpa_noZK_release, create_lmpa_noZK. generalize (S n) as fuel. generalize (@nil (list (list Point))) as up. revert Hn HA.
  intros Hn HA up fuel. revert n tr A w t up Hn HA. induction fuel as [|f IH]; intros n tr A w t up Hn HA; [reflexivity|].
  cbn [kary_create_loop_release kary_create_loop]. destruct (Nat.leb_spec k n) as [Hk|Hk]; [|reflexivity].
  unfold udiv. destruct (Nat.eqb_spec k 0) as [K0|K0]; [reflexivity|]. cbn [bind].
  apply bind_ext. intros A_T EA. apply bind_ext. intros w_T _. cbv zeta.
  rewrite (wrap_le k 1), (usub_le k 1) by lia. cbn [bind]. rewrite (Nat.mod_small (2 * (k - 1) + 1)) by lia.
  rewrite !alloc_le by lia. cbn [bind]. rewrite alloc_le by lia. cbn [bind].
  assert (LA := narrow_split _ _ _ EA HA).
  rewrite C81_u_vec_loop by (rewrite repeat_length; lia). apply bind_ext. intros u Eu. unfold challenge_scalar. cbv iota.
  rewrite !C81_vandemonde_vector by lia. apply bind_ext. intros xv Ex. apply bind_ext. intros yv _.
  apply vandemonde_vector_length in Ex. rewrite C81_z_vec_loop by (try rewrite repeat_length; lia).
  apply bind_ext. intros zv _. apply bind_ext. intros A' EA'. apply bind_ext. intros wm _. apply bind_ext. intros w' _. apply bind_ext. intros t' _.
  assert (Hd : n / k <= n) by (apply Nat.div_le_upper_bound; nia). apply IH; [lia|]. apply (rows_small_narrow (n / k)); [lia|].
  refine (sum_loop_inv (rows_small (n / k)) _ _ _ _ _ _ EA').
  - intros i x E. apply bind_Ok_inv in E as (Ai & Ei & E). apply bind_Ok_inv in E as (xi & _ & E). injection E as <-.
    apply split_rows in EA. unfold idx in Ei. destruct (nth_error A_T i) as [Ai'|] eqn:En; [|discriminate]. injection Ei as <-.
    rewrite Forall_forall in EA. assert (HI := EA _ (nth_error_In _ _ En)). unfold rows_small, matrixpoint_scalar_mul. apply Forall_forall. intros r Hr.
    apply in_map_iff in Hr as (r' & <- & Hr'). rewrite map_length. rewrite Forall_forall in HI. now apply HI.
  - apply rows_small_add.
Qed.
Theorem C81_kary_verifier ro tr pf (A : list (list Point)) (t : list Point) n m k one zero :
  2 * n <= cap ->
  verify_lmpa_noZK_release bits cap ro tr pf A t n m k one zero = verify_lmpa_noZK ro tr pf A t n m k one zero.
Proof.
  intros Hn. unfold verify_lmpa_noZK_release, verify_lmpa_noZK. generalize (S (S (length (u_proof_Block pf)))) as fuel. generalize 0 as ci.
  intros ci fuel. revert n tr A t ci Hn. induction fuel as [|f IH]; intros n tr A t ci Hn; [reflexivity|].
  cbn [kary_verify_loop_release kary_verify_loop]. destruct (Nat.leb_spec k n) as [Hk|Hk]; [|reflexivity].
  unfold udiv. destruct (Nat.eqb_spec k 0) as [K0|K0]; [reflexivity|]. cbn [bind].
  apply bind_ext. intros A_T EA. cbv zeta.
  rewrite (wrap_le k 1), (usub_le k 1) by lia. cbn [bind]. rewrite (Nat.mod_small (2 * (k - 1) + 1)) by lia.
  apply bind_ext. intros ub _. unfold challenge_scalar. cbv iota. rewrite !C81_vandemonde_vector by lia.
  apply bind_ext. intros xv Ex. apply bind_ext. intros yv _. rewrite alloc_le by lia. cbn [bind].
  apply vandemonde_vector_length in Ex. rewrite C81_z_vec_loop by (try rewrite repeat_length; lia).
  apply bind_ext. intros zv _. apply bind_ext. intros A' _. apply bind_ext. intros t' _.
  apply IH. assert (Hd : n / k <= n) by (apply Nat.div_le_upper_bound; nia). lia.
Qed.

(** ** the verifiers *)
(** the proof without the surplus points of L *)
Definition trunc (pf : NoZK) : NoZK := mkNoZK (firstn (length (L_vec pf) mod bits) (L_vec pf)) (R_vec pf) (nz_a pf) (nz_b pf).
(** what the surplus may be: every point of L decodes, and R is no longer than what remains *)
Definition surplus_ok (pf : NoZK) : Prop :=
  Forall (fun c => decompress c <> None) (L_vec pf) /\
  (length (L_vec pf) < bits \/ length (R_vec pf) <= length (L_vec pf) mod bits).
Lemma all_decode_Forall l : all_decode l <-> Forall (fun c => decompress c <> None) l.
Proof. unfold all_decode. symmetry. apply Forall_forall. Qed.
Lemma trunc_small pf : length (L_vec pf) < bits -> trunc pf = pf.
Proof. intros H. unfold trunc. rewrite Nat.mod_small, firstn_all by auto. now destruct pf. Qed.

(** fewer than bits points: the same function *)
Theorem C81_ipa_small ro tr pf (G H : list Point) (Q P : Point) n t : length (L_vec pf) < bits ->
  no_zk_verify_release bits ro tr pf G H Q n P t = no_zk_verify ro tr pf G H Q n P t.
Proof.
  intros Hl. unfold no_zk_verify_release, no_zk_verify. apply bind_ext. intros Ls HLs. apply bind_ext. intros Rs _.
  apply mapM_Ok_length in HLs. unfold shl1_wrap. rewrite HLs. rewrite Nat.mod_small by lia. reflexivity.
Qed.

Lemma combine_firstn_short {A B} (l : list A) (r : list B) d : length r <= d -> combine (firstn d l) r = combine l r.
Proof.
  revert l r. induction d as [|d IH]; intros l r Hr.
  - destruct r; [|cbn in Hr; lia]. now rewrite !combine_nil.
  - destruct l as [|x l]; [reflexivity|]. destruct r as [|y r]; [now rewrite !combine_nil|]. cbn in *. rewrite IH by lia. reflexivity.
Qed.
Lemma mapM_firstn {A B} (f : A -> res B) d : forall l ys, mapM f l = Ok ys -> mapM f (firstn d l) = Ok (firstn d ys).
Proof.
  induction d as [|d IH]; intros l ys E; [reflexivity|]. destruct l as [|x l]; cbn in *.
  - injection E as <-. reflexivity.
  - apply bind_Ok_inv in E as (y & E1 & E). apply bind_Ok_inv in E as (ys' & E2 & E). injection E as <-.
    rewrite E1. cbn [bind]. rewrite (IH _ _ E2). reflexivity.
Qed.

Definition v_step : nat * list Point * list Point -> Scalar -> res (nat * list Point * list Point) :=
  fun '(n, G, H) challenge =>
    let n := n / 2 in
    '(G_L, G_R) <- split_at n G ;;
    '(H_L, H_R) <- split_at n H ;;
    let G := vector_vector_add G_L (vector_scalar_mul G_R challenge) in
    let H := vector_vector_add (vector_scalar_mul H_L challenge) H_R in
    Ok (n, G, H).
Lemma v_step_nil cs : forall H n' G' H', foldM v_step cs (0, [], H) = Ok (n', G', H') -> G' = [].
Proof.
  induction cs as [|c cs IH]; intros H n' G' H' E; cbn [foldM] in E; [congruence|].
  apply bind_Ok_inv in E as (a & E1 & E). unfold v_step in E1. cbn in E1. injection E1 as <-. eapply IH, E.
Qed.
(** more challenges than halvings: nothing remains *)
Lemma v_step_over cs : forall d G H n' G' H', d < length cs -> foldM v_step cs (2 ^ d, G, H) = Ok (n', G', H') -> G' = [].
Proof.
  induction cs as [|c cs IH]; intros d G H n' G' H' Hd E; [cbn in Hd; lia|]. cbn [foldM] in E.
  apply bind_Ok_inv in E as (a & E1 & E). unfold v_step in E1. destruct d as [|d].
  - cbn in E1. injection E1 as <-. eapply v_step_nil, E.
  - replace (2 ^ S d / 2) with (2 ^ d) in E1 by (rewrite Nat.pow_succ_r', Nat.mul_comm, Nat.div_mul by lia; reflexivity).
    apply bind_Ok_inv in E1 as ([GL GR] & _ & E1). apply bind_Ok_inv in E1 as ([HL' HR] & _ & E1). cbv zeta in E1. injection E1 as <-.
    eapply IH, E. cbn in Hd; lia.
Qed.
Lemma generate_challenges_length ro pf tr : length (fst (generate_challenges ro pf tr)) = min (length (L_vec pf)) (length (R_vec pf)).
Proof. rewrite generate_challenges_eq. rewrite gen_ch_spec. cbn [fst]. now rewrite tab_length, combine_length. Qed.

Lemma ipa_release_trunc ro tr pf (G H : list Point) (Q P : Point) n t Ls :
  mapM (fun c => unwrap (decompress c)) (L_vec pf) = Ok Ls -> length (R_vec pf) <= length (L_vec pf) mod bits ->
  no_zk_verify_release bits ro tr pf G H Q n P t = no_zk_verify ro tr (trunc pf) G H Q n P t.
Proof.
  intros HL HR. unfold no_zk_verify_release, no_zk_verify. rewrite HL. set (d := length (L_vec pf) mod bits) in *.
  assert (Hd : d <= length (L_vec pf)) by (apply Nat.mod_le; assert (Z := bits_pos); lia).
  unfold trunc at 1. cbn [L_vec]. fold d. rewrite (mapM_firstn _ d _ _ HL). cbn [bind].
  change (R_vec (trunc pf)) with (R_vec pf). apply bind_ext. intros Rs HRs. apply mapM_Ok_length in HRs.
  assert (HLs := mapM_Ok_length _ _ _ HL). rewrite firstn_length, HLs. rewrite Nat.min_l by exact Hd.
  unfold shl1_wrap. fold d. rewrite combine_firstn_short by lia.
  assert (EG : forall tr, generate_challenges ro (trunc pf) tr = generate_challenges ro pf tr).
  { intros tr0. unfold generate_challenges, trunc. cbn [L_vec R_vec]. fold d. now rewrite combine_firstn_short by auto. }
  apply bind_ext. intros _ _. cbv zeta. unfold challenge_scalar. cbv iota. rewrite EG. reflexivity.
Qed.
Lemma no_zk_verify_release_step ro tr pf (G H : list Point) (Q P : Point) n t r :
  no_zk_verify_release bits ro tr pf G H Q n P t = Ok r ->
  Forall (fun c => decompress c <> None) (L_vec pf) /\
  exists tr0 G', snd (fst G') <> [] /\ foldM v_step (fst (generate_challenges ro pf tr0)) (2 ^ (length (L_vec pf) mod bits), G, H) = Ok G'.
Proof.
  unfold no_zk_verify_release. intros E. apply bind_Ok_inv in E as (Ls & EL & E). apply bind_Ok_inv in E as (Rs & ER & E).
  split. { apply all_decode_Forall. apply mapM_unwrap_ok. eauto. }
  apply mapM_Ok_length in EL. unfold shl1_wrap in E. rewrite EL in E.
  apply bind_Ok_inv in E as (u & _ & E). cbv zeta in E. unfold challenge_scalar in E. cbv iota in E.
  match type of E with context [generate_challenges ro pf ?t0] => set (tr0 := t0) in * end.
  exists tr0. destruct (generate_challenges ro pf tr0) as [cs tr1]. cbn [fst].
  match type of E with bind (foldM ?f _ ?a) _ = _ => change (foldM f cs a) with (foldM v_step cs a) in E end.
  apply bind_Ok_inv in E as ([[n' G'] H'] & EF & E). exists (n', G', H'). split; [|exact EF].
  cbn [fst snd]. intros ->. cbn in E. discriminate.
Qed.
(** what a release build answers, for every input *)
Theorem C81_ipa_release ro tr pf (G H : list Point) (Q P : Point) n t r :
  no_zk_verify_release bits ro tr pf G H Q n P t = Ok r <->
  surplus_ok pf /\ no_zk_verify ro tr (trunc pf) G H Q n P t = Ok r.
Proof.
  split.
  - intros E. destruct (no_zk_verify_release_step _ _ _ _ _ _ _ _ _ _ E) as (HD & tr0 & G' & HG' & EF).
    destruct (Nat.lt_ge_cases (length (L_vec pf)) bits) as [Hl|Hl].
    { rewrite trunc_small by auto. rewrite C81_ipa_small in E by auto. split; [split; auto|exact E]. }
    destruct (Nat.le_gt_cases (length (R_vec pf)) (length (L_vec pf) mod bits)) as [HR|HR].
    + split; [split; auto|]. assert (X : all_decode (L_vec pf)) by (now apply all_decode_Forall).
      apply mapM_unwrap_ok in X as [Ls EL]. rewrite (ipa_release_trunc _ _ _ _ _ _ _ _ _ Ls EL HR) in E. exact E.
    + exfalso. apply HG'. destruct G' as [[n' G'] H']. cbn [fst snd]. eapply v_step_over; [|exact EF].
      rewrite generate_challenges_length. assert (length (L_vec pf) mod bits < bits) by (apply Nat.mod_upper_bound; assert (Z := bits_pos); lia). lia.
  - intros [[HD HS] E]. assert (X : all_decode (L_vec pf)) by (now apply all_decode_Forall).
    apply mapM_unwrap_ok in X as [Ls EL]. destruct HS as [Hl|HR].
    + rewrite C81_ipa_small by auto. now rewrite trunc_small in E by auto.
    + now rewrite (ipa_release_trunc _ _ _ _ _ _ _ _ _ Ls EL HR).
Qed.

Lemma bind_iff {A B} (m : res A) (f g : A -> res B) (Cnd : Prop) r :
  (forall x, m = Ok x -> (f x = Ok r <-> Cnd /\ g x = Ok r)) -> (bind m f = Ok r <-> Cnd /\ bind m g = Ok r).
Proof. intros H. destruct m; cbn [bind]; [now apply H| |]; split; [|tauto| |tauto]; discriminate. Qed.
Definition trunc_alm (pf : AlmZK) : AlmZK := mkAlmZK (C_r pf) (trunc (az_NoZK pf)).
Definition trunc_inner (pf : Inner) : Inner := mkInner (trunc_alm (alm_zk pf)) (c_prime_w pf) (c_prime_prime_w pf).
Definition trunc_copy (pf : Copy) : Copy := mkCopy (cp_C_w pf) (trunc_inner (cp_inner pf)).
Theorem C81_almzk_release ro tr pf (G H : list Point) (Q Cw : Point) n t r :
  alm_zk_verify_release bits ro tr pf G H Q n Cw t = Ok r <->
  surplus_ok (az_NoZK pf) /\ alm_zk_verify ro tr (trunc_alm pf) G H Q n Cw t = Ok r.
Proof.
  unfold alm_zk_verify_release, alm_zk_verify. cbn [trunc_alm C_r az_NoZK]. cbv zeta. unfold challenge_scalar. cbv iota.
  apply bind_iff. intros Cr _. apply C81_ipa_release.
Qed.
Theorem C81_qesa_release ro tr pf (G H : list Point) (Q : Point) gm r : length H <= cap ->
  inner_verify_release bits cap ro tr pf G H Q gm = Ok r <->
  surplus_ok (az_NoZK (alm_zk pf)) /\ inner_verify ro tr (trunc_inner pf) G H Q gm = Ok r.
Proof.
  intros HH. unfold inner_verify_release, inner_verify. cbn [trunc_inner c_prime_w c_prime_prime_w alm_zk]. cbv zeta. unfold challenge_scalar. cbv iota.
  apply bind_iff. intros cpw _. rewrite C81_vandemonde_challenge by lia. apply bind_iff. intros xs Exs. apply bind_iff. intros gamma _.
  apply bind_iff. intros beta _. apply bind_iff. intros G0 _. apply bind_iff. intros G1 _. apply bind_iff. intros cppw _.
  apply bind_iff. intros G2 _. destruct (Nat.le_gt_cases 2 (length H)) as [Hn|Hn].
  - rewrite wrap_le, usub_le by lia. cbn [bind].
    repeat (first [apply C81_almzk_release | rewrite C81_vandemonde_challenge by lia | rewrite gamma_prime_release by lia | apply bind_iff; intros ? _]).
  - rewrite wrap_gt, usub_gt by lia. cbn [bind]. split; [|now intros [_ Z]].
    unfold vandemonde_challenge_release. rewrite (wrap_le (2 ^ bits - (2 - length H)) 1) by lia.
    destruct (Nat.leb_spec (S (2 ^ bits - (2 - length H) - 1)) cap); [lia|discriminate].
Qed.
Theorem C81_copy_release ro tr pf (G H : list Point) (Q : Point) gm mp Cs r : length G <= cap -> length H <= cap -> length Cs <= cap ->
  copy_verify_release bits cap ro tr pf G H Q gm mp Cs = Ok r <->
  surplus_ok (az_NoZK (alm_zk (cp_inner pf))) /\ copy_verify ro tr (trunc_copy pf) G H Q gm mp Cs = Ok r.
Proof.
  intros HG HH HC. unfold copy_verify_release, copy_verify. cbn [trunc_copy cp_C_w cp_inner]. cbv zeta. unfold challenge_scalar. cbv iota.
  rewrite C81_vandemonde_challenge by lia. apply bind_iff. intros al _. apply bind_iff. intros Cw _.
  destruct (Nat.le_gt_cases 2 (length G)) as [Hn|Hn].
  - rewrite wrap_le, usub_le by lia. cbn [bind]. rewrite alloc_le by lia. cbn [bind]. rewrite map_const_repeat.
    match goal with |- bind ?m _ = _ <-> _ /\ bind ?m' _ = _ => assert (E : m = m') end.
    { apply foldM_ext'. intros a b _. unfold verify_copy_matrix_release, verify_copy_matrix. cbv zeta. rewrite alloc_le by lia. cbn [bind].
      rewrite map_const_repeat. reflexivity. }
    rewrite E. apply bind_iff. intros g _. apply (C81_qesa_release ro _ (mkInner (alm_zk (cp_inner pf)) _ (c_prime_prime_w (cp_inner pf)))). exact HH.
  - rewrite wrap_gt, usub_gt by lia. cbn [bind]. rewrite alloc_gt by lia. split; [discriminate|now intros [_ Z]].
Qed.

(** they do answer differently: with bits more points in L the checked build panics *)
Theorem C81_builds_agree_refuted ro tr (G H : list Point) (Q : Point) d Ls (a b : Scalar) : d < bits ->
  Forall (fun c => decompress c <> None) Ls -> length Ls = bits + d -> length G = 2 ^ d -> length H = 2 ^ d ->
  ro (ipa_start tr (2 ^ d)) <> s0 ->
  let P := (a *: pt G 0 + b *: pt H 0 + (a * b)%S *: Q)%P in
  no_zk_verify_release bits ro tr (mkNoZK Ls [] a b) G H Q (2 ^ d) P (a * b)%S = Ok (true, ipa_start tr (2 ^ d)) /\
  no_zk_verify ro tr (mkNoZK Ls [] a b) G H Q (2 ^ d) P (a * b)%S = Panic.
Proof.
  intros Hd HD HL HG HH Ha P. assert (Em : (bits + d) mod bits = d).
  { rewrite Nat.add_comm. replace (d + bits) with (d + 1 * bits) by lia. rewrite Nat.mod_add by lia. now apply Nat.mod_small. }
  split.
  - apply C81_ipa_release. unfold surplus_ok, trunc. cbn [L_vec R_vec nz_a nz_b length]. rewrite HL, Em. split; [split; [auto|right; lia]|].
    apply C80_no_rounds; auto.
    + apply Forall_forall. intros c Hc. rewrite Forall_forall in HD. apply HD. eapply firstn_In, Hc.
    + rewrite firstn_length. lia.
  - unfold no_zk_verify. cbn [L_vec R_vec]. assert (X : all_decode Ls) by (now apply all_decode_Forall).
    apply mapM_unwrap_ok in X as [Lp EL]. rewrite EL. cbn [bind mapM]. apply mapM_Ok_length in EL. rewrite EL, HL.
    destruct (Nat.eqb_spec (2 ^ d) (2 ^ (bits + d))) as [E|E]; [|reflexivity]. apply Nat.pow_inj_r in E; lia.
Qed.

(** ** every prover, release verifier: the bounds of C80 hold for it, applied to the prover that
    drops the surplus points of its proof, which asks the same queries *)
Context (ceq : @encodings_comparable C).
Notation successes := (successes ceq).
Definition dropping {X} (f : X -> X) (p : prover X) : prover X := pbind p (fun x => Done (f x)).
Lemma dropping_asks {X} (f : X -> X) T p : asks T p -> asks T (dropping f p).
Proof. intros HT. apply (asks_mono _ (T + 0)); [lia|]. apply asks_pbind; auto. intros; exact I. Qed.
Lemma dropping_successes {X} (Vr V : oracle -> X -> res (bool * transcript)) f p vals D :
  (forall ro x r, Vr ro x = Ok r -> V ro (f x) = Ok r) -> successes Vr p vals D <= successes V (dropping f p) vals D.
Proof.
  intros HV. unfold PropFiatShamir.successes. apply count_le. intros w _. unfold dropping. rewrite run_pbind. cbn [run].
  destruct (Vr _ _) as [[[|] tr']| |] eqn:E; cbn; try discriminate. now rewrite (HV _ _ _ E).
Qed.
Theorem C81_nozk_prover_bound vals tr (G H : list Point) (Q P : Point) t n (p : prover NoZK) T D :
  let p' := dropping trunc p in
  (asks T p -> asks T p') /\ (forall ro, asked ro p' = asked ro p) /\
  successes (fun ro pf => no_zk_verify_release bits ro tr pf G H Q n P t) p vals D <=
  successes (fun ro pf => no_zk_verify ro tr pf G H Q n P t) p' vals D.
Proof.
  split; [apply dropping_asks|]. split; [intros; unfold dropping; rewrite asked_pbind; cbn; now rewrite app_nil_r|].
  apply dropping_successes. intros ro pf r E. now apply C81_ipa_release in E.
Qed.
Theorem C81_almzk_prover_bound vals tr (G H : list Point) (Q Cw : Point) t n (p : prover AlmZK) T D :
  let p' := dropping trunc_alm p in
  (asks T p -> asks T p') /\ (forall ro, asked ro p' = asked ro p) /\
  successes (fun ro pf => alm_zk_verify_release bits ro tr pf G H Q n Cw t) p vals D <=
  successes (fun ro pf => alm_zk_verify ro tr pf G H Q n Cw t) p' vals D.
Proof.
  split; [apply dropping_asks|]. split; [intros; unfold dropping; rewrite asked_pbind; cbn; now rewrite app_nil_r|].
  apply dropping_successes. intros ro pf r E. now apply C81_almzk_release in E.
Qed.
Theorem C81_qesa_prover_bound {X} vals tr (G H : list Point) (Q : Point) gm (p : prover (Inner * X)) T D : length H <= cap ->
  let p' := dropping (fun o => (trunc_inner (fst o), snd o)) p in
  (asks T p -> asks T p') /\ (forall ro, asked ro p' = asked ro p) /\
  successes (fun ro o => inner_verify_release bits cap ro tr (fst o) G H Q gm) p vals D <=
  successes (fun ro o => inner_verify ro tr (fst o) G H Q gm) p' vals D.
Proof.
  intros HH. split; [apply dropping_asks|]. split; [intros; unfold dropping; rewrite asked_pbind; cbn; now rewrite app_nil_r|].
  apply dropping_successes. intros ro pf r E. cbn [fst]. now apply C81_qesa_release in E.
Qed.
Theorem C81_copy_prover_bound {X} vals tr (G H : list Point) (Q : Point) gm mp Cs (p : prover (Copy * X)) T D :
  length G <= cap -> length H <= cap -> length Cs <= cap ->
  let p' := dropping (fun o => (trunc_copy (fst o), snd o)) p in
  (asks T p -> asks T p') /\ (forall ro, asked ro p' = asked ro p) /\
  successes (fun ro o => copy_verify_release bits cap ro tr (fst o) G H Q gm mp Cs) p vals D <=
  successes (fun ro o => copy_verify ro tr (fst o) G H Q gm mp Cs) p' vals D.
Proof.
  intros HG HH HC. split; [apply dropping_asks|]. split; [intros; unfold dropping; rewrite asked_pbind; cbn; now rewrite app_nil_r|].
  apply dropping_successes. intros ro pf r E. cbn [fst]. now apply C81_copy_release in E.
Qed.
End C81.

(** 64-bit usize, n = 2: a proof with 65 points in L and none in R passes in a release build; a
    wrong statement, a surplus of one point, or a point in R beyond the remaining ones do not *)
Definition long81 (l r : nat) : @NoZK FS := mkNoZK (repeat (compress (qN 77)) l) (repeat (compress (qN 5)) r) (fN 3) (fN 6).
Definition out81 (r : res (bool * @transcript FS)) : option bool := match r with Ok (b, _) => Some b | _ => None end.
Example C81_case_ipa :
  let V t pf := out81 (no_zk_verify_release 64 ro80 [] pf [qN 5; qN 11] [qN 2; qN 7] (qN 17) (2 ^ 1) P80 (fN t)) in
  let V0 pf := out81 (no_zk_verify ro80 [] pf [qN 5; qN 11] [qN 2; qN 7] (qN 17) (2 ^ 1) P80 (fN 18)) in
  (V 18%Z (long81 65 0), V 18%Z (long81 1 0), V 19%Z (long81 65 0), V 18%Z (long81 66 0), V 18%Z (long81 65 2), V0 (long81 1 0)) =
  (Some true, Some true, Some false, None, None, Some true) /\
  V0 (trunc 64 (long81 65 0)) = Some true.
Proof. vm_compute. auto. Qed.
(** the same inside a QESA proof and a copy proof *)
Example C81_case_layers :
  let Vq l := out81 (inner_verify_release 64 1000 roq80 [] (mkInner (mkAlmZK (cq80 230) (mkNoZK ([cq80 3; cq80 4] ++ repeat (cq80 9) l) [cq80 6] (fN 1) (fN 2))) (cq80 11) (cq80 12)) g75q h75q (qN 77) (mkBlockMatrix m75q)) in
  let Vc l := out81 (copy_verify_release 64 1000 roq80 [] (mkCopy (cq80 13) (mkInner (mkAlmZK (cq80 636) (mkNoZK ([cq80 3; cq80 4; cq80 5] ++ repeat (cq80 9) l) [cq80 6] (fN 1) (fN 2))) (cq80 11) (cq80 12)))
     g75c h75c (qN 77) (mkBlockMatrix m75c) mp75 (c75 9)) in
  (map Vq [0; 64; 63], map Vc [0; 64; 65]) = ([Some true; Some true; None], [Some true; Some true; None]).
Proof. vm_compute. reflexivity. Qed.
(** a wrapped length, 6-bit usize and at most 20 entries: no answer, as with overflow checks; and
    the honest QESA prover in both builds *)
Definition none81 {A} (r : res A) : bool := match r with Ok _ => false | _ => true end.
Example C81_case_wrap :
  let v n := none81 (vandemonde_challenge_release 6 20 (fN 3) n) && none81 (vandemonde_vector_release 6 20 (fN 3) n) && none81 (vandemonde_vector_general_release 6 20 smul (fN 3) n (fN 1)) in
  let z x := none81 (z_vec_loop_release 6 1 (repeat (fN 2) x) [fN 3; fN 4] (repeat (fN 1) 3)) in
  let q G := out81 (match inner_create_release 64 1000 roq80 (fun i => fN (Z.of_nat (i * i * i + 11))) 0 [] G h75q (qN 77) (mkBlockMatrix m75q) [fN 1; fN 2] [fN 31; fN 41] with
             | Ok (pf, _, _) => inner_verify_release 64 1000 roq80 [] pf g75q h75q (qN 77) (mkBlockMatrix m75q) | Panic => Panic | Diverge => Diverge end) in
  (usub_wrap 6 0 1, usub_wrap 6 5 3, map v [0; 1; 20; 21], map z [1; 2; 3; 4], q g75q, q (firstn 3 g75q)) =
  (63, 2, [true; false; false; true], [false; false; true; true], Some true, None).
Proof. vm_compute. reflexivity. Qed.
(** the k-ary argument with an 8-bit usize: accepted for k = 3 and 6; k = 0 and a matrix with
    more than k chunks (k = 2 and three columns after the first round, or claimed n = 4: an index wraps) end in a panic *)
Example C81_case_kary :
  let A := [map qN [3; 1; 4; 1; 5; 9]; map qN [2; 7; 1; 8; 2; 8]]%Z in let w := map fN [1; 2; 3; 4; 5; 6]%Z in
  let t := matrixpoint_vector_mul A w in
  let run n k := match create_lmpa_noZK_release 8 100 ro80 [] A w t n 2 k (fN 1) (qN 0) with
                 | Ok (pf, _) => out81 (verify_lmpa_noZK_release 8 100 ro80 [] pf A t n 2 k (fN 1) (qN 0)) | _ => None end in
  (run 6 3, run 6 6, run 6 0, run 6 2, run 4 2) = (Some true, Some true, None, None, None) /\
  none81 (create_lmpa_noZK_release 8 100 ro80 [] A w t 4 2 2 (fN 1) (qN 0)) = true.
Proof. vm_compute. auto. Qed.
