(** Properties C10-C12: src/ipa/gramschmidt.rs *)
From Verif Require Import GramFacts Ex.

Section C10.
Context {C : Crypto} {L : CryptoLaws C}.
Add Field SfC10 : (@S_field C L).

Theorem C10_orth (a b : list Scalar) : length a = length b ->
  dotp a b <> s0 -> dotp a a <> s0 ->
  exists c, orth a b = Ok c /\ length c = length a /\
    (forall i, i < length a -> sc c i = (sc b i - dotp a b * sinv (dotp a a) * sc a i)%S) /\
    dotp a c = s0.
Proof.
  intros Hl Hab Haa. rewrite <- !dot_dotp in * by auto. eexists. split; [now apply orth_eq|].
  assert (Hc : length (map2 (fun r s => r - proj_coef a b * s)%S b a) = length a)
    by (rewrite map2_length; lia).
  split; [exact Hc|]. split.
  - intros i Hi. unfold sc at 1. rewrite (map2_nth _ _ _ _ s0 s0) by lia.
    unfold proj_coef. reflexivity.
  - rewrite <- dot_dotp by auto. now apply proj_orth.
Qed.
Theorem C10_orth_panic (a b : list Scalar) :
  orth a b = Panic <-> sum_S (min (length a) (length b)) (fun i => sc a i * sc b i)%S = s0.
Proof. rewrite <- dot_sum_min. apply orth_panic. Qed.

(** FINDING: on an isotropic first argument orth silently returns b unchanged,
    which is not orthogonal to a *)
Theorem C10_orth_isotropic (a b : list Scalar) : length a = length b ->
  dotp a a = s0 -> dotp a b <> s0 ->
  exists c, orth a b = Ok c /\ c = b /\ dotp a c <> s0.
Proof.
  intros Hl Haa Hab. rewrite <- !dot_dotp in * by auto. exists b. split; [|split; auto].
  - rewrite orth_eq by auto. f_equal. unfold proj_coef. rewrite Haa, sinv_0.
    apply (list_eq_nth s0); [rewrite map2_length; lia|]. intros i Hi. rewrite map2_length in Hi.
    rewrite (map2_nth _ _ _ _ s0 s0) by lia. ring.
  - now rewrite <- dot_dotp.
Qed.
End C10.

(** a square root of -1 modulo the group order *)
Definition sqrt_m1 : Z := 4202356475871964119699734399548423449193549369991576068503119564443318355924.
(** the finding's hypotheses hold over the Ristretto scalar field *)
Theorem C10_orth_ristretto_refuted :
  exists (a b : list (@Scalar (RC 1))) c, length a = length b /\ a <> map (fun _ => s0) a /\
    dotp a b <> s0 /\ orth a b = Ok c /\ dotp a c <> s0.
Proof.
  exists [sR 1; sR sqrt_m1], [sR 1; sR 0].
  destruct (@C10_orth_isotropic _ (RC_laws 1) [sR 1; sR sqrt_m1] [sR 1; sR 0]) as (c & E & _ & H).
  - reflexivity.
  - apply zR_inj. vm_compute. reflexivity.
  - intros E. apply (f_equal zR) in E. vm_compute in E. discriminate.
  - exists c. split; [reflexivity|]. split.
    + cbn. intros X. apply (f_equal (fun l => zR (hd (sR 0) l))) in X. vm_compute in X. discriminate.
    + split; [|now split].
      intros X. apply (f_equal zR) in X. vm_compute in X. discriminate.
Qed.
Example C10_case : rmap (map zR) (orth [sR 1; sR 2] [sR 5; sR 0]) = Ok [4; (-2) mod ell]%Z.
Proof. vm_compute. reflexivity. Qed.

Section C11.
Context {C : Crypto} {L : CryptoLaws C}.
Theorem C11_sample_gram_schmidt rng pos (a v : list Scalar) pos' :
  sample_gram_schmidt rng pos a = Ok (v, pos') -> dotp a a <> s0 ->
  length v = length a /\ dotp a v = s0.
Proof.
  intros H Ha. destruct (sgs_orth _ _ _ _ _ H) as [Hl Hd]. split; auto.
  rewrite <- dot_dotp in Ha by auto. rewrite <- dot_dotp by auto. auto.
Qed.
(** [ob] is the part of b orthogonal to a *)
Theorem C11_sample_gram_schmidt_twice rng pos (a b ob v : list Scalar) pos' :
  length a = length b -> sample_gram_schmidt_twice rng pos a b = Ok (v, pos') ->
  dotp a a <> s0 -> length ob = length a ->
  (forall i, i < length a -> sc ob i = (sc b i - dotp a b * sinv (dotp a a) * sc a i)%S) ->
  dotp ob ob <> s0 ->
  length v = length a /\ dotp a v = s0 /\ dotp b v = s0.
Proof.
  intros Hl H Ha Hob Hent Hoo. destruct (sgst_orth _ _ _ _ _ _ Hl H) as [Hv D].
  rewrite <- !dot_dotp in * by lia. split; auto.
  apply sgst_inv in H as (ob' & m & E1 & _ & _). apply (D ob'); auto.
  assert (E : ob' = ob).
  { assert (E1' := E1). apply orth_Ok_inv in E1 as [_ ->].
    apply (list_eq_nth s0); [rewrite map2_length; lia|]. intros i Hi. rewrite map2_length in Hi.
    rewrite (map2_nth _ _ _ _ s0 s0) by lia. symmetry. unfold proj_coef.
    apply Hent. lia. }
  now rewrite E.
Qed.
End C11.
Example C11_case :
  let rng i := sR (Z.of_nat i * Z.of_nat i + 3) in
  let a := [sR 1; sR 2; sR 0; sR 5] in let b := [sR 3; sR 1; sR 4; sR 1] in
  rmap (fun '(v, pos) => (zR (inner_product a v), zR (inner_product b v), existsb (fun x => negb (zR x =? 0)%Z) v, pos))
    (sample_gram_schmidt_twice rng 0 a b) = Ok (0%Z, 0%Z, true, 6) /\
  zR (inner_product a a) = 30%Z /\
  rmap (fun ob => (zR (inner_product ob ob) =? 0)%Z) (orth a b) = Ok false.
Proof. vm_compute. auto. Qed.

Section C12.
Context {C : Crypto}.
(** the position set M_n^+ *)
Definition in_mn_plus (n i : nat) : Prop :=
  i = 0 \/ i = 1 \/ (exists k, 1 <= k /\ 2 ^ (k + 1) <= n /\ (i = 2 ^ k \/ i = 2 ^ k + 1)) \/
  i = n - 2 \/ i = n - 1.
(** [src i] is the number of the draw held at position i: different positions
    hold different draws, all made during this call; where a draw ends up does not depend on
    the values drawn *)
Theorem C12_mask_support pos n : 2 <= n ->
  exists pos' (src : nat -> nat), forall rng : nat -> Scalar,
    exists r, sample_m_n_plus rng pos n = Ok (r, pos') /\ length r = n /\
    (forall i, i < n -> in_mn_plus n i -> sc r i = rng (src i) /\ pos <= src i < pos') /\
    (forall i, i < n -> ~ in_mn_plus n i -> sc r i = s0) /\
    (forall i j, i < n -> j < n -> in_mn_plus n i -> in_mn_plus n j -> src i = src j -> i = j).
Proof.
  intros Hn. destruct (sample_m_n_plus_uniform pos n Hn) as (g & pos' & E & H1 & H2 & H3 & H4).
  exists pos', (fun i => match nth i g None with Some k => k | None => 0 end). intros rng. exists (shown rng g).
  split; [apply E|]. split; [unfold shown; now rewrite map_length|].
  assert (P : forall i, i < n -> (in_mn_plus n i <-> nth i g None <> None)).
  { intros i Hi. rewrite H2 by auto. unfold in_mn_plus, pow_pos_from. split.
    - intros [H|[H|[(k & Hk & Hk2 & Hk3)|H]]]; auto. right; right; left. exists k.
      rewrite Nat.add_1_r in Hk2. auto.
    - intros [H|[H|[(k & Hk & Hk2 & Hk3)|H]]]; auto. right; right; left. exists k.
      rewrite Nat.add_1_r. auto. }
  assert (S : forall i, i < n -> sc (shown rng g) i = match nth i g None with Some k => rng k | None => s0 end).
  { intros i Hi. unfold sc, shown.
    exact (map_nth (fun o : option nat => match o with Some k => rng k | None => s0 end) g None i). }
  split; [|split].
  - intros i Hi HP. apply P in HP; auto. rewrite S by auto.
    destruct (nth i g None) as [k|] eqn:Ek; [|congruence]. split; auto. now apply (H3 i).
  - intros i Hi HP. rewrite S by auto. destruct (nth i g None) eqn:Ek; auto.
    exfalso. apply HP, P; auto. congruence.
  - intros i j Hi Hj HPi HPj. apply P in HPi, HPj; auto.
    destruct (nth i g None) as [k|] eqn:Ei; [|congruence].
    destruct (nth j g None) as [k'|] eqn:Ej; [|congruence]. intros <-. now apply (H4 i j k).
Qed.
Theorem C12_mask_panic (rng : nat -> Scalar) pos n : n < 2 -> sample_m_n_plus rng pos n = Panic.
Proof. apply sample_m_n_plus_panic. Qed.
End C12.
Example C12_case :
  rmap (fun '(v, pos) => (map zR v, pos)) (sample_m_n_plus (fun i => sR (Z.of_nat i + 1)) 0 16)
  = Ok ([1; 2; 3; 4; 5; 6; 0; 0; 7; 8; 0; 0; 0; 0; 9; 10]%Z, 10).
Proof. vm_compute. reflexivity. Qed.
