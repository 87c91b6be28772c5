(** Functions of a word that are polynomials in every letter, and matrices of them: if one
    word is good, few words are bad. *)
From Coq Require Import Permutation.
From Verif Require Export PropZk PropQesaCount.
Local Open Scope nat_scope.
Local Open Scope list_scope.

Section Rank.
Context {C : Crypto}.
(** rows of a matrix with K columns, as functions of the column; only the zero vector is
    orthogonal to all rows *)
Definition trivial_kernel (K : nat) (rows : list (nat -> Scalar)) : Prop :=
  forall y : nat -> Scalar, (forall r, In r rows -> sum_S K (fun j => r j * y j)%S = s0) -> forall j, j < K -> y j = s0.
(** the same by elimination *)
Fixpoint find_pivot (rows : list (nat -> Scalar)) : option ((nat -> Scalar) * list (nat -> Scalar)) :=
  match rows with
  | [] => None
  | r :: rows => if seqb (r 0) s0 then match find_pivot rows with Some (p, rest) => Some (p, r :: rest) | None => None end
                 else Some (r, rows)
  end.
Definition elim (p r : nat -> Scalar) : nat -> Scalar := fun j => (p 0 * r (S j) - r 0 * p (S j))%S.
Fixpoint full_rank (K : nat) (rows : list (nat -> Scalar)) : bool :=
  match K with
  | O => true
  | S K => match find_pivot rows with Some (p, rest) => full_rank K (map (elim p) rest) | None => false end
  end.
End Rank.

Section RankFacts.
Context {C : Crypto} {L : CryptoLaws C}.
Add Field SfZP : (@S_field C L).

Lemma find_pivot_some rows p rest : find_pivot rows = Some (p, rest) -> p 0 <> s0 /\ Permutation rows (p :: rest).
Proof.
  revert p rest. induction rows as [|r rows IH]; intros p rest E; [discriminate|]. cbn [find_pivot] in E.
  destruct (seqb (r 0) s0) eqn:Z.
  - destruct (find_pivot rows) as [[p' rest']|]; [|discriminate]. injection E as <- <-. destruct (IH _ _ eq_refl) as [N P].
    split; auto. rewrite P. apply perm_swap.
  - injection E as <- <-. split; auto. intros X. apply seqb_eq in X. congruence.
Qed.
Lemma find_pivot_none rows : find_pivot rows = None -> forall r, In r rows -> r 0 = s0.
Proof.
  induction rows as [|r rows IH]; intros E r' Hr; [destruct Hr|]. cbn [find_pivot] in E.
  destruct (seqb (r 0) s0) eqn:Z; [|discriminate]. destruct (find_pivot rows) as [[p' rest']|]; [discriminate|].
  destruct Hr as [<-|Hr]; [now apply seqb_eq|now apply IH].
Qed.
Lemma kernel_perm K rows rows' : Permutation rows rows' -> trivial_kernel K rows -> trivial_kernel K rows'.
Proof. intros P T y H. apply T. intros r Hr. apply H. now apply (Permutation_in _ P). Qed.
Lemma kernel_elim K p rest : p 0 <> s0 -> trivial_kernel (S K) (p :: rest) <-> trivial_kernel K (map (elim p) rest).
Proof.
  intros Np.
  assert (E : forall (r y : nat -> Scalar), sum_S K (fun j => elim p r j * y (S j))%S =
     (p 0 * sum_S (S K) (fun j => r j * y j) - r 0 * sum_S (S K) (fun j => p j * y j))%S).
  { intros r y. rewrite !sum_S_shift, (sum_S_ext _ _ (fun j => p 0 * (r (S j) * y (S j)) - r 0 * (p (S j) * y (S j)))%S).
    - rewrite sum_S_sub, !sum_S_mul. ring.
    - intros j _. unfold elim. ring. }
  split; intros T y Hy.
  - set (y' := fun j => match j with O => (- (sinv (p 0) * sum_S K (fun j => p (S j) * y j)))%S | S j => y j end).
    assert (Pp : sum_S (S K) (fun j => p j * y' j)%S = s0).
    { rewrite sum_S_shift. unfold y'. cbn beta iota.
      transitivity ((s1 - sinv (p 0) * p 0) * sum_S K (fun j => p (S j) * y j))%S; [ring|]. rewrite sinv_l by auto. ring. }
    assert (A : forall r, In r (p :: rest) -> sum_S (S K) (fun j => r j * y' j)%S = s0).
    { intros r [<-|Hr]; [exact Pp|].
      assert (X := Hy (elim p r) (in_map _ _ _ Hr)). specialize (E r y'). cbn beta in E. change (fun j => elim p r j * y' (S j))%S with (fun j => elim p r j * y j)%S in E.
      rewrite X, Pp in E. destruct (smul_eq_0 (p 0) (sum_S (S K) (fun j => r j * y' j)%S)) as [Z|Z]; auto; [|contradiction].
      rewrite E. ring. }
    intros j Hj. exact (T y' A (S j) ltac:(lia)).
  - assert (Z : forall j, j < K -> y (S j) = s0).
    { apply (T (fun j => y (S j))). intros r Hr. apply in_map_iff in Hr as (r' & <- & Hr').
      rewrite E, (Hy r') by (now right). rewrite (Hy p) by (now left). ring. }
    intros [|j] Hj; [|apply Z; lia]. assert (X := Hy p (or_introl eq_refl)). rewrite sum_S_shift in X.
    rewrite (sum_S_0 K) in X by (intros i Hi; rewrite Z by auto; ring).
    destruct (smul_eq_0 (p 0) (y 0)) as [Y|Y]; auto; [rewrite <- X; ring|contradiction].
Qed.
Lemma full_rank_spec K : forall rows, full_rank K rows = true <-> trivial_kernel K rows.
Proof.
  induction K as [|K IH]; intros rows; cbn [full_rank].
  - split; auto. intros _ y _ j Hj. lia.
  - destruct (find_pivot rows) as [[p rest]|] eqn:E.
    + apply find_pivot_some in E as [Np P]. rewrite IH. rewrite <- (kernel_elim K p rest Np).
      split; intros T; [exact (kernel_perm _ _ _ (Permutation_sym P) T)|exact (kernel_perm _ _ _ P T)].
    + split; [discriminate|]. intros T. exfalso. apply s1_neq_s0. apply (T (fun j => if j =? 0 then s1 else s0)) with (j := 0); [|lia].
      intros r Hr. rewrite sum_S_shift. rewrite (find_pivot_none _ E r Hr). rewrite sum_S_0 by (intros; cbn; ring). cbn. ring.
Qed.

(** ** in one letter *)
Lemma deg_lt_mul k k' f g : deg_lt (S k) f -> deg_lt (S k') g -> deg_lt (S (k + k')) (fun x => f x * g x)%S.
Proof.
  intros (c & Hc & Ec) (e & He & Ee). apply (deg_lt_mono (length (poly_mul c e))).
  - revert k Hc. clear Ec Ee. assert (A : forall c e : list Scalar, length (poly_add c e) = max (length c) (length e)).
    { induction c0 as [|x c0 IH]; intros [|y e0]; cbn; auto. }
    induction c as [|x c IH]; intros k Hc; cbn [poly_mul]; [cbn; lia|]. rewrite A, map_length. cbn [length] in *.
    destruct k as [|k]; [destruct c; [cbn; lia|discriminate]|]. specialize (IH k ltac:(lia)). lia.
  - exists (poly_mul c e). split; auto. intros x. now rewrite peval_mul, Ec, Ee.
Qed.
Lemma deg_lt_const k y : deg_lt (S k) (fun _ => y).
Proof. apply (deg_lt_mono 1); [lia|]. exists [y]. split; auto. intros x. cbn. ring. Qed.
Lemma deg_lt_roots (vals : list Scalar) k f v0 : NoDup vals -> deg_lt (S k) f -> f v0 <> s0 -> count (fun v => seqb (f v) s0) vals <= k.
Proof.
  intros HN (c & Hc & E) Nz. rewrite (count_ext _ (fun v => seqb (peval c v) s0)) by (intros; now rewrite E).
  assert (X := count_roots vals c HN). rewrite Hc in X. cbn in X. rewrite Nat.sub_0_r in X. apply X.
  intros F. apply Nz. rewrite E. clear -F L. induction F as [|x c -> F IH]; [reflexivity|]. cbn. rewrite IH. ring.
Qed.
Definition at_letter (Phi : list (nat -> Scalar -> Scalar)) (v : Scalar) : list (nat -> Scalar) := map (fun phi j => phi j v) Phi.
Lemma rank_letter (vals : list Scalar) K : forall e Phi v0, NoDup vals ->
  (forall phi, In phi Phi -> forall j, j < K -> deg_lt (S e) (phi j)) ->
  full_rank K (at_letter Phi v0) = true ->
  count (fun v => negb (full_rank K (at_letter Phi v))) vals <= e * (2 ^ K - 1).
Proof.
  induction K as [|K IH]; intros e Phi v0 HN HP H0.
  - rewrite count_none; [apply Nat.le_0_l|]. reflexivity.
  - (* a pivot at v0 *)
    cbn [full_rank] in H0. destruct (find_pivot (at_letter Phi v0)) as [[p0' rest0]|] eqn:E; [|discriminate].
    assert (Sp : exists p rest, p 0 v0 <> s0 /\ Permutation Phi (p :: rest)).
    { apply find_pivot_some in E as [Np P]. assert (X : In p0' (at_letter Phi v0)) by (apply (Permutation_in _ (Permutation_sym P)); now left).
      unfold at_letter in X. apply in_map_iff in X as (p & <- & Hp). apply in_split in Hp as (l1 & l2 & ->).
      exists p, (l1 ++ l2). split; auto. symmetry. apply Permutation_middle. }
    assert (H1 : full_rank (S K) (at_letter Phi v0) = true) by (cbn [full_rank]; now rewrite E). clear E H0.
    destruct Sp as (p & rest & Np & P).
    set (Phi' := map (fun phi j v => p 0 v * phi (S j) v - phi 0 v * p (S j) v)%S rest).
    assert (Q : forall v, p 0 v <> s0 -> full_rank (S K) (at_letter Phi v) = full_rank K (at_letter Phi' v)).
    { intros v Nv.
      assert (X : trivial_kernel (S K) (at_letter Phi v) <-> trivial_kernel K (at_letter Phi' v)).
      { assert (Pv : Permutation (at_letter Phi v) ((fun j => p j v) :: at_letter rest v)) by (exact (Permutation_map _ P)).
        transitivity (trivial_kernel (S K) ((fun j => p j v) :: at_letter rest v)).
        - split; intros T; [exact (kernel_perm _ _ _ Pv T)|exact (kernel_perm _ _ _ (Permutation_sym Pv) T)].
        - rewrite (kernel_elim K (fun j => p j v) (at_letter rest v) Nv). unfold Phi', at_letter. rewrite !map_map. reflexivity. }
      destruct (full_rank (S K) (at_letter Phi v)) eqn:A, (full_rank K (at_letter Phi' v)) eqn:A'; auto.
      - apply full_rank_spec, X, full_rank_spec in A. congruence.
      - apply full_rank_spec, X, full_rank_spec in A'. congruence. }
    transitivity (count (fun v => seqb (p 0 v) s0 || negb (full_rank K (at_letter Phi' v))) vals).
    { apply count_le. intros v _ X. destruct (seqb (p 0 v) s0) eqn:Z; [reflexivity|]. cbn [orb]. rewrite <- Q; [exact X|].
      intros Y. apply seqb_eq in Y. congruence. }
    replace (e * (2 ^ S K - 1)) with (e + (2 * e) * (2 ^ K - 1)).
    2:{ rewrite Nat.pow_succ_r'. assert (1 <= 2 ^ K) by apply pow2_pos. nia. }
    apply count_or_le.
    + apply (deg_lt_roots vals e (p 0) v0); auto. apply HP; [|lia]. apply (Permutation_in _ (Permutation_sym P)). now left.
    + apply (IH (2 * e) Phi' v0 HN).
      * intros phi Hp j Hj. apply in_map_iff in Hp as (r & <- & Hr).
        assert (I1 : In p Phi) by (apply (Permutation_in _ (Permutation_sym P)); now left).
        assert (I2 : In r Phi) by (apply (Permutation_in _ (Permutation_sym P)); now right).
        replace (2 * e) with (e + e) by lia.
        apply (deg_lt_ext _ (fun v => p 0 v * r (S j) v + (fun v => (- s1) * (r 0 v * p (S j) v)) v)%S); [intros; ring|].
        apply deg_lt_add; [apply deg_lt_mul; apply HP; auto; lia|].
        change (S (e + e)) with (S (0 + (e + e))). apply deg_lt_mul; [apply deg_lt_const|]. apply deg_lt_mul; apply HP; auto; lia.
      * rewrite <- Q by exact Np. exact H1.
Qed.
End RankFacts.

Section Words.
Context {C : Crypto} {L : CryptoLaws C}.
Add Field SfZW : (@S_field C L).

(** degree at most e in every letter *)
Definition wpoly (K e : nat) (F : list Scalar -> Scalar) : Prop :=
  forall w j, length w = K -> j < K -> deg_lt (S e) (fun v => F (set_at w j v)).
Lemma wpoly_const K e c : wpoly K e (fun _ => c).
Proof. intros w j _ _. apply deg_lt_const. Qed.
Lemma wpoly_mono K e e' F : e <= e' -> wpoly K e F -> wpoly K e' F.
Proof. intros H P w j Hw Hj. apply (deg_lt_mono (S e)); [lia|]. now apply P. Qed.
Lemma wpoly_letter K i : wpoly K 1 (fun w => sc w i).
Proof.
  intros w j Hw Hj. destruct (Nat.eq_dec i j) as [->|Hn].
  - exists [s0; s1]. split; auto. intros v. unfold sc. rewrite nth_set_at_eq by lia. cbn. ring.
  - apply (deg_lt_ext _ (fun _ => sc w i)); [|apply deg_lt_const]. intros v. unfold sc. rewrite set_at_nth.
    destruct (Nat.eqb_spec i j); [contradiction|reflexivity].
Qed.
Lemma wpoly_add K e F G : wpoly K e F -> wpoly K e G -> wpoly K e (fun w => F w + G w)%S.
Proof. intros HF HG w j Hw Hj. apply deg_lt_add; auto. Qed.
Lemma wpoly_mul K e e' F G : wpoly K e F -> wpoly K e' G -> wpoly K (e + e') (fun w => F w * G w)%S.
Proof. intros HF HG w j Hw Hj. apply deg_lt_mul; auto. Qed.
Lemma wpoly_scale K e c F : wpoly K e F -> wpoly K e (fun w => c * F w)%S.
Proof. intros HF. apply (wpoly_mul K 0 e (fun _ => c) F); auto. apply wpoly_const. Qed.
Lemma wpoly_ext K e F G : (forall w, length w = K -> F w = G w) -> wpoly K e F -> wpoly K e G.
Proof. intros E H w j Hw Hj. apply (deg_lt_ext _ (fun v => F (set_at w j v))); auto. intros v. apply E. now rewrite set_at_length. Qed.
Lemma wpoly_sum K e n (F : nat -> list Scalar -> Scalar) : (forall i, i < n -> wpoly K e (F i)) -> wpoly K e (fun w => sum_S n (fun i => F i w)).
Proof.
  induction n as [|n IH]; intros H; cbn [sum_S]; [apply wpoly_const|]. apply wpoly_add; auto.
Qed.

(** one good word *)
Lemma few_bad (vals : list Scalar) D K : forall (good : list Scalar -> bool) w0,
  length w0 = K -> good w0 = true ->
  (forall w j v0, length w = K -> j < K -> good (set_at w j v0) = true -> count (fun v => negb (good (set_at w j v))) vals <= D) ->
  count (fun w => negb (good w)) (words vals K) <= K * D * length vals ^ (K - 1).
Proof.
  induction K as [|K IH]; intros good w0 H0 G0 H.
  - destruct w0; [|discriminate]. cbn [words]. rewrite count_cons, G0. cbn. lia.
  - destruct w0 as [|v0 w0]; [discriminate|]. injection H0 as H0. rewrite count_words_S.
    assert (X : forall l, list_sum (map (fun v => count (fun w => negb (good (v :: w))) (words vals K)) l) <=
                count (fun v => negb (good (v :: w0))) l * length vals ^ K + length l * (K * D * length vals ^ (K - 1))).
    { induction l as [|v l IHv]; [apply Nat.le_0_l|]. cbn [map length]. change (list_sum (?x :: ?r)) with (x + list_sum r). rewrite count_cons.
      assert (Y : count (fun w => negb (good (v :: w))) (words vals K) <= (if negb (good (v :: w0)) then 1 else 0) * length vals ^ K + K * D * length vals ^ (K - 1)).
      { destruct (good (v :: w0)) eqn:Ev; cbn [negb].
        - apply (IH (fun w => good (v :: w)) w0); auto. intros w j v1 Hw Hj Hg.
          apply (H (v :: w) (S j) v1); cbn; auto; lia.
        - rewrite Nat.mul_1_l. rewrite <- words_count. assert (Z := count_all (fun w => negb (good (v :: w))) (words vals K)). lia. }
      rewrite Nat.mul_add_distr_r. lia. }
    specialize (X vals). assert (Y : count (fun v => negb (good (v :: w0))) vals <= D).
    { apply (H (v0 :: w0) 0 v0); cbn; auto; lia. }
    replace (S K - 1) with K by lia. 
    assert (Z : length vals * (K * D * length vals ^ (K - 1)) = K * D * length vals ^ K).
    { destruct K as [|K]; [lia|]. replace (S K - 1) with K by lia. rewrite (Nat.pow_succ_r' _ K).
      generalize (length vals ^ K), (length vals). clear. intros. nia. }
    rewrite Z in X. revert X Y. generalize (length vals ^ K), (count (fun v => negb (good (v :: w0))) vals). clear. intros. nia.
Qed.
Lemma few_roots (vals : list Scalar) K e F w0 : NoDup vals -> wpoly K e F -> length w0 = K -> F w0 <> s0 ->
  count (fun w => seqb (F w) s0) (words vals K) <= K * e * length vals ^ (K - 1).
Proof.
  intros HN HF H0 N0.
  assert (X := few_bad vals e K (fun w => negb (seqb (F w) s0)) w0 H0).
  rewrite (count_ext _ (fun w => seqb (F w) s0)) in X by (intros; apply negb_involutive). apply X.
  - destruct (seqb (F w0) s0) eqn:E; auto. apply seqb_eq in E. contradiction.
  - intros w j v0 Hw Hj Hg. rewrite (count_ext _ (fun v => seqb (F (set_at w j v)) s0)) by (intros; apply negb_involutive).
    apply (deg_lt_roots vals e (fun v => F (set_at w j v)) v0); auto. intros E. apply seqb_eq in E. now rewrite E in Hg.
Qed.
Lemma few_singular (vals : list Scalar) K e k (rows : list (list Scalar -> nat -> Scalar)) w0 : NoDup vals ->
  (forall r, In r rows -> forall j, j < k -> wpoly K e (fun w => r w j)) -> length w0 = K ->
  full_rank k (map (fun r => r w0) rows) = true ->
  count (fun w => negb (full_rank k (map (fun r => r w) rows))) (words vals K) <= K * (e * (2 ^ k - 1)) * length vals ^ (K - 1).
Proof.
  intros HN HR H0 G0. apply (few_bad vals (e * (2 ^ k - 1)) K (fun w => full_rank k (map (fun r => r w) rows)) w0); auto.
  intros w j v0 Hw Hj Hg.
  set (Phi := map (fun (r : list Scalar -> nat -> Scalar) i v => r (set_at w j v) i) rows).
  assert (E : forall v, map (fun r => r (set_at w j v)) rows = at_letter Phi v).
  { intros v. unfold Phi, at_letter. rewrite map_map. reflexivity. }
  rewrite (count_ext _ (fun v => negb (full_rank k (at_letter Phi v)))) by (intros; now rewrite E).
  apply (rank_letter vals k e Phi v0); auto.
  - intros phi Hp i Hi. apply in_map_iff in Hp as (r & <- & Hr). now apply (HR r Hr i Hi w j).
  - now rewrite <- E.
Qed.
End Words.
