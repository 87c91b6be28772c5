(** Polynomials over the scalar field: a polynomial with as many distinct roots as
    coefficients is zero. *)
From Verif Require Export Vec MatrixFacts.
Local Open Scope nat_scope.

Section Poly.
Context {C : Crypto} {L : CryptoLaws C}.
Add Field SfPoly : (@S_field C L).

Fixpoint peval (c : list Scalar) (x : Scalar) : Scalar :=
  match c with [] => s0 | a :: c' => (a + x * peval c' x)%S end.

(** quotient by (X - r) *)
Fixpoint pquot (c : list Scalar) (r : Scalar) : list Scalar :=
  match c with [] => [] | [a] => [] | a :: c' => peval c' r :: pquot c' r end.

Lemma pquot_length c r : length (pquot c r) = length c - 1.
Proof.
  induction c as [|a [|b c] IH]; auto. change (pquot (a :: b :: c) r) with (peval (b :: c) r :: pquot (b :: c) r).
  cbn [length] in *. lia.
Qed.
Lemma pquot_eval c r x : (peval c x = peval c r + (x - r) * peval (pquot c r) x)%S.
Proof.
  induction c as [|a [|b c] IH].
  - cbn. ring.
  - cbn. ring.
  - change (pquot (a :: b :: c) r) with (peval (b :: c) r :: pquot (b :: c) r).
    change (peval (a :: b :: c) x) with (a + x * peval (b :: c) x)%S.
    change (peval (a :: b :: c) r) with (a + r * peval (b :: c) r)%S.
    change (peval (peval (b :: c) r :: pquot (b :: c) r) x)
      with (peval (b :: c) r + x * peval (pquot (b :: c) r) x)%S.
    rewrite IH at 1. ring.
Qed.
Lemma pquot_zero c r : Forall (fun a => a = s0) (pquot c r) -> peval c r = s0 -> Forall (fun a => a = s0) c.
Proof.
  induction c as [|a [|b c] IH]; intros H E; auto.
  - constructor; auto. cbn in E. rewrite <- E. ring.
  - change (pquot (a :: b :: c) r) with (peval (b :: c) r :: pquot (b :: c) r) in H.
    assert (H1 := Forall_inv H). assert (H2 := Forall_inv_tail H). cbv beta in H1. constructor; [|now apply IH].
    change (peval (a :: b :: c) r) with (a + r * peval (b :: c) r)%S in E. rewrite H1 in E.
    rewrite <- E. ring.
Qed.

Lemma poly_zero : forall (xs c : list Scalar), NoDup xs -> length c <= length xs ->
  (forall x, In x xs -> peval c x = s0) -> Forall (fun a => a = s0) c.
Proof.
  induction xs as [|r xs IH]; intros c HN Hl H.
  - destruct c; auto. cbn in Hl. lia.
  - inversion HN as [|? ? Hr HN']; subst. apply (pquot_zero c r).
    + apply IH; auto.
      * rewrite pquot_length. cbn in Hl. lia.
      * intros x Hx. assert (E := pquot_eval c r x).
        rewrite (H x) in E by now right. rewrite (H r) in E by now left.
        assert (Z : ((x - r) * peval (pquot c r) x = s0)%S).
        { transitivity (s0 + (x - r) * peval (pquot c r) x)%S; [ring|auto]. }
        apply smul_eq_0 in Z as [Z|Z]; auto. apply ssub_0 in Z. subst. contradiction.
    + apply H. now left.
Qed.

Lemma peval_sum c x : peval c x = sum_S (length c) (fun i => sc c i * spow x i)%S.
Proof.
  induction c as [|a c IH]; [reflexivity|]. cbn [length]. rewrite sum_S_shift. cbn [peval]. rewrite IH.
  rewrite <- sum_S_mul. f_equal; [cbn; ring|]. apply sum_S_ext. intros i Hi. unfold sc. cbn. ring.
Qed.

(** index form *)
Lemma poly_zero_sum N (f : nat -> Scalar) (xs : list Scalar) : NoDup xs -> N <= length xs ->
  (forall x, In x xs -> sum_S N (fun i => f i * spow x i)%S = s0) -> forall i, i < N -> f i = s0.
Proof.
  intros HN Hl H i Hi.
  assert (F : Forall (fun a => a = s0) (tab N f)).
  { apply (poly_zero xs); auto.
    - now rewrite tab_length.
    - intros x Hx. rewrite peval_sum, tab_length. rewrite <- (H x Hx). apply sum_S_ext.
      intros j Hj. unfold sc. now rewrite tab_nth. }
  rewrite Forall_forall in F. apply F. rewrite <- (tab_nth N f i s0) by auto.
  apply nth_In. now rewrite tab_length.
Qed.
(** without constant term, at non-zero points *)
Lemma poly_zero_sum1 N (f : nat -> Scalar) (xs : list Scalar) : NoDup xs -> N <= length xs ->
  Forall (fun x => x <> s0) xs ->
  (forall x, In x xs -> sum_S N (fun i => f i * spow x (S i))%S = s0) -> forall i, i < N -> f i = s0.
Proof.
  intros HN Hl HZ H. apply (poly_zero_sum N f xs); auto. intros x Hx.
  assert (E : (x * sum_S N (fun i => f i * spow x i) = s0)%S).
  { rewrite <- (H x Hx), <- sum_S_mul. apply sum_S_ext. intros i Hi. cbn. ring. }
  apply smul_eq_0 in E as [E|E]; auto. rewrite Forall_forall in HZ. now apply HZ in Hx.
Qed.
End Poly.
