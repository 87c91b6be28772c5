(** Fermat's little theorem: multiplication by a permutes the non-zero residues. *)
From Coq Require Import ZArith Znumtheory Lia List Permutation.
Import ListNotations.
Local Open Scope Z_scope.

Definition residues (p : Z) : list Z := map Z.of_nat (seq 1 (Z.to_nat (p - 1))).
Definition prodZ (l : list Z) : Z := fold_right Z.mul 1 l.

Lemma residues_In p x : In x (residues p) <-> 1 <= x < p.
Proof.
  unfold residues. rewrite in_map_iff. split.
  - intros [k [<- H]]. apply in_seq in H. lia.
  - intros H. exists (Z.to_nat x). rewrite in_seq. lia.
Qed.
Lemma residues_length p : length (residues p) = Z.to_nat (p - 1).
Proof. unfold residues. now rewrite map_length, seq_length. Qed.
Lemma residues_NoDup p : NoDup (residues p).
Proof.
  apply FinFun.Injective_map_NoDup; [|apply seq_NoDup]. intros a b. apply Nat2Z.inj.
Qed.
Lemma prodZ_perm l l' : Permutation l l' -> prodZ l = prodZ l'.
Proof.
  unfold prodZ. induction 1; cbn; auto; [now rewrite IHPermutation|ring|congruence].
Qed.
Lemma prodZ_scale p a l :
  (prodZ (map (fun x => (a * x) mod p) l)) mod p = (a ^ Z.of_nat (length l) * prodZ l) mod p.
Proof.
  induction l as [|x l IH]; [reflexivity|]. cbn [map prodZ fold_right length].
  fold (prodZ (map (fun x => (a * x) mod p) l)). fold (prodZ l).
  rewrite Zmult_mod_idemp_l. rewrite <- Zmult_mod_idemp_r, IH, Zmult_mod_idemp_r.
  f_equal. rewrite Nat2Z.inj_succ, Z.pow_succ_r by lia. ring.
Qed.
Lemma prodZ_coprime p l : prime p -> (forall x, In x l -> 1 <= x < p) -> ~ (p | prodZ l).
Proof.
  intros Hp. assert (1 < p) by (now destruct Hp). induction l as [|x l IH]; intros H1.
  - cbn. intros D. apply Z.divide_1_r_nonneg in D; lia.
  - cbn. fold (prodZ l). intros D. apply prime_mult in D; auto. destruct D as [D|D].
    + apply Z.divide_pos_le in D; [|specialize (H1 x (or_introl eq_refl)); lia].
      specialize (H1 x (or_introl eq_refl)). lia.
    + apply IH; auto. intros y Hy. apply H1. now right.
Qed.

Lemma NoDup_map_inj {A B} (f : A -> B) l :
  (forall x y, In x l -> In y l -> f x = f y -> x = y) -> NoDup l -> NoDup (map f l).
Proof.
  induction l as [|a l IH]; cbn; intros H Hn; constructor.
  - intros Hin. apply in_map_iff in Hin as [y [E Hy]]. inversion Hn; subst.
    assert (a = y) by (apply H; auto). subst. contradiction.
  - inversion Hn; subst. apply IH; auto.
Qed.

Lemma fermat_coprime p a : prime p -> ~ (p | a) -> (a ^ (p - 1)) mod p = 1.
Proof.
  intros Hp Ha. assert (Hp1 : 1 < p) by (now destruct Hp).
  set (l := residues p). set (l' := map (fun x => (a * x) mod p) l).
  assert (P : Permutation l' l).
  { apply NoDup_Permutation_bis.
    - unfold l'. apply NoDup_map_inj; [|apply residues_NoDup].
      intros x y Hx Hy E. apply residues_In in Hx, Hy.
      assert (D : (p | a * (x - y))).
      { apply Z.mod_divide; [lia|]. rewrite Z.mul_sub_distr_l, Zminus_mod, E, Z.sub_diag.
        apply Z.mod_0_l; lia. }
      apply prime_mult in D; auto. destruct D as [D|[c Hc]]; [contradiction|].
      assert (c = 0) by nia. lia.
    - unfold l', l. rewrite map_length. lia.
    - intros z Hz. unfold l' in Hz. apply in_map_iff in Hz as [x [<- Hx]].
      apply residues_In in Hx. apply residues_In.
      assert (B := Z.mod_pos_bound (a * x) p ltac:(lia)).
      assert ((a * x) mod p <> 0); [|lia]. intros E. apply Z.mod_divide in E; [|lia].
      apply prime_mult in E; auto. destruct E as [D|D]; [contradiction|].
      apply Z.divide_pos_le in D; lia. }
  assert (E := prodZ_scale p a l). fold l' in E. rewrite (prodZ_perm _ _ P) in E.
  unfold l in E at 2. rewrite residues_length, Z2Nat.id in E by lia.
  assert (D : (p | (a ^ (p - 1) - 1) * prodZ l)).
  { apply Z.mod_divide; [lia|]. rewrite Z.mul_sub_distr_r, Z.mul_1_l, Zminus_mod, <- E, Z.sub_diag.
    apply Z.mod_0_l; lia. }
  apply prime_mult in D; auto. destruct D as [[c Hc]|D].
  - replace (a ^ (p - 1)) with (1 + c * p) by lia. rewrite Z.mod_add by lia. apply Z.mod_1_l; lia.
  - exfalso. revert D. apply prodZ_coprime; auto. intros x Hx. now apply residues_In.
Qed.

Theorem fermat_Z (p a : Z) : prime p -> 0 <= a -> (a ^ p) mod p = a mod p.
Proof.
  intros Hp Ha. assert (Hp1 : 1 < p) by (now destruct Hp).
  replace p with (1 + (p - 1)) at 1 by ring. rewrite Z.pow_add_r, Z.pow_1_r by lia.
  destruct (Zdivide_dec p a) as [[c D]|D].
  - rewrite D. replace (c * p * (c * p) ^ (p - 1)) with (0 + (c * (c * p) ^ (p - 1)) * p) by ring.
    replace (c * p) with (0 + c * p) at 2 by ring. now rewrite !Z.mod_add by lia.
  - rewrite <- Zmult_mod_idemp_r, fermat_coprime by auto. now rewrite Z.mul_1_r.
Qed.
