(** Algebraic toolkit: ring/field structure of the scalars, a decision procedure
    for identities between points, and linearity lemmas on lists. *)
From Coq Require Export Ring Field.
From Verif Require Export Spec.
From Verif Require Export MathUtils.

Section FieldThy.
Context {C : Crypto} {L : CryptoLaws C}.

Lemma S_ring : ring_theory s0 s1 sadd smul ssub sopp (@eq Scalar).
Proof.
  constructor.
  - apply sadd_0_l.
  - apply sadd_comm.
  - apply sadd_assoc.
  - apply smul_1_l.
  - apply smul_comm.
  - apply smul_assoc.
  - apply smul_add_l.
  - apply ssub_def.
  - apply sadd_opp.
Qed.

Lemma S_field : field_theory s0 s1 sadd smul ssub sopp
                  (fun x y => smul x (sinv y)) sinv (@eq Scalar).
Proof.
  constructor.
  - apply S_ring.
  - apply s1_neq_s0.
  - reflexivity.
  - apply sinv_l.
Qed.
End FieldThy.

Section Points.
Context {C : Crypto} {L : CryptoLaws C}.
Add Field Sfield : (@S_field C L).
Local Open Scope P_scope.

Lemma padd_0_r (x : Point) : x + p0 = x.
Proof. rewrite padd_comm; apply padd_0_l. Qed.
Lemma padd_cancel_l (x y z : Point) : x + y = x + z -> y = z.
Proof.
  intros H. rewrite <- (padd_0_l y), <- (padd_0_l z).
  rewrite <- (padd_opp x), (padd_comm x), <- !padd_assoc. now rewrite H.
Qed.
Lemma pmul_0_l (x : Point) : s0 *: x = p0.
Proof.
  apply (padd_cancel_l (s0 *: x)). rewrite <- pmul_add_l, padd_0_r.
  f_equal. ring.
Qed.
Lemma pmul_0_r s : s *: p0 = p0.
Proof.
  apply (padd_cancel_l (s *: p0)). rewrite <- pmul_add_r, !padd_0_r. reflexivity.
Qed.
Lemma popp_mul (x : Point) : - x = (sopp s1) *: x.
Proof.
  apply (padd_cancel_l x). rewrite padd_opp.
  rewrite <- (pmul_1 x) at 1. rewrite <- pmul_add_l.
  replace (s1 + - s1)%S with s0 by ring. now rewrite pmul_0_l.
Qed.

(** ** Reflexive normalisation of point expressions *)
Inductive pexp : Type :=
| PE0
| PEvar (i : nat)
| PEadd (a b : pexp)
| PEsub (a b : pexp)
| PEopp (a : pexp)
| PEmul (s : Scalar) (a : pexp).

Fixpoint pden (env : list Point) (e : pexp) : Point :=
  match e with
  | PE0 => p0
  | PEvar i => nth i env p0
  | PEadd a b => pden env a + pden env b
  | PEsub a b => pden env a - pden env b
  | PEopp a => - pden env a
  | PEmul s a => s *: pden env a
  end.

Fixpoint pcoef (e : pexp) (i : nat) : Scalar :=
  match e with
  | PE0 => s0
  | PEvar j => if Nat.eqb i j then s1 else s0
  | PEadd a b => sadd (pcoef a i) (pcoef b i)
  | PEsub a b => ssub (pcoef a i) (pcoef b i)
  | PEopp a => sopp (pcoef a i)
  | PEmul s a => smul s (pcoef a i)
  end.

Fixpoint plin (f : nat -> Scalar) (k : nat) (env : list Point) : Point :=
  match env with
  | [] => p0
  | P :: env => f k *: P + plin f (S k) env
  end.

Lemma plin_0 f k env : (forall i, f i = s0) -> plin f k env = p0.
Proof.
  intros Hf. revert k; induction env as [|P env IH]; intros k; cbn; [reflexivity|].
  now rewrite Hf, pmul_0_l, padd_0_l, IH.
Qed.
Lemma plin_add f g k env :
  plin (fun i => sadd (f i) (g i)) k env = plin f k env + plin g k env.
Proof.
  revert k; induction env as [|P env IH]; intros k; cbn.
  - now rewrite padd_0_l.
  - rewrite IH, pmul_add_l.
    rewrite <- !padd_assoc. f_equal. rewrite !padd_assoc. f_equal. apply padd_comm.
Qed.
Lemma plin_mul f s k env :
  plin (fun i => smul s (f i)) k env = s *: plin f k env.
Proof.
  revert k; induction env as [|P env IH]; intros k; cbn.
  - now rewrite pmul_0_r.
  - now rewrite IH, pmul_add_r, pmul_mul.
Qed.
Lemma plin_ext f g k env :
  (forall i, i < length env -> f (k + i) = g (k + i))%nat -> plin f k env = plin g k env.
Proof.
  revert k; induction env as [|P env IH]; intros k H; cbn; [reflexivity|].
  f_equal.
  - f_equal. specialize (H O). rewrite Nat.add_0_r in H. apply H. cbn; lia.
  - apply IH. intros i Hi. specialize (H (S i)). rewrite Nat.add_succ_comm. apply H. cbn; lia.
Qed.

Lemma plin_var j k env :
  plin (fun i => if Nat.eqb i (k + j)%nat then s1 else s0) k env = nth j env p0.
Proof.
  revert j k; induction env as [|P env IH]; intros j k; cbn; [now destruct j|].
  destruct j as [|j].
  - rewrite Nat.add_0_r, Nat.eqb_refl, pmul_1.
    rewrite (plin_ext _ (fun _ => s0)).
    + rewrite plin_0 by reflexivity. apply padd_0_r.
    + intros i _. destruct (Nat.eqb_spec (S k + i) k); [lia|reflexivity].
  - destruct (Nat.eqb_spec k (k + S j)) as [E|E]; [lia|].
    rewrite pmul_0_l, padd_0_l. rewrite <- (IH j (S k)).
    apply plin_ext. intros i _. now replace (k + S j)%nat with (S k + j)%nat by lia.
Qed.

Lemma pden_plin env e : pden env e = plin (pcoef e) 0 env.
Proof.
  induction e as [|j|a IHa b IHb|a IHa b IHb|a IHa|s a IHa]; cbn.
  - symmetry; now apply plin_0.
  - symmetry; apply (plin_var j 0).
  - now rewrite plin_add, IHa, IHb.
  - rewrite IHa, IHb, psub_def, popp_mul, <- plin_mul, <- plin_add.
    apply plin_ext. intros i _. cbn. ring.
  - rewrite IHa, popp_mul, <- plin_mul. apply plin_ext. intros i _. cbn. ring.
  - now rewrite IHa, plin_mul.
Qed.

Fixpoint pcoefs_eq (n : nat) (e1 e2 : pexp) : Prop :=
  match n with
  | O => True
  | S k => pcoef e1 k = pcoef e2 k /\ pcoefs_eq k e1 e2
  end.

Lemma pcoefs_eq_spec n e1 e2 : pcoefs_eq n e1 e2 -> forall i, (i < n)%nat -> pcoef e1 i = pcoef e2 i.
Proof.
  induction n as [|n IH]; cbn; intros H i Hi; [lia|].
  destruct H as [H1 H2]. destruct (Nat.eq_dec i n) as [->|]; [exact H1|].
  apply IH; [exact H2|lia].
Qed.

Lemma pexp_eq env e1 e2 : pcoefs_eq (length env) e1 e2 -> pden env e1 = pden env e2.
Proof.
  intros H. rewrite !pden_plin. apply plin_ext. intros i Hi.
  exact (pcoefs_eq_spec _ _ _ H _ Hi).
Qed.

End Points.

Ltac pr_mem x l :=
  lazymatch l with
  | nil => constr:(false)
  | cons x _ => constr:(true)
  | cons _ ?l => pr_mem x l
  end.
Ltac pr_idx x l :=
  lazymatch l with
  | cons x _ => constr:(O)
  | cons _ ?l => let i := pr_idx x l in constr:(S i)
  end.
Ltac pr_atoms acc e :=
  lazymatch e with
  | p0 => acc
  | padd ?a ?b => let acc := pr_atoms acc a in pr_atoms acc b
  | psub ?a ?b => let acc := pr_atoms acc a in pr_atoms acc b
  | popp ?a => pr_atoms acc a
  | pmul ?s ?a => pr_atoms acc a
  | ?x => let m := pr_mem x acc in
          lazymatch m with true => acc | false => constr:(cons x acc) end
  end.
Ltac pr_reify env e :=
  lazymatch e with
  | p0 => constr:(PE0)
  | padd ?a ?b => let a := pr_reify env a in let b := pr_reify env b in constr:(PEadd a b)
  | psub ?a ?b => let a := pr_reify env a in let b := pr_reify env b in constr:(PEsub a b)
  | popp ?a => let a := pr_reify env a in constr:(PEopp a)
  | pmul ?s ?a => let a := pr_reify env a in constr:(PEmul s a)
  | ?x => let i := pr_idx x env in constr:(PEvar i)
  end.

(** reduce an identity between points to one scalar identity per point atom *)
Ltac pnorm :=
  lazymatch goal with
  | |- @eq (@Point ?C) ?a ?b =>
    let env := pr_atoms (@nil (@Point C)) a in
    let env := pr_atoms env b in
    let ea := pr_reify env a in
    let eb := pr_reify env b in
    change (pden env ea = pden env eb);
    apply pexp_eq;
    cbn [length pcoefs_eq pcoef Nat.eqb];
    repeat split
  end.
(** needs a ring instance for Scalar in scope *)
Ltac pring := pnorm; ring.

Section Lists.
Context {C : Crypto} {L : CryptoLaws C}.
Add Field Sfield2 : (@S_field C L).

Example pring_test (a b : Scalar) (P Q : Point) :
  (a *: (P - b *: Q) + (a * b)%S *: Q = a *: P)%P.
Proof. pring. Qed.

End Lists.
