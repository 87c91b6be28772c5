(** Concrete interpretations of the crypto boundary: the scalar field Z/p, and as
    group of points the module (Z/p)^m. For p = ell (the order of the Ristretto
    group) the scalars are exactly curve25519-dalek's, and m = 1 is a group
    isomorphic to the Ristretto group. Used for the concrete cases shown beside
    the theorems and for counterexamples. *)
From Coq Require Import Znumtheory Eqdep_dec.
From Verif Require Export Crypto Primes.
Local Open Scope Z_scope.

Section Fp.
Variable p : Z.

(** canonical residues *)
Definition Fp : Type := { z : Z | (z mod p =? z) = true }.
Definition val (x : Fp) : Z := proj1_sig x.
Lemma fp_ok z : ((z mod p) mod p =? z mod p) = true.
Proof. apply Z.eqb_eq. apply Zmod_mod. Qed.
Definition fp (z : Z) : Fp := exist _ (z mod p) (fp_ok z).

Lemma Fp_eq (x y : Fp) : val x = val y -> x = y.
Proof.
  destruct x as [x Hx], y as [y Hy]; cbn. intros ->. f_equal. apply UIP_dec, bool_dec.
Qed.
Lemma val_fp z : val (fp z) = z mod p.
Proof. reflexivity. Qed.
Lemma fp_val x : fp (val x) = x.
Proof. apply Fp_eq. cbn. destruct x as [x Hx]; cbn. now apply Z.eqb_eq. Qed.
Lemma val_mod (x : Fp) : val x mod p = val x.
Proof. destruct x as [x Hx]. now apply Z.eqb_eq. Qed.
Lemma fp_eq_mod a b : a mod p = b mod p -> fp a = fp b.
Proof. intros H. apply Fp_eq. exact H. Qed.

Definition fadd (x y : Fp) : Fp := fp (val x + val y).
Definition fsub (x y : Fp) : Fp := fp (val x - val y).
Definition fmul (x y : Fp) : Fp := fp (val x * val y).
Definition fopp (x : Fp) : Fp := fp (- val x).
Definition feqb (x y : Fp) : bool := val x =? val y.

(** inverse by the extended Euclidean algorithm, [s0]*x = [r0], [s1]*x = [r1] mod p *)
Fixpoint egcd (fuel : nat) (r0 r1 s0 s1 : Z) : Z :=
  match fuel with
  | O => 0
  | S f => if r1 =? 0 then s0
           else let q := r0 / r1 in egcd f r1 (r0 - q * r1) s1 (s0 - q * s1)
  end.
Definition finv (x : Fp) : Fp :=
  if val x =? 0 then fp 0 else fp (egcd (Z.to_nat (2 * Z.log2 p + 4)) p (val x) 0 1).

Section Laws.
Hypothesis Hp : prime p.
Let p1 : 1 < p.
Proof. now destruct Hp. Qed.

Lemma egcd_spec fuel x : forall r0 r1 s0 s1,
  0 <= r1 < r0 -> r0 * r1 < 2 ^ Z.of_nat fuel -> Z.gcd r0 r1 = 1 ->
  (s0 * x) mod p = r0 mod p -> (s1 * x) mod p = r1 mod p ->
  (egcd (S fuel) r0 r1 s0 s1 * x) mod p = 1 mod p.
Proof.
  induction fuel as [|f IH]; intros r0 r1 s0 s1 Hr Hm Hg H0 H1.
  - change (2 ^ Z.of_nat 0) with 1 in Hm. assert (r1 = 0) by nia. subst.
    cbn. rewrite Z.gcd_0_r, Z.abs_eq in Hg by lia. subst. exact H0.
  - cbn [egcd]. destruct (Z.eqb_spec r1 0) as [->|Hr1].
    + rewrite Z.gcd_0_r, Z.abs_eq in Hg by lia. subst. exact H0.
    + assert (E : r0 - r0 / r1 * r1 = r0 mod r1) by (rewrite Z.mod_eq by lia; ring).
      assert (B := Z.mod_pos_bound r0 r1 ltac:(lia)).
      assert (Hq : 1 <= r0 / r1) by (apply Z.div_le_lower_bound; lia).
      apply IH.
      * rewrite E. lia.
      * rewrite Nat2Z.inj_succ, Z.pow_succ_r in Hm by lia. nia.
      * rewrite E, Z.gcd_comm, Z.gcd_mod by lia. now rewrite Z.gcd_comm.
      * exact H1.
      * replace ((s0 - r0 / r1 * s1) * x) with (s0 * x - r0 / r1 * (s1 * x)) by ring.
        rewrite Zminus_mod, H0, <- Zmult_mod_idemp_r, H1, Zmult_mod_idemp_r.
        now rewrite <- Zminus_mod.
Qed.

Lemma finv_l x : x <> fp 0 -> fmul (finv x) x = fp 1.
Proof.
  intros Hx. unfold finv. destruct (Z.eqb_spec (val x) 0) as [E|E].
  - exfalso. apply Hx. apply Fp_eq. rewrite val_fp, Z.mod_0_l by lia. exact E.
  - apply Fp_eq. cbn [fmul val fp proj1_sig]. rewrite Zmult_mod_idemp_l.
    assert (Hv : 0 < val x < p).
    { rewrite <- (val_mod x) in E |- *. assert (B := Z.mod_pos_bound (val x) p ltac:(lia)). lia. }
    assert (L0 := Z.log2_nonneg p).
    replace (Z.to_nat (2 * Z.log2 p + 4)) with (S (Z.to_nat (2 * Z.log2 p + 3))) by lia.
    apply (egcd_spec _ (val x)).
    + lia.
    + rewrite Z2Nat.id by lia. assert (H2 := Z.log2_spec p ltac:(lia)).
      replace (2 * Z.log2 p + 3) with (Z.succ (Z.log2 p) + Z.succ (Z.log2 p) + 1) by lia.
      rewrite !Z.pow_add_r by lia. nia.
    + apply Zgcd_1_rel_prime. apply rel_prime_sym. apply rel_prime_le_prime; auto; lia.
    + rewrite Z.mul_0_l, Z_mod_same_full. apply Z.mod_0_l; lia.
    + now rewrite Z.mul_1_l.
Qed.
End Laws.

(** ** Points: vectors of length m *)
Variable m : nat.
Definition Vm : Type := { v : list Fp | (length v =? m)%nat = true }.
Definition vval (x : Vm) : list Fp := proj1_sig x.
Lemma Vm_eq (x y : Vm) : vval x = vval y -> x = y.
Proof.
  destruct x as [x Hx], y as [y Hy]; cbn. intros ->. f_equal. apply UIP_dec, bool_dec.
Qed.
Lemma vval_length (x : Vm) : length (vval x) = m.
Proof. destruct x as [x Hx]. now apply Nat.eqb_eq. Qed.
(** a vector given by its entries *)
Definition vtab (f : nat -> Fp) : Vm.
Proof.
  exists (map f (seq 0 m)). apply Nat.eqb_eq. now rewrite map_length, seq_length.
Defined.
Definition ventry (x : Vm) (i : nat) : Fp := nth i (vval x) (fp 0).
Lemma ventry_vtab f i : (i < m)%nat -> ventry (vtab f) i = f i.
Proof.
  intros H. unfold ventry. cbn. rewrite (nth_indep _ (fp 0) (f 0%nat)).
  - rewrite map_nth, seq_nth; auto.
  - now rewrite map_length, seq_length.
Qed.
Lemma Vm_ext (x y : Vm) : (forall i, (i < m)%nat -> ventry x i = ventry y i) -> x = y.
Proof.
  intros H. apply Vm_eq. apply (nth_ext _ _ (fp 0) (fp 0)).
  - now rewrite !vval_length.
  - intros i Hi. rewrite vval_length in Hi. now apply H.
Qed.

Definition vadd (x y : Vm) : Vm := vtab (fun i => fadd (ventry x i) (ventry y i)).
Definition vsub (x y : Vm) : Vm := vtab (fun i => fsub (ventry x i) (ventry y i)).
Definition vopp (x : Vm) : Vm := vtab (fun i => fopp (ventry x i)).
Definition vmul (s : Fp) (x : Vm) : Vm := vtab (fun i => fmul s (ventry x i)).
Fixpoint list_feqb (l l' : list Fp) : bool :=
  match l, l' with
  | [], [] => true
  | x :: l, y :: l' => feqb x y && list_feqb l l'
  | _, _ => false
  end.
Definition veqb (x y : Vm) : bool := list_feqb (vval x) (vval y).

(** encodings: lists of integers; only canonical residues of the right length decode *)
Definition encode (x : Vm) : list Z := map val (vval x).
Definition decode (c : list Z) : option Vm :=
  match bool_dec (length (map fp c) =? m)%nat true with
  | left H => if forallb (fun z => z mod p =? z) c then Some (exist _ (map fp c) H) else None
  | right _ => None
  end.

Definition fp_crypto : Crypto := {|
  Scalar := Fp; s0 := fp 0; s1 := fp 1; sadd := fadd; ssub := fsub; smul := fmul;
  sopp := fopp; sinv := finv; seqb := feqb;
  Point := Vm; p0 := vtab (fun _ => fp 0); padd := vadd; psub := vsub; popp := vopp;
  pmul := vmul; peqb := veqb;
  Compressed := list Z; compress := encode; decompress := decode |}.

Lemma feqb_eq x y : feqb x y = true <-> x = y.
Proof. unfold feqb. rewrite Z.eqb_eq. split; [apply Fp_eq|now intros ->]. Qed.
Lemma list_feqb_eq l l' : list_feqb l l' = true <-> l = l'.
Proof.
  revert l'; induction l as [|x l IH]; intros [|y l']; cbn; split; intros H; try congruence.
  - apply andb_true_iff in H as [H1 H2]. apply feqb_eq in H1. apply IH in H2. congruence.
  - inversion H; subst. apply andb_true_iff. split; [now apply feqb_eq|now apply IH].
Qed.

Ltac fsolve :=
  apply Fp_eq; cbn [fadd fsub fmul fopp val fp proj1_sig];
  repeat first [rewrite Zplus_mod_idemp_l | rewrite Zplus_mod_idemp_r
               | rewrite Zminus_mod_idemp_l | rewrite Zminus_mod_idemp_r
               | rewrite Zmult_mod_idemp_l | rewrite Zmult_mod_idemp_r];
  try (f_equal; ring).

Lemma fadd_comm x y : fadd x y = fadd y x. Proof. fsolve. Qed.
Lemma fadd_assoc x y z : fadd x (fadd y z) = fadd (fadd x y) z. Proof. fsolve. Qed.
Lemma fadd_0_l x : fadd (fp 0) x = x.
Proof. rewrite <- (fp_val x) at 2. fsolve. Qed.
Lemma fmul_comm x y : fmul x y = fmul y x. Proof. fsolve. Qed.
Lemma fmul_assoc x y z : fmul x (fmul y z) = fmul (fmul x y) z. Proof. fsolve. Qed.
Lemma fmul_1_l x : fmul (fp 1) x = x.
Proof. rewrite <- (fp_val x) at 2. fsolve. Qed.
Lemma fmul_add_l x y z : fmul (fadd x y) z = fadd (fmul x z) (fmul y z). Proof. fsolve. Qed.
Lemma fsub_def x y : fsub x y = fadd x (fopp y).
Proof. fsolve. Qed.
Lemma fadd_opp x : fadd x (fopp x) = fp 0.
Proof. fsolve. Qed.

Lemma decode_encode x : decode (encode x) = Some x.
Proof.
  unfold decode, encode. destruct (bool_dec _ _) as [H|H].
  - assert (F : forallb (fun z => z mod p =? z) (map val (vval x)) = true).
    { apply forallb_forall. intros z Hz. apply in_map_iff in Hz as [y [<- _]].
      apply Z.eqb_eq. apply val_mod. }
    rewrite F. f_equal. apply Vm_eq. cbn. rewrite map_map.
    rewrite <- (map_id (vval x)) at 2. apply map_ext. apply fp_val.
  - exfalso. apply H. apply Nat.eqb_eq. now rewrite !map_length, vval_length.
Qed.
Lemma encode_decode c x : decode c = Some x -> encode x = c.
Proof.
  unfold decode, encode. destruct (bool_dec _ _) as [H|H]; [|discriminate].
  destruct (forallb _ c) eqn:F; [|discriminate]. intros E; inversion E; subst. cbn.
  rewrite forallb_forall in F. clear H E. rewrite map_map.
  rewrite <- (map_id c) at 2. apply map_ext_in. intros z Hz. cbn. now apply Z.eqb_eq, F.
Qed.

Theorem fp_laws : prime p -> CryptoLaws fp_crypto.
Proof.
  intros Hp. assert (p1 : 1 < p) by (now destruct Hp).
  assert (V : forall f i, (i < m)%nat -> ventry (vtab f) i = f i) by exact ventry_vtab.
  assert (vt : forall x y, (forall i, (i < m)%nat -> ventry x i = ventry y i) -> x = y) by exact Vm_ext.
  constructor; cbn [Scalar s0 s1 sadd ssub smul sopp sinv seqb Point p0 padd psub popp pmul peqb
                    Compressed compress decompress fp_crypto].
  - exact fadd_comm.
  - exact fadd_assoc.
  - exact fadd_0_l.
  - exact fadd_opp.
  - exact fsub_def.
  - exact fmul_comm.
  - exact fmul_assoc.
  - exact fmul_1_l.
  - exact fmul_add_l.
  - intros E. apply (f_equal val) in E. rewrite !val_fp, Z.mod_1_l, Z.mod_0_l in E; lia.
  - intros x Hx. now apply finv_l.
  - unfold finv. rewrite val_fp, Z.mod_0_l by lia. reflexivity.
  - exact feqb_eq.
  - intros x y; apply vt; intros i Hi; unfold vadd; rewrite !V by auto; apply fadd_comm.
  - intros x y z; apply vt; intros i Hi; unfold vadd; rewrite !V by auto; apply fadd_assoc.
  - intros x; apply vt; intros i Hi; unfold vadd; rewrite !V by auto; apply fadd_0_l.
  - intros x; apply vt; intros i Hi; unfold vadd, vopp; rewrite !V by auto; apply fadd_opp.
  - intros x y; apply vt; intros i Hi; unfold vadd, vopp, vsub; rewrite !V by auto; apply fsub_def.
  - intros s x y; apply vt; intros i Hi; unfold vadd, vmul; rewrite !V by auto.
    rewrite (fmul_comm s), fmul_add_l. now rewrite !(fmul_comm s).
  - intros s t x; apply vt; intros i Hi; unfold vadd, vmul; rewrite !V by auto. apply fmul_add_l.
  - intros s t x; apply vt; intros i Hi; unfold vmul; rewrite !V by auto. apply fmul_assoc.
  - intros x; apply vt; intros i Hi; unfold vmul; rewrite !V by auto. apply fmul_1_l.
  - intros x y. unfold veqb. rewrite list_feqb_eq. split; [apply Vm_eq|now intros ->].
  - exact decode_encode.
  - exact encode_decode.
Qed.

End Fp.

(** ** The Ristretto scalar field; points are (Z/ell)^m. *)
Definition RC (m : nat) : Crypto := fp_crypto ell m.
Lemma RC_laws m : CryptoLaws (RC m).
Proof. apply fp_laws. exact prime_ell. Qed.
