(** Primality of the order of the Ristretto group,
    l = 2^252 + 27742317777372353535851937790883648493, by Pocklington's
    criterion. *)
From Coq Require Import ZArith Znumtheory Zpow_facts Lia.
From Verif Require Import Fermat.
Local Open Scope Z_scope.

(** if p is a prime divisor of n and the criterion holds for the prime q, then
    q divides p-1 *)
Lemma pocklington_div n q a p :
  1 < n -> prime q -> prime p -> (p | n) -> (q | n - 1) -> 0 < a ->
  (a ^ (n - 1)) mod n = 1 -> Z.gcd ((a ^ ((n - 1) / q)) mod n - 1) n = 1 ->
  (q | p - 1).
Proof.
  intros Hn Hq Hp Hpn [k Hk] Ha H1 H2.
  assert (Hp1 : 1 < p) by (now destruct Hp). assert (Hq1 : 1 < q) by (now destruct Hq).
  destruct (Zdivide_dec q (p - 1)) as [D|D]; [exact D|exfalso].
  assert (Hk0 : 0 < k) by nia.
  assert (Hkq : (n - 1) / q = k) by (rewrite Hk; apply Z.div_mul; lia).
  rewrite Hkq in H2.
  (* b = a^k *)
  assert (Hap : (a ^ (n - 1)) mod p = 1).
  { destruct Hpn as [m Hm].
    rewrite (Z.div_mod (a ^ (n - 1)) n) by lia. rewrite H1, Hm.
    replace (m * p * (a ^ (m * p - 1) / (m * p)) + 1)
      with (1 + (m * (a ^ (m * p - 1) / (m * p))) * p) by ring.
    rewrite Z.mod_add by lia. apply Z.mod_1_l; lia. }
  set (b := a ^ k) in *.
  assert (Hb0 : 0 < b) by (apply Z.pow_pos_nonneg; lia).
  assert (Hbq : (b ^ q) mod p = 1).
  { unfold b. rewrite <- Z.pow_mul_r by lia. now rewrite <- Hk. }
  assert (Hcop : ~ (p | b)).
  { intros [c Hc]. rewrite Hc in Hbq.
    replace ((c * p) ^ q) with (0 + (c * (c * p) ^ (q - 1)) * p) in Hbq.
    - rewrite Z.mod_add, Z.mod_0_l in Hbq by lia. lia.
    - replace q with (1 + (q - 1)) at 2 by ring. rewrite Z.pow_add_r by lia. rewrite Z.pow_1_r. ring. }
  assert (Hbp : (b ^ (p - 1)) mod p = 1).
  { assert (F := fermat_Z p b Hp ltac:(lia)).
    assert (Hd : (p | b * (b ^ (p - 1) - 1))).
    { exists ((b ^ p - b) / p). rewrite Z.mul_sub_distr_l, Z.mul_1_r.
      replace (b * b ^ (p - 1)) with (b ^ p).
      - rewrite Z.mul_comm. symmetry. rewrite <- Z_div_exact_full_2; try lia.
        rewrite Zminus_mod, F, Z.sub_diag. apply Z.mod_0_l; lia.
      - replace p with (1 + (p - 1)) at 1 by ring. rewrite Z.pow_add_r by lia. now rewrite Z.pow_1_r. }
    apply prime_mult in Hd; [|exact Hp]. destruct Hd as [Hd|[c Hc]]; [contradiction|].
    replace (b ^ (p - 1)) with (1 + c * p) by lia. rewrite Z.mod_add by lia. apply Z.mod_1_l; lia. }
  assert (Hrel : rel_prime q (p - 1)).
  { apply prime_rel_prime; auto. }
  apply rel_prime_bezout in Hrel. destruct Hrel as [u v Huv].
  (* choose non-negative exponents: U q = 1 + V (p-1) *)
  assert (HUV : exists U V, 0 <= U /\ 0 <= V /\ U * q = 1 + V * (p - 1)).
  { exists (u + (Z.abs u + Z.abs v) * (p - 1)), (- v + (Z.abs u + Z.abs v) * q).
    split; [|split]; try nia. }
  destruct HUV as (U & V & HU & HV & E).
  assert (Hb1 : b mod p = 1).
  { assert (E1 : (b ^ (U * q)) mod p = 1).
    { rewrite Z.mul_comm, Z.pow_mul_r by lia.
      rewrite Zpower_mod by lia. rewrite Hbq, Z.pow_1_l by lia. apply Z.mod_1_l; lia. }
    rewrite E, Z.pow_add_r, Z.pow_1_r in E1 by nia.
    rewrite (Z.mul_comm V), Z.pow_mul_r in E1 by lia.
    rewrite <- Zmult_mod_idemp_r in E1. rewrite Zpower_mod in E1 by lia.
    rewrite Hbp, Z.pow_1_l in E1 by lia. rewrite Z.mod_1_l, Z.mul_1_r in E1 by lia. exact E1. }
  (* so p divides gcd = 1 *)
  assert (Hpg : (p | Z.gcd (b mod n - 1) n)).
  { apply Z.gcd_greatest; auto. destruct Hpn as [m Hm].
    replace (b mod n - 1) with ((b - 1) - n * (b / n)) by (rewrite (Z.mod_eq b n) by lia; ring).
    apply Z.divide_sub_r.
    - exists (b / p). rewrite (Z.div_mod b p) at 1 by lia. rewrite Hb1. ring.
    - exists (m * (b / n)). rewrite Hm at 1. ring. }
  rewrite H2 in Hpg. apply Z.divide_1_r_nonneg in Hpg; lia.
Qed.

(** a number all of whose prime divisors exceed its square root is prime *)
Lemma prime_div_exists n : 1 < n -> exists p, prime p /\ (p | n).
Proof.
  intros Hn. assert (H0 : 0 <= n) by lia. revert Hn. pattern n. apply Zlt_0_ind; [clear n H0|exact H0].
  intros n IH _ Hn. destruct (prime_dec n) as [P|P].
  - exists n. split; [exact P|apply Z.divide_refl].
  - apply not_prime_divide in P; [|exact Hn]. destruct P as [d [Hd Hdn]].
    destruct (IH d ltac:(lia) ltac:(lia)) as [p [Pp Pd]]. exists p. split; auto.
    eapply Z.divide_trans; eauto.
Qed.
Lemma prime_of_large_divisors n F :
  1 < n -> 0 <= F -> n <= F * F -> (forall p, prime p -> (p | n) -> F < p) -> prime n.
Proof.
  intros Hn HF0 HF H. destruct (prime_dec n) as [P|P]; [exact P|exfalso].
  apply not_prime_divide in P; [|exact Hn]. destruct P as [d [Hd [c Hc]]].
  destruct (prime_div_exists d) as [p [Pp [e He]]]; [lia|].
  assert (Hc1 : 1 < c) by nia.
  destruct (prime_div_exists c) as [q [Pq [f Hf]]]; [lia|].
  assert (F < p) by (apply H; auto; exists (c * e); rewrite Hc, He; ring).
  assert (F < q) by (apply H; auto; exists (f * d); rewrite Hc, Hf; ring).
  assert (1 < p) by (destruct Pp; auto). assert (1 < q) by (destruct Pq; auto).
  assert (p <= d) by (apply Z.divide_pos_le; [lia|now exists e]).
  assert (q <= c) by (apply Z.divide_pos_le; [lia|now exists f]).
  assert (F * F < d * c) by (apply Z.mul_lt_mono_nonneg; lia). lia.
Qed.

Definition pock_check (n q a : Z) : bool :=
  (1 <? n) && (0 <? a) && ((n - 1) mod q =? 0) && (Zpow_mod a (n - 1) n =? 1)
  && (Z.gcd (Zpow_mod a ((n - 1) / q) n - 1) n =? 1).

Lemma pock_check_div n q a p : pock_check n q a = true -> prime q -> prime p -> (p | n) -> (q | p - 1).
Proof.
  unfold pock_check. rewrite !Bool.andb_true_iff, !Z.eqb_eq, !Z.ltb_lt.
  intros [[[[H1 H2] H3] H4] H5] Hq Hp Hpn.
  assert (1 < q) by (destruct Hq; auto).
  rewrite Zpow_mod_correct in H4, H5 by lia.
  apply (pocklington_div n q a p); auto. apply Z.mod_divide; lia.
Qed.

Lemma pock_prime n q a : prime q -> n <= q * q -> pock_check n q a = true -> prime n.
Proof.
  intros Hq Hn H.
  assert (1 < n). { unfold pock_check in H. rewrite !Bool.andb_true_iff, Z.ltb_lt in H. tauto. }
  assert (1 < q) by (destruct Hq; auto).
  apply (prime_of_large_divisors n q); auto; [lia|]. intros p Hp Hpn.
  assert (1 < p) by (destruct Hp; auto).
  assert (D := pock_check_div _ _ _ _ H Hq Hp Hpn). apply Z.divide_pos_le in D; lia.
Qed.

Lemma pock_prime2 n q a q' a' : prime q -> prime q' -> q <> q' -> n <= (q * q') * (q * q') ->
  pock_check n q a = true -> pock_check n q' a' = true -> prime n.
Proof.
  intros Hq Hq' Hne Hn H H'.
  assert (1 < n). { unfold pock_check in H. rewrite !Bool.andb_true_iff, Z.ltb_lt in H. tauto. }
  assert (1 < q) by (destruct Hq; auto). assert (1 < q') by (destruct Hq'; auto).
  apply (prime_of_large_divisors n (q * q')); auto; [nia|]. intros p Hp Hpn.
  assert (1 < p) by (destruct Hp; auto).
  assert (D := pock_check_div _ _ _ _ H Hq Hp Hpn).
  assert (D' := pock_check_div _ _ _ _ H' Hq' Hp Hpn).
  assert (R : rel_prime q q').
  { apply prime_rel_prime; auto. intros X. apply prime_div_prime in X; auto. }
  destruct D as [c Hc]. assert (X : (q' | c * q)) by (now rewrite <- Hc).
  rewrite Z.mul_comm in X. apply Gauss in X; [|now apply rel_prime_sym].
  destruct X as [e He].
  rewrite He in Hc. assert (0 < e) by nia. nia.
Qed.

(** trial division *)
Fixpoint no_div (fuel : nat) (d n : Z) : bool :=
  match fuel with
  | O => false
  | S f => if n <? d * d then true else negb (n mod d =? 0) && no_div f (d + 1) n
  end.

Lemma no_div_spec fuel d n : 1 < d -> no_div fuel d n = true ->
  (forall k, 1 < k < d -> ~ (k | n)) -> forall k, 1 < k < n -> ~ (k | n).
Proof.
  revert d; induction fuel as [|f IH]; cbn [no_div]; intros d Hd H Hpre; [discriminate|].
  destruct (Z.ltb_spec n (d * d)) as [Hlt|Hge].
  - intros k Hk [c Hc]. destruct (Z.lt_ge_cases k d) as [Hkd|Hkd].
    + apply (Hpre k); [lia|]. now exists c.
    + assert (Hcd : 1 < c < d) by nia. apply (Hpre c Hcd). exists k. rewrite Hc. ring.
  - apply Bool.andb_true_iff in H as [H1 H2]. apply (IH (d + 1)); auto; [lia|].
    intros k Hk. destruct (Z.eq_dec k d) as [->|Hn].
    + intros D. apply Z.mod_divide in D; [|lia]. rewrite D in H1. discriminate.
    + apply Hpre. lia.
Qed.
Lemma small_prime fuel n : 1 < n -> no_div fuel 2 n = true -> prime n.
Proof.
  intros Hn H. apply prime_alt. split; auto.
  apply (no_div_spec fuel 2 n); auto; lia.
Qed.

Lemma prime_531581 : prime 531581.
Proof. apply (small_prime 2000); [lia|vm_compute; reflexivity]. Qed.
Lemma prime_1224481 : prime 1224481.
Proof. apply (small_prime 2000); [lia|vm_compute; reflexivity]. Qed.
Lemma prime_1257559732178653 : prime 1257559732178653.
Proof.
  apply (pock_prime2 _ 531581 2 1224481 2 prime_531581 prime_1224481);
    [lia|lia|vm_compute; reflexivity|vm_compute; reflexivity].
Qed.
Lemma prime_4434155615661930479 : prime 4434155615661930479.
Proof. apply (pock_prime _ _ 2 prime_1257559732178653); [lia|vm_compute; reflexivity]. Qed.
Lemma prime_172054593956031949258510691 : prime 172054593956031949258510691.
Proof. apply (pock_prime _ _ 2 prime_4434155615661930479); [lia|vm_compute; reflexivity]. Qed.
Lemma prime_19757330305831588566944191468367130476339 : prime 19757330305831588566944191468367130476339.
Proof. apply (pock_prime _ _ 2 prime_172054593956031949258510691); [lia|vm_compute; reflexivity]. Qed.
Lemma prime_276602624281642239937218680557139826668747 : prime 276602624281642239937218680557139826668747.
Proof. apply (pock_prime _ _ 2 prime_19757330305831588566944191468367130476339); [lia|vm_compute; reflexivity]. Qed.

(** the order of the Ristretto group (curve25519-dalek, constants::BASEPOINT_ORDER) *)
Definition ell : Z := 2 ^ 252 + 27742317777372353535851937790883648493.

Theorem prime_ell : prime ell.
Proof. apply (pock_prime ell _ 2 prime_276602624281642239937218680557139826668747); [unfold ell; lia|vm_compute; reflexivity]. Qed.
