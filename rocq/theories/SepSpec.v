(** Specification: which challenges two runs, of the same or of different arguments,
    can have in common when they start from the same history. *)
From Coq Require Import String.
From Verif Require Export TransSpec.
Local Open Scope string_scope.
Local Open Scope nat_scope.
Local Open Scope list_scope.

Inductive kind : Type := KIpa | KAlm | KQesa | KCopy | KLmpa | KSimple | KKary | KGeneral.

Section SepSpec.
Context {C : Crypto}.

(** some run of the verifier, started from history [tr], returns with history [tr ++ ext] *)
Definition ran (k : kind) (tr ext : transcript) : Prop :=
  match k with
  | KIpa => exists ro pf G H Q n P t b, no_zk_verify ro tr pf G H Q n P t = Ok (b, tr ++ ext)
  | KAlm => exists ro pf G H Q n Cw t b, alm_zk_verify ro tr pf G H Q n Cw t = Ok (b, tr ++ ext)
  | KQesa => exists ro pf G H Q gamma b, inner_verify ro tr pf G H Q gamma = Ok (b, tr ++ ext)
  | KCopy => exists ro pf G H Q gamma mp Cs b, copy_verify ro tr pf G H Q gamma mp Cs = Ok (b, tr ++ ext)
  | KLmpa => exists ro pf A G H Q n t b, lmpa_verify ro tr pf A G H Q n t = Ok (b, tr ++ ext)
  | KSimple => exists ro pf A G H Q n t b, simple_zk_verify ro tr pf A G H Q n t = Ok (b, tr ++ ext)
  | KKary => exists ro pf A t n m k one zero b, verify_lmpa_noZK ro tr pf A t n m k one zero = Ok (b, tr ++ ext)
  | KGeneral => exists ro pf A t n m k b, verify_general ro tr pf A t n m k = Ok (b, tr ++ ext)
  end.

(** the history [h] of a challenge says: the same size and the same messages so far *)
Definition same_ipa (tr : transcript) (n1 n2 : nat) (p1 p2 : NoZK) (h : transcript) : Prop :=
  n1 = n2 /\ exists j, j <= length (combine (L_vec p1) (R_vec p1)) /\ j <= length (combine (L_vec p2) (R_vec p2)) /\
    firstn j (combine (L_vec p1) (R_vec p1)) = firstn j (combine (L_vec p2) (R_vec p2)) /\
    h = ipa_hist tr n1 (combine (L_vec p1) (R_vec p1)) j.
Definition same_alm (tr : transcript) (n1 n2 : nat) (p1 p2 : AlmZK) (h : transcript) : Prop :=
  C_r p1 = C_r p2 /\
  let tr1 := tr ++ [EvMsg "C_r" (C_r p1); EvChal "beta"] in
  (h = tr1 \/ exists P, same_ipa (tr1 ++ [EvMsg "P" (compress P)]) n1 n2 (az_NoZK p1) (az_NoZK p2) h).
Definition same_qesa (tr : transcript) (n1 n2 : nat) (p1 p2 : Inner) (h : transcript) : Prop :=
  c_prime_w p1 = c_prime_w p2 /\
  let tr1 := tr ++ [EvMsg "c_prime_w" (c_prime_w p1); EvChal "x"] in
  (h = tr1 \/
   (c_prime_prime_w p1 = c_prime_prime_w p2 /\
    let tr2 := tr1 ++ [EvMsg "c_prime_prime_w" (c_prime_prime_w p1); EvChal "s"] in
    (h = tr2 \/ h = tr2 ++ [EvChal "b"] \/
     exists Cw, same_alm (tr2 ++ [EvChal "b"; EvMsg "c_w" (compress Cw)]) n1 n2 (alm_zk p1) (alm_zk p2) h))).
(** the first message of the inner proof is a point computed by the verifier *)
Definition same_copy (tr : transcript) (n1 n2 : nat) (p1 p2 : Copy) (h : transcript) : Prop :=
  cp_C_w p1 = cp_C_w p2 /\
  let tr1 := tr ++ [EvMsg "c_w" (cp_C_w p1); EvChal "alpha"] in
  let inner c p := mkInner (alm_zk (cp_inner p)) (compress c) (c_prime_prime_w (cp_inner p)) in
  (h = tr1 \/ exists c1 c2, same_qesa tr1 n1 n2 (inner c1 p1) (inner c2 p2) h).
(** here the number of rounds and of messages is read off the list of messages *)
Definition same_lmpa (tr : transcript) (p1 p2 : LmpaNoZK) (h : transcript) : Prop :=
  exists j, 0 < j /\ j <= length (combine (lm_L p1) (lm_R p1)) /\ j <= length (combine (lm_L p2) (lm_R p2)) /\
    firstn j (combine (lm_L p1) (lm_R p1)) = firstn j (combine (lm_L p2) (lm_R p2)) /\
    h = lm_hist tr (combine (lm_L p1) (lm_R p1)) j.
Definition same_simple (tr : transcript) (p1 p2 : SimpleZK) (h : transcript) : Prop :=
  sz_a p1 = sz_a p2 /\
  let tr1 := tr ++ lm_msgs "a" (sz_a p1) ++ [EvChal "beta"] in
  (h = tr1 \/ same_lmpa tr1 (sz_no_zk p1) (sz_no_zk p2) h).
(** the messages of a round without their division into vectors *)
Definition same_kary (tr : transcript) (p1 p2 : LmpaKary) (h : transcript) : Prop :=
  exists j, 0 < j /\ j <= length (u_proof_Block p1) /\ j <= length (u_proof_Block p2) /\
    map (fun u => concat u) (firstn j (u_proof_Block p1)) = map (fun u => concat u) (firstn j (u_proof_Block p2)) /\
    h = ka_hist tr (u_proof_Block p1) j.
Definition same_general (tr : transcript) (p1 p2 : SimpleZKGeneral) (h : transcript) : Prop :=
  szg_a p1 = szg_a p2 /\
  let tr1 := tr ++ lm_msgs "a" (szg_a p1) ++ [EvChal "beta"] in
  (h = tr1 \/ same_kary tr1 (lamp_no_zk p1) (lamp_no_zk p2) h).

End SepSpec.
