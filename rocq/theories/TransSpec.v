(** Specification of the transcript layouts: what each verifier appends to the
    history, and what it means that challenges depend only on earlier events. *)
From Coq Require Import String.
From Verif Require Export QesaSpec KarySpec Copy LmpaSimpleZK.
Local Open Scope string_scope.
Local Open Scope nat_scope.
Local Open Scope list_scope.

Section TransSpec.
Context {C : Crypto}.

(** the histories, after [tr], at which a challenge is drawn in [tr ++ ext] *)
Definition chal_prefix (tr ext h : transcript) : Prop :=
  exists e1 l e2, ext = e1 ++ EvChal l :: e2 /\ h = tr ++ e1 ++ [EvChal l].

(** a run of [f] that ends with history [tr ++ ext] and verdict [b], which is the same
    for every hash function that agrees on the histories where a challenge is drawn *)
Definition only_reads (f : oracle -> res (bool * transcript)) (tr ext : transcript) (b : bool) (ro : oracle) : Prop :=
  forall ro', (forall h, chal_prefix tr ext h -> ro' h = ro h) -> f ro' = Ok (b, tr ++ ext).

Definition lay_ipa (n : nat) (pf : NoZK) : list event :=
  [EvU64 "n" n; EvChal "alpha"] ++ ipa_rounds (combine (L_vec pf) (R_vec pf)).
(** P is a point computed by the verifier *)
Definition lay_alm (n : nat) (pf : AlmZK) (P : Point) : list event :=
  [EvMsg "C_r" (C_r pf); EvChal "beta"; EvMsg "P" (compress P)] ++ lay_ipa n (az_NoZK pf).
Definition lay_inner (n : nat) (pf : Inner) (Cw P : Point) : list event :=
  [EvMsg "c_prime_w" (c_prime_w pf); EvChal "x"; EvMsg "c_prime_prime_w" (c_prime_prime_w pf);
   EvChal "s"; EvChal "b"; EvMsg "c_w" (compress Cw)] ++ lay_alm n (alm_zk pf) P.
(** the commitment inside the inner proof is replaced by a computed point *)
Definition lay_copy (n : nat) (pf : Copy) (Cagg Cw P : Point) : list event :=
  [EvMsg "c_w" (cp_C_w pf); EvChal "alpha"] ++
  lay_inner n (mkInner (alm_zk (cp_inner pf)) (compress Cagg) (c_prime_prime_w (cp_inner pf))) Cw P.
Definition lay_lmpa (d : nat) (pf : LmpaNoZK) : list event :=
  lm_rounds (firstn d (combine (lm_L pf) (lm_R pf))).
Definition lay_simple (d : nat) (pf : SimpleZK) : list event :=
  lm_msgs "a" (sz_a pf) ++ [EvChal "beta"] ++ lay_lmpa d (sz_no_zk pf).
Definition lay_kary (d : nat) (pf : LmpaKary) : list event :=
  concat (map ka_round (firstn d (u_proof_Block pf))).
Definition lay_general (d : nat) (pf : SimpleZKGeneral) : list event :=
  lm_msgs "a" (szg_a pf) ++ [EvChal "beta"] ++ lay_kary d (lamp_no_zk pf).

End TransSpec.
