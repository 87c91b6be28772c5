(** Specification: several verifications one after another on one transcript. *)
From Verif Require Export SepSpec.
Local Open Scope list_scope.

Section SessionSpec.
Context {C : Crypto}.

(** runs of the verifiers, with the events each of them appends; the next run starts
    from the history the one before has left *)
Inductive session : transcript -> list (kind * list event) -> Prop :=
| session_nil tr : session tr []
| session_cons tr k e s : ran k tr e -> session (tr ++ e) s -> session tr ((k, e) :: s).
Definition events (s : list (kind * list event)) : list event := concat (map snd s).

(** the arguments that contain the inner-product argument *)
Definition of_ipa (k : kind) : Prop := k = KIpa \/ k = KAlm \/ k = KQesa \/ k = KCopy.

(** a binary linear-map proof with these rounds *)
Definition lm_proof (R : list (list Point * list Point)) (w : Scalar) : LmpaNoZK :=
  mkLmpaNoZK (map fst R) (map snd R) w.
(** no round is empty and no challenge is 0 *)
Definition lm_live (ro : oracle) (tr : transcript) (R : list (list Point * list Point)) : Prop :=
  (forall l r, In (l, r) R -> l <> [] /\ r <> []) /\
  forall j, j < length R -> ro (lm_hist tr R (S j)) <> s0.

End SessionSpec.
