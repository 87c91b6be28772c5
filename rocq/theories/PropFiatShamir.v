(** C79: the arguments as they are used, with challenges computed by hashing. A prover may
    query the hash function as often and as adaptively as it likes before it outputs a proof;
    if its proofs are accepted for more tables of answers than a stated bound, there is a tree
    of its own accepted proofs, and the extractors of C16, C20, C24, C37, C42 and C64 apply. *)
From Coq Require Import String.
From Verif Require Export FiatShamir PropForking PropTranscript.
From Verif Require Import PropMalleable Poly KaryFacts CopyFacts PropMapping PropCopy PropCopySound Ex ExSmall.
Local Open Scope string_scope.
Local Open Scope nat_scope.
Local Open Scope list_scope.

Local Ltac parts := cbv zeta; repeat match goal with |- _ /\ _ => split | |- let _ := _ in _ => cbv zeta end; try assumption; try reflexivity.

Section C79.
Context {C : Crypto} {L : CryptoLaws C} (ceq : @encodings_comparable C).
Notation word := (list Scalar).
Notation table := (table ceq).

(** number of tables of answers on D for which the verifier V accepts what the prover outputs *)
Definition successes {X} (V : oracle -> X -> res (bool * transcript)) (p : prover X) (vals : list Scalar) (D : list transcript) : nat :=
  count (fun w => yes (V (table D w) (run (table D w) p))) (words vals (length D)).
(** the prover has itself asked every challenge of an accepted proof (any prover can do so at
    the end, by running the verifier), and D contains them *)
Definition asks_challenges {X} (V : oracle -> X -> res (bool * transcript)) tr (p : prover X) (vals : list Scalar) (D : list transcript) : Prop :=
  forall w tr', In w (words vals (length D)) -> V (table D w) (run (table D w) p) = Ok (true, tr') ->
  forall h, In h (drawn tr (skipn (length tr) tr')) -> In h (asked (table D w) p) /\ In h D.

(** an accepted proof of the prover, for some table of answers: its challenges are cs and the
    proof satisfies R *)
Definition own_run {X} (V : oracle -> X -> res (bool * transcript)) tr (p : prover X) (vals : list Scalar) (D : list transcript)
    (cs : list Scalar) (R : X -> Prop) : Prop :=
  exists w e, In w (words vals (length D)) /\
    let ro := table D w in V ro (run ro p) = Ok (true, tr ++ e) /\ map ro (drawn tr e) = cs /\ R (run ro p).

(** the verifier's run is determined by its challenges *)
Definition follows {X} (V : oracle -> X -> res (bool * transcript)) tr : Prop :=
  forall ro x tr', V ro x = Ok (true, tr') -> exists e, tr' = tr ++ e /\ only_reads (fun ro => V ro x) tr e true ro.

Lemma nchal_drawn tr e i h : nth_error (drawn tr e) i = Some h -> nchal h = nchal tr + S i.
Proof.
  revert tr i; induction e as [|ev e IH]; intros tr i H; [destruct i; discriminate|].
  destruct ev as [l m|l m|l]; cbn [drawn] in H.
  - rewrite (IH _ _ H), nchal_app. cbn. lia.
  - rewrite (IH _ _ H), nchal_app. cbn. lia.
  - destruct i as [|i]; [cbn in H; injection H as <-; rewrite nchal_app; cbn; lia|].
    rewrite (IH _ _ H), nchal_app. cbn. lia.
Qed.

(** the accepted runs of a tree: [node] are the histories at its nodes, [leaf] the tables at its leaves *)
Definition tree_runs {X} (V : oracle -> X -> res (bool * transcript)) tr (p : prover X) vals D
    (node : word -> transcript) (leaf : word -> option word) : Prop :=
  forall u w, leaf u = Some w -> In w (words vals (length D)) /\
    exists e, V (table D w) (run (table D w) p) = Ok (true, tr ++ e) /\
      V (coins tr u) (run (table D w) p) = Ok (true, tr ++ e) /\
      drawn tr e = map fst (st_msgs node [] u) /\ map (table D w) (drawn tr e) = u.
Definition is_some {Y} (o : option Y) : bool := match o with Some _ => true | None => false end.
(** the last two scalars of the proof at a leaf *)
Definition leaf_fin {X} (out : X -> NoZK) (p : prover X) D (leaf : word -> option word) (u : word) : Scalar * Scalar :=
  match leaf u with Some w => let pf := out (run (table D w) p) in (nz_a pf, nz_b pf) | None => (s0, s0) end.

Lemma fs_fork_coins {X} (V : oracle -> X -> res (bool * transcript)) tr p vals D ks K T :
  NoDup vals -> asks T p -> Forall (fun k => k <= S K) ks -> follows V tr ->
  (forall w tr' e, V (table D w) (run (table D w) p) = Ok (true, tr') -> tr' = tr ++ e -> length (drawn tr e) = length ks) ->
  asks_challenges V tr p vals D ->
  K * T * length vals ^ (length D - 1) < successes V p vals D ->
  exists (node : word -> transcript) (leaf : word -> option word),
    has_tree vals ks (fun u => is_some (leaf u)) /\ tree_runs V tr p vals D node leaf.
Proof.
  intros HN HT HK HF HD HA HC.
  assert (ACC : forall w tr', accepted ceq V p D w = Some tr' <-> V (table D w) (run (table D w) p) = Ok (true, tr')).
  { intros w tr'. unfold accepted. destruct (V _ _) as [[[|] t]| |]; split; try discriminate; intros E; injection E as ->; auto. }
  destruct (fs_fork ceq V tr p vals D ks K T) as (node & leaf & HTr & HL); auto.
  - intros w tr' E. apply ACC in E. destruct (HF _ _ _ E) as (e & -> & _). exists e. split; auto. eapply HD; eauto.
  - intros w tr' Hw E. apply ACC in E. now apply HA.
  - eapply Nat.lt_le_trans; [exact HC|]. unfold successes. apply count_le. intros w _. unfold accepted.
    destruct (V _ _) as [[[|] t]| |]; cbn; auto.
  - exists node, leaf. split; [exact HTr|]. intros u w Hu. destruct (HL u w Hu) as (Iw & tr' & E & EC).
    split; auto. apply ACC in E. destruct (HF _ _ _ E) as (e & -> & HR). exists e. split; [auto|].
    unfold challenges_of in EC. rewrite skipn_app_exact in EC.
    assert (E1 : drawn tr e = map fst (st_msgs node [] u)).
    { rewrite <- EC, map_map. cbn. now rewrite map_id. }
    assert (E2 : map (table D w) (drawn tr e) = u).
    { rewrite <- (st_msgs_snd node [] u), <- EC, map_map. reflexivity. }
    split; [|split; auto]. apply HR. intros h Hh. apply drawn_In in Hh.
    apply In_nth_error in Hh as [i Hi]. rewrite (coins_at tr u h i); [|eapply nchal_drawn; eauto].
    rewrite <- E2. unfold sc. apply nth_error_nth. now rewrite nth_error_map, Hi.
Qed.

Lemma st_msgs_app {M} (msg : word -> M) pre u w : st_msgs msg pre (u ++ w) = st_msgs msg pre u ++ st_msgs msg (pre ++ u) w.
Proof.
  revert pre; induction u as [|x u IH]; intros pre; cbn; [now rewrite app_nil_r|]. now rewrite IH, <- app_assoc.
Qed.

(** ** inner product argument *)
(** the last two messages before the challenge *)
Definition lastLR (h : transcript) : Compressed * Compressed :=
  match rev h with
  | _ :: EvMsg _ r :: EvMsg _ l :: _ => (l, r)
  | _ => (compress p0, compress p0)
  end.
Lemma lastLR_round tr q : lastLR (tr ++ ipa_round q) = q.
Proof. unfold lastLR, ipa_round. rewrite rev_app_distr. cbn. now destruct q. Qed.
Lemma drawn_round tr q e : drawn tr (ipa_round q ++ e) = (tr ++ ipa_round q) :: drawn (tr ++ ipa_round q) e.
Proof. rewrite drawn_app. unfold ipa_round. cbn. now rewrite <- !app_assoc. Qed.
Lemma tail_LR node LRs : forall tr pre w, drawn tr (ipa_rounds LRs) = map fst (st_msgs node pre w) ->
  st_LR (fun u => lastLR (node u)) pre w = LRs.
Proof.
  unfold st_LR. induction LRs as [|q LRs IH]; intros tr pre w E.
  - destruct w; [reflexivity|discriminate].
  - unfold ipa_rounds in E. cbn [map concat] in E. rewrite drawn_round in E. fold (ipa_rounds LRs) in E.
    destruct w as [|x w]; [discriminate|]. cbn [st_msgs map fst] in E |- *. injection E as E1 E2.
    rewrite <- E1, lastLR_round. f_equal. eapply IH; eauto.
Qed.
Lemma drawn_rounds_length tr LRs : length (drawn tr (ipa_rounds LRs)) = length LRs.
Proof.
  revert tr; induction LRs as [|q LRs IH]; intros tr; [reflexivity|]. unfold ipa_rounds. cbn [map concat].
  rewrite drawn_round. cbn [length]. f_equal. apply IH.
Qed.
(** a proof and its folding challenges as a path *)
Definition proof_path (pf : NoZK) (xs : list Scalar) : ipa_path :=
  (map (fun q : Compressed * Compressed * Scalar => (dec (fst (fst q)), dec (snd (fst q)), snd q)) (combine (combine (L_vec pf) (R_vec pf)) xs),
   nz_a pf, nz_b pf).

Lemma combine_fst_snd {A B} (l : list A) (l' : list B) : length l = length l' ->
  map fst (combine l l') = l /\ map snd (combine l l') = l'.
Proof.
  revert l'; induction l as [|a l IH]; intros [|b l'] H; try discriminate; [auto|]. cbn in *.
  injection H as H. destruct (IH l' H). split; now f_equal.
Qed.
Lemma combine_map_fst_snd {A B} (l : list (A * B)) : combine (map fst l) (map snd l) = l.
Proof. induction l as [|[a b] l IH]; cbn; congruence. Qed.

Lemma tail_path node fin tr pre w pf : length (L_vec pf) = length (R_vec pf) ->
  fin (pre ++ w) = (nz_a pf, nz_b pf) ->
  drawn tr (ipa_rounds (combine (L_vec pf) (R_vec pf))) = map fst (st_msgs node pre w) ->
  st_proof (fun u => lastLR (node u)) fin pre w = pf /\
  st_path (fun u => lastLR (node u)) fin pre w = proof_path pf w.
Proof.
  intros HL HF HDr. apply tail_LR in HDr. destruct (combine_fst_snd _ _ HL) as [E1 E2]. split.
  - unfold st_proof. rewrite HDr, E1, E2, HF. now destruct pf.
  - unfold st_path, proof_path. rewrite HF. cbn [fst snd]. f_equal. f_equal. f_equal.
    rewrite <- HDr. unfold st_LR. transitivity (combine (map fst (st_msgs (fun u => lastLR (node u)) pre w)) (map snd (st_msgs (fun u => lastLR (node u)) pre w))).
    + now rewrite combine_map_fst_snd.
    + now rewrite st_msgs_snd.
Qed.

Lemma nozk_follows tr G H Q n P t : follows (fun ro pf => no_zk_verify ro tr pf G H Q n P t) tr.
Proof. intros ro pf tr' E. apply C50_ipa_layout in E as (_ & -> & HR). eauto. Qed.

Lemma drawn_lay_ipa tr n pf : length (R_vec pf) = length (L_vec pf) -> length (drawn tr (lay_ipa n pf)) = S (length (L_vec pf)).
Proof.
  intros HR. unfold lay_ipa. cbn [app drawn length]. now rewrite drawn_rounds_length, combine_length, HR, Nat.min_id.
Qed.
Lemma ks4 ks d K : Forall (fun k => k <= S K) ks -> 3 <= K -> Forall (fun k => k <= S K) (ks ++ repeat 4 d).
Proof. intros H HK. apply Forall_app. split; auto. apply Forall_forall. intros k Hk. apply repeat_spec in Hk. lia. Qed.

Lemma nozk_key vals tr (G H : list Point) (Q P : Point) (t : Scalar) d (p : prover NoZK) D node leaf :
  let V := fun ro pf => no_zk_verify ro tr pf G H Q (2 ^ d) P t in
  (forall ro, length (R_vec (run ro p)) = length (L_vec (run ro p))) ->
  tree_runs V tr p vals D node leaf ->
  let msg := fun u => lastLR (node u) in let fin := leaf_fin (fun pf => pf) p D leaf in
  forall al xs, is_some (leaf (al :: xs)) = true ->
    nozk_yes tr G H Q (2 ^ d) P t msg fin (al :: xs) = true /\
    own_run V tr p vals D (al :: xs) (fun pf => st_path msg fin [al] xs = proof_path pf xs).
Proof.
  intros V HR HL msg fin al xs Hu. destruct (leaf (al :: xs)) as [w|] eqn:El; [|discriminate].
  destruct (HL _ _ El) as (Iw & e & E1 & E2 & E3 & E4).
  assert (E0 := E1). unfold V in E1. apply C50_ipa_layout in E1 as (_ & Ee & _).
  apply app_inv_head in Ee. subst e.
  assert (HF : fin ([al] ++ xs) = (nz_a (run (table D w) p), nz_b (run (table D w) p))).
  { unfold fin, leaf_fin. cbn [app]. now rewrite El. }
  assert (E5 := E3). unfold lay_ipa in E3. cbn [app drawn st_msgs map fst] in E3. injection E3 as _ E3.
  destruct (tail_path node fin _ [al] xs (run (table D w) p) (eq_sym (HR _)) HF E3) as [X1 X2].
  split; [unfold nozk_yes, msg; rewrite X1; unfold V in E2; now rewrite E2|].
  exists w, (lay_ipa (2 ^ d) (run (table D w) p)). auto.
Qed.

(** from a tree of accepted runs to the extractor *)
Lemma nozk_of_tree vals tr (G H : list Point) (Q P : Point) (t : Scalar) d (p : prover NoZK) D node leaf :
  let V := fun ro pf => no_zk_verify ro tr pf G H Q (2 ^ d) P t in
  length G = 2 ^ d -> length H = 2 ^ d -> (forall ro, length (R_vec (run ro p)) = length (L_vec (run ro p))) ->
  has_tree vals ([3] ++ repeat 4 d) (fun u => is_some (leaf u)) -> tree_runs V tr p vals D node leaf ->
  exists B, good_trees B /\
    all_paths B (fun al path => exists xs, own_run V tr p vals D (al :: xs) (fun pf => path = proof_path pf xs)) /\
    match trees_extract t B with
    | Wit a b c => length a = 2 ^ d /\ length b = 2 ^ d /\ c = t /\
                   P = (comb a G + comb b H + t *: Q)%P /\ dotp a b = t
    | Rel g h q => nontrivial_relation (2 ^ d) G H Q g h q
    end.
Proof.
  intros V HG HH HR HTr HL.
  set (msg := fun u => lastLR (node u)). set (fin := leaf_fin (fun pf => pf) p D leaf).
  destruct (build_alpha msg fin vals d [] _ HTr) as (B & GB & PB).
  assert (KEY := nozk_key vals tr G H Q P t d p D node leaf HR HL). cbv zeta in KEY.
  exists B. split; [exact GB|]. destruct PB as [P1 P2]. split.
  { split; intros q Hq; [apply P1 in Hq|apply P2 in Hq]; destruct Hq as (xs & _ & Hu & ->); exists xs; now apply KEY in Hu. }
  unfold trees_extract. destruct GB as (N1 & N2 & N3 & D1 & D2).
  apply (C16_nozk_special_soundness tr); auto; intros q Hq; [apply P1 in Hq|apply P2 in Hq]; destruct Hq as (xs & _ & Hu & ->);
    apply nozk_yes_along; auto; now apply KEY in Hu.
Qed.
Theorem C79_nozk_fiat_shamir vals tr (G H : list Point) (Q P : Point) (t : Scalar) d (p : prover NoZK) T D :
  let V := fun ro pf => no_zk_verify ro tr pf G H Q (2 ^ d) P t in
  NoDup vals -> length G = 2 ^ d -> length H = 2 ^ d ->
  asks T p -> (forall ro, length (R_vec (run ro p)) = length (L_vec (run ro p))) ->
  asks_challenges V tr p vals D ->
  3 * T * length vals ^ (length D - 1) < successes V p vals D ->
  exists B, good_trees B /\
    all_paths B (fun al path => exists xs, own_run V tr p vals D (al :: xs) (fun pf => path = proof_path pf xs)) /\
    match trees_extract t B with
    | Wit a b c => length a = 2 ^ d /\ length b = 2 ^ d /\ c = t /\
                   P = (comb a G + comb b H + t *: Q)%P /\ dotp a b = t
    | Rel g h q => nontrivial_relation (2 ^ d) G H Q g h q
    end.
Proof.
  intros V HN HG HH HT HR HA HC.
  destruct (fs_fork_coins V tr p vals D ([3] ++ repeat 4 d) 3 T) as (node & leaf & HTr & HL); auto.
  - apply ks4; auto.
  - apply nozk_follows.
  - intros w tr' e E ->. unfold V in E. apply C50_ipa_layout in E as (En & Ee & _). apply app_inv_head in Ee. subst e.
    rewrite drawn_lay_ipa by auto. cbn [app length]. rewrite repeat_length.
    f_equal. symmetry. eapply Nat.pow_inj_r; [|exact En]; lia.
  - now apply (nozk_of_tree vals tr G H Q P t d p D node leaf).
Qed.

(** ** almost-zk argument *)
Definition lastmsg (h : transcript) : Compressed :=
  match rev h with _ :: EvMsg _ m :: _ => m | _ => compress p0 end.
Lemma lastmsg_app h l m c : lastmsg ((h ++ [EvMsg l m]) ++ [EvChal c]) = m.
Proof. unfold lastmsg. now rewrite !rev_app_distr. Qed.

Lemma almzk_key vals tr (G H : list Point) (Q Cw : Point) (t : Scalar) d (p : prover AlmZK) D node leaf :
  let V := fun ro pf => alm_zk_verify ro tr pf G H Q (2 ^ d) Cw t in
  (forall ro, length (R_vec (az_NoZK (run ro p))) = length (L_vec (az_NoZK (run ro p)))) ->
  tree_runs V tr p vals D node leaf ->
  let msg := fun u => lastLR (node u) in let fin := leaf_fin az_NoZK p D leaf in let cr := lastmsg (node []) in
  forall be al xs, is_some (leaf (be :: al :: xs)) = true ->
    almzk_yes tr G H Q (2 ^ d) Cw t cr msg fin (be :: al :: xs) = true /\
    own_run V tr p vals D (be :: al :: xs) (fun pf => C_r pf = cr /\ st_path msg fin [be; al] xs = proof_path (az_NoZK pf) xs).
Proof.
  intros V HR HL msg fin cr be al xs Hu. destruct (leaf (be :: al :: xs)) as [w|] eqn:El; [|discriminate].
  destruct (HL _ _ El) as (Iw & e & E1 & E2 & E3 & E4).
  assert (E0 := E1). unfold V in E1. apply C50_almzk_layout in E1 as (P & Ee & _).
  apply app_inv_head in Ee. subst e. set (pf := run (table D w) p) in *.
  assert (HF : fin ([be; al] ++ xs) = (nz_a (az_NoZK pf), nz_b (az_NoZK pf))).
  { unfold fin, leaf_fin. cbn [app]. now rewrite El. }
  assert (E5 := E3). unfold lay_alm, lay_ipa in E3. cbn [app drawn st_msgs map fst] in E3. injection E3 as Ec _ E3.
  assert (Hcr : C_r pf = cr) by (unfold cr; rewrite <- Ec; symmetry; apply lastmsg_app).
  destruct (tail_path node fin _ [be; al] xs (az_NoZK pf) (eq_sym (HR _)) HF E3) as [X1 X2].
  split; [unfold almzk_yes, msg; rewrite X1, <- Hcr; unfold V in E2|].
  - replace (mkAlmZK (C_r pf) (az_NoZK pf)) with pf by (now destruct pf). now rewrite E2.
  - exists w, (lay_alm (2 ^ d) pf P). parts.
Qed.

Lemma almzk_of_tree vals tr (G H : list Point) (Q Cw : Point) (t : Scalar) d (p : prover AlmZK) D node leaf :
  let V := fun ro pf => alm_zk_verify ro tr pf G H Q (2 ^ d) Cw t in
  length G = 2 ^ d -> length H = 2 ^ d -> (forall ro, length (R_vec (az_NoZK (run ro p))) = length (L_vec (az_NoZK (run ro p)))) ->
  has_tree vals ([3; 3] ++ repeat 4 d) (fun u => is_some (leaf u)) -> tree_runs V tr p vals D node leaf ->
  exists B, good_beta B /\
    beta_paths B (fun cr be al path => exists xs, own_run V tr p vals D (be :: al :: xs)
                    (fun pf => C_r pf = cr /\ path = proof_path (az_NoZK pf) xs)) /\
    match beta_extract t B with
    | Wit a b c => length a = 2 ^ d /\ length b = 2 ^ d /\ c = t /\ Cw = (comb a G + comb b H)%P /\ dotp a b = t
    | Rel g h q => nontrivial_relation (2 ^ d) G H Q g h q
    end.
Proof.
  intros V HG HH HR HTr HL.
  set (msg := fun u => lastLR (node u)). set (fin := leaf_fin az_NoZK p D leaf).
  set (cr := lastmsg (node [])).
  destruct (build_beta msg fin vals d [] _ cr HTr) as (B & _ & GB & PB).
  assert (KEY := almzk_key vals tr G H Q Cw t d p D node leaf HR HL). cbv zeta in KEY.
  exists B. split; [exact GB|]. split.
  { revert PB. apply beta_paths_impl. intros c be al q (-> & xs & _ & Hu & ->). exists xs. apply KEY in Hu as [_ (w & e & Iw & R1 & R2 & R3 & R4)].
    exists w, e. cbv zeta. parts. }
  unfold beta_extract. destruct GB as (D1 & D2 & D3 & G1 & G2 & G3).
  assert (K : beta_paths B (fun _ be al p => alm_accepts_along tr G H Q (2 ^ d) Cw t cr be al p)).
  { revert PB. apply beta_paths_impl. intros c be al q (_ & xs & _ & Hu & ->). apply almzk_yes_along; auto. now apply KEY in Hu. }
  destruct K as (K1 & K2 & K3).
  now apply (C20_almzk_special_soundness tr G H Q Cw t (2 ^ d) cr).
Qed.
Theorem C79_almzk_fiat_shamir vals tr (G H : list Point) (Q Cw : Point) (t : Scalar) d (p : prover AlmZK) T D :
  let V := fun ro pf => alm_zk_verify ro tr pf G H Q (2 ^ d) Cw t in
  NoDup vals -> length G = 2 ^ d -> length H = 2 ^ d ->
  asks T p -> (forall ro, length (R_vec (az_NoZK (run ro p))) = length (L_vec (az_NoZK (run ro p)))) ->
  asks_challenges V tr p vals D ->
  3 * T * length vals ^ (length D - 1) < successes V p vals D ->
  exists B, good_beta B /\
    beta_paths B (fun cr be al path => exists xs, own_run V tr p vals D (be :: al :: xs)
                    (fun pf => C_r pf = cr /\ path = proof_path (az_NoZK pf) xs)) /\
    match beta_extract t B with
    | Wit a b c => length a = 2 ^ d /\ length b = 2 ^ d /\ c = t /\ Cw = (comb a G + comb b H)%P /\ dotp a b = t
    | Rel g h q => nontrivial_relation (2 ^ d) G H Q g h q
    end.
Proof.
  intros V HN HG HH HT HR HA HC.
  destruct (fs_fork_coins V tr p vals D ([3; 3] ++ repeat 4 d) 3 T) as (node & leaf & HTr & HL); auto.
  - apply ks4; auto.
  - intros ro pf tr' E. apply C50_almzk_layout in E as (P & -> & HF). eauto.
  - intros w tr' e E ->. assert (E0 := E). unfold V in E. apply C50_almzk_layout in E as (P & Ee & _). apply app_inv_head in Ee. subst e.
    assert (HV : verdict (alm_zk_verify (table D w) tr (run (table D w) p) G H Q (2 ^ d) Cw t)) by (eexists; eauto).
    apply C58_almzk_verdict_sized in HV as (_ & _ & _ & En); auto.
    unfold lay_alm. cbn [app drawn length]. rewrite drawn_lay_ipa by auto. cbn [app length]. rewrite repeat_length.
    do 2 f_equal. symmetry. eapply Nat.pow_inj_r; [|exact En]; lia.
  - now apply (almzk_of_tree vals tr G H Q Cw t d p D node leaf).
Qed.

(** ** QESA *)
Lemma has_tree_leaf (vals : word) ks : forall ok : word -> bool, has_tree vals ks ok -> Forall (fun k => 1 <= k) ks ->
  exists u, length u = length ks /\ ok u = true.
Proof.
  induction ks as [|k ks IH]; intros ok HT HF; [exists []; auto|].
  inversion HF as [|? ? F1 F2]; subst. destruct HT as (vs & _ & VL & _ & HV).
  destruct vs as [|v vs]; [cbn in VL; lia|].
  destruct (IH _ (HV v (or_introl eq_refl)) F2) as (u & Lu & Ou). exists (v :: u). split; [cbn; auto|auto].
Qed.

Definition qesa_own {X} (pr : X -> Inner) (V : oracle -> X -> res (bool * transcript)) tr (p : prover X) vals D
    (x : Scalar) (c1 c2 : Compressed) (T : sb_trees) : Prop :=
  sb_paths T (fun s b cr be al path => exists xs, own_run V tr p vals D (x :: s :: b :: be :: al :: xs)
     (fun o => c_prime_w (pr o) = c1 /\ c_prime_prime_w (pr o) = c2 /\ C_r (alm_zk (pr o)) = cr /\
               path = proof_path (az_NoZK (alm_zk (pr o))) xs)).

Section Qesa.
Context {X : Type} (pr : X -> Inner).
Lemma qesa_key vals tr (G H : list Point) (Q : Point) (n d : nat) Ms (p : prover X) D node leaf :
  let V := fun ro o => inner_verify ro tr (pr o) G H Q (mkBlockMatrix Ms) in
  (forall ro, length (R_vec (az_NoZK (alm_zk (pr (run ro p))))) = length (L_vec (az_NoZK (alm_zk (pr (run ro p)))))) ->
  tree_runs V tr p vals D node leaf ->
  let msg := fun u => lastLR (node u) in let fin := leaf_fin (fun o => az_NoZK (alm_zk (pr o))) p D leaf in
  let c1 := lastmsg (node []) in let c2 := fun x => lastmsg (node [x]) in let cr := fun u => lastmsg (node u) in
  forall x s b be al xs, is_some (leaf (x :: s :: b :: be :: al :: xs)) = true ->
    qesa_yes tr G H Q Ms c1 c2 cr msg fin (x :: s :: b :: be :: al :: xs) = true /\
    own_run V tr p vals D (x :: s :: b :: be :: al :: xs)
      (fun o => c_prime_w (pr o) = c1 /\ c_prime_prime_w (pr o) = c2 x /\ C_r (alm_zk (pr o)) = cr [x; s; b] /\
                st_path msg fin [x; s; b; be; al] xs = proof_path (az_NoZK (alm_zk (pr o))) xs).
Proof.
  intros V HR HL msg fin c1 c2 cr x s b be al xs Hu. unfold c1, c2, cr.
  destruct (leaf (x :: s :: b :: be :: al :: xs)) as [w|] eqn:El; [|discriminate].
  destruct (HL _ _ El) as (Iw & e & E1 & E2 & E3 & E4).
  assert (E0 := E1). unfold V in E1. apply C50_qesa_layout in E1 as (Cw & P & Ee & _).
  apply app_inv_head in Ee. subst e. set (o := run (table D w) p) in *. set (pf := pr o) in *.
  assert (HFi : fin ([x; s; b; be; al] ++ xs) = (nz_a (az_NoZK (alm_zk pf)), nz_b (az_NoZK (alm_zk pf)))).
  { unfold fin, leaf_fin. cbn [app]. now rewrite El. }
  assert (E5 := E3). unfold lay_inner, lay_alm, lay_ipa in E3. cbn [app drawn st_msgs map fst] in E3.
  injection E3 as Ex Es _ Ebe _ E3.
  assert (H1 : c_prime_w pf = lastmsg (node [])) by (rewrite <- Ex; symmetry; apply lastmsg_app).
  assert (H2 : c_prime_prime_w pf = lastmsg (node [x])) by (rewrite <- Es; symmetry; apply lastmsg_app).
  assert (H3 : C_r (alm_zk pf) = lastmsg (node [x; s; b])) by (rewrite <- Ebe; symmetry; apply lastmsg_app).
  destruct (tail_path node fin _ [x; s; b; be; al] xs (az_NoZK (alm_zk pf)) (eq_sym (HR _)) HFi E3) as [X1 X2].
  split.
  + unfold qesa_yes, msg. rewrite X1, <- H1, <- H2, <- H3.
    replace (mkInner (mkAlmZK (C_r (alm_zk pf)) (az_NoZK (alm_zk pf))) (c_prime_w pf) (c_prime_prime_w pf)) with pf
      by (now destruct pf as [[? ?] ? ?]). unfold V in E2. fold pf in E2. now rewrite E2.
  + exists w, (lay_inner (length H) pf Cw P). exact (conj Iw (conj E0 (conj E4 (conj H1 (conj H2 (conj H3 X2)))))).
Qed.
Lemma qesa_fs_tree vals tr (G H : list Point) (Q : Point) n d Ms (p : prover X) T D k0 K :
  let V := fun ro o => inner_verify ro tr (pr o) G H Q (mkBlockMatrix Ms) in
  NoDup vals -> n = 2 ^ d -> 3 <= n -> length G = n -> length H = n -> 1 <= length Ms -> Forall (rect (n - 2) (n - 2)) Ms ->
  asks T p -> (forall ro, length (R_vec (az_NoZK (alm_zk (pr (run ro p))))) = length (L_vec (az_NoZK (alm_zk (pr (run ro p)))))) ->
  asks_challenges V tr p vals D -> 3 <= K -> n - 2 <= K -> k0 <= S K ->
  K * T * length vals ^ (length D - 1) < successes V p vals D ->
  exists c1 c2 cr msg fin ok, has_tree vals ([k0; n - 1; 3; 3; 3] ++ repeat 4 d) ok /\
    forall x s b be al xs, ok (x :: s :: b :: be :: al :: xs) = true ->
      qesa_yes tr G H Q Ms c1 c2 cr msg fin (x :: s :: b :: be :: al :: xs) = true /\
      own_run V tr p vals D (x :: s :: b :: be :: al :: xs)
        (fun o => c_prime_w (pr o) = c1 /\ c_prime_prime_w (pr o) = c2 x /\ C_r (alm_zk (pr o)) = cr [x; s; b] /\
                  st_path msg fin [x; s; b; be; al] xs = proof_path (az_NoZK (alm_zk (pr o))) xs).
Proof.
  intros V HN Hd Hn HG HH HM HF HT HR HA HK3 HKn HK0 HC.
  destruct (fs_fork_coins V tr p vals D ([k0; n - 1; 3; 3; 3] ++ repeat 4 d) K T) as (node & leaf & HTr & HL); auto.
  - apply ks4; auto. repeat (apply Forall_cons; [lia|]). apply Forall_nil.
  - intros ro o tr' E. apply C50_qesa_layout in E as (Cw & P & -> & HF'). eauto.
  - intros w tr' e E ->. assert (E0 := E). unfold V in E. apply C50_qesa_layout in E as (Cw & P & Ee & _). apply app_inv_head in Ee. subst e.
    assert (HV : verdict (inner_verify (table D w) tr (pr (run (table D w) p)) G H Q (mkBlockMatrix Ms))) by (eexists; eauto).
    apply (C58_qesa_verdict _ _ _ _ _ _ _ n) in HV as (_ & _ & (_ & _ & _ & En)); auto.
    unfold lay_inner, lay_alm. cbn [app drawn length]. rewrite drawn_lay_ipa by auto. cbn [app length]. rewrite repeat_length.
    do 5 f_equal. symmetry. rewrite Hd in En. eapply Nat.pow_inj_r; [|exact En]; lia.
  - set (msg := fun u => lastLR (node u)). set (fin := leaf_fin (fun o => az_NoZK (alm_zk (pr o))) p D leaf).
    exists (lastmsg (node [])), (fun x => lastmsg (node [x])), (fun u => lastmsg (node u)), msg, fin,
      (fun u => is_some (leaf u)).
    split; [exact HTr|]. intros x s b be al xs Hu. now apply (qesa_key vals tr G H Q n d Ms p D node leaf HR HL).
Qed.
Lemma qesa_fs_sub vals tr (G H : list Point) (Q : Point) n d Ms (p : prover X) D c1 c2 cr msg fin ok x :
  let V := fun ro o => inner_verify ro tr (pr o) G H Q (mkBlockMatrix Ms) in
  3 <= n -> length G = n -> length H = n -> 1 <= length Ms -> Forall (rect (n - 2) (n - 2)) Ms ->
  (forall x s b be al xs, ok (x :: s :: b :: be :: al :: xs) = true ->
      qesa_yes tr G H Q Ms c1 c2 cr msg fin (x :: s :: b :: be :: al :: xs) = true /\
      own_run V tr p vals D (x :: s :: b :: be :: al :: xs)
        (fun o => c_prime_w (pr o) = c1 /\ c_prime_prime_w (pr o) = c2 x /\ C_r (alm_zk (pr o)) = cr [x; s; b] /\
                  st_path msg fin [x; s; b; be; al] xs = proof_path (az_NoZK (alm_zk (pr o))) xs)) ->
  has_tree vals ([n - 1; 3; 3; 3] ++ repeat 4 d) (fun u => ok (x :: u)) ->
  exists T, good_sb n T /\ qesa_own pr V tr p vals D x c1 (c2 x) T /\ sb_paths T (q_accepts_along tr G H Q n Ms c1 (c2 x) x).
Proof.
  intros V Hn HG HH HM HF KEY HT.
  destruct (build_sb msg fin vals d n [x] _ cr HT) as (T & GT & PT). exists T. split; [exact GT|]. split.
  - intros s b B HI. apply PT in HI. revert HI. apply beta_paths_impl.
    intros cr' be al q (-> & xs & _ & Hu & ->). exists xs. apply KEY in Hu as [_ (w & e & Iw & R1 & R2 & R3 & R4 & R5 & R6)].
    exists w, e. cbv zeta. parts.
  - intros s b B HI. apply PT in HI. revert HI. apply beta_paths_impl.
    intros cr' be al q (-> & xs & _ & Hu & ->). apply KEY in Hu as [Y _]. now apply qesa_yes_along.
Qed.
End Qesa.

Lemma qesa_batched_of_tree vals tr (G H : list Point) (Q : Point) n d Ms (p : prover Inner) D c1 c2 cr msg fin ok :
  let V := fun ro pf => inner_verify ro tr pf G H Q (mkBlockMatrix Ms) in
  3 <= n -> length G = n -> length H = n -> 1 <= length Ms -> Forall (rect (n - 2) (n - 2)) Ms ->
  has_tree vals ([2; n - 1; 3; 3; 3] ++ repeat 4 d) ok ->
  (forall x s b be al xs, ok (x :: s :: b :: be :: al :: xs) = true ->
      qesa_yes tr G H Q Ms c1 c2 cr msg fin (x :: s :: b :: be :: al :: xs) = true /\
      own_run V tr p vals D (x :: s :: b :: be :: al :: xs)
        (fun o => c_prime_w ((fun pf => pf) o) = c1 /\ c_prime_prime_w ((fun pf => pf) o) = c2 x /\ C_r (alm_zk ((fun pf => pf) o)) = cr [x; s; b] /\
                  st_path msg fin [x; s; b; be; al] xs = proof_path (az_NoZK (alm_zk ((fun pf => pf) o))) xs)) ->
  exists x c2 T, x <> s0 /\ good_sb n T /\ qesa_own (fun pf => pf) V tr p vals D x c1 c2 T /\
  match q_extract n Ms x T with
  | Wit v u _ =>
    length v = n /\ length u = n /\ (dec c1 + dec c2)%P = (comb v G + comb u H)%P /\
    let w := set_first (s1 + x * x * (sc v 0 - s1))%S v in
    u = mv n (q_gamma' n (q_gamma n Ms x)) w /\
    sum_S (min (length Ms) n) (fun t => spow x (S t) * quad (nth t Ms []) (firstn (n - 2) w))%S = s0
  | Rel g h q => nontrivial_relation n G H Q g h q
  end.
Proof.
  intros V Hn HG HH HM HF HTr KEY.
  destruct HTr as (vs & VN & VL & _ & HV). destruct (nonzero_letters vs 1 VN VL) as (us & UN & UL & HU).
  destruct us as [|x us]; [cbn in UL; lia|]. destruct (HU x (or_introl eq_refl)) as [Ix Nx].
  destruct (qesa_fs_sub (fun pf => pf) vals tr G H Q n d Ms p D c1 c2 cr msg fin ok x Hn HG HH HM HF KEY (HV x Ix)) as (S & GT & OT & AT).
  exists x, (c2 x), S. split; [auto|]. split; [auto|]. split; [exact OT|].
  apply (C24_qesa_batched_soundness tr); auto.
Qed.
(** for one x: the extracted opening of c'_w + c''_w satisfies the batched equation *)
Theorem C79_qesa_batched_fiat_shamir vals tr (G H : list Point) (Q : Point) n d Ms (p : prover Inner) T D :
  let V := fun ro pf => inner_verify ro tr pf G H Q (mkBlockMatrix Ms) in
  NoDup vals -> n = 2 ^ d -> 3 <= n -> length G = n -> length H = n -> 1 <= length Ms -> Forall (rect (n - 2) (n - 2)) Ms ->
  asks T p -> (forall ro, length (R_vec (az_NoZK (alm_zk (run ro p)))) = length (L_vec (az_NoZK (alm_zk (run ro p))))) ->
  asks_challenges V tr p vals D ->
  max 3 (n - 2) * T * length vals ^ (length D - 1) < successes V p vals D ->
  exists x c1 c2 T, x <> s0 /\ good_sb n T /\ qesa_own (fun pf => pf) V tr p vals D x c1 c2 T /\
  match q_extract n Ms x T with
  | Wit v u _ =>
    length v = n /\ length u = n /\ (dec c1 + dec c2)%P = (comb v G + comb u H)%P /\
    let w := set_first (s1 + x * x * (sc v 0 - s1))%S v in
    u = mv n (q_gamma' n (q_gamma n Ms x)) w /\
    sum_S (min (length Ms) n) (fun t => spow x (S t) * quad (nth t Ms []) (firstn (n - 2) w))%S = s0
  | Rel g h q => nontrivial_relation n G H Q g h q
  end.
Proof.
  intros V HN Hd Hn HG HH HM HF HT HR HA HC.
  destruct (qesa_fs_tree (fun pf => pf) vals tr G H Q n d Ms p T D 2 (max 3 (n - 2))) as (c1 & c2 & cr & msg & fin & ok & HTr & KEY); auto; try lia.
  destruct (qesa_batched_of_tree vals tr G H Q n d Ms p D c1 c2 cr msg fin ok Hn HG HH HM HF HTr KEY) as (x & c & S & Z). now exists x, c1, c, S.
Qed.

Lemma qesa_of_tree vals tr (G H : list Point) (Q : Point) n d Ms
    (p : prover (Inner * (list Scalar * list Scalar))) D c1 c2 cr msg fin ok :
  let V := fun ro (o : Inner * (list Scalar * list Scalar)) => inner_verify ro tr (fst o) G H Q (mkBlockMatrix Ms) in
  let m := min (length Ms) n in
  3 <= n -> length G = n -> length H = n -> 1 <= length Ms -> Forall (rect (n - 2) (n - 2)) Ms ->
  (forall ro, let '(pf, (w', u)) := run ro p in
     length (R_vec (az_NoZK (alm_zk pf))) = length (L_vec (az_NoZK (alm_zk pf))) /\
     length w' = n /\ sc w' 0 = s1 /\ decompress (c_prime_w pf) = Some (comb w' G) /\
     length u = n /\ decompress (c_prime_prime_w pf) = Some (comb u H)) ->
  has_tree vals ([S m; n - 1; 3; 3; 3] ++ repeat 4 d) ok ->
  (forall x s b be al xs, ok (x :: s :: b :: be :: al :: xs) = true ->
      qesa_yes tr G H Q Ms c1 c2 cr msg fin (x :: s :: b :: be :: al :: xs) = true /\
      own_run V tr p vals D (x :: s :: b :: be :: al :: xs)
        (fun o => c_prime_w (fst o) = c1 /\ c_prime_prime_w (fst o) = c2 x /\ C_r (alm_zk (fst o)) = cr [x; s; b] /\
                  st_path msg fin [x; s; b; be; al] xs = proof_path (az_NoZK (alm_zk (fst o))) xs)) ->
  (exists x c1 c2 T w' u g h q, x <> s0 /\ good_sb n T /\ qesa_own fst V tr p vals D x c1 c2 T /\
     (exists cs, own_run V tr p vals D cs (fun o => c_prime_w (fst o) = c1 /\ fst (snd o) = w')) /\
     (exists cs, own_run V tr p vals D cs (fun o => c_prime_prime_w (fst o) = c2 /\ snd (snd o) = u)) /\
     q_compare n Ms x T w' u = Some (g, h, q) /\ nontrivial_relation n G H Q g h q) \/
  (exists cs, own_run V tr p vals D cs (fun o => forall t, t < m -> quad (nth t Ms []) (firstn (n - 2) (fst (snd o))) = s0)).
Proof.
  intros V m Hn HG HH HM HF HO HTr KEY.
  assert (HO' : forall ro, length (fst (snd (run ro p))) = n /\ sc (fst (snd (run ro p))) 0 = s1 /\
     decompress (c_prime_w (fst (run ro p))) = Some (comb (fst (snd (run ro p))) G) /\
     length (snd (snd (run ro p))) = n /\ decompress (c_prime_prime_w (fst (run ro p))) = Some (comb (snd (snd (run ro p))) H)).
  { intros ro. generalize (HO ro). destruct (run ro p) as [pf [w' u]]. intros Z. apply Z. }
  destruct HTr as (vs & VN & VL & _ & HV). destruct (nonzero_letters vs m VN VL) as (us & UN & UL & HU).
  assert (F5 : Forall (fun k => 1 <= k) ([n - 1; 3; 3; 3] ++ repeat 4 d)).
  { apply Forall_app. split; [repeat (apply Forall_cons; [lia|]); apply Forall_nil|]. apply Forall_forall. intros k Hk. apply repeat_spec in Hk. lia. }
  assert (LEAF : forall x, In x vs -> exists w e, In w (words vals (length D)) /\ V (table D w) (run (table D w) p) = Ok (true, tr ++ e) /\
     c_prime_w (fst (run (table D w) p)) = c1 /\ c_prime_prime_w (fst (run (table D w) p)) = c2 x).
  { intros x Hx. destruct (has_tree_leaf vals ([n - 1; 3; 3; 3] ++ repeat 4 d) _ (HV x Hx) F5) as (u & Lu & Ou).
    destruct u as [|s [|b [|be [|al xs]]]]; try discriminate.
    apply KEY in Ou as [_ (w & e & Iw & R1 & _ & R2 & R3 & _)]. exists w, e. auto. }
  set (R := fun x (Tw : sb_trees * list Scalar) => good_sb n (fst Tw) /\ qesa_own fst V tr p vals D x c1 (c2 x) (fst Tw) /\
     sb_paths (fst Tw) (q_accepts_along tr G H Q n Ms c1 (c2 x) x) /\ length (snd Tw) = n /\ decompress (c2 x) = Some (comb (snd Tw) H) /\
     exists cs, own_run V tr p vals D cs (fun o => c_prime_prime_w (fst o) = c2 x /\ snd (snd o) = snd Tw)).
  destruct (list_choice R us) as (xT & E & HxT).
  { intros x Hx. destruct (HU x Hx) as [Ix Nx].
    destruct (qesa_fs_sub fst vals tr G H Q n d Ms p D c1 c2 cr msg fin ok x Hn HG HH HM HF KEY (HV x Ix)) as (S & GT & OT & AT).
    destruct (LEAF x Ix) as (w & e & Iw & R1 & R2 & R3).
    exists (S, snd (snd (run (table D w) p))). unfold R. cbn [fst snd]. destruct (HO' (table D w)) as (_ & _ & _ & Z4 & Z5). rewrite R3 in Z5.
    do 3 (split; [assumption|]). split; [exact Z4|]. split; [exact Z5|]. exists (map (table D w) (drawn tr e)), w, e. cbv zeta. parts. }
  assert (M1 : 1 <= m) by (unfold m; lia).
  destruct us as [|x0 us0] eqn:Eus; [cbn in UL; lia|]. rewrite <- Eus in *.
  destruct (HU x0) as [Ix0 _]; [rewrite Eus; now left|].
  destruct (LEAF x0 Ix0) as (w0 & e0 & Iw0 & W1 & W2 & _). destruct (HO' (table D w0)) as (Lw & H0 & D1 & _ & _). rewrite W2 in D1.
  set (w' := fst (snd (run (table D w0) p))) in *.
  destruct (C24_qesa_soundness tr G H Q n Ms c1 w' (map (fun '(x, Tw) => (x, c2 x, snd Tw, fst Tw)) xT))
    as [(x & c & v & S & g & h & q & HI & HQ & HRl)|HS]; auto.
  - rewrite map_length, <- (map_length fst), E. exact UL.
  - rewrite map_map. rewrite <- E in UN. erewrite map_ext; [exact UN|]. now intros [x Tw].
  - intros x c v S HI. apply in_map_iff in HI as ([x' Tw] & EQ & HI). injection EQ as -> <- <- <-.
    destruct (HxT x Tw HI) as (GT & OT & AT & Lu & Du & _).
    assert (Hx : In x us) by (rewrite <- E; now apply (in_map fst) in HI).
    split; [now apply HU|]. auto.
  - left. apply in_map_iff in HI as ([x' Tw] & EQ & HI). injection EQ as -> <- <- <-.
    destruct (HxT x Tw HI) as (GT & OT & AT & Lu & Du & OC). assert (Hx : In x us) by (rewrite <- E; now apply (in_map fst) in HI).
    exists x, c1, (c2 x), (fst Tw), w', (snd Tw), g, h, q. split; [now apply HU|]. split; [auto|]. split; [auto|]. split; [|auto].
    exists (map (table D w0) (drawn tr e0)), w0, e0. cbv zeta. parts.
  - right. exists (map (table D w0) (drawn tr e0)), w0, e0. cbv zeta. parts.
Qed.
(** the whole argument, against provers that also output an opening w' of c'_w over G and an
    opening u of c''_w over H *)
Theorem C79_qesa_fiat_shamir vals tr (G H : list Point) (Q : Point) n d Ms
    (p : prover (Inner * (list Scalar * list Scalar))) T D :
  let V := fun ro (o : Inner * (list Scalar * list Scalar)) => inner_verify ro tr (fst o) G H Q (mkBlockMatrix Ms) in
  let m := min (length Ms) n in
  NoDup vals -> n = 2 ^ d -> 3 <= n -> length G = n -> length H = n -> 1 <= length Ms -> Forall (rect (n - 2) (n - 2)) Ms ->
  asks T p ->
  (forall ro, let '(pf, (w', u)) := run ro p in
     length (R_vec (az_NoZK (alm_zk pf))) = length (L_vec (az_NoZK (alm_zk pf))) /\
     length w' = n /\ sc w' 0 = s1 /\ decompress (c_prime_w pf) = Some (comb w' G) /\
     length u = n /\ decompress (c_prime_prime_w pf) = Some (comb u H)) ->
  asks_challenges V tr p vals D ->
  max (max 3 (n - 2)) m * T * length vals ^ (length D - 1) < successes V p vals D ->
  (exists x c1 c2 T w' u g h q, x <> s0 /\ good_sb n T /\ qesa_own fst V tr p vals D x c1 c2 T /\
     (exists cs, own_run V tr p vals D cs (fun o => c_prime_w (fst o) = c1 /\ fst (snd o) = w')) /\
     (exists cs, own_run V tr p vals D cs (fun o => c_prime_prime_w (fst o) = c2 /\ snd (snd o) = u)) /\
     q_compare n Ms x T w' u = Some (g, h, q) /\ nontrivial_relation n G H Q g h q) \/
  (exists cs, own_run V tr p vals D cs (fun o => forall t, t < m -> quad (nth t Ms []) (firstn (n - 2) (fst (snd o))) = s0)).
Proof.
  intros V m HN Hd Hn HG HH HM HF HT HO HA HC.
  assert (HR : forall ro, length (R_vec (az_NoZK (alm_zk (fst (run ro p))))) = length (L_vec (az_NoZK (alm_zk (fst (run ro p)))))).
  { intros ro. generalize (HO ro). destruct (run ro p) as [pf [w' u]]. intros Z. apply Z. }
  destruct (qesa_fs_tree fst vals tr G H Q n d Ms p T D (S m) (max (max 3 (n - 2)) m)) as (c1 & c2 & cr & msg & fin & ok & HTr & KEY); auto; try lia.
  now apply (qesa_of_tree vals tr G H Q n d Ms p D c1 c2 cr msg fin ok).
Qed.

(** ** copy argument *)
Definition copy_own (V : oracle -> Copy * (list Scalar * list Scalar) -> res (bool * transcript)) tr
    (p : prover (Copy * (list Scalar * list Scalar))) vals D (a0 x : Scalar) (cw c2 : Compressed) (T : sb_trees) : Prop :=
  sb_paths T (fun s b cr be al path => exists xs, own_run V tr p vals D (a0 :: x :: s :: b :: be :: al :: xs)
     (fun o => let pf := fst o in cp_C_w pf = cw /\ c_prime_prime_w (cp_inner pf) = c2 /\ C_r (alm_zk (cp_inner pf)) = cr /\
               path = proof_path (az_NoZK (alm_zk (cp_inner pf))) xs)).

Lemma copy_key vals tr (G H : list Point) (Q : Point) Ms mp Cs (p : prover (Copy * (list Scalar * list Scalar))) D node leaf :
  let V := fun ro (o : Copy * (list Scalar * list Scalar)) => copy_verify ro tr (fst o) G H Q (mkBlockMatrix Ms) mp Cs in
  (forall ro, length (R_vec (az_NoZK (alm_zk (cp_inner (fst (run ro p)))))) = length (L_vec (az_NoZK (alm_zk (cp_inner (fst (run ro p))))))) ->
  tree_runs V tr p vals D node leaf ->
  let msg := fun u => lastLR (node u) in let fin := leaf_fin (fun o => az_NoZK (alm_zk (cp_inner (fst o)))) p D leaf in
  let cw := lastmsg (node []) in let c2 := fun a0 x => lastmsg (node [a0; x]) in let cr := fun u => lastmsg (node u) in
  forall a0 x s b be al xs, is_some (leaf (a0 :: x :: s :: b :: be :: al :: xs)) = true ->
    copy_yes tr G H Q Ms mp Cs cw (compress p0) c2 cr msg fin (a0 :: x :: s :: b :: be :: al :: xs) = true /\
    own_run V tr p vals D (a0 :: x :: s :: b :: be :: al :: xs)
      (fun o => cp_C_w (fst o) = cw /\ c_prime_prime_w (cp_inner (fst o)) = c2 a0 x /\
                C_r (alm_zk (cp_inner (fst o))) = cr [a0; x; s; b] /\
                st_path msg fin [a0; x; s; b; be; al] xs = proof_path (az_NoZK (alm_zk (cp_inner (fst o)))) xs).
Proof.
  intros V HR HL msg fin cw c2 cr a0 x s b be al xs Hu.
  destruct (leaf (a0 :: x :: s :: b :: be :: al :: xs)) as [w|] eqn:El; [|discriminate].
  destruct (HL _ _ El) as (Iw & e & E1 & E2 & E3 & E4).
  assert (E0 := E1). unfold V in E1. apply C50_copy_layout in E1 as (Ca & Cw & P & Ee & _).
  apply app_inv_head in Ee. subst e. set (o := run (table D w) p) in *. set (pf := fst o) in *.
  assert (HFi : fin ([a0; x; s; b; be; al] ++ xs) = (nz_a (az_NoZK (alm_zk (cp_inner pf))), nz_b (az_NoZK (alm_zk (cp_inner pf))))).
  { unfold fin, leaf_fin. cbn [app]. now rewrite El. }
  assert (E5 := E3). unfold lay_copy, lay_inner, lay_alm, lay_ipa in E3. cbn [app drawn st_msgs map fst alm_zk c_prime_w c_prime_prime_w] in E3.
  injection E3 as Ea Ex Es _ Ebe _ E3.
  assert (H1 : cp_C_w pf = cw) by (unfold cw; rewrite <- Ea; symmetry; apply lastmsg_app).
  assert (H2 : c_prime_prime_w (cp_inner pf) = c2 a0 x) by (unfold c2; rewrite <- Es; symmetry; apply lastmsg_app).
  assert (H3 : C_r (alm_zk (cp_inner pf)) = cr [a0; x; s; b]) by (unfold cr; rewrite <- Ebe; symmetry; apply lastmsg_app).
  destruct (tail_path node fin _ [a0; x; s; b; be; al] xs (az_NoZK (alm_zk (cp_inner pf))) (eq_sym (HR _)) HFi E3) as [X1 X2].
  split.
  - unfold copy_yes, msg. rewrite X1, <- H1, <- H2, <- H3.
    rewrite (C61_copy_inner_commitment_ignored _ _ _ _ (c_prime_w (cp_inner pf))).
    replace (mkCopy (cp_C_w pf) (mkInner (mkAlmZK (C_r (alm_zk (cp_inner pf))) (az_NoZK (alm_zk (cp_inner pf))))
               (c_prime_w (cp_inner pf)) (c_prime_prime_w (cp_inner pf)))) with pf
      by (now destruct pf as [? [[? ?] ? ?]]). unfold V in E2. fold pf in E2. now rewrite E2.
  - exists w, (lay_copy (length H) pf Ca Cw P). exact (conj Iw (conj E0 (conj E4 (conj H1 (conj H2 (conj H3 X2)))))).
Qed.

Lemma copy_of_tree vals tr (G H : list Point) (Q : Point) n d Ms (ws : N) (sets : list (list N)) mp
    (msgs : list (list Scalar)) (rs : list Scalar) (Cs : list Point) (p : prover (Copy * (list Scalar * list Scalar))) D node leaf :
  let V := fun ro (o : Copy * (list Scalar * list Scalar)) => copy_verify ro tr (fst o) G H Q (mkBlockMatrix Ms) mp Cs in
  let m := length Ms + length (unique_commitment_indices mp) in
  3 <= n -> (N.of_nat n < 65536)%N -> (ws < 65536)%N -> (N.of_nat (length sets) <= 65536)%N ->
  length G = n -> length H = n -> Forall (rect (n - 2) (n - 2)) Ms ->
  (forall s i, In s sets -> In i s -> 1 <= N.to_nat i < n - 2) -> Forall (@NoDup N) sets ->
  compute_mapping (N.of_nat n) ws sets = Ok mp -> m <= n ->
  length Cs = length sets ->
  (forall k, k < length sets -> commit G (nth k sets []) (nth k msgs []) (sc rs k) = Ok (pt Cs k)) ->
  (forall ro, let '(pf, (w', u)) := run ro p in
     length (R_vec (az_NoZK (alm_zk (cp_inner pf)))) = length (L_vec (az_NoZK (alm_zk (cp_inner pf)))) /\
     length w' = n /\ sc w' 0 = s1 /\ decompress (cp_C_w pf) = Some (comb w' G) /\
     length u = n /\ decompress (c_prime_prime_w (cp_inner pf)) = Some (comb u H)) ->
  has_tree vals ([S (2 * length sets); S m; n - 1; 3; 3; 3] ++ repeat 4 d) (fun u => is_some (leaf u)) -> tree_runs V tr p vals D node leaf ->
  (exists a0 x cw c2 T w' u g h q, x <> s0 /\ good_sb n T /\ copy_own V tr p vals D a0 x cw c2 T /\
     (exists cs, own_run V tr p vals D cs (fun o => cp_C_w (fst o) = cw /\ fst (snd o) = w')) /\
     (exists cs, own_run V tr p vals D cs (fun o => c_prime_prime_w (cp_inner (fst o)) = c2 /\ snd (snd o) = u)) /\
     q_compare n (cp_system n mp a0 Ms) x T (cp_full n sets msgs rs w' a0) u = Some (g, h, q) /\
     nontrivial_relation n G H Q g h q) \/
  (exists cs, own_run V tr p vals D cs (fun o => let w' := fst (snd o) in
     (forall M, In M Ms -> quad M (firstn (n - 2) w') = s0) /\
     (forall k j, k < length sets -> j < length (nth k sets []) ->
        exists mm, nth_error (msgs_map mp) (cm_offset sets k + j) = Some mm /\
          sc (nth k msgs []) j = sc w' (mpos mm)) /\
     (forall s i, In s sets -> In i s -> sc w' (N.to_nat i) = s0))).
Proof.
  intros V m Hn Hn16 Hws HSz HG HH HF Hidx HND Emp Hm LC HCm HO HTr HL.
  assert (HR : forall ro, length (R_vec (az_NoZK (alm_zk (cp_inner (fst (run ro p)))))) = length (L_vec (az_NoZK (alm_zk (cp_inner (fst (run ro p))))))).
  { intros ro. generalize (HO ro). destruct (run ro p) as [pf [w' u]]. intros Z. apply Z. }
  assert (HO' : forall ro, length (fst (snd (run ro p))) = n /\ sc (fst (snd (run ro p))) 0 = s1 /\
     decompress (cp_C_w (fst (run ro p))) = Some (comb (fst (snd (run ro p))) G) /\
     length (snd (snd (run ro p))) = n /\
     decompress (c_prime_prime_w (cp_inner (fst (run ro p)))) = Some (comb (snd (snd (run ro p))) H)).
  { intros ro. generalize (HO ro). destruct (run ro p) as [pf [w' u]]. intros Z. apply Z. }
  destruct (compute_mapping_good n ws sets mp Hn16 Hws Emp HSz) as (HMap & _ & _).
  { intros s i Hs Hi. apply (Hidx s i Hs Hi). }
  assert (HT1 : 1 <= cm_total sets) by (apply compute_mapping_inv in Emp as (_ & HT' & _); exact HT').
  assert (HS1 : 1 <= length sets) by (destruct sets; [cbn in HT1; lia|cbn; lia]).
  assert (Hmsgs : length (msgs_map mp) = cm_total sets).
  { destruct (C29_metadata _ _ sets _ ltac:(lia) Emp) as (_ & Z & _). exact Z. }
  set (msg := fun u => lastLR (node u)). set (fin := leaf_fin (fun o => az_NoZK (alm_zk (cp_inner (fst o)))) p D leaf).
  set (cw := lastmsg (node [])). set (c2 := fun a0 x => lastmsg (node [a0; x])). set (cr := fun u => lastmsg (node u)).
  set (c1' := compress p0).
  assert (KEY := copy_key vals tr G H Q Ms mp Cs p D node leaf HR HL). cbv zeta in KEY.
  change (leaf_fin (fun o => az_NoZK (alm_zk (cp_inner (fst o)))) p D leaf) with fin in KEY.
  change (fun u => lastLR (node u)) with msg in KEY. change (fun a0 x => lastmsg (node [a0; x])) with c2 in KEY.
  change (fun u => lastmsg (node u)) with cr in KEY. change (lastmsg (node [])) with cw in KEY. change (compress p0) with c1' in KEY.
  clearbody msg fin cw c2 cr c1'. set (ok := fun u => is_some (leaf u)) in *.
  assert (F5 : Forall (fun k => 1 <= k) ([n - 1; 3; 3; 3] ++ repeat 4 d)).
  { apply Forall_app. split; [repeat (apply Forall_cons; [lia|]); apply Forall_nil|]. apply Forall_forall. intros k Hk. apply repeat_spec in Hk. lia. }
  destruct HTr as (vs & VN & VL & _ & HV).
  set (okT := fun a0 x (Tw : sb_trees * list Scalar) => x <> s0 /\ good_sb n (fst Tw) /\ copy_own V tr p vals D a0 x cw (c2 a0 x) (fst Tw) /\
     sb_paths (fst Tw) (cp_accepts_along tr G H Q n Ms mp Cs cw a0 (c2 a0 x) x) /\
     length (snd Tw) = n /\ decompress (c2 a0 x) = Some (comb (snd Tw) H) /\
     (exists cs, own_run V tr p vals D cs (fun o => c_prime_prime_w (cp_inner (fst o)) = c2 a0 x /\ snd (snd o) = snd Tw)) /\
     exists w e, In w (words vals (length D)) /\ V (table D w) (run (table D w) p) = Ok (true, tr ++ e) /\ cp_C_w (fst (run (table D w) p)) = cw).
  assert (M1 : 1 <= m \/ m = 0) by lia.
  destruct (list_choice (fun a0 (xT : list (Scalar * (sb_trees * list Scalar))) => m <= length xT /\ NoDup (map fst xT) /\
      forall x Tw, In (x, Tw) xT -> okT a0 x Tw) vs) as (axT & E & HaxT).
  { intros a0 Ha. destruct (HV a0 Ha) as (xs & XN & XL & _ & HX).
    destruct (nonzero_letters xs m XN XL) as (us & UN & UL & HU).
    destruct (list_choice (okT a0) us) as (xT & E & HxT).
    { intros x Hx. destruct (HU x Hx) as [Ix Nx].
      destruct (build_sb msg fin vals d n [a0; x] (fun w => ok (a0 :: x :: w)) cr (HX x Ix)) as (S & GT & PT).
      destruct (has_tree_leaf vals ([n - 1; 3; 3; 3] ++ repeat 4 d) (fun w => ok (a0 :: x :: w)) (HX x Ix) F5) as (u & Lu & Ou).
      destruct u as [|s [|b [|be [|al xs']]]]; try discriminate.
      apply KEY in Ou as [_ (w & e & Iw & R1 & _ & R2 & R3 & _)].
      exists (S, snd (snd (run (table D w) p))). unfold okT. cbn [fst snd]. destruct (HO' (table D w)) as (_ & _ & _ & Z4 & Z5). rewrite R3 in Z5.
      split; [auto|]. split; [auto|]. split.
      { intros s' b' B HI. apply PT in HI. revert HI. apply beta_paths_impl.
        intros cr' be' al' q (-> & ys & _ & Hu & ->). exists ys. apply KEY in Hu as [_ (w1 & e1 & Iw1 & S1 & S2 & S3 & S4 & S5 & S6)].
        exists w1, e1. cbv zeta. parts. }
      split.
      { intros s' b' B HI. apply PT in HI. revert HI. apply beta_paths_impl.
        intros cr' be' al' q (-> & ys & _ & Hu & ->). apply KEY in Hu as [Y _].
        eapply copy_yes_along; eauto; try (rewrite LC; auto). rewrite Hmsgs. lia. }
      split; [exact Z4|]. split; [exact Z5|]. split; [|exists w, e; auto].
      exists (map (table D w) (drawn tr e)), w, e. cbv zeta. parts. }
    exists xT. split; [rewrite <- (map_length fst), E; exact UL|]. split; [now rewrite E|]. exact HxT. }
  assert (LEAF : exists w e, In w (words vals (length D)) /\ V (table D w) (run (table D w) p) = Ok (true, tr ++ e) /\
            cp_C_w (fst (run (table D w) p)) = cw).
  { destruct vs as [|a0 vs]; [discriminate|].
    assert (F6 : Forall (fun k => 1 <= k) ([S m; n - 1; 3; 3; 3] ++ repeat 4 d)) by (apply Forall_cons; [lia|exact F5]).
    destruct (has_tree_leaf vals ([S m; n - 1; 3; 3; 3] ++ repeat 4 d) (fun w => ok (a0 :: w)) (HV a0 (or_introl eq_refl)) F6) as (u & Lu & Ou).
    destruct u as [|x [|s [|b [|be [|al xs']]]]]; try discriminate.
    apply KEY in Ou as [_ (w & e & Iw & R1 & _ & R2 & _)]. exists w, e. auto. }
  destruct LEAF as (w0 & e0 & Iw0 & W1 & W2). destruct (HO' (table D w0)) as (Lw & H0 & D1 & _ & _). rewrite W2 in D1.
  set (w' := fst (snd (run (table D w0) p))) in *.
  destruct (C64_copy_soundness tr G H Q n Ms ws sets mp msgs rs Cs cw w'
     (map (fun '(a0, xT) => (a0, map (fun '(x, Tw) => (x, c2 a0 x, snd Tw, fst Tw)) xT)) axT))
    as [(a0 & runs & x & c & v & S & g & h & q & HI & HJ & HQ & HRl)|HS]; auto.
  - rewrite map_map. rewrite <- E in VN. erewrite map_ext; [exact VN|]. now intros [a0 xT].
  - rewrite map_length, <- (map_length fst), E. lia.
  - intros a0 runs HI. apply in_map_iff in HI as ([a xT] & EQ & HI). injection EQ as -> <-.
    destruct (HaxT a0 xT HI) as (X1 & X2 & X3).
    split; [now rewrite map_length|]. split.
    { rewrite map_map. erewrite map_ext; [exact X2|]. now intros [x Tw]. }
    intros x c v S HJ. apply in_map_iff in HJ as ([x' Tw] & EQ & HJ). injection EQ as -> <- <- <-.
    destruct (X3 x Tw HJ) as (Nx & GT & _ & AT & Lu & Du & _). auto.
  - left. apply in_map_iff in HI as ([a xT] & EQ & HI). injection EQ as -> <-.
    apply in_map_iff in HJ as ([x' Tw] & EQ & HJ). injection EQ as -> <- <- <-.
    destruct (HaxT a0 xT HI) as (X1 & X2 & X3). destruct (X3 x Tw HJ) as (Nx & GT & OT & AT & Lu & Du & OC & _).
    exists a0, x, cw, (c2 a0 x), (fst Tw), w', (snd Tw), g, h, q. split; [auto|]. split; [auto|]. split; [auto|]. split; [|auto].
    exists (map (table D w0) (drawn tr e0)), w0, e0. cbv zeta. parts.
  - right. exists (map (table D w0) (drawn tr e0)), w0, e0. cbv zeta. split; [auto|]. split; [auto|]. split; [auto|]. exact HS.
Qed.
(** against provers that also output an opening w' of C_w over G and an opening u of c''_w over H;
    the committed messages are fixed by the statement *)
Theorem C79_copy_fiat_shamir vals tr (G H : list Point) (Q : Point) n d Ms (ws : N) (sets : list (list N)) mp
    (msgs : list (list Scalar)) (rs : list Scalar) (Cs : list Point) (p : prover (Copy * (list Scalar * list Scalar))) T D :
  let V := fun ro (o : Copy * (list Scalar * list Scalar)) => copy_verify ro tr (fst o) G H Q (mkBlockMatrix Ms) mp Cs in
  let m := length Ms + length (unique_commitment_indices mp) in
  let K := max (max 3 (n - 2)) (max m (2 * length sets)) in
  NoDup vals -> n = 2 ^ d ->
  3 <= n -> (N.of_nat n < 65536)%N -> (ws < 65536)%N -> (N.of_nat (length sets) <= 65536)%N ->
  length G = n -> length H = n -> Forall (rect (n - 2) (n - 2)) Ms ->
  (forall s i, In s sets -> In i s -> 1 <= N.to_nat i < n - 2) -> Forall (@NoDup N) sets ->
  compute_mapping (N.of_nat n) ws sets = Ok mp -> m <= n ->
  length Cs = length sets ->
  (forall k, k < length sets -> commit G (nth k sets []) (nth k msgs []) (sc rs k) = Ok (pt Cs k)) ->
  asks T p ->
  (forall ro, let '(pf, (w', u)) := run ro p in
     length (R_vec (az_NoZK (alm_zk (cp_inner pf)))) = length (L_vec (az_NoZK (alm_zk (cp_inner pf)))) /\
     length w' = n /\ sc w' 0 = s1 /\ decompress (cp_C_w pf) = Some (comb w' G) /\
     length u = n /\ decompress (c_prime_prime_w (cp_inner pf)) = Some (comb u H)) ->
  asks_challenges V tr p vals D ->
  K * T * length vals ^ (length D - 1) < successes V p vals D ->
  (exists a0 x cw c2 T w' u g h q, x <> s0 /\ good_sb n T /\ copy_own V tr p vals D a0 x cw c2 T /\
     (exists cs, own_run V tr p vals D cs (fun o => cp_C_w (fst o) = cw /\ fst (snd o) = w')) /\
     (exists cs, own_run V tr p vals D cs (fun o => c_prime_prime_w (cp_inner (fst o)) = c2 /\ snd (snd o) = u)) /\
     q_compare n (cp_system n mp a0 Ms) x T (cp_full n sets msgs rs w' a0) u = Some (g, h, q) /\
     nontrivial_relation n G H Q g h q) \/
  (exists cs, own_run V tr p vals D cs (fun o => let w' := fst (snd o) in
     (forall M, In M Ms -> quad M (firstn (n - 2) w') = s0) /\
     (forall k j, k < length sets -> j < length (nth k sets []) ->
        exists mm, nth_error (msgs_map mp) (cm_offset sets k + j) = Some mm /\
          sc (nth k msgs []) j = sc w' (mpos mm)) /\
     (forall s i, In s sets -> In i s -> sc w' (N.to_nat i) = s0))).
Proof.
  intros V m K HN Hd Hn Hn16 Hws HSz HG HH HF Hidx HND Emp Hm LC HCm HT HO HA HC.
  assert (HR : forall ro, length (R_vec (az_NoZK (alm_zk (cp_inner (fst (run ro p)))))) = length (L_vec (az_NoZK (alm_zk (cp_inner (fst (run ro p))))))).
  { intros ro. generalize (HO ro). destruct (run ro p) as [pf [w' u]]. intros Z. apply Z. }
  assert (HO' : forall ro, length (fst (snd (run ro p))) = n /\ sc (fst (snd (run ro p))) 0 = s1 /\
     decompress (cp_C_w (fst (run ro p))) = Some (comb (fst (snd (run ro p))) G) /\
     length (snd (snd (run ro p))) = n /\
     decompress (c_prime_prime_w (cp_inner (fst (run ro p)))) = Some (comb (snd (snd (run ro p))) H)).
  { intros ro. generalize (HO ro). destruct (run ro p) as [pf [w' u]]. intros Z. apply Z. }
  destruct (compute_mapping_good n ws sets mp Hn16 Hws Emp HSz) as (HMap & _ & _).
  { intros s i Hs Hi. apply (Hidx s i Hs Hi). }
  assert (HT1 : 1 <= cm_total sets) by (apply compute_mapping_inv in Emp as (_ & HT' & _); exact HT').
  assert (HS1 : 1 <= length sets) by (destruct sets; [cbn in HT1; lia|cbn; lia]).
  assert (Hmsgs : length (msgs_map mp) = cm_total sets).
  { destruct (C29_metadata _ _ sets _ ltac:(lia) Emp) as (_ & Z & _). exact Z. }
  destruct (fs_fork_coins V tr p vals D ([S (2 * length sets); S m; n - 1; 3; 3; 3] ++ repeat 4 d) K T) as (node & leaf & HTr & HL); auto.
  { apply ks4; [|unfold K; lia]. repeat (apply Forall_cons; [unfold K; lia|]). apply Forall_nil. }
  { intros ro o tr' E. apply C50_copy_layout in E as (Ca & Cw & P & -> & HF'). eauto. }
  { intros w tr' e E ->. assert (E0 := E). unfold V in E. apply C50_copy_layout in E as (Ca & Cw & P & Ee & _). apply app_inv_head in Ee. subst e.
    assert (HV : verdict (copy_verify (table D w) tr (fst (run (table D w) p)) G H Q (mkBlockMatrix Ms) mp Cs)) by (eexists; eauto).
    apply (C58_copy_verdict _ _ _ _ _ _ _ _ _ n) in HV as (_ & _ & (_ & _ & _ & En)); auto; try (rewrite LC; auto); [|rewrite Hmsgs; lia].
    unfold lay_copy, lay_inner, lay_alm. cbn [app drawn length alm_zk]. rewrite drawn_lay_ipa by auto. cbn [app length]. rewrite repeat_length.
    do 6 f_equal. symmetry. rewrite Hd in En. eapply Nat.pow_inj_r; [|exact En]; lia. }
  now apply (copy_of_tree vals tr G H Q n d Ms ws sets mp msgs rs Cs p D node leaf).
Qed.

(** ** linear-map arguments *)
Fixpoint lead (lab : string) (es : list event) : list Point :=
  match es with
  | EvMsg l m :: es => if String.eqb l lab then dec m :: lead lab es else []
  | _ => []
  end.
Fixpoint rest (lab : string) (es : list event) : list event :=
  match es with
  | EvMsg l m :: es' => if String.eqb l lab then rest lab es' else es
  | _ => es
  end.
(** the vectors L and R sent before the last challenge *)
Definition lastLM (tr h : transcript) : list Point * list Point :=
  let r := tl (rev (skipn (length tr) h)) in (rev (lead "L" (rest "R" r)), rev (lead "R" r)).
Definition no_lead (lab : string) (es : list event) : Prop :=
  match es with EvMsg l _ :: _ => l <> lab | _ => True end.
Lemma lead_msgs lab us es : no_lead lab es ->
  lead lab (map (fun u => EvMsg lab (compress u)) us ++ es) = us /\ rest lab (map (fun u => EvMsg lab (compress u)) us ++ es) = es.
Proof.
  intros HE. induction us as [|u us [I1 I2]]; cbn [map app lead rest].
  - destruct es as [|[l m|l m|l] es]; cbn in *; auto. apply String.eqb_neq in HE. now rewrite HE.
  - rewrite String.eqb_refl, I1, I2. split; auto. f_equal. unfold dec. now rewrite decompress_compress.
Qed.
(** nothing was sent since the last challenge *)
Definition fresh (es : list event) : Prop := es = [] \/ exists es' l, es = es' ++ [EvChal l].
Lemma lastLM_round tr es l r : fresh es -> lastLM tr ((tr ++ es) ++ lm_round l r) = (l, r).
Proof.
  intros HE. unfold lastLM. rewrite <- app_assoc, skipn_app_exact.
  unfold lm_round, lm_msgs. rewrite !rev_app_distr. cbn [rev app tl]. rewrite <- !map_rev, <- !app_assoc.
  assert (NL : forall lab, no_lead lab (rev es)).
  { intros lab. destruct HE as [->|(es' & c & ->)]; [exact I|]. now rewrite rev_app_distr. }
  assert (NR : no_lead "R" (map (fun u => EvMsg "L" (compress u)) (rev l) ++ rev es)).
  { destruct (rev l); [apply NL|]. cbn. discriminate. }
  destruct (lead_msgs "R" (rev r) _ NR) as [X1 X2]. destruct (lead_msgs "L" (rev l) (rev es) (NL "L")) as [Y1 _].
  rewrite X1, X2, Y1. now rewrite !rev_involutive.
Qed.
Lemma drawn_msgs tr lab us : drawn tr (lm_msgs lab us) = [].
Proof. unfold lm_msgs. revert tr; induction us as [|u us IH]; intros tr; cbn; auto. Qed.
Lemma drawn_lm_round tr l r e : drawn tr (lm_round l r ++ e) = (tr ++ lm_round l r) :: drawn (tr ++ lm_round l r) e.
Proof.
  rewrite drawn_app. unfold lm_round at 1. rewrite !drawn_app, !drawn_msgs. cbn [app drawn]. unfold lm_round. now rewrite <- !app_assoc.
Qed.
Lemma fresh_round es l r : fresh (es ++ lm_round l r).
Proof. right. unfold lm_round. exists (es ++ lm_msgs "L" l ++ lm_msgs "R" r), "challenge". now rewrite <- !app_assoc. Qed.
Lemma tail_LM tr node LRs : forall es pre w, fresh es -> drawn (tr ++ es) (lm_rounds LRs) = map fst (st_msgs node pre w) ->
  map fst (st_msgs (fun u => lastLM tr (node u)) pre w) = LRs.
Proof.
  induction LRs as [|[l r] LRs IH]; intros es pre w HE E.
  - destruct w; [reflexivity|discriminate].
  - unfold lm_rounds in E. cbn [map concat fst snd] in E. rewrite drawn_lm_round in E. fold (lm_rounds LRs) in E.
    destruct w as [|x w]; [discriminate|]. cbn [st_msgs map fst] in E |- *. injection E as E1 E2.
    rewrite <- E1, lastLM_round by auto. f_equal. rewrite <- app_assoc in E2. eapply IH; [|exact E2]. apply fresh_round.
Qed.
Lemma drawn_lm_length tr LRs : length (drawn tr (lm_rounds LRs)) = length LRs.
Proof.
  revert tr; induction LRs as [|[l r] LRs IH]; intros tr; [reflexivity|]. unfold lm_rounds. cbn [map concat fst snd].
  rewrite drawn_lm_round. cbn [length]. f_equal. apply IH.
Qed.
(** a proof and its challenges as a path: the first d pairs (L, R) are used *)
Definition lm_proof_path (d : nat) (pf : LmpaNoZK) (xs : list Scalar) : lm_path :=
  (combine (firstn d (combine (lm_L pf) (lm_R pf))) xs, lm_w pf).
Lemma firstn_combine {A B} d (l : list A) (l' : list B) : firstn d (combine l l') = combine (firstn d l) (firstn d l').
Proof. revert l l'; induction d as [|d IH]; intros [|a l] [|b l']; cbn; auto; try now rewrite firstn_nil. now rewrite IH. Qed.
Lemma lm_tail tr node fin es pre w pf d : fresh es -> d <= length (lm_L pf) -> d <= length (lm_R pf) -> fin (pre ++ w) = lm_w pf ->
  drawn (tr ++ es) (lay_lmpa d pf) = map fst (st_msgs node pre w) ->
  let msg := fun u => lastLM tr (node u) in
  let LR := map fst (st_msgs msg pre w) in
  map fst LR = firstn d (lm_L pf) /\ map snd LR = firstn d (lm_R pf) /\ st_lm msg fin pre w = lm_proof_path d pf w.
Proof.
  intros HE HL HR HF E msg LR. unfold lay_lmpa in E. apply tail_LM in E; auto.
  assert (ELR : LR = firstn d (combine (lm_L pf) (lm_R pf))) by exact E.
  rewrite firstn_combine in ELR. destruct (combine_fst_snd (firstn d (lm_L pf)) (firstn d (lm_R pf))) as [C1 C2].
  { rewrite !firstn_length. lia. }
  rewrite ELR, C1, C2. split; [auto|]. split; [auto|].
  unfold st_lm, lm_proof_path. rewrite HF. f_equal. rewrite firstn_combine, <- ELR. unfold LR.
  transitivity (combine (map fst (st_msgs msg pre w)) (map snd (st_msgs msg pre w))); [now rewrite combine_map_fst_snd|now rewrite st_msgs_snd].
Qed.
Lemma lay_lmpa_length tr d pf : d <= length (lm_L pf) -> d <= length (lm_R pf) -> length (drawn tr (lay_lmpa d pf)) = d.
Proof. intros HL HR. unfold lay_lmpa. rewrite drawn_lm_length, firstn_length, combine_length. lia. Qed.
Lemma lm_cut pf d : pf = mkLmpaNoZK (firstn d (lm_L pf) ++ skipn d (lm_L pf)) (firstn d (lm_R pf) ++ skipn d (lm_R pf)) (lm_w pf).
Proof. rewrite !firstn_skipn. now destruct pf. Qed.
Lemma ks3 ks d K : Forall (fun k => k <= S K) ks -> 2 <= K -> Forall (fun k => k <= S K) (ks ++ repeat 3 d).
Proof. intros H HK. apply Forall_app. split; auto. apply Forall_forall. intros k Hk. apply repeat_spec in Hk. lia. Qed.

Definition leaf_w {X} (out : X -> Scalar) (p : prover X) D (leaf : word -> option word) (u : word) : Scalar :=
  match leaf u with Some w => out (run (table D w) p) | None => s0 end.
Lemma lmpa_key vals tr d (A : list (list Point)) (G H : list Point) (Q : Point) t (p : prover LmpaNoZK) D node leaf :
  let V := fun ro pf => lmpa_verify ro tr pf A G H Q (2 ^ d) t in
  tree_runs V tr p vals D node leaf ->
  let msg := fun u => lastLM tr (node u) in let out := leaf_w lm_w p D leaf in
  forall xs, is_some (leaf xs) = true ->
    lmpa_yes tr A G H Q (2 ^ d) t msg out xs = true /\
    own_run V tr p vals D xs (fun pf => st_lm msg out [] xs = lm_proof_path d pf xs).
Proof.
  intros V HL msg out xs Hu. destruct (leaf xs) as [w|] eqn:El; [|discriminate].
  destruct (HL _ _ El) as (Iw & e & E1 & E2 & E3 & E4).
  assert (E0 := E1). unfold V in E1. apply C50_lmpa_layout in E1 as (_ & L1 & L2 & Ee & _).
  apply app_inv_head in Ee. subst e. rewrite Nat.log2_pow2 in * by lia. set (pf := run (table D w) p) in *.
  assert (HFi : out ([] ++ xs) = lm_w pf) by (unfold out, leaf_w; cbn [app]; now rewrite El).
  assert (E5 := E3). rewrite <- (app_nil_r tr) in E3 at 1.
  destruct (lm_tail tr node out [] [] xs pf d (or_introl eq_refl) L1 L2 HFi E3) as (X1 & X2 & X3).
  split.
  - unfold lmpa_yes, msg. rewrite X1, X2. change (out xs) with (out ([] ++ xs)). rewrite HFi. unfold V in E2.
    rewrite (lm_cut pf d), C61_lmpa_surplus_rounds in E2 by (rewrite firstn_length; lia). now rewrite E2.
  - exists w, (lay_lmpa d pf). exact (conj Iw (conj E0 (conj E4 X3))).
Qed.

Lemma lmpa_of_tree vals tr d m (A : list (list Point)) (G H : list Point) (Q : Point) t (p : prover LmpaNoZK) D node leaf :
  let V := fun ro pf => lmpa_verify ro tr pf A G H Q (2 ^ d) t in
  1 <= m -> rect m (2 ^ d) A ->
  has_tree vals ([] ++ repeat 3 d) (fun u => is_some (leaf u)) -> tree_runs V tr p vals D node leaf ->
  exists S, lm_good d S /\
    (forall path, In path (lm_paths S) -> exists xs, own_run V tr p vals D xs (fun pf => path = lm_proof_path d pf xs)) /\
    length (lm_extract S) = 2 ^ d /\ comb (lm_extract S) (nth 0 A []) = pt t 0.
Proof.
  intros V Hm HR HTr HL.
  set (out := leaf_w lm_w p D leaf). set (msg := fun u => lastLM tr (node u)).
  destruct (build_lm msg out vals d [] _ HTr) as (S & GS & PS).
  assert (KEY := lmpa_key vals tr d A G H Q t p D node leaf HL). cbv zeta in KEY.
  exists S. split; [exact GS|]. split.
  { intros path Hp. destruct (PS path Hp) as (xs & _ & Hu & ->). exists xs. now apply KEY. }
  apply (C37_lmpa_soundness_row0 tr d m A G H Q); auto. intros q Hq. destruct (PS q Hq) as (xs & Lw & Hu & ->).
  apply KEY in Hu as [Y _]. unfold lmpa_yes in Y. apply yes_Ok in Y as [tr' Y]. rewrite !map_map in Y.
  exists (coins tr xs), tr'. split; [exact Y|]. eapply lm_coins; [symmetry; apply Nat.add_0_r|reflexivity].
Qed.
Theorem C79_lmpa_fiat_shamir vals tr d m (A : list (list Point)) (G H : list Point) (Q : Point) t (p : prover LmpaNoZK) T D :
  let V := fun ro pf => lmpa_verify ro tr pf A G H Q (2 ^ d) t in
  NoDup vals -> 1 <= m -> rect m (2 ^ d) A ->
  asks T p -> asks_challenges V tr p vals D ->
  2 * T * length vals ^ (length D - 1) < successes V p vals D ->
  exists S, lm_good d S /\
    (forall path, In path (lm_paths S) -> exists xs, own_run V tr p vals D xs (fun pf => path = lm_proof_path d pf xs)) /\
    length (lm_extract S) = 2 ^ d /\ comb (lm_extract S) (nth 0 A []) = pt t 0.
Proof.
  intros V HN Hm HR HT HA HC.
  destruct (fs_fork_coins V tr p vals D ([] ++ repeat 3 d) 2 T) as (node & leaf & HTr & HL); auto.
  - apply ks3; auto.
  - intros ro pf tr' E. apply C50_lmpa_layout in E as (_ & _ & _ & -> & HF'). eauto.
  - intros w tr' e E ->. unfold V in E. apply C50_lmpa_layout in E as (_ & L1 & L2 & Ee & _). apply app_inv_head in Ee. subst e.
    rewrite lay_lmpa_length by auto. cbn [app]. now rewrite Nat.log2_pow2, repeat_length by lia.
  - now apply (lmpa_of_tree vals tr d m A G H Q t p D node leaf).
Qed.
(** hence, for a false first row, no prover convinces the verifier for more tables than this *)
Corollary C79_lmpa_false_statement vals tr d m (A : list (list Point)) (G H : list Point) (Q : Point) t (p : prover LmpaNoZK) T D :
  let V := fun ro pf => lmpa_verify ro tr pf A G H Q (2 ^ d) t in
  NoDup vals -> 1 <= m -> rect m (2 ^ d) A ->
  (forall w, length w = 2 ^ d -> comb w (nth 0 A []) <> pt t 0) ->
  asks T p -> asks_challenges V tr p vals D ->
  successes V p vals D <= 2 * T * length vals ^ (length D - 1).
Proof.
  intros V HN Hm HR HF HT HA. apply Nat.nlt_ge. intros HC.
  destruct (C79_lmpa_fiat_shamir vals tr d m A G H Q t p T D HN Hm HR HT HA HC) as (S & _ & _ & L1 & E). now apply (HF _ L1).
Qed.

(** the commitments sent before the first challenge *)
Definition lasta (tr h : transcript) : list Point := rev (lead "a" (tl (rev (skipn (length tr) h)))).
Lemma simplezk_key vals tr d (A : list (list Point)) (G H : list Point) (Q : Point) t (p : prover SimpleZK) D node leaf :
  let V := fun ro pf => simple_zk_verify ro tr pf A G H Q (2 ^ d) t in
  tree_runs V tr p vals D node leaf ->
  let msg := fun u => lastLM tr (node u) in let out := leaf_w (fun pf => lm_w (sz_no_zk pf)) p D leaf in let a := lasta tr (node []) in
  forall be xs, is_some (leaf (be :: xs)) = true ->
    simplezk_yes tr A G H Q (2 ^ d) t a msg out (be :: xs) = true /\
    own_run V tr p vals D (be :: xs) (fun pf => sz_a pf = a /\ st_lm msg out [be] xs = lm_proof_path d (sz_no_zk pf) xs).
Proof.
  intros V HL msg out a be xs Hu. destruct (leaf (be :: xs)) as [w|] eqn:El; [|discriminate].
  destruct (HL _ _ El) as (Iw & e & E1 & E2 & E3 & E4).
  assert (E0 := E1). unfold V in E1. apply C50_simplezk_layout in E1 as (_ & L1 & L2 & Ee & _).
  apply app_inv_head in Ee. subst e. rewrite Nat.log2_pow2 in * by lia. set (pf := run (table D w) p) in *.
  assert (HFi : out ([be] ++ xs) = lm_w (sz_no_zk pf)) by (unfold out, leaf_w; cbn [app]; now rewrite El).
  assert (E5 := E3). unfold lay_simple in E3. rewrite drawn_app, drawn_msgs in E3. cbn [app drawn st_msgs map fst] in E3.
  injection E3 as Ea E3.
  assert (Ha : sz_a pf = a).
  { unfold a, lasta. rewrite <- Ea. rewrite <- app_assoc, skipn_app_exact, rev_app_distr. cbn [rev app tl]. unfold lm_msgs.
    rewrite <- map_rev. destruct (lead_msgs "a" (rev (sz_a pf)) [] I) as [Z _]. rewrite app_nil_r in Z. now rewrite Z, rev_involutive. }
  rewrite <- app_assoc in E3.
  destruct (lm_tail tr node out (lm_msgs "a" (sz_a pf) ++ [EvChal "beta"]) [be] xs (sz_no_zk pf) d) as (X1 & X2 & X3); auto.
  { right. now exists (lm_msgs "a" (sz_a pf)), "beta". }
  split.
  - unfold simplezk_yes, msg. rewrite X1, X2. change (out (be :: xs)) with (out ([be] ++ xs)). rewrite HFi. unfold V in E2.
    replace pf with (mkSimpleZK (sz_no_zk pf) a) in E2 by (rewrite <- Ha; now destruct pf).
    rewrite (lm_cut (sz_no_zk pf) d), C61_simplezk_surplus_rounds in E2 by (rewrite firstn_length; lia). now rewrite E2.
  - exists w, (lay_simple d pf). exact (conj Iw (conj E0 (conj E4 (conj Ha X3)))).
Qed.

Lemma simplezk_of_tree vals tr d m (A : list (list Point)) (G H : list Point) (Q : Point) t (p : prover SimpleZK) D node leaf :
  let V := fun ro pf => simple_zk_verify ro tr pf A G H Q (2 ^ d) t in
  1 <= m -> rect m (2 ^ d) A ->
  has_tree vals ([2] ++ repeat 3 d) (fun u => is_some (leaf u)) -> tree_runs V tr p vals D node leaf ->
  exists a b1 S1 b2 S2, b1 <> b2 /\ lm_good d S1 /\ lm_good d S2 /\
    (forall b S path, (b, S) = (b1, S1) \/ (b, S) = (b2, S2) -> In path (lm_paths S) ->
       exists xs, own_run V tr p vals D (b :: xs) (fun pf => sz_a pf = a /\ path = lm_proof_path d (sz_no_zk pf) xs)) /\
    length (sz_extract b1 S1 b2 S2) = 2 ^ d /\ comb (sz_extract b1 S1 b2 S2) (nth 0 A []) = pt t 0.
Proof.
  intros V Hm HR HTr HL.
  set (out := leaf_w (fun pf => lm_w (sz_no_zk pf)) p D leaf). set (msg := fun u => lastLM tr (node u)). set (a := lasta tr (node [])).
  assert (KEY := simplezk_key vals tr d A G H Q t p D node leaf HL). cbv zeta in KEY.
  change (leaf_w (fun pf => lm_w (sz_no_zk pf)) p D leaf) with out in KEY.
  change (fun u => lastLM tr (node u)) with msg in KEY. change (lasta tr (node [])) with a in KEY.
  clearbody msg out a. set (ok := fun u => is_some (leaf u)) in *.
  destruct HTr as (vs & VN & VL & _ & HV). destruct vs as [|b1 [|b2 [|? ?]]]; try discriminate.
  destruct (build_lm msg out vals d [b1] _ (HV b1 (or_introl eq_refl))) as (S1 & G1 & P1).
  destruct (build_lm msg out vals d [b2] _ (HV b2 (or_intror (or_introl eq_refl)))) as (S2 & G2 & P2).
  assert (Hb : b1 <> b2). { inversion VN as [|? ? N1 _]; subst. intros ->. apply N1. now left. }
  exists a, b1, S1, b2, S2. split; [exact Hb|]. split; [exact G1|]. split; [exact G2|]. split.
  { intros b S path [E|E] Hp; injection E as -> ->; [destruct (P1 path Hp) as (xs & _ & Hu & ->)|destruct (P2 path Hp) as (xs & _ & Hu & ->)];
      exists xs; now apply KEY. }
  assert (K : forall b w, simplezk_yes tr A G H Q (2 ^ d) t a msg out (b :: w) = true ->
             sz_accepts_along tr A G H Q (2 ^ d) t a b (st_lm msg out [b] w)).
  { intros b w Y. unfold simplezk_yes in Y. apply yes_Ok in Y as [tr' Y]. rewrite !map_map in Y.
    exists (coins tr (b :: w)), tr'. split; [exact Y|].
    assert (N1 : nchal (sz_hist tr a) = nchal tr + 1) by (unfold sz_hist; rewrite !nchal_app, nchal_msgs; reflexivity).
    split; [now apply (coins_is 0)|]. eapply lm_coins; [exact N1|reflexivity]. }
  apply (C42_simple_zk_soundness_row0 tr d m A G H Q t a); auto.
  - intros q Hq. destruct (P1 q Hq) as (w & _ & Hu & ->). apply K. now apply KEY.
  - intros q Hq. destruct (P2 q Hq) as (w & _ & Hu & ->). apply K. now apply KEY.
Qed.
Theorem C79_simplezk_fiat_shamir vals tr d m (A : list (list Point)) (G H : list Point) (Q : Point) t (p : prover SimpleZK) T D :
  let V := fun ro pf => simple_zk_verify ro tr pf A G H Q (2 ^ d) t in
  NoDup vals -> 1 <= m -> rect m (2 ^ d) A ->
  asks T p -> asks_challenges V tr p vals D ->
  2 * T * length vals ^ (length D - 1) < successes V p vals D ->
  exists a b1 S1 b2 S2, b1 <> b2 /\ lm_good d S1 /\ lm_good d S2 /\
    (forall b S path, (b, S) = (b1, S1) \/ (b, S) = (b2, S2) -> In path (lm_paths S) ->
       exists xs, own_run V tr p vals D (b :: xs) (fun pf => sz_a pf = a /\ path = lm_proof_path d (sz_no_zk pf) xs)) /\
    length (sz_extract b1 S1 b2 S2) = 2 ^ d /\ comb (sz_extract b1 S1 b2 S2) (nth 0 A []) = pt t 0.
Proof.
  intros V HN Hm HR HT HA HC.
  destruct (fs_fork_coins V tr p vals D ([2] ++ repeat 3 d) 2 T) as (node & leaf & HTr & HL); auto.
  - apply ks3; auto.
  - intros ro pf tr' E. apply C50_simplezk_layout in E as (_ & _ & _ & -> & HF'). eauto.
  - intros w tr' e E ->. unfold V in E. apply C50_simplezk_layout in E as (_ & L1 & L2 & Ee & _). apply app_inv_head in Ee. subst e.
    unfold lay_simple. rewrite drawn_app, drawn_msgs. cbn [app drawn length]. rewrite lay_lmpa_length by auto.
    now rewrite Nat.log2_pow2, repeat_length by lia.
  - now apply (simplezk_of_tree vals tr d m A G H Q t p D node leaf).
Qed.
Corollary C79_simplezk_false_statement vals tr d m (A : list (list Point)) (G H : list Point) (Q : Point) t (p : prover SimpleZK) T D :
  let V := fun ro pf => simple_zk_verify ro tr pf A G H Q (2 ^ d) t in
  NoDup vals -> 1 <= m -> rect m (2 ^ d) A ->
  (forall w, length w = 2 ^ d -> comb w (nth 0 A []) <> pt t 0) ->
  asks T p -> asks_challenges V tr p vals D ->
  successes V p vals D <= 2 * T * length vals ^ (length D - 1).
Proof.
  intros V HN Hm HR HF HT HA. apply Nat.nlt_ge. intros HC.
  destruct (C79_simplezk_fiat_shamir vals tr d m A G H Q t p T D HN Hm HR HT HA HC) as (a & b1 & S1 & b2 & S2 & _ & _ & _ & _ & L1 & E).
  now apply (HF _ L1).
Qed.

(** ** The premise asks_challenges: any prover can ask the challenges of its own proof last *)
(** all histories a prover can ask when the answers are among vals *)
Fixpoint reach {X} (vals : list Scalar) (p : prover X) : list transcript :=
  match p with
  | Done x => []
  | Ask h k => h :: flat_map (fun v => reach vals (k v)) vals
  end.
Lemma table_letter vals D w h : In h D -> In w (words vals (length D)) -> In (table D w h) vals.
Proof.
  intros HI HW. apply words_In in HW as [LW FW]. destruct (position_In ceq h D HI) as [i Hi]. rewrite (table_at ceq D w h i Hi).
  apply position_Some in Hi as [Li _]. rewrite Forall_forall in FW. apply FW. unfold sc. apply nth_In. lia.
Qed.
Lemma reach_asked {X} vals D w (p : prover X) : incl (reach vals p) D -> In w (words vals (length D)) ->
  incl (asked (table D w) p) D.
Proof.
  intros HI HW. induction p as [x|h k IH]; cbn [asked reach] in *; [intros ? []|].
  assert (Hh : In h D) by (apply HI; now left). intros h' [<-|H']; auto. revert h' H'. apply IH.
  intros h' H'. apply HI. right. apply in_flat_map. exists (table D w h). split; auto. now apply table_letter.
Qed.
(** p, then the queries qs x on its output x *)
Fixpoint ask_all {X} (hs : list transcript) (x : X) : prover X :=
  match hs with [] => Done x | h :: hs => Ask h (fun _ => ask_all hs x) end.
Fixpoint then_ask {X} (p : prover X) (qs : X -> list transcript) : prover X :=
  match p with Done x => ask_all (qs x) x | Ask h k => Ask h (fun v => then_ask (k v) qs) end.
Lemma run_then_ask {X} ro (p : prover X) qs : run ro (then_ask p qs) = run ro p.
Proof.
  induction p as [x|h k IH]; cbn; auto. generalize (qs x). intros hs. induction hs as [|h hs IH]; cbn; auto.
Qed.
Lemma asked_then_ask {X} ro (p : prover X) qs : asked ro (then_ask p qs) = asked ro p ++ qs (run ro p).
Proof.
  induction p as [x|h k IH]; cbn; [|now rewrite IH]. generalize (qs x). intros hs. induction hs as [|h hs IH]; cbn; congruence.
Qed.
Lemma asks_then_ask {X} (p : prover X) qs r : (forall x, length (qs x) <= r) -> forall T, asks T p -> asks (T + r) (then_ask p qs).
Proof.
  intros HQ. induction p as [x|h k IH]; intros T HT; cbn [then_ask].
  - assert (Z : length (qs x) <= T + r) by (specialize (HQ x); lia). revert Z. generalize (T + r), (qs x). clear.
    intros T hs. revert T. induction hs as [|h hs IH]; intros T HT; [destruct T; exact I|]. cbn in HT. destruct T as [|T]; [lia|].
    cbn. intros _. apply IH. lia.
  - destruct T as [|T]; [destruct HT|]. cbn in HT |- *. intros v. now apply IH.
Qed.
Lemma asks_challenges_then {X} (V : oracle -> X -> res (bool * transcript)) tr (p : prover X) qs vals D :
  (forall ro x tr', V ro x = Ok (true, tr') -> forall h, In h (drawn tr (skipn (length tr) tr')) -> In h (qs x)) ->
  incl (reach vals (then_ask p qs)) D -> asks_challenges V tr (then_ask p qs) vals D.
Proof.
  intros HQ HD w tr' Iw E h Hh. assert (HA : In h (asked (table D w) (then_ask p qs))).
  { rewrite asked_then_ask. apply in_or_app. right. rewrite run_then_ask in E. eapply HQ; eauto. }
  split; auto. now apply (reach_asked vals D w (then_ask p qs)).
Qed.
Lemma successes_then_ask {X} (V : oracle -> X -> res (bool * transcript)) (p : prover X) qs vals D :
  successes V (then_ask p qs) vals D = successes V p vals D.
Proof. unfold successes, count. f_equal. apply filter_ext. intros w. now rewrite run_then_ask. Qed.
Lemma own_run_then_ask {X} (V : oracle -> X -> res (bool * transcript)) tr (p : prover X) qs vals D cs R :
  own_run V tr (then_ask p qs) vals D cs R -> own_run V tr p vals D cs R.
Proof. intros (w & e & Iw & E). cbv zeta in E. rewrite run_then_ask in E. exists w, e. split; [exact Iw|exact E]. Qed.

(** so the bounds hold for every prover with T queries of its own *)
Definition nozk_queries tr n d (pf : NoZK) : list transcript := firstn (S d) (drawn tr (lay_ipa n pf)).
Corollary C79_nozk_any_prover vals tr (G H : list Point) (Q P : Point) (t : Scalar) d (p : prover NoZK) T D :
  let V := fun ro pf => no_zk_verify ro tr pf G H Q (2 ^ d) P t in
  NoDup vals -> length G = 2 ^ d -> length H = 2 ^ d ->
  asks T p -> (forall ro, length (R_vec (run ro p)) = length (L_vec (run ro p))) ->
  incl (reach vals (then_ask p (nozk_queries tr (2 ^ d) d))) D ->
  3 * (T + S d) * length vals ^ (length D - 1) < successes V p vals D ->
  exists B, good_trees B /\
    all_paths B (fun al path => exists xs, own_run V tr p vals D (al :: xs) (fun pf => path = proof_path pf xs)) /\
    match trees_extract t B with
    | Wit a b c => length a = 2 ^ d /\ length b = 2 ^ d /\ c = t /\
                   P = (comb a G + comb b H + t *: Q)%P /\ dotp a b = t
    | Rel g h q => nontrivial_relation (2 ^ d) G H Q g h q
    end.
Proof.
  intros V HN HG HH HT HR HD HC. set (qs := nozk_queries tr (2 ^ d) d) in *.
  destruct (C79_nozk_fiat_shamir vals tr G H Q P t d (then_ask p qs) (T + S d) D) as (B & GB & PB & E); auto.
  - apply asks_then_ask; auto. intros pf. unfold qs, nozk_queries. rewrite firstn_length. lia.
  - intros ro. rewrite run_then_ask. apply HR.
  - apply asks_challenges_then; auto. intros ro pf tr' E h Hh. apply C50_ipa_layout in E as (En & -> & _).
    rewrite skipn_app_exact in Hh. unfold qs, nozk_queries. rewrite firstn_all2; auto.
    unfold lay_ipa. cbn [app drawn length]. rewrite drawn_rounds_length, combine_length.
    apply Nat.pow_inj_r in En; lia.
  - now rewrite successes_then_ask.
  - exists B. split; [exact GB|]. split; [|exact E]. destruct PB as [P1 P2].
    split; intros q Hq; [apply P1 in Hq|apply P2 in Hq]; destruct Hq as (xs & Hx); exists xs; now apply own_run_then_ask in Hx.
Qed.
Definition lmpa_queries tr d (pf : LmpaNoZK) : list transcript := drawn tr (lay_lmpa d pf).
Corollary C79_lmpa_any_prover vals tr d m (A : list (list Point)) (G H : list Point) (Q : Point) t (p : prover LmpaNoZK) T D :
  let V := fun ro pf => lmpa_verify ro tr pf A G H Q (2 ^ d) t in
  NoDup vals -> 1 <= m -> rect m (2 ^ d) A ->
  (forall w, length w = 2 ^ d -> comb w (nth 0 A []) <> pt t 0) ->
  asks T p -> incl (reach vals (then_ask p (lmpa_queries tr d))) D ->
  successes V p vals D <= 2 * (T + d) * length vals ^ (length D - 1).
Proof.
  intros V HN Hm HR HF HT HD. rewrite <- (successes_then_ask V p (lmpa_queries tr d)).
  apply (C79_lmpa_false_statement vals tr d m); auto.
  - apply asks_then_ask; auto. intros pf. unfold lmpa_queries, lay_lmpa. rewrite drawn_lm_length, firstn_length. lia.
  - apply asks_challenges_then; auto. intros ro pf tr' E h Hh. apply C50_lmpa_layout in E as (_ & _ & _ & -> & _).
    rewrite skipn_app_exact, Nat.log2_pow2 in Hh by lia. exact Hh.
Qed.
Definition simplezk_queries tr d (pf : SimpleZK) : list transcript := drawn tr (lay_simple d pf).
Corollary C79_simplezk_any_prover vals tr d m (A : list (list Point)) (G H : list Point) (Q : Point) t (p : prover SimpleZK) T D :
  let V := fun ro pf => simple_zk_verify ro tr pf A G H Q (2 ^ d) t in
  NoDup vals -> 1 <= m -> rect m (2 ^ d) A ->
  (forall w, length w = 2 ^ d -> comb w (nth 0 A []) <> pt t 0) ->
  asks T p -> incl (reach vals (then_ask p (simplezk_queries tr d))) D ->
  successes V p vals D <= 2 * (T + S d) * length vals ^ (length D - 1).
Proof.
  intros V HN Hm HR HF HT HD. rewrite <- (successes_then_ask V p (simplezk_queries tr d)).
  apply (C79_simplezk_false_statement vals tr d m); auto.
  - apply asks_then_ask; auto. intros pf. unfold simplezk_queries, lay_simple. rewrite drawn_app, drawn_msgs. cbn [app drawn length].
    unfold lay_lmpa. rewrite drawn_lm_length, firstn_length. lia.
  - apply asks_challenges_then; auto. intros ro pf tr' E h Hh. apply C50_simplezk_layout in E as (_ & _ & _ & -> & _).
    rewrite skipn_app_exact, Nat.log2_pow2 in Hh by lia. exact Hh.
Qed.
End C79.

(** ** Concrete cases over Z/1009 *)
Definition fs_ceq : @encodings_comparable FS := list_eq_dec Z.eq_dec.
(** a false statement of the linear-map argument (zero matrix, target -3), one round: the prover
    asks for the challenge of a first proof that works for the challenges 1 and 2, and if it gets
    another one, for that of a second proof, which works for 3 and 4. With answers among 1..10 it
    convinces the verifier for 36 of the 100 tables; the bound is 40 *)
Definition pf79 (l r : @Scalar FS) : @LmpaNoZK FS := mkLmpaNoZK [[pmul l (qN 1)]] [[pmul r (qN 1)]] (fN 0).
Definition a79 := pf79 (fN 2) (fN 1).
Definition b79 := pf79 (smul (fN 36) (sinv (fN 7))) (smul (fN 3) (sinv (fN 7))).
Definition q79 (pf : @LmpaNoZK FS) : @transcript FS := lm_rounds (combine (lm_L pf) (lm_R pf)).
Definition grind79 : @prover FS LmpaNoZK :=
  Ask (q79 a79) (fun v => if (seqb v (fN 1) || seqb v (fN 2))%bool then Done a79 else Ask (q79 b79) (fun _ => Done b79)).
Definition V79 (ro : @oracle FS) (pf : @LmpaNoZK FS) := lmpa_verify ro [] pf (z75 2) [qN 0; qN 0] [] (qN 0) (2 ^ 1) [qN (-3)].
Example C79_case_lmpa_grinding : successes fs_ceq V79 grind79 (v75 10) [q79 a79; q79 b79] = 36.
Proof. vm_compute. reflexivity. Qed.

Lemma z79_rect n : rect 1 n (z75 n).
Proof. split; [reflexivity|]. repeat constructor. apply repeat_length. Qed.
Lemma v79_NoDup k : In k [5; 10] -> NoDup (v75 k).
Proof.
  intros Hk. apply (NoDup_map_inv zf). assert (E : map zf (v75 k) = map Z.of_nat (seq 1 k)).
  { destruct Hk as [<-|[<-|[]]]; vm_compute; reflexivity. }
  rewrite E. apply FinFun.Injective_map_NoDup; [exact Nat2Z.inj|apply seq_NoDup].
Qed.
(** no prover with two queries does better than 40 *)
Example C79_case_lmpa_bound (p : @prover FS LmpaNoZK) h1 h2 :
  asks 2 p -> asks_challenges fs_ceq V79 [] p (v75 10) [h1; h2] -> successes fs_ceq V79 p (v75 10) [h1; h2] <= 40.
Proof.
  intros HT HA. apply (@C79_lmpa_false_statement FS FS_laws fs_ceq (v75 10) [] 1 1 (z75 2) [qN 0; qN 0] [] (qN 0) [qN (-3)] p 2 [h1; h2]); auto.
  - apply v79_NoDup. cbn; auto.
  - apply z79_rect.
  - intros w _. apply z75_false.
Qed.
(** the grinding prover satisfies the premises *)
Example C79_case_lmpa_premises : asks 2 grind79 /\ asks_challenges fs_ceq V79 [] grind79 (v75 10) [q79 a79; q79 b79].
Proof.
  split; [cbn; intros v; destruct (_ || _)%bool; cbn; auto|].
  intros w tr' Hw E h Hh. unfold V79 in E. apply (@C50_lmpa_layout FS) in E. destruct E as (_ & _ & _ & E & _). subst tr'.
  change (skipn (length []) ([] ++ ?l)) with l in Hh. cbn [grind79 run asked] in *.
  set (v := table fs_ceq [q79 a79; q79 b79] w (q79 a79)) in *. clearbody v.
  assert (Q : forall pf, In pf [a79; b79] -> drawn [] (lay_lmpa (Nat.log2 (2 ^ 1)) pf) = [q79 pf]) by (intros pf [<-|[<-|[]]]; reflexivity).
  destruct (_ || _)%bool; cbn [run asked] in *; rewrite Q in Hh by (cbn; auto); destruct Hh as [<-|[]]; cbn; auto.
Qed.

(** SimpleZK for the same statement. The commitment a fixes one beta for which the statement
    becomes true; two values of a (for beta = 1 and beta = 3) are tried, each followed by one
    round that works for the challenges 1 and 2. With the answers 1 and 5, on the six histories
    it can ask, the first attempt fails for one table in four and the second for half of these *)
Definition sz79 (be0 be : @Scalar FS) : @SimpleZK FS :=
  let r := pmul (sinv (fN (-3))) (padd (pmul be (qN (-3))) (pmul be0 (qN 3))) in
  mkSimpleZK (mkLmpaNoZK [[pmul (fN 2) r]] [[r]] (fN 0)) [pmul be0 (qN 3)].
Definition h79 (be0 : @Scalar FS) : @transcript FS := lm_msgs "a" [pmul be0 (qN 3)] ++ [EvChal "beta"].
Definition k79 (be0 be : @Scalar FS) : @transcript FS := let pf := sz79 be0 be in
  h79 be0 ++ lm_rounds (combine (lm_L (sz_no_zk pf)) (lm_R (sz_no_zk pf))).
Definition sgrind79 : @prover FS SimpleZK :=
  Ask (h79 (fN 1)) (fun be => Ask (k79 (fN 1) be) (fun x =>
    if (seqb be (fN 1) || seqb x (fN 1) || seqb x (fN 2))%bool then Done (sz79 (fN 1) be) else
    Ask (h79 (fN 3)) (fun be => Ask (k79 (fN 3) be) (fun x => Done (sz79 (fN 3) be))))).
Definition VS79 (ro : @oracle FS) (pf : @SimpleZK FS) := simple_zk_verify ro [] pf (z75 2) [qN 0; qN 0] [] (qN 0) (2 ^ 1) [qN (-3)].
Example C79_case_simplezk_grinding :
  successes fs_ceq VS79 sgrind79 [fN 1; fN 5]
    [h79 (fN 1); h79 (fN 3); k79 (fN 1) (fN 1); k79 (fN 1) (fN 5); k79 (fN 3) (fN 1); k79 (fN 3) (fN 5)] = 56.
Proof. vm_compute. reflexivity. Qed.
(** with all 1009 answers, ten queries succeed for at most 24 tables in 1009 *)
Example C79_case_simplezk_bound (p : @prover FS SimpleZK) D : asks 10 p -> incl (reach F75 (then_ask p (simplezk_queries [] 1))) D ->
  successes fs_ceq VS79 p F75 D <= 24 * length F75 ^ (length D - 1).
Proof.
  intros HT HD. apply (@C79_simplezk_any_prover FS FS_laws fs_ceq F75 [] 1 1 (z75 2) [qN 0; qN 0] [] (qN 0) [qN (-3)] p 10 D); auto.
  - apply F75_NoDup.
  - apply z79_rect.
  - intros w _. apply z75_false.
Qed.

(** inner product argument, n = 1: the honest prover passes for all five answers, and the bound is 3 *)
Definition hon79 : @prover FS NoZK := Ask (ipa_start [] 1) (fun _ => Done (mkNoZK [] [] (fN 3) (fN 6))).
Definition VN79 t (ro : @oracle FS) (pf : @NoZK FS) := no_zk_verify ro [] pf [qN 5] [qN 2] (qN 17) (2 ^ 0) (qN (3 * 5 + 6 * 2 + t * 17)) (fN t).
Example C79_case_nozk : successes fs_ceq (VN79 18) hon79 (v75 5) [ipa_start [] 1] = 5 /\
  successes fs_ceq (VN79 19) hon79 (v75 5) [ipa_start [] 1] = 0.
Proof. vm_compute. auto. Qed.
Example C79_case_nozk_extract :
  exists B, good_trees B /\
    match trees_extract (fN 18) B with
    | Wit a b c => length a = 1 /\ qN (3 * 5 + 6 * 2 + 18 * 17) = (comb a [qN 5] + comb b [qN 2] + fN 18 *: qN 17)%P /\ dotp a b = fN 18
    | Rel g h q => nontrivial_relation 1 [qN 5] [qN 2] (qN 17) g h q
    end.
Proof.
  destruct (@C79_nozk_fiat_shamir FS FS_laws fs_ceq (v75 5) [] [qN 5] [qN 2] (qN 17) (qN (3 * 5 + 6 * 2 + 18 * 17)) (fN 18) 0 hon79 1 [ipa_start [] 1])
    as (B & GB & _ & E); auto.
  - apply v79_NoDup. cbn; auto.
  - cbn. auto.
  - intros w tr' Hw E h Hh. apply C50_ipa_layout in E. destruct E as (_ & E & _). subst tr'. change (skipn (length []) ([] ++ ?l)) with l in Hh.
    cbn in Hh. destruct Hh as [<-|[]]. cbn. auto.
  - assert (Z := proj1 C79_case_nozk). unfold VN79 in Z. rewrite Z. cbn. lia.
  - exists B. split; [exact GB|]. destruct (trees_extract _ B) as [a b c|g h q]; [|exact E].
    destruct E as (E1 & _ & _ & E2 & E3). auto.
Qed.

(** a prover that answers online: the history of each challenge is that of its verifier's run on
    the challenges so far *)
Fixpoint online {X} (hist : list (@Scalar FS) -> @transcript FS) (out : list (@Scalar FS) -> X) (r : nat) (cs : list (@Scalar FS)) : @prover FS X :=
  match r with
  | O => Done (out cs)
  | S r => Ask (hist cs) (fun v => online hist out r (cs ++ [v]))
  end.
Definition hist79 {X} (V : @oracle FS -> X -> res (bool * @transcript FS)) (out : list (@Scalar FS) -> X) (cs : list (@Scalar FS)) : @transcript FS :=
  match V (coins [] (cs ++ v75 12)) (out cs) with
  | Ok (_, tr) => nth (length cs) (drawn [] tr) []
  | _ => []
  end.
(** run it on the table with answers w on the histories it asks *)
Definition try79 {X} (V V' : @oracle FS -> X -> res (bool * @transcript FS)) (out : list (@Scalar FS) -> X) (w : list Z) : bool :=
  let w := map fN w in
  let p := online (hist79 V out) out (length w) [] in
  let ro := table fs_ceq (asked (coins [] w) p) w in
  yes (V' ro (run ro p)).
(** the honest almost-zk, QESA and copy provers, against the true and against a false statement *)
Example C79_case_almzk :
  let V t ro pf := alm_zk_verify ro [] pf g75 h75 (qN 17) (2 ^ 1) (qN 134) (fN t) in
  map (try79 (V 46%Z) (V 46%Z) hon75a) [[5; 6; 7]; [8; 2; 3]]%Z = [true; true] /\
  map (try79 (V 41%Z) (V 41%Z) hon75a) [[5; 6; 7]; [8; 2; 3]]%Z = [false; false].
Proof. vm_compute. auto. Qed.
Example C79_case_qesa :
  let V Ms ro pf := inner_verify ro [] pf g75q h75q (qN 77) (mkBlockMatrix Ms) in
  let bad := [[[fN 2; fN 0]; [fN 0; fN 0]]] in
  try79 (V m75q) (V m75q) hon75q [2; 3; 4; 5; 6; 7; 8]%Z = true /\ try79 (V bad) (V bad) hon75q [2; 3; 4; 5; 6; 7; 8]%Z = false.
Proof. vm_compute. auto. Qed.
Example C79_case_copy :
  let V m ro pf := copy_verify ro [] pf g75c h75c (qN 77) (mkBlockMatrix m75c) mp75 (c75 m) in
  try79 (V 9%Z) (V 9%Z) hon75c [6; 2; 3; 4; 5; 6; 7; 8; 9]%Z = true /\
  try79 (V 10%Z) (V 10%Z) hon75c [6; 2; 3; 4; 5; 6; 7; 8; 9]%Z = false.
Proof. vm_compute. auto. Qed.
