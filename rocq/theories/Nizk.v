(** Zero-knowledge when challenges come from a hash function: a distinguisher that queries
    the hash function before and after it sees one proof. The hash function is sampled
    lazily; a simulator chooses the answers at the histories of the proof it outputs. *)
From Coq Require Import String.
From Verif Require Export FiatShamir PropZk.
Local Open Scope string_scope.
Local Open Scope nat_scope.
Local Open Scope list_scope.

Section Game.
Context {C : Crypto} (ceq : @encodings_comparable C).
Notation word := (list Scalar).

(** the answers given so far *)
Definition memo : Type := list (transcript * Scalar).
(** recorded answers, and ro elsewhere *)
Fixpoint recall (m : memo) (ro : oracle) : oracle := fun h =>
  match m with
  | [] => ro h
  | (h', v) :: m => if hist_eq_dec ceq h h' then v else recall m ro h
  end.
(** run a program: a new query is answered by the next letter of ws *)
Fixpoint lazily {X} (m : memo) (ws : word) (p : prover X) : X * memo :=
  match p with
  | Done x => (x, m)
  | Ask h k => let v := recall m (fun _ => hd s0 ws) h in lazily (m ++ [(h, v)]) (tl ws) (k v)
  end.
(** answers of ro at the challenges drawn between tr and tr' *)
Definition revealed (ro : oracle) (tr tr' : transcript) : memo :=
  map (fun h => (h, ro h)) (drawn tr (skipn (length tr) tr')).

(** ask: the distinguisher's queries before the proof; judge: its queries after it and its
    verdict. ws1, ws2: answers to the queries; cs: answers to the prover's new queries;
    u: the prover's random scalars. *)
Definition real_game {X St} tr (create : oracle -> (nat -> Scalar) -> res (X * transcript * nat)) (ask : prover St) (judge : St -> X -> prover bool)
    (ws1 ws2 cs u : word) : bool :=
  let '(st, m) := lazily [] ws1 ask in
  let ro := recall m (coins tr cs) in
  match create ro (tape u) with
  | Ok (pf, tr', _) => fst (lazily (m ++ revealed ro tr tr') ws2 (judge st pf))
  | _ => false
  end.
(** the simulated proof depends only on cs and v; the answers at the challenges of its
    verification are replaced by cs *)
Definition sim_game {X St} tr (verify : oracle -> X -> res (bool * transcript)) (sim : word -> word -> X) (ask : prover St) (judge : St -> X -> prover bool)
    (ws1 ws2 cs v : word) : bool :=
  let '(st, m) := lazily [] ws1 ask in
  let pf := sim cs v in
  match verify (coins tr cs) pf with
  | Ok (_, tr') => fst (lazily (revealed (coins tr cs) tr tr' ++ m) ws2 (judge st pf))
  | _ => fst (lazily m ws2 (judge st pf))
  end.
(** number of plays with verdict true: T1 answers before the proof, T2 after it, k challenges
    and m further letters *)
Definition plays (vals : list Scalar) (T1 T2 k m : nat) (game : word -> word -> word -> word -> bool) : nat :=
  list_sum (map (fun ws1 => list_sum (map (fun ws2 =>
    count (fun z => game ws1 ws2 (firstn k z) (skipn k z)) (words vals (k + m))) (words vals T2))) (words vals T1)).
(** ** a client of many proofs *)
(** it queries the hash function, requests proofs of statements of its choice (from a family I)
    and decides; adaptively *)
Inductive client (I X : Type) : Type :=
| Verdict (b : bool)
| Query (h : transcript) (next : Scalar -> client I X)
| Request (i : I) (next : X -> client I X).
Arguments Verdict {I X}. Arguments Query {I X}. Arguments Request {I X}.
(** at most T queries and exactly P requests *)
Fixpoint fits {I X} (T P : nat) (c : client I X) : Prop :=
  match c with
  | Verdict _ => P = 0
  | Query _ next => match T with O => False | S T => forall v, fits T P (next v) end
  | Request _ next => match P with O => False | S P => forall x, fits T P (next x) end
  end.
(** ws: answers to its queries; zs: for each request k challenges and further letters *)
Fixpoint real_session {I X} (tr : I -> transcript) (create : I -> oracle -> (nat -> Scalar) -> res (X * transcript * nat)) (k : nat)
    (m : memo) (c : client I X) (ws : word) (zs : list word) : bool :=
  match c with
  | Verdict b => b
  | Query h next => let v := recall m (fun _ => hd s0 ws) h in real_session tr create k (m ++ [(h, v)]) (next v) (tl ws) zs
  | Request i next =>
      let ro := recall m (coins (tr i) (firstn k (hd [] zs))) in
      match create i ro (tape (skipn k (hd [] zs))) with
      | Ok (pf, tr', _) => real_session tr create k (m ++ revealed ro (tr i) tr') (next pf) ws (tl zs)
      | _ => false
      end
  end.
Fixpoint sim_session {I X} (tr : I -> transcript) (verify : I -> oracle -> X -> res (bool * transcript)) (sim : I -> word -> word -> X) (k : nat)
    (m : memo) (c : client I X) (ws : word) (zs : list word) : bool :=
  match c with
  | Verdict b => b
  | Query h next => let v := recall m (fun _ => hd s0 ws) h in sim_session tr verify sim k (m ++ [(h, v)]) (next v) (tl ws) zs
  | Request i next =>
      let ro := coins (tr i) (firstn k (hd [] zs)) in
      let pf := sim i (firstn k (hd [] zs)) (skipn k (hd [] zs)) in
      match verify i ro pf with
      | Ok (_, tr') => sim_session tr verify sim k (revealed ro (tr i) tr' ++ m) (next pf) ws (tl zs)
      | _ => sim_session tr verify sim k m (next pf) ws (tl zs)
      end
  end.
(** number of sessions with verdict true: T answers, and P words of l letters *)
Definition sessions (vals : list Scalar) (T P l : nat) (session : word -> list word -> bool) : nat :=
  list_sum (map (fun ws => count (session ws) (words (words vals l) P)) (words vals T)).
End Game.
Arguments Verdict {C I X}. Arguments Query {C I X}. Arguments Request {C I X}.

Section Facts.
Context {C : Crypto} {L : CryptoLaws C} (ceq : @encodings_comparable C).
Notation word := (list Scalar).
Notation recall := (recall ceq).
Notation lazily := (lazily ceq).

Lemma recall_ext m ro ro' h : (~ In h (map fst m) -> ro h = ro' h) -> recall m ro h = recall m ro' h.
Proof.
  induction m as [|[h' v] m IH]; cbn; intros H; [auto|]. destruct (hist_eq_dec ceq h h'); auto. apply IH. intros N. apply H.
  intros [->|I]; auto.
Qed.
Lemma recall_out m ro h : ~ In h (map fst m) -> recall m ro h = ro h.
Proof. induction m as [|[h' v] m IH]; cbn; intros N; [auto|]. destruct (hist_eq_dec ceq h h') as [->|]; [exfalso; auto|auto]. Qed.
Lemma recall_app m m' ro h : recall (m ++ m') ro h = recall m (recall m' ro) h.
Proof. induction m as [|[h' v] m IH]; cbn; [auto|]. now destruct (hist_eq_dec ceq h h'). Qed.
Lemma recall_swap m m' ro h : (forall h, In h (map fst m) -> ~ In h (map fst m')) -> recall (m ++ m') ro h = recall (m' ++ m) ro h.
Proof.
  intros D. rewrite !recall_app.
  destruct (in_dec (hist_eq_dec ceq) h (map fst m)) as [I|N].
  - rewrite (recall_out m') by auto. apply recall_ext. tauto.
  - rewrite (recall_out m) by auto. apply recall_ext. intros _. now rewrite recall_out.
Qed.
(** only the recorded answers matter *)
Lemma lazily_memo {X} (p : prover X) : forall m m' ws, (forall ro h, recall m ro h = recall m' ro h) ->
  fst (lazily m ws p) = fst (lazily m' ws p).
Proof.
  induction p as [x|h k IH]; intros m m' ws E; [reflexivity|]. cbn [Nizk.lazily]. rewrite E. apply IH. intros ro h'.
  rewrite !recall_app. apply E.
Qed.
Lemma lazily_length {X} (p : prover X) : forall T m ws, asks T p -> length (snd (lazily m ws p)) <= length m + T.
Proof.
  induction p as [x|h k IH]; intros T m ws A; cbn [Nizk.lazily]; [cbn; lia|]. destruct T as [|T]; [destruct A|].
  specialize (IH (recall m (fun _ => hd s0 ws) h) T (m ++ [(h, recall m (fun _ => hd s0 ws) h)]) (tl ws) (A _)).
  rewrite app_length in IH. cbn [length] in IH. lia.
Qed.

(** one letter determined by the others *)
Lemma count_forced {A} (vals : list A) N (f : list A -> bool) i : i < N -> NoDup vals ->
  (forall w v v', length w = N -> f (set_at w i v) = true -> f (set_at w i v') = true -> v = v') ->
  count f (words vals N) <= length vals ^ (N - 1).
Proof.
  intros Hi HN Hf.
  assert (X := count_fibre vals N (fun _ => true) f i 1 Hi ltac:(auto)).
  assert (Y : forall w, length w = N -> count (fun v => f (set_at w i v)) vals <= 1).
  { intros w Hw. specialize (Hf w). clear X. induction vals as [|v vals IH]; [cbn; lia|]. inversion HN as [|? ? N1 N2]; subst.
    rewrite count_cons. specialize (IH N2). destruct (f (set_at w i v)) eqn:E; [|lia].
    rewrite count_none; [lia|]. intros v' Hv'. destruct (f (set_at w i v')) eqn:E'; auto.
    assert (v = v') by (eapply Hf; eauto). subst v'. contradiction. }
  specialize (X Y). rewrite (count_ext _ f) in X by (intros; reflexivity).
  assert (Z : count (fun _ : list A => true) (words vals N) <= length vals ^ N) by (rewrite <- words_count; apply count_all).
  destruct N as [|N]; [lia|]. replace (S N - 1) with N by lia. rewrite Nat.pow_succ_r' in Z.
  destruct vals as [|v vals]; [cbn in *; lia|]. cbn [length] in *. nia.
Qed.

Definition msg_at (tr h : transcript) : option Compressed :=
  match nth_error h (length tr) with Some (EvMsg _ c) => Some c | _ => None end.
Definition hit (tr : transcript) (mm : memo) (c : Compressed) : bool :=
  existsb (fun hv : transcript * Scalar => match msg_at tr (fst hv) with Some c' => if ceq c c' then true else false | None => false end) mm.
Lemma hit_In tr (mm : memo) lab c e' : In (tr ++ EvMsg lab c :: e') (map fst mm) -> hit tr mm c = true.
Proof.
  intros I. apply in_map_iff in I as ([h v] & E & I). cbn in E. subst h. unfold hit. apply existsb_exists. eexists. split; [exact I|]. cbn [fst].
  unfold msg_at. rewrite nth_error_app2, Nat.sub_diag by lia. cbn. now destruct (ceq c c).
Qed.
Lemma drawn_length e : forall tr : transcript, length (drawn tr e) = nchal e.
Proof. induction e as [|[l c|l n|l] e IH]; intros tr; cbn; rewrite ?IH; reflexivity. Qed.

(** what the arguments of this library offer: statistical zero-knowledge for given challenges,
    equal transcripts of prover and verifier outside a few challenges, and a first message that
    cannot be foreseen *)
Definition simulatable {X} (vals : list Scalar) (tr : transcript) (k m m' N slack e : nat)
    (create : oracle -> (nat -> Scalar) -> res (X * transcript * nat)) (verify : oracle -> X -> res (bool * transcript)) (sim : word -> word -> X) : Prop :=
  exists (lab : string) (first : word -> Compressed) (good : word -> bool),
  (forall test : word -> X -> bool,
     let real := count (fun z => on_proof (test (firstn k z)) (create (coins tr (firstn k z)) (tape (skipn k z)))) (words vals (k + m)) in
     let simd := count (fun z => test (firstn k z) (sim (firstn k z) (skipn k z))) (words vals (k + m')) in
     real <= N * simd + slack /\ N * simd <= real + slack) /\
  (forall cs u pf tr' p, length cs = k -> good cs = true -> create (coins tr cs) (tape u) = Ok (pf, tr', p) ->
     exists b, verify (coins tr cs) pf = Ok (b, tr')) /\
  count (fun cs => negb (good cs)) (words vals k) <= e * length vals ^ (k - 1) /\
  (forall u ro ro', length u = m -> (forall e', ro (tr ++ EvMsg lab (first u) :: e') = ro' (tr ++ EvMsg lab (first u) :: e')) ->
     create ro (tape u) = create ro' (tape u)) /\
  (forall u ro pf tr' p, length u = m -> create ro (tape u) = Ok (pf, tr', p) -> exists e', tr' = tr ++ EvMsg lab (first u) :: e' /\ nchal e' = k) /\
  (forall c, count (fun u => if ceq (first u) c then true else false) (words vals m) <= length vals ^ (m - 1)).

Lemma simulatable_le {X} vals tr k m m' N slack slack' e create verify sim : slack <= slack' ->
  simulatable (X := X) vals tr k m m' N slack e create verify sim -> simulatable vals tr k m m' N slack' e create verify sim.
Proof.
  intros Hs (lab & first & good & ZK & H). exists lab, first, good. split; [|exact H]. intros test real simd. destruct (ZK test) as [Z1 Z2].
  fold real simd in Z1, Z2. cbv zeta in Z1, Z2. lia.
Qed.

(** one proof, given at most T known answers: the error of replacing it by a simulated one *)
Definition step_close {X} (vals : list Scalar) (tr : transcript) (k m m' N : nat)
    (create : oracle -> (nat -> Scalar) -> res (X * transcript * nat)) (verify : oracle -> X -> res (bool * transcript)) (sim : word -> word -> X) (T err : nat) : Prop :=
  forall (mm : memo) (J : X -> memo -> bool), length mm <= T ->
  (forall pf m1 m2, (forall ro h, recall m1 ro h = recall m2 ro h) -> J pf m1 = J pf m2) ->
  let R := count (fun z => let ro := recall mm (coins tr (firstn k z)) in
    match create ro (tape (skipn k z)) with Ok (pf, tr', _) => J pf (mm ++ revealed ro tr tr') | _ => false end) (words vals (k + m)) in
  let S := count (fun z => let pf := sim (firstn k z) (skipn k z) in
    match verify (coins tr (firstn k z)) pf with Ok (_, tr') => J pf (revealed (coins tr (firstn k z)) tr tr' ++ mm) | _ => J pf mm end) (words vals (k + m')) in
  R <= N * S + err /\ N * S <= R + err.

Section Step.
Context {X : Type} (vals : list Scalar) (tr : transcript) (k m m' N slack e : nat)
  (create : oracle -> (nat -> Scalar) -> res (X * transcript * nat)) (verify : oracle -> X -> res (bool * transcript)) (sim : word -> word -> X).

(** one proof, given the answers known so far *)
Lemma nizk_step (T : nat) (mm : memo) (J : X -> memo -> bool) :
  NoDup vals -> 1 <= m -> 1 <= k -> simulatable vals tr k m m' N slack e create verify sim -> length mm <= T ->
  (forall pf m1 m2, (forall ro h, recall m1 ro h = recall m2 ro h) -> J pf m1 = J pf m2) ->
  let R := count (fun z => let ro := recall mm (coins tr (firstn k z)) in
    match create ro (tape (skipn k z)) with Ok (pf, tr', _) => J pf (mm ++ revealed ro tr tr') | _ => false end) (words vals (k + m)) in
  let S := count (fun z => let pf := sim (firstn k z) (skipn k z) in
    match verify (coins tr (firstn k z)) pf with Ok (_, tr') => J pf (revealed (coins tr (firstn k z)) tr tr' ++ mm) | _ => J pf mm end) (words vals (k + m')) in
  let err := slack + (T + e) * length vals ^ (k + m - 1) in
  R <= N * S + err /\ N * S <= R + err.
Proof.
    intros HN Hm Hk (lab & first & good & ZK & Sync & Good & Agree & Lay & Hit) Lm HJ R S0 err. set (M := length vals) in *. unfold err; clear err.
    set (test := fun cs pf => match verify (coins tr cs) pf with
       | Ok (_, tr') => J pf (revealed (coins tr cs) tr tr' ++ mm)
       | _ => J pf mm end).
    destruct (ZK test) as [Z1 Z2]. cbv zeta in Z1, Z2.
    change (count (fun z => test (firstn k z) (sim (firstn k z) (skipn k z))) (words vals (k + m'))) with S0 in Z1, Z2.
    set (R' := count _ (words vals (k + m))) in Z1, Z2.
    set (bad := fun z => hit tr mm (first (skipn k z)) || negb (good (firstn k z))).
    assert (Same : forall z, In z (words vals (k + m)) -> bad z = false ->
      match create (recall mm (coins tr (firstn k z))) (tape (skipn k z)) with
      | Ok (pf, tr', _) => J pf (mm ++ revealed (recall mm (coins tr (firstn k z))) tr tr')
      | _ => false end = on_proof (test (firstn k z)) (create (coins tr (firstn k z)) (tape (skipn k z)))).
    { intros z Hz Hb. apply words_In in Hz as [Hz _]. unfold bad in Hb. apply orb_false_elim in Hb as [B1 B2]. apply negb_false_iff in B2.
      set (cs := firstn k z) in *. set (u := skipn k z) in *.
      assert (Lc : length cs = k) by (unfold cs; rewrite firstn_length; lia). assert (Lu : length u = m) by (unfold u; rewrite skipn_length; lia).
      assert (Out : forall e', recall mm (coins tr cs) (tr ++ EvMsg lab (first u) :: e') = coins tr cs (tr ++ EvMsg lab (first u) :: e')).
      { intros e'. apply recall_out. intros I. apply hit_In in I. congruence. }
      rewrite (Agree u _ (coins tr cs) Lu Out). destruct (create (coins tr cs) (tape u)) as [[[pf tr'] p]| |] eqn:E; [|reflexivity|reflexivity].
      cbn [on_proof]. unfold test. destruct (Sync cs u pf tr' p Lc B2 E) as [b ->].
      destruct (Lay u _ _ _ _ Lu E) as (e' & -> & _).
      assert (Ed : drawn tr (skipn (length tr) (tr ++ EvMsg lab (first u) :: e')) = drawn (tr ++ [EvMsg lab (first u)]) e').
      { rewrite skipn_app, skipn_all, Nat.sub_diag. reflexivity. }
      assert (Ext : forall h, In h (drawn (tr ++ [EvMsg lab (first u)]) e') -> exists e1, h = tr ++ EvMsg lab (first u) :: e1).
      { intros h Hh. apply drawn_In in Hh as (e1 & l & e2 & -> & ->). rewrite <- app_assoc. cbn. eauto. }
      assert (Ea : revealed (recall mm (coins tr cs)) tr (tr ++ EvMsg lab (first u) :: e') = revealed (coins tr cs) tr (tr ++ EvMsg lab (first u) :: e')).
      { unfold revealed. rewrite Ed. apply map_ext_in. intros h Hh. apply Ext in Hh as [e1 ->]. now rewrite Out. }
      rewrite Ea. apply HJ. intros ro h. apply recall_swap. intros h0 I0 I1. unfold revealed in I1. rewrite Ed, map_map in I1. cbn [fst] in I1.
      rewrite map_id in I1. apply Ext in I1 as [e1 ->]. apply hit_In in I0. congruence. }
    assert (Cb : count bad (words vals (k + m)) <= (T + e) * M ^ (k + m - 1)).
    { unfold bad. rewrite Nat.mul_add_distr_r. apply count_or_le.
      - assert (Ch : count (fun u => hit tr mm (first u)) (words vals m) <= T * M ^ (m - 1)).
        { transitivity (length mm * M ^ (m - 1)); [|now apply Nat.mul_le_mono_r]. clear -Hit. unfold hit. induction mm as [|[h v] mm IH].
          - cbn [existsb]. rewrite count_none by reflexivity. lia.
          - cbn [existsb length fst]. change (S (length mm) * M ^ (m - 1)) with (M ^ (m - 1) + length mm * M ^ (m - 1)). apply count_or_le; [|exact IH].
            destruct (msg_at tr h) as [c|]; [apply Hit|]. rewrite count_none by reflexivity. lia. }
        rewrite count_words_app. rewrite (map_ext_in _ (fun _ => count (fun u => hit tr mm (first u)) (words vals m))).
        + assert (Y : forall (l : list word) c, list_sum (map (fun _ => c) l) = length l * c) by (intros l c; induction l as [|a l IH]; [reflexivity|]; cbn [map length]; change (list_sum (?x :: ?y)) with (x + list_sum y); rewrite IH; lia).
          rewrite Y, words_count. fold M. replace (k + m - 1) with (k + (m - 1)) by lia. rewrite Nat.pow_add_r.
          rewrite Nat.mul_assoc, (Nat.mul_comm T), <- Nat.mul_assoc. now apply Nat.mul_le_mono_l.
        + intros a Ha. apply words_In in Ha as [Ha _]. apply count_ext. intros v _. rewrite skipn_app, <- Ha, skipn_all, Nat.sub_diag. reflexivity.
      - rewrite count_words_app.
        rewrite (map_ext_in _ (fun a => if negb (good a) then M ^ m else 0)).
        + assert (Y : forall l c, list_sum (map (fun a : word => if negb (good a) then c else 0) l) = count (fun a => negb (good a)) l * c).
          { intros l c. induction l as [|a l IH]; [reflexivity|]. rewrite count_cons. cbn [map]. change (list_sum (?x :: ?y)) with (x + list_sum y).
            rewrite IH. destruct (negb (good a)); lia. }
          rewrite Y. replace (k + m - 1) with (k - 1 + m) by lia. rewrite Nat.pow_add_r, Nat.mul_assoc. now apply Nat.mul_le_mono_r.
        + intros a Ha. apply words_In in Ha as [Ha _]. rewrite (count_ext _ (fun _ => negb (good a))).
          * destruct (negb (good a)).
            -- unfold M. rewrite <- words_count. clear. induction (words vals m) as [|x l IH]; [reflexivity|]. rewrite count_cons, IH. reflexivity.
            -- now apply count_none.
          * intros v _. rewrite firstn_app, <- Ha, firstn_all, Nat.sub_diag, firstn_O, app_nil_r. reflexivity. }
    assert (R1 : R <= R' + count bad (words vals (k + m))).
    { etransitivity; [|apply count_or]. apply count_le. intros z Hz E. destruct (bad z) eqn:Eb; [apply orb_true_r|]. rewrite orb_false_r.
      rewrite <- (Same z Hz Eb). exact E. }
    assert (R2 : R' <= R + count bad (words vals (k + m))).
    { etransitivity; [|apply count_or]. apply count_le. intros z Hz E. destruct (bad z) eqn:Eb; [apply orb_true_r|]. rewrite orb_false_r.
      cbv zeta. rewrite (Same z Hz Eb). exact E. }
    lia.
Qed.

Lemma nizk_of_step {St} (T1 T2 err0 : nat) (ask : prover St) (judge : St -> X -> prover bool) :
  asks T1 ask -> step_close vals tr k m m' N create verify sim T1 err0 ->
  let real := plays vals T1 T2 k m (real_game ceq tr create ask judge) in
  let simd := plays vals T1 T2 k m' (sim_game ceq tr verify sim ask judge) in
  let err := err0 * length vals ^ (T1 + T2) in
  real <= N * simd + err /\ N * simd <= real + err.
Proof.
  intros HT HS real simd err. set (M := length vals) in *.
  (* one choice of the answers to the distinguisher *)
  assert (One : forall ws1 ws2,
    let R := count (fun z => real_game ceq tr create ask judge ws1 ws2 (firstn k z) (skipn k z)) (words vals (k + m)) in
    let S := count (fun z => sim_game ceq tr verify sim ask judge ws1 ws2 (firstn k z) (skipn k z)) (words vals (k + m')) in
    R <= N * S + err0 /\ N * S <= R + err0).
  { intros ws1 ws2 R S0. unfold real_game in R. unfold sim_game in S0. destruct (lazily [] ws1 ask) as [st mm] eqn:Em.
    assert (Lm : length mm <= T1). { assert (Y := lazily_length ask T1 [] ws1 HT). rewrite Em in Y. exact Y. }
    apply (HS mm (fun pf mm => fst (lazily mm ws2 (judge st pf))) Lm).
    intros pf m1 m2 H. now apply lazily_memo. }
  assert (Sum : forall A (f g : A -> nat) c (l : list A), (forall x, f x <= N * g x + c /\ N * g x <= f x + c) ->
    list_sum (map f l) <= N * list_sum (map g l) + length l * c /\ N * list_sum (map g l) <= list_sum (map f l) + length l * c).
  { clear. intros A f g c l H. induction l as [|x l IH]; [cbn; lia|]. cbn [map length]. change (list_sum (?x :: ?y)) with (x + list_sum y).
    specialize (H x). rewrite !Nat.mul_add_distr_l. cbn [Nat.mul]. lia. }
  unfold real, simd, plays, err.
  replace (err0 * M ^ (T1 + T2)) with (length (words vals T1) * (length (words vals T2) * err0)).
  2:{ rewrite !words_count. fold M. rewrite Nat.pow_add_r. generalize (M ^ T1), (M ^ T2). clear. intros. nia. }
  apply Sum. intros ws1. apply Sum. intros ws2. apply One.
Qed.
Lemma nizk {St} (T1 T2 : nat) (ask : prover St) (judge : St -> X -> prover bool) :
  NoDup vals -> 1 <= m -> 1 <= k -> asks T1 ask -> simulatable vals tr k m m' N slack e create verify sim ->
  let real := plays vals T1 T2 k m (real_game ceq tr create ask judge) in
  let simd := plays vals T1 T2 k m' (sim_game ceq tr verify sim ask judge) in
  let err := (slack + (T1 + e) * length vals ^ (k + m - 1)) * length vals ^ (T1 + T2) in
  real <= N * simd + err /\ N * simd <= real + err.
Proof.
  intros HN Hm Hk HT HS. apply nizk_of_step; [exact HT|]. intros mm J Lm HJ. now apply (nizk_step T1 mm J).
Qed.
End Step.

(** ** many proofs *)
Notation "'sum' f l" := (list_sum (map f l)) (at level 10, f at level 9, l at level 9, only parsing).
Lemma sum_cons {A} (f : A -> nat) x l : sum f (x :: l) = f x + sum f l.
Proof. reflexivity. Qed.
Lemma sum_swap {A B} (F : A -> B -> nat) (lb : list B) : forall la, sum (fun a => sum (F a) lb) la = sum (fun b => sum (fun a => F a b) la) lb.
Proof.
  induction la as [|a la IH].
  - cbn [map]. change (list_sum []) with 0. induction lb as [|b lb IH]; [reflexivity|]. rewrite sum_cons, <- IH. reflexivity.
  - rewrite sum_cons, IH. clear IH. induction lb as [|b lb IH]; [reflexivity|]. rewrite !sum_cons, <- IH. lia.
Qed.
Lemma sum_between {A} (f g : A -> nat) a c (l : list A) : (forall x, In x l -> f x <= a * g x + c /\ a * g x <= f x + c) ->
  sum f l <= a * sum g l + length l * c /\ a * sum g l <= sum f l + length l * c.
Proof.
  induction l as [|x l IH]; intros H; [cbn; lia|]. rewrite !sum_cons. cbn [length]. specialize (IH (fun y Hy => H y (or_intror Hy))).
  destruct (H x (or_introl eq_refl)). rewrite !Nat.mul_add_distr_l. cbn [Nat.mul]. lia.
Qed.
Lemma sum_words_S {A} (l : list A) K (F : list A -> nat) : sum F (words l (S K)) = sum (fun v => sum (fun w => F (v :: w)) (words l K)) l.
Proof.
  cbn [words]. generalize (words l K) as W. intros W. induction l as [|v l IH]; [reflexivity|]. cbn [flat_map]. rewrite map_app, list_sum_app, IH, map_map, sum_cons. reflexivity.
Qed.
Lemma count_swap_sum {A B} (f : A -> B -> bool) (lb : list B) : forall la, sum (fun a => count (f a) lb) la = sum (fun b => count (fun a => f a b) la) lb.
Proof.
  induction la as [|a la IH].
  - cbn [map]. change (list_sum []) with 0. induction lb as [|b lb IH]; [reflexivity|]. rewrite sum_cons, <- IH. reflexivity.
  - rewrite sum_cons, IH. clear IH. induction lb as [|b lb IH]; [reflexivity|]. rewrite !sum_cons, !count_cons, <- IH. destruct (f a b); lia.
Qed.

Section Many.
Context {I X : Type} (vals : list Scalar) (tr : I -> transcript) (k m m' N slack e : nat)
  (create : I -> oracle -> (nat -> Scalar) -> res (X * transcript * nat)) (verify : I -> oracle -> X -> res (bool * transcript)) (sim : I -> word -> word -> X).
Notation real_session := (real_session ceq tr create k).
Notation sim_session := (sim_session ceq tr verify sim k).

Lemma sim_session_memo (c : client I X) : forall m1 m2 ws zs, (forall ro h, recall m1 ro h = recall m2 ro h) ->
  sim_session m1 c ws zs = sim_session m2 c ws zs.
Proof.
  induction c as [b|h next IH|i next IH]; intros m1 m2 ws zs E; cbn [Nizk.sim_session]; [reflexivity| |].
  - cbv zeta. rewrite E. apply IH. intros ro h'. rewrite !recall_app. apply E.
  - cbv zeta. destruct (verify i _ _) as [[b tr']| |]; apply IH; auto. intros ro h'. rewrite !recall_app. apply recall_ext. intros _. apply E.
Qed.

Lemma nizk_many_of_step (c : client I X) Q e0 : N * length vals ^ m' <= length vals ^ m ->
  (forall i, step_close vals (tr i) k m m' N (create i) (verify i) (sim i) Q e0) ->
  (forall i u ro pf tr' p, length u = m -> create i ro (tape u) = Ok (pf, tr', p) -> exists e', tr' = tr i ++ e' /\ nchal e' = k) ->
  forall T P mm, fits T P c -> length mm + T + k * P <= Q ->
  let R := sessions vals T P (k + m) (real_session mm c) in
  let S := sessions vals T P (k + m') (sim_session mm c) in
  let err := P * e0 * (length vals ^ T * length vals ^ ((k + m) * (P - 1))) in
  R <= N ^ P * S + err /\ N ^ P * S <= R + err.
Proof.
  intros HNM HS HLay. set (M := length vals) in *.
  induction c as [b|h next IH|i next IH]; intros T P mm HF HQ R S0 err.
  - cbn in HF. subst P. unfold R, S0. change (N ^ 0) with 1. unfold sessions. cbn [words Nizk.real_session Nizk.sim_session]. lia.
  - cbn [fits] in HF. destruct T as [|T]; [destruct HF|].
    set (nx := fun v => recall mm (fun _ => v) h).
    assert (ER : R = sum (fun v => sessions vals T P (k + m) (real_session (mm ++ [(h, nx v)]) (next (nx v)))) vals).
    { unfold R, sessions. rewrite sum_words_S. reflexivity. }
    assert (ES : S0 = sum (fun v => sessions vals T P (k + m') (sim_session (mm ++ [(h, nx v)]) (next (nx v)))) vals).
    { unfold S0, sessions. rewrite sum_words_S. reflexivity. }
    rewrite ER, ES. unfold err. rewrite Nat.pow_succ_r'. fold M.
    replace (P * e0 * (M * M ^ T * M ^ ((k + m) * (P - 1)))) with (length vals * (P * e0 * (M ^ T * M ^ ((k + m) * (P - 1))))).
    + apply sum_between. intros v _. apply (IH (nx v) T P); [apply HF|]. rewrite app_length. cbn [length]. lia.
    + fold M. generalize (M ^ T), (M ^ ((k + m) * (P - 1))), e0. clear. intros. nia.
  - cbn [fits] in HF. destruct P as [|P]; [destruct HF|].
    set (ro := fun z => recall mm (coins (tr i) (firstn k z))).
    (* first the remaining requests, then this one *)
    set (H1 := fun z ws zs => match create i (ro z) (tape (skipn k z)) with
      | Ok (pf, tr', _) => sim_session (mm ++ revealed (ro z) (tr i) tr') (next pf) ws zs | _ => false end).
    set (Mid := sum (fun z => sum (fun ws => count (H1 z ws) (words (words vals (k + m')) P)) (words vals T)) (words vals (k + m))).
    assert (LW : length (words vals (k + m)) = M ^ (k + m)) by apply words_count.
    set (c1 := P * e0 * (M ^ T * M ^ ((k + m) * (P - 1)))).
    assert (A1 : R <= N ^ P * Mid + M ^ (k + m) * c1 /\ N ^ P * Mid <= R + M ^ (k + m) * c1).
    { assert (ER : R = sum (fun z => sum (fun ws => count (fun zs => match create i (ro z) (tape (skipn k z)) with
          | Ok (pf, tr', _) => real_session (mm ++ revealed (ro z) (tr i) tr') (next pf) ws zs | _ => false end) (words (words vals (k + m)) P)) (words vals T)) (words vals (k + m))).
      { unfold R, sessions. rewrite <- (sum_swap (fun ws z => count _ (words (words vals (k + m)) P))). f_equal. apply map_ext. intros ws. rewrite count_words_S. reflexivity. }
      rewrite ER. unfold Mid. rewrite <- LW. apply sum_between. intros z Hz. apply words_In in Hz as [Lz _]. unfold H1.
      destruct (create i (ro z) (tape (skipn k z))) as [[[pf tr'] p]| |] eqn:E.
      - apply (IH pf T P); [apply HF|]. destruct (HLay i (skipn k z) _ _ _ _ ltac:(rewrite skipn_length; lia) E) as (e' & -> & Ne). rewrite app_length. unfold revealed. rewrite map_length, drawn_length.
        rewrite skipn_app, skipn_all, Nat.sub_diag. cbn [skipn app].
        match goal with |- context [nchal ?l] => replace (nchal l) with k by (rewrite <- Ne; reflexivity) end. lia.
      - assert (Z : forall l K, sum (fun _ : word => count (fun _ : list word => false) K) l = 0).
        { intros l K. rewrite (count_none (fun _ => false)) by reflexivity. induction l; [reflexivity|assumption]. } rewrite !Z. lia.
      - assert (Z : forall l K, sum (fun _ : word => count (fun _ : list word => false) K) l = 0).
        { intros l K. rewrite (count_none (fun _ => false)) by reflexivity. induction l; [reflexivity|assumption]. } rewrite !Z. lia. }
    set (c2 := M ^ T * (M ^ ((k + m') * P) * e0)).
    assert (A2 : Mid <= N * S0 + c2 /\ N * S0 <= Mid + c2).
    { assert (EM : Mid = sum (fun ws => sum (fun zs => count (fun z => H1 z ws zs) (words vals (k + m))) (words (words vals (k + m')) P)) (words vals T)).
      { unfold Mid. rewrite sum_swap. f_equal. apply map_ext. intros ws. apply (count_swap_sum (fun z zs => H1 z ws zs)). }
      assert (ES : S0 = sum (fun ws => sum (fun zs => count (fun z => sim_session mm (Request i next) ws (z :: zs)) (words vals (k + m'))) (words (words vals (k + m')) P)) (words vals T)).
      { unfold S0, sessions. f_equal. apply map_ext. intros ws. rewrite count_words_S. apply (count_swap_sum (fun z zs => sim_session mm (Request i next) ws (z :: zs))). }
      rewrite EM, ES. unfold c2.
      replace (M ^ T) with (length (words vals T)) by apply words_count.
      replace (M ^ ((k + m') * P)) with (length (words (words vals (k + m')) P)) by (rewrite !words_count, <- Nat.pow_mul_r; reflexivity).
      apply sum_between. intros ws _. apply sum_between. intros zs _.
      apply (HS i mm (fun pf mm => sim_session mm (next pf) ws zs) ltac:(lia)).
      intros pf m1 m2 H. now apply sim_session_memo. }
    assert (NP : N ^ P * M ^ ((k + m') * P) <= M ^ ((k + m) * P)).
    { rewrite (Nat.mul_comm (k + m')), (Nat.mul_comm (k + m)), !(Nat.mul_comm P), !Nat.pow_mul_r, <- Nat.pow_mul_l. apply Nat.pow_le_mono_l.
      rewrite !Nat.pow_add_r. generalize (M ^ k). intros. nia. }
    assert (B2 : N ^ P * c2 <= e0 * (M ^ T * M ^ ((k + m) * P))).
    { unfold c2. replace (N ^ P * (M ^ T * (M ^ ((k + m') * P) * e0))) with (e0 * (M ^ T * (N ^ P * M ^ ((k + m') * P)))) by (generalize (N ^ P), (M ^ T), (M ^ ((k + m') * P)), e0; clear; intros; nia).
      apply Nat.mul_le_mono_l, Nat.mul_le_mono_l, NP. }
    assert (B1 : M ^ (k + m) * c1 <= P * e0 * (M ^ T * M ^ ((k + m) * P))).
    { unfold c1. destruct P as [|P]; [cbn [Nat.mul]; lia|]. replace (S P - 1) with P by lia.
      replace ((k + m) * S P) with ((k + m) + (k + m) * P) by lia. rewrite (Nat.pow_add_r M (k + m) ((k + m) * P)).
      generalize (M ^ (k + m)), (M ^ T), (M ^ ((k + m) * P)), (S P * e0). clear. intros. nia. }
    assert (Ee : err = P * e0 * (M ^ T * M ^ ((k + m) * P)) + e0 * (M ^ T * M ^ ((k + m) * P))).
    { unfold err. replace (S P - 1) with P by lia. generalize (M ^ T * M ^ ((k + m) * P)). intros. nia. }
    rewrite Ee, Nat.pow_succ_r'. destruct A1 as [A1 A1'], A2 as [A2 A2'].
    assert (D1 := Nat.mul_le_mono_l _ _ (N ^ P) A2). assert (D2 := Nat.mul_le_mono_l _ _ (N ^ P) A2'). rewrite Nat.mul_add_distr_l in D1, D2.
    rewrite Nat.mul_assoc in D1, D2. rewrite (Nat.mul_comm N (N ^ P)). lia.
Qed.
Lemma nizk_many (c : client I X) Q : NoDup vals -> 1 <= m -> 1 <= k -> N * length vals ^ m' <= length vals ^ m ->
  (forall i, simulatable vals (tr i) k m m' N slack e (create i) (verify i) (sim i)) ->
  forall T P mm, fits T P c -> length mm + T + k * P <= Q ->
  let R := sessions vals T P (k + m) (real_session mm c) in
  let S := sessions vals T P (k + m') (sim_session mm c) in
  let err := P * (slack + (Q + e) * length vals ^ (k + m - 1)) * (length vals ^ T * length vals ^ ((k + m) * (P - 1))) in
  R <= N ^ P * S + err /\ N ^ P * S <= R + err.
Proof.
  intros HN Hm Hk HNM HS. apply nizk_many_of_step; [exact HNM| |].
  - intros i mm J Lm HJ. now apply (nizk_step vals (tr i) k m m' N slack e (create i) (verify i) (sim i) Q mm J).
  - intros i u ro pf tr' p Lu E. destruct (HS i) as (lab & first & good & _ & _ & _ & _ & Lay & _).
    destruct (Lay u _ _ _ _ Lu E) as (e' & -> & Ne). eexists. split; [reflexivity|exact Ne].
Qed.
End Many.
End Facts.
