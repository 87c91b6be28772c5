(** C57: the verifiers, and the provers of the inner-product, QESA and copy arguments,
    terminate on every input (they return a value or panic). *)
From Coq Require Import String.
From Verif Require Export PropAlm PropQesa PropKary PropCopy.
Local Open Scope string_scope.
Local Open Scope nat_scope.
Local Open Scope list_scope.

Definition terminates {A} (r : res A) : Prop := r <> Diverge.

Ltac td := unfold terminates; discriminate.
Lemma t_Ok {A} (a : A) : terminates (Ok a). Proof. td. Qed.
Lemma t_Panic {A} : terminates (@Panic A). Proof. td. Qed.
Lemma t_bind {A B} (r : res A) (f : A -> res B) :
  terminates r -> (forall a, terminates (f a)) -> terminates (bind r f).
Proof. destruct r; cbn; intros H1 H2; auto; first [td | now destruct H1]. Qed.
Lemma t_bind_on {A B} (r : res A) (f : A -> res B) :
  terminates r -> (forall a, r = Ok a -> terminates (f a)) -> terminates (bind r f).
Proof. destruct r; cbn; intros H1 H2; auto; first [td | now destruct H1]. Qed.
Lemma t_assertb b : terminates (assertb b). Proof. destruct b; td. Qed.
Lemma t_usub a b : terminates (usub a b). Proof. unfold usub. destruct (_ <=? _); td. Qed.
Lemma t_udiv a b : terminates (udiv a b). Proof. unfold udiv. destruct (_ =? _); td. Qed.
Lemma t_urem a b : terminates (urem a b). Proof. unfold urem. destruct (_ =? _); td. Qed.
Lemma t_idx {A} (l : list A) i : terminates (idx l i). Proof. unfold idx. destruct (nth_error l i); td. Qed.
Lemma t_upd {A} (l : list A) i v : terminates (upd l i v). Proof. unfold upd. destruct (_ <? _); td. Qed.
Lemma t_split_at {A} n (l : list A) : terminates (split_at n l). Proof. unfold split_at. destruct (_ <=? _); td. Qed.
Lemma t_unwrap {A} (o : option A) : terminates (unwrap o). Proof. destruct o; td. Qed.
Lemma t_mapM {A B} (f : A -> res B) l : (forall a, terminates (f a)) -> terminates (mapM f l).
Proof. intros H. induction l as [|a l IH]; cbn [mapM]; [apply t_Ok|]. repeat (apply t_bind; intros; auto using t_Ok). Qed.
Lemma t_map2M {A B D} (f : A -> B -> res D) l : forall l', (forall a b, terminates (f a b)) -> terminates (map2M f l l').
Proof.
  induction l as [|a l IH]; intros [|b l'] H; cbn [map2M]; try apply t_Ok.
  repeat (apply t_bind; intros; auto using t_Ok).
Qed.
Lemma t_foldM {A B} (f : A -> B -> res A) l : forall acc, (forall a b, terminates (f a b)) -> terminates (foldM f l acc).
Proof. induction l as [|b l IH]; intros acc H; cbn [foldM]; [apply t_Ok|]. apply t_bind; auto. Qed.

Ltac tstep :=
  lazymatch goal with
  | |- terminates (Ok _) => apply t_Ok
  | |- terminates Panic => apply t_Panic
  | |- terminates (assertb _) => apply t_assertb
  | |- terminates (usub _ _) => apply t_usub
  | |- terminates (udiv _ _) => apply t_udiv
  | |- terminates (urem _ _) => apply t_urem
  | |- terminates (idx _ _) => apply t_idx
  | |- terminates (upd _ _ _) => apply t_upd
  | |- terminates (split_at _ _) => apply t_split_at
  | |- terminates (unwrap _) => apply t_unwrap
  | |- terminates (mapM _ _) => apply t_mapM; intros
  | |- terminates (map2M _ _ _) => apply t_map2M; intros
  | |- terminates (foldM _ _ _) => apply t_foldM; intros
  | |- terminates (bind _ _) => apply t_bind; intros
  | |- terminates (match ?x with (_, _) => _ end) => destruct x
  | |- terminates (match ?x with Some _ => _ | None => _ end) => destruct x
  | |- terminates (if ?x then _ else _) => destruct x
  | |- terminates (let x := _ in _) => cbv zeta
  | |- terminates (match ?x with (_, _) => _ end _) => destruct x
  end.
Ltac tsolve := repeat tstep.

Section C57.
Context {C : Crypto}.

Lemma t_msm ss ps : terminates (msm ss ps). Proof. unfold msm. tsolve. Qed.
Lemma t_vandemonde_challenge x n : terminates (vandemonde_challenge x n).
Proof. unfold vandemonde_challenge. tsolve. Qed.
Lemma t_vandemonde_vector x n : terminates (vandemonde_vector x n).
Proof. unfold vandemonde_vector. tsolve. Qed.
Lemma t_row_row_add a b : terminates (row_row_add a b). Proof. unfold row_row_add. tsolve. Qed.
Lemma t_row_row_sub a b : terminates (row_row_sub a b). Proof. unfold row_row_sub. tsolve. Qed.
Lemma t_matrix_matrix_add A B : terminates (matrix_matrix_add A B).
Proof. unfold matrix_matrix_add. tsolve. all: apply t_row_row_add. Qed.
Lemma t_transpose_loop {T} (m tr : list (list T)) : terminates (transpose_loop m tr).
Proof. unfold transpose_loop, transpose_push. tsolve. Qed.
Lemma t_matrix_transpose m : terminates (matrix_transpose m).
Proof. unfold matrix_transpose. apply t_bind; intros; [tsolve|apply t_transpose_loop]. Qed.
Lemma t_block_matrix_batch b ch : terminates (block_matrix_batch b ch).
Proof. unfold block_matrix_batch. tsolve. all: apply t_matrix_matrix_add. Qed.
Lemma t_rowpoint_rowpoint_add a b : terminates (rowpoint_rowpoint_add a b).
Proof. unfold rowpoint_rowpoint_add. tsolve. Qed.
Lemma t_matrixpoint_matrix_add A B : terminates (matrixpoint_matrix_add A B).
Proof. unfold matrixpoint_matrix_add. tsolve. all: apply t_rowpoint_rowpoint_add. Qed.
Lemma t_matrix_split {T} (m : list (list T)) c : terminates (matrix_split m c).
Proof. unfold matrix_split. tsolve. Qed.
Lemma t_sum_loop {T} f (add : T -> T -> res T) k :
  (forall i, terminates (f i)) -> (forall a b, terminates (add a b)) -> terminates (sum_loop f add k).
Proof. intros H1 H2. unfold sum_loop. apply t_bind; intros; [|tsolve]. apply t_foldM. intros. apply t_bind; auto. intros. tsolve. apply H2. Qed.
Lemma t_u_vec_loop shift A_T w_T t u : terminates (u_vec_loop shift A_T w_T t u).
Proof. unfold u_vec_loop. tsolve. all: apply t_rowpoint_rowpoint_add. Qed.
Lemma t_z_vec_loop shift x y z : terminates (z_vec_loop shift x y z).
Proof. unfold z_vec_loop. tsolve. Qed.
Lemma t_compute_gamma_prime g n : terminates (compute_gamma_prime g n).
Proof. unfold compute_gamma_prime. tsolve. Qed.
Lemma t_orth a b : terminates (orth a b). Proof. unfold orth. tsolve. Qed.

Hint Resolve t_msm t_vandemonde_challenge t_vandemonde_vector t_row_row_add t_row_row_sub t_matrix_matrix_add
  t_matrix_transpose t_block_matrix_batch t_rowpoint_rowpoint_add t_matrixpoint_matrix_add t_matrix_split t_sum_loop
  t_u_vec_loop t_z_vec_loop t_compute_gamma_prime t_orth : term.
Ltac tgo := repeat first [ progress tsolve | solve [auto with term] ].

(** ** verifiers *)
Theorem C57_ipa_verifier_terminates ro tr pf (G H : list Point) Q n P t : terminates (no_zk_verify ro tr pf G H Q n P t).
Proof.
  unfold no_zk_verify. tgo.
Qed.
Theorem C57_almzk_verifier_terminates ro tr pf (G H : list Point) Q n Cw t : terminates (alm_zk_verify ro tr pf G H Q n Cw t).
Proof. unfold alm_zk_verify. tgo. apply C57_ipa_verifier_terminates. Qed.
Theorem C57_qesa_verifier_terminates ro tr pf (G H : list Point) Q g : terminates (inner_verify ro tr pf G H Q g).
Proof. unfold inner_verify. tgo. apply C57_almzk_verifier_terminates. Qed.
Theorem C57_zk_verifier_terminates ro tr pf (G H : list Point) Q g : terminates (zk_verify ro tr pf G H Q g).
Proof. apply C57_qesa_verifier_terminates. Qed.

(** the matrix of an equation is padded to n - 2 rows; for n = 2 the write before it panics *)
Lemma t_copy_matrix n2 z mm ch c : terminates (create_copy_matrix n2 z mm ch c).
Proof.
  unfold create_copy_matrix. rewrite map_const_repeat. apply t_bind_on; [apply t_upd|]. intros e1 H1.
  assert (Hn : 1 <= n2). { unfold upd in H1. rewrite repeat_length in H1. destruct (Nat.ltb_spec (N.to_nat c) n2); [lia|discriminate]. }
  apply t_bind; [tsolve|]. intros e2. rewrite (pad_rows_eq (S n2) n2) by (cbn; lia). apply t_Ok.
Qed.
Theorem C57_copy_verifier_terminates ro tr pf (G H : list Point) Q g mp Cs : terminates (copy_verify ro tr pf G H Q g mp Cs).
Proof.
  unfold copy_verify. change verify_copy_matrix with create_copy_matrix.
  destruct (challenge_scalar ro _ _). repeat (apply t_bind; [solve [tgo]|intros]). apply t_bind; [|intros; apply C57_qesa_verifier_terminates].
  apply t_foldM. intros. apply t_bind; [apply t_copy_matrix|intros; apply t_Ok].
Qed.

Lemma t_lmpa_verify_loop pf : forall f ro tr n A t i, length (lm_L pf) < i + f -> i <= length (lm_L pf) ->
  terminates (lmpa_verify_loop f ro tr pf n A t i).
Proof.
  induction f as [|f IH]; intros ro tr n A t i Hf Hi; [lia|]. cbn [lmpa_verify_loop]. destruct (n =? 1); [tsolve|].
  apply t_bind_on; [apply t_idx|]. intros Lr HL. apply t_bind; [apply t_idx|]. intros Rr. destruct (challenge_scalar _ _ _).
  apply t_bind; [apply t_matrixpoint_matrix_add|]. intros A'.
  assert (i < length (lm_L pf)). { unfold idx in HL. destruct (nth_error _ i) eqn:E; [|discriminate]. apply nth_error_Some. now rewrite E. }
  apply IH; lia.
Qed.
Theorem C57_lmpa_verifier_terminates ro tr pf A (G H : list Point) Q n t : terminates (lmpa_verify ro tr pf A G H Q n t).
Proof. unfold lmpa_verify. apply t_bind; [apply t_assertb|]. intros _. apply t_lmpa_verify_loop; lia. Qed.
Theorem C57_simplezk_verifier_terminates ro tr pf A (G H : list Point) Q n t : terminates (simple_zk_verify ro tr pf A G H Q n t).
Proof.
  unfold simple_zk_verify. apply t_bind; [apply t_assertb|]. intros _. destruct (challenge_scalar _ _ _).
  apply C57_lmpa_verifier_terminates.
Qed.
Lemma t_kary_verify_loop pf : forall f ro tr A t n m k one zero i, length (u_proof_Block pf) < i + f -> i <= length (u_proof_Block pf) ->
  terminates (kary_verify_loop f ro tr pf A t n m k one zero i).
Proof.
  induction f as [|f IH]; intros ro tr A t n m k one zero i Hf Hi; [lia|]. cbn [kary_verify_loop]. destruct (k <=? n); [|tsolve].
  do 3 (apply t_bind; [solve [tgo]|intros]).
  apply t_bind_on; [apply t_idx|]. intros u_b HU. destruct (challenge_scalar _ _ _).
  do 5 (apply t_bind; [solve [tgo | apply t_sum_loop; intros; cbv beta; tgo]|intros]).
  assert (i < length (u_proof_Block pf)). { unfold idx in HU. destruct (nth_error _ i) eqn:E; [|discriminate]. apply nth_error_Some. now rewrite E. }
  apply IH; lia.
Qed.
Theorem C57_kary_verifier_terminates ro tr pf A t n m k one zero : terminates (verify_lmpa_noZK ro tr pf A t n m k one zero).
Proof. apply t_kary_verify_loop; lia. Qed.
Theorem C57_general_verifier_terminates ro tr pf A t n m k : terminates (verify_general ro tr pf A t n m k).
Proof. unfold verify_general. destruct (challenge_scalar _ _ _). apply C57_kary_verifier_terminates. Qed.

(** ** provers *)
Lemma t_sample_loop rng n : forall f i pos r, 4 <= i -> 1 <= f -> n + 1 < i + f -> terminates (sample_loop f rng n i pos r).
Proof.
  induction f as [|f IH]; intros i pos r Hi Hf1 Hf; cbn [sample_loop]; [lia|]. destruct (i <=? n) eqn:E; [|apply t_Ok].
  apply Nat.leb_le in E. do 2 (apply t_bind; [apply t_upd|intros]). apply IH; lia.
Qed.
Lemma t_sample rng pos n : terminates (sample_m_n_plus rng pos n).
Proof.
  unfold sample_m_n_plus. do 2 (apply t_bind; [apply t_upd|intros]). apply t_bind; [apply t_sample_loop; lia|]. intros [r p]. tgo.
Qed.
Lemma t_gram rng pos a : terminates (sample_gram_schmidt rng pos a).
Proof. unfold sample_gram_schmidt. apply t_bind; [apply t_sample|]. intros [v p]. tgo. Qed.
Lemma t_gram2 rng pos a b : terminates (sample_gram_schmidt_twice rng pos a b).
Proof. unfold sample_gram_schmidt_twice. apply t_bind; [apply t_orth|]. intros. apply t_bind; [apply t_gram|]. intros [v p]. tgo. Qed.
Context {L : CryptoLaws C}.
Theorem C57_ipa_prover_terminates ro tr (G H : list Point) Q a b : terminates (no_zk_create ro tr G H Q a b).
Proof.
  intros E. assert (X := C14_nozk_create_no_divergence ro tr G H Q a b). rewrite E in X.
  discriminate X. intros r Y. discriminate Y.
Qed.
Theorem C57_almzk_prover_terminates ro rng pos tr (G H : list Point) Q Cw a b t : terminates (alm_zk_create ro rng pos tr G H Q Cw a b t).
Proof.
  unfold alm_zk_create. apply t_bind; [apply t_gram|]. intros [r1 p1]. apply t_bind; [apply t_gram2|]. intros [r2 p2].
  apply t_bind; [apply t_msm|]. intros Cr. destruct (challenge_scalar _ _ _). apply t_bind; [apply C57_ipa_prover_terminates|].
  intros [pf tr2]. apply t_Ok.
Qed.
Theorem C57_qesa_prover_terminates ro rng pos tr (G H : list Point) Q g w r : terminates (inner_create ro rng pos tr G H Q g w r).
Proof.
  unfold inner_create. repeat first [progress tsolve | solve [auto with term]]. apply C57_almzk_prover_terminates.
Qed.
Theorem C57_zk_prover_terminates ro rng pos tr (G H : list Point) Q g w : terminates (zk_create ro rng pos tr G H Q g w).
Proof. unfold zk_create. apply t_bind; [apply C57_qesa_prover_terminates|]. intros [[pf t2] p]. apply t_Ok. Qed.
Theorem C57_copy_prover_terminates ro rng pos tr (G H : list Point) Q mp g w op : terminates (copy_create ro rng pos tr G H Q mp g w op).
Proof.
  unfold copy_create.
  repeat first [apply C57_qesa_prover_terminates | apply t_copy_matrix | progress tsolve | solve [auto with term]].
Qed.
End C57.

(** hostile inputs: empty vectors, k = 1 with three blocks, too few rounds, n = 2 with a
    commitment index: all end *)
Example C57_case :
  let kp := mkLmpaKary (C := EX) [[pN 1]] [] [sN 1] (repeat (repeat [pN 1] 1) 3) in
  rmap fst (verify_lmpa_noZK ro1 [] kp [[pN 1]] [pN 1] 1 1 1 s1 p0) = Panic /\
  rmap fst (lmpa_verify ro1 [] (mkLmpaNoZK (C := EX) [] [] (sN 1)) [] [] [] p0 0 []) = Panic /\
  rmap fst (no_zk_verify ro1 [] (mkNoZK (C := EX) [] [] (sN 1) (sN 1)) [] [] p0 1 p0 s0) = Panic /\
  rmap fst (copy_verify ro1 [] (mkCopy (C := EX) (compress p0) (mkInner (mkAlmZK (compress p0) (mkNoZK [] [] s0 s0)) (compress p0) (compress p0)))
     [pN 1; pN 2] [pN 3; pN 4] p0 (mkBlockMatrix []) (mkMapping 1 [] [0%N] 0%N) [pN 1]) = Panic.
Proof. vm_compute. auto. Qed.
