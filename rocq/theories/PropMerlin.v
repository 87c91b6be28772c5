(** C88: the bytes behind the challenges. The model of merlin returns, for every history that
    ends with a request, the output of a sponge on an input that determines the history. *)
From Coq Require Import String Ascii.
From Verif Require Export MerlinSpec PropChallenge.
From Verif Require Import ListFacts MatrixFacts CopyFacts PropEqTest.
Local Open Scope string_scope.
Local Open Scope Z_scope.
Local Open Scope nat_scope.
Local Open Scope list_scope.

(** ** The input determines the entries *)
(** taking back the last cell *)
Definition undo1 (i : input) : option (cell * input) :=
  match open i with
  | c :: r => Some (c, mkInput r (began i) (closed i))
  | [] => match closed i with
          | (c :: r, p) :: d => Some (c, mkInput r p d)
          | _ => None
          end
  end.
Fixpoint undo (k : nat) (i : input) : option (list cell * input) :=
  match k with
  | O => Some ([], i)
  | S k => match undo1 i with
           | Some (c, i) => match undo k i with Some (l, i) => Some (l ++ [c], i) | None => None end
           | None => None
           end
  end.
(** cells since the last operation began *)
Fixpoint ages (d : list (list cell * nat)) : nat :=
  match d with
  | [] => 0
  | (c, p) :: r => if p =? 0 then length c + ages r else length c + 1 - p
  end.
Definition age (i : input) : nat := ages ((open i, began i) :: closed i).
Definition fits (i : input) : Prop := length (open i) < 166 /\ began i <= length (open i) + 1.

Lemma put_fits i c : fits i -> fits (put i c).
Proof.
  intros [H1 H2]. unfold put, fits. cbn [open length]. destruct (Nat.eqb_spec (S (length (open i))) 166); cbn [close open began length]; lia.
Qed.
Lemma put_age i c : fits i -> age (put i c) = S (age i).
Proof.
  intros [H1 H2]. unfold put. cbn [open length]. unfold age.
  destruct (Nat.eqb_spec (S (length (open i))) 166); cbn [close open began closed ages length Nat.eqb Nat.add];
    destruct (Nat.eqb_spec (began i) 0); lia.
Qed.
Lemma undo_put i c : fits i -> undo1 (put i c) = Some (c, i).
Proof.
  intros [H1 H2]. unfold put. cbn [open length]. destruct (_ =? 166); unfold undo1; cbn [close open closed began]; now destruct i.
Qed.
Lemma puts_fits l : forall i, fits i -> fits (puts i l).
Proof. induction l as [|c l IH]; intros i H; [exact H|]. apply IH. now apply put_fits. Qed.
Lemma puts_age l : forall i, fits i -> age (puts i l) = length l + age i.
Proof.
  induction l as [|c l IH]; intros i H; [reflexivity|]. change (puts i (c :: l)) with (puts (put i c) l).
  rewrite IH by now apply put_fits. rewrite put_age by auto. cbn [length]. lia.
Qed.
Lemma undo_puts l : forall k i, fits i ->
  undo (length l + k) (puts i l) = match undo k i with Some (l', i') => Some (l' ++ l, i') | None => None end.
Proof.
  induction l as [|c l IH] using rev_ind; intros k i H.
  - cbn. destruct (undo k i) as [[l' i']|]; [|reflexivity]. now rewrite app_nil_r.
  - rewrite app_length. cbn [length]. replace (length l + 1 + k) with (S (length l + k)) by lia.
    unfold puts. rewrite fold_left_app. cbn [fold_left]. fold (puts i l). cbn [undo]. rewrite undo_put by now apply puts_fits.
    rewrite IH by auto. destruct (undo k i) as [[l' i']|]; [|reflexivity]. now rewrite app_assoc.
Qed.

Definition reopened (i : input) : input := mkInput (open i) (length (open i) + 1) (closed i).
Lemma reopened_fits i : fits i -> fits (reopened i).
Proof. intros [H1 H2]. split; cbn [reopened open began]; lia. Qed.
Lemma reopened_age i : age (reopened i) = 0.
Proof. unfold age, reopened. cbn [open began closed ages]. destruct (Nat.eqb_spec (length (open i) + 1) 0); lia. Qed.
(** the input between the header and the data *)
Definition ready (i : input) (flags : Z) : input :=
  let i := header i flags in
  if (flags =? 7)%Z && negb (length (open i) =? 0) then close i else i.
Lemma op_ready i flags data : op i flags data = puts (ready i flags) data.
Proof. reflexivity. Qed.
Lemma header_fits i flags : fits i -> fits (header i flags).
Proof. intros H. apply puts_fits. now apply reopened_fits. Qed.
Lemma close_fits i : fits (close i).
Proof. split; cbn; lia. Qed.
Lemma ready_fits i flags : fits i -> fits (ready i flags).
Proof. intros H. unfold ready. destruct (_ && _); [apply close_fits|now apply header_fits]. Qed.
Lemma close_age i : age (close i) = age i.
Proof. reflexivity. Qed.
Lemma ready_age i flags : fits i -> age (ready i flags) = 2.
Proof.
  intros H. assert (E : age (header i flags) = 2).
  { unfold header. fold (reopened i). rewrite puts_age by now apply reopened_fits. now rewrite reopened_age. }
  unfold ready. destruct (_ && _); [now rewrite close_age|exact E].
Qed.
Lemma undo_close i k : open i <> [] -> undo (S k) (close i) = undo (S k) i.
Proof. intros H. cbn [undo]. unfold undo1 at 1. cbn [close open closed]. unfold undo1. destruct (open i); [congruence|reflexivity]. Qed.
Lemma undo_ready i flags : fits i -> undo 2 (ready i flags) = Some ([Xor (Z.of_nat (began i)); Xor flags], reopened i).
Proof.
  intros H. assert (E : undo 2 (header i flags) = Some ([Xor (Z.of_nat (began i)); Xor flags], reopened i)).
  { unfold header. fold (reopened i). exact (undo_puts [Xor (Z.of_nat (began i)); Xor flags] 0 (reopened i) (reopened_fits i H)). }
  unfold ready. destruct (_ && _) eqn:B; [|exact E]. rewrite undo_close; [exact E|].
  apply andb_true_iff in B as [_ B]. destruct (open (header i flags)); [discriminate|congruence].
Qed.
Lemma op_fits i flags data : fits i -> fits (op i flags data).
Proof. intros H. rewrite op_ready. apply puts_fits. now apply ready_fits. Qed.
Lemma op_inj i i' f f' d d' : fits i -> fits i' -> op i f d = op i' f' d' -> i = i' /\ f = f' /\ d = d'.
Proof.
  intros H H' E. rewrite !op_ready in E.
  assert (Ea : age (puts (ready i f) d) = age (puts (ready i' f') d')) by now rewrite E.
  rewrite !puts_age, !ready_age in Ea by (auto; now apply ready_fits). assert (El : length d = length d') by lia.
  assert (Eu : undo (length d + 2) (puts (ready i f) d) = undo (length d' + 2) (puts (ready i' f') d')) by now rewrite E, El.
  rewrite !undo_puts, !undo_ready in Eu by (auto; now apply ready_fits). injection Eu as E1 E2 E3 E4 E5 E6.
  apply Nat2Z.inj in E1. split; [|auto]. destruct i as [o b c], i' as [o' b' c']. cbn in *. subst. reflexivity.
Qed.

Lemma app_inj_len {A} (a a' b b' : list A) : length b = length b' -> a ++ b = a' ++ b' -> a = a' /\ b = b'.
Proof.
  intros HL E. assert (La : length a = length a') by (apply (f_equal (@length A)) in E; rewrite !app_length in E; lia).
  revert a' La E. induction a as [|x a IH]; intros [|x' a'] La E; try discriminate; [auto|].
  injection E as -> E. injection La as La. destruct (IH a' La E) as [-> ->]. auto.
Qed.
Lemma map_Xor_inj l : forall l', map Xor l = map Xor l' -> l = l'.
Proof. induction l as [|x l IH]; intros [|x' l'] E; try discriminate; [reflexivity|]. injection E as -> E. now rewrite (IH l'). Qed.
Lemma le_bytes_length k : forall z, length (le_bytes k z) = k.
Proof. induction k as [|k IH]; intros z; cbn [le_bytes length]; auto. Qed.
Lemma framed_inj l l' n n' : framed l n = framed l' n' -> l = l'.
Proof. intros E. apply map_Xor_inj in E. apply app_inj_len in E as [E _]; auto. Qed.
Lemma repeat_length_inj {A} (x : A) n n' : repeat x n = repeat x n' -> n = n'.
Proof. intros E. apply (f_equal (@length A)) in E. now rewrite !repeat_length in E. Qed.

Lemma enter_fits i e : fits i -> fits (enter i e).
Proof. intros H. destruct e; apply op_fits, op_fits, H. Qed.
Lemma enter_inj i i' e e' : fits i -> fits i' -> enter i e = enter i' e' -> i = i' /\ e = e'.
Proof.
  intros H H' E. destruct e as [l m|l n], e' as [l' m'|l' n']; cbn [enter] in E;
    apply op_inj in E as (E & Ef & Ed); try (now apply op_fits); try discriminate; apply op_inj in E as (-> & _ & El); auto;
    apply framed_inj in El as ->.
  - apply map_Xor_inj in Ed as ->. auto.
  - apply repeat_length_inj in Ed as ->. auto.
Qed.
Lemma start_fits : fits start.
Proof. apply op_fits. split; cbn; lia. Qed.
Lemma enters_fits es : fits (enters es).
Proof.
  induction es as [|e es IH] using rev_ind; [apply start_fits|]. unfold enters. rewrite fold_left_app. cbn [fold_left]. now apply enter_fits.
Qed.
Lemma enter_not_start i e : fits i -> enter i e <> start.
Proof.
  intros H E. destruct e; cbn [enter] in E; apply op_inj in E as (_ & Ef & _); try discriminate; try (now apply op_fits); split; cbn; lia.
Qed.
Lemma enters_snoc es e : enters (es ++ [e]) = enter (enters es) e.
Proof. unfold enters. now rewrite fold_left_app. Qed.
Theorem enters_inj es : forall es', enters es = enters es' -> es = es'.
Proof.
  induction es as [|e es IH] using rev_ind; intros es'; destruct es' as [|e' es' _] using rev_ind; intros E; auto.
  - rewrite enters_snoc in E. symmetry in E. apply enter_not_start in E as []. apply enters_fits.
  - rewrite enters_snoc in E. apply enter_not_start in E as []. apply enters_fits.
  - rewrite !enters_snoc in E. apply enter_inj in E as [E ->]; try apply enters_fits. now rewrite (IH es').
Qed.

(** padding *)
Lemma pad_length c p : length c <= 166 -> length (pad c p) = 168.
Proof.
  intros H. unfold pad. destruct (Nat.eqb_spec (length c) 166); rewrite !app_length; cbn [length]; [lia|].
  rewrite ?app_length, repeat_length. cbn [length]. lia.
Qed.
Lemma pad_mark c p : length c <= 166 -> nth (length c + 1) (pad c p) Clr = if length c =? 166 then Xor 0x84 else Xor 0x04.
Proof.
  intros H. unfold pad. destruct (Nat.eqb_spec (length c) 166); rewrite app_nth2 by lia;
    replace (length c + 1 - length c) with 1 by lia; reflexivity.
Qed.
Lemma pad_after c p k : length c < k -> k <= 166 -> nth (k + 1) (pad c p) Clr = if k =? 166 then Xor 0x80 else Xor 0.
Proof.
  intros H1 H2. unfold pad. destruct (Nat.eqb_spec (length c) 166) as [|Hc]; [lia|]. rewrite app_nth2 by lia.
  rewrite app_nth2 by (cbn [length]; lia). cbn [length].
  destruct (Nat.eqb_spec k 166) as [->|Hk].
  - rewrite app_nth2 by (rewrite repeat_length; lia). rewrite repeat_length.
    replace (166 + 1 - length c - 2 - (165 - length c)) with 0 by lia. reflexivity.
  - rewrite app_nth1 by (rewrite repeat_length; lia). 
    rewrite (nth_indep _ Clr (Xor 0)) by (rewrite repeat_length; lia). apply nth_repeat.
Qed.
Lemma pad_inj c c' p p' : length c <= 166 -> length c' <= 166 -> pad c p = pad c' p' -> c = c' /\ p = p'.
Proof.
  intros H H' E. destruct (lt_eq_lt_dec (length c) (length c')) as [[D|D]|D].
  - exfalso. assert (M := pad_mark c' p' H'). rewrite <- E, pad_after in M by lia. now destruct (length c' =? 166).
  - unfold pad in E. rewrite <- D in E. destruct (length c =? 166).
    + apply app_inj_len in E as [-> E]; [|reflexivity]. injection E as E. now apply Nat2Z.inj in E as ->.
    + apply app_inj_len in E as [-> E]; [|now rewrite !app_length]. injection E as E. now apply Nat2Z.inj in E as ->.
  - exfalso. assert (M := pad_mark c p H). rewrite E, pad_after in M by lia. now destruct (length c =? 166).
Qed.

(** closed blocks are at most 166 cells long *)
Definition small (i : input) : Prop := Forall (fun b => length (fst b) <= 166) (closed i).
Lemma put_small i c : fits i -> small i -> small (put i c).
Proof.
  intros [H _] HS. unfold put, small. cbn [open length]. destruct (_ =? 166); cbn [close closed]; [|exact HS]. constructor; [|exact HS]. cbn [fst open length]. lia.
Qed.
Lemma puts_small l : forall i, fits i -> small i -> small (puts i l).
Proof. induction l as [|c l IH]; intros i H HS; [exact HS|]. apply IH; [now apply put_fits|now apply put_small]. Qed.
Lemma op_small i f d : fits i -> small i -> small (op i f d).
Proof.
  intros H HS. rewrite op_ready. apply puts_small; [now apply ready_fits|].
  assert (HH : small (header i f)) by (apply puts_small; [now apply reopened_fits|exact HS]).
  unfold ready. destruct (_ && _); auto. constructor; auto. cbn [fst]. assert (F := header_fits i f H). destruct F. lia.
Qed.
Lemma enters_small es : small (enters es).
Proof.
  induction es as [|e es IH] using rev_ind.
  - apply op_small; [split; cbn; lia|constructor].
  - rewrite enters_snoc. assert (F := enters_fits es). destruct e; cbn [enter]; apply op_small; try (now apply op_fits); now apply op_small.
Qed.
(** a request closes the block; cells read afterwards stay in the next one *)
Lemma ready7 i : fits i -> open (ready i 7) = [] /\ began (ready i 7) = 0.
Proof.
  intros H. unfold ready. cbn [Z.eqb andb Pos.eqb]. destruct (Nat.eqb_spec (length (open (header i 7))) 0) as [E|E]; cbn [negb]; [|auto].
  destruct (open (header i 7)) eqn:O; [|discriminate]. split; auto. revert O. unfold header. fold (reopened i). unfold puts. cbn [fold_left].
  assert (F := put_fits _ (Xor (Z.of_nat (began i))) (reopened_fits i H)). revert F. generalize (put (reopened i) (Xor (Z.of_nat (began i)))) as j.
  intros j _. unfold put. cbn [open length]. destruct (_ =? 166); cbn [close open began]; [auto|discriminate].
Qed.
Lemma puts_closed l : forall i, length (open i) + length l < 166 ->
  puts i l = mkInput (rev l ++ open i) (began i) (closed i).
Proof.
  induction l as [|c l IH]; intros i H; [now destruct i|]. cbn [length] in H. change (puts i (c :: l)) with (puts (put i c) l).
  assert (E : put i c = mkInput (c :: open i) (began i) (closed i)).
  { unfold put. cbn [open length]. destruct (Nat.eqb_spec (S (length (open i))) 166); [lia|reflexivity]. }
  rewrite E, IH by (cbn [open length]; lia). cbn [open began closed rev]. now rewrite <- app_assoc.
Qed.
Lemma asked_ready es l n : n < 166 -> closed (enters (es ++ [Challenge l n])) = closed (ready (op (enters es) 18 (framed l n)) 7).
Proof.
  intros Hn. rewrite enters_snoc. cbn [enter]. rewrite op_ready.
  assert (F : fits (op (enters es) 18 (framed l n))) by (apply op_fits, enters_fits).
  destruct (ready7 _ F) as [E _]. rewrite puts_closed; [reflexivity|]. rewrite E, repeat_length. cbn [length]. lia.
Qed.

Lemma asked_inj es es' l l' n : n < 166 -> asked es l n = asked es' l' n -> es = es' /\ l = l'.
Proof.
  intros Hn E. unfold asked in E. apply (f_equal (@rev _)) in E. rewrite !rev_involutive in E.
  assert (Ec : closed (enters (es ++ [Challenge l n])) = closed (enters (es' ++ [Challenge l' n]))).
  { assert (S1 := enters_small (es ++ [Challenge l n])). assert (S2 := enters_small (es' ++ [Challenge l' n])).
    unfold small in *. revert E S1 S2. generalize (closed (enters (es ++ [Challenge l n]))) as d, (closed (enters (es' ++ [Challenge l' n]))) as d'.
    induction d as [|[c p] d IH]; intros [|[c' p'] d'] E S1 S2; try discriminate; [reflexivity|]. cbn [map fst snd] in E. injection E as E1 E2.
    inversion_clear S1 as [|? ? A1 A2]. inversion_clear S2 as [|? ? B1 B2]. cbn [fst] in *.
    apply pad_inj in E1 as [E1 ->]; try (rewrite rev_length; auto). apply (f_equal (@rev _)) in E1. rewrite !rev_involutive in E1. subst c'.
    f_equal. now apply IH. }
  assert (Ee : enters (es ++ [Challenge l n]) = enters (es' ++ [Challenge l' n])).
  { rewrite !asked_ready in Ec by auto. rewrite !enters_snoc. cbn [enter]. rewrite !op_ready.
    assert (F : fits (op (enters es) 18 (framed l n))) by (apply op_fits, enters_fits).
    assert (F' : fits (op (enters es') 18 (framed l' n))) by (apply op_fits, enters_fits).
    destruct (ready7 _ F) as [O1 O2]. destruct (ready7 _ F') as [O1' O2'].
    f_equal. destruct (ready _ 7) as [o b c], (ready _ 7) as [o' b' c']. cbn in *. now subst. }
  apply enters_inj in Ee. apply app_inj_tail in Ee as [-> Ee]. injection Ee as ->. auto.
Qed.

Lemma le_bytes_to_bytes k : forall z, le_bytes k z = to_bytes k z.
Proof. reflexivity. Qed.
(** ** The program computes the sponge *)
Lemma set_at_same {A} (l : list A) i d : set_at l i (nth i l d) = l.
Proof. revert i; induction l as [|a l IH]; intros [|i]; cbn; auto. now rewrite IH. Qed.
Lemma set_at_twice {A} (l : list A) i v v' : set_at (set_at l i v) i v' = set_at l i v'.
Proof. revert i; induction l as [|a l IH]; intros [|i]; cbn; auto. now rewrite IH. Qed.
Lemma xor_at_0 s i : xor_at s i 0 = s.
Proof. unfold xor_at. rewrite Z.lxor_0_r. apply set_at_same. Qed.
Lemma xor_at_length s i b : length (xor_at s i b) = length s.
Proof. apply set_at_length. Qed.
Lemma xor_at_twice s i b b' : i < length s -> xor_at (xor_at s i b) i b' = xor_at s i (Z.lxor b b').
Proof.
  intros H. unfold xor_at. rewrite set_at_nth, Nat.eqb_refl, (proj2 (Nat.ltb_lt _ _) H). cbn [andb]. now rewrite set_at_twice, Z.lxor_assoc.
Qed.
Lemma change_length l : forall s, length (change s l) = length s.
Proof. induction l as [|[b|] l IH]; intros [|x s]; cbn [change length]; auto. Qed.
Lemma change_xor l b : forall s, length l < length s -> change s (l ++ [Xor b]) = xor_at (change s l) (length l) b.
Proof.
  induction l as [|[b'|] l IH]; intros [|x s] H; cbn [length app change] in *; try lia.
  - now destruct s.
  - rewrite IH by lia. reflexivity.
  - rewrite IH by lia. reflexivity.
Qed.
Lemma change_clr l : forall s, length l < length s -> change s (l ++ [Clr]) = set_at (change s l) (length l) 0%Z.
Proof.
  induction l as [|[b'|] l IH]; intros [|x s] H; cbn [length app change] in *; try lia.
  - now destruct s.
  - rewrite IH by lia. reflexivity.
  - rewrite IH by lia. reflexivity.
Qed.
Lemma change_zeros l k : forall s, length l + k < length s -> change s (l ++ repeat (Xor 0) k) = change s l.
Proof.
  intros s. induction k as [|k IH]; intros H; [now rewrite app_nil_r|].
  replace (S k) with (k + 1) by lia. rewrite repeat_app, app_assoc. cbn [repeat].
  rewrite change_xor by (rewrite app_length, repeat_length; lia). rewrite xor_at_0. apply IH. lia.
Qed.
Lemma change_pad s l p : length l <= 166 -> length s = 200 ->
  change s (pad l p) = xor_at (xor_at (xor_at (change s l) (length l) (Z.of_nat p)) (length l + 1) 0x04) 167 0x80.
Proof.
  intros H HS. unfold pad.
  assert (E1 : change s (l ++ [Xor (Z.of_nat p)]) = xor_at (change s l) (length l) (Z.of_nat p)) by (apply change_xor; lia).
  assert (E2 : forall b, change s (l ++ [Xor (Z.of_nat p); Xor b]) = xor_at (xor_at (change s l) (length l) (Z.of_nat p)) (length l + 1) b).
  { intros b. change [Xor (Z.of_nat p); Xor b] with ([Xor (Z.of_nat p)] ++ [Xor b]). rewrite app_assoc, change_xor by (rewrite app_length; cbn [length]; lia).
    rewrite E1, app_length. reflexivity. }
  destruct (Nat.eqb_spec (length l) 166) as [E|E].
  - rewrite E2. rewrite E. change (166 + 1) with 167. rewrite xor_at_twice; [reflexivity|].
    rewrite xor_at_length, change_length, HS. lia.
  - rewrite !app_assoc. rewrite change_xor by (rewrite !app_length, repeat_length; cbn [length]; lia).
    rewrite change_zeros by (rewrite !app_length; cbn [length]; lia). rewrite E2. f_equal.
    rewrite !app_length, repeat_length. cbn [length]. lia.
Qed.

Definition replay (d : list (list cell * nat)) : list Z :=
  fold_right (fun b s => f1600 (change s (pad (rev (fst b)) (snd b)))) (f1600 strobe_seed) d.
Lemma replay_sponge d : sponge (rev (map (fun b => pad (rev (fst b)) (snd b)) d)) = replay d.
Proof.
  unfold sponge, replay. rewrite <- fold_left_rev_right, rev_involutive. induction d as [|b d IH]; [reflexivity|]. cbn [map fold_right]. now rewrite IH.
Qed.
Lemma f1600_length s : length (f1600 s) = 200.
Proof. unfold f1600. generalize (keccak_f (map (fun i => le_value (firstn 8 (skipn (8 * i) s))) (seq 0 25))) as A. intros A. reflexivity. Qed.
Lemma replay_length d : length (replay d) = 200.
Proof. destruct d; apply f1600_length. Qed.
Lemma le_bytes_range k z : Forall (fun b => 0 <= b < 256)%Z (le_bytes k z).
Proof. rewrite le_bytes_to_bytes. apply to_bytes_ok. Qed.
Lemma f1600_range s : Forall (fun b => 0 <= b < 256)%Z (f1600 s).
Proof.
  unfold f1600. generalize (keccak_f (map (fun i => le_value (firstn 8 (skipn (8 * i) s))) (seq 0 25))) as A. intros A.
  apply Forall_forall. intros b Hb. apply in_flat_map in Hb as (i & _ & Hb).
  exact (proj1 (Forall_forall _ _) (le_bytes_range 8 (lane A i)) b Hb).
Qed.

(** the state of the program when the input is i *)
Definition same_state (s : strobe) (i : input) : Prop :=
  state s = change (replay (closed i)) (rev (open i)) /\ pos s = length (open i) /\ pos_begin s = began i.
Lemma run_f_same s i : length (open i) <= 166 -> same_state s i -> same_state (run_f s) (close i) /\ cur_flags (run_f s) = cur_flags s.
Proof.
  intros H (E1 & E2 & E3). split; [|reflexivity]. split; [|auto]. unfold run_f. cbn [state close closed open rev].
  change (replay ((open i, began i) :: closed i)) with (f1600 (change (replay (closed i)) (pad (rev (open i)) (began i)))).
  rewrite change_pad by (try apply replay_length; rewrite rev_length; exact H).
  rewrite E1, E2, E3, rev_length. generalize (change (replay (closed i)) (rev (open i))) as t. intros t. change (strobe_r + 1) with 167.
  generalize (f1600 (xor_at (xor_at (xor_at t (length (open i)) (Z.of_nat (began i))) (length (open i) + 1) 4) 167 128)) as u. now intros [|].
Qed.
Lemma put_state c s i t : fits i -> same_state s i ->
  t = change (replay (closed i)) (rev (open i) ++ [c]) ->
  let s1 := mkStrobe t (pos s + 1) (pos_begin s) (cur_flags s) in
  let s2 := if pos s1 =? strobe_r then run_f s1 else s1 in
  same_state s2 (put i c) /\ cur_flags s2 = cur_flags s.
Proof.
  intros [F1 F2] (E1 & E2 & E3) Et s1 s2.
  assert (S1 : same_state s1 (mkInput (c :: open i) (began i) (closed i))).
  { split; [exact Et|]. split; [|exact E3]. cbn [s1 pos open length]. lia. }
  unfold s2, put. change (length (open (mkInput (c :: open i) (began i) (closed i)))) with (S (length (open i))).
  replace (pos s1) with (S (length (open i))) by (cbn [s1 pos]; lia). unfold strobe_r. destruct (S (length (open i)) =? 166); [|auto].
  apply (run_f_same s1 _); auto.
Qed.
Lemma absorb1_same b s i : fits i -> same_state s i -> same_state (absorb1 s b) (put i (Xor b)) /\ cur_flags (absorb1 s b) = cur_flags s.
Proof.
  intros F HS. assert (X := HS). destruct X as (E1 & E2 & E3). destruct F as [F1 F2].
  exact (put_state (Xor b) s i (xor_at (state s) (pos s) b) (conj F1 F2) HS
    ltac:(rewrite change_xor, rev_length, E1, E2; [reflexivity|rewrite rev_length, replay_length; lia])).
Qed.
Lemma absorb_same l : forall s i, fits i -> same_state s i ->
  same_state (absorb s l) (puts i (map Xor l)) /\ cur_flags (absorb s l) = cur_flags s.
Proof.
  induction l as [|b l IH]; intros s i F HS; [auto|]. change (absorb s (b :: l)) with (absorb (absorb1 s b) l). cbn [map].
  change (puts i (Xor b :: map Xor l)) with (puts (put i (Xor b)) (map Xor l)). destruct (absorb1_same b s i F HS) as [H1 <-].
  apply IH; auto. now apply put_fits.
Qed.
Lemma squeeze_same n : forall s i, fits i -> same_state s i -> same_state (snd (squeeze s n)) (puts i (repeat Clr n)).
Proof.
  induction n as [|n IH]; intros s i F HS; [exact HS|]. cbn [squeeze repeat].
  change (puts i (Clr :: repeat Clr n)) with (puts (put i Clr) (repeat Clr n)).
  assert (X := HS). destruct X as (E1 & E2 & E3). assert (F' := F). destruct F' as [F1 F2].
  destruct (put_state Clr s i (set_at (state s) (pos s) 0%Z) F HS
    ltac:(rewrite change_clr, rev_length, E1, E2; [reflexivity|rewrite rev_length, replay_length; lia])) as [H _].
  specialize (IH _ _ (put_fits i Clr F) H). revert IH. clear. cbv zeta. generalize (puts (put i Clr) (repeat Clr n)) as j.
  intros j. destruct (squeeze _ n). cbn [snd]. auto.
Qed.
(** within the block, the bytes read are those of the state *)
Lemma squeeze_bytes n : forall s, pos s + n < 166 -> fst (squeeze s n) = map (fun k => nth k (state s) 0%Z) (seq (pos s) n).
Proof.
  induction n as [|n IH]; intros s H; [reflexivity|]. cbn [squeeze seq map]. cbv zeta.
  change (pos (mkStrobe (set_at (state s) (pos s) 0%Z) (pos s + 1) (pos_begin s) (cur_flags s))) with (pos s + 1). unfold strobe_r.
  rewrite (proj2 (Nat.eqb_neq (pos s + 1) 166)) by lia.
  assert (E := IH (mkStrobe (set_at (state s) (pos s) 0%Z) (pos s + 1) (pos_begin s) (cur_flags s)) ltac:(cbn [pos]; lia)).
  destruct (squeeze _ n) as [bs s']. cbn [fst] in *. rewrite E. cbn [pos state]. f_equal. replace (pos s + 1) with (S (pos s)) by lia.
  apply map_ext_in. intros k Hk. apply in_seq in Hk. rewrite set_at_nth. destruct (Nat.eqb_spec k (pos s)); [lia|reflexivity].
Qed.

Definition allowed (flags : Z) : Prop := flags = 2%Z \/ flags = 7%Z \/ flags = 18%Z.
Lemma begin_same flags s i : allowed flags -> fits i -> same_state s i ->
  exists s', begin_op s flags false = Ok s' /\ same_state s' (ready i flags) /\ cur_flags s' = flags.
Proof.
  intros HF F (E1 & E2 & E3). unfold begin_op.
  replace (assertb (Z.land flags 8 =? 0)%Z) with (@Ok unit tt) by (destruct HF as [->|[->| ->]]; reflexivity). cbn [bind].
  set (s1 := mkStrobe (state s) (pos s) (pos s + 1) flags).
  assert (S1 : same_state s1 (reopened i)) by (split; [exact E1|]; split; [exact E2|]; cbn [s1 pos_begin reopened began]; now rewrite E2).
  destruct (absorb_same [Z.of_nat (pos_begin s); flags] s1 (reopened i) (reopened_fits i F) S1) as [S2 Fl]. rewrite E3 in S2 at 2.
  change (puts (reopened i) (map Xor [Z.of_nat (began i); flags])) with (header i flags) in S2.
  rewrite E3. rewrite E3 in S2, Fl. set (s2 := absorb s1 [Z.of_nat (began i); flags]) in *.
  replace (negb (Z.land flags (4 + 32) =? 0)%Z) with (flags =? 7)%Z by (destruct HF as [->|[->| ->]]; reflexivity).
  destruct S2 as (A1 & A2 & A3). eexists. split; [reflexivity|]. unfold ready. rewrite A2.
  destruct ((flags =? 7)%Z && negb (length (open (header i flags)) =? 0)).
  - destruct (run_f_same s2 (header i flags)) as [R1 R2]; [assert (X := header_fits i flags F); destruct X; lia|repeat split; auto|].
    split; [exact R1|]. rewrite R2, Fl. reflexivity.
  - split; [repeat split; auto|]. rewrite Fl. reflexivity.
Qed.
Lemma puts_app i l l' : puts i (l ++ l') = puts (puts i l) l'.
Proof. unfold puts. apply fold_left_app. Qed.
(** a label followed by a length *)
Lemma meta_same s i label n : fits i -> same_state s i ->
  exists s', (s <- meta_ad s label false ;; meta_ad s (le_bytes 4 (Z.of_nat n)) true) = Ok s' /\ same_state s' (op i 18 (framed label n)).
Proof.
  intros F HS. destruct (begin_same 18 s i ltac:(unfold allowed; auto) F HS) as (s1 & B1 & B2 & B3).
  unfold meta_ad at 1. rewrite B1. cbn [bind]. destruct (absorb_same label s1 (ready i 18) (ready_fits i 18 F) B2) as [A1 A2].
  unfold meta_ad, begin_op. rewrite A2, B3. cbn [Z.eqb Pos.eqb assertb bind]. eexists. split; [reflexivity|].
  rewrite op_ready. unfold framed. rewrite map_app, puts_app. apply absorb_same; auto. now apply puts_fits, ready_fits.
Qed.
Lemma encode_usize_ok n : (Z.of_nat n < 2 ^ 32)%Z -> encode_usize n = Ok (le_bytes 4 (Z.of_nat n)).
Proof. intros H. unfold encode_usize. rewrite (proj2 (Z.ltb_lt _ _) H). reflexivity. Qed.
Lemma bind_assoc {A B D} (x : res A) (f : A -> res B) (g : B -> res D) : bind (bind x f) g = bind x (fun a => bind (f a) g).
Proof. now destruct x. Qed.
Lemma append_same s i label msg : (Z.of_nat (length msg) < 2 ^ 32)%Z -> fits i -> same_state s i ->
  exists s', m_append s label msg = Ok s' /\ same_state s' (enter i (Message label msg)).
Proof.
  intros HL F HS. unfold m_append. rewrite encode_usize_ok by exact HL. cbn [bind].
  destruct (meta_same s i label (length msg) F HS) as (s1 & M1 & M2). rewrite <- bind_assoc, M1. cbn [bind].
  assert (F1 : fits (op i 18 (framed label (length msg)))) by now apply op_fits.
  destruct (begin_same 2 s1 _ ltac:(unfold allowed; auto) F1 M2) as (s2 & B1 & B2 & B3). unfold ad. rewrite B1. cbn [bind].
  eexists. split; [reflexivity|]. cbn [enter]. rewrite (op_ready _ 2). apply absorb_same; auto. now apply ready_fits.
Qed.
Lemma challenge_same s i label n : n < 166 -> fits i -> same_state s i ->
  exists s', m_challenge s label n = Ok (firstn n (replay (closed (ready (op i 18 (framed label n)) 7))), s') /\
    same_state s' (enter i (Challenge label n)).
Proof.
  intros Hn F HS. unfold m_challenge.
  rewrite encode_usize_ok by (change (2 ^ 32)%Z with 4294967296%Z; lia). cbn [bind].
  destruct (meta_same s i label n F HS) as (s1 & M1 & M2). rewrite <- bind_assoc, M1. cbn [bind].
  assert (F1 : fits (op i 18 (framed label n))) by now apply op_fits.
  destruct (begin_same 7 s1 _ ltac:(unfold allowed; auto) F1 M2) as (s2 & B1 & B2 & B3). unfold prf. rewrite B1. cbn [bind].
  destruct (ready7 _ F1) as [O1 O2]. exists (snd (squeeze s2 n)). split.
  - rewrite (surjective_pairing (squeeze s2 n)) at 1. do 2 f_equal. destruct B2 as (C1 & C2 & C3). rewrite O1 in C1, C2. cbn [length rev] in C1, C2.
    assert (C1' : state s2 = replay (closed (ready (op i 18 (framed label n)) 7))) by (rewrite C1; now destruct (replay _)).
    rewrite squeeze_bytes by lia. rewrite C2, C1'. apply (list_eq_nth 0%Z).
    + rewrite map_length, seq_length, firstn_length, replay_length. lia.
    + intros k Hk. rewrite map_length, seq_length in Hk.
      fold (tab n (fun k => nth k (replay (closed (ready (op i 18 (framed label n)) 7))) 0%Z)). rewrite tab_nth by exact Hk.
      symmetry. apply nth_firstn_lt'. exact Hk.
  - cbn [enter]. rewrite (op_ready _ 7). apply squeeze_same; auto. now apply ready_fits.
Qed.

(** ** Histories *)
Lemma bytes_of_inj a b : bytes_of a = bytes_of b -> a = b.
Proof.
  unfold bytes_of. intros E. rewrite <- (string_of_list_ascii_of_string a), <- (string_of_list_ascii_of_string b). f_equal.
  revert E. generalize (list_ascii_of_string a) as x, (list_ascii_of_string b) as y.
  induction x as [|c x IH]; intros [|c' y] E; try discriminate; [reflexivity|]. cbn [map] in E. injection E as E1 E2.
  apply N2Z.inj in E1. rewrite (IH y E2). f_equal. rewrite <- (ascii_N_embedding c), <- (ascii_N_embedding c'). now rewrite E1.
Qed.

Section C88.
Context {C : Crypto} (enc : Compressed -> list Z).

Definition u64s (h : transcript) : Prop := forall l n, In (EvU64 l n) h -> (Z.of_nat n < 2 ^ 64)%Z.

Lemma entry_of_inj e e' : (forall c, length (enc c) = 32) -> (forall c c', enc c = enc c' -> c = c') ->
  u64s [e] -> u64s [e'] -> entry_of enc e = entry_of enc e' -> e = e'.
Proof.
  intros HL HI U U' E. destruct e as [l c|l n|l], e' as [l' c'|l' n'|l']; cbn [entry_of] in E; try discriminate;
    assert (E1 := f_equal (fun e => match e with Message l _ | Challenge l _ => l end) E);
    assert (E2 := f_equal (fun e => match e with Message _ m => m | Challenge _ _ => [] end) E); cbv beta iota in E1, E2; clear E;
    apply bytes_of_inj in E1 as ->.
  - now rewrite (HI _ _ E2).
  - exfalso. apply (f_equal (@length Z)) in E2. rewrite HL, le_bytes_length in E2. discriminate.
  - exfalso. apply (f_equal (@length Z)) in E2. rewrite HL, le_bytes_length in E2. discriminate.
  - rewrite !le_bytes_to_bytes in E2. apply (f_equal le_value) in E2.
    assert (A := U l' n (or_introl eq_refl)). assert (B := U' l' n' (or_introl eq_refl)).
    rewrite !le_to_bytes in E2 by (change (256 ^ Z.of_nat 8)%Z with (2 ^ 64)%Z; lia). now apply Nat2Z.inj in E2 as ->.
  - reflexivity.
Qed.
Lemma entries_inj p p' h : forall h', (forall c, length (enc c) = 32) -> (forall c c', enc c = enc c' -> c = c') ->
  u64s h -> u64s h' -> entries enc p h = entries enc p' h' -> p = p' /\ h = h'.
Proof.
  intros h' HL HI U U' E. unfold entries in E. injection E as E1 E2. apply bytes_of_inj in E1. split; [exact E1|].
  revert h' U' E2. induction h as [|e h IH]; intros [|e' h'] U' E2; try discriminate; [reflexivity|]. cbn [map] in E2. injection E2 as E2 E3.
  apply entry_of_inj in E2 as ->; auto.
  - f_equal. apply IH; auto; intros l n Hn; [apply (U l n)|apply (U' l n)]; now right.
  - intros l n [X|[]]. apply (U l n). now left.
  - intros l n [X|[]]. apply (U' l n). now left.
Qed.

(** different histories give different inputs to the sponge *)
Theorem C88_input_determines_history p p' h h' l l' :
  (forall c, length (enc c) = 32) -> (forall c c', enc c = enc c' -> c = c') -> u64s h -> u64s h' ->
  asked (entries enc p h) (bytes_of l) 64 = asked (entries enc p' h') (bytes_of l') 64 ->
  p = p' /\ h = h' /\ l = l'.
Proof.
  intros HL HI U U' E. apply asked_inj in E as [E El]; [|repeat constructor]. apply entries_inj in E as [-> ->]; auto. apply bytes_of_inj in El as ->. auto.
Qed.

(** the state after a history *)
Lemma events_same h : forall b s i, (forall c, length (enc c) = 32) -> fits i -> same_state s i ->
  exists b' s', m_events enc (b, s) h = Ok (b', s') /\ same_state s' (fold_left enter (map (entry_of enc) h) i).
Proof.
  induction h as [|e h IH]; intros b s i HL F HS; [exists b, s; auto|]. cbn [m_events snd map fold_left].
  assert (X : exists b' s', m_event enc s e = Ok (b', s') /\ same_state s' (enter i (entry_of enc e))).
  { destruct e as [l c|l n|l]; cbn [m_event entry_of].
    - destruct (append_same s i (bytes_of l) (enc c)) as (s' & E & HS'); auto; [rewrite HL; reflexivity|]. exists [], s'. now rewrite E.
    - destruct (append_same s i (bytes_of l) (le_bytes 8 (Z.of_nat n))) as (s' & E & HS'); auto; [now rewrite le_bytes_length|].
      exists [], s'. unfold m_append_u64. now rewrite E.
    - destruct (challenge_same s i (bytes_of l) 64) as (s' & E & HS'); auto; [lia|]. eexists _, s'. now rewrite E. }
  destruct X as (b1 & s1 & E1 & S1). rewrite E1. cbn [bind]. apply IH; auto. now apply enter_fits.
Qed.
Lemma events_app h h' : forall r, m_events enc r (h ++ h') = (r <- m_events enc r h ;; m_events enc r h').
Proof. induction h as [|e h IH]; intros r; [reflexivity|]. cbn [app m_events]. destruct (m_event enc (snd r) e); cbn [bind]; auto. Qed.
Lemma seed_same : same_state (mkStrobe (f1600 strobe_seed) 0 0 0) (mkInput [] 0 []).
Proof. split; [|auto]. cbn [state closed open rev replay fold_right]. generalize (f1600 strobe_seed). now intros [|]. Qed.
Lemma new_same p : (Z.of_nat (String.length p) < 2 ^ 32)%Z ->
  exists s, m_new (bytes_of p) = Ok s /\ same_state s (enter start (Message (bytes_of "dom-sep") (bytes_of p))).
Proof.
  intros Hp. unfold m_new, strobe_new, meta_ad.
  assert (F0 : fits (mkInput [] 0 [])) by (split; cbn; lia).
  destruct (begin_same 18 _ _ ltac:(unfold allowed; auto) F0 seed_same) as (s1 & B1 & B2 & B3). rewrite B1. cbn [bind].
  destruct (absorb_same (bytes_of "Merlin v1.0") s1 _ (ready_fits _ 18 F0) B2) as [A1 _]. rewrite <- op_ready in A1. fold start in A1.
  apply append_same; auto; [|apply start_fits].
  enough (E : length (bytes_of p) = String.length p) by now rewrite E.
  unfold bytes_of. rewrite map_length. clear. induction p as [|c p IH]; cbn [list_ascii_of_string length String.length]; auto.
Qed.

(** the model of merlin returns 64 bytes of the sponge output on the blocks of the history *)
Theorem C88_bytes_are_sponge_output p h l :
  (forall c, length (enc c) = 32) -> (Z.of_nat (String.length p) < 2 ^ 32)%Z ->
  merlin_bytes enc p (h ++ [EvChal l]) = firstn 64 (sponge (asked (entries enc p h) (bytes_of l) 64)) /\
  byte_string 64 (merlin_bytes enc p (h ++ [EvChal l])).
Proof.
  intros HL Hp. assert (E : merlin_bytes enc p (h ++ [EvChal l]) = firstn 64 (sponge (asked (entries enc p h) (bytes_of l) 64))).
  { unfold merlin_bytes, m_run. destruct (new_same p Hp) as (s0 & -> & HS0). cbn [bind]. rewrite events_app.
    destruct (events_same h [] s0 _ HL (enter_fits _ _ start_fits) HS0) as (b1 & s1 & -> & HS1). cbn [bind m_events snd m_event].
    change (fold_left enter (map (entry_of enc) h) (enter start (Message (bytes_of "dom-sep") (bytes_of p)))) with (enters (entries enc p h)) in HS1.
    destruct (challenge_same s1 _ (bytes_of l) 64 ltac:(lia) (enters_fits _) HS1) as (s2 & -> & _). cbn [bind].
    unfold asked. rewrite asked_ready by lia. now rewrite replay_sponge. }
  split; [exact E|]. rewrite E. unfold asked. rewrite replay_sponge. split.
  - rewrite firstn_length, replay_length. reflexivity.
  - apply Forall_forall. intros b Hb. assert (R : Forall (fun b => 0 <= b < 256)%Z (replay (closed (enters (entries enc p h ++ [Challenge (bytes_of l) 64]))))).
    { destruct (closed (enters (entries enc p h ++ [Challenge (bytes_of l) 64]))); apply f1600_range. }
    apply (proj1 (Forall_forall _ _) R). rewrite <- (firstn_skipn 64). apply in_or_app. now left.
Qed.
(** no history makes it panic *)
Theorem C88_no_panic p h : (forall c, length (enc c) = 32) -> (Z.of_nat (String.length p) < 2 ^ 32)%Z ->
  exists b s, m_run enc p h = Ok (b, s).
Proof.
  intros HL Hp. unfold m_run. destruct (new_same p Hp) as (s0 & -> & HS0). cbn [bind].
  destruct (events_same h [] s0 _ HL (enter_fits _ _ start_fits) HS0) as (b1 & s1 & -> & _). eauto.
Qed.
End C88.

(** src/transcript.rs:12-17 with this hash function *)
Corollary C88_challenge_scalar m (enc : @Compressed (RC m) -> list Z) p tr label :
  (forall c, length (enc c) = 32) -> (Z.of_nat (String.length p) < 2 ^ 32)%Z ->
  let '(x, tr') := challenge_scalar_bytes (merlin_bytes enc p) tr label in
  tr' = tr ++ [EvChal label] /\
  val ell x = (le_value (firstn 64 (sponge (asked (entries enc p tr) (bytes_of label) 64))) mod ell)%Z.
Proof.
  intros HL Hp. unfold challenge_scalar_bytes. cbv zeta. split; [reflexivity|].
  rewrite (proj1 (C88_bytes_are_sponge_output enc p tr label HL Hp)). reflexivity.
Qed.

(** ** Known answers *)
(** SHA3-256 of the empty string, from the permutation *)
Example C88_case_keccak : firstn 4 (f1600 (xor_at (xor_at (repeat 0%Z 200) 0 0x06) 135 0x80)) = [0xa7; 0xff; 0xc6; 0xf8]%Z.
Proof. vm_compute. reflexivity. Qed.
(** the test vector of merlin: protocol "test protocol", message "some label": "some data", 32
    bytes with label "challenge": d5a21972d0d5fe32... *)
Example C88_case_merlin :
  (s <- m_new (bytes_of "test protocol") ;; s <- m_append s (bytes_of "some label") (bytes_of "some data") ;;
   '(b, _) <- m_challenge s (bytes_of "challenge") 32 ;; Ok b) =
  Ok [0xd5; 0xa2; 0x19; 0x72; 0xd0; 0xd5; 0xfe; 0x32; 0x0c; 0x0d; 0x26; 0x3f; 0xac; 0x7f; 0xff; 0xb8;
      0x14; 0x5a; 0xa6; 0x40; 0xaf; 0x6e; 0x9b; 0xca; 0x17; 0x7c; 0x03; 0xc7; 0xef; 0xcf; 0x06; 0x15]%Z.
Proof. vm_compute. reflexivity. Qed.
(** moving a byte from the label to the message changes the input; so does moving a message from
    before a challenge to after it *)
Example C88_case_framing :
  let a := asked [Message [97; 98] [99]]%Z [120]%Z 64 in
  let b := asked [Message [97] [98; 99]]%Z [120]%Z 64 in
  let c := asked [Message [97] [1]; Challenge [120] 64]%Z [120]%Z 64 in
  let d := asked [Challenge [120] 64; Message [97] [1]]%Z [120]%Z 64 in
  map (@length cell) a = [168] /\ map (@length cell) b = [168] /\ a <> b /\ length c = 2 /\ length d = 2 /\ c <> d.
Proof. vm_compute. repeat split; discriminate. Qed.
