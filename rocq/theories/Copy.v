(** Model of src/copy/copy.rs *)
From Coq Require Import String.
From Verif Require Export Mapping QesaInner.
Local Open Scope string_scope.
Local Open Scope nat_scope.
Local Open Scope list_scope.

Section Copy.
Context {C : Crypto}.

(** src/copy/copy.rs:18-21 *)
Record Copy := mkCopy {
  cp_C_w : Compressed;
  cp_inner : Inner
}.

(** while matrix.len() != k { matrix.push(zeroes.clone()) } (copy.rs:142-144,
    218-220), started with one row. It terminates iff k >= 1. *)
Fixpoint pad_rows (fuel k : nat) (zeroes : list Scalar) (matrix : list (list Scalar))
  : res (list (list Scalar)) :=
  match fuel with
  | O => Diverge
  | S f => if (length matrix =? k)%nat then Ok matrix
           else pad_rows f k zeroes (matrix ++ [zeroes])
  end.

(** Body of the prover's loop over unique commitment indices,
    src/copy/copy.rs:118-148 *)
Definition create_copy_matrix (n2 : nat) (zeroes : list Scalar) (mm : list MessageMap)
    (alpha_challenges : list Scalar) (commitment_idx : N) : res (list (list Scalar)) :=
  let new_eqn := map (fun _ => s0) (seq 0 n2) in
  new_eqn <- upd new_eqn (N.to_nat commitment_idx) (- s1)%S ;;
  let msgs_for_comm_index := filter (fun x => N.eqb (commitment_index x) commitment_idx) mm in
  new_eqn <- foldM (fun new_eqn msg =>
                      alpha <- idx alpha_challenges (N.to_nat (commitment_crs_id msg)) ;;
                      upd new_eqn (N.to_nat (position_in_witness msg)) alpha)
                   msgs_for_comm_index new_eqn ;;
  pad_rows (S n2) n2 zeroes [new_eqn].

(** src/copy/copy.rs:23-161 *)
Definition copy_create (ro : oracle) (rng : nat -> Scalar) (pos : nat) (tr : transcript)
    (G_Vec H_Vec : list Point) (Q : Point) (mp : Mapping) (gamma_i : BlockMatrix)
    (w : list Scalar) (openings : list (list Scalar * Scalar))
  : res (Copy * transcript * nat) :=
  let n := length G_Vec in
  assertb (num_commitments mp =? length openings)%nat ;;;
  w_0 <- idx w 0 ;;
  assertb (seqb w_0 s1) ;;;
  n2 <- usub n 2 ;;
  pad_by <- usub n2 (length w) ;;
  let zeroes := map (fun _ => s0) (seq 0 pad_by) in
  let w := w ++ zeroes in
  let r_prime := [rng pos; rng (S pos)] in
  let pos := S (S pos) in
  let w_prime := w ++ r_prime in
  let all_messages := concat (map fst openings) in
  w_prime <- foldM (fun w_prime '(msg, msg_map) =>
                      upd w_prime (N.to_nat (position_in_witness msg_map)) msg)
                   (combine all_messages (msgs_map mp)) w_prime ;;
  C_w <- msm w_prime G_Vec ;;
  let tr := append_message tr "c_w" (compress C_w) in
  let '(alpha, tr) := challenge_scalar ro tr "alpha" in
  alpha_challenges <- vandemonde_challenge alpha (length openings) ;;
  let all_rand_openings := map snd openings in
  let aggregated_rand := ssum (map2 smul all_rand_openings alpha_challenges) in
  n1 <- usub n 1 ;;
  last <- idx w_prime n1 ;;
  w_prime <- upd w_prime n1 (last + aggregated_rand)%S ;;
  w_prime <- foldM (fun w_prime msg_map =>
                      msg <- idx w_prime (N.to_nat (position_in_witness msg_map)) ;;
                      alpha <- idx alpha_challenges (N.to_nat (commitment_crs_id msg_map)) ;;
                      old <- idx w_prime (N.to_nat (commitment_index msg_map)) ;;
                      upd w_prime (N.to_nat (commitment_index msg_map)) (old + msg * alpha)%S)
                   (msgs_map mp) w_prime ;;
  let zeroes := map (fun _ => s0) (seq 0 n2) in
  gamma_i <- foldM (fun gamma_i ci =>
                      matrix <- create_copy_matrix n2 zeroes (msgs_map mp) alpha_challenges ci ;;
                      Ok (BlockMatrix_push gamma_i matrix))
                   (unique_commitment_indices mp) gamma_i ;;
  '(w_prime, r_prime) <- split_at n2 w_prime ;;
  '(proof, tr, pos) <- inner_create ro rng pos tr G_Vec H_Vec Q gamma_i w_prime r_prime ;;
  Ok (mkCopy (compress C_w) proof, tr, pos).

(** Body of the verifier's loop over unique commitment indices,
    src/copy/copy.rs:196-224 *)
Definition verify_copy_matrix (n2 : nat) (zeroes : list Scalar) (mm : list MessageMap)
    (alpha_challenges : list Scalar) (key_id : N) : res (list (list Scalar)) :=
  let new_eqn := map (fun _ => s0) (seq 0 n2) in
  new_eqn <- upd new_eqn (N.to_nat key_id) (- s1)%S ;;
  let msgs_for_comm_index := filter (fun x => N.eqb (commitment_index x) key_id) mm in
  new_eqn <- foldM (fun new_eqn msg =>
                      alpha <- idx alpha_challenges (N.to_nat (commitment_crs_id msg)) ;;
                      upd new_eqn (N.to_nat (position_in_witness msg)) alpha)
                   msgs_for_comm_index new_eqn ;;
  pad_rows (S n2) n2 zeroes [new_eqn].

(** src/copy/copy.rs:164-234 *)
Definition copy_verify (ro : oracle) (tr : transcript) (proof : Copy)
    (G_Vec H_Vec : list Point) (Q : Point) (gamma_i : BlockMatrix) (mp : Mapping)
    (commitments : list Point) : res (bool * transcript) :=
  let n := length G_Vec in
  let tr := append_message tr "c_w" (cp_C_w proof) in
  let '(alpha, tr) := challenge_scalar ro tr "alpha" in
  alpha_challenges <- vandemonde_challenge alpha (length commitments) ;;
  let commitment := psum (map2 (fun alpha commitment => alpha *: commitment)%P
                               alpha_challenges commitments) in
  C_w <- unwrap (decompress (cp_C_w proof)) ;;
  let commitment := (commitment + C_w)%P in
  n2 <- usub n 2 ;;
  let zeroes := map (fun _ => s0) (seq 0 n2) in
  gamma_i <- foldM (fun gamma_i key_id =>
                      matrix <- verify_copy_matrix n2 zeroes (msgs_map mp) alpha_challenges key_id ;;
                      Ok (BlockMatrix_push gamma_i matrix))
                   (unique_commitment_indices mp) gamma_i ;;
  let proof_inner := mkInner (alm_zk (cp_inner proof)) (compress commitment)
                             (c_prime_prime_w (cp_inner proof)) in
  inner_verify ro tr proof_inner G_Vec H_Vec Q gamma_i.

End Copy.
