(** Model of src/ipa/no_zk.rs (inner product argument without zero knowledge) *)
From Coq Require Import String.
From Verif Require Export MathUtils.
Local Open Scope string_scope.
Local Open Scope nat_scope.
Local Open Scope list_scope.

Section IpaNoZK.
Context {C : Crypto}.

(** src/ipa/no_zk.rs:13-22 *)
Record NoZK := mkNoZK {
  L_vec : list Compressed;
  R_vec : list Compressed;
  nz_a : Scalar;
  nz_b : Scalar
}.

(** The while loop of create, src/ipa/no_zk.rs:61-109. [n] is the loop variable.
    Simplification: the in-place updates a_L[i] = .. for i in 0..n (91-96), each
    touching only index i of equally long disjoint halves, are written as zips. *)
Fixpoint no_zk_create_loop (fuel : nat) (ro : oracle) (tr : transcript) (Q : Point)
    (n : nat) (G H : list Point) (a b : list Scalar) (Ls Rs : list Compressed)
  : res (NoZK * transcript) :=
  match fuel with
  | O => Diverge
  | S f =>
    if n =? 1 then
      a_0 <- idx a 0 ;;
      b_0 <- idx b 0 ;;
      Ok (mkNoZK Ls Rs a_0 b_0, tr)
    else
      let n := n / 2 in
      '(a_L, a_R) <- split_at n a ;;
      '(b_L, b_R) <- split_at n b ;;
      '(G_L, G_R) <- split_at n G ;;
      '(H_L, H_R) <- split_at n H ;;
      let c_R := inner_product a_R b_L in
      let c_L := inner_product a_L b_R in
      L <- msm (a_L ++ b_R ++ [c_L]) (G_R ++ H_L ++ [Q]) ;;
      R <- msm (a_R ++ b_L ++ [c_R]) (G_L ++ H_R ++ [Q]) ;;
      let tr := append_message tr "L" (compress L) in
      let tr := append_message tr "R" (compress R) in
      let '(x_i, tr) := challenge_scalar ro tr "x_i" in
      let a := map2 (fun l r => l * x_i + r)%S a_L a_R in
      let b := map2 (fun l r => l + x_i * r)%S b_L b_R in
      let G := map2 (fun l r => l + x_i *: r)%P G_L G_R in
      let H := map2 (fun l r => x_i *: l + r)%P H_L H_R in
      no_zk_create_loop f ro tr Q n G H a b (Ls ++ [compress L]) (Rs ++ [compress R])
  end.

(** src/ipa/no_zk.rs:28-110. Fuel: n halves until 1, so n iterations suffice. *)
Definition no_zk_create (ro : oracle) (tr : transcript) (G_Vec H_Vec : list Point) (Q : Point)
    (a_vec b_vec : list Scalar) : res (NoZK * transcript) :=
  let n := length G_Vec in
  assertb (length G_Vec =? n) ;;;
  assertb (length H_Vec =? n) ;;;
  assertb (length a_vec =? n) ;;;
  assertb (length b_vec =? n) ;;;
  assertb (is_power_of_two n) ;;;
  let tr := append_u64 tr "n" n in
  let '(alpha, tr) := challenge_scalar ro tr "alpha" in
  let Q := pmul (sinv alpha) Q in
  no_zk_create_loop (S n) ro tr Q n G_Vec H_Vec a_vec b_vec [] [].

(** src/ipa/no_zk.rs:161-173 *)
Definition generate_challenges (ro : oracle) (proof : NoZK) (tr : transcript)
  : list Scalar * transcript :=
  fold_left (fun '(challenges, tr) '(L, R) =>
               let tr := append_message tr "L" L in
               let tr := append_message tr "R" R in
               let '(x_i, tr) := challenge_scalar ro tr "x_i" in
               (challenges ++ [x_i], tr))
            (combine (L_vec proof) (R_vec proof)) ([], tr).

(** src/ipa/no_zk.rs:175-177 *)
Definition vector_scalar_mul (vec_p : list Point) (challenge : Scalar) : list Point :=
  map (fun p => pmul challenge p) vec_p.
(** src/ipa/no_zk.rs:178-180 *)
Definition vector_vector_add (a b : list Point) : list Point := map2 padd a b.

(** src/ipa/no_zk.rs:112-158. [n] (127,129) is asserted to be 1 << Ls.len(). *)
Definition no_zk_verify (ro : oracle) (tr : transcript) (proof : NoZK)
    (G_Vec H_Vec : list Point) (Q : Point) (n : nat) (P : Point) (t : Scalar)
  : res (bool * transcript) :=
  Ls <- mapM (fun L => unwrap (decompress L)) (L_vec proof) ;;
  Rs <- mapM (fun R => unwrap (decompress R)) (R_vec proof) ;;
  assertb (n =? 2 ^ length Ls) ;;;
  let n := 2 ^ length Ls in
  let tr := append_u64 tr "n" n in
  let '(alpha, tr) := challenge_scalar ro tr "alpha" in
  let Q := pmul (sinv alpha) Q in
  let P := (P - ((alpha - s1) * t)%S *: Q)%P in
  let '(challenges, tr) := generate_challenges ro proof tr in
  let P := fold_left (fun P '((L, R), challenge) =>
                        let challenge_sq := (challenge * challenge)%S in
                        (challenge_sq *: L + challenge *: P + R)%P)
                     (combine (combine Ls Rs) challenges) P in
  '(n, G, H) <- foldM (fun '(n, G, H) challenge =>
                 let n := n / 2 in
                 '(G_L, G_R) <- split_at n G ;;
                 '(H_L, H_R) <- split_at n H ;;
                 let G := vector_vector_add G_L (vector_scalar_mul G_R challenge) in
                 let H := vector_vector_add (vector_scalar_mul H_L challenge) H_R in
                 Ok (n, G, H))
              challenges (n, G_Vec, H_Vec) ;;
  G_0 <- idx G 0 ;;
  H_0 <- idx H 0 ;;
  let exp_P := (nz_a proof *: G_0 + nz_b proof *: H_0 + (nz_a proof * nz_b proof)%S *: Q)%P in
  Ok (peqb exp_P P, tr).

End IpaNoZK.
