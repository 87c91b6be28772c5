(** Concrete cases for the copy argument; C31, second half. *)
From Coq Require Import String.
From Verif Require Export PropCopy.
From Verif Require Import PropIpa Poly PropQesaAttack.
Local Open Scope nat_scope.
Local Open Scope list_scope.

(** ** concrete runs *)
Definition G8 : list (@Point EX) := map pN [5; 11; 3; 8; 21; 34; 2; 77]%Z.
Definition H8 : list (@Point EX) := map pN [6; 13; 4; 9; 22; 35; 1; 78]%Z.
(** honest run: commitments made with [commit] from the openings [ops] *)
Definition copy_run (G H : list (@Point EX)) (sets : list (list N)) (Ms : list (list (list (@Scalar EX))))
    (w : list (@Scalar EX)) (ops : list (list (@Scalar EX) * @Scalar EX))
    (ops' : list (list (@Scalar EX) * @Scalar EX)) :=
  mp <- compute_mapping (N.of_nat (length G)) (N.of_nat (length w)) sets ;;
  Cs <- mapM (fun '(s, (m, r)) => commit G s m r) (combine sets ops) ;;
  '(pf, tr, pos) <- copy_create ro1 rng1 0 [] G H (pN 17) mp (mkBlockMatrix Ms) w ops' ;;
  '(b, tr') <- copy_verify ro1 [] pf G H (pN 17) (mkBlockMatrix Ms) mp Cs ;;
  let tr1 := cp_hist [] (cp_C_w pf) in
  let alpha := ro1 tr1 in
  let Ms' := cp_system (length G) mp alpha Ms in
  let n := length G in
  let w' := cp_witness n mp w (concat (map fst ops)) alpha in
  let r' := [rng1 0; (rng1 1 + cp_rand ops alpha)%S] in
  let ip := cp_inner pf in
  let a := q_a n w' r' (q_s ro1 tr1 ip) (q_b ro1 tr1 ip) in
  let bv := q_bv n Ms' (q_x ro1 tr1 ip) w' r' (q_s ro1 tr1 ip) (q_b ro1 tr1 ip) in
  Ok (b, length tr, length tr', zs alpha, map (fun M => zs (quad M w')) Ms', map zs w',
      (negb (zs (ro1 (q_alpha_hist ro1 tr1 ip G H (pN 17) Ms')) =? 0), negb (zs (dotp a a) =? 0),
       negb (zs (dotp bv bv) =? 0))%Z).

Section CopyCases.
(** caller equation w_1 = w_2; both commitments use generator 3, messages at positions 2 and 4 *)
Let M : list (list (list (@Scalar EX))) := [mat 6 6 (fun i j => if i =? 0 then nth j (map sN [0; 1; -1; 0; 0; 0]%Z) (sN 0) else sN 0)].
Let w := [sN 1; sN 7].
Let sets := [[3]; [3]]%N.
Let ops m := [([sN 7], sN 100); ([sN m], sN 200)].
Example C34_case :
  copy_run G8 H8 sets M w (ops 9) (ops 9) =
    Ok (true, 22%nat, 22%nat, 16, [0; 0], [1; 7; 7; 16 * 7 + 16 * 16 * 9; 9; 0], (true, true, true))%Z.
Proof. vm_compute. reflexivity. Qed.
(** the prover uses 8 where 9 is committed *)
Example C34_case_wrong_opening :
  rmap (fun '(b, _, _, _, _, _, _) => b) (copy_run G8 H8 sets M w (ops 9) (ops 8)) = Ok false.
Proof. vm_compute. reflexivity. Qed.

Example C35_case :
  rmap (fun mp =>
    let al := powers (sN 16) 2 in
    (map (fun c => rmap (map (map zs)) (verify_copy_matrix 6 (repeat (sN 0) 6) (msgs_map mp) al c)) (unique_commitment_indices mp),
     zs (cp_slot mp (sN 16) (map sN [1; 7; 7; 5; 9; 0]%Z) 3)))
    (compute_mapping 8 2 sets)
  = Ok ([Ok ([0; 0; 16; (-1) mod pe; 256; 0] :: repeat (repeat 0 6) 5)], 16 * 7 + 256 * 9)%Z.
Proof. vm_compute. reflexivity. Qed.

(** two slots: commitment 1 uses generator 2, commitment 2 generator 3; their messages go to
    positions 4 and 5, the slots hold 16 * 7 and 16^2 * 9, the caller's equation is w_1 = w_4 *)
Let M2 : list (list (list (@Scalar EX))) := [mat 6 6 (fun i j => if i =? 0 then nth j (map sN [0; 1; 0; 0; -1; 0]%Z) (sN 0) else sN 0)].
Example C34_case_two_slots :
  copy_run G8 H8 [[2]; [3]]%N M2 w (ops 9) (ops 9) =
    Ok (true, 22%nat, 22%nat, 16, [0; 0; 0], [1; 7; 16 * 7; 16 * 16 * 9; 7; 9], (true, true, true))%Z.
Proof. vm_compute. reflexivity. Qed.
Example C35_case_two_slots :
  rmap (fun mp =>
    let al := powers (sN 16) 2 in
    (map (fun c => rmap (map (map zs)) (verify_copy_matrix 6 (repeat (sN 0) 6) (msgs_map mp) al c)) (unique_commitment_indices mp),
     map (fun c => rmap (map (map zs)) (create_copy_matrix 6 (repeat (sN 0) 6) (msgs_map mp) al c)) (unique_commitment_indices mp)))
    (compute_mapping 8 2 [[2]; [3]]%N)
  = let Z5 := repeat (repeat 0%Z 6) 5 in
    let E2 := ([0; 0; (-1) mod pe; 0; 16; 0]%Z :: Z5) in
    let E3 := ([0; 0; 0; (-1) mod pe; 0; 256]%Z :: Z5) in
    Ok ([Ok E2; Ok E3], [Ok E2; Ok E3]).
Proof. vm_compute. reflexivity. Qed.

(** commitments to 1000 and 2000, proof using 7 and 9; then arbitrary points *)
Example C53_case :
  let mp := compute_mapping 8 2 sets in
  let Cw := pN 424242 in
  map (fun Cs => mp <- mp ;;
    let wf := fun alpha _ => cp_witness 8 mp w [sN 7; sN 9] alpha ++ [sN 0; sN 0] in
    '(pf, tr) <- copy_forge ro1 [] G8 H8 (pN 17) mp M Cw Cs wf ;;
    rmap fst (copy_verify ro1 [] pf G8 H8 (pN 17) (mkBlockMatrix M) mp Cs))
    [ [commit_value G8 [3]%N [sN 1000] (sN 5); commit_value G8 [3]%N [sN 2000] (sN 6)]; [pN 31; pN 0] ]
  = [Ok true; Ok true].
Proof. vm_compute. reflexivity. Qed.

(** eight copies of the caller's equation: the copy
    equations w_3 = ... are violated and the proof made for the caller's matrices alone passes *)
Example C54_case :
  rmap (fun '(pf, tr') => map (fun Ms => map (fun sets =>
      rmap fst (mp <- compute_mapping 8 2 sets ;;
       copy_verify ro1 [] (mkCopy (C := EX) (compress (Crypto := EX) (pN 0)) pf) G8 H8 (pN 17) (mkBlockMatrix Ms) mp [pN 31; pN 77])) [[[3]; [3]]; [[3]; [4]]]%N)
      [repeat (nth 0 M []) 8; repeat (nth 0 M []) 2])
    (q_forge ro1 (cp_hist [] (compress (Crypto := EX) (pN 0))) G8 H8 (pN 17) (repeat (nth 0 M []) 8) (cp_agg (sN 16) (pN 0) [pN 31; pN 77])
       (fun _ => map sN [1; 7; 7; 1; 2; 3; 0; 0]%Z))
  = Ok [[Ok true; Ok true]; [Ok false; Ok false]].
Proof. vm_compute. reflexivity. Qed.

(** an honest proof stays accepted when the commitments move by alpha D and - D *)
Example C55_case :
  (mp <- compute_mapping 8 2 sets ;;
   '(pf, tr, pos) <- copy_create ro1 rng1 0 [] G8 H8 (pN 17) mp (mkBlockMatrix M) w (ops 9) ;;
   let c1 := commit_value G8 [3]%N [sN 7] (sN 100) in
   let c2 := commit_value G8 [3]%N [sN 9] (sN 200) in
   let ver Cs := rmap fst (copy_verify ro1 [] pf G8 H8 (pN 17) (mkBlockMatrix M) mp Cs) in
   Ok [ver [c1; c2]; ver [(c1 + sN 16 *: pN 12345)%P; (c2 - pN 12345)%P]; ver [(c1 + pN 12345)%P; (c2 - pN 12345)%P]])
  = Ok [Ok true; Ok true; Ok false].
Proof. vm_compute. reflexivity. Qed.

(** three challenges, messages 7 and 9 at positions 2 and 4; with 8 in the witness the
    equation holds for at most two of them *)
Example C56_case :
  rmap (fun mp => map (fun v4 => map (fun al => map (fun c =>
       zs (quad (cp_matrix 8 mp (sN al) c) (cp_final 8 sets [[sN 7]; [sN 9]] (map sN [1; 7; 7; 0; v4; 0]%Z) (sN al))))
      (unique_commitment_indices mp)) [2; 3; 5]%Z) [9; 8]%Z)
    (compute_mapping 8 2 sets)
  = Ok [[[0]; [0]; [0]]; [[(-4) mod pe]; [(-9) mod pe]; [(-25) mod pe]]]%Z.
Proof. vm_compute. reflexivity. Qed.
End CopyCases.

(** C31, second half, over the Ristretto scalars: with index 0, or an index inside the caller's
    witness, honest commitments and openings lead to a proof that is rejected *)
Definition roR (tr : @transcript (RC 1)) : @Scalar (RC 1) := sR (Z.of_nat (length tr) * 7 + 2).
Definition rngR (i : nat) : @Scalar (RC 1) := sR (Z.of_nat (i * i * 31 + 7 * i + 5)).
Definition G8R : list (@Point (RC 1)) := map pR [5; 11; 3; 8; 21; 34; 2; 77]%Z.
Definition H8R : list (@Point (RC 1)) := map pR [6; 13; 4; 9; 22; 35; 1; 78]%Z.
Theorem C31_honest_proof_rejected :
  forall i, i = 0%N \/ i = 1%N ->
  exists w mp ops Cs pf tr pos tr',
    let sets := [[i]] in
    sc w 0 = s1 /\ N.to_nat i < length w /\
    compute_mapping 8 (N.of_nat (length w)) sets = Ok mp /\
    (forall k, k < length sets ->
       commit G8R (nth k sets []) (fst (nth k ops ([], s0))) (snd (nth k ops ([], s0))) = Ok (pt Cs k)) /\
    copy_create roR rngR 0 [] G8R H8R (pR 17) mp (mkBlockMatrix []) w ops = Ok (pf, tr, pos) /\
    copy_verify roR [] pf G8R H8R (pR 17) (mkBlockMatrix []) mp Cs = Ok (false, tr').
Proof.
  intros i Hi. set (w := [s1; sR 7]). set (ops := [([sR 5], sR 100)]).
  assert (E : (mp <- compute_mapping 8 (N.of_nat (length w)) [[i]] ;;
      Cs <- mapM (fun '(s, (m, r)) => commit G8R s m r) (combine [[i]] ops) ;;
      '(pf, tr, pos) <- copy_create roR rngR 0 [] G8R H8R (pR 17) mp (mkBlockMatrix []) w ops ;;
      '(b, tr') <- copy_verify roR [] pf G8R H8R (pR 17) (mkBlockMatrix []) mp Cs ;; Ok b) = Ok false).
  { destruct Hi as [-> | ->]; vm_compute; reflexivity. }
  destruct (compute_mapping 8 (N.of_nat (length w)) [[i]]) as [mp| |] eqn:Em; cbn [bind] in E; try discriminate.
  destruct (mapM (fun '(s, (m, r)) => commit G8R s m r) (combine [[i]] ops)) as [Cs| |] eqn:Ec; cbn [bind] in E; try discriminate.
  destruct (copy_create roR rngR 0 [] G8R H8R (pR 17) mp (mkBlockMatrix []) w ops) as [[[pf tr] pos]| |] eqn:Ep;
    cbn [bind] in E; try discriminate.
  destruct (copy_verify roR [] pf G8R H8R (pR 17) (mkBlockMatrix []) mp Cs) as [[b tr']| |] eqn:Ev; cbn [bind] in E; try discriminate.
  injection E as ->. exists w, mp, ops, Cs, pf, tr, pos, tr'.
  split; [reflexivity|]. split; [cbn; lia|]. split; [exact Em|]. split; [|split; [exact Ep|exact Ev]].
  intros [|k] Hk; [|cbn in Hk; lia]. cbn [nth ops fst snd].
  unfold ops in Ec. cbn [combine mapM] in Ec.
  destruct (commit G8R [i] [sR 5] (sR 100)) as [c| |]; cbn [bind] in Ec; try discriminate. injection Ec as <-. reflexivity.
Qed.
(** the same index moved behind the witness is fine *)
Example C31_case :
  rmap (fun '(b, _, _, _, _, _, _) => b) (copy_run G8 H8 [[3]]%N [] [sN 1; sN 7] [([sN 5], sN 100)] [([sN 5], sN 100)]) = Ok true.
Proof. vm_compute. reflexivity. Qed.
