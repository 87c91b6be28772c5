(** src/copy/mapping.rs compiled without overflow checks (cargo build --release): the only
    arithmetic of the file that can overflow is the subtraction n - 2 of u16 values in line 90;
    it then wraps around. Everything else is as in [Mapping]. *)
From Verif Require Export Mapping.
Local Open Scope N_scope.

(** u16::wrapping_sub *)
Definition u16_wrapping_sub (a b : N) : N := (a + 65536 - b) mod 65536.

(** src/copy/mapping.rs:64-145 with n - 2 (line 90) wrapping *)
Definition compute_mapping_release (n witness_size : N) (sets_of_indices : list (list N)) : res Mapping :=
  let n := as_u16 n in
  let num_commitments := length sets_of_indices in
  let unique_indices := btree_collect (concat sets_of_indices) in
  let total_messages := fold_left Nat.add (map (@length N) sets_of_indices) 0%nat in
  let position := as_u16 witness_size in
  let hi := u16_wrapping_sub n 2 in
  let available_positions :=
    firstn total_messages
      (filter (fun x => negb (btree_contains unique_indices x)) (range_N position hi)) in
  last_index <- unwrap (nth_error available_positions (length available_positions - 1)) ;;
  assertb (total_messages =? length available_positions)%nat ;;;
  let msgs_map := map (fun i => mkMessageMap i 0 0 0) (seq 0 total_messages) in
  let msgs_map := zip_mut set_position msgs_map available_positions in
  msgs_map <- next_mut set_commitment_index msgs_map (concat sets_of_indices) ;;
  msgs_map <- next_mut set_crs_id msgs_map
    (concat (map (fun '(crs_id, set_of_indices) =>
                    map (fun _ => as_u16 (N.of_nat crs_id)) set_of_indices)
                 (enumerate sets_of_indices))) ;;
  Ok (mkMapping num_commitments msgs_map unique_indices last_index).
