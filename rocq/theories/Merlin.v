(** Model of the hash function behind the challenges: merlin 1.2 (Cargo.toml:13), called from
    src/transcript.rs:12-17 and by the append_message/append_u64 calls of the arguments. The
    crate is not part of /repo; the files named below are merlin's src/strobe.rs and
    src/transcript.rs and the keccak crate's src/lib.rs. Known answers are checked in
    PropMerlin.v. *)
From Coq Require Import String Ascii.
From Verif Require Export Challenge.
Local Open Scope Z_scope.
Local Open Scope list_scope.

(** ** keccak: f1600 *)
Definition mask64 : Z := 2 ^ 64 - 1.
(** u64::rotate_left *)
Definition rotl (x r : Z) : Z := Z.lor (Z.land (Z.shiftl x r) mask64) (Z.shiftr x (64 - r)).
Definition keccak_rc : list Z :=
  [0x1; 0x8082; 0x800000000000808A; 0x8000000080008000; 0x808B; 0x80000001; 0x8000000080008081; 0x8000000000008009;
   0x8A; 0x88; 0x80008009; 0x8000000A; 0x8000808B; 0x800000000000008B; 0x8000000000008089; 0x8000000000008003;
   0x8000000000008002; 0x8000000000000080; 0x800A; 0x800000008000000A; 0x8000000080008081; 0x8000000000008080;
   0x80000001; 0x8000000080008008].
(** rotation of the lane at x + 5 y *)
Definition keccak_rho : list Z :=
  [0; 1; 62; 28; 27; 36; 44; 6; 55; 20; 3; 10; 43; 25; 39; 41; 45; 15; 21; 8; 18; 2; 61; 56; 14].
Definition lane (A : list Z) (i : nat) : Z := nth i A 0.
Definition keccak_round (A : list Z) (rc : Z) : list Z :=
  (* theta *)
  let c := map (fun x => Z.lxor (lane A x) (Z.lxor (lane A (x + 5)) (Z.lxor (lane A (x + 10)) (Z.lxor (lane A (x + 15)) (lane A (x + 20))))))
             (seq 0 5) in
  let d := map (fun x => Z.lxor (lane c ((x + 4) mod 5)) (rotl (lane c ((x + 1) mod 5)) 1)) (seq 0 5) in
  let A := map (fun i => Z.lxor (lane A i) (lane d (i mod 5))) (seq 0 25) in
  (* rho and pi *)
  let r := map2 rotl A keccak_rho in
  let B := map (fun i => lane r ((i mod 5 + 3 * (i / 5)) mod 5 + 5 * (i mod 5))) (seq 0 25) in
  (* chi *)
  let A := map (fun i => Z.lxor (lane B i)
             (Z.land (Z.lxor (lane B (5 * (i / 5) + (i mod 5 + 1) mod 5)) mask64) (lane B (5 * (i / 5) + (i mod 5 + 2) mod 5)))) (seq 0 25) in
  (* iota *)
  set_at A 0 (Z.lxor (lane A 0) rc).
Definition keccak_f (A : list Z) : list Z := fold_left keccak_round keccak_rc A.

(** little-endian bytes *)
Fixpoint le_bytes (k : nat) (z : Z) : list Z :=
  match k with O => [] | S k' => (z mod 256) :: le_bytes k' (z / 256) end.
Definition f1600 (s : list Z) : list Z :=
  let A := keccak_f (map (fun i => le_value (firstn 8 (skipn (8 * i) s))) (seq 0 25)) in
  flat_map (fun i => le_bytes 8 (lane A i)) (seq 0 25).

(** ** strobe.rs: Strobe128 *)
Definition strobe_r : nat := 166.
Record strobe : Type := mkStrobe { state : list Z; pos : nat; pos_begin : nat; cur_flags : Z }.
Definition xor_at (s : list Z) (i : nat) (b : Z) : list Z := set_at s i (Z.lxor (nth i s 0) b).

Definition run_f (s : strobe) : strobe :=
  let t := xor_at (state s) (pos s) (Z.of_nat (pos_begin s)) in
  let t := xor_at t (pos s + 1) 0x04 in
  let t := xor_at t (strobe_r + 1) 0x80 in
  mkStrobe (f1600 t) 0 0 (cur_flags s).
Definition absorb1 (s : strobe) (b : Z) : strobe :=
  let s := mkStrobe (xor_at (state s) (pos s) b) (pos s + 1) (pos_begin s) (cur_flags s) in
  if (pos s =? strobe_r)%nat then run_f s else s.
Definition absorb (s : strobe) (data : list Z) : strobe := fold_left absorb1 data s.
Fixpoint squeeze (s : strobe) (n : nat) : list Z * strobe :=
  match n with
  | O => ([], s)
  | S n =>
    let b := nth (pos s) (state s) 0 in
    let s := mkStrobe (set_at (state s) (pos s) 0) (pos s + 1) (pos_begin s) (cur_flags s) in
    let s := if (pos s =? strobe_r)%nat then run_f s else s in
    let '(bs, s) := squeeze s n in (b :: bs, s)
  end.
(** flags: I = 1, A = 2, C = 4, T = 8, M = 16, K = 32 *)
Definition begin_op (s : strobe) (flags : Z) (more : bool) : res strobe :=
  if more then assertb (cur_flags s =? flags) ;;; Ok s else
  assertb (Z.land flags 8 =? 0) ;;;
  let old_begin := pos_begin s in
  let s := mkStrobe (state s) (pos s) (pos s + 1) flags in
  let s := absorb s [Z.of_nat old_begin; flags] in
  Ok (if negb (Z.land flags (4 + 32) =? 0) && negb (pos s =? 0)%nat then run_f s else s).
Definition meta_ad (s : strobe) (data : list Z) (more : bool) : res strobe :=
  s <- begin_op s 18 more ;; Ok (absorb s data).
Definition ad (s : strobe) (data : list Z) (more : bool) : res strobe :=
  s <- begin_op s 2 more ;; Ok (absorb s data).
Definition prf (s : strobe) (n : nat) (more : bool) : res (list Z * strobe) :=
  s <- begin_op s 7 more ;; Ok (squeeze s n).

(** string literals b"..." *)
Definition bytes_of (l : string) : list Z := map (fun a => Z.of_N (N_of_ascii a)) (list_ascii_of_string l).
Definition strobe_seed : list Z :=
  [1; Z.of_nat strobe_r + 2; 1; 0; 1; 96] ++ bytes_of "STROBEv1.0.2" ++ repeat 0 182.
Definition strobe_new (label : list Z) : res strobe :=
  meta_ad (mkStrobe (f1600 strobe_seed) 0 0 0) label false.

(** ** transcript.rs: Transcript *)
(** lengths are written as four bytes; larger ones are refused *)
Definition encode_usize (n : nat) : res (list Z) := assertb (Z.of_nat n <? 2 ^ 32) ;;; Ok (le_bytes 4 (Z.of_nat n)).
Definition m_append (s : strobe) (label msg : list Z) : res strobe :=
  n <- encode_usize (length msg) ;; s <- meta_ad s label false ;; s <- meta_ad s n true ;; ad s msg false.
Definition m_append_u64 (s : strobe) (label : list Z) (x : Z) : res strobe := m_append s label (le_bytes 8 x).
Definition m_challenge (s : strobe) (label : list Z) (k : nat) : res (list Z * strobe) :=
  n <- encode_usize k ;; s <- meta_ad s label false ;; s <- meta_ad s n true ;; prf s k false.
Definition m_new (label : list Z) : res strobe :=
  s <- strobe_new (bytes_of "Merlin v1.0") ;; m_append s (bytes_of "dom-sep") label.

(** ** the histories of Crypto.v, played on a transcript *)
Section History.
Context {C : Crypto} (enc : Compressed -> list Z).   (* CompressedRistretto::as_bytes *)
(** the bytes returned, empty for appended messages *)
Definition m_event (s : strobe) (e : event) : res (list Z * strobe) :=
  match e with
  | EvMsg l c => s <- m_append s (bytes_of l) (enc c) ;; Ok ([], s)
  | EvU64 l n => s <- m_append_u64 s (bytes_of l) (Z.of_nat n) ;; Ok ([], s)
  | EvChal l => m_challenge s (bytes_of l) 64
  end.
(** the bytes returned by the last event, and the state *)
Fixpoint m_events (r : list Z * strobe) (h : transcript) : res (list Z * strobe) :=
  match h with [] => Ok r | e :: h => r <- m_event (snd r) e ;; m_events r h end.
Definition m_run (protocol : string) (h : transcript) : res (list Z * strobe) :=
  s <- m_new (bytes_of protocol) ;; m_events ([], s) h.
(** the hash function of Challenge.v *)
Definition merlin_bytes (protocol : string) (h : transcript) : list Z :=
  match m_run protocol h with Ok (b, _) => b | _ => [] end.
End History.
