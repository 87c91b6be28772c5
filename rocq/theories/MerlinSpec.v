(** What the transcript feeds to the permutation: blocks of 168 cells, each cell either xors a
    byte into the state or clears it (the cells a challenge was read from). *)
From Coq Require Import String.
From Verif Require Export Merlin.
Local Open Scope Z_scope.
Local Open Scope list_scope.

Inductive cell : Type := Xor (b : Z) | Clr.

(** one block: the data cells, the position of the last operation begun in it, the padding *)
Definition pad (c : list cell) (begin : nat) : list cell :=
  if (length c =? 166)%nat then c ++ [Xor (Z.of_nat begin); Xor 0x84]
  else c ++ [Xor (Z.of_nat begin); Xor 0x04] ++ repeat (Xor 0) (165 - length c) ++ [Xor 0x80].

(** a sponge: cells change the state, then the permutation is applied *)
Fixpoint change (s : list Z) (l : list cell) : list Z :=
  match s, l with
  | x :: s, Xor b :: l => Z.lxor x b :: change s l
  | x :: s, Clr :: l => 0 :: change s l
  | s, _ => s
  end.
Definition sponge (blocks : list (list cell)) : list Z :=
  fold_left (fun s b => f1600 (change s b)) blocks (f1600 strobe_seed).

(** the input so far: cells of the open block (latest first), position at which the last
    operation in it began (plus one; 0 if none did), closed blocks (latest first) *)
Record input : Type := mkInput { open : list cell; began : nat; closed : list (list cell * nat) }.
Definition close (i : input) : input := mkInput [] 0 ((open i, began i) :: closed i).
Definition put (i : input) (c : cell) : input :=
  let i := mkInput (c :: open i) (began i) (closed i) in
  if (length (open i) =? 166)%nat then close i else i.
Definition puts (i : input) (l : list cell) : input := fold_left put l i.
(** an operation: two header cells, then data; the generating operation (7) first closes the block *)
Definition header (i : input) (flags : Z) : input :=
  puts (mkInput (open i) (length (open i) + 1) (closed i)) [Xor (Z.of_nat (began i)); Xor flags].
Definition op (i : input) (flags : Z) (data : list cell) : input :=
  let i := header i flags in
  let i := if (flags =? 7) && negb (length (open i) =? 0)%nat then close i else i in
  puts i data.

(** messages and challenges *)
Inductive entry : Type :=
| Message (label msg : list Z)
| Challenge (label : list Z) (n : nat).
Definition framed (label : list Z) (n : nat) : list cell := map Xor (label ++ le_bytes 4 (Z.of_nat n)).
Definition enter (i : input) (e : entry) : input :=
  match e with
  | Message label msg => op (op i 18 (framed label (length msg))) 2 (map Xor msg)
  | Challenge label n => op (op i 18 (framed label n)) 7 (repeat Clr n)
  end.
Definition start : input := op (mkInput [] 0 []) 18 (map Xor (bytes_of "Merlin v1.0")).
Definition enters (es : list entry) : input := fold_left enter es start.

(** the blocks absorbed when a challenge with label [l] is asked for after the entries [es] *)
Definition asked (es : list entry) (l : list Z) (n : nat) : list (list cell) :=
  rev (map (fun b => pad (rev (fst b)) (snd b)) (closed (enters (es ++ [Challenge l n])))).

Section History.
Context {C : Crypto} (enc : Compressed -> list Z).
Definition entry_of (e : event) : entry :=
  match e with
  | EvMsg l c => Message (bytes_of l) (enc c)
  | EvU64 l n => Message (bytes_of l) (le_bytes 8 (Z.of_nat n))
  | EvChal l => Challenge (bytes_of l) 64
  end.
(** the entries of a transcript created with a protocol name *)
Definition entries (protocol : string) (h : transcript) : list entry :=
  Message (bytes_of "dom-sep") (bytes_of protocol) :: map entry_of h.
End History.
