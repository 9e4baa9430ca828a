(** What a user of the file sync relies on, stated without the algorithm. *)
From Coq Require Import List ZArith Lia Bool.
From Verif Require Import Base Sync_Model.
Import ListNotations.
Open Scope nat_scope.

(** The bytes [b, e) of a file. *)
Definition slice (bytes : list Z) (b e : nat) : list Z := firstn (e - b) (skipn b bytes).

(** The chunks follow each other without gap from [off] to [fin], none empty. *)
Fixpoint consecutive (off : nat) (cs : list chunk) (fin : nat) : Prop :=
  match cs with
  | [] => off = fin
  | c :: cs' => cBeg c = off /\ off < cEndx c /\ consecutive (cEndx c) cs' fin
  end.

(** A chunk tells the truth about a file: a zero run is zero, a hash is the
    hash of the bytes. It carries no data. *)
Definition truthful (hsh : list Z -> Z) (bytes : list Z) (c : chunk) : Prop :=
  cData c = [] /\
  match cCry c with
  | Rle0 => slice bytes (cBeg c) (cEndx c) = zeros (cLen c)
  | Unwrit => False
  | Hash h => h = hsh (slice bytes (cBeg c) (cEndx c))
  end.

(** [cs] describes the file: its chunks cover it exactly, and are truthful. *)
Definition describes (hsh : list Z -> Z) (bytes : list Z) (cs : list chunk) : Prop :=
  consecutive 0 cs (length bytes) /\ Forall (truthful hsh bytes) cs.

(** No chunk of the one file has the hash of a different chunk of the other. *)
Definition no_chunk_collision (hsh : list Z -> Z) (bytes1 : list Z) (cs1 : list chunk)
  (bytes2 : list Z) (cs2 : list chunk) : Prop :=
  forall c1 c2, In c1 cs1 -> In c2 cs2 ->
  hsh (slice bytes1 (cBeg c1) (cEndx c1)) = hsh (slice bytes2 (cBeg c2) (cEndx c2)) ->
  slice bytes1 (cBeg c1) (cEndx c1) = slice bytes2 (cBeg c2) (cEndx c2).

(** A zero run the taker can write: at most a page long, or with a whole
    aligned page in it. *)
Definition writable_run (c : chunk) : Prop :=
  cCry c = Rle0 ->
  cLen c <= block \/ exists k, cBeg c <= k * block /\ (k + 1) * block <= cEndx c.

(** Chunks that carry their bytes, as the in-memory version uses them. *)
Definition carries (bytes : list Z) (c : chunk) : Prop :=
  cData c = match cCry c with Hash _ => slice bytes (cBeg c) (cEndx c) | _ => [] end.
