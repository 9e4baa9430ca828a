(** What a user of the chunkers relies on, stated without the algorithms. *)
From Coq Require Import List ZArith Lia Bool.
From Verif Require Import Base.
Import ListNotations.
Open Scope nat_scope.

(** The chunk boundaries of a list of cut points: [0], then the cuts. *)
Definition bounds (cuts : list nat) : list nat := 0 :: cuts.

(** Chunk [k] is [data[beg k : fin k)]. *)
Definition beg (cuts : list nat) (k : nat) : nat := nth k (bounds cuts) 0.
Definition fin (cuts : list nat) (k : nat) : nat := nth k cuts 0.

(** [cuts] tiles an input of length [len]: the chunks are non-empty,
    consecutive, start at 0 and end at [len]. *)
Definition tiles (len : nat) (cuts : list nat) : Prop :=
  (forall k, k < length cuts -> beg cuts k < fin cuts k) /\
  last (bounds cuts) 0 = len.

(** Every chunk is at most [max] long and every chunk but the last at least
    [min]. *)
Definition sized (min max : nat) (cuts : list nat) : Prop :=
  (forall k, k < length cuts -> fin cuts k - beg cuts k <= max) /\
  (forall k, S k < length cuts -> min <= fin cuts k - beg cuts k).

(** The byte strings of the chunks, in order. [off] is where [data] starts. *)
Fixpoint pieces (off : nat) (cuts : list nat) (data : list Z) : list (list Z) :=
  match cuts with
  | [] => []
  | c :: cs => firstn (c - off) data :: pieces c cs (skipn (c - off) data)
  end.

(** A cut function is good for sizes [min], [max]. *)
Definition good_alg (min max : nat) (alg : list Z -> res nat) : Prop :=
  forall d, d <> [] ->
  exists c, alg d = Ok c /\ 0 < c /\ c <= length d /\ c <= max /\ (c < length d -> min <= c).

(** A cut function looks at no more than the first [max] bytes. *)
Definition local_alg (max : nat) (alg : list Z -> res nat) : Prop :=
  forall d, alg d = alg (firstn max d).

(** A cut strictly inside the data is final: more data behind it does not move
    it. *)
Definition stable_alg (alg : list Z -> res nat) : Prop :=
  forall d e c, alg d = Ok c -> c < length d -> alg (d ++ e) = Ok c.
