(* What a client of the Hermes store relies on, stated over the history of
   its requests and answers on one key; nothing here refers to how the store
   works. *)

From Coq Require Import List Arith.
Import ListNotations.

(* A write of a value (None is the nil value) or a read. *)
Inductive opn := OpW (v : option nat) | OpR.

(* An answer: a read returned this value (a key not found reads as None), a
   write returned nil, or the request returned an error. *)
Inductive hans := HOkR (v : option nat) | HOkW | HErr.

(* Requests and answers, in the order in which they happened.  Every request
   has an id of its own. *)
Inductive hev :=
| HInv (id node : nat) (o : opn)
| HRes (id : nat) (a : hans).

Definition answered_ok (h : list hev) (i : nat) : Prop :=
  exists a, In (HRes i a) h /\ a <> HErr.

(* a was answered, without an error, before b was requested. *)
Definition precedes (h : list hev) (a b : nat) : Prop :=
  exists h1 h2 h3 r n o,
    h = h1 ++ HRes a r :: h2 ++ HInv b n o :: h3 /\ r <> HErr.

(* a stands before b in the list. *)
Definition before (l : list nat) (a b : nat) : Prop :=
  exists l1 l2 l3, l = l1 ++ a :: l2 ++ b :: l3.

(* One operation on a register holding cur leaves it holding nxt. *)
Definition regstep (h : list hev) (cur : option nat) (i : nat) (nxt : option nat) : Prop :=
  (exists n v, In (HInv i n (OpW v)) h /\ nxt = v) \/
  (exists n, In (HInv i n OpR) h /\ In (HRes i (HOkR cur)) h /\ nxt = cur).

Fixpoint legal (h : list hev) (cur : option nat) (l : list nat) : Prop :=
  match l with
  | [] => True
  | i :: l' => exists nxt, regstep h cur i nxt /\ legal h nxt l'
  end.

(* Linearizable: there is an order of operations that a single register,
   empty at first, could have executed one at a time.  It contains every
   operation answered without an error, and, of the others, any writes that
   took effect (a write that returned an error, or has not returned, may
   have taken effect or not).  An operation answered before another was
   requested comes first. *)
Definition linearizable (h : list hev) : Prop :=
  exists l : list nat,
    NoDup l /\
    (forall i, In i l -> exists n o, In (HInv i n o) h) /\
    (forall i, answered_ok h i -> In i l) /\
    (forall i n, In i l -> In (HInv i n OpR) h -> answered_ok h i) /\
    (forall a b, In a l -> In b l -> precedes h a b -> before l a b) /\
    legal h None l.

(* Every id is requested once and answered at most once, after it was
   requested. *)
Definition wellformed (h : list hev) : Prop :=
  (forall h1 h2 i n o, h = h1 ++ HInv i n o :: h2 ->
     (forall n' o', ~ In (HInv i n' o') h1) /\ (forall a, ~ In (HRes i a) h1)) /\
  (forall h1 h2 i a, h = h1 ++ HRes i a :: h2 ->
     (exists n o, In (HInv i n o) h1) /\ (forall a', ~ In (HRes i a') h1)).

(* A value read was written before: no read returns a value that nobody
   asked to write. *)
Definition no_invention (h : list hev) : Prop :=
  forall h1 h2 i v, h = h1 ++ HRes i (HOkR (Some v)) :: h2 ->
    exists j n, In (HInv j n (OpW (Some v))) h1.
