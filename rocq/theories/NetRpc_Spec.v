(** * The net/rpc interface: what is claimed *)

From Coq Require Import ZArith List Bool PeanoNat.
From Verif Require Import NetRpc_Model.
Import ListNotations.
Local Open Scope Z_scope.

(** what happened in and for call k. *)
Definition callStory (k : nat) (h : list nev) : list nev :=
  filter (fun e => match e with
                   | NCalled q _ _ | NReturned q _ | NInvoked q _ _ | NYielded q _ _ => Nat.eqb q k
                   | _ => false
                   end) h.

(** the story of a call that was answered: the method was called once, with the
    argument of this call, and the call returned what the method did; or no such
    method is registered. *)
Definition goodStory (knows : Z -> bool) (k : nat) (o : outcome) (l : list nev) : Prop :=
  exists meth a,
    (knows meth = true /\ exists b e, o = (if e =? 0 then NOk b else NErr e) /\
       l = [NCalled k meth a; NInvoked k meth a; NYielded k b e; NReturned k o]) \/
    (knows meth = false /\ o = NErr eNoMethod /\ l = [NCalled k meth a; NReturned k o]).

(** the server turns to a request only when it is done with all it turned to
    before. *)
Definition oneByOne (h : list nev) : Prop :=
  forall h1 p h2, h = h1 ++ NBegan p :: h2 -> forall q, In (NBegan q) h1 -> In (NEnded q) h1.

(** no call was given up (timed out or cancelled). *)
Definition noneGivenUp (h : list nev) : Prop := forall k, ~ In (NReturned k NGone) h.
