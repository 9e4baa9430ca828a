(** What a user of the waiting requests expects, said without the model's helpers. *)
From Coq Require Import List ZArith Bool Arith.
Import ListNotations.
From Verif Require Import Wait_Model.
Local Open Scope Z_scope.

(* Which ticket waits under an ID after a history of one map; f gives each ticket's ID. *)
Definition holder (f : nat -> Z) (os : list iop) (id : Z) : option nat :=
  fold_left (fun r o => match o with
    | OSet p => if f p =? id then Some p else r
    | ODel p => if f p =? id then None else r
    | _ => r end) os None.
(* The log index a ticket was last given, 0 if none. *)
Definition indexOf (os : list iop) (p : nat) : Z :=
  fold_left (fun r o => match o with OAssign q i => if Nat.eqb q p then i else r | _ => r end) os 0.

(* No two tickets of one ID wait together, a ticket gets an index once, and no other ticket gets that. *)
Definition orderly (f : nat -> Z) (os : list iop) : Prop :=
  forall a o b, os = a ++ o :: b ->
  match o with
  | OSet p | ODel p => forall q, holder f a (f p) = Some q -> q = p
  | OAssign p i => indexOf a p = 0 /\ 0 < i /\ forall q, indexOf a q <> i
  | OWalk => True
  end.

(* The tickets walked after a history. *)
Definition walked (f : nat -> Z) (os : list iop) : list nat :=
  let x := irun (fun p => Tk (f p) 0, newImap) os in snd (iall (fst x) (snd x)).

(* The request of this ID is in the log; or is about to be put there. *)
Definition logged (id : Z) (n : node) : Prop := exists p, In p (log n) /\ tId (hp n p) = id.
Definition batched (id : Z) (n : node) : Prop := exists p, In p (batch n) /\ tId (hp n p) = id.
(* Its client has its answer; or was told to go to another leader. *)
Definition heard (id : Z) (n : node) : Prop := exists p, (In p (answered n) \/ In p (told n)) /\ tId (hp n p) = id.
(* The node still knows it. *)
Definition waits (id : Z) (n : node) : Prop := get id (byId (wal n)) <> None \/ get id (byId (waf n)) <> None.

(* The event is about this ID. *)
Definition about (e : event) (id : Z) : Prop :=
  match e with EReq i | ELead i | EAppend i | EAnswer i _ => i = id | _ => False end.

(* No request reaches this node when it has seen its ID before (entries from a leader may have IDs seen before). *)
Definition once (es : list event) : Prop := forall a e b, es = a ++ e :: b ->
  match e with EReq id | ELead id => forall e', In e' a -> ~ about e' id | _ => True end.
