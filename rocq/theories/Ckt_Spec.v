(** * What is expected of circuits *)

From Coq Require Import ZArith List Bool Arith.
From Verif Require Import Ckt_Model.
Import ListNotations.

(** Histories are newest first. *)

Definition same (c c' : nat) (x x' : bool) : bool := (c =? c') && Bool.eqb x x'.

(** what end x of circuit c sent, oldest first; k: the errors, else the other
    fragments, the first one included. *)
Fixpoint sent (c : nat) (x k : bool) (h : list event) : list Z :=
  match h with
  | [] => []
  | ESent c' x' k' d :: r =>
      if same c c' x x' && Bool.eqb k k' then sent c x k r ++ [d] else sent c x k r
  | _ :: r => sent c x k r
  end.

(** what the user at end x of circuit c took from Reads (Errors). *)
Fixpoint recv (c : nat) (x k : bool) (h : list event) : list Z :=
  match h with
  | [] => []
  | ERecv c' x' k' d :: r =>
      if same c c' x x' && Bool.eqb k k' then recv c x k r ++ [d] else recv c x k r
  | _ :: r => recv c x k r
  end.

(** what end x of circuit c sent before the notice of its end. *)
Definition isFin (c : nat) (x : bool) (e : event) : bool :=
  match e with EFin c' x' => same c c' x x' | _ => false end.
Fixpoint sentBeforeEnd (c : nat) (x : bool) (h : list event) : list Z :=
  match h with
  | [] => []
  | e :: r => if existsb (isFin c x) r then sentBeforeEnd c x r else sent c x false (e :: r)
  end.

(** a is b with some elements left out. *)
Inductive subseq {A : Type} : list A -> list A -> Prop :=
| sub_nil : forall l, subseq [] l
| sub_keep : forall x a b, subseq a b -> subseq (x :: a) (x :: b)
| sub_skip : forall x a b, subseq a b -> subseq a (x :: b).

(** no message is under way in the processes or between them. *)
Definition quiet (s : state) : Prop :=
  wireT s = [] /\ wireF s = [] /\ bootT s = None /\ bootF s = None /\ bg s = [] /\
  forall p, pReads (getP p s) = [] /\ pErrs (getP p s) = [] /\
            (pPump (getP p s) = Idle \/ pPump (getP p s) = Gone).

(** how often the pump of p was told of a circuit, how often it closed one. *)
Fixpoint tolds (p : nat) (h : list event) : nat :=
  match h with
  | [] => 0
  | ETold p' _ _ :: r => (if p =? p' then 1 else 0) + tolds p r
  | _ :: r => tolds p r
  end.
Fixpoint closeds (p : nat) (h : list event) : nat :=
  match h with
  | [] => 0
  | EClosed p' _ _ _ :: r => (if p =? p' then 1 else 0) + closeds p r
  | _ :: r => closeds p r
  end.

(** LocalPeer.OpenCircuitCount (ckt.go 1032-1047). *)
Definition openCount (p : nat) (s : state) : nat := length (pMap (getP p s)).
