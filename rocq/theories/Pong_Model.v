(** Model of tube/pongpq.go: the leader's queue of latest pongs. The red-black
    tree (github.com/glycerine/rbtree, not in the repository) is modelled as what
    it is used as: a list sorted by the comparator, without equal items. PeerID
    strings are numbers (only compared); RecvTm is nanoseconds, 0 the zero time. *)
From Coq Require Import ZArith List Bool Arith.
From Verif Require Import Base.
Import ListNotations.
Local Open Scope Z_scope.

Record pong := mkPong { pg_peer : nat; pg_tm : Z }.

(** The comparator of newPongPQ (144-183): newest first, then by PeerID. *)
Definition cmp (a b : pong) : comparison :=
  if pg_tm b <? pg_tm a then Lt
  else if pg_tm a <? pg_tm b then Gt
  else Nat.compare (pg_peer a) (pg_peer b).

(** tree.InsertGetIt: None if an equal item is present. *)
Fixpoint insert (x : pong) (l : list pong) : option (list pong) :=
  match l with
  | [] => Some [x]
  | y :: r => match cmp x y with
              | Lt => Some (x :: l)
              | Eq => None
              | Gt => match insert x r with Some r' => Some (y :: r') | None => None end
              end
  end.
(** delPeerID (121-136): the walk with delete-behind removes every match. *)
Fixpoint delPeerID (p : nat) (l : list pong) : list pong :=
  match l with
  | [] => []
  | y :: r => if Nat.eqb (pg_peer y) p then delPeerID p r else y :: delPeerID p r
  end.
(** add (96-108): None is the panic. *)
Definition add (x : pong) (l : list pong) : option (list pong) :=
  if pg_tm x =? 0 then None else insert x (delPeerID (pg_peer x) l).
(** pop (80-88). *)
Definition pop (l : list pong) : option pong * list pong :=
  match l with [] => (None, []) | x :: r => (Some x, r) end.
(** deleteAll (138-141). *)
Definition deleteAll (l : list pong) : list pong := [].

(** quorumPongTm (38-78). *)
Inductive qresult :=
| QNow                        (* ok, tm = time.Now(), newest = nil *)
| QFail                       (* !ok *)
| QAt (x : pong)              (* ok, tm = newest.RecvTm *)
| QPanic.
Fixpoint walk (i goal : nat) (l : list pong) : qresult :=
  match l with
  | [] => QPanic
  | x :: r => if Nat.eqb i goal then (if pg_tm x =? 0 then QPanic else QAt x) else walk (S i) goal r
  end.
Definition quorumPongTm (quor : Z) (l : list pong) : qresult :=
  let n := length l in
  if Nat.eqb n 0 || (quor <? 1) then QNow
  else if Z.of_nat n <? quor then QFail
  else walk 0 (Z.to_nat (quor - 1)) l.

(** Histories of calls. *)
Inductive call := Add (x : pong) | Del (p : nat) | Pop | DelAll.
Definition exec (c : call) (l : list pong) : option (option pong * list pong) :=
  match c with
  | Add x => match add x l with Some l' => Some (None, l') | None => None end
  | Del p => Some (None, delPeerID p l)
  | Pop => Some (pop l)
  | DelAll => Some (None, deleteAll l)
  end.
Fixpoint execs (cs : list call) (l : list pong) : option (list (option pong) * list pong) :=
  match cs with
  | [] => Some ([], l)
  | c :: r => match exec c l with
              | None => None
              | Some (o, l') => match execs r l' with Some (os, l'') => Some (o :: os, l'') | None => None end
              end
  end.
