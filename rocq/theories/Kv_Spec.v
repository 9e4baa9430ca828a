(** What the users of the replicated key/value store rely on. *)
From Coq Require Import List ZArith Lia Bool Sorted.
From Verif Require Import Base Kv_Model.
Import ListNotations.
Open Scope Z_scope.

(** A lease is in force at time [tm]: it has a leasor and an end, and [tm] is not
    later than that end plus the bound on clock drift. *)
Definition InForce (drift tm : Z) (l : leaf) : Prop :=
  lLeasor l <> [] /\ lUntil l <> 0 /\ tm <= lUntil l + drift.

(** The requester of a ticket holds the lease: same name and same peer ID. *)
Definition Holder (t : ticket) (l : leaf) : Prop :=
  iLeasor (tInfo t) = lLeasor l /\ qFrom (tReq t) = lPeer l.

Definition IsWrite (t : ticket) : Prop := qOp (tReq t) = Write \/ qOp (tReq t) = Cas.

Definition Targets (t : ticket) (tab key : bytes) : Prop := qTable (tReq t) = tab /\ qKey (tReq t) = key.

(** The reply of a refused write carries the current value and lease. *)
Definition ReportsCurrent (drift : Z) (l : leaf) (t' : ticket) : Prop :=
  tErr t' <> None /\ tCur t' = lVal l /\
  iLeasor (tInfo t') = lLeasor l /\ iPeer (tInfo t') = lPeer l /\ iUntil (tInfo t') = lUntil l + drift /\
  iEpoch (tInfo t') = lEpoch l /\ iVersion (tInfo t') = lVersion l /\ iIndex (tInfo t') = lIndex l.

(** A request as replicateTicket leaves it in the log: it has a time, and a
    lease request ends its duration later. *)
Definition Stamped (t : ticket) : Prop :=
  qTm (tReq t) <> 0 /\ 0 <= qDur (tReq t) /\
  (0 < qDur (tReq t) -> iUntil (tInfo t) = qTm (tReq t) + qDur (tReq t)).

(** [s'] and [s] differ at most in key [key] of table [tab]. *)
Definition OnlyAt (tab key : bytes) (s s' : store) : Prop :=
  forall tab' key', (tab', key') <> (tab, key) -> findLeaf s' tab' key' = findLeaf s tab' key'.

(** Entry [t], answered with [t'], wrote to the key. *)
Definition Wrote (tab key : bytes) (t t' : ticket) : Prop :=
  IsWrite t /\ Targets t tab key /\ tErr t' = None.

(** A history in which the key is always there: any number of entries applied
    one after the other on some node, [n] of which wrote to the key. *)
Inductive history (drift : Z) (tab key : bytes) : store -> store -> Z -> Prop :=
| H_nil s : history drift tab key s s 0
| H_wrote s now t s1 t1 s2 n :
    apply drift now s t = Ok (s1, t1) -> tErr t = None -> findLeaf s1 tab key <> None ->
    Wrote tab key t t1 -> history drift tab key s1 s2 n -> history drift tab key s s2 (1 + n)
| H_other s now t s1 t1 s2 n :
    apply drift now s t = Ok (s1, t1) -> tErr t = None -> findLeaf s1 tab key <> None ->
    ~ Wrote tab key t t1 -> history drift tab key s1 s2 n -> history drift tab key s s2 n.

(** What a lease does not protect from: writes of the holder, deletes under the
    leasor's name, and operations on the table. *)
Definition Harmless (drift : Z) (tab key : bytes) (l : leaf) (t : ticket) : Prop :=
  qTm (tReq t) <= lUntil l + drift /\
  (IsWrite t -> Targets t tab key -> ~ Holder t l) /\
  (qOp (tReq t) = DeleteKey -> Targets t tab key -> iLeasor (tInfo t) <> lLeasor l) /\
  (qOp (tReq t) = DeleteTable \/ qOp (tReq t) = RenameTable -> qTable (tReq t) <> tab).

(** No leaf of the store and no ticket asks for auto-deletion. *)
Definition NoAuto (s : store) : Prop := forall tab key l, findLeaf s tab key = Some l -> lAuto l = false.
Definition NoAutoT (t : ticket) : Prop := iAuto (tInfo t) = false.

(** A CAS is allowed: what it must compare to is as it says. *)
Definition CasHolds (q : req) (cur : option leaf) : Prop :=
  match cur with
  | None => qOldVersion q <= 0 /\ qOldEpoch q <= 0 /\ qOldVal q = []
  | Some l =>
      (0 < qOldVersion q -> lVersion l = qOldVersion q) /\
      (qOldVersion q <= 0 -> 0 < qOldEpoch q -> lEpoch l = qOldEpoch q) /\
      (qOldVersion q <= 0 -> qOldEpoch q <= 0 -> qOldVal q <> [] -> lVal l = qOldVal q)
  end.

(** The order of byte strings. *)
Definition Blt (a b : bytes) : Prop := bcmp a b = Lt.

(** Stores built by the operations keep their keys in order. *)
Definition SortedKeys {A} (m : list (bytes * A)) : Prop := StronglySorted Blt (map fst m).
Definition WfStore (s : store) : Prop := SortedKeys s /\ forall tab m, mget tab s = Some m -> SortedKeys m.

(** [p] is a prefix of [k]. *)
Definition IsPrefix (p k : bytes) : Prop := exists r, k = p ++ r.

(** Catching up: of every entry, another node gets either the ticket as it was
    proposed or as the sender's own application left it. *)
Definition resent (t t' u : ticket) : Prop := u = t \/ u = t'.

(** The names of the leasors belong to their peers: a lease request carries the
    name of the peer that made it, any other write that name or none. *)
Definition NamedT (name : bytes -> bytes) (t : ticket) : Prop :=
  iLeasor (tInfo t) = name (qFrom (tReq t)) \/ qDur (tReq t) = 0 /\ iLeasor (tInfo t) = [].
Definition NamedS (name : bytes -> bytes) (s : store) : Prop :=
  forall tab key l, findLeaf s tab key = Some l -> lLeasor l <> [] -> lLeasor l = name (lPeer l).

(** [q] is below every key of the table, of which there are several, at a byte
    where they all still agree: they begin with [p] and [c], and [q] with [p] and
    a smaller byte. *)
Definition BelowAll (q : bytes) (m : table) : Prop :=
  (1 < length m)%nat /\
  exists p c c' r, q = p ++ c' :: r /\ c' < c /\ forall k l, In (k, l) m -> exists r', k = p ++ c :: r'.
