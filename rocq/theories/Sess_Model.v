(** * Client sessions: the session table and its part in applying the log

    Models tube/tube.go (SessionTableEntry 5845-5985, updateSessTableByClientName
    2986-3018, commitWhatWeCan 10250-10575, leaderServedLocalRead 11683-11885,
    applyEndSess / applyNewSess / garbageCollectOldSessions 16073-16166,
    leaderDoneEarlyOnSessionStuff 16170-16381, cleanupAcked 16384-16407,
    refreshSession 17823-17835, the session part of a snapshot 3056-3058 and
    17714-17717) and tube/sess.go (the tree of sessions by expiry).

    The state machine below the sessions (tables, members, user operations) is a
    parameter: [wr] runs one operation, [rd] answers a read-only one, [lf] is
    the check whether a lease-taking write would fail.  Session ids, client
    names and times are integers; the empty session id is 0. *)

From Coq Require Import ZArith List Bool.
Import ListNotations.
Local Open Scope Z_scope.

(** ** Maps kept as association lists *)

(** Go's m[k] (the comma-ok form). *)
Fixpoint aget {V : Type} (k : Z) (l : list (Z * V)) : option V :=
  match l with
  | [] => None
  | (k', v) :: r => if k' =? k then Some v else aget k r
  end.

(** Go's delete(m, k). *)
Definition adel {V : Type} (k : Z) (l : list (Z * V)) : list (Z * V) :=
  filter (fun p => negb (fst p =? k)) l.

(** Go's m[k] = v. *)
Definition aset {V : Type} (k : Z) (v : V) (l : list (Z * V)) : list (Z * V) :=
  (k, v) :: adel k l.

(** Omap.Set on the map from serial numbers to tickets: ordered by key, one
    entry per key (tube/omap.go; the full map is modelled in Omap_Model). *)
Fixpoint cset {V : Type} (k : Z) (v : V) (l : list (Z * V)) : list (Z * V) :=
  match l with
  | [] => [(k, v)]
  | (k', v') :: r =>
      if k <? k' then (k, v) :: l
      else if k' =? k then (k, v) :: r
      else (k', v') :: cset k v r
  end.

(** the pointer assignment heap[o] = s. *)
Fixpoint hset {A : Type} (o : nat) (s : A) (h : list A) : list A :=
  match h, o with
  | [], _ => []
  | _ :: r, O => s :: r
  | x :: r, S o' => x :: hset o' s r
  end.

Section Sess.
Context {St Op Rep : Type}.
Variable wr : Op -> St -> St * Rep.
Variable rd : Op -> St -> Rep.
Variable lf : Op -> St -> option Rep.

(** ** Tickets *)

(** the fields of a session request the table keeps: Session.SessionID,
    CliName, T0, SessRequestedInitialDur, SessionIndexEndxTm
    (tube/tube.go 15712-15790; filled in by leaderSideCreateNewSess 16042-16071). *)
Record newreq : Type := mkReq {
  rqSid : Z; rqClient : Z; rqT0 : Z; rqDur : Z; rqEndx : Z }.

(** the ticket operations by how sessions treat them (the switches at
    tube.go 16176-16185 and 16349-16353):
    KRead = READ, READ_KEYRANGE, READ_PREFIX_RANGE, SHOW_KEYS;
    KWrite = WRITE, CAS, DELETE_KEY, MAKE_TABLE, DELETE_TABLE, RENAME_TABLE,
    MEMBERSHIP_SET_UPDATE;
    KOther = USER_DEFINED_FSM_OP, ADD_SHADOW_NON_VOTING,
    REMOVE_SHADOW_NON_VOTING, MEMBERSHIP_BOOTSTRAP;
    KNoop = NOOP; KNew = SESS_NEW; KEnd = SESS_END. *)
Inductive kind : Type :=
| KRead | KWrite | KOther | KNoop
| KNew (r : newreq)
| KEnd (sid : Z).

(** Ticket: SessionID, SessionSerial, MinSessSerialWaiting,
    SessionLastKnownIndex, Op and its arguments. *)
Record tkt : Type := mkTkt {
  tSid : Z; tSer : Z; tMin : Z; tKnown : Z; tKind : kind; tOp : Op }.

(** a finished ticket as kept for repeats: its results (Val, Err, CASwapped,
    ... as one value; none for the operations that have no result) and
    AsOfLogIndex. *)
Record done : Type := mkDone { dRep : option Rep; dAsOf : nat }.

(** RaftLogEntry: the ticket and Tm, the leader's time when it was logged. *)
Record entry : Type := mkEntry { enT : tkt; enTm : Z }.

(** ** The session table *)

(** SessionTableEntry (5845-5878).  Serial2Ticket is eCache; ticketID2tkt, a
    second index of the same tickets, is left out. *)
Record ste : Type := mkSte {
  eSid : Z; eCache : list (Z * done); eHigh : Z; eMax : Z;
  eEndx : Z; eRepl : Z; eDur : Z; eClient : Z; eT0 : Z }.

Definition setCache (c : list (Z * done)) (s : ste) : ste :=
  mkSte (eSid s) c (eHigh s) (eMax s) (eEndx s) (eRepl s) (eDur s) (eClient s) (eT0 s).
Definition setHigh (x : Z) (s : ste) : ste :=
  mkSte (eSid s) (eCache s) x (eMax s) (eEndx s) (eRepl s) (eDur s) (eClient s) (eT0 s).
Definition setMax (x : Z) (s : ste) : ste :=
  mkSte (eSid s) (eCache s) (eHigh s) x (eEndx s) (eRepl s) (eDur s) (eClient s) (eT0 s).
Definition setEndx (x : Z) (s : ste) : ste :=
  mkSte (eSid s) (eCache s) (eHigh s) (eMax s) x (eRepl s) (eDur s) (eClient s) (eT0 s).
Definition setRepl (x : Z) (s : ste) : ste :=
  mkSte (eSid s) (eCache s) (eHigh s) (eMax s) (eEndx s) x (eDur s) (eClient s) (eT0 s).

(** newSessionTableEntry (5966-5985). *)
Definition newSte (r : newreq) : ste :=
  mkSte (rqSid r) [] 0 0 (rqEndx r) (rqEndx r) (rqDur r) (rqClient r) (rqT0 r).

(** SessionTableEntry.Clone (5897-5921): SessionEndxTm is not copied, so it
    becomes Go's zero time. *)
Definition cloneSte (s : ste) : ste := setEndx 0 s.

(** the part of a node the sessions live in.  Entries are shared by pointer
    between the table, the map by client name and the tree by expiry, so they
    are kept in a heap: an entry is named by its place there. *)
Record node : Type := mkNode {
  nHeap : list ste;
  nTab : list (Z * nat);      (* state.SessTable *)
  nByc : list (Z * nat);      (* state.sessTableByClientName *)
  nTree : list nat;           (* sessByExpiry, in tree order *)
  nSt : St;                   (* the state machine *)
  nLast : nat }.              (* state.LastApplied *)

Definition setHeap (h : list ste) (n : node) : node :=
  mkNode h (nTab n) (nByc n) (nTree n) (nSt n) (nLast n).
Definition setTab (t : list (Z * nat)) (n : node) : node :=
  mkNode (nHeap n) t (nByc n) (nTree n) (nSt n) (nLast n).
Definition setByc (b : list (Z * nat)) (n : node) : node :=
  mkNode (nHeap n) (nTab n) b (nTree n) (nSt n) (nLast n).
Definition setTree (t : list nat) (n : node) : node :=
  mkNode (nHeap n) (nTab n) (nByc n) t (nSt n) (nLast n).
Definition setSt (x : St) (n : node) : node :=
  mkNode (nHeap n) (nTab n) (nByc n) (nTree n) x (nLast n).
Definition setLast (x : nat) (n : node) : node :=
  mkNode (nHeap n) (nTab n) (nByc n) (nTree n) (nSt n) x.

(** an empty node: newSessTableByExpiry (4422), empty SessTable (4531). *)
Definition node0 (x : St) : node := mkNode [] [] [] [] x 0.

(** heap[o] with a default for a place never handed out. *)
Definition hget (h : list ste) (o : nat) : ste :=
  nth o h (mkSte 0 [] 0 0 0 0 0 0 0).

(** s.state.SessTable[sid], with the entry. *)
Definition lookup (sid : Z) (n : node) : option (nat * ste) :=
  match aget sid (nTab n) with
  | Some o => Some (o, hget (nHeap n) o)
  | None => None
  end.

(** update one entry in place. *)
Definition onSte (o : nat) (f : ste -> ste) (n : node) : node :=
  setHeap (hset o (f (hget (nHeap n) o)) (nHeap n)) n.

(** ** The tree of sessions by expiry (sess.go) *)

(** the comparison function of newSessTableByExpiry: by SessionEndxTm, then
    by SessionID. *)
Definition treeCmp (h : list ste) (a b : nat) : comparison :=
  match eEndx (hget h a) ?= eEndx (hget h b) with
  | Eq => eSid (hget h a) ?= eSid (hget h b)
  | c => c
  end.

(** sessByExpiry.Delete: DeleteWithKey removes what compares equal. *)
Definition treeDel (h : list ste) (o : nat) (t : list nat) : list nat :=
  filter (fun x => match treeCmp h x o with Eq => false | _ => true end) t.

(** tree.Insert: nothing happens when an equal item is there. *)
Fixpoint treeIns (h : list ste) (o : nat) (t : list nat) : list nat :=
  match t with
  | [] => [o]
  | x :: r =>
      match treeCmp h o x with
      | Lt => o :: t
      | Eq => t
      | Gt => x :: treeIns h o r
      end
  end.

(** ** Operations on the table *)

(** cleanupAcked (16384-16407): drop the kept tickets below deleteBelow. *)
Fixpoint dropBelow (below : Z) (c : list (Z * done)) : list (Z * done) :=
  match c with
  | [] => []
  | (ser, d) :: r => if ser <? below then dropBelow below r else c
  end.

Definition cleanupAcked (below : Z) (s : ste) : ste :=
  if below <=? 0 then s else setCache (dropBelow below (eCache s)) s.

(** refreshSession (17823-17835). *)
Definition refreshSession (from : Z) (o : nat) (n : node) : node :=
  let s := hget (nHeap n) o in
  let t1 := treeDel (nHeap n) o (nTree n) in
  let h' := hset o (setEndx (from + eDur s) s) (nHeap n) in
  setTree (treeIns h' o t1) (setHeap h' n).

(** the last lines of applyEndSess and of each turn of
    garbageCollectOldSessions: forget the client name if it stands for this
    session (16092-16097, 16160-16165). *)
Definition dropClient (h : list ste) (client sid : Z) (byc : list (Z * nat))
  : list (Z * nat) :=
  match aget client byc with
  | Some p => if eSid (hget h p) =? sid then adel client byc else byc
  | None => byc
  end.

(** garbageCollectOldSessions (16139-16166); lnow is the time of
    LastAppliedLogHLC. *)
Fixpoint gcLoop (lnow : Z) (h : list ste) (tree : list nat)
  (tab byc : list (Z * nat)) : list nat * list (Z * nat) * list (Z * nat) :=
  match tree with
  | [] => ([], tab, byc)
  | o :: r =>
      let s := hget h o in
      if lnow <? eEndx s then (tree, tab, byc)
      else gcLoop lnow h r (adel (eSid s) tab) (dropClient h (eClient s) (eSid s) byc)
  end.

Definition gc (lnow : Z) (n : node) : node :=
  let '(tree, tab, byc) := gcLoop lnow (nHeap n) (nTree n) (nTab n) (nByc n) in
  mkNode (nHeap n) tab byc tree (nSt n) (nLast n).

(** the loop of updateSessTableByClientName (2996-3013) over the entries in
    the order Go's range happens to visit them: of two sessions of one client
    the one made later stays, the other is put among the goners. *)
Fixpoint scanClients (h : list ste) (order : list nat) (byc : list (Z * nat))
  (goners : list nat) : list (Z * nat) * list nat :=
  match order with
  | [] => (byc, goners)
  | o :: r =>
      let s := hget h o in
      match aget (eClient s) byc with
      | Some p =>
          if (p =? o)%nat then scanClients h r (aset (eClient s) o byc) goners
          else if eT0 s <=? eT0 (hget h p)
          then scanClients h r (aset (eClient s) p byc) (goners ++ [o])
          else scanClients h r (aset (eClient s) o byc) (goners ++ [p])
      | None => scanClients h r (aset (eClient s) o byc) goners
      end
  end.

(** its second loop (3014-3017): remove the goners. *)
Definition dropGoner (n : node) (o : nat) : node :=
  setTree (treeDel (nHeap n) o (nTree n))
    (setTab (adel (eSid (hget (nHeap n) o)) (nTab n)) n).

Definition updateByClient (order : list nat) (n : node) : node :=
  let '(byc, goners) := scanClients (nHeap n) order (nByc n) [] in
  fold_left dropGoner goners (setByc byc n).

(** applyNewSess (16107-16136), without the collection at its end. *)
Definition applyNewSess (r : newreq) (n : node) : node :=
  match aget (rqSid r) (nTab n) with
  | Some _ => n
  | None =>
      let o := length (nHeap n) in
      let h' := nHeap n ++ [newSte r] in
      let n1 := mkNode h' (aset (rqSid r) o (nTab n)) (nByc n)
                       (treeIns h' o (nTree n)) (nSt n) (nLast n) in
      updateByClient [o] n1
  end.

(** applyEndSess (16073-16103), without the collection at its end. *)
Definition applyEndSess (sid : Z) (n : node) : node :=
  match lookup sid n with
  | Some (o, s) =>
      mkNode (nHeap n) (adel sid (nTab n)) (dropClient (nHeap n) (eClient s) sid (nByc n))
             (treeDel (nHeap n) o (nTree n)) (nSt n) (nLast n)
  | None => n
  end.

(** ** Applying a log entry (commitWhatWeCan) *)

(** what the leader answers.  AReply: the ticket's own results (dup: taken
    from the table).  AUnknown, AClock, ATimeout, AOld: the errors of
    leaderDoneEarlyOnSessionStuff (and of 10518). *)
Inductive ans : Type :=
| AReply (d : done) (dup : bool)
| AUnknown | AClock | ATimeout | AOld.

(** the switch at 10347-10497 on the ticket's operation: the new state of the
    machine and the results. *)
Definition execOp (t : tkt) (x : St) : St * option Rep :=
  match tKind t with
  | KRead => (x, Some (rd (tOp t) x))
  | KWrite | KOther => let '(x', r) := wr (tOp t) x in (x', Some r)
  | KNoop | KNew _ | KEnd _ => (x, None)
  end.

Definition execSess (lnow : Z) (onLeader : bool) (t : tkt) (n : node) : node :=
  match tKind t with
  | KNew r => let n' := applyNewSess r n in if onLeader then gc lnow n' else n'
  | KEnd sid => let n' := applyEndSess sid n in if onLeader then gc lnow n' else n'
  | _ => n
  end.

Definition isEnd (k : kind) : bool := match k with KEnd _ => true | _ => false end.
Definition isNew (k : kind) : bool := match k with KNew _ => true | _ => false end.

(** 10525-10537: keep the ticket for repeats. *)
Definition keepTkt (t : tkt) (d : done) (s : ste) : ste :=
  let s1 := setCache (cset (tSer t) d (eCache s)) s in
  if eMax s1 <? tSer t then cleanupAcked (tMin t) (setMax (tSer t) s1) else s1.

(** one turn of the loop of commitWhatWeCan (10302-10561): the answer is what
    the leader sends.  lnow: the time of LastAppliedLogHLC after it has seen
    this entry's, an argument here. *)
Definition applyEntry (lnow : Z) (onLeader : bool) (e : entry) (n : node)
  : node * option ans :=
  let t := enT e in
  let idx := S (nLast n) in
  let '(x', r) := execOp t (nSt n) in
  let d := mkDone r idx in
  let n1 := execSess lnow onLeader t (setSt x' (setLast idx n)) in
  let reply := if onLeader then Some (AReply d false) else None in
  if tSid t =? 0 then (gc lnow n1, reply)
  else
    match lookup (tSid t) n1 with
    | None => (n1, if onLeader then Some AUnknown else None)   (* 10508-10523 *)
    | Some (o, _) =>
        if isEnd (tKind t) then (gc lnow n1, reply)
        else
          let n2 := onSte o (keepTkt t d) n1 in
          let n3 :=
            if isNew (tKind t) then n2
            else
              let n2' := refreshSession (enTm e) o n2 in
              onSte o (fun s => setRepl (eEndx s) s) n2' in
          (gc lnow n3, reply)
    end.

(** ** What the leader does before it logs a ticket *)

(** leaderDoneEarlyOnSessionStuff (16170-16381), called first thing by
    replicateTicket (6116): an answer means the ticket is done and is not
    logged. *)
Definition deduped (k : kind) : bool :=
  match k with KRead | KWrite => true | _ => false end.

Definition doneEarly (now : Z) (t : tkt) (n : node) : option ans * node :=
  if tSid t =? 0 then (None, n)
  else if negb (deduped (tKind t)) then (None, n)
  else
    match lookup (tSid t) n with
    | None => (Some AUnknown, n)
    | Some (o, s) =>
        if Z.of_nat (nLast n) <? tKnown t then (Some AClock, n)
        else if eEndx s <=? now
        then (Some ATimeout,
              setTree (treeDel (nHeap n) o (nTree n)) (setTab (adel (tSid t) (nTab n)) n))
        else
          match aget (tSer t) (eCache s) with
          | Some d => (Some (AReply d true), onSte o (cleanupAcked (tMin t)) n)
          | None =>
              match tKind t with
              | KRead =>
                  (None, onSte o (fun s => cleanupAcked (tMin t)
                                   (if eHigh s <? tSer t then setHigh (tSer t) s else s)) n)
              | _ =>
                  if tSer t <=? eMax s
                  then (Some AOld, onSte o (cleanupAcked (tMin t)) n)
                  else
                    (None, onSte o (fun s => cleanupAcked (tMin t)
                                     (if eHigh s <? tSer t then setHigh (tSer t) s else s)) n)
              end
          end
    end.

(** leaderServedLocalRead (11683-11885) once leaderCanServeReadsLocally has
    said yes: reads, and lease-taking writes that would fail.  No answer means
    it returned false: the ticket goes on to replicateTicket. *)
Definition localRep (t : tkt) (x : St) : option Rep :=
  match tKind t with
  | KRead => Some (rd (tOp t) x)
  | KWrite => lf (tOp t) x
  | _ => None
  end.

Definition localRead (now : Z) (t : tkt) (n : node) : option ans * node :=
  if tSid t =? 0 then
    match localRep t (nSt n) with
    | Some r => (Some (AReply (mkDone (Some r) (nLast n)) false), n)
    | None => (None, n)
    end
  else
    match lookup (tSid t) n with
    | None => (Some AUnknown, n)
    | Some (o, _) =>
        let n1 := refreshSession now o n in
        let s := hget (nHeap n1) o in
        match aget (tSer t) (eCache s) with
        | Some d => (Some (AReply d true), onSte o (cleanupAcked (tMin t)) n1)
        | None =>
            match localRep t (nSt n) with
            | None => (None, onSte o (cleanupAcked (tMin t)) n1)
            | Some r =>
                let d := mkDone (Some r) (nLast n) in
                (Some (AReply d false),
                 onSte o (fun s =>
                   cleanupAcked (tMin t)
                     (setCache (cset (tSer t) d (eCache s))
                        (if eHigh s <? tSer t then setHigh (tSer t) s else s))) n1)
            end
        end
    end.

(** ** Restart and snapshot *)

(** a restart from the saved state: SessTable is in it, the map by client name
    (no zid) and the tree are not, and nothing rebuilds them. *)
Definition restart (n : node) : node := setTree [] (setByc [] n).

(** RaftState.clone (3046-3065) on the sender, then applyNewStateSnapshot
    (17714-17717) on the receiver: the table holds fresh copies; the tree and
    the map by client name stay and still name the old entries. *)
Definition cloneTab (base : nat) (m : node) : list ste * list (Z * nat) :=
  (map (fun p => cloneSte (hget (nHeap m) (snd p))) (nTab m),
   combine (map fst (nTab m)) (seq base (length (nTab m)))).

Definition install (m : node) (order : list nat) (n : node) : node :=
  let '(objs, tab) := cloneTab (length (nHeap n)) m in
  updateByClient order
    (mkNode (nHeap n ++ objs) tab (nByc n) (nTree n) (nSt m) (nLast m)).

End Sess.
