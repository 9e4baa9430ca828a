(* Hermes, the replicated key/value store with reads and writes on every
   node: tube/hermes/hermes.go, tube/hermes/pqtree.go.

   One key.  A node keeps a map of keys, and every handler below touches
   the one key named in its request, so the keys of a node evolve
   independently; they share only the queue of message-loss deadlines, whose
   order is not modelled (a deadline may pass whenever it likes, below).

   Not modelled.  Read-modify-write tickets: no exported function submits
   one (Write makes WRITE tickets, hermes.go 1996; Read makes READ tickets,
   2032), so IsRMW is false in every message.  Membership: the replication
   degree is a constant of the configuration (1765), and the membership
   upcall changes only the epoch (2119-2123); a message of another epoch, or
   one that arrives while the operating lease is not current, is dropped
   (2143-2185), which here is a message that is not delivered.  Timers: when
   a deadline passes is up to the schedule.  int64 overflow of the version. *)

From Coq Require Import List Arith Bool Lia.
Import ListNotations.
From Verif Require Import Herm_Spec.

(* ------------------------------------------------------------------ *)
(* timestamps                                                          *)

(* hermes.go 39-43, type TS.  The coordinator is named by its peer id. *)
Record ts := TS { tver : nat; tcid : nat }.

(* what a node is configured with: HermesConfig.ReplicationDegree
   (hermes.go 1763-1765), the package variable useBcastAckOptimization
   (866-867; the source sets it to true), and the hash of a coordinator's
   id keyed by a version (87-95; BLAKE3 is not modelled). *)
Record cfg := Cfg {
  cRD : nat;
  cBcast : bool;
  cHash : nat -> nat -> list nat }.

(* bytes.Compare, hermes.go 96. *)
Fixpoint bytesCompare (a b : list nat) : comparison :=
  match a, b with
  | [], [] => Eq
  | [], _ :: _ => Lt
  | _ :: _, [] => Gt
  | x :: a', y :: b' =>
      match Nat.compare x y with
      | Eq => bytesCompare a' b'
      | c => c
      end
  end.

(* hermes.go 50-102, TS.Compare: -1, 0, 1 are Lt, Eq, Gt.  The first
   alternative at 70-77 is switched off. *)
Definition tsCompare (c : cfg) (a b : ts) : comparison :=
  if tver a <? tver b then Lt
  else if tver b <? tver a then Gt
  else if tcid a =? tcid b then Eq
  else match bytesCompare (cHash c (tver a) (tcid a)) (cHash c (tver a) (tcid b)) with
       | Gt => Gt
       | _ => Lt
       end.

(* ------------------------------------------------------------------ *)
(* what a node holds                                                   *)

(* hermes.go 1785-1796, HermesKeyState. *)
Inductive kst := SValid | SInvalid | SWrite | SReplay | SInvalidWR.

(* hermes.go 477-487, type KeyMeta, without Key and IsRMW. *)
Record keym := KM { kTS : ts; kSt : kst; kLast : nat; kVal : option nat }.

(* hermes.go 1902-1911, TicketOp; only READ and WRITE tickets exist. *)
Inductive top := READ | WRITE.

(* hermes.go 1847-1900, type HermesTicket.  tKeym: whether tkt.keym has been
   set; tInPQ: whether the ticket's item is in timeoutPQ.  The ackVector is
   the list of the peers in it, each once. *)
Record tkt := TK {
  tId : nat; tOp : top; tVal : option nat; tTS : ts; tFrom : nat;
  tPseudo : bool; tAcks : list nat; tKeym : bool; tInPQ : bool }.

(* hermes.go 144-168, types INV, ACK and VALIDATE, without Key, EpochV and
   IsRMW. *)
Inductive msg :=
| MInv (from : nat) (t : ts) (v : option nat) (tid : nat)
| MAck (from : nat) (t : ts) (tid : nat)
| MVal (from : nat) (t : ts) (tid : nat).

(* How a ticket ends: tkt.Err and, for a read, tkt.Val and tkt.TS when
   tkt.Done is closed. *)
Inductive tres := TOk (v : option nat) (t : ts) | TOverWrit | TNotFound.

(* What a handler does besides changing the node: broadcasts and sends, and
   closing a ticket's Done.  OIssue is not in the code: it marks the place
   where a write is given its timestamp. *)
Inductive out :=
| OBcast (m : msg)
| OSend (dst : nat) (m : msg)
| ODone (tid : nat) (op : top) (r : tres)
| OIssue (tid : nat) (t : ts) (v : option nat).

(* hermes.go 1701-1760, HermesNode: the entry of the key in store, and the
   key's tickets, which key2items lists in order and tkt2item finds by id.
   hOut collects what the handler has done so far. *)
Record nst := NS { hKey : option keym; hPend : list tkt; hOut : list out }.

(* A handler ends normally, or in a panic, after which the node does
   nothing more. *)
Inductive hres := HOk (s : nst) | HPanic (s : nst).

Definition bind (r : hres) (f : nst -> hres) : hres :=
  match r with HOk s => f s | HPanic s => HPanic s end.

Definition emit (o : out) (s : nst) : nst := NS (hKey s) (hPend s) (hOut s ++ [o]).
Definition setKey (k : keym) (s : nst) : nst := NS (Some k) (hPend s) (hOut s).
Definition setPend (p : list tkt) (s : nst) : nst := NS (hKey s) p (hOut s).

Definition withSt (k : keym) (x : kst) : keym := KM (kTS k) x (kLast k) (kVal k).

(* keym.State = x, through the pointer. *)
Definition setSt (x : kst) (s : nst) : nst :=
  match hKey s with
  | Some k => setKey (withSt k x) s
  | None => s
  end.

(* ------------------------------------------------------------------ *)
(* tickets                                                             *)

(* hermes.go 1679-1687, getTicket. *)
Definition getTicket (id : nat) (s : nst) : option tkt :=
  find (fun t => tId t =? id) (hPend s).

(* Write through the pointer to the ticket with this id. *)
Definition modTicket (id : nat) (f : tkt -> tkt) (s : nst) : nst :=
  setPend (map (fun t => if tId t =? id then f t else t) (hPend s)) s.

Definition dropId (id : nat) (p : list tkt) : list tkt :=
  filter (fun t => negb (tId t =? id)) p.

(* hermes.go 1206-1258, deleteTicket. *)
Definition deleteTicket (id : nat) (wasWrite : bool) (s : nst) : hres :=
  match getTicket id s with
  | None => if wasWrite then HPanic s else HOk s
  | Some _ => HOk (setPend (dropId id (hPend s)) s)
  end.

(* tkt.Done.Close(), with the ticket's fields as they are.  Nobody waits for
   a pseudo ticket. *)
Definition closeDone (t : tkt) (r : tres) (s : nst) : nst :=
  if tPseudo t then s else emit (ODone (tId t) (tOp t) r) s.

Definition inPQ (b : bool) (t : tkt) : tkt :=
  TK (tId t) (tOp t) (tVal t) (tTS t) (tFrom t) (tPseudo t) (tAcks t) (tKeym t) b.

(* hermes.go 218-278, actionAbRecordPending: a ticket already in the queue
   keeps its place among the key's tickets and gets a new deadline (not
   modelled); one that has been popped from the queue is deleted and added
   again at the end (250-251); a new one is added at the end. *)
Definition recordPending (t : tkt) (s : nst) : hres :=
  match getTicket (tId t) s with
  | Some t0 =>
      if tInPQ t0 then HOk s
      else bind (deleteTicket (tId t) (match tOp t with WRITE => true | READ => false end) s)
             (fun s1 => HOk (setPend (hPend s1 ++ [inPQ true t]) s1))
  | None => HOk (setPend (hPend s ++ [inPQ true t]) s)
  end.

Definition addAck (from : nat) (t : tkt) : tkt :=
  TK (tId t) (tOp t) (tVal t) (tTS t) (tFrom t) (tPseudo t)
     (if existsb (Nat.eqb from) (tAcks t) then tAcks t else from :: tAcks t)
     (tKeym t) (tInPQ t).

(* tkt.Val = v; tkt.TS = t; and, where b, tkt.keym = keym. *)
Definition setVT (v : option nat) (x : ts) (b : bool) (t : tkt) : tkt :=
  TK (tId t) (tOp t) v x (tFrom t) (tPseudo t) (tAcks t) (b || tKeym t) (tInPQ t).

(* hermes.go 1172-1204, unblockReadsFor: every READ ticket of the key takes
   the key's value and timestamp, is deleted, and is done. *)
Definition unblockReads (s : nst) : nst :=
  match hKey s with
  | None => s
  | Some k =>
      fold_left
        (fun s1 t =>
           match tOp t with
           | WRITE => s1
           | READ => closeDone t (TOk (kVal k) (kTS k)) (setPend (dropId (tId t) (hPend s1)) s1)
           end)
        (hPend s) s
  end.

(* hermes.go 1116-1149, completeWrite, with a ticket id. *)
Definition completeWrite (id : nat) (s : nst) : hres :=
  match getTicket id s, hKey s with
  | Some t, Some k =>
      bind (deleteTicket id true (setKey (KM (tTS t) (kSt k) (tFrom t) (tVal t)) s))
        (fun s1 => HOk (unblockReads (closeDone t (TOk (tVal t) (tTS t)) s1)))
  | _, _ => HPanic s
  end.

(* hermes.go 308-333, the loop of releaseDiscardedWriter.  It ranges over
   pqitems.slc while deleteTicket (1232) closes the gap in the same backing
   array, which is what arr is: after a deletion the array holds the
   remaining items and then whatever was there before. *)
Fixpoint releaseLoop (c : cfg) (k : keym) (n : nat) (i : nat) (arr : list tkt) (s : nst) : hres :=
  match n with
  | 0 => HOk s
  | S n' =>
      match nth_error arr i with
      | None => HOk s
      | Some t =>
          match tOp t, tFrom t =? kLast k, tsCompare c (kTS k) (tTS t) with
          | WRITE, true, Eq =>
              bind (deleteTicket (tId t) true s)
                (fun s1 =>
                   releaseLoop c k n' (S i)
                     (hPend s1 ++ skipn (length (hPend s1)) arr)
                     (closeDone t TOverWrit s1))
          | _, _, _ => releaseLoop c k n' (S i) arr s
          end
      end
  end.

(* hermes.go 282-334, releaseDiscardedWriter.  A peer id is never empty. *)
Definition releaseDiscarded (c : cfg) (s : nst) : hres :=
  match hKey s with
  | Some k => releaseLoop c k (length (hPend s)) 0 (hPend s) s
  | None => HPanic s
  end.

(* ------------------------------------------------------------------ *)
(* requests                                                            *)

Definition newTicket (id : nat) (op : top) (v : option nat) (t : ts) (from : nat)
  (pseudo haskeym : bool) : tkt := TK id op v t from pseudo [] haskeym false.

(* hermes.go 586-668, readReq, for a new ticket.  Its messageLossTimeout is
   zero, so coordFailed (642) is false.  wait: waitForDur is not negative. *)
Definition readReq (c : cfg) (me id : nat) (wait : bool) (s : nst) : hres :=
  let cont (k : keym) (s : nst) : hres :=
    let t := newTicket id READ None (kTS k) me false true in
    match kSt k with
    | SValid =>
        let s1 := unblockReads s in
        HOk (closeDone t (TOk (kVal k) (kTS k)) s1)
    | SInvalid | SInvalidWR | SWrite | SReplay => recordPending t s
    end in
  match hKey s with
  | None =>
      if (cRD c =? 1) || negb wait
      then HOk (emit (ODone id READ TNotFound) s)
      else let k := KM (TS 0 me) SInvalid me None in cont k (setKey k s)
  | Some k => cont k s
  end.

(* hermes.go 698-797, writeReq, with actionW (391-408) in place. *)
Definition writeReq (c : cfg) (me id : nat) (v : option nat) (s : nst) : hres :=
  let cont (k : keym) (s : nst) : hres :=
    match kSt k with
    | SValid | SInvalid =>
        let t1 := TS (S (tver (kTS k))) me in
        let s1 := emit (OIssue id t1 v) (setKey (KM t1 SWrite me v) s) in
        bind (recordPending (newTicket id WRITE v t1 me false true) s1)
          (fun s2 => HOk (emit (OBcast (MInv me t1 v id)) s2))
    | SInvalidWR | SWrite | SReplay =>
        recordPending (newTicket id WRITE v (kTS k) me false true) s
    end in
  match hKey s with
  | None =>
      let k := KM (TS 0 me) SInvalid me v in
      if cRD c =? 1
      then HOk (emit (ODone id WRITE (TOk v (TS 0 me)))
                  (emit (OIssue id (TS 0 me) v) (setKey (withSt k SValid) s)))
      else cont k (setKey k s)
  | Some k => cont k s
  end.

(* ------------------------------------------------------------------ *)
(* messages                                                            *)

(* hermes.go 869-922, ack: to every peer, or to the sender of the INV.  A
   missing circuit (915-917, a panic) is not modelled. *)
Definition sendAck (c : cfg) (me from : nat) (t : ts) (tid : nat) (s : nst) : nst :=
  if cBcast c then emit (OBcast (MAck me t tid)) s
  else emit (OSend from (MAck me t tid)) s.

(* hermes.go 336-388, actionI. *)
Definition actionI (c : cfg) (from : nat) (t : ts) (v : option nat) (tid : nat) (s : nst) : hres :=
  match hKey s with
  | None => HPanic s
  | Some k =>
      let s1 := setKey (KM t (kSt k) from v) s in
      if cBcast c then
        if cRD c <=? 2 then HOk (unblockReads (setSt SValid s1))
        else
          bind (match getTicket tid s1 with
                | None => recordPending (newTicket tid WRITE v t from true true) s1
                | Some tk =>
                    if tPseudo tk then HOk (modTicket tid (setVT v t true) s1) else HOk s1
                end)
            (fun s2 => HOk (modTicket tid (addAck from) s2))
      else HOk s1
  end.

(* hermes.go 941-1113, recvInvalidate (1041-1101 concerns RMW). *)
Definition recvInv (c : cfg) (me from : nat) (t : ts) (v : option nat) (tid : nat) (s : nst) : hres :=
  let s0 := match hKey s with
            | None => setKey (KM t SInvalid from v) s
            | Some _ => s
            end in
  match hKey s0 with
  | None => HPanic s0
  | Some k =>
      let ack s1 := HOk (sendAck c me from t tid s1) in
      bind
        (match tsCompare c t (kTS k) with
         | Eq => bind (actionI c from t v tid s0) ack
         | Lt => ack s0
         | Gt =>
             match kSt k with
             | SValid =>
                 bind (actionI c from t v tid s0) (fun s1 => ack (setSt SInvalid s1))
             | SInvalid | SInvalidWR => bind (actionI c from t v tid s0) ack
             | SWrite | SReplay =>
                 bind (releaseDiscarded c s0)
                   (fun s1 => bind (actionI c from t v tid s1)
                      (fun s2 => ack (setSt SInvalidWR s2)))
             end
         end)
        (fun s3 =>
           if cBcast c && (cRD c <=? 2) then HOk (unblockReads (setSt SValid s3)) else HOk s3)
  end.

(* hermes.go 434-460, actionLA: record the ACK on the ticket; is it the last
   one, and is the ticket a write? *)
Definition actionLA (c : cfg) (from tid : nat) (s : nst) : option (nst * bool * bool) :=
  match getTicket tid s with
  | None => None
  | Some t =>
      let n := length (tAcks (addAck from t)) in
      let isLast := if cBcast c then cRD c - 1 <=? n + 1 else n =? cRD c - 1 in
      Some (modTicket tid (addAck from) s, isLast,
            match tOp t with WRITE => true | READ => false end)
  end.

(* hermes.go 1355-1485, recvAck from the switch on the state on; ack.TS is
   the key's timestamp. *)
Definition recvAck2 (c : cfg) (me from : nat) (t : ts) (tid : nat) (k : keym) (s : nst) : hres :=
  match kSt k with
  | SValid => HOk s
  | SInvalid =>
      if cBcast c then
        match actionLA c from tid s with
        | None => HPanic s
        | Some (s1, isLast, isWrite) =>
            if isLast then
              let s2 := setSt SValid (modTicket tid (setVT (kVal k) (kTS k) false) s1) in
              if isWrite then completeWrite tid s2 else HOk (unblockReads s2)
            else HOk s1
        end
      else HOk s
  | SInvalidWR =>
      match actionLA c from tid s with
      | None => HPanic s
      | Some (s1, isLast, isWrite) =>
          if isLast then
            let s2 := setSt SValid s1 in
            if isWrite then completeWrite tid s2 else HOk (unblockReads s2)
          else HOk s1
      end
  | SWrite =>
      match actionLA c from tid s with
      | None => HPanic s
      | Some (s1, isLast, isWrite) =>
          if isWrite then
            if isLast then
              bind (completeWrite tid (setSt SValid s1))
                (fun s2 => HOk (if cBcast c then s2 else emit (OBcast (MVal from t tid)) s2))
            else HOk s1
          else HPanic s1
      end
  | SReplay =>
      match actionLA c from tid s with
      | None => HPanic s
      | Some (s1, isLast, _) =>
          if isLast then
            let s2 := unblockReads (setSt SValid s1) in
            HOk (if cBcast c then s2 else emit (OBcast (MVal me t tid)) s2)
          else HOk s1
      end
  end.

(* hermes.go 1260-1355, recvAck.  Without the optimisation an ACK for an
   unknown key is ErrKeyNotFound (1271), on which Start panics (2182). *)
Definition recvAck (c : cfg) (me from : nat) (t : ts) (tid : nat) (s : nst) : hres :=
  match hKey s with
  | None =>
      if cBcast c then
        bind (match getTicket tid s with
              | None => recordPending (newTicket tid WRITE None t from true false) s
              | Some _ => HOk s
              end)
          (fun s1 => HOk (modTicket tid (addAck from) s1))
      else HPanic s
  | Some k =>
      let cmp := tsCompare c t (kTS k) in
      if cBcast c then
        match getTicket tid s, cmp with
        | Some _, Lt => deleteTicket tid false s
        | o, _ =>
            bind (match o with
                  | None => recordPending (newTicket tid WRITE None t from true true) s
                  | Some _ => HOk s
                  end)
              (fun s1 =>
                 let s2 := modTicket tid (addAck from) s1 in
                 match getTicket tid s2 with
                 | None => HPanic s2
                 | Some t2 =>
                     match tVal t2, cRD c <=? 2 with
                     | Some _, true => completeWrite tid (setSt SValid s2)
                     | _, _ =>
                         match cmp with
                         | Eq => recvAck2 c me from t tid k s2
                         | _ => HOk s2
                         end
                     end
                 end)
        end
      else
        match cmp with
        | Eq => recvAck2 c me from t tid k s
        | _ => HOk s
        end
  end.

Definition isWriteT (t : tkt) : bool := match tOp t with WRITE => true | READ => false end.

(* hermes.go 412-427 and 1526-1531, completing every write in progress. *)
Fixpoint completeAll (l : list nat) (s : nst) : hres :=
  match l with
  | [] => HOk s
  | id :: l' => bind (completeWrite id s) (completeAll l')
  end.

(* hermes.go 1488-1546, recvValidate. *)
Definition recvVal (c : cfg) (t : ts) (s : nst) : hres :=
  match hKey s with
  | None => HPanic s
  | Some k =>
      match tsCompare c t (kTS k) with
      | Eq =>
          match kSt k with
          | SValid => HOk s
          | SInvalid => HOk (unblockReads (setSt SValid s))
          | SInvalidWR =>
              bind (completeAll (map tId (filter isWriteT (hPend s))) s)
                (fun s1 => HOk (setSt SValid (unblockReads s1)))
          | SWrite => HOk s
          | SReplay => HOk (setSt SValid (unblockReads s))
          end
      | _ => HOk s
      end
  end.

(* ------------------------------------------------------------------ *)
(* deadlines                                                           *)

Definition clearAcks (t : tkt) : tkt :=
  TK (tId t) (tOp t) (tVal t) (tTS t) (tFrom t) (tPseudo t) [] (tKeym t) (tInPQ t).

(* hermes.go 1561-1660, one turn of the loop of checkCoordOrFollowerFailed:
   the ticket's deadline has passed and the ticket is popped from the queue
   (not from the key's tickets).  strict: now is after the deadline, not
   equal to it.  actionBR: 413-422. *)
Definition deadline (c : cfg) (me id : nat) (strict : bool) (s : nst) : hres :=
  match getTicket id s with
  | None => HOk s
  | Some t0 =>
      if tInPQ t0 then
        let s0 := modTicket id (inPQ false) s in
        let t := inPQ false t0 in
        if tKeym t then
          match hKey s0 with
          | None => HPanic s0
          | Some k =>
              match kSt k with
              | SInvalid =>
                  if strict then
                    bind (recordPending t s0)
                      (fun s1 =>
                         HOk (emit (OBcast (MInv me (kTS k) (kVal k) id))
                                (setSt SReplay (modTicket id clearAcks s1))))
                  else HOk s0
              | SInvalidWR =>
                  if isWriteT t then completeWrite id s0
                  else HOk (unblockReads (setSt SInvalid s0))
              | SWrite =>
                  if isWriteT t then
                    bind (completeWrite id (setSt SValid s0))
                      (fun s1 =>
                         HOk (if cBcast c then unblockReads s1
                              else match hKey s1 with
                                   | Some k1 => emit (OBcast (MVal me (kTS k1) id)) s1
                                   | None => s1
                                   end))
                  else HOk s0
              | SReplay =>
                  let s1 := unblockReads (setSt SValid s0) in
                  HOk (if cBcast c then s1 else emit (OBcast (MVal me (kTS k) id)) s1)
              | SValid => HOk s0
              end
          end
        else HPanic s0
      else HOk s
  end.

(* ------------------------------------------------------------------ *)
(* the cluster                                                         *)

(* What has happened, in order.  LInv: a request is taken from writeReqCh
   or readReqCh; LIss: a write gets its timestamp; LRRes, LWRes: the ticket
   is done.  hist_of is the part a client sees. *)
Inductive lev :=
| LInv (id n : nat) (o : opn)
| LIss (id : nat) (t : ts) (v : option nat)
| LRRes (id : nat) (v : option nat) (t : option ts)
| LWRes (id : nat) (ok : bool).

Definition hist1 (e : lev) : list hev :=
  match e with
  | LInv id n o => [HInv id n o]
  | LIss _ _ _ => []
  | LRRes id v _ => [HRes id (HOkR v)]
  | LWRes id true => [HRes id HOkW]
  | LWRes id false => [HRes id HErr]
  end.
Definition hist_of (l : list lev) : list hev := flat_map hist1 l.

(* The nodes 0 .. cRD-1, every message ever sent with its destination, the
   next ticket id, what has happened, the nodes that have panicked, and the
   numbers of the messages that have been delivered. *)
Record gst := GS {
  gN : nat -> nst; gNet : list (nat * msg); gTid : nat;
  gLog : list lev; gDead : nat -> bool; gDel : list nat }.

Definition ginit : gst := GS (fun _ => NS None [] []) [] 0 [] (fun _ => false) [].

Definition outLog (o : out) : list lev :=
  match o with
  | OBcast _ | OSend _ _ => []
  | OIssue id t v => [LIss id t v]
  | ODone id READ (TOk v t) => [LRRes id v (Some t)]
  | ODone id READ TNotFound => [LRRes id None None]
  | ODone id READ TOverWrit => []
  | ODone id WRITE (TOk _ _) => [LWRes id true]
  | ODone id WRITE _ => [LWRes id false]
  end.

Definition others (c : cfg) (n : nat) : list nat :=
  filter (fun m => negb (m =? n)) (seq 0 (cRD c)).

(* hermes.go 503-526 bcastInval, 549-571 bcastValid, 900-912: one copy to
   every other node. *)
Definition outNet (c : cfg) (n : nat) (o : out) : list (nat * msg) :=
  match o with
  | OBcast m => map (fun d => (d, m)) (others c n)
  | OSend d m => [(d, m)]
  | _ => []
  end.

Definition upd {A} (f : nat -> A) (i : nat) (x : A) : nat -> A :=
  fun j => if j =? i then x else f j.

(* Run a handler at node n and collect what it did. *)
Definition runAt (c : cfg) (n : nat) (h : nst -> hres) (g : gst) : gst :=
  let fin (s : nst) (dead : bool) : gst :=
    GS (upd (gN g) n (NS (hKey s) (hPend s) []))
       (gNet g ++ flat_map (outNet c n) (hOut s))
       (gTid g)
       (gLog g ++ flat_map outLog (hOut s))
       (if dead then upd (gDead g) n true else gDead g)
       (gDel g) in
  match h (gN g n) with HOk s => fin s false | HPanic s => fin s true end.

Inductive event :=
| EWrite (n : nat) (v : option nat)
| ERead (n : nat) (wait : bool)
| EDeliver (i : nat)
| EDeadline (n id : nat) (strict : bool).

Definition handle (c : cfg) (n : nat) (m : msg) (s : nst) : hres :=
  match m with
  | MInv from t v tid => recvInv c n from t v tid s
  | MAck from t tid => recvAck c n from t tid s
  | MVal _ t _ => recvVal c t s
  end.

(* hermes.go 2082-2200, one turn of the select loop of Start.  A message may
   be delivered at any time after it was sent, any number of times, or
   never. *)
Definition step (c : cfg) (g : gst) (e : event) : gst :=
  let alive (n : nat) := (n <? cRD c) && negb (gDead g n) in
  match e with
  | EWrite n v =>
      if alive n then
        let g1 := GS (gN g) (gNet g) (S (gTid g)) (gLog g ++ [LInv (gTid g) n (OpW v)])
                     (gDead g) (gDel g) in
        runAt c n (writeReq c n (gTid g) v) g1
      else g
  | ERead n w =>
      if alive n then
        let g1 := GS (gN g) (gNet g) (S (gTid g)) (gLog g ++ [LInv (gTid g) n OpR])
                     (gDead g) (gDel g) in
        runAt c n (readReq c n (gTid g) w) g1
      else g
  | EDeliver i =>
      match nth_error (gNet g) i with
      | Some (n, m) =>
          if alive n then
            let g1 := GS (gN g) (gNet g) (gTid g) (gLog g) (gDead g) (gDel g ++ [i]) in
            runAt c n (handle c n m) g1
          else g
      | None => g
      end
  | EDeadline n id strict =>
      if alive n then runAt c n (deadline c n id strict) g else g
  end.

Fixpoint run (c : cfg) (g : gst) (es : list event) : gst :=
  match es with
  | [] => g
  | e :: es' => run c (step c g e) es'
  end.

(* The value a node holds for the key (hermes.go 477-487, KeyMeta.Val). *)
Definition valueAt (s : nst) : option nat :=
  match hKey s with None => None | Some k => kVal k end.

(* The history a client sees. *)
Definition hist (c : cfg) (es : list event) : list hev := hist_of (gLog (run c ginit es)).

(* The conditions under which the theorems hold.  No deadline passes: *)
Definition noDeadline (e : event) : bool :=
  match e with EDeadline _ _ _ => false | _ => true end.

(* and a write is submitted to a node only when its key is not busy there:
   the node knows nothing of the key, or the key is valid or invalid. *)
Definition quietNow (g : gst) (e : event) : bool :=
  match e with
  | EWrite n _ =>
      match hKey (gN g n) with
      | None => true
      | Some k => match kSt k with SValid | SInvalid => true | _ => false end
      end
  | _ => true
  end.

Fixpoint calm (c : cfg) (g : gst) (es : list event) : bool :=
  match es with
  | [] => true
  | e :: es' => noDeadline e && quietNow g e && calm c (step c g e) es'
  end.
