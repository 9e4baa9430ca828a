(** Model of the requests that wait at a node: tube/imap.go, and in tube/tube.go
    replicateTicket, replicateBatch, resubmitStalledTickets, FinishTicket,
    commitWhatWeCan, becomeLeader and tellClientsImNotLeader as far as they touch
    them. A ticket is a pointer (a number) into a heap; its LogIndex changes after
    it was put into a map, which is what imap is about. Ticket IDs are numbers. *)
From Coq Require Import List ZArith Bool Arith.
Import ListNotations.
Local Open Scope Z_scope.

(** Ticket: its TicketID and LogIndex, 0 until it has one. *)
Record tk := Tk { tId : Z; tIdx : Z }.
Definition heap := nat -> tk.
Definition store (p : nat) (t : tk) (h : heap) : heap := fun q => if Nat.eqb q p then t else h q.
(** tkt.LogIndex = i. *)
Definition assign (p : nat) (i : Z) (h : heap) : heap := store p (Tk (tId (h p)) i) h.

(** Omap (tube/omap.go:206-226, 142-160, 429-443) with int64 or string keys, and Go's map:
    a list in the order of the keys (Omap_*.v verifies the ordered map itself). *)
Fixpoint put (k : Z) (v : nat) (l : list (Z * nat)) : list (Z * nat) :=
  match l with
  | [] => [(k, v)]
  | x :: r => if k =? fst x then (k, v) :: r else if k <? fst x then (k, v) :: l else x :: put k v r
  end.
Definition remove (k : Z) (l : list (Z * nat)) : list (Z * nat) := filter (fun x => negb (fst x =? k)) l.
Fixpoint get (k : Z) (l : list (Z * nat)) : option nat :=
  match l with [] => None | x :: r => if fst x =? k then Some (snd x) else get k r end.

(** imap (tube/imap.go:15-22): ordered, m, awaitIndex. *)
Record imap := Imap { ordered : list (Z * nat); byId : list (Z * nat); await : list (Z * nat) }.
(** newImap (24-30). *)
Definition newImap : imap := Imap [] [] [].
(** imap.set (67-86). *)
Definition iset (h : heap) (id : Z) (p : nat) (s : imap) : imap :=
  if 0 <? tIdx (h p) then Imap (put (tIdx (h p)) p (ordered s)) (put id p (byId s)) (await s)
  else Imap (ordered s) (put id p (byId s)) (put (tId (h p)) p (await s)).
(** imap.del (46-55). *)
Definition idel (h : heap) (p : nat) (s : imap) : imap :=
  match get (tId (h p)) (byId s) with
  | None => s
  | Some _ => Imap (remove (tIdx (h p)) (ordered s)) (remove (tId (h p)) (byId s)) (remove (tId (h p)) (await s))
  end.
(** One turn of the loop of imap.repair (103-112). *)
Definition repairOne (h : heap) (s : imap) (x : Z * nat) : imap :=
  match get (fst x) (byId s) with
  | Some _ => if 0 <? tIdx (h (snd x))
              then Imap (put (tIdx (h (snd x))) (snd x) (ordered s)) (byId s) (remove (fst x) (await s))
              else s
  | None => Imap (ordered s) (byId s) (remove (fst x) (await s))
  end.
(** imap.repair (99-113): the walk of awaitIndex meets each key once, deleting behind itself. *)
Definition repair (h : heap) (s : imap) : imap := fold_left (repairOne h) (await s) s.
(** imap.all (115-118): what it leaves, and the tickets it yields. *)
Definition iall (h : heap) (s : imap) : imap * list nat :=
  let s' := repair h s in (s', map snd (ordered s')).

(** The part of TubeNode that is modelled. The log is that of an uncompacted node: the entry of index i is the i-th.
    answered: tickets whose clients got their answer; told: those told that this is no longer the leader. *)
Record node := Node {
  hp : heap; next : nat; leader : bool; noop : nat; noopDone : bool; batch : list nat;
  log : list nat; applied : nat; wal : imap; waf : imap; fin : list nat; answered : list nat; told : list nat }.

Definition zero : heap := fun _ => Tk 0 0.
Definition start : node := Node zero 0 false 0 false [] [] 0 newImap newImap [] [] [].

(** A new Ticket: the pointer is next. *)
Definition alloc (id i : Z) (n : node) : node :=
  Node (store (next n) (Tk id i) (hp n)) (S (next n)) (leader n) (noop n) (noopDone n) (batch n) (log n) (applied n) (wal n) (waf n)
    (fin n) (answered n) (told n).
Definition withWal (w : imap) (n : node) : node :=
  Node (hp n) (next n) (leader n) (noop n) (noopDone n) (batch n) (log n) (applied n) w (waf n) (fin n) (answered n) (told n).
Definition withWaf (w : imap) (n : node) : node :=
  Node (hp n) (next n) (leader n) (noop n) (noopDone n) (batch n) (log n) (applied n) (wal n) w (fin n) (answered n) (told n).
Definition withBatch (b : list nat) (n : node) : node :=
  Node (hp n) (next n) (leader n) (noop n) (noopDone n) b (log n) (applied n) (wal n) (waf n) (fin n) (answered n) (told n).

(** WaitingAtLeader.set(tkt.TicketID, tkt), and for WaitingAtFollow. *)
Definition walSet (p : nat) (n : node) : node := withWal (iset (hp n) (tId (hp n p)) p (wal n)) n.
Definition wafSet (p : nat) (n : node) : node := withWaf (iset (hp n) (tId (hp n p)) p (waf n)) n.

(** replicateTicket (tube.go:6105-6280) for a ticket other than noop0: until noop0 has committed it is stalled into
    WaitingAtLeader (6137-6150), then it goes into the batch (6154-6188). Sessions are in Sess_*.v. *)
Definition replicate (p : nat) (n : node) : node :=
  if noopDone n then withBatch (batch n ++ [p]) n else walSet p n.

(** An entry is made (prepOne 6304-6306, lli + 1), saved, and its ticket put into WaitingAtLeader (6270, 6479), in a cluster of more than one. *)
Definition logOne (n : node) (p : nat) : node :=
  walSet p (Node (assign p (Z.of_nat (length (log n)) + 1) (hp n)) (next n) (leader n) (noop n) (noopDone n) (batch n) (log n ++ [p])
    (applied n) (wal n) (waf n) (fin n) (answered n) (told n)).

(** replicateBatch (6406-6500), ticket by ticket; the code makes all entries first and then puts all tickets into the map. *)
Definition flush (n : node) : node := fold_left logOne (batch n) (withBatch [] n).

(** resubmitStalledTickets(false) (5988-6032) without the queue of membership changes; the sort by LeaderStampSN is left out. *)
Definition resubmit (n : node) : node :=
  let (w, l) := iall (hp n) (wal n) in
  fold_left (fun n p => replicate p n) (filter (fun p => tIdx (hp n p) =? 0) l) (withWal w n).

(** FinishTicket (5529-5640): the ticket that waits under the same ID, if it is another one, gets the answer and the LogIndex (5561-5634). *)
Definition finish (p : nat) (n : node) : node :=
  if existsb (Nat.eqb p) (fin n) then n
  else
    let w := if leader n then wal n else waf n in
    let q := match get (tId (hp n p)) (byId w) with Some q => q | None => p end in
    let h := assign q (tIdx (hp n p)) (hp n) in
    let w' := idel h p w in
    Node h (next n) (leader n) (noop n) (noopDone n) (batch n) (log n) (applied n) (if leader n then w' else wal n)
      (if leader n then waf n else w') (p :: fin n) (q :: p :: answered n) (told n).

(** commitWhatWeCan (10320-10440), one entry: the first noop of a leader lets the others go, after the entry is done (the deferred call 10428).
    The check of the ticket's index (10348-10350) is left out: C116 is about it. FinishTicket is called for every entry; the code leaves it out on a
    follower whose own request it is not (10551-10560), where it would find nothing to finish. *)
Definition commit (n : node) : node :=
  match nth_error (log n) (applied n) with
  | None => n
  | Some p =>
      let n1 := Node (hp n) (next n) (leader n) (noop n) (noopDone n) (batch n) (log n) (S (applied n)) (wal n) (waf n) (fin n) (answered n) (told n) in
      if leader n && Nat.eqb p (noop n) && negb (noopDone n) then
        let n2 := withWal (idel (hp n1) p (wal n1)) n1 in
        let n3 := Node (hp n2) (next n2) (leader n2) (noop n2) true (batch n2) (log n2) (applied n2) (wal n2) (waf n2) (fin n2) (answered n2) (told n2) in
        resubmit (finish p n3)
      else finish p n1
  end.

(** becomeLeader (7390-7409): noop0 is put into WaitingAtLeader and replicated, then what waits at the follower is taken over.
    initialNoop0HasCommitted = false: 6553. *)
Definition lead (id : Z) (n : node) : node :=
  if leader n then n
  else
    let n1 := alloc id 0 n in
    let p := next n in
    let n2 := Node (hp n1) (next n1) true p false [] (log n1) (applied n1) (wal n1) (waf n1) (fin n1) (answered n1) (told n1) in
    let n3 := logOne (walSet p n2) p in
    withWaf newImap (fold_left (fun n q => walSet q n) (snd (iall (hp n3) (waf n3))) n3).

(** Stepping down: tellClientsImNotLeader (10842-10883) and clearBatchToSubmit(true) (6368-6402). Every client can be reached. *)
Definition stepDown (n : node) : node :=
  if leader n then
    Node (hp n) (next n) false (noop n) (noopDone n) [] (log n) (applied n) newImap (waf n) (fin n) (answered n)
      (told n ++ batch n ++ snd (iall (hp n) (wal n)))
  else n.

(** What happens at a node:
    - EReq id: a client's request arrives (1270-1290): replicated on a leader, else it waits until the leader answers;
    - EBatch: the batch is due; ECommit: the next entry is committed;
    - ELead, EDown: this node becomes leader (the noop's ID), or is leader no more;
    - EAppend id, ETrunc k: a follower's log gets an entry from the leader, or loses entries that are not applied;
    - EAnswer id i: the leader's answer to a request of this node (1760-1800, 10962-11010), for one that waits at the follower. *)
Inductive event := EReq (id : Z) | EBatch | ECommit | ELead (id : Z) | EDown | EAppend (id : Z) | ETrunc (k : nat) | EAnswer (id i : Z).

Definition step (n : node) (e : event) : node :=
  match e with
  | EReq id => let m := alloc id 0 n in if leader n then replicate (next n) m else wafSet (next n) m
  | EBatch => if leader n then flush n else n
  | ECommit => commit n
  | ELead id => lead id n
  | EDown => stepDown n
  | EAppend id =>
      if leader n then n
      else let m := alloc id (Z.of_nat (length (log n)) + 1) n in
           Node (hp m) (next m) (leader m) (noop m) (noopDone m) (batch m) (log m ++ [next n]) (applied m) (wal m) (waf m) (fin m) (answered m) (told m)
  | ETrunc k =>
      if leader n then n
      else Node (hp n) (next n) (leader n) (noop n) (noopDone n) (batch n) (firstn (Nat.max k (applied n)) (log n)) (applied n) (wal n) (waf n) (fin n) (answered n) (told n)
  | EAnswer id i =>
      if leader n then n
      else match get id (byId (waf n)) with
           | Some q => if 0 <? i then
               finish q (Node (assign q i (hp n)) (next n) (leader n) (noop n) (noopDone n) (batch n) (log n) (applied n) (wal n) (waf n) (fin n) (answered n) (told n))
               else n
           | None => n
           end
  end.
Definition run (n : node) (es : list event) : node := fold_left step es n.

(** One imap on its own, with the LogIndex of tickets assigned meanwhile. *)
Inductive iop := OSet (p : nat) | ODel (p : nat) | OAssign (p : nat) (i : Z) | OWalk.
Definition istep (x : heap * imap) (o : iop) : heap * imap :=
  let (h, s) := x in
  match o with
  | OSet p => (h, iset h (tId (h p)) p s)
  | ODel p => (h, idel h p s)
  | OAssign p i => (assign p i h, s)
  | OWalk => (h, fst (iall h s))
  end.
Definition irun (x : heap * imap) (os : list iop) : heap * imap := fold_left istep os x.
