(** Model of the Raft core of tube/tube.go: elections, log replication,
    commitment, persistence and restart, for a fixed membership.

    One node is a single goroutine (tube/tube.go, the select loop of
    TubeNode.Start); each incoming message or timer runs one handler to
    completion.  A handler is modelled by a function from the node's state to
    its new in-memory state and the list of its outside effects (files written,
    messages sent) in program order.  A crash may cut that list anywhere.

    Simplifications, all of them about code outside this file's scope:
    - the membership (MC.PeerNames) is the constant list [cfg]; of MC only
      ConfigTerm is kept, since ConfigVersion changes only with membership;
    - no log compaction and no snapshot transfer (tube.go 17340-17775): the
      log is the plain list of entries from index 1;
    - AppendEntries.LogTermsRLE is the list of the terms of the leader's log
      (theorem C19_extends_is_longest_common_prefix: on such logs
      TermsRLE.Extends computes exactly the longest common prefix used here);
    - pre-votes, sticky leaders, timers and the NoFaultTolDur period only decide
      when something happens: they are free booleans of the event;
    - a cluster of one node is not modelled (beginElection 6701-6729);
    - terms and indexes are natural numbers (int64 overflow is ignored). *)
From Coq Require Import List Arith Bool Lia.
From Verif Require Import Base.
Import ListNotations.

(** A PeerID: rpc25519 draws a fresh random PeerID at every process start, so a
    PeerID is the node's name with a restart count. *)
Definition pid := (nat * nat)%type.
Definition pid_eqb (p q : pid) : bool := (fst p =? fst q) && (snd p =? snd q).
Definition opid_eqb (p : option pid) (q : pid) : bool :=
  match p with Some x => pid_eqb x q | None => false end.

(** RaftLogEntry (tube.go): its Term and Ticket; Index is the position. *)
Record entry := mkE { e_term : nat; e_cmd : nat }.
Definition terms (l : list entry) : list nat := map e_term l.
Definition noopCmd : nat := 0.

Inductive role_t := Follower | Candidate | Leader.
Definition is_leader (r : role_t) : bool := match r with Leader => true | _ => false end.
Definition is_cand (r : role_t) : bool := match r with Candidate => true | _ => false end.
Definition is_foll (r : role_t) : bool := match r with Follower => true | _ => false end.

(** RaftState (tube.go): what s.saver.save writes.  [p_applied] is the history
    of entries applied to the key-value store (LastApplied is its length). *)
Record pstate := mkP {
  p_term : nat;            (* CurrentTerm *)
  p_vote : option pid;     (* HaveVoted, VotedFor *)
  p_mc : nat;              (* MC.ConfigTerm *)
  p_commit : nat;          (* CommitIndex *)
  p_applied : list entry   (* KVstore, LastApplied *)
}.
Definition set_commit (c : nat) (p : pstate) := mkP (p_term p) (p_vote p) (p_mc p) c (p_applied p).
Definition set_mc (c : nat) (p : pstate) := mkP (p_term p) (p_vote p) c (p_commit p) (p_applied p).
Definition set_term_vote (t : nat) (v : option pid) (p : pstate) :=
  mkP t v (p_mc p) (p_commit p) (p_applied p).
Definition set_applied (a : list entry) (p : pstate) := mkP (p_term p) (p_vote p) (p_mc p) (p_commit p) a.

(** The volatile fields of TubeNode used by Raft. *)
Record mem := mkM {
  m_p : pstate;                   (* s.state *)
  m_role : role_t;                (* s.role *)
  m_inc : nat;                    (* s.PeerID = (name, m_inc) *)
  m_votes : list (nat * bool);    (* s.votes of the others, by Name *)
  m_noop : nat;                   (* index of the leader's noop0 entry *)
  m_peers : list (pid * nat)      (* s.peers: PeerID, MatchIndex *)
}.
Definition set_p (p : pstate) (m : mem) := mkM p (m_role m) (m_inc m) (m_votes m) (m_noop m) (m_peers m).

(** What survives a crash: the persistor's file and the WAL.  The WAL also keeps
    its entries in memory (wal.go raftLog), always equal to the file's. *)
Record disk := mkD { d_p : pstate; d_log : list entry }.
Record node := mkN { n_mem : mem; n_disk : disk }.

Inductive msg :=
| RequestVote (from : pid) (to : nat) (term lastIdx lastTerm mc : nat)
| Vote (from : pid) (to : nat) (cand : pid) (granted : bool) (fromTerm term mc : nat)
| AppendEntries (from : pid) (to : nat) (term : nat) (ltrms : list nat)
    (prevIdx prevTerm : nat) (es : list entry) (lci mc : nat)
| Ack (from : pid) (to : nat) (leader : pid) (supTerm : nat) (term : nat)
    (rejected gap : bool) (lcri lastIdx mc : nat).

(** Effects.  [SaveMC]: the save inside setMC (14752); [SaveTerm]: the save that
    makes a new term or vote durable; [SaveCommit]: the save of commitWhatWeCan;
    [Wal]: the WAL now holds this log (saveRaftLogEntryDoFsync / overwriteEntries,
    wal.go; a crash in the middle of a multi-entry write is taken to leave a
    prefix of the entries). *)
Inductive effect :=
| SaveMC (p : pstate) | SaveTerm (p : pstate) | SaveCommit (p : pstate)
| Wal (l : list entry) | Send (m : msg).

Section node_code.
Variable cfg : list nat.

(** quorumAndIsNoFaultTolDur (tube.go, quorum): n/2+1, all n while the
    NoFaultTolDur period lasts. *)
Definition quorum (nofault : bool) : nat :=
  if nofault then length cfg else length cfg / 2 + 1.

Definition others (n : nat) : list nat := filter (fun x => negb (x =? n)) cfg.
Definition inCfg (n : nat) : bool := existsb (Nat.eqb n) cfg.

Definition lastIdx (l : list entry) : nat := length l.
Definition lastTerm (l : list entry) : nat := last (terms l) 0.

Definition termAt (l : list entry) (i : nat) : nat :=    (* 1-based; 0 for index 0 *)
  match i with 0 => 0 | S j => nth j (terms l) 0 end.

(** becomeFollower (6516-6603) without the final save: MC adopted (setMC saves),
    then the term and an empty vote if the term grew or the MC changed. *)
Definition becomeFollower (m : mem) (t : nat) (mc : option nat) : mem * list effect :=
  let p := m_p m in
  let newer := match mc with Some c => p_mc p <? c | None => false end in
  let p1 := match mc with Some c => if newer then set_mc c p else p | None => p end in
  let effs := if newer then [SaveMC p1] else [] in
  let p2 := if (p_term p <? t) || newer then set_term_vote t None p1 else p1 in
  (mkM p2 Follower (m_inc m) (m_votes m) 0 (m_peers m), effs).

(** beginElection (6682-6860). Nothing is saved. candidateReinitFollowerInfo
    resets every MatchIndex. *)
Definition beginElection (n : nat) (nd : node) : option (mem * list effect) :=
  let m := n_mem nd in
  let l := d_log (n_disk nd) in
  if negb (inCfg n) || (length cfg <=? 1) || is_leader (m_role m) then None
  else
    let me := (n, m_inc m) in
    let t := if is_foll (m_role m) then S (p_term (m_p m)) else p_term (m_p m) in
    let p := set_term_vote t (Some me) (m_p m) in
    Some (mkM p Candidate (m_inc m) [] 0 (map (fun x => (fst x, 0)) (m_peers m)),
          map (fun to => Send (RequestVote me to t (lastIdx l) (lastTerm l) (p_mc p))) (others n)).

(** beginPreVote (11051-11110) turns a candidate back into a follower. *)
Definition beginPreVote (nd : node) : option (mem * list effect) :=
  let m := n_mem nd in
  if is_leader (m_role m) then None
  else Some (mkM (m_p m) Follower (m_inc m) (m_votes m) (m_noop m) (m_peers m), []).

(** logUpToDateAsOurs (9193-9248). *)
Definition logUpToDateAsOurs (p : pstate) (l : list entry) (t li lt mc : nat) : bool :=
  if mc <? p_mc p then false
  else if t <? p_term p then false
  else if length l =? 0 then true
  else if lastTerm l <? lt then true
  else if lt <? lastTerm l then false
  else lastIdx l <=? li.

(** handleRequestVote (11217-11415). [sticky]: haveStickyLeader for a
    non-leader; a leader is always sticky (12401-12440). *)
Definition handleRequestVote (n : nat) (nd : node) (from : pid) (t li lt mc : nat)
    (sticky : bool) : mem * list effect :=
  let m := n_mem nd in
  let l := d_log (n_disk nd) in
  let p := m_p m in
  let me := (n, m_inc m) in
  let reply (m' : mem) (g : bool) :=
    Send (Vote me (fst from) from g (p_term p) (p_term (m_p m')) (p_mc p)) in
  if t <? p_term p then (m, [reply m false])
  else if is_leader (m_role m) || sticky then (m, [SaveTerm p; reply m false])
  else
    let '(m1, e1) := if p_term p <? t then becomeFollower m t (Some mc) else (m, []) in
    let other := negb (p_term p <? t) &&
                 match p_vote p with Some v => negb (pid_eqb v from) | None => false end in
    if other then (m, [reply m false])
    else if logUpToDateAsOurs (m_p m1) l t li lt mc then
      let p2 := set_term_vote (p_term (m_p m1)) (Some from) (m_p m1) in
      let m2 := set_p p2 m1 in
      (m2, e1 ++ [SaveTerm p2; reply m2 true])
    else (m1, e1 ++ [SaveTerm (m_p m1); reply m1 false]).

(** newAE (8816-8870) and the sends of bcastAppendEntries / sendAppendEntriesTo
    (9605-9750): entries after [prev], at most [cnt] of them. *)
Definition newAE (n : nat) (m : mem) (l : list entry) (prev cnt : nat) (to : nat) : msg :=
  AppendEntries (n, m_inc m) to (p_term (m_p m)) (terms l) prev (termAt l prev)
    (firstn cnt (skipn prev l)) (p_commit (m_p m)) (p_mc (m_p m)).

(** leaderSendsHeartbeats (8690-8810), follower caught up: no entries. *)
Definition newHeartbeat (n : nat) (m : mem) (l : list entry) (to : nat) : msg :=
  AppendEntries (n, m_inc m) to (p_term (m_p m)) (terms l) 0 0 []
    (p_commit (m_p m)) (p_mc (m_p m)).

(** becomeLeader (7239-7415): the MC takes the new term (a panic if it already
    has it), noop0 is written to the WAL and broadcast by replicateTicket, and the
    state is saved at the very end. *)
Definition becomeLeader (n : nat) (m : mem) (l : list entry) : option (mem * list effect) :=
  let p := m_p m in
  if p_term p <=? p_mc p then None
  else
    let p' := set_mc (p_term p) p in
    let l' := l ++ [mkE (p_term p) noopCmd] in
    let m' := mkM p' Leader (m_inc m) (m_votes m) (length l') (m_peers m) in
    Some (m', [Wal l'] ++ map (fun to => Send (newAE n m' l' (length l) 1 to)) (others n) ++ [SaveTerm p']).

Definition countVotes (b : bool) (vs : list (nat * bool)) : nat :=
  length (filter (fun x => Bool.eqb (snd x) b) vs).

Fixpoint lookupPeer (q : pid) (ps : list (pid * nat)) : option nat :=
  match ps with
  | [] => None
  | (x, k) :: r => if pid_eqb x q then Some k else lookupPeer q r
  end.
Fixpoint setPeer (q : pid) (k : nat) (ps : list (pid * nat)) : list (pid * nat) :=
  match ps with
  | [] => [(q, k)]
  | (x, j) :: r => if pid_eqb x q then (x, k) :: r else (x, j) :: setPeer q k r
  end.
Definition addPeer (q : pid) (ps : list (pid * nat)) : list (pid * nat) :=
  match lookupPeer q ps with Some _ => ps | None => setPeer q 0 ps end.

(** tallyVote (7077-7215). [alive]: we have a circuit to the voter. *)
Definition tallyVote (n : nat) (nd : node) (from : pid) (cand : pid) (granted : bool)
    (fromTerm t mc : nat) (alive nofault : bool) : option (mem * list effect) :=
  let m := n_mem nd in
  let l := d_log (n_disk nd) in
  let p := m_p m in
  if t <? p_term p then Some (m, [])
  else if p_term p <? t then
    let '(m1, e1) := becomeFollower m t (Some mc) in Some (m1, e1 ++ [SaveTerm (m_p m1)])
  else if negb (is_cand (m_role m)) then Some (m, [])
  else if negb (inCfg (fst from)) then Some (m, [])
  else if granted && ((p_mc p <? mc) || (p_term p <=? fromTerm)) then Some (m, [])
  else
    let fresh := pid_eqb cand (n, m_inc m) && alive &&
                 negb (existsb (fun x => fst x =? fst from) (m_votes m)) in
    let votes := if fresh then (fst from, granted) :: m_votes m else m_votes m in
    let peers := if fresh then addPeer from (m_peers m) else m_peers m in
    let m1 := mkM p (m_role m) (m_inc m) votes (m_noop m) peers in
    if quorum nofault <=? 1 + countVotes true votes then becomeLeader n m1 l
    else if quorum nofault <=? countVotes false votes then
      let '(m2, e2) := becomeFollower m1 (p_term p) None in Some (m2, e2)
    else Some (m1, []).

(** Longest common prefix of two term lists: TermsRLE.Extends (rle.go) on
    uncompacted logs. *)
Fixpoint lcp (a b : list nat) : nat :=
  match a, b with
  | x :: a', y :: b' => if x =? y then S (lcp a' b') else 0
  | _, _ => 0
  end.

(** logsAreMismatched (7496-7706), uncompacted log. *)
Fixpoint overlapOk (a b : list nat) : bool :=
  match a, b with
  | x :: a', y :: b' => (x =? y) && overlapOk a' b'
  | _, _ => true
  end.
Definition logsAreMismatched (l : list entry) (prev prevTerm : nat) (es : list entry) : bool :=
  if (length es =? 0) || (prev =? 0) then false
  else if length l <? prev then true
  else if negb (termAt l prev =? prevTerm) then true
  else negb (overlapOk (terms (skipn prev l)) (terms es)).

(** commitWhatWeCan (10249-10575): apply LastApplied+1 .. CommitIndex and save
    if anything was applied. *)
Definition commitWhatWeCan (p : pstate) (l : list entry) : pstate * list effect :=
  let la := length (p_applied p) in
  if la <? p_commit p then
    let p' := set_applied (p_applied p ++ firstn (p_commit p - la) (skipn la l)) p in
    (p', [SaveCommit p'])
  else (p, []).

(** The WAL states passed through while [es] is written after [base]. *)
Definition walWrites (base es : list entry) : list effect :=
  map (fun k => Wal (base ++ firstn k es)) (seq 0 (S (length es))).

(** The accepting decision of handleAppendEntries after the term checks
    (8152-8470): reject, accept without writing, or write a new log. *)
Inductive aeDecision :=
| AEReject (gap : bool)
| AEAccept                                  (* early accepting return: nothing written *)
| AEWrite (base es : list entry).           (* log := base ++ es, then the common tail *)

Definition aeDecide (l : list entry) (ltrms : list nat) (prev prevTerm : nat) (es : list entry) : aeDecision :=
  let c := lcp ltrms (terms l) in
  let ext := c =? length l in
  let beg := S prev in
  let fin := prev + length es in
  if c =? length ltrms then AEAccept                                (* upToDate *)
  else if logsAreMismatched l prev prevTerm es then AEReject (c <? prev)
  else if length es =? 0 then AEReject false                        (* heartbeat *)
  else if negb ext && (c <? prev) then AEReject false
  else if negb ext then
    if S c <? beg then AEReject false
    else if fin <=? c then AEAccept                                 (* nothing new *)
    else AEWrite (firstn c l) (skipn (S c - beg) es)
  else
    let from := S (length l) - beg in
    if (beg <=? S (length l)) && (length es <=? from) then AEWrite l []  (* no useful data *)
    else if S (length l) <? beg then AEAccept                       (* from < 0 *)
    else AEWrite l (skipn from es).

(** handleAppendEntries (7792-8620). *)
Definition handleAppendEntries (n : nat) (nd : node) (from : pid) (t : nat) (ltrms : list nat)
    (prev prevTerm : nat) (es : list entry) (lci mc : nat) : mem * list effect :=
  let m := n_mem nd in
  let l := d_log (n_disk nd) in
  let p := m_p m in
  let me := (n, m_inc m) in
  if t <? 1 then (m, [])
  else
    let c := lcp ltrms (terms l) in
    let early := p_commit p <? Nat.min c lci in
    let p1 := if early then set_commit (Nat.min c lci) p else p in
    let ack (term : nat) (rej gap : bool) (lcri last : nat) :=
      Send (Ack me (fst from) from t term rej gap lcri last (p_mc p)) in
    (* the deferred commitWhatWeCan of line 7941 runs after the ack is sent *)
    let finish (m' : mem) (effs : list effect) :=
      if early then let '(q, e) := commitWhatWeCan (m_p m') l in (set_p q m', effs ++ e)
      else (m', effs) in
    if t <? p_term p then
      finish (set_p p1 m) [ack (p_term p) true false c (length l)]
    else
      (* aeMemberConfigHelper 7707 *)
      let p2 := if p_mc p1 <? mc then set_mc mc p1 else p1 in
      let e2 := if p_mc p1 <? mc then [SaveMC p2] else [] in
      let p3 := if p_term p <? t then set_term_vote t None p2 else p2 in
      let e3 := if p_term p <? t then [SaveTerm p3] else [] in
      let m3 := mkM p3 Follower (m_inc m) (m_votes m)
                  (if p_term p <? t then 0 else m_noop m) (m_peers m) in
      match aeDecide l ltrms prev prevTerm es with
      | AEReject gap => finish m3 (e2 ++ e3 ++ [ack t true gap c (length l)])
      | AEAccept => finish m3 (e2 ++ e3 ++ [ack t false false c (length l)])
      | AEWrite base new =>
          let l' := base ++ new in
          let p4 := if p_commit p3 <? lci then set_commit (Nat.min lci (length l')) p3 else p3 in
          let '(p5, e5) := commitWhatWeCan p4 l' in
          let w := if length new =? 0 then [] else walWrites base new in
          let lcri := if (length l' =? length ltrms) && (lastTerm l' =? last ltrms 0)
                      then length l' else lcp ltrms (terms l') in
          (set_p p5 m3, e2 ++ e3 ++ w ++ e5 ++ [ack t false false lcri (length l')])
      end.

(** sort.Slice, biggest first (10168). *)
Fixpoint insertDesc (x : nat) (l : list nat) : list nat :=
  match l with
  | [] => [x]
  | y :: r => if y <=? x then x :: l else y :: insertDesc x r
  end.
Definition sortDesc (l : list nat) : list nat := fold_right insertDesc [] l.

(** leaderAdvanceCommitIndex (10086-10240). *)
Definition matchIndexes (m : mem) (l : list entry) : list nat :=
  length l :: map snd (filter (fun x => inCfg (fst (fst x))) (m_peers m)).
Definition leaderAdvanceCommitIndex (m : mem) (l : list entry) (nofault : bool) : mem * list effect :=
  let p := m_p m in
  match nth_error (sortDesc (matchIndexes m l)) (quorum nofault - 1) with
  | None => (m, [])
  | Some ci =>
      if (ci =? 0) || (ci <=? p_commit p) || (length l <? ci) || negb (termAt l ci =? p_term p)
      then (m, [])
      else let '(q, e) := commitWhatWeCan (set_commit ci p) l in (set_p q m, e)
  end.

(** handleAppendEntriesAck (9753-10035). Further sends are separate events.
    [force]: advanceCheckForced. *)
Definition handleAck (n : nat) (nd : node) (from : pid) (leader : pid) (t : nat)
    (rejected gap : bool) (lcri lastI mc : nat) (nofault force : bool) : mem * list effect :=
  let m := n_mem nd in
  let l := d_log (n_disk nd) in
  let p := m_p m in
  if p_term p <? t then
    let '(m1, e1) := becomeFollower m t (Some mc) in (m1, e1 ++ [SaveTerm (m_p m1)])
  else if (t <? p_term p) || negb (is_leader (m_role m)) || negb (pid_eqb leader (n, m_inc m)) then (m, [])
  else
    let peers := addPeer from (m_peers m) in
    let old := match lookupPeer from peers with Some k => k | None => 0 end in
    let m0 := mkM p (m_role m) (m_inc m) (m_votes m) (m_noop m) peers in
    let with_match k := mkM p (m_role m) (m_inc m) (m_votes m) (m_noop m) (setPeer from k peers) in
    if rejected then
      if gap then (m0, [])                       (* sends a snapshot: not modelled *)
      else if old <? lcri then leaderAdvanceCommitIndex (with_match lcri) l nofault
      else (m0, [])
    else if old <? lastI then leaderAdvanceCommitIndex (with_match lastI) l nofault
    else if force then leaderAdvanceCommitIndex m0 l nofault
    else (m0, []).

(** replicateBatch (6407-6505): the batch is written entry by entry, one fsync,
    then broadcast (at most [cnt] entries, bcastAppendEntries halves an oversized
    batch). Tickets wait until noop0 has committed (6035-6060). *)
Definition replicateBatch (n : nat) (nd : node) (cmds : list nat) (cnt : nat) : option (mem * list effect) :=
  let m := n_mem nd in
  let l := d_log (n_disk nd) in
  if negb (is_leader (m_role m)) || (p_commit (m_p m) <? m_noop m) || (length cmds =? 0) then None
  else
    let es := map (mkE (p_term (m_p m))) cmds in
    let l' := l ++ es in
    Some (m, walWrites l es ++ map (fun to => Send (newAE n m l' (length l) cnt to)) (others n)).

(** sendAppendEntriesTo (9605-9750), from the heartbeat timer (8690) or after an
    ack (9914, 9996); the starting index is LargestCommonRaftIndex+1 there and
    arbitrary here. *)
Definition leaderSend (n : nat) (nd : node) (to prev cnt : nat) : option (mem * list effect) :=
  let m := n_mem nd in
  let l := d_log (n_disk nd) in
  if negb (is_leader (m_role m)) || (length l <=? prev) || (cnt =? 0) || (to =? n) then None
  else Some (m, [Send (newAE n m l prev cnt to)]).
Definition leaderHeartbeat (n : nat) (nd : node) (to : nat) : option (mem * list effect) :=
  let m := n_mem nd in
  if negb (is_leader (m_role m)) || (to =? n) then None
  else Some (m, [Send (newHeartbeat n m (d_log (n_disk nd)) to)]).

(** Leader steps down without a pong quorum (1546). *)
Definition leaderStepDown (nd : node) : option (mem * list effect) :=
  let m := n_mem nd in
  if is_leader (m_role m) then
    let '(m1, e1) := becomeFollower m (p_term (m_p m)) None in Some (m1, e1 ++ [SaveTerm (m_p m1)])
  else None.

(** deleteFromCktAll: a peer's circuit is gone. *)
Definition peerGone (nd : node) (q : pid) : option (mem * list effect) :=
  let m := n_mem nd in
  Some (mkM (m_p m) (m_role m) (m_inc m) (m_votes m) (m_noop m)
         (filter (fun x => negb (pid_eqb (fst x) q)) (m_peers m)), []).

Inductive nevent :=
| NIdle
| NElect
| NPreVote
| NRecv (k : nat) (b1 b2 : bool)   (* deliver the k-th message ever sent *)
| NPropose (cmds : list nat) (cnt : nat)
| NSend (to prev cnt : nat)
| NHeartbeat (to : nat)
| NStepDown
| NPeerGone (q : pid).

Definition msg_to (x : msg) : nat :=
  match x with
  | RequestVote _ to _ _ _ _ => to | Vote _ to _ _ _ _ _ => to
  | AppendEntries _ to _ _ _ _ _ _ _ => to | Ack _ to _ _ _ _ _ _ _ _ => to
  end.

Definition receive (n : nat) (nd : node) (x : msg) (b1 b2 : bool) : option (mem * list effect) :=
  match x with
  | RequestVote from _ t li lt mc => Some (handleRequestVote n nd from t li lt mc b1)
  | Vote from _ cand g ft t mc => tallyVote n nd from cand g ft t mc b1 b2
  | AppendEntries from _ t lt prev pt es lci mc => Some (handleAppendEntries n nd from t lt prev pt es lci mc)
  | Ack from _ ld _ t rej gap lcri li mc => Some (handleAck n nd from ld t rej gap lcri li mc b1 b2)
  end.

Definition handle (net : list msg) (n : nat) (nd : node) (ev : nevent) : option (mem * list effect) :=
  match ev with
  | NIdle => Some (n_mem nd, [])
  | NElect => beginElection n nd
  | NPreVote => beginPreVote nd
  | NRecv k b1 b2 =>
      match nth_error net k with
      | Some x => if msg_to x =? n then receive n nd x b1 b2 else None
      | None => None
      end
  | NPropose cmds cnt => replicateBatch n nd cmds cnt
  | NSend to prev cnt => leaderSend n nd to prev cnt
  | NHeartbeat to => leaderHeartbeat n nd to
  | NStepDown => leaderStepDown nd
  | NPeerGone q => peerGone nd q
  end.

(** Carrying out effects. *)
Definition eff_disk (d : disk) (e : effect) : disk :=
  match e with
  | SaveMC p | SaveTerm p | SaveCommit p => mkD p (d_log d)
  | Wal l => mkD (d_p d) l
  | Send _ => d
  end.
Definition eff_msgs (es : list effect) : list msg :=
  flat_map (fun e => match e with Send x => [x] | _ => [] end) es.
Definition eff_disks (d : disk) (es : list effect) : disk := fold_left eff_disk es d.

(** onRestartRecover (9251-9400): reload both files, follower, no peers, new
    PeerID. *)
Definition restart (inc : nat) (d : disk) : node :=
  mkN (mkM (d_p d) Follower (S inc) [] 0 []) d.

(** The whole cluster. *)
Record gstate := mkG { g_node : nat -> node; g_net : list msg }.
Definition upd {A} (f : nat -> A) (n : nat) (x : A) : nat -> A := fun k => if k =? n then x else f k.

(** One step: node [n] runs a handler; with [Some k] it crashes after the first
    [k] effects of that handler and restarts. *)
Definition step (g : gstate) (n : nat) (ev : nevent) (cut : option nat) : option gstate :=
  let nd := g_node g n in
  match handle (g_net g) n nd ev with
  | None => None
  | Some (m', effs) =>
      match cut with
      | None => Some (mkG (upd (g_node g) n (mkN m' (eff_disks (n_disk nd) effs)))
                          (g_net g ++ eff_msgs effs))
      | Some k =>
          let pre := firstn k effs in
          Some (mkG (upd (g_node g) n (restart (m_inc (n_mem nd)) (eff_disks (n_disk nd) pre)))
                    (g_net g ++ eff_msgs pre))
      end
  end.

Definition p0 : pstate := mkP 0 None 0 0 [].
Definition node0 : node := mkN (mkM p0 Follower 0 [] 0 []) (mkD p0 []).
Definition ginit : gstate := mkG (fun _ => node0) [].

Definition gevent := (nat * nevent * option nat)%type.
Fixpoint run (g : gstate) (evs : list gevent) : option gstate :=
  match evs with
  | [] => Some g
  | (n, ev, cut) :: r => match step g n ev cut with Some g' => run g' r | None => None end
  end.
End node_code.
