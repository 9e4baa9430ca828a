(** Model of membership changes in tube/tube.go: member configurations, pre-votes,
    elections, the spreading of configurations, and the single-step "logless"
    reconfiguration run by the leader.

    As in [Raft_Model], a node is a single goroutine and a handler is a function
    from its state to its new in-memory state and the list of its outside effects
    in program order; a crash may cut that list.

    Simplifications:
    - of the log only the terms of its entries are kept, an AppendEntries carries
      the leader's whole log, and whether the follower takes it is a free choice
      of the schedule (replication is the subject of [Raft_Model]);
    - timers, sticky leaders, live circuits and NoFaultTolDur are free choices;
    - a stalled membership change is a change the schedule asks for again later; the
      changes resumed inside seen() (watchdog.go 55-67) and unstallChangeMC, before
      the rest of a handler runs, are the separate event [NSeen];
    - not modelled: forced changes (-f: ForceChangeMC, forceChangeMC 17925-18045),
      which skip every check on purpose; the installation of a snapshot, which
      overwrites CurrentTerm and MC (17655-17680); shadow replicas; leadership
      transfer; terms and versions are natural numbers (no overflow). *)
From Coq Require Import List Arith Bool Lia.
From Verif Require Import Base.
Import ListNotations.

(** A PeerID: the node's name with a restart count, as in [Raft_Model.pid]. *)
Definition who := (nat * nat)%type.
Definition who_eqb (p q : who) : bool := (fst p =? fst q) && (snd p =? snd q).

(** How a configuration came about from the founding one: elections ([El t l]: leader
    l of term t stamped its term on it) and changes ([Rc m]: the members became m). *)
Inductive edge := El (t : nat) (l : who) | Rc (m : list nat).
Definition path := list edge.

(** MemberConfig (tube.go 13539-13580): ConfigTerm, ConfigVersion and the names in
    PeerNames.  [c_hist] stands for MemberConfig.Prov (provenance, oldest first); the
    code prints it and never decides by it, and neither does the model. *)
Record conf := mkC { c_term : nat; c_ver : nat; c_mem : list nat; c_hist : path }.

(** MemberConfig.majority (13648). *)
Definition majority (m : list nat) : nat := if length m =? 0 then 0 else length m / 2 + 1.

(** VersionGT, VersionGTE, VersionEqual (13657-13685). *)
Definition versionGT (i j : conf) : bool :=
  (c_term j <? c_term i) || ((c_term i =? c_term j) && (c_ver j <? c_ver i)).
Definition versionEqual (i j : conf) : bool := (c_term i =? c_term j) && (c_ver i =? c_ver j).
Definition versionGTE (i j : conf) : bool := versionGT i j || versionEqual i j.

(** PeerNames.Get2. *)
Definition has (m : list nat) (x : nat) : bool := existsb (Nat.eqb x) m.

(** quorumsOverlap (17156-17195). *)
Definition quorumsOverlap (cur new : list nat) : bool :=
  let need0 := majority cur in
  let need1 := majority new in
  if (need0 =? 0) || (need1 =? 0) then true
  else
    let inter := if length cur <? length new then length (filter (has new) cur)
                 else length (filter (has cur) new) in
    let union := length cur + length new - inter in
    union <? need0 + need1.

(** A change asked for: AddPeerName or RemovePeerName of the ticket. *)
Inductive change := Add (x : nat) | Remove (x : nat).

(** The new PeerNames (changeMembership 14446-14545); [None]: the ticket is finished
    without a change. *)
Definition changed (m : list nat) (ch : change) : option (list nat) :=
  match ch with
  | Add x => Some (if has m x then m else m ++ [x])
  | Remove x => if has m x then Some (filter (fun y => negb (y =? x)) m) else None
  end.

Inductive role_t := Follower | Candidate | Leader.
Definition is_leader (r : role_t) : bool := match r with Leader => true | _ => false end.
Definition is_cand (r : role_t) : bool := match r with Candidate => true | _ => false end.
Definition is_foll (r : role_t) : bool := match r with Follower => true | _ => false end.

(** The part of RaftState kept here: CurrentTerm, VotedFor, MC. *)
Record pstate := mkP { p_term : nat; p_vote : option who; p_cfg : conf }.

(** The volatile fields of TubeNode. *)
Record mem := mkM {
  m_p : pstate;                        (* s.state *)
  m_role : role_t;                     (* s.role *)
  m_inc : nat;                         (* s.PeerID = (name, m_inc) *)
  m_votes : list (nat * bool);         (* s.votes of the others, by name *)
  m_pv : nat;                          (* preVoteTerm *)
  m_pvs : list (nat * bool);           (* preVotes of the others *)
  m_pvOk : nat;                        (* preVoteOkLeaderElecTerm *)
  m_seen : list (nat * (conf * nat));  (* cktPlus.MC, cktPlus.CurrentTerm, by name *)
  m_noop : nat;                        (* index of noop0 *)
  m_match : list (nat * nat);          (* MatchIndex of the peers, by name *)
  m_noopOk : bool                      (* initialNoop0HasCommitted *)
}.

(** What survives a crash: the persistor's file, and the terms in the WAL. *)
Record disk := mkD { d_p : pstate; d_log : list nat }.
Record node := mkN { n_mem : mem; n_disk : disk }.

(** Each reply also reports its sender's MC and CurrentTerm. *)
Inductive msg :=
| RequestPreVote (from : who) (to : nat) (term lastIdx lastTerm : nat) (mc : conf)
| PreVote (from : who) (to : nat) (cand : who) (granted : bool) (fromTerm term : nat) (mc : conf)
| RequestVote (from : who) (to : nat) (term lastIdx lastTerm : nat) (mc : conf)
| Vote (from : who) (to : nat) (cand : who) (granted : bool) (fromTerm term : nat) (mc : conf)
| AppendEntries (from : who) (to : nat) (term : nat) (log : list nat) (mc : conf)
| Ack (from : who) (to : nat) (leader : who) (term : nat) (match_ : nat) (mc : conf).

(** [SaveMC]: the save inside setMC (14753); [SaveTerm]: the save that makes a term
    or vote durable; [Wal]: the WAL now holds this log. *)
Inductive effect := SaveMC (p : pstate) | SaveTerm (p : pstate) | Wal (l : list nat) | Send (m : msg).

(** The schedule's free choices for one handler run. *)
Record opts := mkO {
  o_known : bool;      (* we have a circuit to the sender *)
  o_sticky : bool;     (* haveStickyLeader, for a node that is not leader *)
  o_nofault : bool;    (* inside NoFaultTolDur *)
  o_take : bool        (* the AppendEntries' entries go into our log *)
}.

Definition lastTerm (l : list nat) : nat := last l 0.
Fixpoint lookup {A} (x : nat) (l : list (nat * A)) : option A :=
  match l with [] => None | (y, a) :: r => if y =? x then Some a else lookup x r end.
Definition drop {A} (x : nat) (l : list (nat * A)) : list (nat * A) :=
  filter (fun y => negb (fst y =? x)) l.
Definition count (b : bool) (vs : list (nat * bool)) : nat :=
  length (filter (fun x => Bool.eqb (snd x) b) vs).

(** quorum (6864). *)
Definition quorum (m : list nat) (nofault : bool) : nat :=
  if nofault then length m else length m / 2 + 1.

Definition others (n : nat) (m : list nat) : list nat := filter (fun x => negb (x =? n)) m.

(** resetPreVoteState (11651). *)
Definition resetPre (m : mem) : mem :=
  mkM (m_p m) (m_role m) (m_inc m) (m_votes m) 0 [] 0 (m_seen m) (m_noop m) (m_match m) (m_noopOk m).

(** cktPlus.seen (watchdog.go 21-75): the report of [x] is recorded; a term of 0 is not. *)
Definition seen (x : nat) (c : conf) (t : nat) (m : mem) : mem :=
  let t' := if 0 <? t then t else match lookup x (m_seen m) with Some (_, o) => o | None => 0 end in
  mkM (m_p m) (m_role m) (m_inc m) (m_votes m) (m_pv m) (m_pvs m) (m_pvOk m)
      ((x, (c, t')) :: drop x (m_seen m)) (m_noop m) (m_match m) (m_noopOk m).

(** becomeFollower (6516-6603) without the final save. *)
Definition becomeFollower (m : mem) (t : nat) (mc : option conf) : mem * list effect :=
  let p := m_p m in
  let newer := match mc with Some c => versionGT c (p_cfg p) | None => false end in
  let p1 := match mc with Some c => if newer then mkP (p_term p) (p_vote p) c else p | None => p end in
  let effs := if newer then [SaveMC p1] else [] in
  let p2 := if (p_term p <? t) || newer then mkP t None (p_cfg p1) else p1 in
  (mkM p2 Follower (m_inc m) (m_votes m) 0 [] 0 (m_seen m) 0 [] false, effs).

(** beginPreVote (11051-11195). Only members ask; a candidate goes back to follower; a
    phase already going for the same term is left alone; a cluster of one tallies its
    own vote at once. *)
Definition beginPreVote (n : nat) (nd : node) : option (mem * list effect) :=
  let m := n_mem nd in
  let p := m_p m in
  let c := p_cfg p in
  let l := d_log (n_disk nd) in
  if negb (has (c_mem c) n) || is_leader (m_role m) then None
  else
    let t := S (p_term p) in
    if length (c_mem c) <=? 1 then
      Some (mkM p Follower (m_inc m) (m_votes m) 0 [] t (m_seen m) (m_noop m) (m_match m) (m_noopOk m), [])
    else
      Some (mkM p Follower (m_inc m) (m_votes m) t [] 0 (m_seen m) (m_noop m) (m_match m) (m_noopOk m),
            map (fun to => Send (RequestPreVote (n, m_inc m) to t (length l) (lastTerm l) c)) (others n (c_mem c))).

(** logUpToDateAsOurs (9193-9248). *)
Definition logUpToDateAsOurs (p : pstate) (l : list nat) (t li lt : nat) (mc : conf) : bool :=
  if versionGT (p_cfg p) mc then false
  else if t <? p_term p then false
  else if length l =? 0 then true
  else if lastTerm l <? lt then true
  else if lt <? lastTerm l then false
  else length l <=? li.

(** handleRequestPreVote (11472-11605). *)
Definition handleRequestPreVote (n : nat) (nd : node) (from : who) (t li lt : nat) (mc : conf) (o : opts)
    : mem * list effect :=
  let m := n_mem nd in
  let p := m_p m in
  let g := negb (is_leader (m_role m) || o_sticky o) && (p_term p <? t) &&
           logUpToDateAsOurs p (d_log (n_disk nd)) t li lt mc in
  (m, [Send (PreVote (n, m_inc m) (fst from) from g (p_term p) t (p_cfg p))]).

(** tallyPreVote (6915-7075), after seen. *)
Definition tallyPreVote (n : nat) (m : mem) (from cand : who) (granted : bool) (t : nat) (mc : conf)
    (o : opts) : mem * list effect :=
  let p := m_p m in
  let c := p_cfg p in
  if negb (t =? m_pv m) || negb (is_foll (m_role m)) then (m, [])
  else if negb (m_pv m =? S (p_term p)) then (resetPre m, [])
  else if versionGT mc c || negb (has (c_mem c) (fst from)) then (m, [])
  else
    let fresh := who_eqb cand (n, m_inc m) && o_known o &&
                 negb (existsb (fun x => fst x =? fst from) (m_pvs m)) in
    let vs := if fresh then (fst from, granted) :: m_pvs m else m_pvs m in
    let q := quorum (c_mem c) (o_nofault o) in
    if q <=? 1 + count true vs then
      (mkM p (m_role m) (m_inc m) (m_votes m) 0 vs (m_pv m) (m_seen m) (m_noop m) (m_match m) (m_noopOk m), [])
    else if (q <=? count false vs) || (length (c_mem c) <=? 1 + count true vs + count false vs)
    then (resetPre m, [])
    else (mkM p (m_role m) (m_inc m) (m_votes m) (m_pv m) vs (m_pvOk m) (m_seen m) (m_noop m) (m_match m) (m_noopOk m), []).

(** newAE / leaderSendsHeartbeats (8690-8870). *)
Definition newAE (n : nat) (m : mem) (l : list nat) (to : nat) : msg :=
  AppendEntries (n, m_inc m) to (p_term (m_p m)) l (p_cfg (m_p m)).

(** becomeLeader (7239-7415).  The configuration takes the new term; if it has it
    already a lone member raises the term once more and anyone else panics ([None]).
    noop0 goes to the WAL and to the others (a lone member commits it at once), and
    the state is saved at the very end. *)
Definition stamp (t : nat) (l : who) (c : conf) : conf := mkC t (c_ver c) (c_mem c) (c_hist c ++ [El t l]).
Definition becomeLeader (n : nat) (m : mem) (l : list nat) : option (mem * list effect) :=
  let p := m_p m in
  let c := p_cfg p in
  let lead (t : nat) :=
    let p' := mkP t (p_vote p) (stamp t (n, m_inc m) c) in
    let l' := l ++ [t] in
    let m' := mkM p' Leader (m_inc m) (m_votes m) 0 [] 0 (m_seen m) (length l') [] (length (c_mem c) =? 1) in
    Some (m', [Wal l'] ++ map (fun to => Send (newAE n m' l' to)) (others n (c_mem c)) ++ [SaveTerm p']) in
  if is_leader (m_role m) then None
  else if p_term p <? c_term c then None
  else if c_term c <? p_term p then lead (p_term p)
  else if has (c_mem c) n && (length (c_mem c) =? 1) then lead (S (p_term p))
  else None.

(** The timer case of the select loop (1358-1388) and beginElection (6682-6811): only a
    follower whose pre-vote succeeded for the next term; a lone member becomes leader at
    once, without raising its term here. *)
Definition beginElection (n : nat) (nd : node) : option (mem * list effect) :=
  let m := n_mem nd in
  let p := m_p m in
  let c := p_cfg p in
  let l := d_log (n_disk nd) in
  if negb (is_foll (m_role m)) || negb (m_pv m =? 0) || negb (m_pvOk m =? S (p_term p)) then None
  else if negb (has (c_mem c) n) then None
  else if length (c_mem c) =? 1 then becomeLeader n (resetPre m) l
  else
    let t := S (p_term p) in
    let p' := mkP t (Some (n, m_inc m)) c in
    Some (mkM p' Candidate (m_inc m) [] 0 [] 0 (m_seen m) (m_noop m) [] (m_noopOk m),
          map (fun to => Send (RequestVote (n, m_inc m) to t (length l) (lastTerm l) c)) (others n (c_mem c))).

(** handleRequestVote (11217-11415).  The vote carries the MC and CurrentTerm from before
    the request was handled. *)
Definition handleRequestVote (n : nat) (nd : node) (from : who) (t li lt : nat) (mc : conf) (o : opts)
    : mem * list effect :=
  let m := n_mem nd in
  let l := d_log (n_disk nd) in
  let p := m_p m in
  let reply (m' : mem) (g : bool) :=
    Send (Vote (n, m_inc m) (fst from) from g (p_term p) (p_term (m_p m')) (p_cfg p)) in
  if t <? p_term p then (m, [reply m false])
  else if is_leader (m_role m) || o_sticky o then (m, [SaveTerm p; reply m false])
  else
    let '(m1, e1) := if p_term p <? t then becomeFollower m t (Some mc) else (m, []) in
    let other := negb (p_term p <? t) &&
                 match p_vote p with Some v => negb (who_eqb v from) | None => false end in
    if other then (m, [reply m false])
    else if logUpToDateAsOurs (m_p m1) l t li lt mc then
      let p2 := mkP (p_term (m_p m1)) (Some from) (p_cfg (m_p m1)) in
      let m2 := mkM p2 (m_role m1) (m_inc m1) (m_votes m1) (m_pv m1) (m_pvs m1) (m_pvOk m1)
                    (m_seen m1) (m_noop m1) (m_match m1) (m_noopOk m1) in
      (m2, e1 ++ [SaveTerm p2; reply m2 true])
    else (m1, e1 ++ [SaveTerm (m_p m1); reply m1 false]).

(** tallyVote (7077-7215), after seen. *)
Definition tallyVote (n : nat) (m : mem) (l : list nat) (from cand : who) (granted : bool)
    (fromTerm t : nat) (mc : conf) (o : opts) : option (mem * list effect) :=
  let p := m_p m in
  let c := p_cfg p in
  if t <? p_term p then Some (m, [])
  else if p_term p <? t then
    let '(m1, e1) := becomeFollower m t (Some mc) in Some (m1, e1 ++ [SaveTerm (m_p m1)])
  else if negb (is_cand (m_role m)) then Some (m, [])
  else if negb (has (c_mem c) (fst from)) then Some (m, [])
  else if granted && (versionGT mc c || (p_term p <=? fromTerm)) then Some (m, [])
  else
    let fresh := who_eqb cand (n, m_inc m) && o_known o &&
                 negb (existsb (fun x => fst x =? fst from) (m_votes m)) in
    let vs := if fresh then (fst from, granted) :: m_votes m else m_votes m in
    let m1 := mkM p (m_role m) (m_inc m) vs (m_pv m) (m_pvs m) (m_pvOk m) (m_seen m) (m_noop m) (m_match m) (m_noopOk m) in
    let q := quorum (c_mem c) (o_nofault o) in
    if q <=? 1 + count true vs then becomeLeader n m1 l
    else if q <=? count false vs then let '(m2, e2) := becomeFollower m1 (p_term p) None in Some (m2, e2)
    else Some (m1, []).

(** handleAppendEntries (7792-8620), after seen: aeMemberConfigHelper (7707) adopts a
    newer MC before a higher term is taken; the ack reports what we then have. *)
Definition handleAppendEntries (n : nat) (m : mem) (own : list nat) (from : who) (t : nat) (log : list nat)
    (mc : conf) (o : opts) : mem * list effect :=
  let p := m_p m in
  let ack (p' : pstate) (k : nat) := Send (Ack (n, m_inc m) (fst from) from (p_term p') k (p_cfg p')) in
  if t <? 1 then (m, [])
  else if t <? p_term p then (m, [ack p 0])
  else
    let newer := versionGT mc (p_cfg p) in
    let p2 := if newer then mkP (p_term p) (p_vote p) mc else p in
    let e2 := if newer then [SaveMC p2] else [] in
    let up := p_term p <? t in
    let p3 := if up then mkP t None (p_cfg p2) else p2 in
    let e3 := if up then [SaveTerm p3] else [] in
    let m3 := mkM p3 Follower (m_inc m) (m_votes m) 0 [] 0 (m_seen m)
                  (if up then 0 else m_noop m) (if up then [] else m_match m) (if up then false else m_noopOk m) in
    let e4 := if o_take o then [Wal log] else [] in
    (m3, e2 ++ e3 ++ e4 ++ [ack p3 (if o_take o then length log else 0)]).

(** leaderAdvanceCommitIndex (10086-10240) as far as noop0 is concerned: its own copy and
    those of the peers in MC.  The leader counts itself even when it is not in MC. *)
Definition noopCommits (m : mem) (nofault : bool) : bool :=
  let c := p_cfg (m_p m) in
  quorum (c_mem c) nofault <=?
    1 + length (filter (fun x => has (c_mem c) (fst x) && (m_noop m <=? snd x)) (m_match m)).

(** handleAppendEntriesAck (9753-10035), after seen. A removed leader's stepping down
    (9815-9830) is the event [NStepDown]. *)
Definition handleAck (n : nat) (m : mem) (from leader : who) (t k : nat) (mc : conf) (o : opts)
    : mem * list effect :=
  let p := m_p m in
  if p_term p <? t then
    let '(m1, e1) := becomeFollower m t (Some mc) in (m1, e1 ++ [SaveTerm (m_p m1)])
  else if (t <? p_term p) || negb (is_leader (m_role m)) || negb (who_eqb leader (n, m_inc m)) then (m, [])
  else
    let old := match lookup (fst from) (m_match m) with Some j => j | None => 0 end in
    let mt := (fst from, Nat.max old k) :: drop (fst from) (m_match m) in
    let m1 := mkM p (m_role m) (m_inc m) (m_votes m) (m_pv m) (m_pvs m) (m_pvOk m) (m_seen m) (m_noop m) mt (m_noopOk m) in
    (mkM p (m_role m) (m_inc m) (m_votes m) (m_pv m) (m_pvs m) (m_pvOk m) (m_seen m) (m_noop m) mt
         (m_noopOk m || noopCommits m1 (o_nofault o)), []).

(** changeMembership (14195-14645) with mongoLeaderCanReconfig (17084-17128).  [live]:
    the members with a circuit.  A member with a circuit and no report stalls the
    change; Q1 counts the reports of the current configuration, Q2 those of the current
    term, P1 asks for noop0. *)
Definition selfCount (n : nat) (c : conf) : nat := if has (c_mem c) n then 1 else 0.
Definition reported (n : nat) (m : mem) (live : list nat) (ok : conf * nat -> bool) : nat :=
  length (filter (fun x => negb (x =? n) && has live x &&
                           match lookup x (m_seen m) with Some r => ok r | None => false end)
                 (c_mem (p_cfg (m_p m)))).
Definition unreported (n : nat) (m : mem) (live : list nat) : bool :=
  existsb (fun x => negb (x =? n) && has live x &&
                    match lookup x (m_seen m) with Some _ => false | None => true end)
          (c_mem (p_cfg (m_p m))).
Definition changeMembership (n : nat) (m : mem) (live : list nat) (ch : change) : option (mem * list effect) :=
  let p := m_p m in
  let c := p_cfg p in
  if negb (is_leader (m_role m)) then None
  else if unreported n m live then None
  else match changed (c_mem c) ch with
  | None => None
  | Some new =>
      let inConfig := selfCount n c + reported n m live (fun r => versionEqual (fst r) c) in
      let inTerm := selfCount n c + reported n m live (fun r => snd r =? p_term p) in
      if (inConfig <? majority (c_mem c)) || (inTerm <? majority (c_mem c)) || negb (m_noopOk m)
         || negb (quorumsOverlap (c_mem c) new) then None
      else
        let p' := mkP (p_term p) (p_vote p) (mkC (c_term c) (S (c_ver c)) new (c_hist c ++ [Rc new])) in
        Some (mkM p' (m_role m) (m_inc m) (m_votes m) (m_pv m) (m_pvs m) (m_pvOk m) (m_seen m)
                  (m_noop m) (m_match m) (m_noopOk m), [SaveMC p'])
  end.

(** The leader steps down: no pong quorum (1546), or removed and committed (9815-9830). *)
Definition stepDown (nd : node) : option (mem * list effect) :=
  let m := n_mem nd in
  if is_leader (m_role m) then
    let '(m1, e1) := becomeFollower m (p_term (m_p m)) None in Some (m1, e1 ++ [SaveTerm (m_p m1)])
  else None.

(** A circuit is replaced: the report kept with it is gone. *)
Definition forget (nd : node) (x : nat) : option (mem * list effect) :=
  let m := n_mem nd in
  Some (mkM (m_p m) (m_role m) (m_inc m) (m_votes m) (m_pv m) (m_pvs m) (m_pvOk m)
            (drop x (m_seen m)) (m_noop m) (m_match m) (m_noopOk m), []).

Definition heartbeat (n : nat) (nd : node) (to : nat) : option (mem * list effect) :=
  let m := n_mem nd in
  if is_leader (m_role m) && negb (to =? n) then Some (m, [Send (newAE n m (d_log (n_disk nd)) to)]) else None.

Definition msg_to (x : msg) : nat :=
  match x with
  | RequestPreVote _ to _ _ _ _ => to | PreVote _ to _ _ _ _ _ => to
  | RequestVote _ to _ _ _ _ => to | Vote _ to _ _ _ _ _ => to
  | AppendEntries _ to _ _ _ => to | Ack _ to _ _ _ _ => to
  end.
(** What the message reports about its sender (the arguments of seen). *)
Definition report (x : msg) : option (nat * conf * nat) :=
  match x with
  | PreVote from _ _ _ ft _ mc => Some (fst from, mc, ft)
  | Vote from _ _ _ ft _ mc => Some (fst from, mc, ft)
  | AppendEntries from _ t _ mc => Some (fst from, mc, t)
  | Ack from _ _ t _ mc => Some (fst from, mc, t)
  | _ => None
  end.
Definition seenMsg (x : msg) (known : bool) (m : mem) : mem :=
  match report x with
  | Some (q, c, t) => if known then seen q c t m else m
  | None => m
  end.

Definition receive (n : nat) (nd : node) (x : msg) (o : opts) : option (mem * list effect) :=
  let m := seenMsg x (o_known o) (n_mem nd) in
  let l := d_log (n_disk nd) in
  match x with
  | RequestPreVote from _ t li lt mc => Some (handleRequestPreVote n nd from t li lt mc o)
  | PreVote from _ cand g ft t mc => Some (tallyPreVote n m from cand g t mc o)
  | RequestVote from _ t li lt mc => Some (handleRequestVote n nd from t li lt mc o)
  | Vote from _ cand g ft t mc => tallyVote n m l from cand g ft t mc o
  | AppendEntries from _ t log mc => Some (handleAppendEntries n m l from t log mc o)
  | Ack from _ leader t k mc => Some (handleAck n m from leader t k mc o)
  end.

Inductive nevent :=
| NIdle
| NPreVote
| NElect
| NRecv (k : nat) (o : opts)                          (* deliver the k-th message ever sent *)
| NSeen (k : nat) (live : list nat) (ch : change)     (* its report resumes a stalled change *)
| NChange (live : list nat) (ch : change)
| NHeartbeat (to : nat)
| NStepDown
| NForget (x : nat).

Definition handle (net : list msg) (n : nat) (nd : node) (ev : nevent) : option (mem * list effect) :=
  match ev with
  | NIdle => Some (n_mem nd, [])
  | NPreVote => beginPreVote n nd
  | NElect => beginElection n nd
  | NRecv k o =>
      match nth_error net k with
      | Some x => if msg_to x =? n then receive n nd x o else None
      | None => None
      end
  | NSeen k live ch =>
      match nth_error net k with
      | Some x => if msg_to x =? n then changeMembership n (seenMsg x true (n_mem nd)) live ch else None
      | None => None
      end
  | NChange live ch => changeMembership n (n_mem nd) live ch
  | NHeartbeat to => heartbeat n nd to
  | NStepDown => stepDown nd
  | NForget x => forget nd x
  end.

Definition eff_disk (d : disk) (e : effect) : disk :=
  match e with
  | SaveMC p | SaveTerm p => mkD p (d_log d)
  | Wal l => mkD (d_p d) l
  | Send _ => d
  end.
Definition eff_disks (d : disk) (es : list effect) : disk := fold_left eff_disk es d.
Definition eff_msgs (es : list effect) : list msg :=
  flat_map (fun e => match e with Send x => [x] | _ => [] end) es.

(** onRestartRecover (9251-9400). *)
Definition restart (inc : nat) (d : disk) : node :=
  mkN (mkM (d_p d) Follower (S inc) [] 0 [] 0 [] 0 [] false) d.

Record gstate := mkG { g_node : nat -> node; g_net : list msg }.
Definition upd {A} (f : nat -> A) (n : nat) (x : A) : nat -> A := fun k => if k =? n then x else f k.

(** One step: node [n] runs a handler; with [Some k] it crashes after the first [k]
    effects of that handler and restarts. *)
Definition step (g : gstate) (n : nat) (ev : nevent) (cut : option nat) : option gstate :=
  let nd := g_node g n in
  match handle (g_net g) n nd ev with
  | None => None
  | Some (m', effs) =>
      match cut with
      | None => Some (mkG (upd (g_node g) n (mkN m' (eff_disks (n_disk nd) effs))) (g_net g ++ eff_msgs effs))
      | Some k =>
          let pre := firstn k effs in
          Some (mkG (upd (g_node g) n (restart (m_inc (n_mem nd)) (eff_disks (n_disk nd) pre)))
                    (g_net g ++ eff_msgs pre))
      end
  end.

(** The founding members start with the founding configuration, version [v]; every other
    node starts with an empty one (Start 1015). *)
Definition emptyC : conf := mkC 0 0 [] [].
Definition foundC (v : nat) (founders : list nat) : conf := mkC 0 v founders [].
Definition p0 (v : nat) (founders : list nat) (n : nat) : pstate :=
  mkP 0 None (if has founders n then foundC v founders else emptyC).
Definition node0 (v : nat) (founders : list nat) (n : nat) : node :=
  let p := p0 v founders n in
  mkN (mkM p Follower 0 [] 0 [] 0 [] 0 [] false) (mkD p []).
Definition ginit (v : nat) (founders : list nat) : gstate := mkG (node0 v founders) [].

Definition gevent := (nat * nevent * option nat)%type.
Fixpoint run (g : gstate) (evs : list gevent) : option gstate :=
  match evs with
  | [] => Some g
  | (n, ev, cut) :: r => match step g n ev cut with Some g' => run g' r | None => None end
  end.
