(** Reads that a leader serves from its own store (tube/tube.go
    leaderServedLocalRead 11650, leaderCanServeReadsLocally 12174-12265), as a
    timed layer over the Raft core of Raft_Model.

    Raft_Model leaves to chance whether a voter finds its leader "sticky" and
    when an election timer fires.  Here both follow the clocks: every step
    happens at a real time, each node reads its own clock, and the fields of
    TubeNode that the lease uses are kept beside the node of Raft_Model.

    Simplifications:
    - a node's minElectionTimeoutDur, ClockDriftBound and HeartbeatDur do not
      change, and an ack carries its sender's value (MinElectionTimeoutDur);
    - pre-votes are not modelled: a node may start an election as soon as its
      election timer may have fired (the code waits for a pre-vote as well);
    - the branch for a cluster of one node (12183-12192) is not modelled;
    - leaderID set from other replies (1213, 1939, 13415, 13991, 14046, 18609)
      is not modelled: they only make a node refuse more votes. *)
From Coq Require Import List Arith Bool ZArith Lia.
From Verif Require Import Base Raft_Model.
Import ListNotations.

(** The configuration: the members; each node's clock, as a function of real
    time; cfg.MinElectionDur, cfg.ClockDriftBound and cfg.HeartbeatDur of each
    node. *)
Record conf := mkConf {
  c_cfg : list nat;
  c_clk : nat -> Z -> Z;
  c_minElec : nat -> Z;
  c_drift : nat -> Z;
  c_heartbeat : nat -> Z
}.

(** Per node: whether leaderID is not empty; lastLegitAppendEntries (None: the
    zero time, as after a start); for each destination the UnackedPing (its AEID,
    here the position of the message among all messages sent, and Sent); and for
    each peer (by PeerID) LastFullPing.Sent.  [l_down] is not in the code: after a
    restart it remembers lastLegitAppendEntries as it was before. *)
Record lnode := mkLN {
  l_know : bool;
  l_ae : option Z;
  l_unacked : list (nat * (nat * Z));
  l_full : list (pid * Z);
  l_down : option Z
}.
Definition lnode0 : lnode := mkLN false None [] [] None.

(** The cluster with its time.  [t_log], parallel to the messages ever sent,
    holds when each was sent and, for a reply, the position of the message it
    answers (the AEID an ack carries back). *)
Record tstate := mkT {
  t_g : gstate;
  t_now : Z;
  t_l : nat -> lnode;
  t_log : list (Z * nat)
}.
Definition tinit : tstate := mkT ginit 0 (fun _ => lnode0) [].

Section lease.
Variable c : conf.

Definition clk (n : nat) (t : Z) : Z := c_clk c n t.

(** haveStickyLeader (12401-12437), for a node that is not the leader. *)
Definition sticky (n : nat) (ln : lnode) (t : Z) : bool :=
  l_know ln &&
  match l_ae ln with
  | Some a => (clk n t - c_minElec c n - c_drift c n <? a)%Z
  | None => false
  end.

(** The election timer may have fired: it was reset by the last legitimate
    AppendEntries (8126) to at least minElectionTimeoutDur (6611-6650). *)
Definition timerDue (n : nat) (ln : lnode) (t : Z) : bool :=
  match l_ae ln with Some a => (a + c_minElec c n <=? clk n t)%Z | None => true end.

(** The event with the voter's stickiness filled in. *)
Definition fill (ts : tstate) (t : Z) (n : nat) (ev : nevent) : nevent :=
  match ev with
  | NRecv k b1 b2 =>
      match nth_error (g_net (t_g ts)) k with
      | Some (RequestVote _ _ _ _ _ _) => NRecv k (sticky n (t_l ts n) t) b2
      | _ => ev
      end
  | _ => ev
  end.
Definition allowed (ts : tstate) (t : Z) (n : nat) (ev : nevent) : bool :=
  match ev with
  | NElect | NPreVote => timerDue n (t_l ts n) t
  | _ => true
  end.

Fixpoint setA {A} (k : nat) (x : A) (l : list (nat * A)) : list (nat * A) :=
  match l with
  | [] => [(k, x)]
  | (j, y) :: r => if j =? k then (j, x) :: r else (j, y) :: setA k x r
  end.
Fixpoint getA {A} (k : nat) (l : list (nat * A)) : option A :=
  match l with
  | [] => None
  | (j, y) :: r => if j =? k then Some y else getA k r
  end.
Fixpoint setF (q : pid) (s : Z) (l : list (pid * Z)) : list (pid * Z) :=
  match l with
  | [] => [(q, s)]
  | (x, y) :: r => if pid_eqb x q then (x, s) :: r else (x, y) :: setF q s r
  end.

(** UnackedPing after sending [ms], the first of which is message [i].
    newAEtoPeer (8886) reads the clock before the send; bcastAppendEntries (9057)
    reads it after SendOneWay has returned, [late] later. *)
Fixpoint stamps (i : nat) (ms : list msg) (stamp : nat -> Z) (u : list (nat * (nat * Z))) : list (nat * (nat * Z)) :=
  match ms with
  | [] => u
  | AppendEntries _ to _ _ _ _ _ _ _ :: r => stamps (S i) r stamp (setA to (i, stamp to) u)
  | _ :: r => stamps (S i) r stamp u
  end.
Definition lateAt (late : list (nat * Z)) (to : nat) : Z := match getA to late with Some d => d | None => 0%Z end.
Definition stampOf (ev : nevent) (late : list (nat * Z)) (now : Z) (to : nat) : Z :=
  match ev with
  | NSend _ _ _ | NHeartbeat _ => now
  | _ => (now + lateAt late to)%Z
  end.

(** The fields after node [n] handled the event without crashing:
    - beginElection (6741, 9526): leaderID and s.peers are reset;
    - the election timer (1434) and stepping down (1541) clear leaderID;
    - becomeFollower (6582) clears it when the term grows;
    - handleAppendEntries (8087, 8139) of a term not below ours sets both;
    - becomeLeader (7254) sets leaderID to itself;
    - handleAppendEntriesAck (9753-9890): an ack of our term, to us as leader,
      answering the last AppendEntries sent to that peer, moves UnackedPing to
      LastFullPing;
    - a peer that is gone leaves s.peers. *)
Definition lnext (ts : tstate) (n : nat) (ev : nevent) (now : Z) (m' : mem) : lnode :=
  let ln := t_l ts n in
  let m := n_mem (g_node (t_g ts) n) in
  let p := m_p m in
  let know b := mkLN b (l_ae ln) (l_unacked ln) (l_full ln) (l_down ln) in
  match ev with
  | NElect => mkLN false (l_ae ln) [] [] (l_down ln)
  | NPreVote | NStepDown => know false
  | NPeerGone q => mkLN (l_know ln) (l_ae ln) (filter (fun x => negb (fst x =? fst q)) (l_unacked ln))
                     (filter (fun x => negb (pid_eqb (fst x) q)) (l_full ln)) (l_down ln)
  | NRecv k b1 b2 =>
      match nth_error (g_net (t_g ts)) k with
      | Some (RequestVote _ _ t _ _ _) =>
          if (p_term p <? t) && negb (is_leader (m_role m) || b1) then know false else ln
      | Some (Vote _ _ _ _ _ t _) =>
          if p_term p <? t then know false
          else if is_leader (m_role m') && negb (is_leader (m_role m)) then know true else ln
      | Some (AppendEntries _ _ t _ _ _ _ _ _) =>
          if (1 <=? t) && (p_term p <=? t) then mkLN true (Some now) (l_unacked ln) (l_full ln) (l_down ln) else ln
      | Some (Ack from _ ld _ t _ _ _ _ _) =>
          if p_term p <? t then know false
          else if (t =? p_term p) && is_leader (m_role m) && pid_eqb ld (n, m_inc m) then
            match getA (fst from) (l_unacked ln) with
            | Some (i, s) =>
                if i =? snd (nth k (t_log ts) (0%Z, 0))
                then mkLN (l_know ln) (l_ae ln) (l_unacked ln) (setF from s (l_full ln)) (l_down ln)
                else ln
            | None => ln
            end
          else ln
      | None => ln
      end
  | _ => ln
  end.

(** One step at real time [t]; [late] is how long the broadcast's sends blocked,
    per destination. *)
Definition tstep (ts : tstate) (t : Z) (late : list (nat * Z)) (n : nat) (ev : nevent) (cut : option nat) : option tstate :=
  if (t <? t_now ts)%Z || negb (allowed ts t n ev) then None
  else
    let ev' := fill ts t n ev in
    match step (c_cfg c) (t_g ts) n ev' cut with
    | None => None
    | Some g' =>
        let old := length (g_net (t_g ts)) in
        let new := skipn old (g_net g') in
        let src := match ev with NRecv k _ _ => k | _ => 0 end in
        let b := lnext ts n ev' (clk n t) (n_mem (g_node g' n)) in
        let ln := match cut with
                  | Some _ => mkLN false None [] [] (l_ae b)
                  | None => mkLN (l_know b) (l_ae b) (stamps old new (stampOf ev late (clk n t)) (l_unacked b))
                              (l_full b) (l_down b)
                  end in
        Some (mkT g' t (upd (t_l ts) n ln) (t_log ts ++ map (fun _ => (t, src)) new))
    end.

(** leaderCanServeReadsLocally (12174-12265).  [counted]: the peers whose last
    answered AppendEntries was sent less than their MinElectionTimeoutDur minus
    2*HeartbeatDur ago. *)
Definition windowOf (n f : nat) : Z := (c_minElec c f - 2 * c_heartbeat c n)%Z.
Definition counted (ts : tstate) (n : nat) : list (pid * Z) :=
  filter (fun x => (clk n (t_now ts) - windowOf n (fst (fst x)) <? snd x)%Z) (l_full (t_l ts n)).
Definition need (nofault : bool) : nat := quorum (c_cfg c) nofault - 1.
Definition canServe (ts : tstate) (n : nat) (nofault : bool) : bool :=
  let m := n_mem (g_node (t_g ts) n) in
  is_leader (m_role m) && (m_noop m <=? p_commit (m_p m)) && (need nofault <=? length (counted ts n)).

(** The untilTm returned with it: [sel] are the first [need] peers counted, in
    whatever order the map is walked. *)
Definition minBy (l : list (pid * Z)) (h : pid * Z -> Z) (z : Z) : Z := fold_left (fun a x => Z.min a (h x)) l z.
Definition untilTm (ts : tstate) (n : nat) (hour : Z) (sel : list (pid * Z)) : Z :=
  (minBy sel snd (clk n (t_now ts)) + minBy sel (fun x => windowOf n (fst (fst x))) hour)%Z.
End lease.
