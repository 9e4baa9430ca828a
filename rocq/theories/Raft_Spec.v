(** What the Raft properties (C31-C33) say, and the schedules they are said of.
    Everything is in terms of what a node shows: its role, term, log and the
    sequence of entries it has applied to the key-value store. *)
From Coq Require Import List Arith Bool Lia.
From Verif Require Import Base Raft_Model.
Import ListNotations.

Definition isLeaderAt (g : gstate) (n T : nat) : Prop :=
  m_role (n_mem (g_node g n)) = Leader /\ p_term (m_p (n_mem (g_node g n))) = T.
Definition logOf (g : gstate) (n : nat) : list entry := d_log (n_disk (g_node g n)).
(** The entries node [n] has applied, oldest first. *)
Definition appliedOf (g : gstate) (n : nat) : list entry := p_applied (m_p (n_mem (g_node g n))).
(** The same on disk (what a restart would come back with). *)
Definition appliedOnDisk (g : gstate) (n : nat) : list entry := p_applied (d_p (n_disk (g_node g n))).
Definition commitOf (g : gstate) (n : nat) : nat := p_commit (m_p (n_mem (g_node g n))).

Definition isPrefixOf {A} (a b : list A) : Prop := exists c, b = a ++ c.

(** A schedule: any finite sequence of node events, message deliveries (in any
    order, any number of times, or never) and crashes, filtered by [ok]. *)
Inductive reaches (cfg : list nat) (ok : gstate -> nat -> nevent -> option nat -> Prop)
  : gstate -> gstate -> Prop :=
| reaches_refl : forall g, reaches cfg ok g g
| reaches_step : forall g1 g2 g3 n ev cut,
    reaches cfg ok g1 g2 -> ok g2 n ev cut -> step cfg g2 n ev cut = Some g3 ->
    reaches cfg ok g1 g3.

(** G4. A crash never falls between the outside effects of one handler run and
    the save that makes that run's term change durable. *)
Definition isSaveTerm (e : effect) : bool := match e with SaveTerm _ => true | _ => false end.
Definition crashOk (cfg : list nat) (g : gstate) (n : nat) (ev : nevent) (cut : option nat) : Prop :=
  match cut with
  | None => True
  | Some k => forall m effs, handle cfg (g_net g) n (g_node g n) ev = Some (m, effs) ->
      firstn k effs = [] \/ existsb isSaveTerm (skipn k effs) = false
  end.

(** G1. The leader does not clip what it sends: an AppendEntries with entries
    carries all of them up to the leader's last. *)
Definition unclipped (g : gstate) (n : nat) (ev : nevent) : Prop :=
  match ev with
  | NPropose cmds cnt => length cmds <= cnt
  | NSend _ prev cnt => length (logOf g n) <= prev + cnt
  | _ => True
  end.

(** G2. A leader is not handed an ack whose AppendEntries it sent in an earlier
    term, stamped with its present term. *)
Definition freshAck (g : gstate) (n : nat) (ev : nevent) : Prop :=
  match ev with
  | NRecv k _ _ => forall from to ld st t rej gap lc li mc,
      nth_error (g_net g) k = Some (Ack from to ld st t rej gap lc li mc) ->
      ld = (n, m_inc (n_mem (g_node g n))) -> t = p_term (m_p (n_mem (g_node g n))) ->
      m_role (n_mem (g_node g n)) = Leader -> st = t
  | _ => True
  end.

(** G3. When a leader handles an ack, its peer table holds no two incarnations
    of one node. *)
Definition onePeerPerName (cfg : list nat) (g : gstate) (n : nat) (ev : nevent) : Prop :=
  match ev with
  | NRecv k _ _ => forall from to ld st t rej gap lc li mc m effs,
      nth_error (g_net g) k = Some (Ack from to ld st t rej gap lc li mc) ->
      handle cfg (g_net g) n (g_node g n) ev = Some (m, effs) -> m_role m = Leader ->
      NoDup (n :: map (fun x => fst (fst x)) (m_peers m))
  | _ => True
  end.

Definition anySchedule (_ : gstate) (_ : nat) (_ : nevent) (_ : option nat) : Prop := True.
Definition guarded (cfg : list nat) (g : gstate) (n : nat) (ev : nevent) (cut : option nat) : Prop :=
  crashOk cfg g n ev cut /\ unclipped g n ev /\ freshAck g n ev /\ onePeerPerName cfg g n ev.

(** [p] has led in term [T]: it is in the leader role now, or it has sent
    AppendEntries for that term. *)
Definition hasLed (g : gstate) (p : pid) (T : nat) : Prop :=
  (isLeaderAt g (fst p) T /\ m_inc (n_mem (g_node g (fst p))) = snd p) \/
  exists to lt prev pt es lci mc, In (AppendEntries p to T lt prev pt es lci mc) (g_net g).

(** Neither sequence extends the other: the two histories conflict. *)
Definition conflict {A} (a b : list A) : Prop := ~ isPrefixOf a b /\ ~ isPrefixOf b a.

(** The guards but one, for the refutations. *)
Definition allButUnclipped cfg g n ev cut := crashOk cfg g n ev cut /\ freshAck g n ev /\ onePeerPerName cfg g n ev.
Definition allButFreshAck cfg g n ev cut := crashOk cfg g n ev cut /\ unclipped g n ev /\ onePeerPerName cfg g n ev.
Definition allButOnePeer cfg g n ev cut := crashOk cfg g n ev cut /\ unclipped g n ev /\ freshAck g n ev.
Definition allButCrashOk cfg g n ev (cut : option nat) := unclipped g n ev /\ freshAck g n ev /\ onePeerPerName cfg g n ev.
