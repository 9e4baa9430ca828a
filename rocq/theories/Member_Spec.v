(** What the membership properties (C34, C50) say, and the schedules they are said of. *)
From Coq Require Import List Arith Bool Lia.
From Verif Require Import Base Member_Model.
Import ListNotations.

(** [Q] is a majority of the members [m]: distinct members, more than half of them. *)
Definition majorityOf (m Q : list nat) : Prop := NoDup Q /\ incl Q m /\ length m < 2 * length Q.
(** Every majority of [m] shares a member with every majority of [m']. *)
Definition meets (m m' : list nat) : Prop :=
  forall Q Q', majorityOf m Q -> majorityOf m' Q' -> exists x, In x Q /\ In x Q'.

(** A schedule: any finite sequence of node events, message deliveries (in any order, any
    number of times, or never) and crashes, filtered by [ok]. *)
Inductive reaches (ok : gstate -> nat -> nevent -> option nat -> Prop) : gstate -> gstate -> Prop :=
| reaches_refl : forall g, reaches ok g g
| reaches_step : forall g1 g2 g3 n ev cut,
    reaches ok g1 g2 -> ok g2 n ev cut -> step g2 n ev cut = Some g3 -> reaches ok g1 g3.

Definition cfgOf (g : gstate) (n : nat) : conf := p_cfg (m_p (n_mem (g_node g n))).
Definition termOf (g : gstate) (n : nat) : nat := p_term (m_p (n_mem (g_node g n))).
Definition isLeaderAt (g : gstate) (n T : nat) : Prop :=
  m_role (n_mem (g_node g n)) = Leader /\ termOf g n = T.
(** [p] has led in term [T]: it is in the leader role now, or it has sent AppendEntries
    for that term. *)
Definition hasLed (g : gstate) (p : who) (T : nat) : Prop :=
  (isLeaderAt g (fst p) T /\ m_inc (n_mem (g_node g (fst p))) = snd p) \/
  exists to log mc, In (AppendEntries p to T log mc) (g_net g).

(** G4 of [Raft_Spec]: a crash never falls between the outside effects of one handler run
    and the save that makes that run's term change durable. *)
Definition isSaveTerm (e : effect) : bool := match e with SaveTerm _ => true | _ => false end.
Definition crashOk (g : gstate) (n : nat) (ev : nevent) (cut : option nat) : Prop :=
  match cut with
  | None => True
  | Some k => forall m effs, handle (g_net g) n (g_node g n) ev = Some (m, effs) ->
      firstn k effs = [] \/ existsb isSaveTerm (skipn k effs) = false
  end.

(** A membership change: the event of a leader that gives it other members or a higher
    version. *)
Definition isChange (ev : nevent) : Prop :=
  match ev with NSeen _ _ _ => True | NChange _ _ => True | _ => False end.

(** G5. A membership change needs a majority of the current members each of whose last
    report shows the leader's configuration and the leader's term, both in one report.
    (The code counts the two separately, possibly over different members.) *)
Definition vouches (m : mem) (n : nat) (c : conf) (T x : nat) : Prop :=
  x = n \/ exists c', lookup x (m_seen m) = Some (c', T) /\ versionEqual c' c = true.
Definition vouched (g : gstate) (n : nat) (ev : nevent) : Prop :=
  forall m effs, isChange ev -> handle (g_net g) n (g_node g n) ev = Some (m, effs) ->
  exists Q, majorityOf (c_mem (cfgOf g n)) Q /\
            forall x, In x Q -> vouches m n (cfgOf g n) (termOf g n) x.

Definition guarded (g : gstate) (n : nat) (ev : nevent) (cut : option nat) : Prop :=
  crashOk g n ev cut /\ vouched g n ev.
