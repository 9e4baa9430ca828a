(** What C72 says of a read served by the leader alone, and of which executions:
    the clocks and the promises it rests on. *)
From Coq Require Import List Arith Bool ZArith Lia.
From Verif Require Import Base Raft_Model Raft_Spec Lease_Model.
Import ListNotations.
Local Open Scope Z_scope.

Section spec.
Variable c : conf.

(** Clocks never run backwards, and over a stretch that one clock measures as
    [W] or less, no other clock measures more than [eps] more. *)
Definition clocksOk (W eps : Z) : Prop :=
  (forall a u v, u <= v -> c_clk c a u <= c_clk c a v) /\
  (forall a b u v, u <= v -> c_clk c b v - c_clk c b u <= W ->
     c_clk c a v - c_clk c a u <= c_clk c b v - c_clk c b u + eps).

(** L1. A broadcast's timestamps are taken at most [d] after the send. *)
Definition lateOk (d : Z) (late : list (nat * Z)) : Prop := 0 <= d /\ forall x, In x late -> snd x <= d.

(** Node [n] has heard from a leader less than its election timeout ago. *)
Definition heardLately (ts : tstate) (t : Z) (n : nat) : Prop :=
  exists a, l_ae (t_l ts n) = Some a /\ c_clk c n t < a + c_minElec c n.

(** L2. A node that restarts comes back no sooner than its election timeout
    after the last AppendEntries it had taken before. *)
Definition slowRestart (ts : tstate) (t : Z) (n : nat) : Prop :=
  forall a, l_down (t_l ts n) = Some a -> a + c_minElec c n <= c_clk c n t.

(** L3. A node that has heard from a leader lately is not handed a vote or an
    ack of a term above its own. *)
Definition higherReply (ts : tstate) (n : nat) (ev : nevent) : Prop :=
  exists k b1 b2, ev = NRecv k b1 b2 /\
    ((exists from to cand g ft T mc, nth_error (g_net (t_g ts)) k = Some (Vote from to cand g ft T mc) /\
        (p_term (m_p (n_mem (g_node (t_g ts) n))) < T)%nat) \/
     (exists from to ld st T rej gap lc li mc, nth_error (g_net (t_g ts)) k = Some (Ack from to ld st T rej gap lc li mc) /\
        (p_term (m_p (n_mem (g_node (t_g ts) n))) < T)%nat)).
Definition noHigherReply (ts : tstate) (t : Z) (n : nat) (ev : nevent) : Prop :=
  heardLately ts t n -> ~ higherReply ts n ev.

(** The timed executions of [c]: the schedules of Raft_Spec under its guards
    G1-G4, at the times the clocks allow, under [ok]. *)
Inductive treaches (ok : tstate -> Z -> list (nat * Z) -> nat -> nevent -> option nat -> Prop)
  : tstate -> tstate -> Prop :=
| treaches_refl : forall ts, treaches ok ts ts
| treaches_step : forall t1 t2 t3 t late n ev cut,
    treaches ok t1 t2 -> ok t2 t late n ev cut ->
    guarded (c_cfg c) (t_g t2) n (fill c t2 t n ev) cut ->
    tstep c t2 t late n ev cut = Some t3 -> treaches ok t1 t3.

Definition keeps (d : Z) (ts : tstate) (t : Z) (late : list (nat * Z)) (n : nat) (ev : nevent) (cut : option nat) : Prop :=
  lateOk d late /\ slowRestart ts t n /\ noHigherReply ts t n ev.

(** L4. The peers the leader counts are members, none twice, and not itself. *)
Definition countsMembers (ts : tstate) (n : nat) : Prop :=
  NoDup (n :: map (fun x => fst (fst x)) (counted c ts n)) /\
  incl (map (fun x => fst (fst x)) (counted c ts n)) (c_cfg c).

(** The guards but one, for the refutations. *)
Definition anyLate (ts : tstate) (t : Z) (late : list (nat * Z)) (n : nat) (ev : nevent) (cut : option nat) : Prop :=
  slowRestart ts t n /\ noHigherReply ts t n ev.
Definition anyRestart (d : Z) (ts : tstate) (t : Z) (late : list (nat * Z)) (n : nat) (ev : nevent) (cut : option nat) : Prop :=
  lateOk d late /\ noHigherReply ts t n ev.
Definition anyReply (d : Z) (ts : tstate) (t : Z) (late : list (nat * Z)) (n : nat) (ev : nevent) (cut : option nat) : Prop :=
  lateOk d late /\ slowRestart ts t n.
End spec.

(** A read served by [n] in [ts] misses something: some node has applied an
    entry that [n] has not. *)
Definition staleRead (ts : tstate) (n : nat) : Prop :=
  exists a, ~ isPrefixOf (appliedOf (t_g ts) a) (appliedOf (t_g ts) n).
