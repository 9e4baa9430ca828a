(** What the membership service promises, said about the observations of a run
    only ([run] gives them in order, each with its instant). *)
From Coq Require Import List ZArith Bool Arith Lia.
Import ListNotations.
From Verif Require Import Czar_Model.
Local Open Scope Z_scope.

(** Versions are ordered by epoch, then by the number within the epoch. *)
Definition vle (a b : vers) : Prop :=
  vEpoch a < vEpoch b \/ (vEpoch a = vEpoch b /\ vWithin a <= vWithin b).
Definition sameVersion (a b : vers) : Prop := vEpoch a = vEpoch b /\ vWithin a = vWithin b.

(** Who a view says is czar and who are the members: names and PeerIDs. *)
Definition who (l : mlist) : option (nat * nat) * list (nat * nat) :=
  (match lCzar l with Some c => Some (dName c, dPeer c) | None => None end,
   map (fun e => (dName (eDet e), dPeer (eDet e))) (lPeers l)).

(** In the trace [tr], [x] comes before [y]. *)
Definition before (tr : list (Z * obs)) (x y : Z * obs) : Prop :=
  exists a b c, tr = a ++ x :: b ++ y :: c.

(** A view somebody was shown: the user of a process, or a process that pinged. *)
Definition shown (tr : list (Z * obs)) (v : vers) (l : mlist) : Prop :=
  exists t, (exists p, In (t, OUp p v l) tr) \/ (exists q p, In (t, OAns q p v l) tr).

(** The member [m] of a view and the end of its lease. *)
Definition leased (l : mlist) (m : nat) (until : Z) : Prop :=
  exists e, In e (lPeers l) /\ dName (eDet e) = m /\ eUntil e = until.
Definition absent (l : mlist) (m : nat) : Prop :=
  forall e, In e (lPeers l) -> dName (eDet e) <> m.
Definition czarIs (l : mlist) (m : nat) : Prop := exists c, lCzar l = Some c /\ dName c = m.

(** The process would answer a ping now: it takes itself for the czar and its
    lease has not run out. *)
Definition acts (w : world) (i : nat) : Prop :=
  exists P, wProcs w i = Some P /\ cState P = Am /\ wNow w <= vUntil (cVers P).

(** The clock of Tube's leader is never more than [drift] ahead of the
    members' clock when it stamps an entry. *)
Fixpoint steady (drift : Z) (w : world) (es : list ev) : Prop :=
  match es with
  | [] => True
  | e :: r =>
      (match e with EApply _ tm => tm <= wNow w + drift | _ => True end) /\ steady drift (fst (step drift w e)) r
  end.

(** The four ways a step can make process [i] panic. *)
Definition panics (w : world) (e : ev) (i : nat) : Prop :=
  (exists d P n l e0 u cur, e = EReply i d /\ wProcs w i = Some P /\ cWait P = WCas n l /\
     pick n (wRes w) = Some (Lost e0 u cur) /\ czarIs cur (cName P)) \/
  (exists n d P g, e = EPing n d /\ pick n (wPings w) = Some g /\ pTo g = i /\ wProcs w i = Some P /\
     wNow w <= vUntil (cVers P) < wNow w + d) \/
  (exists d P n v l, e = EPong i d /\ wProcs w i = Some P /\ cWait P = WPing n false /\
     pick n (wPongs w) = Some (Some (v, l)) /\ absent l (cName P)) \/
  (exists ok a P, e = EDial i ok a /\ wProcs w i = Some P /\ vEpoch (cVers P) = 0).
