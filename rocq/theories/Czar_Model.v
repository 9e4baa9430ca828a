(** The reliable membership service of tube/czar.go: the czar key in Tube, the
    members that contend for it, the pings that keep a member in the czar's
    list, and the views the service hands to its user.

    Modelled: NewCzar 128-177 (the durations), setVers 219-269, doUpcall
    271-292, expireSilentNodes 302-358, Ping 417-470, handlePing 477-598, the
    loop of RMember.start 780-1568 (fast mode, [czar.slow] false),
    detailsChanged 1582-1605, hashPeerIDs 1808-1822, Clone 1841-1859,
    VersionCompare 1968-1985; and, for the key itself, doCAS (tube.go
    11894-12029) and kvstoreWrite (actions.go 522-736) restricted to one key
    that only members write.

    Simplifications.
    - Instants are numbers of milliseconds; 0 is Go's zero time. All members
      read one clock. The timestamps Tube's leader puts on log entries are
      arbitrary numbers, given with the event.
    - A name is a number. CzarName and CzarDet are one field: czar.go sets them
      together (977-984). The URL and the service names in a PeerDetail are
      fixed for the life of a process, so its PeerID stands for them; Addr is
      kept apart because the czar replaces it (520).
    - The blake3 hash of hashPeerIDs is the hashed data itself.
    - The address dialled is taken to lead to the process that wrote it.
    - A log entry is applied at most once, at any time after it was submitted,
      possibly never. Log indexes, [MemberLeaseDur], [CzarVersProbablyStale] and
      the reported old czar do not matter for what follows and are left out.
    - The channels to the user never fill.
    - [ERenew] may also come just after the lease has ended, where the code would
      have left the state first (1217-1224): more behaviours than the code has. *)
From Coq Require Import List ZArith Bool Arith Lia.
Import ListNotations.
Local Open Scope Z_scope.

(** tube.go 13453-13467 [PeerDetail]. *)
Record det := Det { dName : nat; dPeer : nat; dAddr : nat }.

(** czar.go 1659-1707 [PeerDetailPlus]. *)
Record plus := Plus { eDet : det; eUntil : Z }.

(** czar.go 1774-1805 [ReliableMembershipList]; [lPeers] is the ordered map
    PeerNames, keyed by the name in the entry. *)
Record mlist := ML { lCzar : option det; lPeers : list plus }.

Definition noList : mlist := ML None [].

(** omap.go, [Get2], [Delkey] and [Set] on that map. *)
Fixpoint getP (m : nat) (l : list plus) : option plus :=
  match l with
  | [] => None
  | e :: r => if Nat.eqb (dName (eDet e)) m then Some e else getP m r
  end.

Definition delP (m : nat) (l : list plus) : list plus :=
  filter (fun e => negb (Nat.eqb (dName (eDet e)) m)) l.

Fixpoint insP (e : plus) (l : list plus) : list plus :=
  match l with
  | [] => [e]
  | x :: r => if Nat.ltb (dName (eDet e)) (dName (eDet x)) then e :: l else x :: insP e r
  end.

(** A lease written through the pointer that is in the map (czar.go 568). *)
Definition renewP (m : nat) (until : Z) (l : list plus) : list plus :=
  map (fun e => if Nat.eqb (dName (eDet e)) m then Plus (eDet e) until else e) l.

Definition setP (e : plus) (l : list plus) : list plus := insP e (delP (dName (eDet e)) l).

(** czar.go 1613-1620 [RMVersionTuple]. *)
Record vers := Vers { vEpoch : Z; vWithin : Z; vUntil : Z }.

(** czar.go 1968-1985 [VersionCompare] as [cmp < 0], the only use (230). *)
Definition vlt (a b : vers) : bool :=
  (vEpoch a <? vEpoch b) || ((vEpoch a =? vEpoch b) && (vWithin a <? vWithin b)).

(** czar.go 1808-1822 [hashPeerIDs]. *)
Definition content : Type := (option (nat * nat) * list (nat * nat))%type.
Definition ids (d : det) : nat * nat := (dName d, dPeer d).
Definition contentOf (l : mlist) : content :=
  (option_map ids (lCzar l), map (fun e => ids (eDet e)) (lPeers l)).
Definition hash : Type := (Z * Z * content)%type.
Definition hashPeerIDs (l : mlist) (v : vers) : hash := (vEpoch v, vWithin v, contentOf l).

Definition eqbL (a b : list (nat * nat)) : bool :=
  if list_eq_dec (fun x y : nat * nat =>
       match Nat.eq_dec (fst x) (fst y), Nat.eq_dec (snd x) (snd y) with
       | left a, left b => left (match x, y return fst x = fst y -> snd x = snd y -> x = y with
                                 | (_, _), (_, _) => fun p q => f_equal2 pair p q end a b)
       | right n, _ => right (fun E => n (f_equal fst E))
       | _, right n => right (fun E => n (f_equal snd E))
       end) a b then true else false.
Definition eqbO (a b : option (nat * nat)) : bool :=
  match a, b with
  | None, None => true
  | Some x, Some y => Nat.eqb (fst x) (fst y) && Nat.eqb (snd x) (snd y)
  | _, _ => false
  end.
Definition eqbH (a b : hash) : bool :=
  let '(e, w, (c, l)) := a in let '(e', w', (c', l')) := b in
  (e =? e') && (w =? w') && eqbO c c' && eqbL l l'.

(** czar.go 43-47. *)
Inductive cstate := Unknown | Am | Not.

(** What the goroutine of [start] is blocked in: nothing but its select, the
    first CAS with the list it submitted, the renewing CAS, or a call of Ping
    ([true] for the one after dialling, 1414; [false] for a heartbeat, 1473). *)
Inductive wait := Idle | WCas (n : nat) (l : mlist) | WRenew (n : nat) | WPing (n : nat) (first : bool).

(** czar.go 65-126 [Czar] and the variables of [start]. [cConn] is
    [rpcClientToCzar]: the process it leads to and the local address the other
    side sees. [cBeat]: the timer [memberHeartBeatCh] is running. [cWatch]:
    [rpcClientToCzarDoneCh] is not nil. *)
Record proc := Proc {
  cName : nat; cAddr : nat; cState : cstate; cVers : vers; cList : mlist; cHash : option hash;
  cT0 : Z; cHeard : list (nat * Z); cConn : option (nat * nat); cBeat : bool; cWait : wait; cWatch : bool }.

Definition withState (s : cstate) (p : proc) : proc :=
  Proc (cName p) (cAddr p) s (cVers p) (cList p) (cHash p) (cT0 p) (cHeard p) (cConn p) (cBeat p) (cWait p) (cWatch p).
Definition withWait (x : wait) (p : proc) : proc :=
  Proc (cName p) (cAddr p) (cState p) (cVers p) (cList p) (cHash p) (cT0 p) (cHeard p) (cConn p) (cBeat p) x (cWatch p).
Definition withConn (c : option (nat * nat)) (p : proc) : proc :=
  Proc (cName p) (cAddr p) (cState p) (cVers p) (cList p) (cHash p) (cT0 p) (cHeard p) c (cBeat p) (cWait p)
    (match c with Some _ => true | None => false end).
Definition withBeat (b : bool) (p : proc) : proc :=
  Proc (cName p) (cAddr p) (cState p) (cVers p) (cList p) (cHash p) (cT0 p) (cHeard p) (cConn p) b (cWait p) (cWatch p).
Definition withList (l : mlist) (p : proc) : proc :=
  Proc (cName p) (cAddr p) (cState p) (cVers p) l (cHash p) (cT0 p) (cHeard p) (cConn p) (cBeat p) (cWait p) (cWatch p).
Definition withHeard (h : list (nat * Z)) (p : proc) : proc :=
  Proc (cName p) (cAddr p) (cState p) (cVers p) (cList p) (cHash p) (cT0 p) h (cConn p) (cBeat p) (cWait p) (cWatch p).
Definition withVers (v : vers) (p : proc) : proc :=
  Proc (cName p) (cAddr p) (cState p) v (cList p) (cHash p) (cT0 p) (cHeard p) (cConn p) (cBeat p) (cWait p) (cWatch p).
(** fullRestart forgets the channel but keeps the client (czar.go 803, 915). *)
Definition unwatch (p : proc) : proc :=
  Proc (cName p) (cAddr p) (cState p) (cVers p) (cList p) (cHash p) (cT0 p) (cHeard p) (cConn p) (cBeat p) (cWait p) false.

(** What can be seen from outside, in the order it happens: a new lease epoch
    of the czar key and the process that got it; a view handed to the user of a
    process; a ping sent; a ping answered by [q] to the process [p] (the view
    in the answer); the instant a process's user is told it may work until; a
    panic. *)
Inductive obs :=
| OEpoch (e : Z) (p : nat)
| OUp (p : nat) (v : vers) (l : mlist)
| OPing (p : nat)
| OAns (q p : nat) (v : vers) (l : mlist)
| OLease (p : nat) (until : Z)
| OPanic (p : nat).

(** The key as a member's CAS finds it (art.Leaf), the CAS ticket, and what
    comes back: success with epoch and end of the lease; an error that starts
    with "rejected write", with the current epoch, end and value; another
    error. *)
Record leaf := Leaf { fName : nat; fPeer : nat; fUntil : Z; fEpoch : Z; fVal : mlist }.
Record tkt := Tkt { tPeer : nat; tName : nat; tVal : mlist; tPrev : Z }.
Inductive casRes := Won (e u : Z) | Lost (e u : Z) (cur : mlist) | Failed.

Record ping := Ping { pFrom : nat; pTo : nat; pArgs : det }.

Record world := World {
  wNow : Z; wLeaf : option leaf; wProcs : nat -> option proc; wUsed : list nat; wNext : nat;
  wTkts : list (nat * tkt); wRes : list (nat * casRes);
  wPings : list (nat * ping); wPongs : list (nat * option (vers * mlist)) }.

Definition setProc (i : nat) (p : option proc) (f : nat -> option proc) : nat -> option proc :=
  fun j => if Nat.eqb j i then p else f j.

Fixpoint pick {A} (n : nat) (l : list (nat * A)) : option A :=
  match l with [] => None | (k, a) :: r => if Nat.eqb k n then Some a else pick n r end.
Definition drop {A} (n : nat) (l : list (nat * A)) : list (nat * A) :=
  filter (fun p => negb (Nat.eqb (fst p) n)) l.

Inductive ev :=
| ETick (d : Z)                      (* time passes *)
| EStart (i name addr : nat)         (* RMember.Start of a new process *)
| EKill (i : nat)                    (* a process dies *)
| ECas (i : nat)                     (* submit the first CAS *)
| ERenew (i : nat)                   (* renewCzarLeaseCh *)
| EApply (n : nat) (tm : Z)          (* Tube applies a ticket stamped [tm] *)
| EReply (i : nat) (d : Z)           (* the CAS returns its ticket; [d] passes before setVers reads the clock *)
| ETimeout (i : nat)                 (* the CAS returns a timeout *)
| EDial (i : nat) (ok : bool) (addr : nat)
| EBeat (i : nat)                    (* memberHeartBeatCh *)
| EPing (n : nat) (d : Z)            (* the ping reaches the other side *)
| EPong (i : nat) (d : Z)            (* the call returns an answer *)
| ECallFail (i : nat)                (* the call fails *)
| EDrop (i : nat)                    (* rpcClientToCzarDoneCh *)
| EExpire (i : nat)                  (* expireCheckCh *)
| ELapse (i : nat).                  (* the czar's lease has run out *)

(** czar.go 155 [leaseDurCzar], 132 [memberLeaseDur], 1057. *)
Definition czarLease : Z := 5000.
Definition memberLease : Z := 6000.
Definition enough : Z := 2000.

Section Drift.
Variable drift : Z.   (* ClockDriftBound of the TubeConfig *)

(** tube.go 11894-12039 [doCAS], [validLease], with actions.go 522-736
    [kvstoreWrite] and 738-761 [writeFailedSetCurrentVal]: OldVal and
    OldVersionCAS are not used, the lease duration is [czarLease], the key
    always has a lease, log indexes increase. *)
Definition cas (tm : Z) (lf : option leaf) (t : tkt) : option leaf * casRes :=
  let fresh e := Leaf (tName t) (tPeer t) (tm + czarLease) e (tVal t) in
  match lf with
  | None => if 0 <? tPrev t then (None, Failed) else (Some (fresh 1), Won 1 (tm + czarLease))
  | Some l =>
      let lost := (Some l, Lost (fEpoch l) (fUntil l + drift) (fVal l)) in
      if negb (fUntil l + drift <? tm) && negb (Nat.eqb (fName l) (tName t)) then lost
      else if (0 <? tPrev t) && negb (tPrev t =? fEpoch l) then lost
      else if tm + czarLease <=? fUntil l then lost
      else if Nat.eqb (fName l) (tName t) && Nat.eqb (fPeer l) (tPeer t)
           then (Some (fresh (fEpoch l)), Won (fEpoch l) (tm + czarLease))
      else if 0 <? tm - (fUntil l + drift)
           then (Some (fresh (fEpoch l + 1)), Won (fEpoch l + 1) (tm + czarLease))
      else lost
  end.

(** czar.go 219-269 [setVers]: [None] for the two errors. *)
Definition setVers (now : Z) (i : nat) (v : vers) (l : mlist) (upcall : bool) (p : proc) : option (proc * list obs) :=
  if vUntil v <? now then None
  else if vlt v (cVers p) then None
  else
    let h := hashPeerIDs l v in
    let differs := match cHash p with None => true | Some h' => negb (eqbH h h') end in
    Some (Proc (cName p) (cAddr p) (cState p) v l (Some h) now (cHeard p) (cConn p) (cBeat p) (cWait p) (cWatch p),
          if differs && upcall then [OUp i v l] else []).

Fixpoint heardAt (m : nat) (h : list (nat * Z)) : option Z :=
  match h with [] => None | (k, t) :: r => if Nat.eqb k m then Some t else heardAt m r end.
Definition hear (m : nat) (t : Z) (h : list (nat * Z)) : list (nat * Z) := (m, t) :: h.
Definition unhear (m : nat) (h : list (nat * Z)) : list (nat * Z) :=
  filter (fun p => negb (Nat.eqb (fst p) m)) h.

(** czar.go 309-346: is the entry to go? *)
Definition due (now : Z) (p : proc) (e : plus) : bool :=
  let m := dName (eDet e) in
  negb (Nat.eqb m (cName p)) &&
  ((eUntil e =? 0) ||
   ((match heardAt m (cHeard p) with
     | None => memberLease <? now - cT0 p
     | Some t => memberLease <? now - t
     end) && (eUntil e + drift <? now))).

(** czar.go 302-358 [expireSilentNodes]. Its argument is not used: the new list
    is made from the czar's own. *)
Definition expire (now : Z) (p : proc) : option mlist * list (nat * Z) :=
  let gone := filter (due now p) (lPeers (cList p)) in
  match gone with
  | [] => (None, cHeard p)
  | _ => (Some (ML (lCzar (cList p)) (fold_left (fun l e => delP (dName (eDet e)) l) gone (lPeers (cList p)))),
          fold_left (fun h e => unhear (dName (eDet e)) h) gone (cHeard p))
  end.

(** czar.go 1582-1605 [detailsChanged]. *)
Definition changed (a b : det) : bool :=
  negb (Nat.eqb (dName a) (dName b) && Nat.eqb (dPeer a) (dPeer b) && Nat.eqb (dAddr a) (dAddr b)).

Definition bump (v : vers) : vers := Vers (vEpoch v) (vWithin v + 1) (vUntil v).

(** The result of a step inside one process: it goes on, or it panics. *)
Inductive out (A : Type) := Go (a : A) | Crash.
Arguments Go {A}. Arguments Crash {A}.

(** czar.go 477-598 [handlePing] (the check at 427-431 repeats 497-502).
    [now] is read at 504, [now + d] at 308 and 222. The answer is [None] for
    ErrNotCzar. *)
Definition handlePing (now d : Z) (i : nat) (args : det) (p : proc)
  : out (proc * list obs * option (vers * mlist)) :=
  match cState p with
  | Am =>
      if vUntil (cVers p) <? now then Go (withState Unknown p, [], None)
      else
        let m := dName args in
        let mine := Plus args (now + memberLease) in
        let ps := lPeers (cList p) in
        let upd := match getP m ps with
                   | None => Some (setP mine ps)
                   | Some e => if changed (eDet e) args then Some (setP mine ps) else None
                   end in
        let ps1 := match upd with None => renewP m (now + memberLease) ps | Some _ => ps end in
        let p1 := withHeard (hear (cName p) now (hear m now (cHeard p)))
                    (withList (ML (lCzar (cList p)) ps1) p) in
        let '(ex, h) := expire (now + d) p1 in
        let p2 := withHeard h p1 in
        let next := match ex, upd with
                    | Some l, _ => Some l
                    | None, Some q => Some (ML (lCzar (cList p)) q)
                    | None, None => None
                    end in
        match next with
        | None => Go (p2, [], Some (cVers p2, cList p2))
        | Some l =>
            match setVers (now + d) i (bump (cVers p2)) l true p2 with
            | None => Crash
            | Some (p3, o) => Go (p3, o, Some (cVers p3, cList p3))
            end
        end
  | _ => Go (p, [], None)
  end.

(** czar.go 963-984: the list a contender submits. *)
Definition contend (i : nat) (p : proc) : mlist :=
  let ps := lPeers (cList p) in
  let ps := match lCzar (cList p) with Some c => delP (dName c) ps | None => ps end in
  ML (Some (Det (cName p) i (cAddr p))) (delP (cName p) ps).

(** czar.go 1096-1106 and 1177-1188: the version of a member that has just
    written or read the key. *)
Definition keyVers (e u : Z) (old : vers) : vers :=
  Vers e (if e =? vEpoch old then vWithin old else 0) u.

(** czar.go 1036-1205: the first CAS has returned. *)
Definition afterCas (now d : Z) (i : nat) (l : mlist) (r : casRes) (p : proc) : out (proc * list obs) :=
  match r with
  | Won e u =>
      if u - now <? enough then Go (withState Unknown p, [])
      else match setVers (now + d) i (keyVers e u (cVers p)) l true (withState Am p) with
           | None => Go (withState Am p, [])
           | Some r => Go r
           end
  | Lost e u cur =>
      if (match lCzar cur with Some c => Nat.eqb (dName c) (cName p) | None => false end) && negb (u =? 0)
      then Crash
      else match setVers (now + d) i (keyVers e u (cVers p)) cur false (withState Not p) with
           | None => Go (withState Not p, [])
           | Some r => Go r
           end
  | Failed => Go (withState Unknown p, [])
  end.

(** czar.go 1264-1336: the renewing CAS has returned. *)
Definition afterRenew (i : nat) (r : casRes) (p : proc) : out (proc * list obs) :=
  match r with
  | Won e u =>
      if e <? vEpoch (cVers p) then Crash
      else Go (withVers (Vers e (vWithin (cVers p)) u) p, [OLease i u])
  | _ => Go (withState Unknown p, [])
  end.

Definition hangUp (p : proc) : proc := withState Unknown (withConn None p).

(** czar.go 1409-1443: the first Ping has returned. *)
Definition afterFirst (now d : Z) (i : nat) (r : option (vers * mlist)) (p : proc) : out (proc * list obs) :=
  match r with
  | None => Go (hangUp p, [])
  | Some (v, l) =>
      match setVers (now + d) i v l true p with
      | None => Go (unwatch p, [])
      | Some (p', o) => Go (withBeat true p', o)
      end
  end.

(** czar.go 1466-1549: a heartbeat's Ping has returned. *)
Definition afterBeat (now d : Z) (i : nat) (r : option (vers * mlist)) (p : proc) : out (proc * list obs) :=
  match r with
  | None => Go (hangUp p, [])
  | Some (v, l) =>
      match getP (cName p) (lPeers l) with
      | None => Crash
      | Some e =>
          if negb (vUntil v =? 0) && (vUntil v - drift <=? now) then Go (hangUp p, [])
          else
            let told := if vUntil v =? 0 then [] else [OLease i (eUntil e)] in
            match setVers (now + d) i v l true p with
            | None => Go (unwatch p, told)
            | Some (p', o) => Go (withBeat true p', told ++ o)
            end
      end
  end.

(** czar.go 128-177 [NewCzar]. *)
Definition newCzar (name addr : nat) (now : Z) : proc :=
  Proc name addr Unknown (Vers 0 0 0) noList None now [] None false Idle false.

Definition isIdle (p : proc) : bool := match cWait p with Idle => true | _ => false end.
Definition isAm (p : proc) : bool := match cState p with Am => true | _ => false end.
Definition isNot (p : proc) : bool := match cState p with Not => true | _ => false end.
Definition isUnknown (p : proc) : bool := match cState p with Unknown => true | _ => false end.

Definition putProc (i : nat) (p : option proc) (w : world) : world :=
  World (wNow w) (wLeaf w) (setProc i p (wProcs w)) (wUsed w) (wNext w) (wTkts w) (wRes w) (wPings w) (wPongs w).
Definition at_ (t : Z) (w : world) : world :=
  World t (wLeaf w) (wProcs w) (wUsed w) (wNext w) (wTkts w) (wRes w) (wPings w) (wPongs w).

Definition settle (i : nat) (r : out (proc * list obs)) (w : world) : world * list obs :=
  match r with
  | Go (p, o) => (putProc i (Some p) w, o)
  | Crash => (putProc i None w, [OPanic i])
  end.

Definition later (d : Z) : Z := Z.max 0 d.

(** One step of the whole system. An event whose turn it is not changes
    nothing. *)
Definition step (w : world) (e : ev) : world * list obs :=
  match e with
  | ETick d => (at_ (wNow w + later d) w, [])
  | EStart i name addr =>
      if existsb (Nat.eqb i) (wUsed w) then (w, [])
      else (World (wNow w) (wLeaf w) (setProc i (Some (newCzar name addr (wNow w))) (wProcs w)) (i :: wUsed w)
              (wNext w) (wTkts w) (wRes w) (wPings w) (wPongs w), [])
  | EKill i => (putProc i None w, [])
  | ECas i =>
      match wProcs w i with
      | Some p =>
          if isUnknown p && isIdle p then
            let l := contend i p in
            (World (wNow w) (wLeaf w) (setProc i (Some (withWait (WCas (wNext w) l) p)) (wProcs w)) (wUsed w)
               (S (wNext w)) ((wNext w, Tkt i (cName p) l (vEpoch (cVers p))) :: wTkts w) (wRes w) (wPings w) (wPongs w), [])
          else (w, [])
      | None => (w, [])
      end
  | ERenew i =>
      match wProcs w i with
      | Some p =>
          if isAm p && isIdle p then
            let l := ML (Some (Det (cName p) i (cAddr p))) (delP (cName p) (lPeers (cList p))) in
            (World (wNow w) (wLeaf w) (setProc i (Some (withWait (WRenew (wNext w)) (withList l p))) (wProcs w)) (wUsed w)
               (S (wNext w)) ((wNext w, Tkt i (cName p) l (vEpoch (cVers p))) :: wTkts w) (wRes w) (wPings w) (wPongs w), [])
          else (w, [])
      | None => (w, [])
      end
  | EApply n tm =>
      match pick n (wTkts w) with
      | Some t =>
          let '(lf, r) := cas tm (wLeaf w) t in
          (World (wNow w) lf (wProcs w) (wUsed w) (wNext w) (drop n (wTkts w)) ((n, r) :: wRes w) (wPings w) (wPongs w),
           match r with
           | Won e _ => if (match wLeaf w with Some l => e =? fEpoch l | None => false end) then [] else [OEpoch e (tPeer t)]
           | _ => []
           end)
      | None => (w, [])
      end
  | EReply i d =>
      match wProcs w i with
      | Some p =>
          match cWait p with
          | WCas n l =>
              match pick n (wRes w) with
              | Some r => settle i (afterCas (wNow w) (later d) i l r (withWait Idle p)) (at_ (wNow w + later d) w)
              | None => (w, [])
              end
          | WRenew n =>
              match pick n (wRes w) with
              | Some r => settle i (afterRenew i r (withWait Idle p)) w
              | None => (w, [])
              end
          | _ => (w, [])
          end
      | None => (w, [])
      end
  | ETimeout i =>
      match wProcs w i with
      | Some p =>
          match cWait p with
          | WCas _ _ | WRenew _ => (putProc i (Some (withState Unknown (withWait Idle p))) w, [])
          | _ => (w, [])
          end
      | None => (w, [])
      end
  | EDial i ok addr =>
      match wProcs w i with
      | Some p =>
          if isNot p && isIdle p && (match cConn p with None => true | _ => false end) then
            match lCzar (cList p) with
            | None => (putProc i None w, [OPanic i])
            | Some c =>
                if Nat.eqb (dName c) (cName p) || negb ok
                then (putProc i (Some (withState Unknown p)) w, [])
                else (World (wNow w) (wLeaf w)
                        (setProc i (Some (withWait (WPing (wNext w) true) (withConn (Some (dPeer c, addr)) p))) (wProcs w))
                        (wUsed w) (S (wNext w)) (wTkts w) (wRes w)
                        ((wNext w, Ping i (dPeer c) (Det (cName p) i addr)) :: wPings w) (wPongs w), [OPing i])
            end
          else (w, [])
      | None => (w, [])
      end
  | EBeat i =>
      match wProcs w i with
      | Some p =>
          match cConn p with
          | Some (q, addr) =>
              if isNot p && isIdle p && cBeat p then
                (World (wNow w) (wLeaf w)
                   (setProc i (Some (withWait (WPing (wNext w) false) (withBeat false p))) (wProcs w))
                   (wUsed w) (S (wNext w)) (wTkts w) (wRes w)
                   ((wNext w, Ping i q (Det (cName p) i addr)) :: wPings w) (wPongs w), [OPing i])
              else (w, [])
          | None => (w, [])
          end
      | None => (w, [])
      end
  | EPing n d =>
      match pick n (wPings w) with
      | Some g =>
          match wProcs w (pTo g) with
          | Some q =>
              if isAm q && negb (isIdle q) then (w, [])
              else
                match handlePing (wNow w) (later d) (pTo g) (pArgs g) q with
                | Crash => (at_ (wNow w + later d) (putProc (pTo g) None
                              (World (wNow w) (wLeaf w) (wProcs w) (wUsed w) (wNext w) (wTkts w) (wRes w)
                                 (drop n (wPings w)) (wPongs w))), [OPanic (pTo g)])
                | Go (q', o, a) =>
                    (World (wNow w + later d) (wLeaf w) (setProc (pTo g) (Some q') (wProcs w)) (wUsed w) (wNext w)
                       (wTkts w) (wRes w) (drop n (wPings w)) ((n, a) :: wPongs w),
                     o ++ match a with Some (v, l) => [OAns (pTo g) (pFrom g) v l] | None => [] end)
                end
          | None => (w, [])
          end
      | None => (w, [])
      end
  | EPong i d =>
      match wProcs w i with
      | Some p =>
          match cWait p with
          | WPing n first =>
              match pick n (wPongs w) with
              | Some r =>
                  settle i ((if first then afterFirst else afterBeat) (wNow w) (later d) i r (withWait Idle p))
                    (at_ (wNow w + later d) w)
              | None => (w, [])
              end
          | _ => (w, [])
          end
      | None => (w, [])
      end
  | ECallFail i =>
      match wProcs w i with
      | Some p =>
          match cWait p with
          | WPing _ _ => (putProc i (Some (hangUp (withWait Idle p))) w, [])
          | _ => (w, [])
          end
      | None => (w, [])
      end
  | EDrop i =>
      match wProcs w i with
      | Some p =>
          if isNot p && isIdle p && (match cConn p with Some _ => true | _ => false end) && cWatch p
          then (putProc i (Some (hangUp p)) w, [])
          else (w, [])
      | None => (w, [])
      end
  | EExpire i =>
      match wProcs w i with
      | Some p =>
          if isAm p && isIdle p then
            let '(ex, h) := expire (wNow w) p in
            let p1 := withHeard h p in
            match ex with
            | None => (putProc i (Some p1) w, [])
            | Some l =>
                match setVers (wNow w) i (bump (cVers p1)) l true p1 with
                | None => (putProc i (Some p1) w, [])
                | Some (p2, o) => (putProc i (Some p2) w, o)
                end
            end
          else (w, [])
      | None => (w, [])
      end
  | ELapse i =>
      match wProcs w i with
      | Some p =>
          if isAm p && isIdle p && (vUntil (cVers p) <=? wNow w)
          then (putProc i (Some (withState Unknown p)) w, [])
          else (w, [])
      | None => (w, [])
      end
  end.

(** A run: every observation with the instant at which it was made. *)
Fixpoint run (w : world) (es : list ev) : world * list (Z * obs) :=
  match es with
  | [] => (w, [])
  | e :: r =>
      let '(w1, o) := step w e in
      let '(w2, tr) := run w1 r in
      (w2, map (pair (wNow w1)) o ++ tr)
  end.

Definition start : world := World 1 None (fun _ => None) [] 0 [] [] [] [].

End Drift.

Arguments Go {A}. Arguments Crash {A}.
