(** * Circuits between peers over one connection

    ckt.go newCircuit, SendOneWay, Close, bootstrapCircuit,
    provideRemoteOnNewCircuitCh; ckt2.go implRemotePeerAndGetCircuit; pump.go
    peerbackPump, cleanupCkt, closeCktInBackgroundToAvoidDeadlock; srv.go
    handleReply_to_CallID_ToPeerID.

    Two processes with one connection between them and any number of peers in
    each.  Every circuit has one end in each process.  Every goroutine's next
    action is one op, so a list of ops is an interleaving.

    Simplifications: fragments are numbers (how a fragment is turned into a
    message and back is in Frag_Model); a connection that went down stays down;
    a circuit's first fragment and the circuit reach the service function in
    one step; the peer a circuit is asked from exists (starting peers is left
    out); acknowledgements of circuits, keep-alives and notices that a
    peer shut down are left out. *)

From Coq Require Import ZArith List Bool Arith.
Import ListNotations.

(** what a message is for: CallPeerStartCircuit, CallPeerTraffic,
    CallPeerError, CallPeerEndCircuit (hdr.go 71-86). *)
Inductive mtyp : Type := TStart | TTraffic | TErr | TEnd.

(** HDR.Typ, HDR.ToPeerID, HDR.CallID and the content. *)
Record msg : Type := mkMsg { mTyp : mtyp; mTo : nat; mCid : nat; mData : Z }.

(** one end of a circuit (ckt.go 31-88): is there a Circuit yet; was the pump
    told; was the request sent; Reads; Errors; Halt.ReqStop closed, and the
    reason of it; cleanupCkt has run (Context cancelled). *)
Record cend : Type := mkEnd {
  eLive : bool; eTold : bool; eReads : list Z; eErrs : list Z;
  eHalt : bool; eReason : option Z; eCanc : bool }.

Definition noEnd : cend := mkEnd false false [] [] false None false.

(** a circuit: the peer that asked for it, the other one, the two ends, whether
    the asking peer tells its pump before it sends the request
    (newCircuit, ckt.go 1148-1199) or after
    (implRemotePeerAndGetCircuit in ckt2.go), and whether the request was sent. *)
Record ckt : Type := mkCkt {
  kFrom : nat; kTo : nat; kA : cend; kB : cend; kTellFirst : bool; kStarted : bool }.

(** where the pump is (pump.go 163-403): in the outer select; trying to put a
    fragment into Reads, with the circuits to clean up afterwards (ckt5s);
    trying to put one into Errors; returned. *)
Inductive phase : Type :=
| Idle
| Deliv (c : nat) (d : Z) (late : list nat)
| DelivErr (c : nat) (d : Z)
| Gone.

(** LocalPeer: its process; Halt.ReqStop not closed;
    AutoShutdownWhenNoMoreCircuits; the pump, with its map m of circuits by
    CircuitID; ReadsIn; ErrorsIn; the goroutines blocked at the end of Close. *)
Record peer : Type := mkPeer {
  pSide : bool; pUp : bool; pAuto : bool; pPump : phase; pMap : list nat;
  pReads : list msg; pErrs : list msg; pClosing : list nat }.

(** what users can tell happened.  An end of a circuit is named by the circuit
    and whether it is the asking one.  k tells errors from other fragments. *)
Inductive event : Type :=
| ESent (c : nat) (x : bool) (k : bool) (d : Z)   (* handed to the connection *)
| EFin (c : nat) (x : bool)                       (* the notice of the end was handed to it *)
| ERecv (c : nat) (x : bool) (k : bool) (d : Z)   (* taken from Reads or Errors *)
| EGap (c : nat) (x : bool)                       (* a message of an open circuit was dropped *)
| ETold (p : nat) (c : nat) (x : bool)            (* the peer's pump knows the circuit *)
| EClosed (p : nat) (c : nat) (x : bool) (byEnd : bool) (* cleaned up; byEnd: as the other end ended *)
| EFinLost (c : nat) (x : bool)                   (* the notice of the end was given up *)
| EDown.                                          (* the connection is gone *)

Record state : Type := mkSt {
  peers : list peer; ckts : list ckt;
  wireT : list msg; wireF : list msg;             (* to process true, to process false *)
  bootT : option (nat * Z); bootF : option (nat * Z); (* the read loop is handing over a new circuit *)
  sends : list (nat * bool * bool * Z);           (* SendOneWay past its checks *)
  bg : list (nat * bool * option Z);              (* closeCktInBackgroundToAvoidDeadlock *)
  connUp : bool;
  hist : list event }.                            (* newest first *)

(** ** Parts *)

Definition wire (t : bool) (s : state) : list msg := if t then wireT s else wireF s.
Definition boot (t : bool) (s : state) : option (nat * Z) := if t then bootT s else bootF s.

Definition setPeers v s := mkSt v (ckts s) (wireT s) (wireF s) (bootT s) (bootF s) (sends s) (bg s) (connUp s) (hist s).
Definition setCkts v s := mkSt (peers s) v (wireT s) (wireF s) (bootT s) (bootF s) (sends s) (bg s) (connUp s) (hist s).
Definition setWire (t : bool) v s :=
  mkSt (peers s) (ckts s) (if t then v else wireT s) (if t then wireF s else v)
    (bootT s) (bootF s) (sends s) (bg s) (connUp s) (hist s).
Definition setBoot (t : bool) v s :=
  mkSt (peers s) (ckts s) (wireT s) (wireF s) (if t then v else bootT s) (if t then bootF s else v)
    (sends s) (bg s) (connUp s) (hist s).
Definition setSends v s := mkSt (peers s) (ckts s) (wireT s) (wireF s) (bootT s) (bootF s) v (bg s) (connUp s) (hist s).
Definition setBg v s := mkSt (peers s) (ckts s) (wireT s) (wireF s) (bootT s) (bootF s) (sends s) v (connUp s) (hist s).
Definition setUp v s := mkSt (peers s) (ckts s) (wireT s) (wireF s) (bootT s) (bootF s) (sends s) (bg s) v (hist s).
Definition log e s := mkSt (peers s) (ckts s) (wireT s) (wireF s) (bootT s) (bootF s) (sends s) (bg s) (connUp s) (e :: hist s).

Fixpoint upd {A : Type} (i : nat) (f : A -> A) (l : list A) : list A :=
  match l, i with
  | [], _ => []
  | x :: r, O => f x :: r
  | x :: r, S i' => x :: upd i' f r
  end.

Fixpoint remAt {A : Type} (i : nat) (l : list A) : list A :=
  match l, i with
  | [], _ => []
  | _ :: r, O => r
  | x :: r, S i' => x :: remAt i' r
  end.

Definition noPeer : peer := mkPeer true false false Gone [] [] [] [].
Definition noCkt : ckt := mkCkt 0 0 noEnd noEnd true false.
Definition getP (p : nat) (s : state) : peer := nth p (peers s) noPeer.
Definition getC (c : nat) (s : state) : ckt := nth c (ckts s) noCkt.
Definition updP (p : nat) (f : peer -> peer) (s : state) : state := setPeers (upd p f (peers s)) s.
Definition updC (c : nat) (f : ckt -> ckt) (s : state) : state := setCkts (upd c f (ckts s)) s.

Definition endOf (x : bool) (k : ckt) : cend := if x then kA k else kB k.
Definition peerOf (x : bool) (k : ckt) : nat := if x then kFrom k else kTo k.
Definition setEnd (x : bool) (f : cend -> cend) (k : ckt) : ckt :=
  if x then mkCkt (kFrom k) (kTo k) (f (kA k)) (kB k) (kTellFirst k) (kStarted k)
  else mkCkt (kFrom k) (kTo k) (kA k) (f (kB k)) (kTellFirst k) (kStarted k).
Definition setStarted (k : ckt) : ckt := mkCkt (kFrom k) (kTo k) (kA k) (kB k) (kTellFirst k) true.

(** the end of circuit c that peer p has. *)
Definition endAt (p : nat) (k : ckt) : bool := kFrom k =? p.

Definition setTold (e : cend) := mkEnd (eLive e) true (eReads e) (eErrs e) (eHalt e) (eReason e) (eCanc e).
Definition setReads v (e : cend) := mkEnd (eLive e) (eTold e) v (eErrs e) (eHalt e) (eReason e) (eCanc e).
Definition setErrs v (e : cend) := mkEnd (eLive e) (eTold e) (eReads e) v (eHalt e) (eReason e) (eCanc e).
(** CloseWithReason: the first call decides. *)
Definition setHalt r (e : cend) :=
  mkEnd (eLive e) (eTold e) (eReads e) (eErrs e) true (if eHalt e then eReason e else r) (eCanc e).
Definition setCanc (e : cend) :=
  mkEnd (eLive e) (eTold e) (eReads e) (eErrs e) true (eReason e) true.

Definition queue (k : bool) (e : cend) : list Z := if k then eErrs e else eReads e.
Definition setQueue (k : bool) v (e : cend) : cend := if k then setErrs v e else setReads v e.

Definition setPump v (p : peer) := mkPeer (pSide p) (pUp p) (pAuto p) v (pMap p) (pReads p) (pErrs p) (pClosing p).
Definition setMap v (p : peer) := mkPeer (pSide p) (pUp p) (pAuto p) (pPump p) v (pReads p) (pErrs p) (pClosing p).
Definition setPReads v (p : peer) := mkPeer (pSide p) (pUp p) (pAuto p) (pPump p) (pMap p) v (pErrs p) (pClosing p).
Definition setPErrs v (p : peer) := mkPeer (pSide p) (pUp p) (pAuto p) (pPump p) (pMap p) (pReads p) v (pClosing p).
Definition setClosing v (p : peer) := mkPeer (pSide p) (pUp p) (pAuto p) (pPump p) (pMap p) (pReads p) (pErrs p) v.
Definition setPUp v (p : peer) := mkPeer (pSide p) v (pAuto p) (pPump p) (pMap p) (pReads p) (pErrs p) (pClosing p).

Definition memN (c : nat) (l : list nat) : bool := existsb (Nat.eqb c) l.
Definition delN (c : nat) (l : list nat) : list nat := filter (fun a => negb (Nat.eqb c a)) l.

(** hand a message for the other end of circuit c (from its end x) to the
    connection: it travels to the other process. *)
Definition put (c : nat) (x : bool) (t : mtyp) (d : Z) (s : state) : state :=
  let k := getC c s in
  let side := negb (pSide (getP (peerOf x k) s)) in
  setWire side (wire side s ++ [mkMsg t (peerOf (negb x) k) c d]) s.

(** ** The pump *)

(** the notice of the end of circuit c (pump.go 66-96); a reason makes it an
    error (ToMessage, ckt.go 912-916). *)
Definition notice (c : nat) (x : bool) (r : option Z) (s : state) : state :=
  match r with
  | Some d => log (ESent c x true d) (put c x TErr d s)
  | None => log (EFin c x) (put c x TEnd 0%Z s)
  end.

(** cleanupCkt (pump.go 45-140): nothing unless the circuit is in the map; with
    notify the other end is told, at once or, if the connection cannot take the
    message (busy), by a goroutine (97-121). AutoShutdownWhenNoMoreCircuits looks
    at the map before the circuit is deleted (133-137). *)
Definition cleanup (p : nat) (notify busy : bool) (c : nat) (s : state) : state :=
  if memN c (pMap (getP p s)) then
    let x := endAt p (getC c s) in
    let e := endOf x (getC c s) in
    let s1 :=
      if notify && connUp s then
        if busy then setBg (bg s ++ [(c, x, eReason e)]) s
        else notice c x (eReason e) s
      else s in
    let s2 := updC c (setEnd x setCanc) s1 in
    let s3 := if pAuto (getP p s) && (length (pMap (getP p s)) =? 0)
              then updP p (setPUp false) s2 else s2 in
    log (EClosed p c x (negb notify)) (updP p (fun a => setMap (delN c (pMap a)) a) s3)
  else s.

Fixpoint cleanups (p : nat) (busy : bool) (cs : list nat) (s : state) : state :=
  match cs with [] => s | c :: r => cleanups p busy r (cleanup p true busy c s) end.

(** can the pump take from TellPumpNewCircuit (178-181, 243-248)? *)
Definition takesNew (p : peer) : bool :=
  match pPump p with Idle | Deliv _ _ _ => true | _ => false end.

(** ** Ops *)

Inductive op : Type :=
(* the user, or the library acting on a connection's end *)
| OOpen (p q : nat) (tellFirst : bool)  (* newCircuit or implRemotePeerAndGetCircuit: the Circuit is made *)
| OTell (c : nat)                       (* TellPumpNewCircuit <- ckt *)
| OStart (c : nat) (d : Z)              (* the request, with the first fragment, is handed to the connection *)
| OSend (c : nat) (x : bool) (k : bool) (d : Z) (* SendOneWay, up to its checks *)
| OPut (i : nat)                        (* ... its message is handed to the connection *)
| ORecv (c : nat) (x : bool) (k : bool) (* take from Reads or Errors *)
| OClose (c : nat) (x : bool) (r : option Z) (* Close *)
| OHalt (p : nat)                       (* LocalPeer.Close *)
| ODown                                 (* the connection goes down *)
| OBgPut (i : nat)                      (* a goroutine's notice of the end is taken *)
| OBgQuit (i : nat)                     (* ... or it gives up after 5 seconds *)
(* the read loop of process t *)
| RBoot (t : bool)                      (* a request for a circuit *)
| RFirst (t : bool) (took : bool)       (* Reads <- asFrag, or the circuit was closed meanwhile *)
| RMsg (t : bool)                       (* a message for a peer *)
| RDrop (t : bool)                      (* ... ReadsIn had no room for 5 seconds *)
(* the pump of peer p; busy: cleanupCkt finds the connection busy *)
| PClose (p i : nat) (busy : bool)      (* from HandleCircuitClose *)
| PRead (p : nat) (busy : bool)         (* from ReadsIn *)
| PErr (p : nat)                        (* from ErrorsIn *)
| PPut (p : nat) (busy : bool)          (* Reads or Errors takes the fragment *)
| PTwo (p : nat) (busy : bool)          (* Reads had no room for 2 seconds *)
| PFive (p : nat) (busy : bool)         (* the timer of 5 seconds for circuits to close *)
| PHalted (p : nat) (busy : bool)       (* the circuit was closed meanwhile *)
| PExit (p : nat) (busy : bool).        (* the peer is to stop *)

(** newCircuit 1105-1149; both peers exist, in different processes. *)
Definition openC (p q : nat) (tf : bool) (s : state) : state :=
  if (p <? length (peers s)) && (q <? length (peers s))
     && negb (Bool.eqb (pSide (getP p s)) (pSide (getP q s))) && pUp (getP p s)
  then setCkts (ckts s ++ [mkCkt p q (mkEnd true false [] [] false None false) noEnd tf false]) s
  else s.

(** newCircuit 1151-1155: TellPumpNewCircuit has no buffer. *)
Definition tellC (c : nat) (s : state) : state :=
  let k := getC c s in
  if (c <? length (ckts s)) && negb (eTold (kA k)) && (kTellFirst k || kStarted k)
     && takesNew (getP (kFrom k) s)
  then log (ETold (kFrom k) c true)
         (updP (kFrom k) (fun a => setMap (c :: pMap a) a) (updC c (setEnd true setTold) s))
  else s.

(** newCircuit 1157-1217: the request is sent with the circuit's context; that
    of a circuit that is closed already is not sent (a simplification: the
    context being cancelled, the code may still send it). *)
Definition startC (c : nat) (d : Z) (s : state) : state :=
  let k := getC c s in
  if (c <? length (ckts s)) && negb (kStarted k) && (negb (kTellFirst k) || eTold (kA k)) && connUp s
     && negb (eCanc (kA k))
  then log (ESent c true false d) (put c true TStart d (updC c setStarted s))
  else s.

(** has the user got this end of the circuit? *)
Definition given (c : nat) (x : bool) (s : state) : bool :=
  let k := getC c s in
  (c <? length (ckts s)) && eLive (endOf x k) && eTold (endOf x k) && kStarted k.

(** SendOneWay 692-709. k: the fragment has an error text. *)
Definition sendC (c : nat) (x k : bool) (d : Z) (s : state) : state :=
  if given c x s && pUp (getP (peerOf x (getC c s)) s) && negb (eCanc (endOf x (getC c s)))
  then setSends (sends s ++ [(c, x, k, d)]) s else s.

(** SendOneWay 755. *)
Definition putC (i : nat) (s : state) : state :=
  match nth_error (sends s) i with
  | None => s
  | Some (c, x, k, d) =>
      let s1 := setSends (remAt i (sends s)) s in
      if connUp s then log (ESent c x k d) (put c x (if k then TErr else TTraffic) d s1) else s1
  end.

Definition recvC (c : nat) (x k : bool) (s : state) : state :=
  if given c x s then
    match queue k (endOf x (getC c s)) with
    | [] => s
    | d :: r => log (ERecv c x k d) (updC c (setEnd x (setQueue k r)) s)
    end
  else s.

(** Close 1349-1378: it goes on when the pump takes the circuit or the peer is
    to stop. *)
Definition closeC (c : nat) (x : bool) (r : option Z) (s : state) : state :=
  if given c x s then
    let p := peerOf x (getC c s) in
    let s1 := updC c (setEnd x (setHalt r)) s in
    if pUp (getP p s) then updP p (fun a => setClosing (pClosing a ++ [c]) a) s1 else s1
  else s.

(** the read loops of both processes end, what is under way is lost. *)
Definition downC (s : state) : state :=
  log EDown (setUp false (setBg [] (setWire true [] (setWire false [] s)))).

(** pump.go 442-450. *)
Definition bgPut (i : nat) (s : state) : state :=
  match nth_error (bg s) i with
  | None => s
  | Some (c, x, r) => notice c x r (setBg (remAt i (bg s)) s)
  end.
Definition bgQuit (i : nat) (s : state) : state :=
  match nth_error (bg s) i with
  | None => s
  | Some (c, x, r) => log (EFinLost c x) (setBg (remAt i (bg s)) s)
  end.

(** srv.go 762-784, bootstrapCircuit for a peer that exists, and
    provideRemoteOnNewCircuitCh 2101-2170: the pump is told, then the service
    function gets the circuit.  If the peer is to stop, bootstrapCircuit returns
    an error and the read loop ends. *)
Definition bootC (t : bool) (s : state) : state :=
  match boot t s, wire t s with
  | None, m :: r =>
      match mTyp m with
      | TStart =>
          let c := mCid m in
          if negb (pUp (getP (mTo m) s)) then downC s
          else if takesNew (getP (mTo m) s) then
            log (ETold (mTo m) c false)
              (setBoot t (Some (c, mData m))
                (updP (mTo m) (fun a => setMap (c :: pMap a) a)
                  (updC c (setEnd false (fun _ => mkEnd true true [] [] false None false))
                    (setWire t r s))))
          else s
      | _ => s
      end
  | _, _ => s
  end.

(** provideRemoteOnNewCircuitCh 2170-2176. *)
Definition firstC (cap : nat) (t took : bool) (s : state) : state :=
  match boot t s with
  | None => s
  | Some (c, d) =>
      let e := kB (getC c s) in
      if took then
        if length (eReads e) <? cap
        then setBoot t None (updC c (setEnd false (setReads (eReads e ++ [d]))) s) else s
      else if eHalt e then log (EGap c false) (setBoot t None s) else s
  end.

(** handleReply_to_CallID_ToPeerID (srv.go 940-1033). *)
Definition msgC (cap : nat) (t : bool) (s : state) : state :=
  match boot t s, wire t s with
  | None, m :: r =>
      let q := getP (mTo m) s in
      match mTyp m with
      | TStart => s
      | TErr =>
          if length (pErrs q) <? cap
          then setWire t r (updP (mTo m) (fun a => setPErrs (pErrs a ++ [m]) a) s) else s
      | _ =>
          if length (pReads q) <? cap
          then setWire t r (updP (mTo m) (fun a => setPReads (pReads a ++ [m]) a) s) else s
      end
  | _, _ => s
  end.

(** srv.go 1002-1020. *)
Definition dropC (cap : nat) (t : bool) (s : state) : state :=
  match boot t s, wire t s with
  | None, m :: r =>
      match mTyp m with
      | TStart | TErr => s
      | _ =>
          if length (pReads (getP (mTo m) s)) <? cap then s
          else log (EGap (mCid m) (endAt (mTo m) (getC (mCid m) s))) (setWire t r s)
      end
  | _, _ => s
  end.

(** pump.go 183-185 and 281-305. *)
Definition pClose (p i : nat) (busy : bool) (s : state) : state :=
  let a := getP p s in
  match nth_error (pClosing a) i with
  | None => s
  | Some c =>
      let s1 := updP p (fun a => setClosing (remAt i (pClosing a)) a) s in
      match pPump a with
      | Idle => cleanup p true busy c s1
      | Deliv c0 d late => updP p (setPump (Deliv c0 d (late ++ [c]))) s1
      | _ => s
      end
  end.

(** pump.go 187-238. *)
Definition pRead (p : nat) (busy : bool) (s : state) : state :=
  let a := getP p s in
  match pPump a, pReads a with
  | Idle, m :: r =>
      let s1 := updP p (setPReads r) s in
      let c := mCid m in
      if memN c (pMap a) then
        match mTyp m with
        | TEnd => cleanup p false busy c s1
        | _ => updP p (setPump (Deliv c (mData m) [])) s1
        end
      else
        (* no such circuit: dropped.  A circuit that is still to come is an open one. *)
        if eCanc (endOf (endAt p (getC c s)) (getC c s)) then s1
        else log (EGap c (endAt p (getC c s))) s1
  | _, _ => s
  end.

(** pump.go 344-375. *)
Definition pErr (p : nat) (s : state) : state :=
  let a := getP p s in
  match pPump a, pErrs a with
  | Idle, m :: r =>
      let s1 := updP p (setPErrs r) s in
      let c := mCid m in
      if memN c (pMap a) then updP p (setPump (DelivErr c (mData m))) s1
      else if eCanc (endOf (endAt p (getC c s)) (getC c s)) then s1
      else log (EGap c (endAt p (getC c s))) s1
  | _, _ => s
  end.

(** pump.go 306 and 376, then 320-340. *)
Definition pPut (cap p : nat) (busy : bool) (s : state) : state :=
  match pPump (getP p s) with
  | Deliv c d late =>
      let x := endAt p (getC c s) in
      let e := endOf x (getC c s) in
      if length (eReads e) <? cap
      then cleanups p busy late
             (updP p (setPump Idle) (updC c (setEnd x (setReads (eReads e ++ [d]))) s))
      else s
  | DelivErr c d =>
      let x := endAt p (getC c s) in
      let e := endOf x (getC c s) in
      if length (eErrs e) <? cap
      then updP p (setPump Idle) (updC c (setEnd x (setErrs (eErrs e ++ [d]))) s)
      else s
  | _ => s
  end.

(** pump.go 254-272. *)
Definition pTwo (cap p : nat) (busy : bool) (s : state) : state :=
  match pPump (getP p s) with
  | Deliv c d late =>
      if length (eReads (endOf (endAt p (getC c s)) (getC c s))) <? cap then s
      else cleanups p busy (c :: late) (updP p (setPump Idle) s)
  | _ => s
  end.

(** pump.go 279-280: the fragment is given up, its circuit stays. *)
Definition pFive (cap p : nat) (busy : bool) (s : state) : state :=
  match pPump (getP p s) with
  | Deliv c d (l :: late) =>
      if length (eReads (endOf (endAt p (getC c s)) (getC c s))) <? cap then s
      else cleanups p busy (l :: late)
             (log (EGap c (endAt p (getC c s))) (updP p (setPump Idle) s))
  | _ => s
  end.

(** pump.go 308-311 and 377-379. *)
Definition pHalted (p : nat) (busy : bool) (s : state) : state :=
  match pPump (getP p s) with
  | Deliv c d late =>
      if eHalt (endOf (endAt p (getC c s)) (getC c s))
      then cleanups p busy (c :: late) (updP p (setPump Idle) s) else s
  | DelivErr c d =>
      if eHalt (endOf (endAt p (getC c s)) (getC c s))
      then cleanups p busy [c] (updP p (setPump Idle) s) else s
  | _ => s
  end.

(** pump.go 141-152. *)
Definition pExit (p : nat) (busy : bool) (s : state) : state :=
  let a := getP p s in
  match pPump a with
  | Gone => s
  | _ => if pUp a then s
         else cleanups p busy (pMap a) (updP p (setPump Gone) s)
  end.

Definition step (cap : nat) (s : state) (o : op) : state :=
  match o with
  | OOpen p q tf => openC p q tf s
  | OTell c => tellC c s
  | OStart c d => startC c d s
  | OSend c x k d => sendC c x k d s
  | OPut i => putC i s
  | ORecv c x k => recvC c x k s
  | OClose c x r => closeC c x r s
  | OHalt p => updP p (setPUp false) s
  | ODown => downC s
  | OBgPut i => bgPut i s
  | OBgQuit i => bgQuit i s
  | RBoot t => bootC t s
  | RFirst t k => firstC cap t k s
  | RMsg t => msgC cap t s
  | RDrop t => dropC cap t s
  | PClose p i b => pClose p i b s
  | PRead p b => pRead p b s
  | PErr p => pErr p s
  | PPut p b => pPut cap p b s
  | PTwo p b => pTwo cap p b s
  | PFive p b => pFive cap p b s
  | PHalted p b => pHalted p b s
  | PExit p b => pExit p b s
  end.

(** peers of the two processes, given by process and
    AutoShutdownWhenNoMoreCircuits. *)
Definition init (cfg : list (bool * bool)) : state :=
  mkSt (map (fun a => mkPeer (fst a) true (snd a) Idle [] [] [] []) cfg) []
    [] [] None None [] [] true [].

Definition run (cap : nat) (cfg : list (bool * bool)) (os : list op) : state :=
  fold_left (step cap) os (init cfg).
