(** * Calls and streams over one connection

    Models cli.go (runReadLoop 348-566, the send loop's oneWayCh and roundTripCh
    cases 727-797, SendAndGetReply 2157-2296, UploadBegin and UploadMore
    2358-2423, OneWaySend and oneWaySendHelper 2552-2622, Downloader 2821-2893,
    Bistreamer 2927-3034, the channel registrations 1796-1880) and srv.go
    (runReadLoop 725-822, handleIncomingMessage 825-867,
    handleReply_to_CallID_ToPeerID 940-1033, handleUploadParts 1044-1087,
    processWork 1089-1308, SendMessage 2094-2160, registerInFlightCallToCancel
    and cancelCallID 2847-2936, beginReadStream 2938-3012, sendDownloadPart
    3051-3104, respondToReqWithError 3106-3135).

    One client and one server joined by one connection that delivers, in order,
    what is written to it until it goes down.  Every goroutine's next action is
    one [op]; a schedule is a list of ops, so a statement about all lists of ops
    is a statement about all interleavings, all user programs and all behaviours
    of the registered functions.

    Left out: keep-alives, peers and circuits (CallPeer...), the net/rpc bridge
    (CallNetRPC), rate limiting, encryption and encoding (Wire_Model,
    Crypt_Model), addresses and times.  Seqno is an N, not a uint64, so it does
    not wrap.  Service names, CallIDs, payloads (JobSerz) and error texts are
    integers; 0 is the empty error text.  A request is a fresh Message from
    NewMessage, and SendAndGetReply is used with HDR.Typ left at CallNone.  No
    channel is registered in the server's own notifies. *)

From Coq Require Import ZArith NArith List Bool.
Import ListNotations.
Local Open Scope Z_scope.

(** ** Maps and lists *)

(** Go's m[k] (the comma-ok form). *)
Fixpoint mget {K V : Type} (eqb : K -> K -> bool) (k : K) (l : list (K * V)) : option V :=
  match l with
  | [] => None
  | (k', v) :: r => if eqb k' k then Some v else mget eqb k r
  end.

(** Go's delete(m, k). *)
Definition mdel {K V : Type} (eqb : K -> K -> bool) (k : K) (l : list (K * V)) : list (K * V) :=
  filter (fun p => negb (eqb (fst p) k)) l.

(** Go's m[k] = v. *)
Definition mset {K V : Type} (eqb : K -> K -> bool) (k : K) (v : V) (l : list (K * V))
  : list (K * V) :=
  (k, v) :: mdel eqb k l.

(** the assignment l[i] = f(l[i]), nothing when i is out of range. *)
Fixpoint upd {A : Type} (i : nat) (f : A -> A) (l : list A) : list A :=
  match l, i with
  | [], _ => []
  | x :: r, O => f x :: r
  | x :: r, S i' => x :: upd i' f r
  end.

(** ** Messages *)

(** CallType (hdr.go 30-87), without CallNone, CallNetRPC, CallKeepAlive and the
    CallPeer types. *)
Inductive ctyp : Type :=
| TRPC | TReply | TOneWay | TError | TCancel
| TUpBegin | TUpMore | TUpEnd
| TReqBi | TReqDown | TDownBegin | TDownMore | TDownEnd.

(** Message and HDR (hdr.go 200-236, 375-449): Typ, Seqno, CallID,
    ToServiceName, StreamPart, JobSerz, JobErrs, and whether Deadline is set. *)
Record msg : Type := mkMsg {
  mTyp : ctyp; mSeq : N; mCall : Z; mSvc : Z; mPart : Z;
  mBody : Z; mErr : Z; mDl : bool }.

(** on whose behalf the client wrote a message: call number k, the cancelling of
    call k, OneWaySend, the i-th stream, the closing of the i-th stream.  Not in
    the code; no step looks at it. *)
Inductive origin : Type :=
| ByCall (k : nat) | ByCancel (k : nat) | ByOneWay | ByStrm (i : nat) | ByClose (i : nat).

(** ** Calls *)

(** what SendAndGetReply returns (cli.go 2224-2295): a reply and a nil error;
    ErrTimeout; ErrCancelChanClosed; ErrCancelReqSent; ErrShutdown; the error of
    the failed write. *)
Inductive result : Type :=
| RReply (m : msg) | RTimeout | RCancelled | RCancelSent | RShutdown | RSendErr.

(** where a call is: waiting to hand its request to the send loop (the first
    select, 2224-2251); waiting for DoneCh (the second, 2255-2294); handing over
    the cancel request (2273); returned. *)
Inductive phase : Type := PHand | PWait | PCancel | PRet (r : result).

(** DoneCh: open; closed while it still holds the request itself (NewMessage,
    hdr.go 283-288; the send loop's failed write, cli.go 784-790); closed with a
    reply (CloseWith, 545). *)
Inductive doneCh : Type := DOpen | DSelf | DWith (m : msg).

Record callrec : Type := mkCall { kMsg : msg; kPh : phase; kDone : doneCh }.

Definition setPh (x : phase) (c : callrec) : callrec := mkCall (kMsg c) x (kDone c).
Definition setDone (x : doneCh) (c : callrec) : callrec := mkCall (kMsg c) (kPh c) x.

(** ** Streams, on the client *)

Inductive skind : Type := KUp | KDown | KBi.

(** Uploader, Downloader, Bistreamer (2302-2314, 2787-2798, 2899-2915); sReg: its
    ReadCh and ErrorCh. *)
Record strm : Type := mkStrm {
  sKind : skind; sCall : Z; sSvc : Z; sSeq : N; sNext : Z; sDone : bool;
  sReg : option (nat * nat) }.

Definition setNext (x : Z) (s : strm) : strm :=
  mkStrm (sKind s) (sCall s) (sSvc s) (sSeq s) x (sDone s) (sReg s).
Definition setSDone (x : bool) (s : strm) : strm :=
  mkStrm (sKind s) (sCall s) (sSvc s) (sSeq s) (sNext s) x (sReg s).
Definition setReg (x : option (nat * nat)) (s : strm) : strm :=
  mkStrm (sKind s) (sCall s) (sSvc s) (sSeq s) (sNext s) (sDone s) x.

(** ** Jobs, on the server *)

(** Register2Func, Register1Func, RegisterUploadReaderFunc,
    RegisterServerSendsDownloadFunc, RegisterBistreamFunc (srv.go 2630-2658). *)
Inductive regkind : Type := R2 | R1 | RUp | RDown | RBi.

Definition regkind_eqb (a b : regkind) : bool :=
  match a, b with
  | R2, R2 | R1, R1 | RUp, RUp | RDown, RDown | RBi, RBi => true
  | _, _ => false
  end.

(** what became of a message the server read: a stream part (no goroutine);
    [go processWork] not yet begun; the user's function running (n: the parts an
    UploadReaderFunc has been given); the function returned this payload and
    error text; the reply is written (the deferred noLongerInFlight is still to
    run); respondToReqWithError waiting to close the connection; over. *)
Inductive jphase : Type :=
| JPart | JSpawn | JRun (n : nat) | JRet (body err : Z) | JReplied | JErr | JOver.

(** jCanc: the context given to the function is cancelled; jStrm: HDR.streamCh;
    jNext: serverSendDownloadHelper.nextPart. *)
Record job : Type := mkJob {
  jReq : msg; jPh : jphase; jCanc : bool; jStrm : option nat; jNext : Z }.

Definition setJPh (x : jphase) (j : job) : job :=
  mkJob (jReq j) x (jCanc j) (jStrm j) (jNext j).
Definition setCanc (x : bool) (j : job) : job :=
  mkJob (jReq j) (jPh j) x (jStrm j) (jNext j).
Definition setStrm (x : option nat) (j : job) : job :=
  mkJob (jReq j) (jPh j) (jCanc j) x (jNext j).
Definition setJNext (x : Z) (j : job) : job :=
  mkJob (jReq j) (jPh j) (jCanc j) (jStrm j) x.

(** callctx (srv.go 2835-2845): whose context its cancelFunc cancels, the stream
    channel. *)
Record callctx : Type := mkCC { ccCanc : option nat; ccStrm : option nat }.

(** ** What can be observed *)

(** p is the place of the request among all messages the client wrote. *)
Inductive event : Type :=
| ESubmit (k : nat) (m : msg)           (* SendAndGetReply number k was called *)
| ERet (k : nat) (r : result)           (* it returned *)
| ERun (p : nat) (m : msg)              (* the function for message p was called with m *)
| EPart (p : nat) (m : msg) (last : bool) (* it was given m; last: with a lastReply *)
| EClean (p : nat)                      (* the UploadReaderFunc was told deadCallID *)
| EEnd (p : nat) (body err : Z)         (* the function returned *)
| EDown (p : nat) (m : msg)             (* it sent the download part m *)
| EAnswer (p : nat) (m : msg)           (* the server wrote the answer m to message p *)
| EPush (m : msg)                       (* Server.SendMessage wrote m *)
| EGot (c : nat) (m : msg).             (* the user received m from client channel c *)

(** ** The state *)

Record st : Type := mkSt {
  cSeq : N;                                   (* Client.lastSeqno *)
  cOnce : list (N * nat);                     (* Client.notifyOnce: Seqno to the call whose DoneCh it holds *)
  cRead : list (Z * nat);                     (* Client.notifies.notifyOnReadCallIDMap *)
  cErrs : list (Z * nat);                     (* Client.notifies.notifyOnErrorCallIDMap *)
  cListen : list nat;                         (* Client.notifyOnRead *)
  cChan : list (list msg);                    (* the channels made on the client, by number: what they buffer *)
  cCalls : list callrec;                      (* the calls of SendAndGetReply, in order of their start *)
  cStrm : list strm;                          (* the Uploaders, Downloaders and Bistreamers, in order *)
  up : bool;                                  (* the connection is up *)
  wireC : list msg;                           (* written by the client, not yet read by the server *)
  wireS : list msg;                           (* written by the server, not yet read by the client *)
  sent : list (msg * origin);                 (* all that the client ever wrote, and on whose behalf *)
  sRegs : list (regkind * Z);                 (* the server's registered functions *)
  sFl : list (Z * callctx);                   (* Server.inflight.activeCalls *)
  sChan : list (list (nat * msg));            (* the stream channels made on the server, by number *)
  sJobs : list job;                           (* one per message the server has read, in order *)
  sBlk : option (option nat * (nat * msg));   (* the read loop waits to send a part on this channel (None: a nil channel) *)
  sCrash : bool;                              (* the server process has panicked *)
  hist : list event }.                        (* what has happened, in order *)

Definition setCSeq (x : N) (s : st) : st :=
  mkSt x (cOnce s) (cRead s) (cErrs s) (cListen s) (cChan s) (cCalls s) (cStrm s) (up s) (wireC s) (wireS s) (sent s) (sRegs s) (sFl s) (sChan s) (sJobs s) (sBlk s) (sCrash s) (hist s).
Definition setCOnce (x : list (N * nat)) (s : st) : st :=
  mkSt (cSeq s) x (cRead s) (cErrs s) (cListen s) (cChan s) (cCalls s) (cStrm s) (up s) (wireC s) (wireS s) (sent s) (sRegs s) (sFl s) (sChan s) (sJobs s) (sBlk s) (sCrash s) (hist s).
Definition setCRead (x : list (Z * nat)) (s : st) : st :=
  mkSt (cSeq s) (cOnce s) x (cErrs s) (cListen s) (cChan s) (cCalls s) (cStrm s) (up s) (wireC s) (wireS s) (sent s) (sRegs s) (sFl s) (sChan s) (sJobs s) (sBlk s) (sCrash s) (hist s).
Definition setCErrs (x : list (Z * nat)) (s : st) : st :=
  mkSt (cSeq s) (cOnce s) (cRead s) x (cListen s) (cChan s) (cCalls s) (cStrm s) (up s) (wireC s) (wireS s) (sent s) (sRegs s) (sFl s) (sChan s) (sJobs s) (sBlk s) (sCrash s) (hist s).
Definition setCListen (x : list nat) (s : st) : st :=
  mkSt (cSeq s) (cOnce s) (cRead s) (cErrs s) x (cChan s) (cCalls s) (cStrm s) (up s) (wireC s) (wireS s) (sent s) (sRegs s) (sFl s) (sChan s) (sJobs s) (sBlk s) (sCrash s) (hist s).
Definition setCChan (x : list (list msg)) (s : st) : st :=
  mkSt (cSeq s) (cOnce s) (cRead s) (cErrs s) (cListen s) x (cCalls s) (cStrm s) (up s) (wireC s) (wireS s) (sent s) (sRegs s) (sFl s) (sChan s) (sJobs s) (sBlk s) (sCrash s) (hist s).
Definition setCCalls (x : list callrec) (s : st) : st :=
  mkSt (cSeq s) (cOnce s) (cRead s) (cErrs s) (cListen s) (cChan s) x (cStrm s) (up s) (wireC s) (wireS s) (sent s) (sRegs s) (sFl s) (sChan s) (sJobs s) (sBlk s) (sCrash s) (hist s).
Definition setCStrm (x : list strm) (s : st) : st :=
  mkSt (cSeq s) (cOnce s) (cRead s) (cErrs s) (cListen s) (cChan s) (cCalls s) x (up s) (wireC s) (wireS s) (sent s) (sRegs s) (sFl s) (sChan s) (sJobs s) (sBlk s) (sCrash s) (hist s).
Definition setUp (x : bool) (s : st) : st :=
  mkSt (cSeq s) (cOnce s) (cRead s) (cErrs s) (cListen s) (cChan s) (cCalls s) (cStrm s) x (wireC s) (wireS s) (sent s) (sRegs s) (sFl s) (sChan s) (sJobs s) (sBlk s) (sCrash s) (hist s).
Definition setWireC (x : list msg) (s : st) : st :=
  mkSt (cSeq s) (cOnce s) (cRead s) (cErrs s) (cListen s) (cChan s) (cCalls s) (cStrm s) (up s) x (wireS s) (sent s) (sRegs s) (sFl s) (sChan s) (sJobs s) (sBlk s) (sCrash s) (hist s).
Definition setWireS (x : list msg) (s : st) : st :=
  mkSt (cSeq s) (cOnce s) (cRead s) (cErrs s) (cListen s) (cChan s) (cCalls s) (cStrm s) (up s) (wireC s) x (sent s) (sRegs s) (sFl s) (sChan s) (sJobs s) (sBlk s) (sCrash s) (hist s).
Definition setSent (x : list (msg * origin)) (s : st) : st :=
  mkSt (cSeq s) (cOnce s) (cRead s) (cErrs s) (cListen s) (cChan s) (cCalls s) (cStrm s) (up s) (wireC s) (wireS s) x (sRegs s) (sFl s) (sChan s) (sJobs s) (sBlk s) (sCrash s) (hist s).
Definition setSRegs (x : list (regkind * Z)) (s : st) : st :=
  mkSt (cSeq s) (cOnce s) (cRead s) (cErrs s) (cListen s) (cChan s) (cCalls s) (cStrm s) (up s) (wireC s) (wireS s) (sent s) x (sFl s) (sChan s) (sJobs s) (sBlk s) (sCrash s) (hist s).
Definition setSFl (x : list (Z * callctx)) (s : st) : st :=
  mkSt (cSeq s) (cOnce s) (cRead s) (cErrs s) (cListen s) (cChan s) (cCalls s) (cStrm s) (up s) (wireC s) (wireS s) (sent s) (sRegs s) x (sChan s) (sJobs s) (sBlk s) (sCrash s) (hist s).
Definition setSChan (x : list (list (nat * msg))) (s : st) : st :=
  mkSt (cSeq s) (cOnce s) (cRead s) (cErrs s) (cListen s) (cChan s) (cCalls s) (cStrm s) (up s) (wireC s) (wireS s) (sent s) (sRegs s) (sFl s) x (sJobs s) (sBlk s) (sCrash s) (hist s).
Definition setSJobs (x : list job) (s : st) : st :=
  mkSt (cSeq s) (cOnce s) (cRead s) (cErrs s) (cListen s) (cChan s) (cCalls s) (cStrm s) (up s) (wireC s) (wireS s) (sent s) (sRegs s) (sFl s) (sChan s) x (sBlk s) (sCrash s) (hist s).
Definition setSBlk (x : option (option nat * (nat * msg))) (s : st) : st :=
  mkSt (cSeq s) (cOnce s) (cRead s) (cErrs s) (cListen s) (cChan s) (cCalls s) (cStrm s) (up s) (wireC s) (wireS s) (sent s) (sRegs s) (sFl s) (sChan s) (sJobs s) x (sCrash s) (hist s).
Definition setSCrash (x : bool) (s : st) : st :=
  mkSt (cSeq s) (cOnce s) (cRead s) (cErrs s) (cListen s) (cChan s) (cCalls s) (cStrm s) (up s) (wireC s) (wireS s) (sent s) (sRegs s) (sFl s) (sChan s) (sJobs s) (sBlk s) x (hist s).
Definition setHist (x : list event) (s : st) : st :=
  mkSt (cSeq s) (cOnce s) (cRead s) (cErrs s) (cListen s) (cChan s) (cCalls s) (cStrm s) (up s) (wireC s) (wireS s) (sent s) (sRegs s) (sFl s) (sChan s) (sJobs s) (sBlk s) (sCrash s) x.

Definition init : st :=
  mkSt 0%N [] [] [] [] [] [] [] true [] [] [] [] [] [] [] None false [].

Definition log (e : event) (s : st) : st := setHist (hist s ++ [e]) s.

(** the buffer sizes: of the channels made by GetReadIncomingCh and its siblings
    (100, cli.go 1797-1822), and of a stream channel (10000, srv.go 2879). *)
Record caps : Type := mkCaps { capUser : nat; capStrm : nat }.

(** ** The client *)

(** nextSeqno (cli.go 2669-2672). *)
Definition nextSeq (s : st) : N := N.succ (cSeq s).

(** sendMessage on the client's end: ok is whether the write succeeds. *)
Definition cWrite (ok : bool) (m : msg) (o : origin) (s : st) : st :=
  if up s && ok then setWireC (wireC s ++ [m]) (setSent (sent s ++ [(m, o)]) s) else s.

(** SendAndGetReply up to its first select (2157-2221). *)
Definition callBegin (call svc body : Z) (dl : bool) (s : st) : st :=
  let m := mkMsg TRPC 0 call svc 0 body 0 dl in
  let k := length (cCalls s) in
  log (ESubmit k m) (setCCalls (cCalls s ++ [mkCall m PHand DOpen]) s).

Definition setSeqM (n : N) (m : msg) : msg :=
  mkMsg (mTyp m) n (mCall m) (mSvc m) (mPart m) (mBody m) (mErr m) (mDl m).
Definition setTypM (t : ctyp) (m : msg) : msg :=
  mkMsg t (mSeq m) (mCall m) (mSvc m) (mPart m) (mBody m) (mErr m) (mDl m).

(** the send loop takes a request from roundTripCh (774-797): assign Seqno,
    GetOneRead, write; when the write fails UngetOneRead and DoneCh.Close.  The
    connection being down makes the write fail. *)
Definition sendCall (k : nat) (ok : bool) (s : st) : st :=
  match nth_error (cCalls s) k with
  | Some c =>
      match kPh c with
      | PHand =>
          let n := nextSeq s in
          let m := setSeqM n (kMsg c) in
          let s1 := setCSeq n s in
          if up s && ok then
            cWrite ok m (ByCall k)
              (setCOnce (mset N.eqb n k (cOnce s1))
                 (setCCalls (upd k (fun _ => mkCall m PWait (kDone c)) (cCalls s1)) s1))
          else setCCalls (upd k (fun _ => mkCall m PWait DSelf) (cCalls s1)) s1
      | _ => s
      end
  | None => s
  end.

(** call k returns r. *)
Definition ret (k : nat) (r : result) (s : st) : st :=
  log (ERet k r) (setCCalls (upd k (setPh (PRet r)) (cCalls s)) s).

(** the second select finds DoneCh closed (2256-2263). *)
Definition callReturn (k : nat) (s : st) : st :=
  match nth_error (cCalls s) k with
  | Some c =>
      match kPh c, kDone c with
      | PWait, DWith m => ret k (RReply m) s
      | PWait, DSelf => ret k RSendErr s
      | _, _ => s
      end
  | None => s
  end.

(** defaultTimeout or writeDurTimeoutChan fires (2237-2245, 2280-2287). *)
Definition callTimeout (k : nat) (s : st) : st :=
  match nth_error (cCalls s) k with
  | Some c => match kPh c with PHand | PWait => ret k RTimeout s | _ => s end
  | None => s
  end.

(** cancelJobCh closes (2228-2230, 2264-2278). *)
Definition callCancel (k : nat) (s : st) : st :=
  match nth_error (cCalls s) k with
  | Some c =>
      match kPh c with
      | PHand => ret k RCancelled s
      | PWait => setCCalls (upd k (setPh PCancel) (cCalls s)) s
      | _ => s
      end
  | None => s
  end.

(** the cancel request passes through the send loop; its error is ignored
    (2270-2278, 727-772). *)
Definition sendCancel (k : nat) (ok : bool) (s : st) : st :=
  match nth_error (cCalls s) k with
  | Some c =>
      match kPh c with
      | PCancel => ret k RCancelSent (cWrite ok (setTypM TCancel (kMsg c)) (ByCancel k) s)
      | _ => s
      end
  | None => s
  end.

(** halt.ReqStop closes (2247-2250, 2289-2293; from oneWaySendHelper 2609-2612 the
    call still returns ErrCancelReqSent). *)
Definition callShut (k : nat) (s : st) : st :=
  if up s then s else
  match nth_error (cCalls s) k with
  | Some c =>
      match kPh c with
      | PHand | PWait => ret k RShutdown s
      | PCancel => ret k RCancelSent s
      | PRet _ => s
      end
  | None => s
  end.

(** OneWaySend (2552-2593) of a message whose Seqno the user may have set, and
    the send loop's part in it (727-733). *)
Definition oneWay (call svc body : Z) (seq : N) (ok : bool) (s : st) : st :=
  let n := if (seq =? 0)%N then nextSeq s else seq in
  let s1 := if (seq =? 0)%N then setCSeq n s else s in
  cWrite ok (mkMsg TOneWay n call svc 0 body 0 false) ByOneWay s1.

(** a new buffered channel. *)
Definition newChan (s : st) : nat * st :=
  (length (cChan s), setCChan (cChan s ++ [[]]) s).

(** GetReadIncomingChForCallID and GetErrorChForCallID (1808-1822), as the
    streams' constructors call them. *)
Definition regChans (call : Z) (s : st) : (nat * nat) * st :=
  let (a, s1) := newChan s in
  let s2 := setCRead (mset Z.eqb call a (cRead s1)) s1 in
  let (b, s3) := newChan s2 in
  ((a, b), setCErrs (mset Z.eqb call b (cErrs s3)) s3).

(** NewDownloader (2821-2832) and NewBistreamer (2957-2969); call is the new
    CallID. *)
Definition newStream (k : skind) (call svc : Z) (s : st) : st :=
  match k with
  | KUp => s
  | _ =>
      let (r, s1) := regChans call s in
      let n := nextSeq s1 in
      setCSeq n (setCStrm (cStrm s1 ++ [mkStrm k call svc n 1 false (Some r)]) s1)
  end.

(** BeginDownload (2843-2893) and Bistreamer.Begin (2992-3034). *)
Definition beginStream (i : nat) (body : Z) (dl ok : bool) (s : st) : st :=
  match nth_error (cStrm s) i with
  | Some h =>
      match sKind h with
      | KUp => s
      | KDown => cWrite ok (mkMsg TReqDown (sSeq h) (sCall h) (sSvc h) 0 body 0 dl) (ByStrm i) s
      | KBi => cWrite ok (mkMsg TReqBi (sSeq h) (sCall h) (sSvc h) 0 body 0 dl) (ByStrm i) s
      end
  | None => s
  end.

(** UploadBegin (2358-2377): allot Seqno and send; an Uploader only comes of it
    when the send succeeds. *)
Definition upBegin (call svc body : Z) (ok : bool) (s : st) : st :=
  let n := nextSeq s in
  let s1 := setCSeq n s in
  if up s && ok then
    let i := length (cStrm s1) in
    cWrite ok (mkMsg TUpBegin n call svc 0 body 0 false) (ByStrm i)
      (setCStrm (cStrm s1 ++ [mkStrm KUp call svc n 1 false None]) s1)
  else s1.

(** the registrations at the end of UploadBegin (2378-2386), which come after the
    send. *)
Definition upReg (i : nat) (s : st) : st :=
  match nth_error (cStrm s) i with
  | Some h =>
      match sKind h, sReg h with
      | KUp, None =>
          let (r, s1) := regChans (sCall h) s in
          setCStrm (upd i (setReg (Some r)) (cStrm s1)) s1
      | _, _ => s
      end
  | None => s
  end.

(** Uploader.UploadMore (2391-2423) and Bistreamer.UploadMore (2927-2953): part
    number and done flag change before the send is tried; ok is false when ctx
    is done first or the write fails. *)
Definition upMore (i : nat) (body : Z) (last ok : bool) (s : st) : st :=
  match nth_error (cStrm s) i with
  | Some h =>
      match sKind h with
      | KDown => s
      | _ =>
          if sDone h then s else
          cWrite ok (mkMsg (if last then TUpEnd else TUpMore) (sSeq h) (sCall h) (sSvc h)
                       (sNext h) body 0 false) (ByStrm i)
            (setCStrm (upd i (fun h => setNext (sNext h + 1) (setSDone last h)) (cStrm s)) s)
      end
  | None => s
  end.

(** Downloader.Close and Bistreamer.Close (2811-2819, 2981-2990). *)
Definition closeStream (i : nat) (ok : bool) (s : st) : st :=
  match nth_error (cStrm s) i with
  | Some h =>
      match sKind h with
      | KUp => s
      | _ => cWrite ok (mkMsg TCancel (sSeq h) (sCall h) (sSvc h) 0 0 0 false) (ByClose i) s
      end
  | None => s
  end.

(** GetReadIncomingCh (1796-1801). *)
Definition listen (s : st) : st :=
  let (a, s1) := newChan s in setCListen (cListen s1 ++ [a]) s1.

Section WithCaps.
Variable cp : caps.

(** has the client's channel c room? *)
Definition room (c : nat) (s : st) : bool :=
  match nth_error (cChan s) c with
  | Some q => Nat.ltb (length q) (capUser cp)
  | None => false
  end.

Definition put (c : nat) (m : msg) (s : st) : st :=
  setCChan (upd c (fun q => q ++ [m]) (cChan s)) s.

(** the loop over notifyOnRead (555-563): a full channel misses the message. *)
Fixpoint tell (cs : list nat) (m : msg) (s : st) : st :=
  match cs with
  | [] => s
  | c :: r => tell r m (if room c s then put c m s else s)
  end.

(** which channel handleReply_to_CallID_ToPeerID (srv.go 940-1033) chooses. *)
Definition wants (m : msg) (s : st) : option nat :=
  match mTyp m with
  | TError =>
      match mget Z.eqb (mCall m) (cErrs s) with
      | Some c => Some c
      | None => mget Z.eqb (mCall m) (cRead s)
      end
  | _ => mget Z.eqb (mCall m) (cRead s)
  end.

(** one turn of the client's read loop (cli.go 407-565).  It waits while the
    chosen channel is full. *)
Definition cliRead (s : st) : st :=
  if up s then
    match wireS s with
    | [] => s
    | m :: r =>
        match wants m s with
        | Some c => if room c s then put c m (setWireS r s) else s
        | None =>
            let s1 := setWireS r s in
            match mget N.eqb (mSeq m) (cOnce s1) with
            | Some k =>
                setCCalls (upd k (setDone (DWith m)) (cCalls s1))
                  (setCOnce (mdel N.eqb (mSeq m) (cOnce s1)) s1)
            | None => tell (cListen s1) m s1
            end
        end
    end
  else s.

(** the user receives from channel c. *)
Definition userRecv (c : nat) (s : st) : st :=
  match nth_error (cChan s) c with
  | Some (m :: _) => log (EGot c m) (setCChan (upd c (@tl msg) (cChan s)) s)
  | _ => s
  end.

(** ** The server *)

(** sendMessage on the server's end: it fails when the connection is down. *)
Definition sWrite (m : msg) (e : event) (s : st) : st :=
  if up s then log e (setWireS (wireS s ++ [m]) s) else s.

Definition setJ (p : nat) (f : job -> job) (s : st) : st := setSJobs (upd p f (sJobs s)) s.

(** registerInFlightCallToCancel (srv.go 2847-2907) for the message p. *)
Definition regFlight (p : nat) (m : msg) (canc : option nat) (s : st) : st :=
  match mget Z.eqb (mCall m) (sFl s) with
  | None =>
      match mTyp m with
      | TUpBegin | TReqBi =>
          let c := length (sChan s) in
          setSFl (mset Z.eqb (mCall m) (mkCC canc (Some c)) (sFl s))
            (setJ p (setStrm (Some c)) (setSChan (sChan s ++ [[(p, m)]]) s))
      | _ => setSFl (mset Z.eqb (mCall m) (mkCC canc None) (sFl s)) s
      end
  | Some cc => setSFl (mset Z.eqb (mCall m) (mkCC canc (ccStrm cc)) (sFl s)) s
  end.

(** cancelCallID and noLongerInFlight (2909-2936). *)
Definition cancelCall (call : Z) (s : st) : st :=
  match mget Z.eqb call (sFl s) with
  | None => s
  | Some cc =>
      setSFl (mdel Z.eqb call (sFl s))
        (match ccCanc cc with Some p => setJ p (setCanc true) s | None => s end)
  end.

(** the panics of beginReadStream: nothing recovers them, the process dies. *)
Definition crash (s : st) : st := setSCrash true (setUp false s).

Definition srvUp (s : st) : bool := up s && negb (sCrash s).

(** one turn of the server's read loop (725-822) with handleIncomingMessage
    (825-867) and, up to its select, handleUploadParts (1044-1073). *)
Definition srvRead (s : st) : st :=
  if srvUp s then
    match sBlk s, wireC s with
    | None, m :: r =>
        let p := length (sJobs s) in
        let s1 := setWireC r s in
        let spawn := setSJobs (sJobs s1 ++ [mkJob m JSpawn false None 0]) s1 in
        match mTyp m with
        | TUpBegin | TReqBi => regFlight p m None spawn
        | TUpMore | TUpEnd =>
            let s2 := setSJobs (sJobs s1 ++ [mkJob m JPart false None 0]) s1 in
            match mget Z.eqb (mCall m) (sFl s2) with
            | None => s2
            | Some cc => setSBlk (Some (ccStrm cc, (p, m))) s2
            end
        | _ => spawn
        end
    | _, _ => s
    end
  else s.

(** the select of handleUploadParts (1075-1086): send on the stream channel when
    it has room; a nil channel never has. *)
Definition srvPart (s : st) : st :=
  if srvUp s then
    match sBlk s with
    | Some (Some c, e) =>
        match nth_error (sChan s) c with
        | Some q =>
            if Nat.ltb (length q) (capStrm cp)
            then setSBlk None (setSChan (upd c (fun q => q ++ [e]) (sChan s)) s)
            else s
        | None => s
        end
    | _ => s
    end
  else s.

Definition isReg (k : regkind) (svc : Z) (s : st) : bool :=
  existsb (fun x => regkind_eqb (fst x) k && (snd x =? svc)) (sRegs s).

(** respondToReqWithError (3106-3135) up to its wait of three seconds. *)
Definition respondErr (p : nat) (m : msg) (s : st) : st :=
  let e := mkMsg TError (mSeq m) (mCall m) (mSvc m) (mPart m) 0 (mErr m) (mDl m) in
  setJ p (setJPh JErr) (sWrite e (EAnswer p e) s).

(** processWork (1089-1265) from its start to the call of the user's function. *)
Definition jobStart (p : nat) (s : st) : st :=
  if sCrash s then s else
  match nth_error (sJobs s) p with
  | Some j =>
      match jPh j with
      | JSpawn =>
          let m := jReq j in
          let go k :=
            if isReg k (mSvc m) s
            then log (ERun p m) (setJ p (setJPh (JRun 0)) (regFlight p m (Some p) s))
            else respondErr p m s in
          match mTyp m with
          | TCancel => setJ p (setJPh JOver) (cancelCall (mCall m) s)
          | TRPC => go R2
          | TReqBi => go RBi
          | TReqDown => go RDown
          | TUpBegin => go RUp
          | TOneWay =>
              if isReg R1 (mSvc m) s
              then log (ERun p m) (setJ p (setJPh JOver) s)
              else respondErr p m s
          | _ => setJ p (setJPh JOver) s
          end
      | _ => s
      end
  | None => s
  end.

(** the end of respondToReqWithError: the pair is closed (3126-3134). *)
Definition jobErrClose (p : nat) (s : st) : st :=
  if sCrash s then s else
  match nth_error (sJobs s) p with
  | Some j =>
      match jPh j with
      | JErr => setJ p (setJPh JOver) (setUp false s)
      | _ => s
      end
  | None => s
  end.

Definition isEnd (t : ctyp) : bool := match t with TUpEnd => true | _ => false end.

(** one turn of the loop of beginReadStream (2965-3010): take a part from the
    stream channel, check it, call the UploadReaderFunc, which returns the error
    text err (and, given a lastReply, fills it with body). *)
Definition jobUpPart (p : nat) (body err : Z) (s : st) : st :=
  if sCrash s then s else
  match nth_error (sJobs s) p with
  | Some j =>
      match jPh j, mTyp (jReq j), jStrm j with
      | JRun n, TUpBegin, Some c =>
          match nth_error (sChan s) c with
          | Some ((q, m) :: _) =>
              let s1 := setSChan (upd c (@tl (nat * msg)) (sChan s)) s in
              if Nat.eqb n 0 && negb (Nat.eqb q p) then crash s1
              else if negb (mPart m =? Z.of_nat n) then crash s1
              else if Nat.ltb 0 n && negb (mCall m =? mCall (jReq j)) then crash s1
              else
                let last := isEnd (mTyp m) in
                let s2 := log (EPart p m last) s1 in
                if negb (err =? 0) then
                  setJ p (setJPh (JRet (if last then body else 0) err)) (log (EClean p) s2)
                else if last then setJ p (setJPh (JRet body 0)) (log (EClean p) s2)
                else setJ p (setJPh (JRun (S n))) s2
          | _ => s
          end
      | _, _, _ => s
      end
  | None => s
  end.

(** "context cancelled" (2979-2981). *)
Definition errCtx : Z := -1.

Definition jobUpCanc (p : nat) (s : st) : st :=
  if sCrash s then s else
  match nth_error (sJobs s) p with
  | Some j =>
      match jPh j, mTyp (jReq j), jCanc j with
      | JRun _, TUpBegin, true => setJ p (setJPh (JRet 0 errCtx)) (log (EClean p) s)
      | _, _, _ => s
      end
  | None => s
  end.

(** a BistreamFunc receives from uploadsFromClientCh. *)
Definition jobBiRecv (p : nat) (s : st) : st :=
  if sCrash s then s else
  match nth_error (sJobs s) p with
  | Some j =>
      match jPh j, mTyp (jReq j), jStrm j with
      | JRun n, TReqBi, Some c =>
          match nth_error (sChan s) c with
          | Some ((q, m) :: _) =>
              log (EPart p m (isEnd (mTyp m)))
                (setSChan (upd c (@tl (nat * msg)) (sChan s)) s)
          | _ => s
          end
      | _, _, _ => s
      end
  | None => s
  end.

(** sendDownloadPart (3051-3104): the part number is used up even if the write
    fails. *)
Definition jobDown (p : nat) (body : Z) (last : bool) (s : st) : st :=
  if sCrash s then s else
  match nth_error (sJobs s) p with
  | Some j =>
      let rq := jReq j in
      let i := jNext j in
      let t := if i =? 0 then TDownBegin else if last then TDownEnd else TDownMore in
      let m := mkMsg t (mSeq rq) (mCall rq) (mSvc rq) i body 0 (mDl rq) in
      let s1 := setJ p (setJNext (i + 1)) (sWrite m (EDown p m) s) in
      match jPh j, mTyp rq with
      | JRun _, TReqDown => s1
      | JRun _, TReqBi => s1
      | _, _ => s
      end
  | None => s
  end.

(** a TwoWayFunc, ServerSendsDownloadFunc or BistreamFunc returns. *)
Definition jobEnd (p : nat) (body err : Z) (s : st) : st :=
  if sCrash s then s else
  match nth_error (sJobs s) p with
  | Some j =>
      match jPh j, mTyp (jReq j) with
      | JRun _, TRPC | JRun _, TReqDown | JRun _, TReqBi =>
          log (EEnd p body err) (setJ p (setJPh (JRet body err)) s)
      | _, _ => s
      end
  | None => s
  end.

(** the rest of processWork (1266-1305): the reply. *)
Definition jobReply (p : nat) (s : st) : st :=
  if sCrash s then s else
  match nth_error (sJobs s) p with
  | Some j =>
      match jPh j with
      | JRet body err =>
          let rq := jReq j in
          let m := mkMsg TReply (mSeq rq) (mCall rq) (mSvc rq) 0 body err (mDl rq) in
          setJ p (setJPh JReplied) (sWrite m (EAnswer p m) s)
      | _ => s
      end
  | None => s
  end.

(** the deferred noLongerInFlight (1237). *)
Definition jobClean (p : nat) (s : st) : st :=
  if sCrash s then s else
  match nth_error (sJobs s) p with
  | Some j =>
      match jPh j with
      | JReplied => setJ p (setJPh JOver) (cancelCall (mCall (jReq j)) s)
      | _ => s
      end
  | None => s
  end.

(** the deadline of the request's context passes (1224-1228). *)
Definition jobDeadline (p : nat) (s : st) : st :=
  if sCrash s then s else
  match nth_error (sJobs s) p with
  | Some j =>
      match jPh j with
      | JRun _ => if mDl (jReq j) then setJ p (setCanc true) s else s
      | _ => s
      end
  | None => s
  end.

(** Server.SendMessage (2094-2160). *)
Definition push (call : Z) (seq : N) (body : Z) (s : st) : st :=
  if sCrash s then s else
  let m := mkMsg TOneWay seq call 0 0 body 0 false in
  sWrite m (EPush m) s.

(** ** Schedules *)

Inductive op : Type :=
| OCall (call svc body : Z) (dl : bool) | OSendCall (k : nat) (ok : bool)
| OReturn (k : nat) | OTimeout (k : nat) | OCancel (k : nat)
| OSendCancel (k : nat) (ok : bool) | OShut (k : nat)
| OOneWay (call svc body : Z) (seq : N) (ok : bool)
| ONewStream (k : skind) (call svc : Z) | OBeginStream (i : nat) (body : Z) (dl ok : bool)
| OUpBegin (call svc body : Z) (ok : bool) | OUpReg (i : nat)
| OUpMore (i : nat) (body : Z) (last ok : bool) | OCloseStream (i : nat) (ok : bool)
| OListen | OCliRead | OUserRecv (c : nat) | ODisconnect
| ORegister (k : regkind) (svc : Z)
| OSrvRead | OSrvPart | OStart (p : nat) | OErrClose (p : nat)
| OUpPart (p : nat) (body err : Z) | OUpCanc (p : nat) | OBiRecv (p : nat)
| ODown (p : nat) (body : Z) (last : bool) | OEnd (p : nat) (body err : Z)
| OReply (p : nat) | OClean (p : nat) | ODeadline (p : nat)
| OPush (call : Z) (seq : N) (body : Z).

Definition step (o : op) (s : st) : st :=
  match o with
  | OCall call svc body dl => callBegin call svc body dl s
  | OSendCall k ok => sendCall k ok s
  | OReturn k => callReturn k s
  | OTimeout k => callTimeout k s
  | OCancel k => callCancel k s
  | OSendCancel k ok => sendCancel k ok s
  | OShut k => callShut k s
  | OOneWay call svc body seq ok => oneWay call svc body seq ok s
  | ONewStream k call svc => newStream k call svc s
  | OBeginStream i body dl ok => beginStream i body dl ok s
  | OUpBegin call svc body ok => upBegin call svc body ok s
  | OUpReg i => upReg i s
  | OUpMore i body last ok => upMore i body last ok s
  | OCloseStream i ok => closeStream i ok s
  | OListen => listen s
  | OCliRead => cliRead s
  | OUserRecv c => userRecv c s
  | ODisconnect => setUp false s
  | ORegister k svc => setSRegs ((k, svc) :: sRegs s) s
  | OSrvRead => srvRead s
  | OSrvPart => srvPart s
  | OStart p => jobStart p s
  | OErrClose p => jobErrClose p s
  | OUpPart p body err => jobUpPart p body err s
  | OUpCanc p => jobUpCanc p s
  | OBiRecv p => jobBiRecv p s
  | ODown p body last => jobDown p body last s
  | OEnd p body err => jobEnd p body err s
  | OReply p => jobReply p s
  | OClean p => jobClean p s
  | ODeadline p => jobDeadline p s
  | OPush call seq body => push call seq body s
  end.

Fixpoint run (os : list op) (s : st) : st :=
  match os with
  | [] => s
  | o :: r => run r (step o s)
  end.

End WithCaps.
