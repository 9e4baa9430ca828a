(** * The net/rpc interface: Client.Call, Client.Go and registered receivers

    Models cli.go (Go 1556-1580, Call 1588-1602, send 1604-1675, gotNetRpcInput
    1678-1740), greencodec.go (the two codecs, 80-118 and 323-366) and srv.go
    (callBridgeNetRpc 1514-1553, callMethodByReflection 1555-1612, sendResponse
    1615-1671, readRequest and readRequestHeader 1674-1775).

    One client and its connection.  That SendAndGetReply hands the client the
    server's answer to this request, or an error when it gives up, is the
    subject of Rpc_Model and taken from there: call k's request is message k,
    and what the client gets is the JobSerz of the answer to message k.  Bytes
    are lists of tokens, one per encoded value; decoding takes one token, and a
    token of another kind is a decoding error.  A bufio or msgp reader that is
    shared is one with the buffer it reads from.  Service and method names,
    arguments, replies and error texts are integers, 0 the empty error text. *)

From Coq Require Import ZArith List Bool PeanoNat.
Import ListNotations.
Local Open Scope Z_scope.

(** Request, the argument, Response, the reply, each as encoded. *)
Inductive tok : Type :=
| THdr (seq : nat) (meth : Z) | TArg (a : Z)
| RHdr (seq : nat) (err : Z) | RBody (b : Z).

(** how a Call ends: Reply filled in and Error nil; Error set from the response;
    Error set because SendAndGetReply gave up (ErrTimeout, ErrCancelReqSent, ...). *)
Inductive outcome : Type := NOk (b : Z) | NErr (e : Z) | NGone.

(** error texts: "can't find service" or method; a body that cannot be read. *)
Definition eNoMethod : Z := -2.
Definition eBody : Z := -3.

(** where the goroutine of a request is, in callBridgeNetRpc: not begun; buffers
    reset and request copied in; header read; the method is running; the method
    has returned; the response is encoded; over. *)
Inductive nphase : Type :=
| PNew | PBegun | PHdr (seq : nat) (meth : Z) | PRun (seq : nat)
| PRet (seq : nat) (b e : Z) | PWritten | POver.

(** a request the client sent: its bytes, its goroutine, the answer's bytes. *)
Record njob : Type := mkNJob { nBytes : list tok; nPh : nphase; nOut : option (list tok) }.

(** what can be observed. *)
Inductive nev : Type :=
| NCalled (k : nat) (meth a : Z)      (* Call number k was made *)
| NReturned (k : nat) (o : outcome)   (* its Done channel got it *)
| NBegan (p : nat)                    (* the server turns to request p *)
| NInvoked (p : nat) (meth a : Z)     (* the goroutine of request p calls the method with a *)
| NYielded (p : nat) (b e : Z)        (* the method returns *)
| NEnded (p : nat)                    (* the server is done with request p *)
| NPanicked.                          (* the client process panics *)

(** the client's reqMutex (nHold: which call is inside send) and pending calls; the
    server's p.decBuf and p.encBuf, which belong to the connection; the requests. *)
Record nst : Type := mkNSt {
  nHold : option nat; nPend : list bool; nDec : list tok; nEnc : list tok;
  nJobs : list njob; nHist : list nev }.

Definition ninit : nst := mkNSt None [] [] [] [] [].

Definition setHold x s := mkNSt x (nPend s) (nDec s) (nEnc s) (nJobs s) (nHist s).
Definition setPend x s := mkNSt (nHold s) x (nDec s) (nEnc s) (nJobs s) (nHist s).
Definition setDec x s := mkNSt (nHold s) (nPend s) x (nEnc s) (nJobs s) (nHist s).
Definition setEnc x s := mkNSt (nHold s) (nPend s) (nDec s) x (nJobs s) (nHist s).
Definition setJobs x s := mkNSt (nHold s) (nPend s) (nDec s) (nEnc s) x (nHist s).
Definition nlog e s := mkNSt (nHold s) (nPend s) (nDec s) (nEnc s) (nJobs s) (nHist s ++ [e]).

Fixpoint nupd {A : Type} (i : nat) (f : A -> A) (l : list A) : list A :=
  match l, i with
  | [], _ => []
  | x :: r, O => f x :: r
  | x :: r, S i => x :: nupd i f r
  end.

Definition setNPh (x : nphase) (j : njob) : njob := mkNJob (nBytes j) x (nOut j).
Definition setOut (x : list tok) (j : njob) : njob := mkNJob (nBytes j) POver (Some x).

(** ** The client *)

(** send (1604-1649): reqMutex is held until SendAndGetReply is back, so a second
    caller waits.  Seq is the number of the call. *)
Definition nCall (meth a : Z) (s : nst) : nst :=
  match nHold s with
  | Some _ => s
  | None =>
      let k := length (nPend s) in
      nlog (NCalled k meth a)
        (setHold (Some k) (setPend (nPend s ++ [true])
           (setJobs (nJobs s ++ [mkNJob [THdr k meth; TArg a] PNew None]) s)))
  end.

(** call k is taken from pending and its Done channel gets it. *)
Definition nDone (k : nat) (o : outcome) (s : nst) : nst :=
  nlog (NReturned k o) (setPend (nupd k (fun _ => false) (nPend s)) s).

(** SendAndGetReply returns an error (1665-1674). *)
Definition nGiveUp (s : nst) : nst :=
  match nHold s with
  | Some k => setHold None (if nth k (nPend s) false then nDone k NGone s else s)
  | None => s
  end.

(** SendAndGetReply returns the answer; gotNetRpcInput (1678-1740). *)
Definition nInput (s : nst) : nst :=
  match nHold s with
  | Some k =>
      match nth_error (nJobs s) k with
      | Some (mkNJob _ _ (Some by_)) =>
          let s1 := setHold None s in
          match by_ with
          | RHdr seq err :: r =>
              if nth seq (nPend s) false then
                if negb (err =? 0) then nDone seq (NErr err) s1
                else match r with
                     | RBody b :: _ => nDone seq (NOk b) s1
                     | _ => nDone seq (NErr eBody) s1
                     end
              else s1
          | _ => nlog NPanicked s1
          end
      | _ => s
      end
  | None => s
  end.

(** ** The server *)

Definition setJ (p : nat) (x : nphase) (s : nst) : nst := setJobs (nupd p (setNPh x) (nJobs s)) s.

(** the first lines of callBridgeNetRpc (1526-1532). *)
Definition nBegin (p : nat) (s : nst) : nst :=
  match nth_error (nJobs s) p with
  | Some (mkNJob by_ PNew _) =>
      nlog (NBegan p) (setJ p PBegun (setEnc [] (setDec by_ s)))
  | _ => s
  end.

Section WithMethods.
Variable knows : Z -> bool.

(** readRequestHeader (1731-1775): nothing to read, or something else than a
    header: no answer is sent.  An unknown method: the answer is an error, the
    body is not read. *)
Definition nReadHdr (p : nat) (s : nst) : nst :=
  match nth_error (nJobs s) p with
  | Some (mkNJob _ PBegun _) =>
      match nDec s with
      | THdr seq meth :: r =>
          setJ p (if knows meth then PHdr seq meth else PRet seq 0 eNoMethod) (setDec r s)
      | TArg _ :: r | RHdr _ _ :: r | RBody _ :: r => nlog (NEnded p) (setJ p POver (setDec r s))
      | [] => nlog (NEnded p) (setJ p POver s)
      end
  | _ => s
  end.

(** the body (1692-1712), then the call of the method (1555-1599). *)
Definition nReadBody (p : nat) (s : nst) : nst :=
  match nth_error (nJobs s) p with
  | Some (mkNJob _ (PHdr seq meth) _) =>
      match nDec s with
      | TArg a :: r => nlog (NInvoked p meth a) (setJ p (PRun seq) (setDec r s))
      | THdr _ _ :: r | RHdr _ _ :: r | RBody _ :: r => setJ p (PRet seq 0 eBody) (setDec r s)
      | [] => setJ p (PRet seq 0 eBody) s
      end
  | _ => s
  end.

(** the method returns: *reply is b, its error's text is e. *)
Definition nReturn (p : nat) (b e : Z) (s : nst) : nst :=
  match nth_error (nJobs s) p with
  | Some (mkNJob _ (PRun seq) _) => nlog (NYielded p b e) (setJ p (PRet seq b e) s)
  | _ => s
  end.

(** sendResponse up to p.sending.Unlock (1616-1638): after an error the body is
    invalidRequest. *)
Definition nWrite (p : nat) (s : nst) : nst :=
  match nth_error (nJobs s) p with
  | Some (mkNJob _ (PRet seq b e) _) =>
      setJ p PWritten (setEnc (nEnc s ++ [RHdr seq e; RBody (if e =? 0 then b else 0)]) s)
  | _ => s
  end.

(** the rest (1640-1671): the answer carries what is in encBuf now. *)
Definition nSend (p : nat) (s : nst) : nst :=
  match nth_error (nJobs s) p with
  | Some (mkNJob _ PWritten _) =>
      nlog (NEnded p) (setJobs (nupd p (setOut (nEnc s)) (nJobs s)) s)
  | _ => s
  end.

Inductive nop : Type :=
| DoCall (meth a : Z) | DoGiveUp | DoInput
| DoBegin (p : nat) | DoReadHdr (p : nat) | DoReadBody (p : nat)
| DoReturn (p : nat) (b e : Z) | DoWrite (p : nat) | DoSend (p : nat).

(** one action of one goroutine. *)
Definition nstep (o : nop) (s : nst) : nst :=
  match o with
  | DoCall meth a => nCall meth a s
  | DoGiveUp => nGiveUp s
  | DoInput => nInput s
  | DoBegin p => nBegin p s
  | DoReadHdr p => nReadHdr p s
  | DoReadBody p => nReadBody p s
  | DoReturn p b e => nReturn p b e s
  | DoWrite p => nWrite p s
  | DoSend p => nSend p s
  end.

Definition nrun (os : list nop) : nst := fold_left (fun s o => nstep o s) os ninit.

End WithMethods.
