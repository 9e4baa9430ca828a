(** * Calls and streams over one connection: what is claimed

    Everything here is read off what the client wrote ([sent]) and off the record
    of what user code saw and did ([hist]).  p is the place of a message among
    all the client wrote; k is the number of a call of SendAndGetReply. *)

From Coq Require Import ZArith NArith List Bool PeanoNat.
From Verif Require Import Rpc_Model.
Import ListNotations.
Local Open Scope Z_scope.

(** ** Calls *)

(** m is the p-th message the client wrote; it is the request of call k. *)
Definition frame (s : st) (p : nat) (m : msg) : Prop := nth_error (map fst (sent s)) p = Some m.
Definition callFrame (s : st) (k p : nat) (m : msg) : Prop := nth_error (sent s) p = Some (m, ByCall k).

(** the beginning and the end of call k. *)
Definition callLog (k : nat) (h : list event) : list event :=
  filter (fun e => match e with ESubmit q _ | ERet q _ => Nat.eqb q k | _ => false end) h.

(** the server-side events about message p. *)
Definition jobLog (p : nat) (h : list event) : list event :=
  filter (fun e => match e with
                   | ERun q _ | EPart q _ _ | EClean q | EEnd q _ _ | EDown q _ | EAnswer q _ => Nat.eqb q p
                   | _ => false
                   end) h.

(** the calls of a registered function for message p: its arguments. *)
Definition runsFor (p : nat) (h : list event) : list msg :=
  flat_map (fun e => match e with ERun q m => if Nat.eqb q p then [m] else [] | _ => [] end) h.
Definition answersTo (p : nat) (h : list event) : list msg :=
  flat_map (fun e => match e with EAnswer q m => if Nat.eqb q p then [m] else [] | _ => [] end) h.

(** neither a message pushed by Server.SendMessage nor one sent by OneWaySend
    has the Seqno of a call's request. *)
Definition noSeqClash (s : st) : Prop :=
  forall k p m, callFrame s k p m ->
    (forall x, In (EPush x) (hist s) -> mSeq x <> mSeq m) /\
    (forall q x, nth_error (sent s) q = Some (x, ByOneWay) -> mSeq x <> mSeq m).

(** ** Streams *)

(** requests that start something on the server; no two have the same CallID. *)
Definition starts (t : ctyp) : bool :=
  match t with TRPC | TReqBi | TReqDown | TUpBegin => true | _ => false end.
Definition freshIds (s : st) : Prop :=
  forall p q m m', frame s p m -> frame s q m' -> starts (mTyp m) = true -> starts (mTyp m') = true ->
    mCall m = mCall m' -> p = q.

(** nobody asked for the cancelling of CallID c. *)
Definition notCancelled (c : Z) (s : st) : Prop :=
  ~ exists p m, frame s p m /\ mTyp m = TCancel /\ mCall m = c.

(** the messages of an upload with CallID c, from the p-th message on. *)
Definition partsFrom (s : st) (p : nat) (c : Z) : list msg :=
  filter (fun m => match mTyp m with TUpBegin | TReqBi | TUpMore | TUpEnd => true | _ => false end
                   && (mCall m =? c))
         (skipn p (map fst (sent s))).

(** what the function for p was given of its upload; what it sent as download. *)
Definition given (p : nat) (h : list event) : list msg :=
  flat_map (fun e => match e with EPart q m _ => if Nat.eqb q p then [m] else [] | _ => [] end) h.
Definition downSent (p : nat) (h : list event) : list msg :=
  flat_map (fun e => match e with EDown q m => if Nat.eqb q p then [m] else [] | _ => [] end) h.

(** part numbers 0, 1, 2, ... *)
Definition inOrder (l : list msg) : Prop :=
  forall i m, nth_error l i = Some m -> mPart m = Z.of_nat i.

(** it ends with its only End part. *)
Definition complete (l : list msg) : Prop :=
  exists l' m, l = l' ++ [m] /\ mTyp m = TUpEnd /\ Forall (fun x => mTyp x <> TUpEnd) l'.

(** uploads as the documentation wants them: never cancelled, no part skipped. *)
Definition properUploads (s : st) : Prop :=
  forall p m, frame s p m -> mTyp m = TUpBegin ->
    notCancelled (mCall m) s /\ inOrder (partsFrom s p (mCall m)).

(** what the server wrote; what the user received from client channel a. *)
Definition serverWrote (h : list event) : list msg :=
  flat_map (fun e => match e with EAnswer _ m | EDown _ m | EPush m => [m] | _ => [] end) h.
Definition received (a : nat) (h : list event) : list msg :=
  flat_map (fun e => match e with EGot c m => if Nat.eqb c a then [m] else [] | _ => [] end) h.

(** the messages with CallID c: without and with errors. *)
Definition withId (c : Z) (l : list msg) : list msg :=
  filter (fun m => (mCall m =? c) && negb (match mTyp m with TError => true | _ => false end)) l.
Definition errsWithId (c : Z) (l : list msg) : list msg :=
  filter (fun m => (mCall m =? c) && (match mTyp m with TError => true | _ => false end)) l.

(** no two streams of the client have the same CallID. *)
Definition freshStreams (s : st) : Prop :=
  forall i i' h h', nth_error (cStrm s) i = Some h -> nth_error (cStrm s) i' = Some h' ->
    sCall h = sCall h' -> i = i'.

(** the server is done with everything the client wrote, and the client has read
    all the server wrote. *)
Definition settled (s : st) : Prop :=
  up s = true /\ wireC s = [] /\ wireS s = [] /\
  forall p j, nth_error (sJobs s) p = Some j ->
    jPh j = JPart \/ jPh j = JReplied \/ jPh j = JErr \/ jPh j = JOver.

(** the context of the function for message p is cancelled; it is running. *)
Definition ctxDone (p : nat) (s : st) : Prop :=
  exists j, nth_error (sJobs s) p = Some j /\ jCanc j = true.
Definition running (p : nat) (s : st) : Prop :=
  exists j n, nth_error (sJobs s) p = Some j /\ jPh j = JRun n.

(** the kind of function that serves a message of each type. *)
Definition serves (t : ctyp) : option regkind :=
  match t with
  | TRPC => Some R2 | TOneWay => Some R1 | TUpBegin => Some RUp | TReqDown => Some RDown | TReqBi => Some RBi
  | _ => None
  end.
