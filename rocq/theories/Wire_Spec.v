(** Independent specification of the plaintext framing properties C01-C05. *)
From Coq Require Import List NArith Lia Bool String.
From Verif Require Import Base Wire_Model.
Import ListNotations.
Open Scope N_scope.

(** What is assumed of the serializer and of the s2 compressor: they invert. *)
Definition codec_ok (c : codec) : Prop :=
  (forall m, unmarshal c (marshal c m) = Some m) /\
  (forall b, s2d c (s2c c b) = Some b).

(** The bytes a connection will deliver, whatever the chunking. *)
Definition streamOf (conn : rconn) : bytes := List.concat (map fst conn).
(** No read error happens before the end of the stream. *)
Definition quiet (conn : rconn) : Prop := Forall (fun p => snd p = None) conn.

(** The wire format of one message: 7 magic bytes, compression tag, big-endian
    length, body. *)
Definition frame (tag : N) (body : bytes) : bytes := (magic7bytes ++ [tag]) ++ putU64 (lenN body) ++ body.

(** One call of sendMessage: the value lastReadMagic7 had, the message, how the
    kernel took the bytes, whether there was a deadline. *)
Record sendCall := mkSend { s_last : N; s_msg : msg; s_conn : wconn; s_dl : bool }.

(** All calls returned nil; [outs] is what each put on the wire. *)
Fixpoint allSent (c : codec) (w : workspace) (calls : list sendCall) (outs : list bytes) : Prop :=
  match calls, outs with
  | [], [] => True
  | k :: ks, o :: os =>
      (exists rest, sendMessage c w (s_last k) (s_msg k) (s_conn k) (s_dl k) = Ok (WDone, o, rest)) /\
      allSent c w ks os
  | _, _ => False
  end.

(** Names an application may put in Config.CompressAlgo according to
    /repo/magic7.go:84 and the comments in cli.go. *)
Definition documentedAlgos : list string :=
  ["s2"; "lz4"; "zstd:01"; "zstd:03"; "zstd:07"; "zstd:11"]%string.

(** ** C04: the compression a server reply must use. *)

Inductive sev :=
| ERecv (tag : N) (m : msg)      (* a client frame tagged [tag] is read *)
| ESend (m : msg).               (* the server sends [m] *)

(** Tag of the latest received frame that was not a per-message opt-out. *)
Fixpoint lastClientTag (dflt : N) (hist : list sev) : N :=
  match hist with
  | [] => dflt
  | ERecv t _ :: h => lastClientTag (if t =? 7 then dflt else t) h
  | ESend _ :: h => lastClientTag dflt h
  end.

(** The tags of the frames the server must emit, in order. *)
Fixpoint expectedTags (past : list sev) (dflt : N) (evs : list sev) : list N :=
  match evs with
  | [] => []
  | ESend m :: h =>
      (if m_nosys m then 7 else lastClientTag dflt past) :: expectedTags (past ++ [ESend m]) dflt h
  | ERecv t m :: h => expectedTags (past ++ [ERecv t m]) dflt h
  end.


(** A modelled server event realizes an abstract one: the client frame arrives
    in any chunking. *)
Definition evMatch (c : codec) (a : sev) (x : srvEvent) : Prop :=
  match a, x with
  | ERecv t m, SRecv conn =>
      quiet conn /\ exists body, handleCompress c t (marshal c m) = Ok body /\
        lenN body <= maxMessage /\ streamOf conn = frame t body
  | ESend m, SSend m' => m = m'
  | _, _ => False
  end.
