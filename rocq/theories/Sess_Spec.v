(** * What sessions are for: specification

    Written in terms of log entries, the client's tickets and the answers it
    gets; independent of how the table is kept. *)

From Coq Require Import ZArith List Bool Sorting.Permutation.
From Verif Require Import Sess_Model.
Import ListNotations.
Local Open Scope Z_scope.

Section SessSpec.
Context {St Op Rep : Type}.
Variable wr : Op -> St -> St * Rep.
Variable rd : Op -> St -> Rep.
Variable lf : Op -> St -> option Rep.
Variable x0 : St.

Notation tkt := (@tkt Op).
Notation entry := (@entry Op).
Notation node := (@node St Rep).

(** ** Running a log, no sessions in sight *)

(** the operations that change the state machine. *)
Definition writes (t : tkt) : Prop :=
  match tKind t with KWrite | KOther => True | _ => False end.

(** the state after applying one more ticket, and its results. *)
Definition after (t : tkt) (x : St) : St :=
  match tKind t with KWrite | KOther => fst (wr (tOp t) x) | _ => x end.
Definition result (t : tkt) (x : St) : option Rep :=
  match tKind t with
  | KRead => Some (rd (tOp t) x)
  | KWrite | KOther => Some (snd (wr (tOp t) x))
  | _ => None
  end.

(** the state after a whole log. *)
Definition run (A : list entry) : St :=
  fold_left (fun x e => after (enT e) x) A x0.

(** ** What happens on a node *)

(** EApply: the node applies the next log entry (lead: as leader).
    EAsk: as leader it looks at a ticket before logging it.
    ELocal: as leader with a valid read lease it tries to serve a ticket from
    its own state.  ERestart: the process starts again from its saved state. *)
Inductive event : Type :=
| EApply (lnow : Z) (lead : bool) (e : entry)
| EAsk (now : Z) (t : tkt)
| ELocal (now : Z) (t : tkt)
| ERestart.

Definition step (ev : event) (n : node) : node :=
  match ev with
  | EApply lnow lead e => fst (applyEntry wr rd lnow lead e n)
  | EAsk now t => snd (doneEarly now t n)
  | ELocal now t => snd (localRead rd lf now t n)
  | ERestart => restart n
  end.

(** the nodes that can come about, with what has happened to their state so
    far.  A snapshot from another node makes its history ours.  A restart may
    go back to an older saved state: that state is one of these too. *)
Inductive reach : list event -> node -> Prop :=
| reach_init : reach [] (node0 x0)
| reach_step H n ev : reach H n -> reach (H ++ [ev]) (step ev n)
| reach_snap H n Hm m order :
    reach H n -> reach Hm m ->
    Permutation order (map snd (snd (cloneTab (length (nHeap n)) m))) ->
    reach Hm (install m order n).

(** the log entries applied in a history. *)
Definition applied (H : list event) : list entry :=
  flat_map (fun ev => match ev with EApply _ _ e => [e] | _ => [] end) H.

(** ** Logs as leaders write them *)

(** the entry names session sid: it belongs to it or creates it. *)
Definition uses (sid : Z) (e : entry) : Prop :=
  tSid (enT e) = sid \/ exists r, tKind (enT e) = KNew r /\ rqSid r = sid.

(** new session ids are new: rpc.NewCallID draws a random one. *)
Definition fresh_ids (A : list entry) : Prop :=
  forall A1 e A2 r, A = A1 ++ e :: A2 -> tKind (enT e) = KNew r ->
    rqSid r <> 0 /\ tSid (enT e) <> rqSid r /\ forall f, In f A1 -> ~ uses (rqSid r) f.

(** two tickets are the same request of the same session. *)
Definition same_request (t u : tkt) : Prop :=
  tSid t <> 0 /\ tSid t = tSid u /\ tSer t = tSer u.

(** [log_by D L]: leaders, one after the other, have written the log L.  Each
    entry was let in by a node that had applied a first part A of the log; B is
    the part then logged (or in the batch before it) and not yet applied there.
    D restricts what clients have in flight. *)
Inductive log_by (D : list entry -> tkt -> Prop) : list entry -> Prop :=
| log_nil : log_by D []
| log_app A B e H n now :
    log_by D (A ++ B) ->
    reach H n -> applied H = A ->
    fst (doneEarly now (enT e) n) = None ->
    (forall r, tKind (enT e) = KNew r ->
       rqSid r <> 0 /\ tSid (enT e) <> rqSid r /\
       forall f, In f (A ++ B) -> ~ uses (rqSid r) f) ->
    D B (enT e) ->
    log_by D ((A ++ B) ++ [e]).

(** every log a cluster can write. *)
Definition any_log (L : list entry) : Prop := log_by (fun _ _ => True) L.

(** every log when no client submits a request again while an earlier
    submission of it is logged and not yet applied by the leader. *)
Definition polite_log (L : list entry) : Prop :=
  log_by (fun B t => forall f, In f B -> ~ same_request t (enT f)) L.

(** ** The session is usable on a node *)
Definition in_table (n : node) (sid : Z) : Prop := aget sid (nTab n) <> None.
Definition live (n : node) (sid now : Z) : Prop :=
  exists o s, lookup sid n = Some (o, s) /\ now < eEndx s.

(** the ticket of an event, and whether the event leaves request (sid, ser)
    alone: it does not say the client is past ser, nor reuses ser. *)
Definition leaves (sid ser : Z) (ev : event) : Prop :=
  match ev with
  | EApply _ _ e => tSid (enT e) = sid -> tMin (enT e) <= ser /\ tSer (enT e) <> ser
  | EAsk _ t | ELocal _ t => tSid t = sid -> tMin t <= ser
  | ERestart => True
  end.

(** an answer from the table is one the request got before: from the log or
    from a local read. *)
Definition given_before (H : list event) (t : tkt) (d : @done Rep) : Prop :=
  (exists A1 e A2, applied H = A1 ++ e :: A2 /\ same_request t (enT e) /\
     d = mkDone (result (enT e) (run A1)) (S (length A1))) \/
  (exists H1 now u H2, H = H1 ++ ELocal now u :: H2 /\ same_request t u /\
     localRep rd lf u (run (applied H1)) <> None /\
     d = mkDone (localRep rd lf u (run (applied H1))) (length (applied H1))).

End SessSpec.
