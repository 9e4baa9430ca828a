(** Model of tube/hlc.go: the hybrid logical clock, with int64 wrap-around, and
    the compare-and-swap loops of any number of goroutines on any number of
    nodes. *)
From Coq Require Import ZArith List Bool Arith.
Import ListNotations.
Local Open Scope Z_scope.

(** int64 arithmetic. *)
Definition wrap64 (x : Z) : Z := (x + 2 ^ 63) mod 2 ^ 64 - 2 ^ 63.

(** getCount, getLC (hlc.go 77-78). *)
Definition getCount : Z := 65535.
Definition getLC : Z := -65536.

Definition LC (h : Z) : Z := Z.land h getLC.          (* 80-83 *)
Definition Count (h : Z) : Z := Z.land h getCount.    (* 85-88 *)
(** AssembleHLC (122-124). *)
Definition AssembleHLC (lc count : Z) : Z := wrap64 (Z.land lc getLC + count).

(** PhysicalTime48 (142-148); [pt] is time.Now().UnixNano(). *)
Definition PhysicalTime48 (pt : Z) : Z := Z.land (wrap64 (pt + getCount)) getLC.

(** The value computed in one round of CreateSendOrLocalEvent (154-184), or of
    CreateAndNow (189-221), from the loaded clock [j]. *)
Definition localValue (j pt : Z) : Z :=
  let ptj := PhysicalTime48 pt in
  let jLC := LC j in
  let jLC' := if jLC <? ptj then ptj else jLC in
  let jCount := if jLC' =? jLC then Count j + 1 else 0 in
  wrap64 (jLC' + jCount).

(** The value computed in one round of ReceiveMessageWithHLC (229-266). *)
Definition recvValue (j m pt : Z) : Z :=
  let ptj := PhysicalTime48 pt in
  let orig := LC j in
  let mLC := LC m in
  let l1 := if orig <? ptj then ptj else orig in
  let l2 := if l1 <? mLC then mLC else l1 in
  let c := if (l2 =? orig) && (orig =? mLC) then Z.max (Count j) (Count m) + 1
           else if l2 =? orig then Count j + 1
           else if l2 =? mLC then Count m + 1
           else 0 in
  wrap64 (l2 + c).

(** What a goroutine asks for. [Recv i]: the message carries the timestamp of
    the i-th event of the history. *)
Inductive op := Local | Recv (i : nat).
(** Where a goroutine is in its loop: before the load; after the load; after the
    clock reading. *)
Inductive pc := Idle | Loop (o : op) | Loaded (o : op) (j : Z) | Ready (o : op) (j pt : Z).

(** A completed event: on which node, what it was, the wall clock it read, the
    timestamp it returned. *)
Record event := mkEv { ev_node : nat; ev_op : op; ev_pt : Z; ev_ts : Z }.

(** The whole system: a clock per node, goroutines (each belonging to a node) and
    the history of completed events, oldest first. *)
Record sys := mkSys { clock : nat -> Z; thread : nat -> pc; hist : list event }.
Definition upd {A} (f : nat -> A) (n : nat) (x : A) : nat -> A := fun k => if Nat.eqb k n then x else f k.

Definition ts_of (h : list event) (i : nat) : Z := match nth_error h i with Some e => ev_ts e | None => 0 end.
Definition value (h : list event) (o : op) (j pt : Z) : Z :=
  match o with Local => localValue j pt | Recv i => recvValue j (ts_of h i) pt end.

(** One atomic step of goroutine [t], running on node [node_of t]. *)
Section steps.
Variable node_of : nat -> nat.
Inductive step : sys -> sys -> Prop :=
| s_call : forall c th h t o, th t = Idle ->
    (forall i, o = Recv i -> (i < length h)%nat) ->
    step (mkSys c th h) (mkSys c (upd th t (Loop o)) h)
| s_load : forall c th h t o, th t = Loop o ->
    step (mkSys c th h) (mkSys c (upd th t (Loaded o (c (node_of t)))) h)
| s_clock : forall c th h t o j pt, th t = Loaded o j ->
    step (mkSys c th h) (mkSys c (upd th t (Ready o j pt)) h)
| s_cas_fail : forall c th h t o j pt, th t = Ready o j pt -> c (node_of t) <> j ->
    step (mkSys c th h) (mkSys c (upd th t (Loop o)) h)
| s_cas_ok : forall c th h t o j pt, th t = Ready o j pt -> c (node_of t) = j ->
    let r := value h o j pt in
    step (mkSys c th h)
         (mkSys (upd c (node_of t) r) (upd th t Idle) (h ++ [mkEv (node_of t) o pt r])).
Inductive steps : sys -> sys -> Prop :=
| steps_refl : forall s, steps s s
| steps_step : forall s1 s2 s3, steps s1 s2 -> step s2 s3 -> steps s1 s3.
End steps.
(** All clocks start at zero. *)
Definition sys0 : sys := mkSys (fun _ => 0) (fun _ => Idle) [].
