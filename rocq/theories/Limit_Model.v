(** Model of limitlsn.go (the TLS limit listener) as an interleaving of
    goroutines, and of what handleTLSConnection in srv.go does with the
    connections it hands out. *)
From Coq Require Import List Bool Arith.
Import ListNotations.

(** sync.Once of a connection (limitlsn.go 86, 92). *)
Inductive once := OFresh | ORunning | ODone.
(** tlsLimitListenerConn (84-88): is the underlying tls.Conn open; releaseOnce. *)
Record conn := mkConn { c_open : bool; c_once : once }.

(** Where a goroutine is. *)
Inductive pc :=
| Idle
| AWant              (* Accept (52): before the select of acquire (42-49) *)
| AIn                (* slot acquired; inside l.Listener.Accept (71) *)
| ARel               (* that failed; before l.release() (73) *)
| AClosed            (* done was observed; inside l.Listener.Accept (62) *)
| ASpurious          (* ... which returned a connection that is now closed (66) *)
| CClose (i : nat)   (* conn.Close (90): before l.Conn.Close (91) *)
| COnce (i : nat)    (* before releaseOnce.Do (92) *)
| CDoing (i : nat)   (* inside Do: before <-l.sem (50) *)
| LClose             (* listener Close (78): before l.Listener.Close (79) *)
| LOnce              (* before closeOnce.Do (80) *)
| LDoing.            (* inside Do: before close(l.done) *)

Inductive event :=
| EAccept (t : nat) | EDone (t : nat) | EConn (t i : nat) | EErr (t : nat).

Record st := mkSt {
  sem : nat;            (* occupancy of the channel l.sem *)
  done : bool;          (* l.done closed *)
  lonce : once;         (* closeOnce *)
  lclosed : bool;       (* the underlying listener is closed *)
  conns : list conn;    (* connections handed out *)
  th : list pc;         (* goroutines *)
  boom : bool;          (* a panic: close of a closed channel *)
  hist : list event }.

Fixpoint upd {A} (n : nat) (x : A) (l : list A) : list A :=
  match l, n with
  | [], _ => []
  | _ :: r, O => x :: r
  | y :: r, S k => y :: upd k x r
  end.

(** [n] is the limit; [afterClose] says whether the underlying listener may still
    return connections after it was closed (the comment at 54-60 allows for it). *)
Inductive step (n : nat) (afterClose : bool) : st -> st -> Prop :=
| s_accept : forall s d o lc cs l b h t, nth_error l t = Some Idle ->
    step n afterClose (mkSt s d o lc cs l b h) (mkSt s d o lc cs (upd t AWant l) b (h ++ [EAccept t]))
(** acquire: either ready case of the select may be taken *)
| s_sel_done : forall s o lc cs l b h t, nth_error l t = Some AWant ->
    step n afterClose (mkSt s true o lc cs l b h) (mkSt s true o lc cs (upd t AClosed l) b (h ++ [EDone t]))
| s_sel_sem : forall s d o lc cs l b h t, nth_error l t = Some AWant -> s < n ->
    step n afterClose (mkSt s d o lc cs l b h) (mkSt (S s) d o lc cs (upd t AIn l) b h)
| s_conn : forall s d o lc cs l b h t, nth_error l t = Some AIn -> (lc = false \/ afterClose = true) ->
    step n afterClose (mkSt s d o lc cs l b h)
         (mkSt s d o lc (cs ++ [mkConn true OFresh]) (upd t Idle l) b (h ++ [EConn t (length cs)]))
| s_err : forall s d o lc cs l b h t, nth_error l t = Some AIn ->
    step n afterClose (mkSt s d o lc cs l b h) (mkSt s d o lc cs (upd t ARel l) b h)
| s_rel : forall s d o lc cs l b h t, nth_error l t = Some ARel ->
    step n afterClose (mkSt (S s) d o lc cs l b h) (mkSt s d o lc cs (upd t Idle l) b (h ++ [EErr t]))
| s_spur : forall s d o lc cs l b h t, nth_error l t = Some AClosed -> (lc = false \/ afterClose = true) ->
    step n afterClose (mkSt s d o lc cs l b h) (mkSt s d o lc cs (upd t ASpurious l) b h)
| s_spur_close : forall s d o lc cs l b h t, nth_error l t = Some ASpurious ->
    step n afterClose (mkSt s d o lc cs l b h) (mkSt s d o lc cs (upd t AClosed l) b h)
| s_closed_err : forall s d o lc cs l b h t, nth_error l t = Some AClosed ->
    step n afterClose (mkSt s d o lc cs l b h) (mkSt s d o lc cs (upd t Idle l) b (h ++ [EErr t]))
(** Close of a connection, any number of times from any goroutine *)
| s_cclose : forall s d o lc cs l b h t i, nth_error l t = Some Idle -> i < length cs ->
    step n afterClose (mkSt s d o lc cs l b h) (mkSt s d o lc cs (upd t (CClose i) l) b h)
| s_cshut : forall s d o lc cs l b h t i c, nth_error l t = Some (CClose i) -> nth_error cs i = Some c ->
    step n afterClose (mkSt s d o lc cs l b h) (mkSt s d o lc (upd i (mkConn false (c_once c)) cs) (upd t (COnce i) l) b h)
| s_conce : forall s d o lc cs l b h t i c, nth_error l t = Some (COnce i) -> nth_error cs i = Some c -> c_once c = OFresh ->
    step n afterClose (mkSt s d o lc cs l b h) (mkSt s d o lc (upd i (mkConn (c_open c) ORunning) cs) (upd t (CDoing i) l) b h)
| s_conce_done : forall s d o lc cs l b h t i c, nth_error l t = Some (COnce i) -> nth_error cs i = Some c -> c_once c = ODone ->
    step n afterClose (mkSt s d o lc cs l b h) (mkSt s d o lc cs (upd t Idle l) b h)
| s_cdo : forall s d o lc cs l b h t i c, nth_error l t = Some (CDoing i) -> nth_error cs i = Some c ->
    step n afterClose (mkSt (S s) d o lc cs l b h) (mkSt s d o lc (upd i (mkConn (c_open c) ODone) cs) (upd t Idle l) b h)
(** Close of the listener, any number of times *)
| s_lclose : forall s d o lc cs l b h t, nth_error l t = Some Idle ->
    step n afterClose (mkSt s d o lc cs l b h) (mkSt s d o lc cs (upd t LClose l) b h)
| s_lshut : forall s d o lc cs l b h t, nth_error l t = Some LClose ->
    step n afterClose (mkSt s d o lc cs l b h) (mkSt s d o true cs (upd t LOnce l) b h)
| s_lonce : forall s d lc cs l b h t, nth_error l t = Some LOnce ->
    step n afterClose (mkSt s d OFresh lc cs l b h) (mkSt s d ORunning lc cs (upd t LDoing l) b h)
| s_lonce_done : forall s d lc cs l b h t, nth_error l t = Some LOnce ->
    step n afterClose (mkSt s d ODone lc cs l b h) (mkSt s d ODone lc cs (upd t Idle l) b h)
| s_ldo : forall s d o lc cs l b h t, nth_error l t = Some LDoing ->
    step n afterClose (mkSt s d o lc cs l b h) (mkSt s true ODone lc cs (upd t Idle l) (b || d) h).

Inductive steps (n : nat) (ac : bool) : st -> st -> Prop :=
| steps_refl : forall s, steps n ac s s
| steps_step : forall s1 s2 s3, steps n ac s1 s2 -> step n ac s2 s3 -> steps n ac s1 s3.

(** newTlsLimitListener (24-30), with [k] goroutines. *)
Definition init (k : nat) : st := mkSt 0 false OFresh false [] (repeat Idle k) false [].

(** handleTLSConnection (srv.go 406-475): what the server does with a connection
    that it got from the listener. The connection ends up closed, served (the
    read and send loops close it later) or just dropped. *)
Inductive fate := Closed | Served | Dropped.
Definition handleTLSConnection (handshakeOk skipVerify keysOk : bool) : fate :=
  if negb handshakeOk then Closed
  else if negb skipVerify && negb keysOk then Dropped
  else Served.
