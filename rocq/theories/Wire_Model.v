(** Model of the plaintext message framing of rpc25519:
    /repo/common.go (newWorkspace, readMessage, sendMessage, readFull,
    writeFull), /repo/magic7.go, /repo/compress.go and the size guard of
    Message.AsGreenpack in /repo/hdr.go.

    Bytes are [N] values (a value >= 256 never appears in a well formed input,
    see [wfb]); byte slices are [list N].  The greenpack serializer and the s2
    compressor are third-party code: they are a record of functions, [codec],
    and every theorem states what it needs from them ([codec_ok]). *)
From Coq Require Import List NArith Arith Lia Bool String.
From Verif Require Import Base.
Import ListNotations.
Open Scope N_scope.

Definition bytes := list N.
Definition lenN (b : bytes) : N := N.of_nat (List.length b).

(** common.go:33-ish [const maxMessage = 1310640]. *)
Definition maxMessage : N := 1310640.

(** magic7.go:23 [var magic], the seven constant bytes. *)
Definition magic7bytes : bytes := [0xb3; 0x5d; 0x18; 0x39; 0xac; 0x8e; 0x1d].

(** encoding/binary BigEndian.PutUint64 / Uint64. *)
Definition putU64 (n : N) : bytes :=
  map (fun k => (n / 256 ^ k) mod 256) [7; 6; 5; 4; 3; 2; 1; 0].
Definition getU64 (b : bytes) : N := fold_left (fun acc x => acc * 256 + x) b 0.

(** ** magic7.go: compression tags *)

(** magic7.go:36-53, the constants. *)
Definition magic7b_none : N := 0.
Definition magic7b_s2 : N := 1.
Definition magic7b_lz4 : N := 2.
Definition magic7b_zstd01 : N := 3.
Definition magic7b_zstd03 : N := 4.
Definition magic7b_zstd07 : N := 5.
Definition magic7b_zstd11 : N := 6.
Definition magic7b_no_system_compression : N := 7.
Definition magic7b_out_of_bounds : N := 8.

(** magic7.go:61-85; [None] is the error return. *)
Definition decodeMagic7 (m : N) : option string :=
  if m =? magic7b_none then Some "compression-none"%string
  else if m =? magic7b_s2 then Some "s2"%string
  else if m =? magic7b_lz4 then Some "lz4"%string
  else if m =? magic7b_zstd01 then Some "zstd:01"%string
  else if m =? magic7b_zstd03 then Some "zstd:03"%string
  else if m =? magic7b_zstd07 then Some "zstd:07"%string
  else if m =? magic7b_zstd11 then Some "zstd:11"%string
  else if m =? magic7b_no_system_compression then Some "no-system-compression"%string
  else None.

(** magic7.go:87-116; [None] is the error return. *)
Definition encodeMagic7 (s : string) : option N :=
  if ((s =? "") || (s =? "compression-none"))%string then Some magic7b_none
  else if (s =? "s2")%string then Some magic7b_s2
  else if (s =? "lz4")%string then Some magic7b_lz4
  else if (s =? "zstd:01")%string then Some magic7b_zstd01
  else if (s =? "zstd:03")%string then Some magic7b_zstd03
  else if (s =? "zstd:07")%string then Some magic7b_zstd07
  else if (s =? "zstd:11")%string then Some magic7b_zstd11
  else if (s =? "no-system-compression")%string then Some magic7b_no_system_compression
  else None.

(** magic7.go:118-127 setMagicCheckWord: [panicOn(err)] on an unknown name. *)
Definition setMagicCheckWord (s : string) : res N :=
  match encodeMagic7 s with Some m => Ok m | None => Panic end.

(** ** Messages and third-party codecs *)

(** hdr.go Message: only the fields the framing code looks at are separate
    (HDR.NoSystemCompression and JobSerz); everything else is [m_rest]. *)
Record msg := mkMsg { m_nosys : bool; m_job : bytes; m_rest : bytes }.

Record codec := mkCodec {
  marshal : msg -> bytes;                 (* Message.MarshalMsg *)
  unmarshal : bytes -> option msg;        (* MessageFromGreenpack, None = error *)
  s2c : bytes -> bytes;                   (* s2.Writer over a whole buffer *)
  s2d : bytes -> option bytes }.          (* s2.Reader, None = corrupt input *)

(** hdr.go:336-344 AsGreenpack: panicf on a too large payload. *)
Definition AsGreenpack (c : codec) (m : msg) : res bytes :=
  if maxMessage - 1024 <? lenN (m_job m) then Panic else Ok (marshal c m).

(** compress.go:166-223 handleCompress: 0 and 7 are the identity, 1 is s2,
    the lz4 and zstd cases are commented out and fall to panic. *)
Definition handleCompress (c : codec) (magic7 : N) (b : bytes) : res bytes :=
  if magic7 =? 0 then Ok b
  else if magic7 =? 1 then Ok (s2c c b)
  else if magic7 =? magic7b_no_system_compression then Ok b
  else Panic.

(** compress.go:225-283 handleDecompress: [panicOn(err)] on malformed s2. *)
Definition handleDecompress (c : codec) (magic7 : N) (b : bytes) : res bytes :=
  if magic7 =? 0 then Ok b
  else if magic7 =? 1 then match s2d c b with Some x => Ok x | None => Panic end
  else if magic7 =? magic7b_no_system_compression then Ok b
  else Panic.

(** ** Connections *)

(** Errors the code distinguishes. *)
Inductive err := ErrEOF | ErrIO | ErrTimeout | ErrMagicWrong | ErrTooLong | ErrDecode | ErrAuth.

(** What the peer's bytes look like to conn.Read: a script of events, each a
    chunk of bytes and an optional error returned with the chunk's last byte.
    A Read with a short buffer takes part of a chunk.  The end of the script is
    io.EOF. *)
Definition rconn := list (bytes * option err).

(** common.go:409-433 readFull. Returns the bytes read so far, the error and
    the connection afterwards. *)
Fixpoint readFull (conn : rconn) (need : nat) (got : bytes) : (bytes * option err) * rconn :=
  match need with
  | O => ((got, None), conn)
  | _ =>
    match conn with
    | [] => ((got, Some ErrEOF), [])
    | (chunk, e) :: rest =>
        if Nat.ltb (List.length chunk) need then
          match e with
          | Some x => ((got ++ chunk, Some x), rest)
          | None => readFull rest (need - List.length chunk) (got ++ chunk)
          end
        else if Nat.eqb (List.length chunk) need then ((got ++ chunk, None), rest)
        else ((got ++ firstn need chunk, None), (skipn need chunk, e) :: rest)
    end
  end.

(** conn.Write results: how many bytes the kernel took, and the error. *)
Definition wconn := list (nat * option err).

Inductive wres :=
| WDone                 (* nil *)
| WErr (e : err)
| WBlocked.             (* script exhausted: the call has not returned yet *)

(** common.go:436-508 writeFull; [buf] is [buf[total:]], [started] is
    [total > 0]. Returns the result, the bytes put on the wire and the rest of
    the script. *)
Fixpoint writeLoop (conn : wconn) (buf : bytes) (started haveDeadline deadlineHit : bool)
  : wres * bytes * wconn :=
  match buf with
  | [] => (WDone, [], conn)
  | _ =>
    match conn with
    | [] => (WBlocked, [], [])
    | (n, e) :: rest =>
        let out := firstn n buf in
        let buf' := skipn n buf in
        let started' := started || Nat.ltb 0 n in
        match buf' with
        | [] => (WDone, out, rest)
        | _ =>
          match e with
          | Some x =>
              if haveDeadline && started' && negb deadlineHit &&
                 match x with ErrTimeout => true | _ => false end
              then let '(r, out2, c2) := writeLoop rest buf' started' haveDeadline true in
                   (r, out ++ out2, c2)
              else (WErr x, out, rest)
          | None => let '(r, out2, c2) := writeLoop rest buf' started' haveDeadline deadlineHit in
                    (r, out ++ out2, c2)
          end
        end
    end
  end.

Definition writeFull (conn : wconn) (buf : bytes) (haveDeadline : bool) : wres * bytes * wconn :=
  writeLoop conn buf false haveDeadline false.

(** ** The workspace *)

(** cli.go Config: the two fields that matter here. *)
Record config := mkCfg { CompressionOff : bool; CompressAlgo : string }.

(** common.go:60-111 workspace (buffers omitted: they are overwritten on every
    call). [w_decomp] says whether w.decomp is non-nil. *)
Record workspace := mkWs {
  w_compress : bool;
  w_decomp : bool;
  w_default : N;       (* defaultMagic7 *)
  w_server : bool }.

(** common.go:128-195 newWorkspace; second component: the new value of
    spair/cpair.lastReadMagic7. *)
Definition newWorkspace (cfg : config) (isServer : bool) (last : N) : res (workspace * N) :=
  if negb (CompressionOff cfg) then
    do m <- setMagicCheckWord (CompressAlgo cfg) ;
    Ok (mkWs true true m isServer, m)
  else
    do m <- setMagicCheckWord "" ;
    if negb (m =? magic7b_none) then Panic
    else Ok (mkWs false false m isServer, last).

(** chacha.go:142-277 newBlabber, the part that concerns the plaintext path:
    an enc workspace (used by sendMessage), a dec workspace (used by
    readMessage) and the shared lastReadMagic7. *)
Definition newPlainEndpoint (cfg : config) (isServer : bool) : res (workspace * workspace * N) :=
  do (we, l1) <- newWorkspace cfg isServer 0 ;
  do m <- setMagicCheckWord (CompressAlgo cfg) ;
  do (wd, l3) <- newWorkspace cfg isServer m ;
  Ok (we, wd, l3).

(** common.go:323-386 sendMessage, up to the writes: which tag and which body
    go on the wire. *)
Definition frameOf (c : codec) (w : workspace) (last : N) (m : msg) : res (N * bytes) :=
  do by0 <- AsGreenpack c m ;
  if w_compress w then
    if m_nosys m then Ok (magic7b_no_system_compression, by0)
    else
      let magic7 := if w_server w
                    then (if magic7b_out_of_bounds <=? last then w_default w else last)
                    else w_default w in
      do by1 <- handleCompress c magic7 by0 ;
      Ok (magic7, by1)
  else Ok (magic7b_none, by0).

(** common.go:370-385: three writeFull calls, stopping at the first error. *)
Definition write3 (conn : wconn) (a b d : bytes) (dl : bool) : wres * bytes * wconn :=
  let '(r1, o1, c1) := writeFull conn a dl in
  match r1 with
  | WDone =>
      let '(r2, o2, c2) := writeFull c1 b dl in
      match r2 with
      | WDone => let '(r3, o3, c3) := writeFull c2 d dl in (r3, o1 ++ o2 ++ o3, c3)
      | _ => (r2, o1 ++ o2, c2)
      end
  | _ => (r1, o1, c1)
  end.

Definition sendMessage (c : codec) (w : workspace) (last : N) (m : msg) (conn : wconn) (dl : bool)
  : res (wres * bytes * wconn) :=
  do (tag, body) <- frameOf c w last m ;
  Ok (write3 conn (magic7bytes ++ [tag]) (putU64 (lenN body)) body dl).

Inductive rres := RMsg (m : msg) | RErr (e : err).

Definition bytes_eqb (a b : bytes) : bool := if list_eq_dec N.eq_dec a b then true else false.

(** common.go:199-319 readMessage. State: the workspace, lastReadMagic7 and the
    connection. *)
Definition readMessage (c : codec) (w : workspace) (last : N) (conn : rconn)
  : res (rres * workspace * N * rconn) :=
  let '((mc, e), conn1) := readFull conn 8 [] in
  match e with Some x => Ok (RErr x, w, last, conn1) | None =>
  if negb (bytes_eqb (firstn 7 mc) magic7bytes) then Ok (RErr ErrMagicWrong, w, last, conn1) else
  let magic7 := nth 7 mc 0 in
  let last1 := if negb (magic7 =? magic7b_no_system_compression) then magic7 else last in
  let '((lb, e), conn2) := readFull conn1 8 [] in
  match e with Some x => Ok (RErr x, w, last1, conn2) | None =>
  let messageLen := getU64 lb in
  if maxMessage <? messageLen then Ok (RErr ErrTooLong, w, last1, conn2) else
  let '((body, e), conn3) := readFull conn2 (N.to_nat messageLen) [] in
  match e with Some x => Ok (RErr x, w, last1, conn3) | None =>
  do (msgb, w1, last2) <-
    (if negb (w_decomp w) then
       if negb (magic7 =? magic7b_none) then
         match decodeMagic7 magic7 with
         | None => Panic                          (* panicOn(err) *)
         | Some _ =>
             do mb <- handleDecompress c magic7 body ;
             Ok (mb, mkWs (w_compress w) true magic7 (w_server w), magic7)
         end
       else Ok (body, w, last1)
     else
       do mb <- handleDecompress c magic7 body ; Ok (mb, w, last1)) ;
  match unmarshal c msgb with
  | Some m => Ok (RMsg m, w1, last2, conn3)
  | None => Ok (RErr ErrDecode, w1, last2, conn3)
  end end end end.

(** srv.go:619-700 / cli.go:387-430: the read loop calls readMessage until the
    first error; [fuel] bounds the number of calls made. *)
Fixpoint readLoop (c : codec) (fuel : nat) (w : workspace) (last : N) (conn : rconn)
  : res (list msg * workspace * N * rconn * option err) :=
  match fuel with
  | O => Ok ([], w, last, conn, None)
  | S f =>
      do (r, w1, l1, conn1) <- readMessage c w last conn ;
      match r with
      | RErr e => Ok ([], w1, l1, conn1, Some e)
      | RMsg m => do (ms, w2, l2, conn2, e) <- readLoop c f w1 l1 conn1 ;
                  Ok (m :: ms, w2, l2, conn2, e)
      end
  end.

(** ** Concurrent senders on one server connection.

    Every sendMessage call takes its workspace's mutex (common.go:324 wmut),
    performs its conn.Write calls and releases it.  The server builds one
    blabber, hence one mutex, for the send loop (srv.go:506, used for pings and
    for peer/circuit messages) and another for the read loop (srv.go:649, handed
    to jobs at srv.go:819 and used for replies at srv.go:1281, 1663, 3097,
    3112), both writing to the same conn. *)
Inductive phase := Idle | Holding | Finished.
Record sender := mkSender { sn_mutex : nat; sn_parts : list bytes; sn_phase : phase }.
Record wsys := mkSys { ws_senders : list sender; ws_held : list nat; ws_wire : bytes }.

Fixpoint setNth {A} (l : list A) (i : nat) (x : A) : list A :=
  match l, i with
  | [], _ => []
  | _ :: t, O => x :: t
  | h :: t, S j => h :: setNth t j x
  end.

(** One scheduling step of sender [i]: lock, one conn.Write, or unlock. *)
Definition wstep (s : wsys) (i : nat) : wsys :=
  match nth_error (ws_senders s) i with
  | None => s
  | Some t =>
      match sn_phase t with
      | Finished => s
      | Idle =>
          if existsb (Nat.eqb (sn_mutex t)) (ws_held s) then s
          else mkSys (setNth (ws_senders s) i (mkSender (sn_mutex t) (sn_parts t) Holding))
                     (sn_mutex t :: ws_held s) (ws_wire s)
      | Holding =>
          match sn_parts t with
          | p :: ps => mkSys (setNth (ws_senders s) i (mkSender (sn_mutex t) ps Holding))
                             (ws_held s) (ws_wire s ++ p)
          | [] => mkSys (setNth (ws_senders s) i (mkSender (sn_mutex t) [] Finished))
                        (List.remove Nat.eq_dec (sn_mutex t) (ws_held s)) (ws_wire s)
          end
      end
  end.

Definition wrun (s : wsys) (sched : list nat) : wsys := fold_left wstep sched s.

(** All senders ready to start: (mutex, conn.Write arguments). *)
Definition winit (ws : list (nat * list bytes)) : wsys :=
  mkSys (map (fun p => mkSender (fst p) (snd p) Idle) ws) [] [].

(** common.go:370-385: the conn.Write arguments of one sendMessage when no
    write is short. *)
Definition sendParts (tag : N) (body : bytes) : list bytes :=
  [magic7bytes ++ [tag]; putU64 (lenN body); body].

(** ** A server connection over time (C04).  Events: reading a client frame,
    and sending a message.  The outputs are the frames sent. *)
Inductive srvEvent :=
| SRecv (conn : rconn)      (* the read loop calls readMessage *)
| SSend (m : msg)           (* some goroutine calls sendMessage *)
| SNewBlabber.              (* the other loop's newBlabber runs (srv.go:506 / 649) *)

(** State: enc workspace, dec workspace, spair.lastReadMagic7. The result of a
    send is the (tag, body) pair of its frame. *)
Fixpoint srvRun (c : codec) (cfg : config) (we wd : workspace) (last : N) (evs : list srvEvent)
  : res (list (N * bytes)) :=
  match evs with
  | [] => Ok []
  | SRecv conn :: es =>
      do (r, wd', last', conn') <- readMessage c wd last conn ;
      match r with
      | RMsg _ => srvRun c cfg we wd' last' es
      | RErr _ => Ok []                       (* the read loop ends *)
      end
  | SSend m :: es =>
      do f <- frameOf c we last m ;
      do fs <- srvRun c cfg we wd last es ;
      Ok (f :: fs)
  | SNewBlabber :: es =>
      do (w1, w2, last') <- newPlainEndpoint cfg true ;
      srvRun c cfg we wd last' es
  end.
