(** Model of the encrypted message path: /repo/chacha.go (newBlabber, encoder,
    decoder, nonce handling) and the PACT tag transform of /repo/symmetric.go.

    The AEAD (Ascon-128a from circl) and the PACT tag block cipher are
    third-party: a record [aead] of functions for one fixed session key; the
    theorems state what they need ([aead_ok]).  Sizes are those of the cipher
    newBlabber selects: 16-byte nonce, 16-byte tag. *)
From Coq Require Import List NArith Arith Lia Bool String.
From Verif Require Import Base Wire_Model.
Import ListNotations.
Open Scope N_scope.

(** ascon.Ascon128a: NonceSize() = 16, Overhead() = 16. *)
Definition noncesize : nat := 16.
Definition overhead : nat := 16.

Record aead := mkAead {
  seal : bytes -> bytes -> bytes -> bytes;               (* nonce, assocData, plaintext *)
  aopen : bytes -> bytes -> bytes -> option bytes;       (* nonce, assocData, ciphertext *)
  tagEnc : bytes -> bytes -> bytes -> bytes;             (* assocData, nonce, tag: pactEncryptTag *)
  tagDec : bytes -> bytes -> bytes -> bytes }.           (* symmetric.go:1139-1158 *)

(** chacha.go:312-322 incrementNonce: little endian, silent wrap-around. *)
Fixpoint incrementNonce (nonce : bytes) : bytes :=
  match nonce with
  | [] => []
  | b :: r => let b' := (b + 1) mod 256 in
              if negb (b' =? 0) then b' :: r else b' :: incrementNonce r
  end.

(** chacha.go:190-206: last byte [&= 63], then [|= 127] on the server. *)
Definition initNonce (random : bytes) (isServer : bool) : bytes :=
  let last := N.land (nth (noncesize - 1) random 0) 63 in
  firstn (noncesize - 1) random ++ [if isServer then N.lor last 127 else last].

(** chacha.go:88-112 encoder. [e_buf] is work.buf from offset 16+noncesize on,
    [None] when work.buf is nil (CompressionOff). *)
Record encoder := mkEnc {
  e_nonce : bytes;
  e_compress : bool;
  e_magic7 : N;
  e_server : bool;
  e_buf : option bytes }.

(** chacha.go:117-133 decoder. [d_decomp]: decomp is non-nil. *)
Record decoder := mkDec {
  d_magicCheck : bytes;
  d_decomp : bool;
  d_server : bool }.

(** cap(buf2) - (16+noncesize) where cap(buf2) = maxMessage+80. *)
Definition bufRoom : N := maxMessage + 80 - 16 - 16.

(** make([]byte, maxMessage+80), from offset 16+noncesize on. *)
Definition zeroBuf : bytes := repeat 0 (N.to_nat bufRoom).

(** chacha.go:142-287 newBlabber (encrypted part), with the new value of
    lastReadMagic7. newWorkspace is called for enc and dec as well and can panic
    on an unknown algorithm. *)
Definition newBlabber (cfg : config) (isServer : bool) (random : bytes)
  : res (encoder * decoder * N) :=
  do (_, _) <- newWorkspace cfg isServer 0 ;
  do m <- setMagicCheckWord (CompressAlgo cfg) ;
  do (_, last) <- newWorkspace cfg isServer m ;
  Ok (mkEnc (initNonce random isServer) (negb (CompressionOff cfg)) m isServer
        (if CompressionOff cfg then None else Some zeroBuf),
      mkDec (repeat 0 8) (negb (CompressionOff cfg)) isServer,
      last).

(** What sendMessage did before writing. *)
Inductive encRes :=
| EErr (e : err)
| EFrame (frame : bytes).

(** chacha.go:409-433: the tag, the body and the buffer contents after the
    optional compression.  Only the compression branch copies the body into
    the buffer. *)
Definition encSelect (c : codec) (e : encoder) (last : N) (m : msg) (by0 buf3 : bytes)
  : res (N * bytes * bytes) :=
  if m_nosys m then Ok (magic7b_no_system_compression, by0, buf3)
  else if e_compress e then
    let magic7 := if e_server e
                  then (if magic7b_out_of_bounds <=? last then e_magic7 e else last)
                  else e_magic7 e in
    do by1 <- handleCompress c magic7 by0 ;
    Ok (magic7, by1, firstn (N.to_nat bufRoom) by1 ++ skipn (List.length by1) buf3)
  else Ok (magic7b_none, by0, buf3).

(** A later call sees this call's buffer only when work.buf is allocated. *)
Definition keepBuf (e : encoder) (b : bytes) : option bytes :=
  match e_buf e with Some _ => Some b | None => None end.

(** chacha.go:435-523: the tag check, layout, Seal, PACT and nonce update. *)
Definition encFinish (a : aead) (e : encoder) (tag : N) (by1 buf4 : bytes) : res (encRes * encoder) :=
  if negb (e_magic7 e =? tag) then Panic     (* "encoder.defaultMagicCheck7 should have been set in init!" *)
  else
  let sz := N.of_nat noncesize + 8 + lenN by1 + N.of_nat overhead in
  if maxMessage + 80 <? sz + 8 then Panic    (* buf2[:tagEndx] beyond its capacity *)
  else
  let lenb := putU64 sz in
  let plain := (magic7bytes ++ [tag]) ++ firstn (List.length by1) buf4 in
  let sealed := seal a (e_nonce e) lenb plain in
  let cut := (List.length sealed - overhead)%nat in
  let out := firstn cut sealed ++ tagEnc a lenb (e_nonce e) (skipn cut sealed) in
  (* Seal works in place: the ciphertext is left in buf2 *)
  let buf5 := skipn 8 out ++ skipn (List.length out - 8) buf4 in
  Ok (EFrame (lenb ++ e_nonce e ++ out),
      mkEnc (incrementNonce (e_nonce e)) (e_compress e) (e_magic7 e) (e_server e) (keepBuf e buf5)).

(** chacha.go:364-527 encoder.sendMessage up to the write.

    [msgsize] is Message.Msgsize(): MarshalMsg (hdr_gen.go:1455) calls
    msgp.Require first, which gives up the buffer and allocates when the
    estimate exceeds its capacity; then the serialized bytes are not in buf2. *)
Definition encSend (c : codec) (a : aead) (msgsize : msg -> N) (e : encoder) (last : N) (m : msg)
  : res (encRes * encoder) :=
  let buf2 := match e_buf e with Some b => b | None => zeroBuf end in
  do by0 <- AsGreenpack c m ;
  (* the tail of buf2 after MarshalMsg *)
  let buf3 := if msgsize m <=? bufRoom then by0 ++ skipn (List.length by0) buf2 else buf2 in
  if maxMessage <? lenN by0 then
    Ok (EErr ErrTooLong, mkEnc (e_nonce e) (e_compress e) (e_magic7 e) (e_server e) (keepBuf e buf3))
  else
  do (tag, by1, buf4) <- encSelect c e last m by0 buf3 ;
  encFinish a e tag by1 buf4.

(** chacha.go:532-637 decoder.readMessage. *)
Definition decRead (c : codec) (a : aead) (d : decoder) (last : N) (conn : rconn)
  : res (rres * decoder * N * rconn) :=
  let '((lb, e), conn1) := readFull conn 8 [] in
  match e with Some x => Ok (RErr x, d, last, conn1) | None =>
  let messageLen := getU64 lb in
  if maxMessage <? messageLen then Ok (RErr ErrTooLong, d, last, conn1) else
  let '((encrypted, e), conn2) := readFull conn1 (N.to_nat messageLen) [] in
  match e with Some x => Ok (RErr x, d, last, conn2) | None =>
  (* encrypted[:noncesize] is within the capacity of buf and never panics;
     encrypted[len-overhead:] does when len < overhead. *)
  if Nat.ltb (List.length encrypted) overhead then Panic else
  let nonce0 := firstn noncesize encrypted in
  let cut := (List.length encrypted - overhead)%nat in
  (* pactDecryptTag rewrites the tag in place *)
  let encrypted' := firstn cut encrypted ++ tagDec a lb nonce0 (skipn cut encrypted) in
  match aopen a (firstn noncesize encrypted') lb (skipn noncesize encrypted') with
  | None => Ok (RErr ErrAuth, d, last, conn2)
  | Some message =>
      (* copy(d.magicCheck, message): short messages leave old bytes *)
      let mc := firstn 8 (message ++ skipn (List.length message) (d_magicCheck d)) in
      let d1 := mkDec mc (d_decomp d) (d_server d) in
      let magic7 := nth 7 mc 0 in
      if negb (bytes_eqb (firstn 7 mc) magic7bytes) then Ok (RErr ErrMagicWrong, d1, last, conn2) else
      let last1 := if negb (magic7 =? magic7b_no_system_compression) then magic7 else last in
      if Nat.ltb (List.length message) 8 then Panic else
      let body := skipn 8 message in
      (* d.decomp == nil: the method reads decomp.de_s2 only for magic7 = 1 *)
      do mb <- (if negb (d_decomp d) && (magic7 =? 1) then Panic else handleDecompress c magic7 body) ;
      match unmarshal c mb with
      | Some m => Ok (RMsg m, d1, last1, conn2)
      | None => Ok (RErr ErrDecode, d1, last1, conn2)
      end
  end end end.

(** The read loop over an encrypted connection. *)
Fixpoint decLoop (c : codec) (a : aead) (fuel : nat) (d : decoder) (last : N) (conn : rconn)
  : res (list msg * decoder * N * rconn * option err) :=
  match fuel with
  | O => Ok ([], d, last, conn, None)
  | S f =>
      do (r, d1, l1, conn1) <- decRead c a d last conn ;
      match r with
      | RErr e => Ok ([], d1, l1, conn1, Some e)
      | RMsg m => do (ms, d2, l2, conn2, e) <- decLoop c a f d1 l1 conn1 ;
                  Ok (m :: ms, d2, l2, conn2, e)
      end
  end.

(** Successive sendMessage calls on one encoder; [last] is lastReadMagic7 at
    each call. Results in order. *)
Fixpoint encRun (c : codec) (a : aead) (msgsize : msg -> N) (e : encoder) (calls : list (N * msg))
  : res (list encRes * encoder) :=
  match calls with
  | [] => Ok ([], e)
  | (last, m) :: cs =>
      do (r, e1) <- encSend c a msgsize e last m ;
      do (rs, e2) <- encRun c a msgsize e1 cs ;
      Ok (r :: rs, e2)
  end.
