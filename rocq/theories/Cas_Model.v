(** Model of the content-addressed store, /repo/jsync/cas.go.

    The store keeps blobs under their Blake3 hash.  On disk there are two
    files: the data file, a sequence of records (a 64-byte header and the
    compressed blob), and the index file, the same headers without the blobs.
    In memory there are an index of every blob and a cache of at most
    MaxMemBlob of them.

    Bytes are integers.  The hash, the compressor and the size of the work
    buffer are parameters.  Methods run in the steps their locks allow: Append
    holds the mutex throughout and does one blob a step, a Get looks in the
    two concurrent maps without the mutex and, if it must read the file,
    waits for the mutex.  The process may be killed at any byte of any write. *)
From Coq Require Import List ZArith Bool Lia Arith.
Import ListNotations.
Open Scope Z_scope.

Definition bytes := list Z.
Definition key := list Z.

(** [beq]: equality of Go strings. *)
Fixpoint beq (a b : bytes) : bool :=
  match a, b with
  | [], [] => true
  | x :: a', y :: b' => Z.eqb x y && beq a' b'
  | _, _ => false
  end.

(** [wrap32]: conversion of an int to int32 (Go wraps), used at cas.go 481,
    484 and 424. *)
Definition wrap32 (z : Z) : Z := (z + 2147483648) mod 4294967296 - 2147483648.

(** [from32]: fromInt32, cas.go 764-769. *)
Definition from32 (i : Z) : bytes :=
  [ (i / 16777216) mod 256; (i / 65536) mod 256; (i / 256) mod 256; i mod 256 ].

(** [to32]: toInt32, cas.go 754-757. *)
Definition to32 (b : bytes) : Z :=
  match b with
  | b0 :: b1 :: b2 :: b3 :: _ => wrap32 (b0 * 16777216 + b1 * 65536 + b2 * 256 + b3)
  | _ => 0
  end.

(** [entry]: CASIndexEntry, cas.go 621-645. *)
Record entry := Ent { eKey : key; eBeg : Z; eClen : Z; eUlen : Z }.

(** [entEq]: CASIndexEntry.Equal, cas.go 647-661. *)
Definition entEq (a b : entry) : bool :=
  beq (eKey a) (eKey b) && (eBeg a =? eBeg b) && (eClen a =? eClen b)
  && (eUlen a =? eUlen b).

(** [header]: ManualMarshalMsg, cas.go 690-705.  The key has 55 bytes. *)
Definition header (e : entry) : bytes :=
  10 :: firstn 55 (eKey e) ++ from32 (eClen e) ++ from32 (eUlen e).

(** [unheader]: ManualUnmarshalMsg, cas.go 711-717, with the Beg its callers
    then set. *)
Definition unheader (beg : Z) (b : bytes) : entry :=
  Ent (firstn 55 (skipn 1 b)) beg (to32 (skipn 56 b)) (to32 (skipn 60 b)).

(** [cas]: CASIndex, cas.go 37-75: the index and the cache, memkeys (whose
    length is nMemBlob), maxMemBlob, the part of workbuf that holds index
    entries not yet written, the Append that holds the mutex (its batch, the
    blobs it has still to do, and its newCount), and the Gets that wait for
    the mutex. *)
Record cas := Cas {
  cIdx : list entry;
  cMem : list (key * bytes);
  cKeys : list key;
  cMax : nat;
  cBuf : bytes;
  cJob : option (list bytes * list bytes * nat);
  cWait : list (nat * entry)
}.

(** [findIdx]: index.Load. *)
Definition findIdx (k : key) (l : list entry) : option entry :=
  find (fun e => beq k (eKey e)) l.

(** [findMem]: mapData.Load. *)
Definition findMem (k : key) (l : list (key * bytes)) : option bytes :=
  option_map snd (find (fun p => beq k (fst p)) l).

(** [delMem]: the deletion in mapData.LoadAndDelete. *)
Definition delMem (k : key) (l : list (key * bytes)) : list (key * bytes) :=
  filter (fun p => negb (beq k (fst p))) l.

(** [putNth]: memkeys[i] = k. *)
Fixpoint putNth (i : nat) (k : key) (l : list key) : list key :=
  match l, i with
  | [], _ => []
  | _ :: r, O => k :: r
  | x :: r, S i' => x :: putNth i' k r
  end.

(** [addMem]: addToMapData, cas.go 563-617; [pick] is the random number.
    The check for a blob that is already there is inside an "if false".
    [None] is the panic "logic error". *)
Definition addMem (pick : nat) (k : key) (d : bytes) (s : cas) : option cas :=
  if Nat.eqb (cMax s) 0 then Some s
  else
    let mem := match findMem k (cMem s) with
               | Some _ => cMem s
               | None => (k, d) :: cMem s
               end in
    if Nat.eqb (length (cKeys s)) (cMax s) then
      let i := Nat.modulo pick (length (cKeys s)) in
      let victim := nth i (cKeys s) [] in
      match findMem victim mem with
      | None => None
      | Some _ => Some (Cas (cIdx s) (delMem victim mem) (putNth i k (cKeys s)) (cMax s)
                            (cBuf s) (cJob s) (cWait s))
      end
    else Some (Cas (cIdx s) mem (cKeys s ++ [k]) (cMax s) (cBuf s) (cJob s) (cWait s)).

(** One write to a file: the data file or the index file. *)
Inductive wr := WD (b : bytes) | WI (b : bytes).

(** What the users of the store and its operator see, in order. *)
Inductive obs :=
| OApp (b : list bytes)                       (* Append called *)
| ODone (b : list bytes) (n : nat)            (* Append returned n *)
| OAsk (g : nat) (k : key)                    (* goroutine g called Get *)
| OGot (g : nat) (k : key) (r : option bytes) (* it returned *)
| ODead                                       (* panic *)
| OKill                                       (* the process was killed, or closed the store *)
| OOpen.                                      (* NewCASIndex returned *)

(** The outcome of a step: the store after it ([None]: the process panicked),
    its writes, and what was seen. *)
Inductive res := Res (s : option cas) (ws : list wr) (o : list obs).

(** [world]: the two files, the running process if there is one, and all that
    was seen. *)
Record world := World {
  wData : bytes; wIndex : bytes; wUp : option cas; wLog : list obs
}.

Definition doWrite (f : bytes * bytes) (w : wr) : bytes * bytes :=
  match w with
  | WD b => (fst f ++ b, snd f)
  | WI b => (fst f, snd f ++ b)
  end.

Definition cutWrite (m : nat) (w : wr) : wr :=
  match w with WD b => WD (firstn m b) | WI b => WI (firstn m b) end.

(** [cutWrites]: the first [j] writes, and [m] bytes of the next. *)
Definition cutWrites (j m : nat) (ws : list wr) : list wr :=
  firstn j ws ++ map (cutWrite m) (firstn 1 (skipn j ws)).

(** What may happen next. *)
Inductive ev :=
| EApp (b : list bytes)      (* Append is called and gets the mutex *)
| EStep (pick : nat)         (* it does its next blob, or returns *)
| EGet (g : nat) (k : key)   (* Get is called and looks in the maps *)
| EDisk (g : nat) (pick : nat) (* a waiting Get gets the mutex *)
| EKill (pick j m : nat)     (* the process dies in the writes of its next step *)
| EOpen (max : nat) (vf : bool) (picks : nat -> nat). (* NewCASIndex *)

Section Cas.

(** [H]: the hash, Blake3.SumString of /repo/hash/blake3.go 48-53.
    [enc], [dec]: s2.Encode and s2.Decode.  [W]: len(workbuf), 1<<20 at
    cas.go 104. *)
Variable H : bytes -> key.
Variable enc : bytes -> bytes.
Variable dec : bytes -> option bytes.
Variable W : nat.

(** [appStep]: one turn of the loop of Append, or its end, cas.go 441-560.
    Seeks and syncs are left out: [data] is the data file, whose end is where
    beg is. *)
Definition appStep (data : bytes) (pick : nat) (s : cas) : res :=
  match cJob s with
  | None => Res (Some s) [] []
  | Some (b, [], n) =>
      Res (Some (Cas (cIdx s) (cMem s) (cKeys s) (cMax s) [] None (cWait s)))
          (match cBuf s with [] => [] | _ => [WI (cBuf s)] end)
          [ODone b n]
  | Some (b, by_ :: r, n) =>
      match by_ with
      | [] => Res None [] [ODead]
      | _ =>
        let k := H by_ in
        let inData := match findMem k (cMem s) with Some _ => true | None => false end in
        let inIdx := match findIdx k (cIdx s) with Some _ => true | None => false end in
        if negb (Bool.eqb inIdx inData) then Res None [] [ODead]
        else if inData then
          Res (Some (Cas (cIdx s) (cMem s) (cKeys s) (cMax s) (cBuf s) (Some (b, r, n)) (cWait s)))
              [] []
        else
          let s2by := enc by_ in
          let e := Ent k (Z.of_nat (length data))
                       (wrap32 (wrap32 (Z.of_nat (length s2by)) + 64))
                       (wrap32 (Z.of_nat (length by_))) in
          match addMem pick k by_ s with
          | None => Res None [] [ODead]
          | Some s1 =>
              let full := Nat.ltb (W - length (cBuf s1)) 64 in
              let ws := if full then [WI (cBuf s1)] else [] in
              let buf := if full then [] else cBuf s1 in
              Res (Some (Cas (cIdx s1 ++ [e]) (cMem s1) (cKeys s1) (cMax s1)
                             (buf ++ header e) (Some (b, r, S n)) (cWait s1)))
                  (ws ++ [WD (header e); WD s2by]) []
          end
      end
  end.

(** [getStep]: Get up to the mutex, cas.go 374-393. *)
Definition getStep (g : nat) (k : key) (s : cas) : res :=
  match findIdx k (cIdx s) with
  | None => Res (Some s) [] [OAsk g k; OGot g k None]
  | Some e =>
      match findMem k (cMem s) with
      | Some d => Res (Some s) [] [OAsk g k; OGot g k (Some d)]
      | None => Res (Some (Cas (cIdx s) (cMem s) (cKeys s) (cMax s) (cBuf s) (cJob s)
                               ((g, e) :: cWait s))) [] [OAsk g k]
      end
  end.

(** [readAt]: Seek and ReadFull of [workbuf[:sz]], cas.go 397-415: [None] is a
    panic (a negative offset, too few bytes to make a record, more than the
    work buffer holds, or the end of the file). *)
Definition readAt (data : bytes) (beg sz : Z) : option bytes :=
  if (beg <? 0) || (sz <=? 64) || (Z.of_nat W <? sz) then None
  else
    let b := firstn (Z.to_nat sz) (skipn (Z.to_nat beg) data) in
    if Nat.ltb (length b) (Z.to_nat sz) then None else Some b.

(** [diskStep]: Get with the mutex, cas.go 394-439.  The error for a header
    that differs from the index is assigned and then overwritten, so the
    comparison has no effect. *)
Definition diskStep (data : bytes) (g pick : nat) (s : cas) : res :=
  match cJob s, find (fun p => Nat.eqb g (fst p)) (cWait s) with
  | None, Some (_, e) =>
      match readAt data (eBeg e) (eClen e) with
      | None => Res None [] [ODead]
      | Some b =>
          match dec (skipn 64 b) with
          | None => Res None [] [ODead]
          | Some d =>
              if negb (eUlen e =? wrap32 (Z.of_nat (length d))) then Res None [] [ODead]
              else
                match addMem pick (eKey e) d s with
                | None => Res None [] [ODead]
                | Some s1 =>
                    Res (Some (Cas (cIdx s1) (cMem s1) (cKeys s1) (cMax s1) (cBuf s1) (cJob s1)
                                   (filter (fun p => negb (Nat.eqb g (fst p))) (cWait s1))))
                        [] [OGot g (eKey e) (Some d)]
                end
          end
      end
  | _, _ => Res (Some s) [] []
  end.

(** [loadIdx]: the loop of loadIndex over its [n] entries, cas.go 209-230.
    The reads of 1 MB at a time are left out: the buffer holds a whole number
    of entries. *)
Fixpoint loadIdx (n : nat) (beg : Z) (b : bytes) (acc : list entry) : option (list entry) :=
  match n with
  | O => Some acc
  | S n' =>
      let e := unheader beg b in
      match findIdx (eKey e) acc with
      | Some _ => None
      | None => loadIdx n' (beg + eClen e) (skipn 64 b) (acc ++ [e])
      end
  end.

(** [loadIndex]: cas.go 152-238; [None] is a panic: a size that is not a
    multiple of 64, or an entry that occurs twice. *)
Definition loadIndex (max : nat) (index : bytes) : option cas :=
  if negb (Nat.eqb (Nat.modulo (length index) 64) 0) then None
  else
    match loadIdx (Nat.div (length index) 64) 0 index [] with
    | None => None
    | Some es => Some (Cas es [] [] max [] None [])
    end.

(** [verify]: the loop of verifyDataAgainstIndex, cas.go 268-371, over the
    rest [b] of the data file.  What goes in the cache is the data of the
    record as it is on disk (cas.go 360).  Left out: the reads of 1 MB at a
    time (a record of more than that makes the loop run for ever). *)
Fixpoint verify (fuel : nat) (picks : nat -> nat) (beg : Z) (b : bytes) (found : nat) (s : cas)
  : option (cas * nat) :=
  match fuel with
  | O => None
  | S fuel' =>
      if Nat.leb (length b) 64 then Some (s, found)
      else
        let e := unheader beg b in
        let sz := eClen e - 64 in
        if (sz <? 0) || (Z.of_nat (length b) <? 64 + sz) then None
        else
          let d := firstn (Z.to_nat sz) (skipn 64 b) in
          match findIdx (eKey e) (cIdx s) with
          | None => None
          | Some first =>
              if negb (entEq e first) then None
              else
                match addMem (picks found) (eKey e) d s with
                | None => None
                | Some s1 =>
                    verify fuel' picks (beg + eClen e) (skipn (64 + Z.to_nat sz) b) (S found) s1
                end
          end
  end.

(** [verifyData]: verifyDataAgainstIndex, cas.go 244-372. *)
Definition verifyData (picks : nat -> nat) (data index : bytes) (s : cas) : option cas :=
  if negb (Nat.eqb (length data) 0) && Nat.ltb (length data) 64 then None
  else
    match verify (S (length data)) picks 0 data 0 s with
    | None => None
    | Some (s', found) =>
        if Nat.eqb (Nat.div (length index) 64) found then Some s' else None
    end.

(** [openStep]: NewCASIndex, cas.go 91-149. *)
Definition openStep (max : nat) (vf : bool) (picks : nat -> nat) (data index : bytes) : res :=
  match loadIndex max index with
  | None => Res None [] [ODead]
  | Some s =>
      if vf then
        match verifyData picks data index s with
        | None => Res None [] [ODead]
        | Some s' => Res (Some s') [] [OOpen]
        end
      else Res (Some s) [] [OOpen]
  end.

Definition apply_res (w : world) (r : res) : world :=
  match r with
  | Res s ws o =>
      let f := fold_left doWrite ws (wData w, wIndex w) in
      World (fst f) (snd f) s (wLog w ++ o)
  end.

(** [step]: one event.  An event that cannot happen changes nothing: a second
    Append waits for the mutex, a goroutine has one Get at a time, a process that runs is not opened again. *)
Definition step (w : world) (e : ev) : world :=
  match e, wUp w with
  | EApp b, Some s =>
      match cJob s with
      | Some _ => w
      | None =>
          World (wData w) (wIndex w)
                (Some (Cas (cIdx s) (cMem s) (cKeys s) (cMax s) (cBuf s) (Some (b, b, O)) (cWait s)))
                (wLog w ++ [OApp b])
      end
  | EStep pick, Some s => apply_res w (appStep (wData w) pick s)
  | EGet g k, Some s =>
      if existsb (fun p => Nat.eqb g (fst p)) (cWait s) then w else apply_res w (getStep g k s)
  | EDisk g pick, Some s => apply_res w (diskStep (wData w) g pick s)
  | EKill pick j m, Some s =>
      match appStep (wData w) pick s with
      | Res _ ws _ => apply_res w (Res None (cutWrites j m ws) [OKill])
      end
  | EOpen max vf picks, None => apply_res w (openStep max vf picks (wData w) (wIndex w))
  | _, _ => w
  end.

Fixpoint run (w : world) (es : list ev) : world :=
  match es with
  | [] => w
  | e :: r => run (step w e) r
  end.

End Cas.

(** No files, no process. *)
Definition blank : world := World [] [] None [].
