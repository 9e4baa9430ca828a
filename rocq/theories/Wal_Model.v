(** Model of the write-ahead log tube/wal.go, its companion tube/par.go, the frames
    of tube/msgbin.go and the state file of tube/persistor.go.

    A file is its list of bytes.  A call yields the list of the file operations it
    performs, in order, and its result; a panic keeps the operations done before it.

    Simplifications:
    - the msgpack encodings of the three record types, BLAKE3 and CRC64 are the
      parameters of [codec];
    - int64 is [Z]; file positions are [nat];
    - operating system errors, tests (isTest, testNum, onOverwriteNotifyMe) and the
      memory-only log (memwal.go) are not modelled; node == nil in Compact. *)
From Coq Require Import List ZArith Lia Bool.
From Verif Require Import Base Rle_Model.
Import ListNotations.
Open Scope Z_scope.

Definition bytes := list Z.
Definition beqb (a b : bytes) : bool := if list_eq_dec Z.eq_dec a b then true else false.

(** RaftLogEntry, tube.go 2779-2825; [eRest] stands for the other encoded fields. *)
Record entry := mkE { eTerm : Z; eIndex : Z; ePrevIndex : Z; ePrevTerm : Z; eRest : bytes }.

(** ParRecord, par.go 25-35; [pRest] stands for TicketID and ClusterID of the entry. *)
Record par := mkP { pOffset : Z; pLen0 : Z; pLen2 : Z; pIndex : Z; pTerm : Z; pRest : bytes; pHash : bytes }.

(** [encE], [encS], [encP]: MarshalMsg of RaftLogEntry, Blake3sum (Sum33B, Sum33Bchain)
    and ParRecord; [dec*]: UnmarshalMsg.  [b3]: blake3ToString33B (wal.go 625). *)
Record codec := mkCodec {
  encE : entry -> bytes; decE : bytes -> option entry;
  encS : bytes * bytes -> bytes; decS : bytes -> option (bytes * bytes);
  encP : par -> bytes; decP : bytes -> option par;
  b3 : bytes -> bytes; crc : bytes -> bytes }.

(** ** Frames: msgbin.go *)

(** ByteSlice.MarshalMsg (tube_gen.go 4103), a msgpack bin8, bin16 or bin32. *)
Definition frame (b : bytes) : bytes :=
  let n := Z.of_nat (length b) in
  if n <? 256 then 196 :: n :: b
  else if n <? 65536 then 197 :: n / 256 :: n mod 256 :: b
  else 198 :: n / 16777216 mod 256 :: n / 65536 mod 256 :: n / 256 mod 256 :: n mod 256 :: b.

(** unframeBinMsgpack (msgbin.go 79-115) on five bytes: (ntotal, nheader); [None]: it
    panics. *)
Definition unframe (p : bytes) : option (nat * nat) :=
  match p with
  | 196 :: a :: _ => Some (Z.to_nat a + 2, 2)%nat
  | 197 :: a :: b :: _ => Some (Z.to_nat (a * 256 + b) + 3, 3)%nat
  | 198 :: a :: b :: c :: d :: _ => Some (Z.to_nat (a * 16777216 + b * 65536 + c * 256 + d) + 5, 5)%nat
  | _ => None
  end.

(** nextframe (msgbin.go 11-42) at a position, with the ByteSlice.UnmarshalMsg every
    caller applies: the content, the frame, the position after it.  [Bad]: an error
    other than EOF or a panic; every caller panics.  It peeks five bytes, so a frame
    of less than five bytes leaves the position behind its end. *)
Inductive framed := EOF | Bad | Got (content raw : bytes) (pos : nat).
Definition nextframe (f : bytes) (pos : nat) : framed :=
  let rest := skipn pos f in
  match length rest with
  | O => EOF
  | S _ =>
      if (length rest <? 5)%nat then Bad
      else match unframe rest with
      | None => Bad
      | Some (total, hdr) =>
          if (length rest <? total)%nat then Bad
          else let raw := firstn total rest in Got (skipn hdr raw) raw (pos + Nat.max 5 total)
      end
  end.

(** ** File operations *)

(** [WNew], [PNew]: os.Rename of a file with that content, written and synced before,
    over the log or the parlog. *)
Inductive op :=
| WWrite (pos : nat) (b : bytes) | WTrunc (n : nat) | WSync | WNew (f : bytes)
| PWrite (pos : nat) (b : bytes) | PTrunc (n : nat) | PSync | PNew (f : bytes)
| DirSync.

Record disk := mkD { dWal : bytes; dPar : bytes }.

Definition pad (n : nat) (f : bytes) : bytes := firstn n f ++ repeat 0 (n - length f).
Definition writeAt (pos : nat) (b f : bytes) : bytes := pad pos f ++ b ++ skipn (pos + length b) f.
Definition apply (o : op) (d : disk) : disk :=
  match o with
  | WWrite pos b => mkD (writeAt pos b (dWal d)) (dPar d)
  | WTrunc n => mkD (pad n (dWal d)) (dPar d)
  | WNew f => mkD f (dPar d)
  | PWrite pos b => mkD (dWal d) (writeAt pos b (dPar d))
  | PTrunc n => mkD (dWal d) (pad n (dPar d))
  | PNew f => mkD (dWal d) f
  | WSync | PSync | DirSync => d
  end.
Definition applyAll (ops : list op) (d : disk) : disk := fold_left (fun d o => apply o d) ops d.

(** The operations done, and the result. *)
Definition M (A : Type) := (list op * res A)%type.
Definition ret {A} (x : A) : M A := ([], Ok x).
Definition fail {A} : M A := ([], Panic).
Definition emit (ops : list op) : M unit := (ops, Ok tt).
Definition lift {A} (r : res A) : M A := ([], r).
Definition bindM {A B} (m : M A) (k : A -> M B) : M B :=
  match snd m with
  | Ok x => (fst m ++ fst (k x), snd (k x))
  | Panic => (fst m, Panic)
  end.
Notation "'go' x <- m ; k" := (bindM m (fun x => k))
  (at level 200, x pattern, m at level 100, k at level 200).
Definition check (b : bool) : M unit := if b then ret tt else fail.

(** ** The log in memory *)

(** raftWriteAheadLog (wal.go 18-63): raftLog with the msgbytes of each entry, lli, llt,
    begseekpos, the position of fd, logIndex, parlog.e (parlog.n is its length),
    prevLastAppliedIndex. *)
Record wal := mkW { raftLog : list (entry * bytes); lli : Z; llt : Z; begseekpos : list nat; fdpos : nat;
  logIndex : rle; parlog : list par; prevApplied : Z }.

(** TubeConfig: NoLogCompaction, CompactionThresholdBytes. *)
Record config := mkCfg { noLogCompaction : bool; threshold : Z }.

(** yggdrasill and lastEntryBytes, wal.go 966-981. *)
Definition yggdrasill : bytes := [121; 103; 103; 100; 114; 97; 115; 105; 108; 108].
Definition lastEntryBytes (log : list (entry * bytes)) : bytes :=
  match log with
  | [] => []
  | [_] => yggdrasill
  | _ => match rev log with x :: _ => snd x | [] => [] end
  end.

Section Wal.
Context (c : codec).

(** saveBlake3sumFor, wal.go 646-680: the checksum frame. *)
Definition sumFrame (log : list (entry * bytes)) (b : bytes) : bytes :=
  frame (encS c (b3 c b, b3 c (b ++ lastEntryBytes log))).

(** append1, par.go 105-161: the slot of 400 bytes; [None]: no space for the checksum. *)
Definition slot (p : par) : option bytes :=
  let used := frame (encP c p) in
  if (400 <? length used + 8)%nat then None
  else let u := used ++ crc c used in Some (u ++ repeat 0 (400 - length u)).
Definition append1 (p : par) (n : nat) : M unit :=
  match slot p with
  | None => fail
  | Some b => emit [PWrite (n * 400) b; PSync]
  end.

(** saveRaftLogEntryDoFsync, wal.go 419-492. *)
Definition saveEntry (doFsync : bool) (e : entry) (w : wal) : M wal :=
  go _ <- check (lli w + 1 =? eIndex e) ;
  let t := lastTerm (logIndex w) in
  go i <- lift (lastIndex (logIndex w)) ;
  go _ <- check (t =? llt w) ;
  go _ <- check (i =? lli w) ;
  let e' := mkE (eTerm e) (eIndex e) i t (eRest e) in
  go x <- lift (AddTerm (logIndex w) (eTerm e)) ;
  let b := encE c e' in
  let f0 := frame b in
  let f2 := sumFrame (raftLog w) b in
  let pos := fdpos w in
  go _ <- emit ([WWrite pos f0; WWrite (pos + length f0) f2] ++ if doFsync then [WSync] else []) ;
  let p := mkP (Z.of_nat pos) (Z.of_nat (length f0)) (Z.of_nat (length f2)) (eIndex e) (eTerm e) (eRest e) (b3 c b) in
  go _ <- append1 p (length (parlog w)) ;
  ret (mkW (raftLog w ++ [(e', b)]) (lli w + 1) (eTerm e) (begseekpos w ++ [pos]) (pos + length f0 + length f2)
           x (parlog w ++ [p]) (prevApplied w)).
Fixpoint saveAll (es : list entry) (w : wal) : M wal :=
  match es with
  | [] => ret w
  | e :: r => go w1 <- saveEntry false e w ; saveAll r w1
  end.

(** ** Opening *)

(** parLog.loadone, par.go 219-265. *)
Definition loadone (f : bytes) (i : nat) : res par :=
  match nextframe f (i * 400) with
  | Got b raw pos =>
      let sum := firstn 8 (skipn pos f) in
      if (length sum <? 8)%nat then Panic
      else if negb (beqb (crc c raw) sum) then Panic
      else match decP c b with Some p => Ok p | None => Panic end
  | _ => Panic
  end.
Fixpoint loadPars (f : bytes) (i n : nat) : res (list par) :=
  match n with
  | O => Ok []
  | S k => do p <- loadone f i ; do r <- loadPars f (S i) k ; Ok (p :: r)
  end.
(** newParLog, par.go 50-101. *)
Definition newParLog (f : bytes) : res (list par) :=
  if negb ((length f mod 400 =? 0)%nat) then Panic else loadPars f 0 (length f / 400).

(** loadRaftLogEntry, wal.go 494-558, with validateParLog (566-593: any difference of
    the hashes panics; parLog.at behind the end of the parlog fails).  [None]: EOF. *)
Definition loadEntry (f : bytes) (pars : list par) (log : list (entry * bytes)) (pos : nat)
  : res (option (entry * bytes * nat)) :=
  match nextframe f pos with
  | EOF => Ok None
  | Bad => Panic
  | Got b _ pos1 =>
      match decE c b with
      | None => Panic
      | Some e =>
          match nextframe f pos1 with
          | Got s _ pos2 =>
              match decS c s with
              | None => Panic
              | Some (h, hChain) =>
                  if negb (beqb (b3 c b) h) then Panic
                  else if negb (beqb (b3 c (b ++ lastEntryBytes log)) hChain) then Panic
                  else match nth_error pars (length log) with
                  | None => Panic
                  | Some p => if beqb (b3 c b) (pHash p) then Ok (Some (e, b, pos2)) else Panic
                  end
              end
          | _ => Panic
          end
      end
  end.

(** The loop of loadPathHelper, wal.go 296-346; [fuel] bounds the number of entries. *)
Definition prevIndexTerm (log : list (entry * bytes)) : option (Z * Z) :=
  match rev log with [] => None | (e, _) :: _ => Some (eIndex e, eTerm e) end.
Fixpoint loadPath (fuel : nat) (f : bytes) (pos : nat) (w : wal) : res wal :=
  match fuel with
  | O => Panic
  | S k =>
      let beg := begseekpos w ++ [pos] in
      do r <- loadEntry f (parlog w) (raftLog w) pos ;
      match r with
      | None => Ok (mkW (raftLog w) (lli w) (llt w) beg (length f) (logIndex w) (parlog w) (prevApplied w))
      | Some (e, b, pos') =>
          match prevIndexTerm (raftLog w) with
          | None =>
              if negb (ePrevIndex e =? eIndex e - 1) then Panic
              else
                let x := mkRle (ePrevIndex e) (Endi (logIndex w)) (Runs (logIndex w)) (ePrevTerm e) in
                do x' <- AddTerm x (eTerm e) ;
                loadPath k f pos' (mkW [(e, b)] (eIndex e - 1 + 1) (eTerm e) beg pos' x' (parlog w) (prevApplied w))
          | Some (pi, pt) =>
              if negb (pi =? ePrevIndex e) || negb (pt =? ePrevTerm e) then Panic
              else
                do x' <- AddTerm (logIndex w) (eTerm e) ;
                loadPath k f pos' (mkW (raftLog w ++ [(e, b)]) (lli w + 1) (eTerm e) beg pos' x' (parlog w) (prevApplied w))
          end
      end
  end.

(** newRaftWriteAheadLog, wal.go 169-279 (not readOnly). *)
Definition fresh (pars : list par) : wal := mkW [] 0 0 [] 0 newRle pars 0.
Definition openWal (d : disk) : res wal :=
  do pars <- newParLog (dPar d) ;
  match dWal d with
  | [] => Ok (fresh pars)
  | f => loadPath (S (length f)) f 0 (fresh pars)
  end.

(** ** Compaction *)

(** assertConsistentWalAndIndex, wal.go 1370-1389. *)
Fixpoint entriesAgree (x : rle) (i : Z) (log : list (entry * bytes)) : bool :=
  match log with
  | [] => true
  | (e, _) :: r =>
      (eIndex e =? i) && (match getTermForIndex x i with Ok t => eTerm e =? t | Panic => false end) &&
      entriesAgree x (i + 1) r
  end.
Definition consistent (w : wal) : bool :=
  let x := logIndex w in
  (Z.of_nat (length (raftLog w)) =? Endi x - BaseC x) && entriesAgree x (BaseC x + 1) (raftLog w).

(** Compact, wal.go 1153-1366.  The old files are closed (and synced) first; the new
    ones are written and synced under other names; the renames put them in place. *)
Definition compactGo (keepIndex : Z) (w : wal) : M wal :=
  match raftLog w with
  | [] => ret w
  | (e0, _) :: _ =>
      if keepIndex <=? 0 then ret w
      else
        let firstIndex := eIndex e0 in
        let lastIdx := match rev (raftLog w) with (e, _) :: _ => eIndex e | [] => 0 end in
        if lastIdx <? keepIndex then fail
        else
          let keep0 := Z.to_nat (keepIndex - firstIndex) in
          if (keepIndex <=? BaseC (logIndex w)) || (keepIndex <=? firstIndex) then ret w
          else
            go x <- lift (CompactNewBeg (logIndex w) keepIndex) ;
            go _ <- emit [PSync; WSync] ;
            let s2 := mkW [] (BaseC x) (CompactTerm x) [] 0 (mkRle (BaseC x) (BaseC x) [] (CompactTerm x)) [] 0 in
            let r2 := saveAll (map fst (skipn keep0 (raftLog w))) s2 in
            go w2 <- lift (snd r2) ;
            go _ <- check (rleEqual x (logIndex w2)) ;
            let new := applyAll (fst r2) (mkD [] []) in
            go _ <- emit [PNew (dPar new); WNew (dWal new); DirSync] ;
            go pars <- lift (newParLog (dPar new)) ;
            lift (loadPath (S (length (dWal new))) (dWal new) 0
                    (mkW [] (lli w) (llt w) [] 0 (mkRle (BaseC x) 0 [] (CompactTerm x)) pars (prevApplied w)))
  end.
Definition compact (cfg : config) (keepIndex : Z) (w : wal) : M wal :=
  go _ <- check (negb (noLogCompaction cfg)) ;
  go w' <- compactGo keepIndex w ;
  go _ <- check (consistent w') ;
  ret w'.

(** maybeCompact, wal.go 929-960. *)
Definition maybeCompact (cfg : config) (lastApplied : Z) (w : wal) : M wal :=
  if noLogCompaction cfg then ret w
  else if prevApplied w <? lastApplied then
    compact cfg lastApplied
      (mkW (raftLog w) (lli w) (llt w) (begseekpos w) (fdpos w) (logIndex w) (parlog w) lastApplied)
  else ret w.

(** ** Overwriting *)

(** overwriteEntries, wal.go 725-800: the clamped keepIndex, the entries to write and
    the numbers of entries kept and overwritten; [None]: nothing is written. *)
Definition barrier (w : wal) : Z :=
  match raftLog w with [] => lli w | (e0, _) :: _ => eIndex e0 - 1 end.
Definition plan (keepIndex : Z) (es : list entry) (w : wal) : option (Z * list entry * Z * Z) :=
  let b := barrier w in
  if (keepIndex <? b) && (keepIndex + Z.of_nat (length es) <=? b) then None
  else
    let '(k, es') := if keepIndex <? b then (b, skipn (Z.to_nat (b - keepIndex)) es) else (keepIndex, es) in
    match raftLog w with
    | [] => Some (k, es', k - b, 0)
    | (e0, _) :: _ =>
        let n := Z.of_nat (length (raftLog w)) in
        let lastIdx := match rev (raftLog w) with (e, _) :: _ => eIndex e | [] => 0 end in
        if lastIdx <=? k then Some (lastIdx, es', n, 0)
        else if k <? eIndex e0 then Some (eIndex e0 - 1, es', 0, n)
        else let kc := k - eIndex e0 + 1 in Some (k, es', kc, n - kc)
    end.

(** 826-841 with RaftLogEntry.Equal (tube.go 10938): the checks on what is overwritten;
    [replacements[i]] may be out of range. *)
Fixpoint overwriteOk (commit : Z) (replacements : list entry) (killed : list (entry * bytes)) : bool :=
  match killed with
  | [] => true
  | (k, _) :: kr =>
      match replacements with
      | [] => false
      | r :: rr =>
          negb ((eTerm r =? eTerm k) && (eIndex r =? eIndex k)) && (commit <? eIndex k) && overwriteOk commit rr kr
      end
  end.

(** 809-860: cut the log to the first [kc] entries; the parlog is cut on disk (par.go
    174-191), the log file is not yet.  [es[:min(overwriteCount, len(es)-1)]] is out of
    range for an empty es. *)
Definition cut (cfg : config) (k : Z) (kc oc : nat) (es : list entry) (commit : Z) (w : wal) : M wal :=
  match nth_error (begseekpos w) kc with
  | None => fail
  | Some beg =>
      go _ <- check (negb (length es =? 0)%nat) ;
      let replacements := firstn (Nat.min oc (length es - 1)) es in
      go _ <- check (negb (noLogCompaction cfg) || overwriteOk commit replacements (skipn kc (raftLog w))) ;
      go _ <- check (kc <=? length (parlog w))%nat ;
      go _ <- emit (if (kc =? length (parlog w))%nat then [] else [PTrunc (kc * 400); PSync]) ;
      go x <- lift (Truncate (logIndex w) k) ;
      let log := firstn kc (raftLog w) in
      let t := match rev log with [] => 0 | (e, _) :: _ => eTerm e end in
      ret (mkW log k t (firstn kc (begseekpos w)) beg x (firstn kc (parlog w)) (prevApplied w))
  end.

(** 809-885: cut, write, truncate and sync the log file. *)
Definition rewrite (cfg : config) (k : Z) (kc oc : nat) (es : list entry) (commit : Z) (w : wal) : M wal :=
  go w1 <- (if (oc =? 0)%nat then ret w else cut cfg k kc oc es commit w) ;
  go w2 <- saveAll es w1 ;
  go _ <- emit ((if negb (oc =? 0)%nat && (fdpos w2 <? fdpos w)%nat then [WTrunc (fdpos w2)] else []) ++ [WSync]) ;
  ret w2.

(** overwriteEntries, wal.go 704-901, on a disk [d]. *)
Definition overwriteEntries (cfg : config) (keepIndex : Z) (es : list entry) (isLeader : bool)
    (commit lastApplied : Z) (d : disk) (w : wal) : M wal :=
  go _ <- check (negb isLeader) ;
  match plan keepIndex es w with
  | None => ret w
  | Some (k, es', keepCount, overwriteCount) =>
      let m := rewrite cfg k (Z.to_nat keepCount) (Z.to_nat overwriteCount) es' commit w in
      go w2 <- m ;
      if negb (noLogCompaction cfg) && (threshold cfg <? Z.of_nat (length (dWal (applyAll (fst m) d))))
      then maybeCompact cfg lastApplied w2 else ret w2
  end.

(** saveRaftLogEntry, wal.go 411-417. *)
Definition saveRaftLogEntry (e : entry) (w : wal) : M wal := saveEntry true e w.

(** installedSnapshot, wal.go 1393-1424, of a state whose CompactionDiscardedLast is
    [index], [term]; begseekpos is left as it is. *)
Definition installedSnapshot (index term : Z) (w : wal) : M wal :=
  go _ <- emit [WTrunc 0; WSync] ;
  go _ <- emit (match parlog w with [] => [] | _ => [PTrunc 0; PSync] end) ;
  ret (mkW [] index term (begseekpos w) 0 (mkRle index index [] term) [] (prevApplied w)).

(** GetEntry, wal.go 1089-1108; [None]: an error. *)
Definition getEntry (idx : Z) (w : wal) : option entry :=
  match raftLog w with
  | [] => None
  | (e0, _) :: _ =>
      if idx <? eIndex e0 then None
      else option_map fst (nth_error (raftLog w) (Z.to_nat (idx - eIndex e0)))
  end.
(** GetAllEntriesFrom, wal.go 1059-1087: the entries, preBase. *)
Definition getAllEntriesFrom (idx : Z) (w : wal) : res (list entry * bool) :=
  if idx <? 1 then Panic
  else match raftLog w with
  | [] => Ok ([], false)
  | (e0, _) :: _ =>
      if idx <? eIndex e0 then Ok ([], true)
      else Ok (map fst (skipn (Z.to_nat (idx - eIndex e0)) (raftLog w)), false)
  end.
(** getLogPast, wal.go 1480-1492. *)
Definition getLogPast (excludeMe : Z) (w : wal) : res (list entry) :=
  match raftLog w with
  | [] => Ok []
  | (e0, _) :: _ =>
      if lli w <? excludeMe then Ok []
      else if excludeMe + 1 <? eIndex e0 then Panic
      else Ok (map fst (skipn (Z.to_nat (excludeMe + 1 - eIndex e0)) (raftLog w)))
  end.

End Wal.
