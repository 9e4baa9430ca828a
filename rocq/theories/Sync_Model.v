(** Model of the file sync of jsync: the update plan the giver computes from
    two chunk lists, the fragments it is shipped in, and the taker that
    rebuilds the file on disk.

    Modelled: jsync/rsync.go ([BlobStore.GetPlanToUpdateFromGoal],
    [getCryMap], [UpdateLocalWithRemoteDiffs]), jsync/giver.go
    ([giverSendsPlanAndDataUpdates], [packAndSendChunksJustInTime]),
    jsync/taker.go (the plan and heavy diff cases of [Taker]),
    jsync/sparsified/align.go ([AlignedSparseSpan]).

    Simplified: file offsets are natural numbers; a hash is an integer and the
    hash function a parameter; the circuit delivers the fragments in order;
    file names, mode bits, mod times, progress reports and the MessagePack
    encoding are left out; the disk does not fail. *)
From Coq Require Import List ZArith Lia Bool.
From Verif Require Import Base.
Import ListNotations.
Open Scope nat_scope.

(** ** Files *)

Definition zeros (n : nat) : list Z := repeat 0%Z n.

(** An open file: its bytes and the position of the descriptor. *)
Record file := mkFile { fBytes : list Z; fPos : nat }.

(** POSIX [write]: the gap between the end and the position reads as zero. A
    write of no bytes changes nothing. *)
Definition fwrite (f : file) (w : list Z) : file :=
  match w with
  | [] => f
  | _ =>
      mkFile (firstn (fPos f) (fBytes f ++ zeros (fPos f - length (fBytes f)))
              ++ w ++ skipn (fPos f + length w) (fBytes f))
             (fPos f + length w)
  end.

(** POSIX [lseek] to an absolute position. It does not change the size. *)
Definition fseek (f : file) (p : nat) : file := mkFile (fBytes f) p.

(** POSIX [ftruncate]. *)
Definition ftruncate (f : file) (n : nat) : file :=
  mkFile (firstn n (fBytes f) ++ zeros (n - length (fBytes f))) (fPos f).

(** Linux [fallocate] with [PUNCH_HOLE|KEEP_SIZE] (sparse_linux.go 201-207):
    the range reads as zero, the size stays. *)
Definition fpunch (f : file) (off n : nat) : file :=
  mkFile (firstn off (fBytes f) ++ zeros (Nat.min n (length (fBytes f) - off))
          ++ skipn (off + n) (fBytes f)) (fPos f).

(** [io.ReadFull] of [n] bytes at [off]; a short read is an error and the
    callers panic on it. *)
Definition readFull (bytes : list Z) (off n : nat) : res (list Z) :=
  if off + n <=? length bytes then Ok (firstn n (skipn off bytes)) else Panic.

(** ** Chunks *)

(** rsync.go 42 [Cry]: the tags ["RLE0;"] and ["UNWRIT;"], or a hash. The
    hashes start with ["blake3.33B-"] (hash/blake3.go 139), so they never
    equal a tag. *)
Inductive cry := Rle0 | Unwrit | Hash (h : Z).

Definition cry_eqb (a b : cry) : bool :=
  match a, b with
  | Rle0, Rle0 => true
  | Unwrit, Unwrit => true
  | Hash x, Hash y => (x =? y)%Z
  | _, _ => false
  end.

(** rsync.go 35-47 [Chunk]. *)
Record chunk := mkChunk { cBeg : nat; cEndx : nat; cCry : cry; cData : list Z }.

Definition cLen (c : chunk) : nat := cEndx c - cBeg c.
(** rsync.go 49-57 [CloneNoData]. *)
Definition cloneNoData (c : chunk) : chunk := mkChunk (cBeg c) (cEndx c) (cCry c) [].
Definition withData (c : chunk) (d : list Z) : chunk := mkChunk (cBeg c) (cEndx c) (cCry c) d.

(** rsync.go 733-741 [getCryMap]: the last chunk with a given [Cry] wins. *)
Definition lookupCry (l : list chunk) (k : cry) : option chunk :=
  find (fun c => cry_eqb (cCry c) k) (rev l).

(** ** AlignedSparseSpan *)

(** align.go 14 [block], also [len(zeros4k)] (rsync.go 131). *)
Definition block : nat := Nat.pow 2 12.

Definition span := (nat * nat)%type.

(** align.go 12-95: the aligned hole inside [beg, endx), and the wings before
    and after it. (No wings struct is the same as one without wings.) *)
Definition alignedSparseSpan (beg endx : nat) : option span * option span * option span :=
  if endx <=? beg then (None, None, None)
  else if endx - beg <? block then (None, Some (beg, endx), None)
  else if beg =? 0 then
    if endx mod block =? 0 then (Some (0, endx), None, None)
    else (Some (0, endx / block * block), None, Some (endx / block * block, endx))
  else
    let start := if beg mod block =? 0 then beg else (beg / block + 1) * block in
    let pre := if beg mod block =? 0 then None else Some (beg, start) in
    if (Z.of_nat endx - Z.of_nat start <? Z.of_nat block)%Z then (None, Some (beg, endx), None)
    else
      let sEndx := start + (endx - start) / block * block in
      (Some (start, sEndx), pre, Some (sEndx, endx)).

(** ** The taker *)

(** The new version under construction and the bytes fed to the hasher. *)
Record taker := mkTaker { tFile : file; tHashed : list Z }.

(** [zeros4k[:n]] panics beyond the capacity of the array. *)
Definition zeros4k (n : nat) : res (list Z) :=
  if n <=? block then Ok (zeros n) else Panic.

(** taker.go 501-507 and 543-549: write a wing of zeros. *)
Definition takeWing (t : taker) (w : option span) : res taker :=
  match w with
  | None => Ok t
  | Some (b, e) =>
      do z <- zeros4k (e - b) ;
      Ok (mkTaker (fwrite (tFile t) z) (tHashed t ++ z))
  end.

(** taker.go 508-542: seek over the hole, feed zeros to the hasher, and punch
    [n] bytes from where we were. *)
Definition takeHole (t : taker) (s : option span) : res taker :=
  match s with
  | None => Ok t
  | Some (b, e) =>
      let startPos := fPos (tFile t) in
      let n := e - b in
      if n mod block =? 0
      then Ok (mkTaker (fpunch (fseek (tFile t) e) startPos n) (tHashed t ++ zeros n))
      else Panic
  end.

(** taker.go 488-550: an RLE0 chunk. *)
Definition takeRle0 (t : taker) (c : chunk) : res taker :=
  let '(s, pre, post) := alignedSparseSpan (cBeg c) (cEndx c) in
  do t1 <- takeWing t pre ;
  do t2 <- takeHole t1 s ;
  takeWing t2 post.

(** taker.go 551-574: an UNWRIT chunk writes nothing; without an earlier
    pre-allocation it panics. *)
Definition takeUnwrit (preallocDone : bool) (t : taker) : res taker :=
  if preallocDone then Ok t else Panic.

(** taker.go 575-613: the data is in the taker's own old version. [bufCap] is
    the size of the work buffer (taker.go 119), [orig] the old version if
    there is one. *)
Definition takeLocal (bufCap : nat) (local : list chunk) (orig : option (list Z)) (t : taker) (c : chunk)
  : res taker :=
  match lookupCry local (cCry c) with
  | None => Panic
  | Some lc =>
      do data <- match orig with
                 | None => Ok (cData lc)
                 | Some o =>
                     if cLen lc <=? bufCap then readFull o (cBeg lc) (cLen lc) else Panic
                 end ;
      if length data =? cLen lc
      then Ok (mkTaker (fwrite (tFile t) data) (tHashed t ++ data))
      else Panic
  end.

(** taker.go 616-633: the data came with the chunk. *)
Definition takeShipped (t : taker) (c : chunk) : res taker :=
  if length (cData c) =? cLen c
  then Ok (mkTaker (fwrite (tFile t) (cData c)) (tHashed t ++ cData c))
  else Panic.

(** taker.go 481-638: one chunk of the plan. *)
Definition takeChunk (preallocDone : bool) (bufCap : nat) (local : list chunk) (orig : option (list Z))
  (t : taker) (c : chunk) : res taker :=
  match cData c with
  | [] =>
      match cCry c with
      | Rle0 => takeRle0 t c
      | Unwrit => takeUnwrit preallocDone t
      | Hash _ => takeLocal bufCap local orig t c
      end
  | _ => takeShipped t c
  end.

(** taker.go 404-466: on the first fragment create the new version, and give
    it the size in the sync request unless the file is pre-allocated. *)
Definition takerStart (giverFileSize preallocEndx : nat) : taker :=
  let f := mkFile [] 0 in
  mkTaker (if preallocEndx =? 0 then ftruncate f giverFileSize else f) [].

Definition fragment := (list chunk * bool)%type.

(** taker.go 398-697: the heavy diff fragments, up to the one marked last.
    Then the checksum is compared with the plan's and the new version renamed
    into place: [Some bytes]. [None]: the last fragment never came, nothing is
    renamed. *)
Fixpoint takerFrags (hsh : list Z -> Z) (fileCry : Z) (preallocDone : bool) (bufCap : nat)
  (local : list chunk) (orig : option (list Z)) (t : taker) (frags : list fragment)
  : res (option (list Z)) :=
  match frags with
  | [] => Ok None
  | (cs, isLast) :: fs =>
      do t' <- run_res (takeChunk preallocDone bufCap local orig) t cs ;
      if isLast
      then if (hsh (tHashed t') =? fileCry)%Z then Ok (Some (fBytes (tFile t'))) else Panic
      else takerFrags hsh fileCry preallocDone bufCap local orig t' fs
  end.

(** taker.go 734-833 then 398-697: the plan, then the fragments. A plan for an
    empty file truncates the file at once. *)
Definition takerPlan (hsh : list Z -> Z) (fileSize : nat) (fileCry : Z)
  (giverFileSize preallocEndx bufCap : nat) (local : list chunk) (orig : option (list Z))
  (frags : list fragment) : res (option (list Z)) :=
  if fileSize =? 0 then Ok (Some [])
  else takerFrags hsh fileCry (0 <? preallocEndx) bufCap local orig
                  (takerStart giverFileSize preallocEndx) frags.

(** ** The giver *)

(** rsync.go 548-558: the index of what the other side has. RLE0 chunks are
    left out. *)
Definition hasCry (updateme : list chunk) (k : cry) : bool :=
  existsb (fun c => match cCry c with Rle0 => false | x => cry_eqb x k end) updateme.

(** rsync.go 517 [markToSendHeavyFromFile]. *)
Definition marker : list Z := [72%Z].

(** rsync.go 563-588 [GetPlanToUpdateFromGoal] with [usePlaceHolders]. *)
Fixpoint planMarks (updateme goal : list chunk) : res (list chunk) :=
  match goal with
  | [] => Ok []
  | c :: cs =>
      match cData c with
      | [] =>
          let c' := match cCry c with
                    | Rle0 => c
                    | Unwrit => c
                    | Hash h => if hasCry updateme (Hash h) then c else withData c marker
                    end in
          do rest <- planMarks updateme cs ; Ok (c' :: rest)
      | _ => Panic
      end
  end.

(** rsync.go 590-636 [GetPlanToUpdateFromGoal] without placeholders. [blob] is
    the blob store. *)
Fixpoint planFull (blob updateme goal : list chunk) : res (list chunk) :=
  match goal with
  | [] => Ok []
  | c :: cs =>
      let ok := match cCry c with
                | Rle0 => true
                | Unwrit => true
                | Hash h => hasCry updateme (Hash h)
                end in
      do c' <- (if ok then Ok (cloneNoData c)
                else match cData c with
                     | _ :: _ => Ok c
                     | [] => match lookupCry blob (cCry c) with
                             | Some b => match cData b with [] => Panic | d => Ok (withData c d) end
                             | None => Panic
                             end
                     end) ;
      do rest <- planFull blob updateme cs ; Ok (c' :: rest)
  end.

(** giver.go 760-790 and 805-820: replace the marker by the bytes of the file. *)
Definition fillMark (bytes : list Z) (c : chunk) : res chunk :=
  match cData c with
  | [] => Ok (cloneNoData c)
  | _ =>
      match cCry c with
      | Rle0 => Panic
      | _ => do d <- readFull bytes (cBeg c) (cLen c) ; Ok (withData c d)
      end
  end.

(** giver.go 792-850: fill one fragment; [msz] is the encoded size of a chunk,
    [max] the limit. Gives the pack and the chunks left. *)
Fixpoint takePack (msz : chunk -> nat) (max : nat) (bytes : list Z) (have : nat) (cs : list chunk)
  : res (list chunk * list chunk) :=
  match cs with
  | [] => Ok ([], [])
  | c :: cs' =>
      do lc <- fillMark bytes c ;
      if have + msz lc <? max
      then do pr <- takePack msz max bytes (have + msz lc) cs' ; Ok (lc :: fst pr, snd pr)
      else Ok ([], cs)
  end.

(** giver.go 745-887 [packAndSendChunksJustInTime]. A chunk too big for a
    fragment makes the loop send empty fragments for ever; that is [Panic]
    here. *)
Fixpoint packAll (fuel : nat) (msz : chunk -> nat) (max : nat) (bytes : list Z) (cs : list chunk)
  : res (list fragment) :=
  match cs with
  | [] => Ok []
  | _ =>
      match fuel with
      | 0 => Panic
      | S f =>
          do pr <- takePack msz max bytes 0 cs ;
          do rest <- packAll f msz max bytes (snd pr) ;
          Ok ((fst pr, match snd pr with [] => true | _ => false end) :: rest)
      end
  end.

(** ** One sync *)

(** The taker as the giver sees it: its chunks and whole-file hash if it has
    the file (giver.go 440-447). *)
Record view := mkView { vCry : option Z; vChunks : list chunk }.

(** giver.go 399-540 [giverSendsPlanAndDataUpdates] against taker.go: the
    contents of the taker's path afterwards. [goalBytes]/[goal] are the giver's
    file when it was scanned and its chunks, [goalNow] the file when the chunks
    are read for sending, [v] what the taker advertised, [local] the taker's
    index, [orig] its old version when it is read. With equal whole-file hashes only the mode
    is updated (taker.go 331-378). *)
Definition syncFile (hsh : list Z -> Z) (msz : chunk -> nat) (max bufCap giverFileSize preallocEndx : nat)
  (goalBytes : list Z) (goal : list chunk) (goalNow : list Z) (v : view) (local : list chunk)
  (orig : option (list Z)) : res (option (list Z)) :=
  if (preallocEndx =? 0) && (match vCry v with Some h => (h =? hsh goalBytes)%Z | None => false end)
  then Ok (Some (match orig with Some o => o | None => [] end))
  else
    do marked <- planMarks (vChunks v) goal ;
    do frags <- packAll (length marked) msz max goalNow marked ;
    takerPlan hsh (length goalBytes) (hsh goalBytes) giverFileSize preallocEndx bufCap local orig frags.

(** ** The in-memory version *)

(** rsync.go 201-294: assemble the new version in memory. [copy] into a buffer
    that is too small is caught for data but not for zeros. An UNWRIT chunk
    panics unless it is the last one (rsync.go 230-240); plans with
    pre-allocation are left out here. *)
Definition memChunk (size : nat) (local : list chunk) (acc : list Z * list Z) (c : chunk)
  : res (list Z * list Z) :=
  let '(new, hashed) := acc in
  match cCry c with
  | Rle0 =>
      let z := zeros (cLen c) in
      Ok (new ++ firstn (size - length new) z, hashed ++ z)
  | Unwrit => Panic
  | Hash _ =>
      do d <- match cData c with
              | [] => match lookupCry local (cCry c) with
                      | None => Panic
                      | Some lc => if length (cData lc) =? cLen lc then Ok (cData lc) else Panic
                      end
              | d => if length d =? cLen c then Ok d else Panic
              end ;
      if length new + length d <=? size then Ok (new ++ d, hashed ++ d) else Panic
  end.

(** rsync.go 296-321: write the new version, seeking over the holes. *)
Fixpoint memWrite (f : file) (new : list Z) (offset : nat) (holes : list span) : res file :=
  match holes with
  | [] => Ok (if offset <? length new then fwrite f (skipn offset new) else f)
  | (b, e) :: hs =>
      do f1 <- (if offset <? b
                then if b <=? length new then Ok (fwrite f (firstn (b - offset) (skipn offset new))) else Panic
                else Ok f) ;
      memWrite (fseek f1 e) new e hs
  end.

Definition holesOf (cs : list chunk) : list span :=
  flat_map (fun c => match cCry c with
                     | Rle0 => match alignedSparseSpan (cBeg c) (cEndx c) with
                               | (Some s, _, _) => [s]
                               | _ => []
                               end
                     | _ => []
                     end) cs.

(** rsync.go 142-340 [UpdateLocalWithRemoteDiffs], for a plan without
    pre-allocation. *)
Definition updateLocal (hsh : list Z -> Z) (local : list chunk) (fileSize : nat) (fileCry : Z)
  (remote : list chunk) : res (list Z) :=
  if fileSize =? 0 then Ok []
  else
    match rev remote with
    | [] => Panic
    | lastc :: _ =>
        if cEndx lastc <? fileSize then Panic
        else
          do acc <- run_res (memChunk fileSize local) ([], []) remote ;
          if (hsh (snd acc) =? fileCry)%Z then
            let new := fst acc ++ zeros (fileSize - length (fst acc)) in
            match holesOf remote with
            | [] => Ok (fBytes (fwrite (mkFile [] 0) new))
            | holes =>
                do f <- memWrite (ftruncate (mkFile [] 0) fileSize) new 0 holes ;
                Ok (fBytes f)
            end
          else Panic
    end.
