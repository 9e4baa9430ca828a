(** Model of the file scanners of jsync: they cut a file into chunks and label
    each chunk with a hash or as a zero run.

    Modelled: jsync/rsync.go ([GetHashesOneByOne],
    [SummarizeBytesInCDCHashes]), jcdc/fastcdc4.go ([CutpointsAndAllZero]),
    jsync/parallel.go ([ChunkFile2]), bytes/zero.go ([LongestZeroSpan],
    [SIMDLongestZeroSpan]).

    Simplified: the file does not change while it is scanned; the cut function
    is a parameter [next]; the sparse map of the file (ioctl, [lseek]) is an
    input; times, modes and owners are left out. *)
From Coq Require Import List ZArith Lia Bool.
From Verif Require Import Base Cdc_Model Sync_Model.
Import ListNotations.
Open Scope nat_scope.

(** The bytes [b, e) of a file: a seek and a full read. *)
Definition bytesOf (file : list Z) (b e : nat) : list Z := firstn (e - b) (skipn b file).

(** fastcdc4.go 198-205 and zero.go 14-24 [AllZero]. *)
Definition allZero (b : list Z) : bool := forallb (Z.eqb 0) b.

(** ** GetHashesOneByOne *)

(** rsync.go 1333-1361 [addChunk]. The chunks are kept newest first. *)
Definition addChunk (hsh : list Z -> Z) (slc : list Z) (beg : nat) (acc : list chunk) : list chunk :=
  if allZero slc then
    match acc with
    | c :: cs =>
        match cCry c with
        | Rle0 => mkChunk (cBeg c) (cEndx c + length slc) Rle0 [] :: cs
        | _ => mkChunk beg (beg + length slc) Rle0 [] :: acc
        end
    | [] => [mkChunk beg (beg + length slc) Rle0 []]
    end
  else mkChunk beg (beg + length slc) (Hash (hsh slc)) [] :: acc.

(** rsync.go 1411-1417: no more to read, cut up what is left. *)
Fixpoint oneTail (hsh : list Z -> Z) (next : list Z -> res nat) (fuel : nat) (data : list Z) (off : nat)
  (acc : list chunk) : res (list chunk) :=
  match data with
  | [] => Ok acc
  | _ =>
      match fuel with
      | 0 => Panic
      | S f =>
          do cut <- next data ;
          oneTail hsh next f (skipn cut data) (off + cut) (addChunk hsh (firstn cut data) off acc)
      end
  end.

(** rsync.go 1394-1460: the main loop. [data] is [file[off, rd)], [rd] is
    [bufendx]. Running out of fuel stands for looping for ever. *)
Fixpoint oneLoop (hsh : list Z -> Z) (next : list Z -> res nat) (max bufsz : nat) (file : list Z)
  (fuel off rd : nat) (acc : list chunk) : res (list chunk) :=
  match fuel with
  | 0 => Panic
  | S f =>
      let data := bytesOf file off rd in
      match data with
      | [] => Ok acc
      | _ =>
          do cut <- next data ;
          let legit := max <=? length data in
          let off1 := if legit then off + cut else off in
          let acc1 := if legit then addChunk hsh (firstn cut data) off acc else acc in
          if legit && (max <? length data - cut) then oneLoop hsh next max bufsz file f off1 rd acc1
          else if rd =? length file
          then oneTail hsh next (S (length file)) (bytesOf file off1 rd) off1 acc1
          else oneLoop hsh next max bufsz file f off1 (Nat.min (length file) (off1 + bufsz)) acc1
      end
  end.

(** rsync.go 1258-1463 [GetHashesOneByOne]. *)
Definition getHashesOneByOne (hsh : list Z -> Z) (next : list Z -> res nat) (max bufsz : nat) (file : list Z)
  : res (list chunk) :=
  match file with
  | [] => Ok []
  | _ =>
      do acc <- oneLoop hsh next max bufsz file (2 * length file + 2) 0 (Nat.min (length file) bufsz) [] ;
      Ok (rev acc)
  end.

(** ** CutpointsAndAllZero *)

(** sparsified [SparseSpan]: a stretch of the file. *)
Inductive skind := SData | SHole | SPrealloc.
Record sspan := mkSpan { sBeg : nat; sEndx : nat; sKind : skind }.

(** One entry of the three result slices. *)
Record kcut := mkCut { kCut : nat; kZero : bool; kPre : bool }.

(** fastcdc4.go 163-178: append a cut, or extend the zero run before it. The
    cuts are kept newest first. *)
Definition addCut (slc : list Z) (nextcut : nat) (acc : list kcut) : list kcut :=
  match acc with
  | k :: ks =>
      if allZero slc && kZero k && negb (kPre k) then mkCut nextcut true false :: ks
      else mkCut nextcut (allZero slc) false :: acc
  | [] => [mkCut nextcut (allZero slc) false]
  end.

(** fastcdc4.go 156-182: the cuts of one read. [d] is the data from offset
    [from] on, [cuts] are relative to it. *)
Fixpoint addCuts (d : list Z) (from prevcut : nat) (cuts : list nat) (acc : list kcut) : list kcut :=
  match cuts with
  | [] => acc
  | c :: cs => addCuts d from c cs (addCut (bytesOf d prevcut c) (from + c) acc)
  end.

(** fastcdc4.go 115-193: one data span. The last cut of a read that does not
    reach the end of the span is dropped, unless it is the only one. *)
Fixpoint dataSpan (next : list Z -> res nat) (buf : nat) (file : list Z) (fuel off endx : nat)
  (acc : list kcut) : res (list kcut) :=
  if endx <=? off then Ok acc
  else
    match fuel with
    | 0 => Panic
    | S f =>
        let d := bytesOf file off (off + Nat.min buf (endx - off)) in
        match d with
        | [] => Panic
        | _ =>
            do cuts <- cutpoints next 0 d ;
            let kept := if endx <=? off + length d then cuts
                        else match removelast cuts with [] => cuts | l => l end in
            dataSpan next buf file f (off + last kept 0) endx (addCuts d off 0 kept acc)
        end
    end.

(** fastcdc4.go 98-195: the loop over the spans. *)
Fixpoint spanLoop (next : list Z -> res nat) (buf : nat) (file : list Z) (spans : list sspan) (offset : nat)
  (acc : list kcut) : res (list kcut) :=
  match spans with
  | [] => Ok acc
  | s :: ss =>
      do acc' <- match sKind s with
                 | SHole => Ok (mkCut (sEndx s) true false :: acc)
                 | SPrealloc => Ok (mkCut (sEndx s) false true :: acc)
                 | SData =>
                     if sBeg s =? offset
                     then dataSpan next buf file (S (length file)) offset (sEndx s) acc
                     else Panic
                 end ;
      spanLoop next buf file ss (sEndx s) acc'
  end.

(** fastcdc4.go 83-196 [CutpointsAndAllZero]. *)
Definition cutpointsAndAllZero (next : list Z -> res nat) (buf : nat) (file : list Z) (spans : list sspan)
  : res (list kcut) :=
  do acc <- spanLoop next buf file spans 0 [] ; Ok (rev acc).

(** ** SummarizeBytesInCDCHashes *)

(** The read buffer: it holds [file[bBeg, bEndx)], and the search for spans
    goes on from [bSpans]. *)
Record sbuf := mkBuf { bBeg : nat; bEndx : nat; bSpans : list sspan }.

(** rsync.go 1004-1012: find the span that contains [p]. *)
Fixpoint findSpan (p : nat) (spans : list sspan) : option (list sspan) :=
  match spans with
  | [] => None
  | s :: ss => if (sBeg s <=? p) && (p <? sEndx s) then Some spans else findSpan p ss
  end.

(** rsync.go 989-1046 [fillDataForChunk]. *)
Definition fillData (dmax : nat) (b : sbuf) (prevcut cut : nat) : res sbuf :=
  match findSpan prevcut (bSpans b) with
  | None => Panic
  | Some [] => Panic
  | Some (s :: ss) =>
      if (sBeg s <? cut) && (cut <=? sEndx s)
      then Ok (mkBuf prevcut (Nat.min (sEndx s) (prevcut + dmax)) (s :: ss))
      else Panic
  end.

(** rsync.go 1088-1122: the bytes of a data chunk, from the buffer or read
    again. *)
Definition chunkBytes (dmax : nat) (file : list Z) (b : sbuf) (prevcut cut : nat) : res (list Z * sbuf) :=
  if cut <=? prevcut then Panic
  else
    let inside b := (bBeg b <=? prevcut) && (cut <=? bEndx b) in
    let use b := firstn (cut - prevcut) (skipn (prevcut - bBeg b) (bytesOf file (bBeg b) (bEndx b))) in
    if inside b then Ok (use b, b)
    else
      do b' <- fillData dmax b prevcut cut ;
      if inside b' then Ok (use b', b')
      else if cut - prevcut <=? dmax
      then Ok (bytesOf file prevcut cut, mkBuf prevcut cut (bSpans b'))
      else Panic.

(** rsync.go 1051-1140: one chunk per cut. A short pre-allocated tail is
    skipped. *)
Fixpoint sumLoop (hsh : list Z -> Z) (dmax : nat) (file : list Z) (b : sbuf) (prevcut : nat) (cuts : list kcut)
  : res (list chunk) :=
  match cuts with
  | [] => Ok []
  | k :: ks =>
      let cut := kCut k in
      if kZero k then
        do rest <- sumLoop hsh dmax file b cut ks ; Ok (mkChunk prevcut cut Rle0 [] :: rest)
      else if kPre k then
        if (cut - prevcut <? block) && (match ks with [] => true | _ => false end) then Ok []
        else do rest <- sumLoop hsh dmax file b cut ks ; Ok (mkChunk prevcut cut Unwrit [] :: rest)
      else
        do db <- chunkBytes dmax file b prevcut cut ;
        do rest <- sumLoop hsh dmax file (snd db) cut ks ;
        Ok (mkChunk prevcut cut (Hash (hsh (fst db))) [] :: rest)
  end.

(** rsync.go 862-1143 [SummarizeBytesInCDCHashes] for an existing file,
    without [keepData]. [buf] is the buffer of the cutter (1<<20), [dmax] the
    one of the hasher (at least 1<<20 and [MaxSize]). *)
Definition summarize (hsh : list Z -> Z) (next : list Z -> res nat) (buf dmax : nat) (file : list Z)
  (spans : list sspan) : res (list chunk) :=
  do cuts <- cutpointsAndAllZero next buf file spans ;
  match cuts with
  | [] => Ok []
  | _ =>
      let b0 := match spans with
                | s :: _ => match sKind s with
                            | SData => mkBuf 0 (Nat.min (sEndx s) dmax) spans
                            | _ => mkBuf 0 0 spans
                            end
                | [] => mkBuf 0 0 []
                end in
      sumLoop hsh dmax file b0 0 cuts
  end.

(** ** LongestZeroSpan *)

(** zero.go 140-158: the loop; [i] the index, [cs]/[cl] the current run,
    [ms]/[ml] the longest so far. *)
Fixpoint lzsLoop (b : list Z) (i cs cl ms ml : nat) : nat * nat :=
  match b with
  | [] => if ml <? cl then (cs, cl) else (ms, ml)
  | x :: b' =>
      if (x =? 0)%Z then lzsLoop b' (S i) (if cl =? 0 then i else cs) (S cl) ms ml
      else if ml <? cl then lzsLoop b' (S i) cs 0 cs cl
      else lzsLoop b' (S i) cs 0 ms ml
  end.

(** zero.go 128-167 [LongestZeroSpan]: start and length. *)
Definition longestZeroSpan (b : list Z) : nat * nat := lzsLoop b 0 0 0 0 0.

(** zero.go 90-95: the zeros a chunk starts with. *)
Fixpoint leadingZeros (b : list Z) : nat :=
  match b with
  | [] => 0
  | x :: b' => if (x =? 0)%Z then S (leadingZeros b') else 0
  end.

(** zero.go 74-84: the width of the next step. *)
Definition simdWidth (avx512 avx2 : bool) (left : nat) : nat :=
  if (64 <=? left) && avx512 then 64
  else if (32 <=? left) && avx2 then 32
  else if 16 <=? left then 16
  else 1.

(** zero.go 70-98: how far the zeros go. *)
Fixpoint simdRun (avx512 avx2 : bool) (fuel : nat) (b : list Z) : nat :=
  match b with
  | [] => 0
  | _ =>
      match fuel with
      | 0 => 0
      | S f =>
          let w := simdWidth avx512 avx2 (length b) in
          if allZero (firstn w b) then w + simdRun avx512 avx2 f (skipn w b)
          else leadingZeros (firstn w b)
      end
  end.

(** zero.go 60-117: the outer loop. [currentLen] is 0 whenever it starts over. *)
Fixpoint simdLoop (avx512 avx2 : bool) (fuel : nat) (b : list Z) (i ms ml : nat) : nat * nat :=
  match b with
  | [] => (ms, ml)
  | x :: b' =>
      match fuel with
      | 0 => (ms, ml)
      | S f =>
          if (x =? 0)%Z then
            let j := simdRun avx512 avx2 (S (length b)) b in
            if ml <? j then simdLoop avx512 avx2 f (skipn j b) (i + j) i j
            else simdLoop avx512 avx2 f (skipn j b) (i + j) ms ml
          else simdLoop avx512 avx2 f b' (S i) ms ml
      end
  end.

(** zero.go 46-125 [SIMDLongestZeroSpan]. *)
Definition simdLongestZeroSpan (avx512 avx2 : bool) (b : list Z) : nat * nat :=
  simdLoop avx512 avx2 (S (length b)) b 0 0 0.

(** ** ChunkFile2 *)

(** parallel.go 30-41 [job]: [jBeg], [jEndx] and the position in the list. *)
Record job := mkJob { jBeg : nat; jEndx : nat; jLast : bool }.

(** parallel.go 399-423: the segments. *)
Definition mkJobs (segment sz : nat) : list job :=
  let n := (sz + segment - 1) / segment in
  map (fun i => mkJob (i * segment) (Nat.min sz ((i + 1) * segment)) (i =? n - 1)) (seq 0 n).

(** parallel.go 333-339: candidates from [NextCut], while [mincut] bytes are
    left. *)
Fixpoint candLoop (next : list Z -> res nat) (mincut fuel : nat) (data : list Z) (off : nat)
  : res (list (nat * bool)) :=
  if length data <? mincut then Ok []
  else
    match fuel with
    | 0 => Panic
    | S f =>
        do c <- next data ;
        do rest <- candLoop next mincut f (skipn c data) (off + c) ;
        Ok ((off + c, false) :: rest)
    end.

(** parallel.go 269-340: the first phase of a job. It reads from up to two
    maximal chunks before its segment to one behind it. *)
Definition candidates (next : list Z -> res nat) (mincut maxcut : nat) (file : list Z) (j : job)
  : res (list (nat * bool)) :=
  let sz := length file in
  let seek0 := jBeg j - Nat.min (2 * maxcut) (jBeg j) in
  let fin := if jLast j then jEndx j
             else if sz <? jEndx j + maxcut then sz else jEndx j + maxcut in
  let data := bytesOf file seek0 fin in
  let '(b0, n0) := longestZeroSpan data in
  if (b0 =? 0) && (64 <=? n0)
  then do rest <- candLoop next mincut (S (length data)) (skipn n0 data) (seek0 + n0) ;
       Ok ((seek0 + n0, true) :: rest)
  else candLoop next mincut (S (length data)) data seek0.

(** parallel.go 486-491: no redundant cut. *)
Definition appendCut (cuts : list nat) (cut : nat) : list nat :=
  match cuts with
  | [] => [cut]
  | _ => if last cuts 0 =? cut then cuts else cuts ++ [cut]
  end.

(** parallel.go 459-504: select the cuts of one job. Gives the cuts, the
    previous cut, and whether the end of the segment was reached. *)
Fixpoint selectCuts (mincut maxcut endx : nat) (cands : list (nat * bool)) (prev : nat) (cuts : list nat)
  : list nat * nat * bool :=
  match cands with
  | [] => (cuts, prev, false)
  | (c, rle0) :: cs =>
      if c <=? prev then selectCuts mincut maxcut endx cs prev cuts
      else if negb rle0 && (c - prev <? mincut) then selectCuts mincut maxcut endx cs prev cuts
      else
        let cut := if negb rle0 && (maxcut <=? c - prev) then prev + maxcut else c in
        if endx <=? cut then (appendCut cuts cut, cut, true)
        else selectCuts mincut maxcut endx cs cut (appendCut cuts cut)
  end.

(** parallel.go 444-505: all jobs in turn. [start] is what the previous job put
    into this job's cuts. *)
Fixpoint selectAll (mincut maxcut : nat) (jobs : list (job * list (nat * bool))) (prev : nat) (start : list nat)
  : list (job * list nat) :=
  match jobs with
  | [] => []
  | (j, cands) :: js =>
      let '(cuts, prev', crossed) := selectCuts mincut maxcut (jEndx j) cands prev start in
      (j, cuts) :: selectAll mincut maxcut js prev' (if crossed then [prev'] else [])
  end.

(** parallel.go 506-518: the end of the file is the last cut. *)
Fixpoint conclude (sz : nat) (jobs : list (job * list nat)) : list (job * list nat) :=
  match jobs with
  | [] => []
  | [(j, cuts)] =>
      match cuts with
      | [] => [(j, [sz])]
      | _ => if last cuts 0 =? sz then [(j, cuts)] else [(j, cuts ++ [sz])]
      end
  | [(j1, cuts1); (j2, [])] => [(j1, cuts1 ++ [sz]); (j2, [])]
  | j :: js => j :: conclude sz js
  end.

(** parallel.go 341-380: the second phase: the chunks between the cuts. A job
    reads from the start of its segment to its last cut; reading past the end
    of the file panics. *)
Fixpoint hashCuts (hsh : list Z -> Z) (file : list Z) (from : nat) (cuts : list nat) : res (list chunk) :=
  match cuts with
  | [] => Ok []
  | c :: cs =>
      if (c <=? from) || (length file <? c) then Panic
      else
        let slc := bytesOf file from c in
        do rest <- hashCuts hsh file c cs ;
        Ok (mkChunk from c (if allZero slc then Rle0 else Hash (hsh slc)) [] :: rest)
  end.

Definition hashJob (hsh : list Z -> Z) (file : list Z) (jc : job * list nat) : res (list chunk) :=
  match snd jc with
  | [] => Ok []
  | c :: cs => if c <? jBeg (fst jc) then Panic else hashCuts hsh file c cs
  end.

Fixpoint mapR {A B : Type} (f : A -> res B) (l : list A) : res (list B) :=
  match l with
  | [] => Ok []
  | a :: l' => do b <- f a ; do bs <- mapR f l' ; Ok (b :: bs)
  end.

(** parallel.go 551-580: put the chunks of the jobs together; a gap is the
    panic "bad append". *)
Fixpoint assemble (acc : list chunk) (jobs : list (list chunk)) : res (list chunk) :=
  match jobs with
  | [] => Ok acc
  | cs :: js =>
      match cs, rev acc with
      | c :: _, l :: _ => if cBeg c =? cEndx l then assemble (acc ++ cs) js else Panic
      | _, _ => assemble (acc ++ cs) js
      end
  end.

(** parallel.go 585-611: join neighbouring zero runs. *)
Fixpoint coalesce (cs : list chunk) (lastRLE : option chunk) : list chunk :=
  match cs with
  | [] => match lastRLE with Some l => [l] | None => [] end
  | c :: cs' =>
      match cCry c with
      | Rle0 =>
          match lastRLE with
          | Some l => coalesce cs' (Some (mkChunk (cBeg l) (cEndx c) Rle0 []))
          | None => coalesce cs' (Some c)
          end
      | _ =>
          match lastRLE with Some l => l :: c :: coalesce cs' None | None => c :: coalesce cs' None end
      end
  end.

(** parallel.go 69-622 [ChunkFile2], for a non-empty file that is neither
    sparse nor pre-allocated. The goroutines only share the list of jobs, each
    of which one goroutine works on, so their order does not matter. A worker
    that finds a job without cuts in the second phase stops; [jobless] below
    says that this is the last job. *)
Definition chunkFile2 (hsh : list Z -> Z) (next : list Z -> res nat) (mincut maxcut segment0 : nat)
  (file : list Z) : res (list chunk) :=
  let segment := Nat.max segment0 maxcut in
  let jobs := mkJobs segment (length file) in
  do cands <- mapR (candidates next mincut maxcut file) jobs ;
  let selected := conclude (length file) (selectAll mincut maxcut (combine jobs cands) 0 [0]) in
  do hashed <- mapR (hashJob hsh file) selected ;
  do cs <- assemble [] hashed ;
  match coalesce cs None with
  | [] => Panic
  | l => Ok l
  end.

(** The jobs that have no cuts in the second phase. *)
Definition jobless (next : list Z -> res nat) (mincut maxcut segment0 : nat) (file : list Z)
  : res (list job) :=
  let segment := Nat.max segment0 maxcut in
  let jobs := mkJobs segment (length file) in
  do cands <- mapR (candidates next mincut maxcut file) jobs ;
  Ok (map fst (filter (fun jc => match snd jc with [] => true | _ => false end)
       (conclude (length file) (selectAll mincut maxcut (combine jobs cands) 0 [0])))).
