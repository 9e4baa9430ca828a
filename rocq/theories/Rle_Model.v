(** Model of the run-length encoded log-term index of /repo/tube/rle.go.

    Go [int64] is [Z] (no overflow: indexes and terms of a Raft log stay far
    below 2^63).  Pointers to runs are modelled by value: every method of
    TermsRLE owns its Runs slice ([clone] deep-copies, rle.go:310-323). *)
From Coq Require Import List ZArith Lia Bool.
From Verif Require Import Base.
Import ListNotations.
Open Scope Z_scope.

(** type TermRLE struct, tube/tube.go:2769-2772. *)
Record run := mkRun { rTerm : Z; rCount : Z }.

(** type TermsRLE struct, tube/tube.go:2753-2766. *)
Record rle := mkRle { BaseC : Z; Endi : Z; Runs : list run; CompactTerm : Z }.

(** newTermsRLE, rle.go:92-95. *)
Definition newRle : rle := mkRle 0 0 [] 0.

(** (s *TermsRLE) lastIndex, rle.go:50-60. The consistency panic is kept. *)
Definition lastIndex (s : rle) : res Z :=
  match Runs s with
  | [] => if BaseC s =? Endi s then Ok (BaseC s) else Panic
  | _ => Ok (Endi s)
  end.

(** (s *TermsRLE) lastTerm, rle.go:62-70. *)
Definition lastTerm (s : rle) : Z :=
  match rev (Runs s) with
  | [] => CompactTerm s
  | r :: _ => rTerm r
  end.

(** replace the last run (helper for the in-place [run.Count++] of AddTerm). *)
Fixpoint bumpLast (rs : list run) : list run :=
  match rs with
  | [] => []
  | [r] => [mkRun (rTerm r) (rCount r + 1)]
  | r :: rs' => r :: bumpLast rs'
  end.

(** (s *TermsRLE) AddTerm, rle.go:97-129. *)
Definition AddTerm (s : rle) (term : Z) : res rle :=
  let endi := if Endi s =? 0 then BaseC s + 1 else Endi s + 1 in
  if term <? CompactTerm s then Panic else
  match rev (Runs s) with
  | [] => Ok (mkRle (BaseC s) endi [mkRun term 1] (CompactTerm s))
  | r :: _ =>
      if rTerm r =? term
      then Ok (mkRle (BaseC s) endi (bumpLast (Runs s)) (CompactTerm s))
      else if term <? rTerm r then Panic
      else Ok (mkRle (BaseC s) endi (Runs s ++ [mkRun term 1]) (CompactTerm s))
  end.

(** The loop of Truncate, rle.go:163-187: walks the runs with the running
    [base]; returns the kept runs and the new CompactTerm.  Falling off the
    end is the "unreachable" panic of rle.go:188. *)
Fixpoint truncLoop (base keepIndex : Z) (rs : list run) : res (list run * Z) :=
  match rs with
  | [] => Panic
  | r :: rs' =>
      let thisRunEnd := base + rCount r in
      if keepIndex =? thisRunEnd then Ok ([r], rTerm r)
      else if keepIndex <? thisRunEnd
      then Ok ([mkRun (rTerm r) (rCount r - (thisRunEnd - keepIndex))], rTerm r)
      else do (kept, ct) <- truncLoop thisRunEnd keepIndex rs';
           Ok (r :: kept, ct)
  end.

(** (s *TermsRLE) Truncate, rle.go:131-191.  The optional [syncme] output is
    exactly (BaseC, CompactTerm) of the result and is not a separate value. *)
Definition Truncate (s : rle) (keepIndex : Z) : res rle :=
  if keepIndex <=? BaseC s then
    Ok (mkRle keepIndex keepIndex []
              (if keepIndex <? BaseC s then 0 else CompactTerm s))
  else if Endi s <? keepIndex then Ok s
  else do (kept, ct) <- truncLoop (BaseC s) keepIndex (Runs s);
       Ok (mkRle (BaseC s) keepIndex kept ct).

(** The loop of getTermForIndex, rle.go:1052-1063. *)
Fixpoint termLoop (base idx : Z) (rs : list run) : res Z :=
  match rs with
  | [] => Panic
  | r :: rs' =>
      let thisRunEnd := base + rCount r in
      if idx <=? thisRunEnd then Ok (rTerm r) else termLoop thisRunEnd idx rs'
  end.

(** (s *TermsRLE) getTermForIndex, rle.go:1042-1066; -1 = don't have it. *)
Definition getTermForIndex (s : rle) (idx : Z) : res Z :=
  if (0 <? idx) && (idx =? BaseC s) then Ok (CompactTerm s)
  else if (idx <? BaseC s) || (Endi s <? idx) then Ok (-1)
  else termLoop (BaseC s) idx (Runs s).

(** The split loop of CompactNewBeg, rle.go:278-306. *)
Fixpoint compactLoop (base newBeg : Z) (rs : list run) : res (list run) :=
  match rs with
  | [] => Panic
  | r :: rs' =>
      let thisRunEnd := base + rCount r in
      if newBeg =? base + 1 then Ok rs
      else if (base <? newBeg) && (newBeg <=? thisRunEnd)
      then Ok (mkRun (rTerm r) (thisRunEnd - newBeg + 1) :: rs')
      else compactLoop thisRunEnd newBeg rs'
  end.

(** (s *TermsRLE) CompactNewBeg, rle.go:193-308. *)
Definition CompactNewBeg (s : rle) (newBeg : Z) : res rle :=
  if newBeg <? 0 then Panic
  else if BaseC s <? 0 then Panic
  else if Endi s <? 0 then Panic
  else if newBeg =? 0 then Ok (mkRle 0 0 [] 0)
  else
    do ct <- (if newBeg =? 1 then Ok 0 else getTermForIndex s (newBeg - 1));
    if newBeg <=? BaseC s then Panic
    else if Endi s =? 0 then Panic
    else if newBeg =? Endi s then
      match rev (Runs s) with
      | [] => Panic
      | r :: _ => Ok (mkRle (newBeg - 1) (Endi s) [mkRun (rTerm r) 1] ct)
      end
    else if Endi s <? newBeg then Panic
    else
      let retained := Endi s - newBeg + 1 in
      match Runs s with
      | [] => Panic
      | [r] => Ok (mkRle (newBeg - 1) (Endi s) [mkRun (rTerm r) retained] ct)
      | rs => do rs' <- compactLoop (BaseC s) newBeg rs;
              Ok (mkRle (newBeg - 1) (Endi s) rs' ct)
      end.

(** (m *TermsRLE) Equal, rle.go:325-377 (both non-nil). CompactTerm is ignored,
    as in the code. *)
Fixpoint runsEqual (a b : list run) : bool :=
  match a, b with
  | [], [] => true
  | x :: a', y :: b' =>
      (rTerm x =? rTerm y) && (rCount x =? rCount y) && runsEqual a' b'
  | _, _ => false
  end.
Definition rleEqual (m f : rle) : bool :=
  (Endi m =? Endi f) && (BaseC m =? BaseC f) && runsEqual (Runs m) (Runs f).

(** [for range n { yield(term, nextIdx); nextIdx++ }], rle.go:1017-1022. *)
Fixpoint yieldRun (term idx : Z) (n : nat) : list (Z * Z) :=
  match n with
  | O => []
  | S n' => (term, idx) :: yieldRun term (idx + 1) n'
  end.

(** Runs after the first hit, rle.go:1023-1030. *)
Fixpoint iterRest (nextIdx : Z) (rs : list run) : list (Z * Z) :=
  match rs with
  | [] => []
  | r :: rs' => yieldRun (rTerm r) nextIdx (Z.to_nat (rCount r))
                ++ iterRest (nextIdx + rCount r) rs'
  end.

(** Runs up to the first hit, rle.go:1006-1022.  [idx] is the index searched
    for (advanced past BaseC when idx = BaseC), [nextIdx] the index yielded. *)
Fixpoint iterFind (base idx nextIdx : Z) (rs : list run) : list (Z * Z) :=
  match rs with
  | [] => []
  | r :: rs' =>
      let thisRunEnd := base + rCount r in
      if thisRunEnd <? idx then iterFind thisRunEnd idx nextIdx rs'
      else let left := thisRunEnd - idx + 1 in
           yieldRun (rTerm r) nextIdx (Z.to_nat left)
           ++ iterRest (nextIdx + left) rs'
  end.

(** (s *TermsRLE) getTermIndexStartingAt, rle.go:988-1033: the full sequence of
    (term, index) pairs the iterator yields.  Quirk kept: when idx = BaseC the
    first pair is (CompactTerm, BaseC) and the following indexes restart at
    BaseC again because [nextIdx] is not advanced (rle.go:995-1003). *)
Definition getTermIndexStartingAt (s : rle) (idx : Z) : res (list (Z * Z)) :=
  if (idx <? BaseC s) || (Endi s <? idx) then Panic
  else if idx =? BaseC s
  then Ok ((CompactTerm s, BaseC s) :: iterFind (BaseC s) (idx + 1) idx (Runs s))
  else Ok (iterFind (BaseC s) idx idx (Runs s)).

(** The comparison loop shared by Extends (rle.go:688-713) and
    extends_aware_but_no_compaction_here (rle.go:813-833): [(termL,idxL)] is the
    leader pair in hand, [lead] the pairs still to be pulled. *)
Fixpoint extLoop (leadEndi follEndi endiOverlap : Z)
         (termL idxL : Z) (lead : list (Z * Z)) (foll : list (Z * Z)) {struct foll} : bool * Z :=
  match foll with
  | [] => (follEndi <=? leadEndi, endiOverlap)
  | (termF, idxF) :: foll' =>
      if negb (termF =? termL) then (false, idxF - 1)
      else match lead with
           | [] => (follEndi <=? leadEndi, idxL)
           | (t, i) :: lead' => extLoop leadEndi follEndi endiOverlap t i lead' foll'
           end
  end.

Definition isNil {A} (l : list A) : bool := match l with [] => true | _ => false end.

Definition compareOverlap (l f : rle) : res (bool * Z) :=
  let beginOverlap := Z.max (BaseC f) (BaseC l) + 1 in
  let endiOverlap := Z.min (Endi f) (Endi l) in
  do ls <- getTermIndexStartingAt l beginOverlap;
  match ls with
  | [] => Panic
  | (termL, idxL) :: lead =>
      do fs <- getTermIndexStartingAt f beginOverlap;
      Ok (extLoop (Endi l) (Endi f) endiOverlap termL idxL lead fs)
  end.

(** extends_aware_but_no_compaction_here, rle.go:722-834 (non-nil arguments). *)
Definition extendsNoCompaction (l f : rle) : res (bool * Z) :=
  if negb (BaseC l =? 0) || negb (BaseC f =? 0) then Panic
  else if isNil (Runs l) then
    if isNil (Runs f) then Ok (true, 0) else Ok (false, 0)
  else if isNil (Runs f) then Ok (true, 0)
  else if Endi f <=? BaseC l then Ok (true, Endi f)
  else if Endi l <=? BaseC f then Ok (false, Endi l)
  else compareOverlap l f.

(** (leaderLog *TermsRLE) Extends, rle.go:443-714; a nil *TermsRLE is [None].
    Result: (extends, largestCommonRaftIndex, needLeaderSnapshot). *)
Definition Extends (leader follower : option rle) : res (bool * Z * bool) :=
  match leader, follower with
  | None, None => Ok (true, 0, false)
  | _, None => Ok (true, 0, false)
  | ol, Some f =>
    if (BaseC f =? 0) && isNil (Runs f) then Ok (true, 0, false) else
    match ol with
    | None => Ok (false, 0, false)
    | Some l =>
      let m := BaseC l in
      let fb := BaseC f in
      if isNil (Runs l) then
        if m =? 0 then Ok (false, 0, false)
        else if fb =? m then
          if isNil (Runs f) then Ok (true, m, false) else Ok (false, m, false)
        else if m <? fb then Ok (false, m, false)
        else Ok (false, fb, true)
      else if (m =? 0) && (fb =? 0) then
        do (e, c) <- extendsNoCompaction l f; Ok (e, c, false)
      else if Endi f <=? m then
        if fb <? Endi f then
          if isNil (Runs f) then Panic
          else if (Endi f =? m) && (lastTerm f =? CompactTerm l)
          then Ok (true, Endi f, false)
          else Ok (false, fb, true)
        else if fb <? m then Ok (false, fb, true)
        else if negb (fb =? m) then Panic
        else if CompactTerm f =? CompactTerm l then Ok (true, fb, false)
        else Ok (false, fb, false)
      else if isNil (Runs f) then
        (* rle.go:572-587; the len(leaderLog.Runs)==0 sub-cases of 555-571 and
           590-601 are dead here because leader runs are non-empty. *)
        Ok (true, fb, false)
      else if Endi l <=? fb then Ok (false, Endi l, false)
      else do (e, c) <- compareOverlap l f; Ok (e, c, false)
    end
  end.
