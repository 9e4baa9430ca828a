(** Model of tube/span.go: half-open integer intervals. int64 values are [Z]
    (the only arithmetic is the +1 of [spanBegxEndi]; its overflow at the largest
    int64 is not modelled). *)
From Coq Require Import ZArith Bool.
Local Open Scope Z_scope.

(** span (span.go 5-8). *)
Record span := mkSpan { beg : Z; endx : Z }.
(** spanBegxEndi (10-15), spanBegiEndx (16-21). *)
Definition spanBegxEndi (begx endi : Z) : span := mkSpan (begx + 1) (endi + 1).
Definition spanBegiEndx (begi e : Z) : span := mkSpan begi e.
(** after, before (23-28). *)
Definition after (a b : span) : bool := endx b <=? beg a.
Definition before (a b : span) : bool := endx a <=? beg b.
(** overlaps (30-73). *)
Definition overlaps (a b : span) : bool :=
  let bpoint := endx b =? beg b in
  let apoint := endx a =? beg a in
  if apoint && bpoint then beg a =? beg b
  else if apoint then (beg b <=? beg a) && (beg a <? endx b)
  else if bpoint then (beg a <=? beg b) && (beg b <? endx a)
  else if endx a <=? beg b then false
  else if endx b <=? beg a then false
  else true.
(** isSuperSetOf (76-88). *)
Definition isSuperSetOf (a b : span) : bool :=
  if beg b <? beg a then false
  else if endx a <? endx b then false
  else true.
(** contains (90-98). *)
Definition contains (a : span) (x : Z) : bool :=
  if x <? beg a then false else if endx a <=? x then false else true.
(** equal (100-108). *)
Definition equal (a b : span) : bool :=
  if negb (beg a =? beg b) then false else if negb (endx a =? endx b) then false else true.
(** intersect (110-154): (res, empty); res is the zero span when empty. *)
Definition intersect (a b : span) : span * bool :=
  if negb (overlaps a b) then (mkSpan 0 0, true)
  else if beg a =? endx a then (mkSpan 0 0, true)
  else if beg b =? endx b then (mkSpan 0 0, true)
  else if isSuperSetOf a b then (b, false)
  else if isSuperSetOf b a then (a, false)
  else if beg a <? beg b then (mkSpan (beg b) (endx a), false)
  else (mkSpan (beg a) (endx b), false).
