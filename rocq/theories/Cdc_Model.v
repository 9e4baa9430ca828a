(** Model of the content-defined chunkers of package jcdc.

    Data is a list of bytes held in [Z]; positions and sizes are [nat].  The
    256-entry gear tables (fastcdc2.go gear64, fastcdc4.go GearTable4) are a
    parameter [gear : Z -> Z]: every theorem holds for every table.
    Sizes in [CDC_Config] are Go ints; negative ones are rejected by
    [Validate] and not represented.

    A loop of the Go code that might not terminate is given fuel; running out
    of fuel is reported as [Panic], and the theorems show it never happens. *)
From Coq Require Import List ZArith Lia Bool.
From Verif Require Import Base.
Import ListNotations.
Open Scope nat_scope.

(** ultracdc.go 60-64 [CDC_Config]. *)
Record cfg := mkCfg { minSize : nat; targetSize : nat; maxSize : nat }.

(** [options.X > 1024*1024*1024] (fastcdc2.go 50-65). *)
Definition gb : Z := 1073741824%Z.
Definition overGB (n : nat) : bool := (gb <? Z.of_nat n)%Z.

(** fastcdc2.go 50-65, fastcdc4.go 66-78, ultracdc.go 105-120, rabin.go
    134-148 [Validate]: the four bodies are the same. [true] is a nil error. *)
Definition validate (c : cfg) : bool :=
  negb ((targetSize c =? 0) || (targetSize c <? 64) || overGB (targetSize c)) &&
  negb ((minSize c <? 64) || overGB (minSize c) || (targetSize c <=? minSize c)) &&
  negb ((maxSize c <? 64) || overGB (maxSize c) || (maxSize c <=? targetSize c)).

(** uint64 and uint32 arithmetic. *)
Definition u64 (x : Z) : Z := (x mod 2 ^ 64)%Z.
Definition u32 (x : Z) : Z := (x mod 2 ^ 32)%Z.
Definition maxU64 : Z := (2 ^ 64 - 1)%Z.

(** The rolling update [(hash << 1) + gear[b]] of both FastCDC variants
    (fastcdc2.go 137, 156; fastcdc4.go 259). *)
Definition roll (gear : Z -> Z) (h b : Z) : Z := u64 (2 * h + gear b).

(** ** FastCDC_Plakar (fastcdc4.go) *)

Definition maskS4 : Z := 0x0003590703530000%Z.
Definition maskL4 : Z := 0x0000d90003530000%Z.

(** fastcdc4.go 255-264: the scan [for i := MinSize; i < n; i++].  [ds] is
    [data[i:]]; reading past the end of [data] panics. *)
Fixpoint plakar_loop (gear : Z -> Z) (target n : nat) (ds : list Z) (i : nat) (mask fp : Z)
  : res nat :=
  match ds with
  | [] => if i <? n then Panic else Ok n
  | b :: ds' =>
      if i <? n then
        let mask' := if i =? target then maskL4 else mask in
        let fp' := roll gear fp b in
        if (Z.land fp' mask' =? 0)%Z then Ok i
        else plakar_loop gear target n ds' (S i) mask' fp'
      else Ok n
  end.

(** fastcdc4.go 233-265 [FastCDC_Plakar.Algorithm]. *)
Definition plakar_algorithm (gear : Z -> Z) (c : cfg) (data : list Z) (n : nat) : res nat :=
  if n <=? minSize c then Ok n
  else
    let '(n', target) :=
      if maxSize c <=? n then (maxSize c, targetSize c)
      else if n <=? targetSize c then (n, n)
      else (n, targetSize c) in
    plakar_loop gear target n' (skipn (minSize c) data) (minSize c) maskS4 0%Z.

(** fastcdc4.go 79-81 [NextCut]. *)
Definition plakar_next (gear : Z -> Z) (c : cfg) (data : list Z) : res nat :=
  plakar_algorithm gear c data (length data).

(** ** FastCDC_Stadia (fastcdc2.go) *)

(** fastcdc2.go 152-154: [for hash&mask != 0 { mask <<= 1 }]; after 64 shifts
    the mask is 0. *)
Fixpoint lower_mask (fuel : nat) (hash mask : Z) : Z :=
  match fuel with
  | 0 => mask
  | S f => if (Z.land hash mask =? 0)%Z then mask else lower_mask f hash (u64 (2 * mask))
  end.

(** fastcdc2.go 141-162: the main loop over [data[minSize:n]] and the final
    choice between the regression point and the end. *)
Fixpoint stadia_loop (gear : Z -> Z) (thresh : Z) (ds : list Z) (i rlen : nat) (rmask hash : Z)
  : nat :=
  match ds with
  | [] => if (Z.land hash rmask =? 0)%Z then i else rlen
  | b :: ds' =>
      if (Z.land hash rmask =? 0)%Z then
        if (hash <=? thresh)%Z then i
        else stadia_loop gear thresh ds' (S i) i (lower_mask 64 hash maxU64) (roll gear hash b)
      else stadia_loop gear thresh ds' (S i) rlen rmask (roll gear hash b)
  end.

(** fastcdc2.go 91-163 [FastCDC_Stadia.Algorithm].  Slices are in range because
    the explicit check gives [n <= len(data)]. [thresh] divides by
    [normalSize - minSize + 1] computed in uint64. *)
Definition stadia_algorithm (gear : Z -> Z) (c : cfg) (data : list Z) (N : nat) : res nat :=
  if length data <? N then Panic
  else
    let dv := u64 (Z.of_nat (targetSize c) - Z.of_nat (minSize c) + 1) in
    if (dv =? 0)%Z then Panic
    else
      let thresh := (maxU64 / dv)%Z in
      if N <=? minSize c then Ok N
      else
        let n := if maxSize c <=? N then maxSize c else N in
        let i0 := minSize c - 64 in
        let hash := fold_left (roll gear) (firstn (minSize c - i0) (skipn i0 data)) maxU64 in
        Ok (stadia_loop gear thresh (firstn (n - minSize c) (skipn (minSize c) data))
              (minSize c) n 0%Z hash).

(** fastcdc2.go 165-167 [NextCut]. *)
Definition stadia_next (gear : Z -> Z) (c : cfg) (data : list Z) : res nat :=
  stadia_algorithm gear c data (length data).

(** ** UltraCDC (ultracdc.go) *)

(** [bits.OnesCount8]. *)
Definition ones8 (b : Z) : Z :=
  fold_left (fun s k => (s + if Z.testbit b k then 1 else 0)%Z) [0;1;2;3;4;5;6;7]%Z 0%Z.

(** ultracdc.go 192: [bits.OnesCount8(v ^ 0xAA)]. *)
Definition hamAA (b : Z) : Z := ones8 (Z.lxor b 0xAA).

(** ultracdc_precomputed.go [hammingDistanceTo0xAA]. *)
Definition hamTable : list Z := [
  4; 5; 3; 4; 5; 6; 4; 5; 3; 4; 2; 3; 4; 5; 3; 4; 5; 6; 4; 5; 6; 7; 5; 6; 4; 5; 3; 4; 5; 6; 4; 5;
  3; 4; 2; 3; 4; 5; 3; 4; 2; 3; 1; 2; 3; 4; 2; 3; 4; 5; 3; 4; 5; 6; 4; 5; 3; 4; 2; 3; 4; 5; 3; 4;
  5; 6; 4; 5; 6; 7; 5; 6; 4; 5; 3; 4; 5; 6; 4; 5; 6; 7; 5; 6; 7; 8; 6; 7; 5; 6; 4; 5; 6; 7; 5; 6;
  4; 5; 3; 4; 5; 6; 4; 5; 3; 4; 2; 3; 4; 5; 3; 4; 5; 6; 4; 5; 6; 7; 5; 6; 4; 5; 3; 4; 5; 6; 4; 5;
  3; 4; 2; 3; 4; 5; 3; 4; 2; 3; 1; 2; 3; 4; 2; 3; 4; 5; 3; 4; 5; 6; 4; 5; 3; 4; 2; 3; 4; 5; 3; 4;
  2; 3; 1; 2; 3; 4; 2; 3; 1; 2; 0; 1; 2; 3; 1; 2; 3; 4; 2; 3; 4; 5; 3; 4; 2; 3; 1; 2; 3; 4; 2; 3;
  4; 5; 3; 4; 5; 6; 4; 5; 3; 4; 2; 3; 4; 5; 3; 4; 5; 6; 4; 5; 6; 7; 5; 6; 4; 5; 3; 4; 5; 6; 4; 5;
  3; 4; 2; 3; 4; 5; 3; 4; 2; 3; 1; 2; 3; 4; 2; 3; 4; 5; 3; 4; 5; 6; 4; 5; 3; 4; 2; 3; 4; 5; 3; 4]%Z.

Definition ham_lookup (b : Z) : Z := nth (Z.to_nat b) hamTable 0%Z.

Definition maskSU : Z := 0x2F%Z.
Definition maskLU : Z := 0x2C%Z.
Definition LEST : nat := 64.

Fixpoint eq_bytes (a b : list Z) : bool :=
  match a, b with
  | [], [] => true
  | x :: a', y :: b' => (x =? y)%Z && eq_bytes a' b'
  | _, _ => false
  end.

(** [data[i:i+8]]. *)
Definition win (data : list Z) (i : nat) : list Z := firstn 8 (skipn i data).

(** ultracdc.go 234-263 (and 405-441): the byte loop inside a window.  [prs]
    pairs [data[i+j-8]] with [data[i+j]]. [inl j] is a cut at [i+j]; [inr dist]
    is the new distance. *)
Fixpoint ultra_inner (mask : Z) (prs : list (Z * Z)) (j : nat) (dist : Z) : nat + Z :=
  match prs with
  | [] => inr dist
  | (o, b) :: prs' =>
      if (Z.land dist mask =? 0)%Z then inl j
      else ultra_inner mask prs' (S j) (dist + (ham_lookup b - ham_lookup o))%Z
  end.

(** ultracdc.go 196-265 (and 360-444): the window loop [for i := minSize+8;
    i <= n-8; i += 8].  Fuel [n] covers every iteration. *)
Fixpoint ultra_loop (fuel : nat) (data : list Z) (n normal i low : nat) (mask : Z)
  (out : list Z) (dist : Z) : nat :=
  match fuel with
  | 0 => n
  | S f =>
      if i + 8 <=? n then
        let mask' := if normal <=? i then maskLU else mask in
        let inw := win data i in
        if eq_bytes inw out then
          if LEST <=? S low then i + 8
          else ultra_loop f data n normal (i + 8) (S low) mask' out dist
        else
          match ultra_inner mask' (combine (win data (i - 8)) inw) 0 dist with
          | inl j => i + j
          | inr dist' => ultra_loop f data n normal (i + 8) 0 mask' inw dist'
          end
      else n
  end.

(** ultracdc.go 184-269: window initialisation and scan, once [min], [n] and
    [normal] are fixed.  The caller guarantees [min + 8 <= len(data)]. *)
Definition ultra_scan (data : list Z) (min n normal : nat) : nat :=
  let out := win data min in
  let dist := fold_left (fun s v => (s + hamAA v)%Z) out 0%Z in
  ultra_loop n data n normal (min + 8) 0 maskSU out dist.

(** ultracdc.go 138-270 [UltraCDC.Algorithm]. *)
Definition ultra_algorithm (c : cfg) (data : list Z) (n : nat) : res nat :=
  if length data <? n then Panic
  else
    let min := if minSize c <? 8 then 8 else minSize c in
    if n <=? min + 8 then Ok n
    else
      let '(n', normal) :=
        if maxSize c <=? n then (maxSize c, targetSize c)
        else if n <=? targetSize c then (n, n)
        else (n, targetSize c) in
      Ok (ultra_scan data min n' normal).

(** ultracdc.go 122-124 [NextCut]. *)
Definition ultra_next (c : cfg) (data : list Z) : res nat :=
  ultra_algorithm c data (length data).

(** ultracdc.go 282-457 [UltraCDC.Cutpoints], an inlined copy of the scan.
    [spare] is [cap(data) - len(data)], which slicing keeps: [data[min:min+8]]
    panics only when [min+8] exceeds the capacity.  Bytes past [len(data)] can
    enter the initial distance only when no window is scanned, so they never
    influence a cut. [lim = 0] is [maxPoints <= 0]. *)
Fixpoint ultra_cutpoints_loop (fuel : nat) (c : cfg) (spare lim count cutpoint : nat) (data : list Z)
  : res (list nat) :=
  match fuel with
  | 0 => Panic
  | S f =>
      let n := length data in
      let end_ := if n <? maxSize c then n else maxSize c in
      if end_ <=? minSize c then Ok [cutpoint + end_]
      else if n + spare <? minSize c + 8 then Panic
      else
        let normal := if end_ <=? targetSize c then end_ else targetSize c in
        let cut := ultra_scan data (minSize c) end_ normal in
        let data' := skipn cut data in
        if (length data' =? 0) || ((0 <? lim) && (lim <=? S count))
        then Ok [cutpoint + cut]
        else do rest <- ultra_cutpoints_loop f c spare lim (S count) (cutpoint + cut) data' ;
             Ok ((cutpoint + cut) :: rest)
  end.

Definition ultra_cutpoints (c : cfg) (spare lim : nat) (data : list Z) : res (list nat) :=
  if minSize c =? 0 then Panic
  else ultra_cutpoints_loop (S (length data)) c spare lim 0 0 data.

(** ** FNVCDC (fnv1a.go) *)

(** fnv1a.go 110-118: the scan of [data[i:n]].  [bits] is
    [f.NumBitsZeroAtCut], computed in floating point by [NewFNVCDC]; it is a
    parameter. *)
Fixpoint fnv_loop (bits : Z) (min : nat) (ds : list Z) (i : nat) (hash : Z) : nat :=
  match ds with
  | [] => i
  | b :: ds' =>
      let hash' := u32 (Z.lxor hash b * 16777619) in
      if (min <=? i) && (Z.land hash' (u32 (2 ^ bits - 1)) =? 0)%Z then S i
      else fnv_loop bits min ds' (S i) hash'
  end.

(** fnv1a.go 85-121 [FNVCDC.Algorithm]. *)
Definition fnv_algorithm (bits : Z) (c : cfg) (data : list Z) (n : nat) : res nat :=
  if length data <? n then Panic
  else if n <=? minSize c then Ok n
  else
    let n' := if maxSize c <=? n then maxSize c else n in
    Ok (fnv_loop bits (minSize c) (firstn n' data) 0 2166136261%Z).

Definition fnv_next (bits : Z) (c : cfg) (data : list Z) : res nat :=
  fnv_algorithm bits c data (length data).

(** ** RabinKarpCDC (rabin.go) *)

Definition rkMult : Z := 0x08104225%Z.

(** rabin.go 179-182: hash of the first window. *)
Fixpoint rk_init (ds : list Z) (sum multn : Z) : Z * Z :=
  match ds with
  | [] => (sum, multn)
  | b :: ds' => rk_init ds' (u32 (sum * rkMult + b)) (u32 (multn * rkMult))
  end.

(** rabin.go 185-199: rolling over [data[i:n]]; [prs] pairs
    [data[i-windowSize]] with [data[i]]. *)
Fixpoint rk_loop (mask : Z) (min : nat) (prs : list (Z * Z)) (i : nat) (sum multn : Z)
  : option nat :=
  match prs with
  | [] => None
  | (oldest, b) :: prs' =>
      let sum' := u32 (u32 (sum - multn * oldest) * rkMult + b) in
      let multn' := u32 (multn * rkMult) in
      if (min <=? i) && (Z.land sum' mask =? 0)%Z then Some (S i)
      else rk_loop mask min prs' (S i) sum' multn'
  end.

(** rabin.go 155-201 [RabinKarpCDC.Algorithm]; [window] and [mask] are the
    fields that [initKarpRabinWithOpts] derives from the target size. *)
Definition rk_algorithm (window : nat) (mask : Z) (c : cfg) (data : list Z) (n : nat) : res nat :=
  if length data <? n then Panic
  else if n <=? minSize c then Ok n
  else
    let n' := if maxSize c <=? n then maxSize c else n in
    let d := firstn n' data in
    let '(sum, multn) := rk_init (firstn window d) 0%Z 1%Z in
    match rk_loop mask (minSize c) (combine d (skipn window d)) window sum multn with
    | Some k => Ok k
    | None => Ok n'
    end.

Definition rk_next (window : nat) (mask : Z) (c : cfg) (data : list Z) : res nat :=
  rk_algorithm window mask c data (length data).

(** ** The batch loop *)

(** fastcdc2.go 179-193, fastcdc4.go 217-231, fnv1a.go 70-84, rabin.go 208-225
    [Cutpoints]: call the algorithm until the data is used up. [lim] is
    [maxPoints] ([0] for none); the two FastCDC chunkers ignore it and pass
    [0]. *)
Fixpoint cutpoints_loop (alg : list Z -> res nat) (fuel lim count cutpoint : nat) (data : list Z)
  : res (list nat) :=
  match fuel with
  | 0 => Panic
  | S f =>
      match data with
      | [] => Ok []
      | _ =>
          do cut <- alg data ;
          if (0 <? lim) && (lim <=? S count) then Ok [cutpoint + cut]
          else
            do rest <- cutpoints_loop alg f lim (S count) (cutpoint + cut) (skipn cut data) ;
            Ok ((cutpoint + cut) :: rest)
      end
  end.

Definition cutpoints (alg : list Z -> res nat) (lim : nat) (data : list Z) : res (list nat) :=
  cutpoints_loop alg (S (length data)) lim 0 0 data.

Definition plakar_cutpoints (gear : Z -> Z) (c : cfg) (maxPoints : nat) (data : list Z) :=
  cutpoints (plakar_next gear c) 0 data.
Definition stadia_cutpoints (gear : Z -> Z) (c : cfg) (maxPoints : nat) (data : list Z) :=
  cutpoints (stadia_next gear c) 0 data.
Definition fnv_cutpoints (bits : Z) (c : cfg) (maxPoints : nat) (data : list Z) :=
  cutpoints (fnv_next bits c) maxPoints data.
Definition rk_cutpoints (window : nat) (mask : Z) (c : cfg) (maxPoints : nat) (data : list Z) :=
  cutpoints (rk_next window mask c) maxPoints data.

(** ** Padme padding (padme.go 19-34) *)

(** [bits.Len64(uint64(n))]. *)
Definition len64 (n : Z) : Z := let u := u64 n in if (u =? 0)%Z then 0%Z else (Z.log2 u + 1)%Z.

Definition i64 (x : Z) : Z := ((x + 2 ^ 63) mod 2 ^ 64 - 2 ^ 63)%Z.

(** [x &^ m] on int64 is [x land (lnot m)]. A negative shift count panics. *)
Definition padme (n : Z) : res Z :=
  if (n <? 0)%Z then Panic
  else
    let x := (len64 n - 1)%Z in
    let b := len64 x in
    let z := (x - b)%Z in
    if (z <? 0)%Z then Panic
    else
      let m := i64 (Z.shiftl 1 z - 1) in
      Ok (i64 (Z.ldiff (i64 (n + m)) m - n)).

(** ** Choosing a chunker (cdc.go 24-48 [GetCutpointer])

    [ResticRabin_Algo] delegates to an external package and is not modelled. *)
Inductive chunker : Type :=
| Plakar (gear : Z -> Z)
| Stadia (gear : Z -> Z)
| Ultra
| Fnv (bits : Z)
| RabinKarp (window : nat) (mask : Z).

(** [Cutpointer.NextCut]. *)
Definition next_cut (ch : chunker) (c : cfg) (data : list Z) : res nat :=
  match ch with
  | Plakar gear => plakar_next gear c data
  | Stadia gear => stadia_next gear c data
  | Ultra => ultra_next c data
  | Fnv bits => fnv_next bits c data
  | RabinKarp window mask => rk_next window mask c data
  end.

(** [Cutpointer.Cutpoints(data, maxPoints)]; [spare] is [cap(data)-len(data)]. *)
Definition cut_points (ch : chunker) (c : cfg) (spare maxPoints : nat) (data : list Z)
  : res (list nat) :=
  match ch with
  | Plakar gear => plakar_cutpoints gear c maxPoints data
  | Stadia gear => stadia_cutpoints gear c maxPoints data
  | Ultra => ultra_cutpoints c spare maxPoints data
  | Fnv bits => fnv_cutpoints bits c maxPoints data
  | RabinKarp window mask => rk_cutpoints window mask c maxPoints data
  end.
