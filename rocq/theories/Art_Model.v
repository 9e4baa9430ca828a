(** The adaptive radix tree of /repo/tube/art.

    Models inner.go, leaf.go, node.go, n4.go, n16.go, n48.go, n256.go, gte.go,
    lte.go, tree.go, iterator.go and the save/load hooks of saver.go.

    Simplifications.  A byte is a [Z].  A node that the code changes in place is
    replaced by the changed value in its parent.  Fields for debugging (keybyte)
    are left out, as are the locks and the string functions.  Of a leaf the
    model keeps the identity of the pointer, the key and the value.  A search
    that does not find reports no leaf (the code may return one together with
    found = false).  Filling the cache of [pren] counts during a search is the
    relation [refresh]. *)
From Coq Require Import List ZArith Lia Bool.
From Verif Require Import Base.
Import ListNotations.
Open Scope Z_scope.

Definition bytes := list Z.

(** bytes.Compare, as a comparison and as the code's -1, 0, 1. *)
Fixpoint bcmp (a b : bytes) : comparison :=
  match a, b with
  | [], [] => Eq
  | [], _ :: _ => Lt
  | _ :: _, [] => Gt
  | x :: a', y :: b' => match x ?= y with Eq => bcmp a' b' | c => c end
  end.
Definition dirOf (c : comparison) : Z := match c with Lt => -1 | Eq => 0 | Gt => 1 end.
Definition beqb (a b : bytes) : bool := match bcmp a b with Eq => true | _ => false end.

(** leaf.go 68-106 [Leaf]; [lId] is the pointer. *)
Record leaf := mkLeaf { lId : Z; lKey : bytes; lVal : bytes }.

(** ** Arrays *)

Fixpoint setn {A} (i : nat) (x : A) (l : list A) : list A :=
  match l, i with
  | [], _ => []
  | _ :: r, O => x :: r
  | y :: r, S j => y :: setn j x r
  end.

(** copy(a[idx+1:], a[idx:]); a[idx] = x. *)
Definition shiftIn {A} (idx : nat) (x : A) (l : list A) : list A := firstn idx l ++ x :: removelast (skipn idx l).

(** copy(a[idx:], a[idx+1:]). *)
Definition shiftOut {A} (idx : nat) (d : A) (l : list A) : list A := firstn idx l ++ skipn (S idx) l ++ [last l d].

(** The first index from [i] on at which [f] holds. *)
Fixpoint findIdx {A} (f : A -> bool) (i : nat) (l : list A) : option nat :=
  match l with
  | [] => None
  | x :: r => if f x then Some i else findIdx f (S i) r
  end.

(** The last index below [length l] at which [f] holds. *)
Fixpoint findLast {A} (f : A -> bool) (i : nat) (l : list A) : option nat :=
  match l with
  | [] => None
  | x :: r => match findLast f (S i) r with Some j => Some j | None => if f x then Some i else None end
  end.

(** ** Inner nodes of the four sizes *)
Section Inode.
Context {C : Type}.

(** n4.go 5-10, n16.go 5-9, n48.go 9-15, n256.go 9-12. *)
Inductive inode : Type :=
| N4 (lth : nat) (keys : bytes) (kids : list (option C))
| N16 (lth : nat) (keys : bytes) (kids : list (option C))
| N48 (lth : nat) (keys : bytes) (kids : list (option C))
| N256 (lth : nat) (kids : list (option C)).

Definition node4 : inode := N4 0 (repeat 0 4) (repeat None 4).

Definition kids (n : inode) : list (option C) :=
  match n with N4 _ _ c => c | N16 _ _ c => c | N48 _ _ c => c | N256 _ c => c end.

(** Where the child with index [idx] lies: in a node48 the index of a child is
    its byte. *)
Definition slot (n : inode) (idx : nat) : nat :=
  match n with N48 _ keys _ => Z.to_nat (nth idx keys 0 - 1) | _ => idx end.

Definition kid (n : inode) (idx : nat) : option C :=
  match n with
  | N48 _ keys c => if nth idx keys 0 =? 0 then None else nth (slot n idx) c None
  | _ => nth idx (kids n) None
  end.

(** Apply [f] to a child, [d] if there is none. *)
Definition pickWith {R} (d : R) (f : C -> R) : list (option C) -> nat -> R :=
  fix go l i :=
    match l, i with
    | [], _ => d
    | Some c :: _, O => f c
    | None :: _, O => d
    | _ :: r, S j => go r j
    end.
Definition withKid {R} (d : R) (f : C -> R) (n : inode) (idx : nat) : R :=
  match n with
  | N48 _ keys c => if nth idx keys 0 =? 0 then d else pickWith d f c (slot n idx)
  | _ => pickWith d f (kids n) idx
  end.

Definition hit (n : inode) (o : option (Z * nat)) : option (Z * nat) :=
  match o with
  | Some (b, i) => match kid n i with Some _ => Some (b, i) | None => None end
  | None => None
  end.

Definition withKey (keys : bytes) (o : option nat) : option (Z * nat) :=
  match o with Some i => Some (nth i keys 0, i) | None => None end.
Definition withIdx (o : option nat) : option (Z * nat) :=
  match o with Some i => Some (Z.of_nat i, i) | None => None end.

(** A byte array of the code, for a scan by index: index and content. *)
Fixpoint indexed {A} (i : nat) (l : list A) : list (nat * A) :=
  match l with [] => [] | x :: r => (i, x) :: indexed (S i) r end.
Definition some {A} (o : option A) : bool := match o with Some _ => true | None => false end.

(** n4.go 124-132, n16.go 65-74, n48.go 71-77, n256.go 64-66 [child]. *)
Definition child (n : inode) (k : Z) : option nat :=
  match n with
  | N4 _ keys _ | N16 _ keys _ =>
      match findIdx (fun b => b =? k) 0 keys with
      | Some i => if some (kid n i) then Some i else None
      | None => None
      end
  | N48 _ _ _ | N256 _ _ => if some (kid n (Z.to_nat k)) then Some (Z.to_nat k) else None
  end.

(** The scans of the arrays upwards (next, gt, gte) with a test on the byte, [None] for
    a nil byte: n4.go 59-105, n16.go 76-123, n48.go 79-115, n256.go 68-104. *)
Definition upwards (n : inode) (f : option (Z -> bool)) : option (Z * nat) :=
  match n with
  | N4 _ keys _ | N16 _ keys _ =>
      hit n (match f with
             | None => Some (nth 0 keys 0, 0%nat)
             | Some g => withKey keys (findIdx g 0 keys)
             end)
  | N48 _ keys _ =>
      hit n (withIdx (findIdx (fun bi => (match f with None => true | Some g => g (Z.of_nat (fst bi)) end) && negb (snd bi =? 0))
                        0 (indexed 0 keys)))
  | N256 _ c =>
      hit n (withIdx (findIdx (fun bc => (match f with None => true | Some g => g (Z.of_nat (fst bc)) end) && some (snd bc))
                        0 (indexed 0 c)))
  end.
Definition next (n : inode) (k : option Z) : option (Z * nat) := upwards n (option_map (fun k b => k <? b) k).
Definition gte (n : inode) (k : Z) : option (Z * nat) := upwards n (Some (fun b => k <=? b)).

(** The scans downwards (prev, lt, lte): n4.go 107-122, 215-249, n16.go 125-137,
    224-260, n48.go 117-130, 245-289, n256.go 106-115, 200-244. *)
Definition downwards (n : inode) (f : option (Z -> bool)) : option (Z * nat) :=
  match n with
  | N4 lth keys _ | N16 lth keys _ =>
      hit n (match f with
             | None => Some (nth (lth - 1) keys 0, (lth - 1)%nat)
             | Some g => withKey keys (findLast g 0 (firstn lth keys))
             end)
  | N48 _ keys _ =>
      hit n (withIdx (findLast (fun bi => (match f with None => true | Some g => g (Z.of_nat (fst bi)) end) && negb (snd bi =? 0))
                        0 (indexed 0 keys)))
  | N256 _ c =>
      hit n (withIdx (findLast (fun bc => (match f with None => true | Some g => g (Z.of_nat (fst bc)) end) && some (snd bc))
                        0 (indexed 0 c)))
  end.
Definition prev (n : inode) (k : option Z) : option (Z * nat) := downwards n (option_map (fun k b => b <? k) k).
Definition lte (n : inode) (k : Z) : option (Z * nat) := downwards n (Some (fun b => b <=? k)).

(** n4.go 51-57, n16.go 11-16, n48.go 17-36, n256.go 14-33 [first], [last]. (In
    a node48 the code returns the slot for the key byte; no caller uses it.) *)
Definition first (n : inode) : option nat := option_map snd (next n None).
Definition lastKid (n : inode) : option nat := option_map snd (prev n None).

(** n4.go 42-49, n16.go 45-52 [index]. *)
Definition index (keys : bytes) (lth : nat) (k : Z) : nat :=
  match findIdx (fun b => k <=? b) 0 keys with Some i => i | None => lth end.

(** n4.go 134-142, n16.go 163-171, n48.go 136-147, n256.go 137-141 [addChild]. *)
Definition addChild (n : inode) (k : Z) (c : C) : res inode :=
  match n with
  | N4 lth keys cs =>
      let i := index keys lth k in
      if (i <? 4)%nat then Ok (N4 (S lth) (shiftIn i k keys) (shiftIn i (Some c) cs)) else Panic
  | N16 lth keys cs =>
      let i := index keys lth k in
      if (i <? 16)%nat then Ok (N16 (S lth) (shiftIn i k keys) (shiftIn i (Some c) cs)) else Panic
  | N48 lth keys cs =>
      match findIdx (fun o => negb (some o)) 0 cs with
      | Some i => Ok (N48 (S lth) (setn (Z.to_nat k) (Z.of_nat i + 1) keys) (setn i (Some c) cs))
      | None => Ok n
      end
  | N256 lth cs => Ok (N256 (S lth) (setn (Z.to_nat k) (Some c) cs))
  end.

(** n4.go 162-180, n16.go 139-157, n48.go 183-202, n256.go 117-131 [replace],
    with a child and with nil. *)
Definition replaceKid (n : inode) (idx : nat) (c : C) : inode :=
  match n with
  | N4 lth keys cs => N4 lth keys (setn idx (Some c) cs)
  | N16 lth keys cs => N16 lth keys (setn idx (Some c) cs)
  | N48 lth keys cs => N48 lth keys (setn (slot n idx) (Some c) cs)
  | N256 lth cs => N256 lth (setn idx (Some c) cs)
  end.
Definition removeKid (n : inode) (idx : nat) : inode :=
  match n with
  | N4 lth keys cs => N4 (lth - 1) (setn (lth - 1) 0 (shiftOut idx 0 keys)) (setn (lth - 1) None (shiftOut idx None cs))
  | N16 lth keys cs => N16 (lth - 1) (setn (lth - 1) 0 (shiftOut idx 0 keys)) (setn (lth - 1) None (shiftOut idx None cs))
  | N48 lth keys cs => N48 (lth - 1) (setn idx 0 keys) (setn (slot n idx) None cs)
  | N256 lth cs => N256 (lth - 1) (setn idx None cs)
  end.

(** n4.go 182-184, n16.go 159-161, n48.go 132-134, n256.go 133-135 [full]. *)
Definition full (n : inode) : bool :=
  match n with
  | N4 lth _ _ => (lth =? 4)%nat
  | N16 lth _ _ => (lth =? 16)%nat
  | N48 lth _ _ => (lth =? 48)%nat
  | N256 lth _ => (lth =? 256)%nat
  end.

(** n16.go 197-202: the byte table of the new node48. *)
Fixpoint tabulate (i : nat) (keys : bytes) (cs : list (option C)) (tab : bytes) : bytes :=
  match keys, cs with
  | k :: ks, Some _ :: r => tabulate (S i) ks r (setn (Z.to_nat k) (Z.of_nat i + 1) tab)
  | _ :: ks, None :: r => tabulate (S i) ks r tab
  | _, _ => tab
  end.

(** n4.go 186-193, n16.go 192-205, n48.go 169-181, n256.go 162-164 [grow]; nil for
    a node256, and the next call on it panics. *)
Definition grow (n : inode) : res inode :=
  match n with
  | N4 lth keys cs => Ok (N16 lth (keys ++ repeat 0 12) (cs ++ repeat None 12))
  | N16 lth keys cs => Ok (N48 lth (tabulate 0 keys cs (repeat 0 256)) (cs ++ repeat None 32))
  | N48 lth keys cs => Ok (N256 lth (map (fun w => if w =? 0 then None else nth (Z.to_nat (w - 1)) cs None) keys))
  | N256 _ _ => Panic
  end.

(** n4.go 195-197, n16.go 207-209, n48.go 204-206, n256.go 166-168 [min]. *)
Definition atMin (n : inode) : bool :=
  match n with
  | N4 lth _ _ => (lth <=? 2)%nat
  | N16 lth _ _ => (lth <=? 5)%nat
  | N48 lth _ _ => (lth <=? 17)%nat
  | N256 lth _ => (lth <=? 49)%nat
  end.

Definition pad {A} (n : nat) (d : A) (l : list A) : list A := firstn n l ++ repeat d (n - length l).

(** n48.go 212-223: the children in the order of their bytes. *)
Fixpoint compact (i : nat) (keys : bytes) (cs : list (option C)) : list (Z * C) :=
  match keys with
  | [] => []
  | w :: r =>
      if w =? 0 then compact (S i) r cs
      else match nth (Z.to_nat (w - 1)) cs None with
           | Some c => (Z.of_nat i, c) :: compact (S i) r cs
           | None => compact (S i) r cs
           end
  end.

(** n256.go 174-182: the byte table of the new node48. *)
Fixpoint numbered (count : Z) (cs : list (option C)) : bytes :=
  match cs with
  | [] => []
  | Some _ :: r => (count + 1) :: numbered (count + 1) r
  | None :: r => 0 :: numbered count r
  end.

(** n4.go 199-201, n16.go 211-218, n48.go 208-226, n256.go 170-185 [shrink]. A
    copy into a smaller array drops the rest; writing behind the end of it, as
    n48 and n256 would do with too many children, panics. *)
Definition shrink (n : inode) : res inode :=
  match n with
  | N4 _ _ _ => Panic
  | N16 lth keys cs => Ok (N4 lth (firstn 4 keys) (firstn 4 cs))
  | N48 lth keys cs =>
      let es := compact 0 keys cs in
      if (length es <=? 16)%nat
      then Ok (N16 lth (pad 16 0 (map fst es)) (pad 16 None (map (fun e => Some (snd e)) es)))
      else Panic
  | N256 lth cs =>
      let live := filter some cs in
      if (length live <=? 48)%nat
      then Ok (N48 lth (numbered 0 cs) (pad 48 None live))
      else Panic
  end.

Definition isN4 (n : inode) : bool := match n with N4 _ _ _ => true | _ => false end.

(** The indexes of the children in the order of their bytes, as the loops
    [for b != nil { ...; key, b = n.Node.next(&key) }] visit them. [fuel] is the
    number of bytes. *)
Fixpoint walk (fuel : nat) (n : inode) (k : option Z) : list nat :=
  match fuel with
  | O => []
  | S f => match next n k with Some (b, i) => i :: walk f n (Some b) | None => [] end
  end.
Definition visit (n : inode) : list nat := walk 257 n None.

End Inode.
Arguments inode : clear implicits.

(** ** The tree *)

(** node.go 54-67 [bnode], 212-244 [inner]. *)
Inductive bnode : Type :=
| BLeaf (pren : nat) (lf : leaf)
| BInner (pren : nat) (compressed : bytes) (prenOK : bool) (subN : nat) (node : inode bnode).

(** node.go 201-207 [Key.At]. *)
Definition At (k : bytes) (pos : nat) : Z := nth pos k 0.

(** inner.go 14-23 [comparePrefix]. *)
Fixpoint common (a b : bytes) : nat :=
  match a, b with
  | x :: a', y :: b' => if x =? y then S (common a' b') else O
  | _, _ => O
  end.
Definition comparePrefix (k1 k2 : bytes) (depth : nat) : nat := common (skipn depth k1) (skipn depth k2).

(** inner.go 30-39 [compressedMismatch]. It returns a negative number when the
    depth is greater than the length of the key. *)
Definition compressedMismatch (compressed key : bytes) (depth : nat) : Z :=
  if (length key <? depth)%nat then Z.of_nat (length key) - Z.of_nat depth
  else Z.of_nat (common compressed (skipn depth key)).

(** inner.go 240-251 [checkCompressed]: [None] for a full match, else whether the
    byte of the key is the greater one. *)
Fixpoint mismatch (compressed rest : bytes) : option bool :=
  match compressed, rest with
  | c :: cs, k :: ks => if c =? k then mismatch cs ks else Some (c <? k)
  | _, _ => None
  end.
Definition checkCompressed (compressed key : bytes) (depth : nat) : option bool := mismatch compressed (skipn depth key).

Definition prenOf (b : bnode) : nat := match b with BLeaf p _ => p | BInner p _ _ _ _ => p end.
Definition setPren (p : nat) (b : bnode) : bnode :=
  match b with BLeaf _ l => BLeaf p l | BInner _ c ok n nd => BInner p c ok n nd end.

(** node.go 92-98 [subn]. *)
Definition subn (b : bnode) : nat := match b with BLeaf _ _ => 1 | BInner _ _ _ n _ => n end.

(** inner.go 43-151 [inner.insert], leaf.go 160-204 [Leaf.insert]. *)
Fixpoint insert (lf : leaf) (depth : nat) (b : bnode) : res (bnode * bool) :=
  match b with
  | BLeaf pren l =>
      if lId l =? lId lf then Ok (b, false)
      else if beqb (lKey lf) (lKey l) then Ok (BLeaf pren lf, true)
      else
        let lp := comparePrefix (lKey l) (lKey lf) depth in
        do n1 <- addChild node4 (At (lKey l) (depth + lp)) (BLeaf 0 l) ;
        do n2 <- addChild n1 (At (lKey lf) (depth + lp)) (BLeaf 0 lf) ;
        Ok (BInner pren (firstn lp (skipn depth (lKey l))) false 2 n2, false)
  | BInner pren comp ok sub nd =>
      let mis := compressedMismatch comp (lKey lf) depth in
      if mis <? 0 then Panic
      else
        let m := Z.to_nat mis in
        if (m <? length comp)%nat then
          do n1 <- addChild node4 (At (lKey lf) (depth + m)) (BLeaf 0 lf) ;
          do n2 <- addChild n1 (nth m comp 0) (BInner 0 (skipn (S m) comp) false sub nd) ;
          Ok (BInner pren (firstn m comp) false (S sub) n2, false)
        else
          let nextDepth := (depth + m)%nat in
          let k := At (lKey lf) nextDepth in
          match child nd k with
          | None =>
              do n1 <- (if full nd then grow nd else Ok nd) ;
              do n2 <- addChild n1 k (BLeaf 0 lf) ;
              Ok (BInner pren comp false (S sub) n2, false)
          | Some idx =>
              do r <- withKid Panic (insert lf (S nextDepth)) nd idx ;
              let '(c', updated) := r in
              Ok (BInner pren comp (if updated : bool then ok else false) (if updated : bool then sub else S sub)
                         (replaceKid nd idx c'), updated)
          end
  end.

(** inner.go 330-343, leaf.go 229-231 [addPrefixBefore]. *)
Definition addPrefixBefore (comp : bytes) (key : Z) (b : bnode) : bnode :=
  match b with
  | BLeaf _ _ => b
  | BInner p c ok n nd => BInner p (comp ++ key :: c) ok n nd
  end.

(** What a removal leaves in place of the node, and the leaf removed. *)
Inductive removal := Absent | Removed (l : leaf) (rest : option bnode).

(** inner.go 153-230 [inner.del], leaf.go 206-215 [Leaf.del]. *)
Fixpoint del (key : bytes) (depth : nat) (b : bnode) : res removal :=
  match b with
  | BLeaf _ l => if beqb (lKey l) key then Ok (Removed l None) else Ok Absent
  | BInner pren comp ok sub nd =>
      match checkCompressed comp key depth with
      | Some _ => Ok Absent
      | None =>
          let nextDepth := (depth + length comp)%nat in
          match child nd (At key nextDepth) with
          | None => Ok Absent
          | Some idx =>
              match kid nd idx with
              | None => Panic
              | Some (BLeaf _ l) =>
                  if beqb (lKey l) key then
                    let nd' := removeKid nd idx in
                    if isN4 nd && atMin nd then
                      match next nd' None with
                      | None => Panic
                      | Some (lk, li) =>
                          match kid nd' li with
                          | None => Panic
                          | Some other => Ok (Removed l (Some (addPrefixBefore comp lk other)))
                          end
                      end
                    else
                      do nd2 <- (if atMin nd && negb (isN4 nd) then shrink nd' else Ok nd') ;
                      Ok (Removed l (Some (BInner pren comp false (sub - 1) nd2)))
                  else Ok Absent
              | Some (BInner _ _ _ _ _) =>
                  do r <- withKid Panic (del key (S nextDepth)) nd idx ;
                  match r with
                  | Removed l (Some c') => Ok (Removed l (Some (BInner pren comp false (sub - 1) (replaceKid nd idx c'))))
                  | Removed _ None => Panic
                  | Absent => Ok Absent
                  end
              end
          end
      end
  end.

(** node.go 420-467: the slots in the order in which [subTreeRedoPren] visits
    them. *)
Fixpoint live {C} (i : nat) (cs : list (option C)) : list nat :=
  match cs with [] => [] | Some _ :: r => i :: live (S i) r | None :: r => live (S i) r end.
Definition order {C} (n : inode C) : list nat :=
  match n with
  | N4 lth _ _ | N16 lth _ _ => seq 0 lth
  | N48 _ keys _ => map (fun w => Z.to_nat (w - 1)) (filter (fun w => negb (w =? 0)) keys)
  | N256 _ cs => live 0 cs
  end.

(** node.go 403-480 [subTreeRedoPren]: recompute [pren] below a node whose cache
    is stale. *)
Definition redoAll (redo : bnode -> res (bnode * nat)) : list (option bnode) -> res (list (option (bnode * nat))) :=
  fix go l :=
    match l with
    | [] => Ok []
    | None :: r => do r' <- go r ; Ok (None :: r')
    | Some c :: r => do c' <- redo c ; do r' <- go r ; Ok (Some c' :: r')
    end.

Fixpoint assign (slots : list nat) (acc : nat) (done : list (option (bnode * nat))) (cs : list (option bnode))
  : list (option bnode) * nat :=
  match slots with
  | [] => (cs, acc)
  | s :: r =>
      match nth s done None with
      | Some (c, n) => assign r (acc + n) done (setn s (Some (setPren acc c)) cs)
      | None => assign r acc done cs
      end
  end.

Definition setKids {C} (n : inode C) (cs : list (option C)) : inode C :=
  match n with
  | N4 l k _ => N4 l k cs
  | N16 l k _ => N16 l k cs
  | N48 l k _ => N48 l k cs
  | N256 l _ => N256 l cs
  end.

Fixpoint redo (b : bnode) : res (bnode * nat) :=
  match b with
  | BLeaf _ _ => Ok (b, 1%nat)
  | BInner pren comp ok sub nd =>
      if ok then Ok (b, sub)
      else
        do done <- redoAll redo (kids nd) ;
        let '(cs, count) := assign (order nd) 0 done (kids nd) in
        if (count =? sub)%nat then Ok (BInner pren comp true sub (setKids nd cs), count) else Panic
  end.

(** [id += next.pren] after [if !n.prenOK { selfb.subTreeRedoPren() }]: the count
    of a child of [b]. *)
Definition prenAt (b : bnode) (idx : nat) : res nat :=
  match b with
  | BLeaf _ _ => Panic
  | BInner _ _ _ _ _ =>
      do r <- redo b ;
      match fst r with
      | BInner _ _ _ _ nd' => match kid nd' idx with Some c => Ok (prenOf c) | None => Panic end
      | BLeaf _ _ => Panic
      end
  end.

(** The writes a search makes: some inner nodes have their cache filled. *)
Inductive refresh : bnode -> bnode -> Prop :=
| R_refl b : refresh b b
| R_redo b b' n : redo b = Ok (b', n) -> refresh b b'
| R_kid pren comp ok sub nd idx c c' :
    kid nd idx = Some c -> refresh c c' ->
    refresh (BInner pren comp ok sub nd) (BInner pren comp ok sub (replaceKid nd idx c'))
| R_trans a b c : refresh a b -> refresh b c -> refresh a c.

(** leaf.go 217-227, inner.go 268-323 [get]: leaf, found and index. *)
Fixpoint get (key : bytes) (depth : nat) (b : bnode) : res (option (leaf * nat)) :=
  match b with
  | BLeaf _ l => if beqb key (lKey l) then Ok (Some (l, 0%nat)) else Ok None
  | BInner _ comp _ _ nd =>
      match checkCompressed comp key depth with
      | Some _ => Ok None
      | None =>
          let nextDepth := (depth + length comp)%nat in
          match child nd (At key nextDepth) with
          | None => Ok None
          | Some idx =>
              do r <- withKid Panic (get key (S nextDepth)) nd idx ;
              do p <- prenAt b idx ;
              match r with
              | Some (l, id) => Ok (Some (l, (id + p)%nat))
              | None => Ok None
              end
          end
      end
  end.

(** node.go 324-370 [recursiveFirst], [recursiveLast]. *)
Fixpoint recursiveFirst (b : bnode) : option leaf :=
  match b with
  | BLeaf _ l => Some l
  | BInner _ _ _ _ nd => match first nd with Some i => withKid None recursiveFirst nd i | None => None end
  end.
Fixpoint recursiveLast (b : bnode) : option leaf :=
  match b with
  | BLeaf _ l => Some l
  | BInner _ _ _ _ nd => match lastKid nd with Some i => withKid None recursiveLast nd i | None => None end
  end.

(** gte.go 397-409 [byteCmp]. *)
Definition byteCmp (a b keyCmpPath : Z) : Z :=
  if negb (keyCmpPath =? 0) then keyCmpPath else dirOf (a ?= b).

(** What a search step returns: (value, found, dir, id). *)
Definition found4 := (option leaf * bool * Z * nat)%type.

Definition leafGet (key : bytes) (l : leaf) : found4 :=
  (Some l, beqb key (lKey l), dirOf (bcmp key (lKey l)), 0%nat).

(** gte.go 60-389, node.go 386-391 [getGTE]. [strict] for GT, [top] for calldepth == 0, [swd] for
    smallestWillDo. *)
Fixpoint getGTE (strict : bool) (key : bytes) (depth : nat) (top swd : bool) (keyCmp : Z) (b : bnode) : res found4 :=
  match b with
  | BLeaf _ l => Ok (leafGet key l)
  | BInner _ comp _ sub nd =>
      if swd then Ok (recursiveFirst b, true, 0, 0%nat)
      else match key with
      | [] => Ok (recursiveFirst b, true, 0, 0%nat)
      | _ =>
        if keyCmp =? 1 then Ok (recursiveLast b, false, 1, 0%nat)
        else if keyCmp =? -1 then Ok (recursiveFirst b, false, -1, 0%nat)
        else match checkCompressed comp key depth with
        | Some true => Ok (recursiveLast b, false, 1, 0%nat)
        | Some false => Ok (recursiveFirst b, false, -1, 0%nat)
        | None =>
            let nextDepth := (depth + length comp)%nat in
            let q := At key nextDepth in
            match gte nd q with
            | None => Ok (None, false, 2, 0%nat)
            | Some (nk, ni) =>
                do r <- withKid Panic (getGTE strict key (S nextDepth) false false (byteCmp q nk keyCmp)) nd ni ;
                do np <- prenAt b ni ;
                let '(value, found, dir, id) := r in
                if found : bool then
                  if negb strict then Ok (value, true, 0, (id + np)%nat)
                  else match value with
                  | None => Panic
                  | Some v =>
                      match bcmp (lKey v) key with
                      | Gt => Ok (value, true, 0, (id + np)%nat)
                      | _ =>
                          match next nd (Some nk) with
                          | None => Ok (None, false, 2, (id + np)%nat)
                          | Some (_, li) =>
                              do lp <- prenAt b li ;
                              Ok (withKid None recursiveFirst nd li, true, 0, lp)
                          end
                      end
                  end
                else if 0 <? dir then
                  match next nd (Some q) with
                  | None => Ok (None, false, 1, 0%nat)
                  | Some (nnk, nni) =>
                      let swd' := 1 <? dir in
                      do r2 <- withKid Panic (getGTE strict key nextDepth false swd' (byteCmp q nnk keyCmp)) nd nni ;
                      do np2 <- prenAt b nni ;
                      let '(value2, found2, dir2, id2) := r2 in
                      if found2 : bool then Ok (value2, true, 0, (id2 + np2)%nat)
                      else if dir2 <? 0 then Ok (value2, true, 0, (id2 + np2)%nat)
                      else Ok (value2, false, (if swd' then 2 else 1), (id2 + np2)%nat)
                  end
                else
                  match prev nd (Some q) with
                  | None => Ok (recursiveFirst b, top, -1, 0%nat)
                  | Some (pk, pi) =>
                      do r2 <- withKid Panic (getGTE strict key (S nextDepth) false false (byteCmp q pk keyCmp)) nd pi ;
                      do pp <- prenAt b pi ;
                      let '(value2, found2, dir2, id2) := r2 in
                      if found2 : bool then Ok (value2, true, 0, (id2 + pp)%nat)
                      else if 0 <? dir2 then Ok (withKid None recursiveFirst nd ni, true, 0, np)
                      else Ok (value2, false, dir2, (id2 + pp)%nat)
                  end
            end
        end
      end
  end.

(** lte.go 60-395, node.go 393-398 [getLTE]. [lwd] for largestWillDo. *)
Fixpoint getLTE (strict : bool) (key : bytes) (depth : nat) (top lwd : bool) (keyCmp : Z) (b : bnode) : res found4 :=
  match b with
  | BLeaf _ l => Ok (leafGet key l)
  | BInner _ comp _ sub nd =>
      if lwd then Ok (recursiveLast b, true, 0, (sub - 1)%nat)
      else match key with
      | [] => Ok (recursiveLast b, true, 0, (sub - 1)%nat)
      | _ =>
        if keyCmp =? 1 then Ok (recursiveLast b, false, 1, (sub - 1)%nat)
        else if keyCmp =? -1 then Ok (recursiveFirst b, false, -1, 0%nat)
        else match checkCompressed comp key depth with
        | Some true => Ok (recursiveLast b, top, 1, (sub - 1)%nat)
        | Some false => Ok (recursiveFirst b, false, -1, 0%nat)
        | None =>
            let nextDepth := (depth + length comp)%nat in
            let q := At key nextDepth in
            match lte nd q with
            | None => Ok (None, false, -2, 0%nat)
            | Some (pk, pi) =>
                do r <- withKid Panic (getLTE strict key (S nextDepth) false false (byteCmp q pk keyCmp)) nd pi ;
                do pp <- prenAt b pi ;
                let '(value, found, dir, id) := r in
                if found : bool then
                  if negb strict then Ok (value, true, 0, (id + pp)%nat)
                  else match value with
                  | None => Panic
                  | Some v =>
                      match bcmp (lKey v) key with
                      | Lt => Ok (value, true, 0, (id + pp)%nat)
                      | _ =>
                          match prev nd (Some pk) with
                          | None => Ok (None, false, -2, (id + pp)%nat)
                          | Some (_, li) =>
                              do lp <- prenAt b li ;
                              match kid nd li with
                              | None => Panic
                              | Some c => Ok (withKid None recursiveLast nd li, true, 0, (lp + subn c - 1)%nat)
                              end
                          end
                      end
                  end
                else if dir <? 0 then
                  match prev nd (Some q) with
                  | None => Ok (None, false, -1, 0%nat)
                  | Some (ppk, ppi) =>
                      let lwd' := dir <? -1 in
                      do r2 <- withKid Panic (getLTE strict key nextDepth false lwd' (byteCmp q ppk keyCmp)) nd ppi ;
                      do pp2 <- prenAt b ppi ;
                      let '(value2, found2, dir2, id2) := r2 in
                      if found2 : bool then Ok (value2, true, 0, (id2 + pp2)%nat)
                      else if 0 <? dir2 then Ok (value2, true, 0, (id2 + pp2)%nat)
                      else Ok (value2, false, (if lwd' then -2 else 1), (id2 + pp2)%nat)
                  end
                else
                  match next nd (Some q) with
                  | None => Ok (recursiveLast b, top, 1, (sub - 1)%nat)
                  | Some (nk, ni) =>
                      do r2 <- withKid Panic (getLTE strict key (S nextDepth) false false (byteCmp q nk keyCmp)) nd ni ;
                      do np <- prenAt b ni ;
                      let '(value2, found2, dir2, id2) := r2 in
                      if found2 : bool then Ok (value2, true, 0, (id2 + np)%nat)
                      else if dir2 <? 0 then
                        match kid nd pi with
                        | None => Panic
                        | Some c => Ok (withKid None recursiveLast nd pi, true, 0, (pp + subn c - 1)%nat)
                        end
                      else Ok (value2, false, dir2, (id2 + np)%nat)
                  end
            end
        end
      end
  end.

(** node.go 100-136 [bnode.at]. *)
Fixpoint at_ (b : bnode) (i : Z) : option leaf :=
  if i <? 0 then None
  else match b with
  | BLeaf _ l => if i =? 0 then Some l else None
  | BInner _ _ _ sub nd =>
      if Z.of_nat sub <=? i then None
      else
        (fix go (is : list nat) (tot : Z) : option leaf :=
           match is with
           | [] => None
           | j :: r =>
               match kid nd j with
               | None => None
               | Some c =>
                   if i <? tot + Z.of_nat (subn c) then withKid None (fun c => at_ c (i - tot)) nd j
                   else go r (tot + Z.of_nat (subn c))
               end
           end) (visit nd) 0
  end.

(** ** The API *)

(** iterator.go 61-85 [iterator]. The stack holds nodes and the byte last
    visited in each. *)
Record iterator := mkIter { itVersion : Z; itStack : list (inode bnode * option Z); itClosed : bool;
  itCursor : bytes; itTerminate : bytes; itReverse : bool; itIdx : Z; itLeaf : option leaf }.

(** tree.go 80-136 [Tree]. *)
Record tree := mkTree { root : option bnode; size : Z; version : Z; atCache : option iterator }.
Definition newTree : tree := mkTree None 0 0 None.

(** tree.go 206-233 [InsertLeaf]; [Insert] (188-200) calls it with a new leaf. *)
Definition insertLeaf (lf : leaf) (t : tree) : res (tree * bool) :=
  match root t with
  | None => Ok (mkTree (Some (BLeaf 0 lf)) (size t + 1) (version t + 1) (atCache t), false)
  | Some r =>
      do x <- insert lf 0 r ;
      let '(r', updated) := x in
      Ok (mkTree (Some r') (if updated : bool then size t else size t + 1) (version t + 1) (atCache t), updated)
  end.

(** tree.go 439-460 [Remove]. *)
Definition remove (key : bytes) (t : tree) : res (tree * option leaf) :=
  match root t with
  | None => Ok (t, None)
  | Some r =>
      do x <- del key 0 r ;
      match x with
      | Absent => Ok (t, None)
      | Removed l rest => Ok (mkTree rest (size t - 1) (version t + 1) (atCache t), Some l)
      end
  end.

(** tree.go 407-416 [SearchModifier]. *)
Inductive smod := Exact | GTE | LTE | GT | LT.

Definition answer (r : found4) : option (leaf * nat) :=
  let '(v, f, _, id) := r in
  match v with Some l => if f : bool then Some (l, id) else None | None => None end.

(** tree.go 369-400: what a search in a tree of one leaf adds. *)
Definition single (m : smod) (r : found4) : found4 :=
  let '(v, f, dir, id) := r in
  match m with
  | GTE => (v, f || (dir <=? 0), dir, id)
  | GT => (v, f || (dir <? 0), dir, id)
  | LTE => (v, f || (0 <=? dir), dir, id)
  | LT => (v, f || (0 <? dir), dir, id)
  | Exact => r
  end.

(** tree.go 343-405 [find_unlocked]: the leaf found and its index. *)
Definition find (m : smod) (key : bytes) (t : tree) : res (option (leaf * nat)) :=
  match root t with
  | None => Ok None
  | Some b =>
      if (match key with [] => true | _ => false end) && (size t =? 1)
      then match b with BLeaf _ l => Ok (Some (l, 0%nat)) | BInner _ _ _ _ _ => Ok None end
      else
        let fix1 r := if size t =? 1 then single m r else r in
        match m with
        | GTE | GT => do r <- getGTE (match m with GT => true | _ => false end) key 0 true false 0 b ; Ok (answer (fix1 r))
        | LTE | LT => do r <- getLTE (match m with LT => true | _ => false end) key 0 true false 0 b ; Ok (answer (fix1 r))
        | Exact => get key 0 b
        end
  end.

(** tree.go 537-551 [Atfar]. *)
Definition atfar (i : Z) (t : tree) : option leaf := match root t with None => None | Some b => at_ b i end.

(** ** Iterators *)

Definition closedIter : iterator := mkIter 0 [] true [] [] false 0 None.

(** iterator.go 116-154 [Iter], 195-240 [RevIter]. *)
Definition iter (start endx : bytes) (t : tree) : res iterator :=
  match root t with
  | None => Ok closedIter
  | Some _ =>
      if size t <? 1 then Ok closedIter
      else
        do a <- find GTE start t ;
        match a with
        | None => Ok closedIter
        | Some (_, beg) =>
            do z <- find LT endx t ;
            match z with
            | None => Ok closedIter
            | Some _ => Ok (mkIter (version t) [] false start endx false (Z.of_nat beg - 1) None)
            end
        end
  end.
Definition revIter (endx start : bytes) (t : tree) : res iterator :=
  match root t with
  | None => Ok closedIter
  | Some _ =>
      if size t <? 1 then Ok closedIter
      else
        do a <- find LTE start t ;
        match a with
        | None => Ok closedIter
        | Some (_, beg) =>
            do z <- find GT endx t ;
            match z with
            | None => Ok closedIter
            | Some _ => Ok (mkIter (version t) [] false start endx true (Z.of_nat beg + 1) None)
            end
        end
  end.

(** iterator.go 449-458 [inRange]. *)
Definition inRange (it : iterator) (key : bytes) : bool :=
  let c := itCursor it in let z := itTerminate it in
  if itReverse it
  then ((match bcmp key c with Gt => false | _ => true end) || (match c with [] => true | _ => false end)) &&
       ((match z with [] => true | _ => false end) || (match bcmp key z with Gt => true | _ => false end))
  else (match bcmp key c with Lt => false | _ => true end) &&
       ((match z with [] => true | _ => false end) || (match bcmp key z with Lt => true | _ => false end)).

Definition setStack (s : list (inode bnode * option Z)) (it : iterator) : iterator :=
  mkIter (itVersion it) s (itClosed it) (itCursor it) (itTerminate it) (itReverse it) (itIdx it) (itLeaf it).
Definition setClosed (it : iterator) : iterator :=
  mkIter (itVersion it) (itStack it) true (itCursor it) (itTerminate it) (itReverse it) (itIdx it) (itLeaf it).

(** iterator.go 368-409 [tryAdvance], 348-366 [iterate] (tryAdvance never asks
    for a restart): [None] when [fuel] is used up. *)
Fixpoint iterate (fuel : nat) (it : iterator) : option (iterator * bool) :=
  match fuel with
  | O => None
  | S f =>
      match itStack it with
      | [] => Some (setClosed it, false)
      | (n, cur) :: below =>
          match (if itReverse it then prev n cur else next n cur) with
          | None => iterate f (setStack below it)
          | Some (k, i) =>
              match kid n i with
              | None => iterate f (setStack below it)
              | Some (BLeaf _ l) =>
                  let st := (n, Some k) :: below in
                  if inRange it (lKey l)
                  then Some (mkIter (itVersion it) st (itClosed it) (lKey l) (itTerminate it) (itReverse it) (itIdx it) (Some l), true)
                  else iterate f (setStack st it)
              | Some (BInner _ _ _ _ nd) => iterate f (setStack ((nd, None) :: (n, Some k) :: below) it)
              end
          end
      end
  end.

(** iterator.go 251-319 [Next], 323-346 [init]. *)
Definition nextStep (fuel : nat) (t : tree) (it : iterator) : res (option (iterator * bool)) :=
  match itStack it with
  | [] =>
      match root t with
      | None => Ok (Some (setClosed it, false))
      | Some (BLeaf _ l) =>
          if inRange it (lKey l)
          then Ok (Some (mkIter (itVersion it) [] true (itCursor it) (itTerminate it) (itReverse it) (itIdx it) (Some l), true))
          else Ok (Some (setClosed it, false))
      | Some (BInner _ _ _ _ nd) => Ok (iterate fuel (setStack [(nd, None)] it))
      end
  | _ => Ok (iterate fuel it)
  end.

Definition nextIter (fuel : nat) (t : tree) (it : iterator) : res (option (iterator * bool)) :=
  if itClosed it then Ok (Some (it, false))
  else if negb (itVersion it =? version t) then
    do a <- find (if itReverse it then LT else GT) (itCursor it) t ;
    match a with
    | None => Ok (Some (setClosed it, false))
    | Some (l, idx) =>
        nextStep fuel t (mkIter (version t) [] false (lKey l) (itTerminate it) (itReverse it) (Z.of_nat idx) (Some l))
    end
  else
    nextStep fuel t (mkIter (itVersion it) (itStack it) false (itCursor it) (itTerminate it) (itReverse it)
                            (if itReverse it then itIdx it - 1 else itIdx it + 1) (itLeaf it)).

(** tree.go 553-601 [at_unlocked]. *)
Definition at_cached (fuel : nat) (i : Z) (t : tree) : res (option (tree * option leaf)) :=
  match root t with
  | None => Ok (Some (t, None))
  | Some b =>
      let slow :=
        match at_ b i with
        | Some l =>
            if 1 <? size t then
              do it <- iter (lKey l) [] t ;
              do r <- nextIter fuel t it ;
              match r with
              | Some (it', _) => Ok (Some (mkTree (root t) (size t) (version t) (Some it'), Some l))
              | None => Ok None
              end
            else Ok (Some (mkTree (root t) (size t) (version t) None, Some l))
        | None => Ok (Some (mkTree (root t) (size t) (version t) None, None))
        end in
      match atCache t with
      | Some it =>
          if (itVersion it =? version t) && (i =? itIdx it + 1) then
            do r <- nextIter fuel t it ;
            match r with
            | None => Ok None
            | Some (it', true) => Ok (Some (mkTree (root t) (size t) (version t) (Some it'), itLeaf it'))
            | Some (_, false) => slow
            end
          else slow
      | None => slow
      end
  end.
