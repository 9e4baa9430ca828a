(** Directory sync (jsync/dirscan.go, walk.go, dirgiver.go, dirtaker.go): the
    giver walks its tree and sends a listing in packs; the taker makes the
    directories, compares each file with its own, fetches those that differ and
    removes what the giver does not have.

    Not modelled: the wire, progress reports and byte counts other than the
    announced total; following symlinks (FollowSymlinks is false,
    walk.go:46-53); the temp-dir variant (useTempDir is false, dirtaker.go);
    a giver tree that changes during the sync; cancellation. The content of one
    file is fetched by [Taker], which has its own model (Sync_*.v); here it
    arrives whole. *)
From Coq Require Import List ZArith Bool Lia Arith.
Import ListNotations.
Local Open Scope Z_scope.

(** ** The taker's file system *)

(* An absolute path. Names are numbers; a name is never "." or "..". *)
Definition path := list nat.
Definition path_dec : forall a b : path, {a = b} + {a <> b} := list_eq_dec Nat.eq_dec.

(* What is at a path. Times are in nanoseconds. Simplified: directories have no
   size or time. *)
Inductive node := NDir (mode : Z) | NFile (data : list nat) (time mode : Z) | NLink (target : list nat) (time : Z).

Definition fsys := list (path * node).

Definition is (p q : path) : bool := if path_dec p q then true else false.

Fixpoint get (f : fsys) (p : path) : option node :=
  match f with [] => None | (q, n) :: f' => if is q p then Some n else get f' p end.

Definition drop (p : path) (f : fsys) : fsys := filter (fun x => negb (is (fst x) p)) f.
Definition put (p : path) (n : node) (f : fsys) : fsys := (p, n) :: drop p f.

(* [p] is [top] or beneath it. *)
Definition under (top p : path) : bool := is (firstn (length top) p) top.

(* os.RemoveAll *)
Definition dropAll (p : path) (f : fsys) : fsys := filter (fun x => negb (under p (fst x))) f.

(* os.Remove; the error for a directory that is not empty is ignored by all callers
   modelled here (dirtaker.go:484, 650). *)
Definition removeOne (p : path) (f : fsys) : fsys :=
  match get f p with
  | None => f
  | Some (NDir _) => if existsb (fun x => under p (fst x) && negb (is (fst x) p)) f then f else drop p f
  | Some _ => drop p f
  end.

(* os.MkdirAll(p, 0700), p being pre ++ rest. Simplified: a symlink on the way is an
   error even where it leads to a directory. *)
Fixpoint mkdirs (pre rest : path) (f : fsys) : option fsys :=
  match rest with
  | [] => Some f
  | n :: r => let p := pre ++ [n] in
      match get f p with
      | Some (NDir _) => mkdirs p r f
      | Some _ => None
      | None => mkdirs p r (put p (NDir 448) f)
      end
  end.

(* os.Chmod. Simplified: an error on a symlink. *)
Definition chmod (p : path) (m : Z) (f : fsys) : option fsys :=
  match get f p with
  | Some (NDir _) => Some (put p (NDir m) f)
  | Some (NFile d t _) => Some (put p (NFile d t m) f)
  | _ => None
  end.

Definition hasParent (p : path) (f : fsys) : bool :=
  match removelast p with
  | [] => true
  | q => match get f q with Some (NDir _) => true | _ => false end
  end.

(** ** The giver's listing *)

(* A path as it is sent: relative to the top, possibly with "..". *)
Inductive seg := Up | Nm (n : nat).
Definition rpath := list seg.
Definition seg_dec : forall a b : seg, {a = b} + {a <> b}.
Proof. decide equality. apply Nat.eq_dec. Defined.
Definition rpath_dec : forall a b : rpath, {a = b} + {a <> b} := list_eq_dec seg_dec.

Inductive kind := KLeaf | KMid | KFile | KLink (target : list nat).

(* dirscan.go: type File *)
Record entry := Ent { ePath : rpath; eKind : kind; eSize : Z; eTime : Z; eMode : Z }.

(* The giver's tree; the times of directories are not sent on. *)
Inductive tree := TFile (data : list nat) (time mode : Z) | TLink (target : list nat) (time : Z)
  | TDir (mode : Z) (kids : list (nat * tree)).

Definition isDir (t : tree) : bool := match t with TDir _ _ => true | _ => false end.

(* walk.go:344-509 OneWalkForAll: what is in a directory first, then the directory,
   which is a leaf directory if it has no subdirectories. *)
Fixpoint visit (p : rpath) (t : tree) : list entry :=
  match t with
  | TFile d tm m => [Ent p KFile (Z.of_nat (length d)) tm m]
  | TLink tg tm => [Ent p (KLink tg) (Z.of_nat (length tg)) tm 511]
  | TDir m kids =>
      flat_map (fun k => visit (p ++ [Nm (fst k)]) (snd k)) kids ++
      [Ent p (if existsb (fun k => isDir (snd k)) kids then KMid else KLeaf) 0 0 m]
  end.

Definition isLeaf (e : entry) : bool := match eKind e with KLeaf => true | _ => false end.
Definition isMid (e : entry) : bool := match eKind e with KMid => true | _ => false end.

(* dirscan.go ScanDirTreeOnePass, "switch f.ScanFlags" and "all = append(...)": leaf
   directories, then files and symlinks, then the other directories. *)
Definition listing (t : tree) : list entry :=
  let l := visit [] t in
  filter isLeaf l ++ filter (fun e => negb (isLeaf e) && negb (isMid e)) l ++ filter isMid l.

(* dirscan.go: type PackOfFiles *)
Record pof := Pof { pPack : list entry; pLast : bool; pBytes : Z }.

Section Pack.
Variable msize : entry -> Z.   (* File.Msgsize *)
Variable empty : Z.            (* Msgsize of an empty pack *)
Variable max : Z.              (* rpc.UserMaxPayload - 10_000 *)

(* PackOfFiles.Msgsize *)
Definition packSize (l : list entry) : Z := empty + fold_right (fun e a => msize e + a) 0 l.

(* dirscan.go ScanDirTreeOnePass, "for _, f := range all". *)
Fixpoint packs (have : Z) (cur : pof) (l : list entry) : list pof :=
  match l with
  | [] => [Pof (pPack cur) true (pBytes cur)]
  | e :: l' =>
      if have + msize e <? max
      then let c := Pof (pPack cur ++ [e]) false (pBytes cur + eSize e) in
           packs (have + packSize (pPack c)) c l'
      else cur :: packs (packSize [e]) (Pof [e] false 0) l'
  end.

Definition sendListing (t : tree) : list pof := packs (packSize []) (Pof [] false 0) (listing t).
End Pack.

(** ** The taker *)

(* filepath.Join(top, p): ".." takes a name off, lexically. *)
Definition join (top : path) (p : rpath) : path :=
  fold_left (fun acc s => match s with Up => removelast acc | Nm n => acc ++ [n] end) p top.

Definition second (t : Z) : Z := t / 1000000000.
Definition nSize (n : node) : Z :=
  match n with NDir _ => -1 | NFile d _ _ => Z.of_nat (length d) | NLink t _ => Z.of_nat (length t) end.
Definition nTime (n : node) : Z := match n with NDir _ => 0 | NFile _ t _ => t | NLink _ t => t end.

(* dirtaker.go:567-679 takeOneFile: the file system after, and whether the file is put on
   the list to fetch; None is a panic. A file of the same size and second is left alone. *)
Definition takeOne (top : path) (f : fsys) (e : entry) : option (fsys * bool) :=
  let p := join top (ePath e) in
  match eKind e with
  | KLink t =>
      let relink :=
        let f1 := removeOne p f in
        match get f1 p with
        | Some _ => None
        | None => if hasParent p f1 then Some (put p (NLink t (eTime e)) f1, false) else None
        end in
      match get f p with
      | Some (NLink t' _) => if path_dec t' t then Some (put p (NLink t (eTime e)) f, false) else relink
      | _ => relink
      end
  | _ =>
      match get f p with
      | None => Some (f, true)
      | Some n => Some (f, negb ((second (nTime n) =? second (eTime e)) && (nSize n =? eSize e)))
      end
  end.

(* dirtaker.go:329-380, one entry of a pack. Only a leaf directory's path is looked at
   for "..", and only its beginning. Simplified: the files of a listing are checked one
   after the other, not by several goroutines; each check touches its own path only. *)
Definition takeEntry (top : path) (f : fsys) (e : entry) : option (fsys * bool) :=
  let p := join top (ePath e) in
  match eKind e with
  | KLeaf => match ePath e with
             | Up :: _ => None
             | _ => option_map (fun g => (g, false)) (mkdirs [] p f)
             end
  | KMid => option_map (fun g => (g, false)) (chmod p (eMode e) f)
  | _ => takeOne top f e
  end.

(* All packs: the file system and the files to fetch. *)
Fixpoint takeAll (top : path) (f : fsys) (l : list entry) : option (fsys * list entry) :=
  match l with
  | [] => Some (f, [])
  | e :: l' =>
      match takeEntry top f e with
      | None => None
      | Some (g, need) =>
          match takeAll top g l' with
          | None => None
          | Some (h, needs) => Some (h, if need then e :: needs else needs)
          end
      end
  end.

(* dirtaker.go:768-926, one file of dirTakerRequestIndivFiles; None is a panic in the
   worker. A path that exists and is not empty is a panic: the assertion of lines 839-842
   has the test the wrong way round ("if syncReq.Chunks != nil { panic"), and chunks are
   not nil here by line 793. Simplified: a directory or a symlink at the path is a panic
   too. [give] is what the giver's file at a path holds. *)
Definition fetch (top : path) (give : rpath -> list nat) (f : fsys) (e : entry) : option fsys :=
  let p := join top (ePath e) in
  match get f p with
  | None | Some (NFile [] _ _) =>
      if hasParent p f then Some (put p (NFile (give (ePath e)) (eTime e) (eMode e)) f) else None
  | _ => None
  end.

Definition fails (top : path) (give : rpath -> list nat) (f : fsys) (e : entry) : bool :=
  match fetch top give f e with None => true | Some _ => false end.

(* dirtaker.go:681-985 dirTakerRequestIndivFiles. A panic of one worker stops the batch:
   which of the other files are still fetched depends on the schedule ([fin]). The error
   is printed and dropped (dirtaker.go:413-421), so there is no result but the files. *)
Definition fetchAll (top : path) (give : rpath -> list nat) (fin : entry -> bool) (f : fsys) (needs : list entry) : fsys :=
  let bad := existsb (fails top give f) needs in
  fold_left (fun g e => match fetch top give g e with
                        | None => g
                        | Some h => if negb bad || fin e then h else g
                        end) needs f.

(* dirtaker.go:247-253: the taker's own paths beneath its top directory, and which are
   directories, by their names relative to the top. *)
Definition catalog (top : path) (f : fsys) : list (path * bool) :=
  map (fun x => (fst x, match snd x with NDir _ => true | _ => false end))
      (filter (fun x => under top (fst x) && negb (is (fst x) top)) f).

Definition relName (top p : path) : rpath := map Nm (skipn (length top) p).

(* takerCatalog.Del(f.Path) for every entry of the listing. *)
Definition leftovers (top : path) (f : fsys) (l : list entry) : list (path * bool) :=
  filter (fun x => negb (existsb (fun e => if rpath_dec (ePath e) (relName top (fst x)) then true else false) l)) (catalog top f).

(* dirtaker.go:466-487 *)
Definition removeLeft (dry : bool) (f : fsys) (x : path * bool) : fsys :=
  if dry then f else if snd x then dropAll (fst x) f else removeOne (fst x) f.

(* dirtaker.go:236-517, the whole listing; None is a panic, which the user sees as an error. *)
Definition dirTake (top : path) (dry : bool) (give : rpath -> list nat) (fin : entry -> bool) (f : fsys) (l : list entry) : option fsys :=
  match takeAll top f l with
  | None => None
  | Some (g, needs) => Some (fold_left (removeLeft dry) (leftovers top f l) (fetchAll top give fin g needs))
  end.
