(** Model of /repo/dmap.go (identical up to names: /repo/tube/dmap.go): the
    deterministic map whose keys carry an id() string.

    The tree, its nodes and the heap of ikv structs are as in Omap_Model; an ikv
    is the pair of its key object and its value, and the node carries ikv.id.
    ikv.it is the node itself.  [Id] is the type of id() strings with their
    order, [Obj] the type of key objects; isNil keys (ignored by set, get2 and
    delkey) are not modelled.  The Go map s.idx is a list of (id, node pointer)
    pairs; nil and empty Go maps are both []. *)
From Coq Require Import List NArith Arith Lia Bool.
From Verif Require Import Base Omap_Model Omap_Spec.
Import ListNotations.

Section Dmap.
Context {Id Obj V : Type} (cmp : Id -> Id -> comparison) (id : Obj -> Id).

(** dmap.go:78-91 type dmap: tree, heap, version, ordercache, cacheversion in
    [d_om]; idx in [d_idx]. *)
Record dmap := mkDmap { d_om : @omap Id (Obj * V); d_idx : list (Id * nat) }.

(** dmap.go:112-127 newDmap *)
Definition newDmap : dmap := mkDmap newOmap [].

(** s.idx[id] *)
Fixpoint idxGet (m : list (Id * nat)) (i : Id) : option nat :=
  match m with
  | [] => None
  | (j, p) :: r => if same cmp j i then Some p else idxGet r i
  end.
(** delete(s.idx, id) *)
Definition idxDel (m : list (Id * nat)) (i : Id) : list (Id * nat) :=
  filter (fun n => negb (same cmp (fst n) i)) m.

(** dmap.go:137-139 Len *)
Definition dLen (d : dmap) : nat := List.length (d_idx d).

(** dmap.go:263-297 set *)
Definition dset (d : dmap) (key : Obj) (v : V) : res (bool * dmap) :=
  let s := d_om d in
  match idxGet (d_idx d) (id key) with
  | None =>
      let p := List.length (o_heap s) in
      match findGE cmp (o_tree s) (id key) with
      | (_, true) => Panic           (* "should have hit in s.idx, out of sync with tree" *)
      | _ => Ok (true, mkDmap (mkOmap (tInsert cmp (o_tree s) (id key) p) (o_heap s ++ [(key, v)]) (o_ver s + 1) [] 0)
                              ((id key, p) :: d_idx d))
      end
  | Some p =>
      match nth_error (o_heap s) p with
      | Some (key0, _) => Ok (false, mkDmap (mkOmap (o_tree s) (hset (o_heap s) p (key0, v)) (o_ver s + 1) [] 0) (d_idx d))
      | None => Panic
      end
  end.

(** dmap.go:171-205 delkey *)
Definition ddelkey (d : dmap) (key : Obj) : res (bool * iterator Id * dmap) :=
  let s := d_om d in
  match idxGet (d_idx d) (id key) with
  | None => Ok (false, None, d)
  | Some p =>
      do next <- tNext (o_tree s) p ;
      Ok (true, next, mkDmap (mkOmap (tDelete (o_tree s) p) (o_heap s) (o_ver s + 1) [] 0) (idxDel (d_idx d) (id key)))
  end.

(** dmap.go:207-246 deleteWithIter. The presence test is by id, the deletion by
    the iterator passed in. Next on (and deletion of) a node that is no longer
    in the tree is undefined in rbtree: [Panic]. *)
Definition ddeleteWithIter (d : dmap) (it : iterator Id) : res (bool * iterator Id * dmap) :=
  let s := d_om d in
  match it with
  | None => Ok (false, None, d)
  | Some (i, p) =>
      match idxGet (d_idx d) i with
      | None => Ok (false, None, d)
      | Some _ =>
          do next <- tNext (o_tree s) p ;
          Ok (true, next, mkDmap (mkOmap (tDelete (o_tree s) p) (o_heap s) (o_ver s + 1) [] 0) (idxDel (d_idx d) i))
      end
  end.

(** dmap.go:248-255 deleteAll *)
Definition ddeleteAll (d : dmap) : dmap := mkDmap (deleteAll (d_om d)) [].

(** dmap.go:95-110 cached: the code is that of omap. *)
Definition dcached (d : dmap) : list (node Id) * dmap :=
  let (l, s) := cached (d_om d) in (l, mkDmap s (d_idx d)).

(** dmap.go:480-497 get2 *)
Definition dget2 (d : dmap) (key : Obj) : res (option V) :=
  match idxGet (d_idx d) (id key) with
  | None => Ok None
  | Some p => match nth_error (o_heap (d_om d)) p with Some (_, v) => Ok (Some v) | None => Panic end
  end.

(** dmap.go:526-541 getikv: the key object found and its iterator. *)
Definition dgetikv (d : dmap) (key : Obj) : option nat := idxGet (d_idx d) (id key).

(** getikv followed by an assignment to ikv.val. *)
Definition dpoke (d : dmap) (key : Obj) (v : V) : res dmap :=
  let s := d_om d in
  match dgetikv d key with
  | None => Ok d
  | Some p => match nth_error (o_heap s) p with
              | Some (key0, _) => Ok (mkDmap (mkOmap (o_tree s) (hset (o_heap s) p (key0, v)) (o_ver s) (o_cache s) (o_cver s)) (d_idx d))
              | None => Panic
              end
  end.

(** ** Ranging: dmap.go:303-387 all. *)
Context {U : Type}.
Definition dbody : Type := U -> Obj -> V -> dmap -> res (U * dmap * bool).
Definition dout : Type := option (U * dmap * list (Obj * V)).
Definition daddOut (kv : Obj * V) (r : res dout) : res dout :=
  do o <- r ; Ok (match o with Some (u, s, l) => Some (u, s, kv :: l) | None => None end).

(** dmap.go:337-349 *)
Fixpoint dslowLoop (y : dbody) (fuel : nat) (it : iterator Id) (u : U) (d : dmap) : res dout :=
  match it with
  | None => Ok (Some (u, d, []))
  | Some (_, p) =>
      match fuel with O => Ok None | S f =>
        do it' <- tNext (o_tree (d_om d)) p ;
        do (k, v) <- deref (d_om d) p ;
        do (u', d', cont) <- y u k v d ;
        daddOut (k, v) (if cont then dslowLoop y f it' u' d' else Ok (Some (u', d', [])))
      end
  end.

(** dmap.go:319-353: over the order cache; the next iterator is kv.it.Next(). *)
Fixpoint dhotLoop (y : dbody) (fuel : nat) (vers : N) (cache : list (node Id)) (i : nat) (u : U) (d : dmap) : res dout :=
  match cache with
  | [] => Ok (Some (u, d, []))
  | (_, p) :: rest =>
      do nextit <- tNext (o_tree (d_om d)) p ;
      do (k, v) <- deref (d_om d) p ;
      do (u', d', cont) <- y u k v d ;
      daddOut (k, v)
        (if negb cont then Ok (Some (u', d', []))
         else if N.eqb (o_ver (d_om d')) vers then dhotLoop y fuel vers rest (S i) u' d'
         else if Nat.leb (Len (d_om d')) (S i) then Ok (Some (u', d', []))     (* i >= n2-1 *)
         else dslowLoop y fuel nextit u' d')
  end.

(** dmap.go:355-385 *)
Fixpoint dcoldLoop (y : dbody) (fuel : nat) (vers : N) (good : bool) (it : iterator Id) (u : U) (d : dmap) : res dout :=
  match it with
  | None => Ok (Some (u, d, []))
  | Some (i, p) =>
      match fuel with O => Ok None | S f =>
        let s := d_om d in
        do it' <- tNext (o_tree s) p ;
        let s1 := if good then mkOmap (o_tree s) (o_heap s) (o_ver s) (o_cache s ++ [(i, p)]) (o_cver s) else s in
        do (k, v) <- deref s1 p ;
        do (u', d', cont) <- y u k v (mkDmap s1 (d_idx d)) ;
        daddOut (k, v)
          (if negb cont then Ok (Some (u', d', []))
           else if negb (N.eqb (o_ver (d_om d')) vers)
           then dcoldLoop y f vers false it' u'
                  (mkDmap (mkOmap (o_tree (d_om d')) (o_heap (d_om d')) (o_ver (d_om d')) [] 0) (d_idx d'))
           else dcoldLoop y f vers good it' u' d')
      end
  end.

Definition dall (y : dbody) (fuel : nat) (u : U) (d : dmap) : res dout :=
  let s := d_om d in
  let vers := o_ver s in
  if cacheHit s then dhotLoop y fuel vers (o_cache s) 0 u d
  else dcoldLoop y fuel vers true (tMin (o_tree s)) u
         (mkDmap (mkOmap (o_tree s) (o_heap s) (o_ver s) [] vers) (d_idx d)).

End Dmap.
Arguments dmap : clear implicits.

(** A loop body that only looks, and stops after [n] elements. *)
Definition dlookBody {Id Obj V : Type} (n : nat) : @dbody Id Obj V nat :=
  fun u _ _ s => Ok (S u, s, Nat.ltb (S u) n).

(** A history of calls by one user. [DDelIter n] passes the iterator of the
    [n]-th node ever allocated (counted from 0), live or stale: iterators are
    handed out by getikv, delkey and cached() (as ikv.it). *)
Inductive dop (Obj V : Type) :=
| DSet (k : Obj) (v : V)
| DDel (k : Obj)
| DDelIter (n : nat)
| DDelAll
| DPoke (k : Obj) (v : V)         (* getikv(k).val = v *)
| DCached
| DAll (limit : nat).
Arguments DSet {Obj V}. Arguments DDel {Obj V}. Arguments DDelIter {Obj V}. Arguments DDelAll {Obj V}.
Arguments DPoke {Obj V}. Arguments DCached {Obj V}. Arguments DAll {Obj V}.

(** The iterator of the n-th allocated node (the node's item is the ikv). *)
Definition nthIter {Id Obj V} (id : Obj -> Id) (d : dmap Id Obj V) (n : nat) : iterator Id :=
  match nth_error (o_heap (d_om d)) n with Some (k, _) => Some (id k, n) | None => None end.

Definition dstep {Id Obj V} (cmp : Id -> Id -> comparison) (id : Obj -> Id) (d : dmap Id Obj V) (o : dop Obj V)
  : res (dmap Id Obj V) :=
  match o with
  | DSet k v => do (_, d') <- dset cmp id d k v ; Ok d'
  | DDel k => do (_, _, d') <- ddelkey cmp id d k ; Ok d'
  | DDelIter n => do (_, _, d') <- ddeleteWithIter cmp d (nthIter id d n) ; Ok d'
  | DDelAll => Ok (ddeleteAll d)
  | DPoke k v => dpoke cmp id d k v
  | DCached => Ok (snd (dcached d))
  | DAll n => do r <- dall (dlookBody n) (Len (d_om d)) O d ;
              match r with Some (_, d', _) => Ok d' | None => Panic end
  end.

Definition drun {Id Obj V} (cmp : Id -> Id -> comparison) (id : Obj -> Id) (ops : list (dop Obj V)) : res (dmap Id Obj V) :=
  run_res (dstep cmp id) newDmap ops.
