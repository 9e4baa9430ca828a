(** Model of /repo/omap.go (identical up to exported names: /repo/tube/omap.go).

    The red-black tree of github.com/glycerine/rbtree is not in the repository
    and is trusted to be an ordered set of node pointers: here it is the list of
    its nodes in key order.  A node is a (key, pointer to okv) pair; an okv
    pointer is an index into the heap [o_heap] of values, so that an in-place
    value update is seen through every pointer to the okv, including the ones in
    the order cache.  okv.key is never written after allocation.

    An rb.Iterator is [None] for the limit position or [Some node].  Using Next
    on an iterator whose node has been deleted from the tree is undefined in the
    rbtree library: here it is [Panic].

    Keys: any type with a total order [cmp] (cmp.Compare).  isNil(key) is false
    for every cmp.Ordered type, so the nil branches are dropped.  Two keys that
    compare equal are equal (float keys -0.0 / +0.0 excluded). int64 overflow of
    the version counter is not modelled. *)
From Coq Require Import List NArith Arith Lia Bool.
From Verif Require Import Base.
Import ListNotations.

(** A tree node: key and okv pointer. *)
Notation node K := (prod K nat).
(** rb.Iterator *)
Notation iterator K := (option (prod K nat)).

Section Omap.
Context {K V : Type} (cmp : K -> K -> comparison).


(** omap.go:57-67 type omap. *)
Record omap := mkOmap {
  o_tree : list (node K);
  o_heap : list V;
  o_ver : N;
  o_cache : list (node K);      (* ordercache []*okv *)
  o_cver : N }.             (* cacheversion *)

(** omap.go:89-97 newOmap. *)
Definition newOmap : omap := mkOmap [] [] 0 [] 0.

(** ** The tree (rbtree API) *)
Definition tMin (t : list (node K)) : iterator K := hd_error t.

Fixpoint tNext (t : list (node K)) (p : nat) : res (iterator K) :=
  match t with
  | [] => Panic                            (* node not in the tree *)
  | (_, q) :: r => if Nat.eqb p q then Ok (hd_error r) else tNext r p
  end.

(** FindGE_isEqual: first node with a key >= the query, and whether it is equal. *)
Fixpoint findGE (t : list (node K)) (k : K) : iterator K * bool :=
  match t with
  | [] => (None, false)
  | (k', p) :: r =>
      match cmp k' k with
      | Lt => findGE r k
      | Eq => (Some (k', p), true)
      | Gt => (Some (k', p), false)
      end
  end.

(** InsertGetIt of a key known to be absent. *)
Fixpoint tInsert (t : list (node K)) (k : K) (p : nat) : list (node K) :=
  match t with
  | [] => [(k, p)]
  | (k', q) :: r => match cmp k' k with
                    | Lt => (k', q) :: tInsert r k p
                    | _ => (k, p) :: (k', q) :: r
                    end
  end.

(** DeleteWithIterator. *)
Definition tDelete (t : list (node K)) (p : nat) : list (node K) :=
  filter (fun n => negb (Nat.eqb (snd n) p)) t.

(** ** Operations *)

Fixpoint hset (h : list V) (p : nat) (v : V) : list V :=
  match h, p with
  | [], _ => []
  | _ :: r, O => v :: r
  | x :: r, S q => x :: hset r q v
  end.

(** omap.go:106-108. *)
Definition Len (s : omap) : nat := List.length (o_tree s).

(** omap.go:205-225 set. *)
Definition oset (s : omap) (k : K) (v : V) : bool * omap :=
  match findGE (o_tree s) k with
  | (Some (_, p), true) =>
      (false, mkOmap (o_tree s) (hset (o_heap s) p v) (o_ver s + 1) [] 0)
  | _ =>
      let p := List.length (o_heap s) in
      (true, mkOmap (tInsert (o_tree s) k p) (o_heap s ++ [v]) (o_ver s + 1) [] 0)
  end.

(** omap.go:141-161 delkey. *)
Definition delkey (s : omap) (k : K) : res (bool * iterator K * omap) :=
  match findGE (o_tree s) k with
  | (Some (k', p), true) =>
      do next <- tNext (o_tree s) p ;
      Ok (true, next, mkOmap (tDelete (o_tree s) p) (o_heap s) (o_ver s + 1) [] 0)
  | (it, _) => Ok (false, it, s)           (* "next = it // Limit" *)
  end.

(** omap.go:163-193 deleteWithIter. it.Item() of a deleted node still returns
    its okv, so only the key matters. *)
Definition deleteWithIter (s : omap) (it : iterator K) : res (bool * iterator K * omap) :=
  match it with
  | None => Ok (false, None, s)
  | Some (k, _) => delkey s k
  end.

(** omap.go:195-201 deleteAll. *)
Definition deleteAll (s : omap) : omap := mkOmap [] (o_heap s) (o_ver s + 1) [] 0.

(** omap.go:421-435 get2; a dangling pointer would be [Panic]. *)
Definition get2 (s : omap) (k : K) : res (option V) :=
  match findGE (o_tree s) k with
  | (Some (_, p), true) =>
      match nth_error (o_heap s) p with Some v => Ok (Some v) | None => Panic end
  | _ => Ok None
  end.

(** omap.go:460-471 getokv followed by an assignment to kv.val. *)
Definition poke (s : omap) (k : K) (v : V) : omap :=
  match findGE (o_tree s) k with
  | (Some (_, p), true) => mkOmap (o_tree s) (hset (o_heap s) p v) (o_ver s) (o_cache s) (o_cver s)
  | _ => s
  end.

(** nc == n && s.cacheversion == vers *)
Definition cacheHit (s : omap) : bool :=
  Nat.eqb (List.length (o_cache s)) (List.length (o_tree s)) && N.eqb (o_cver s) (o_ver s).

(** omap.go:71-86 cached. *)
Definition cached (s : omap) : list (node K) * omap :=
  if cacheHit s then (o_cache s, s)
  else (o_tree s, mkOmap (o_tree s) (o_heap s) (o_ver s) (o_tree s) (o_ver s)).

(** ** Ranging

    The body of the for-range loop is [yield]: it gets the user's state, the key
    and the value and may use the omap in any way; it returns the new user
    state, the omap and whether to continue.  The pairs yielded are collected.
    [fuel] bounds the number of yields ([Ok None] is "fuel exhausted"): a body
    that keeps adding larger keys never ends. *)
Context {U : Type}.
Definition body : Type := U -> K -> V -> omap -> res (U * omap * bool).

Definition out : Type := option (U * omap * list (K * V)).

Definition addOut (kv : K * V) (r : res out) : res out :=
  do o <- r ; Ok (match o with Some (u, s, l) => Some (u, s, kv :: l) | None => None end).

Definition deref (s : omap) (p : nat) : res V :=
  match nth_error (o_heap s) p with Some v => Ok v | None => Panic end.

(** omap.go:258-269: the rest of the range after a change was seen on the
    cached path. *)
Fixpoint slowLoop (y : body) (fuel : nat) (it : iterator K) (u : U) (s : omap) : res out :=
  match it with
  | None => Ok (Some (u, s, []))
  | Some (k, p) =>
      match fuel with O => Ok None | S f =>
        do it' <- tNext (o_tree s) p ;
        do v <- deref s p ;
        do (u', s', cont) <- y u k v s ;
        addOut (k, v) (if cont then slowLoop y f it' u' s' else Ok (Some (u', s', [])))
      end
  end.

(** nextit.Next() when nextit may be the limit: rbtree returns the limit for a
    Next on a negative-limit only; a Next on the limit panics in rbtree
    (doAssert).  In the loop below nextit never is the limit before Next because
    the cache is as long as the tree; the model panics. *)
Definition itNext (s : omap) (it : iterator K) : res (iterator K) :=
  match it with None => Panic | Some (_, p) => tNext (o_tree s) p end.

(** omap.go:243-272: ranging over the order cache; [i] is the index of the
    first element of [cache]. *)
Fixpoint hotLoop (y : body) (fuel : nat) (vers : N) (cache : list (node K)) (i : nat) (nextit : iterator K)
    (u : U) (s : omap) : res out :=
  match cache with
  | [] => Ok (Some (u, s, []))
  | (k, p) :: rest =>
      do nextit' <- itNext s nextit ;
      do v <- deref s p ;
      do (u', s', cont) <- y u k v s ;
      addOut (k, v)
        (if negb cont then Ok (Some (u', s', []))
         else if N.eqb (o_ver s') vers then hotLoop y fuel vers rest (S i) nextit' u' s'
         else if Nat.leb (Len s') (S i) then Ok (Some (u', s', []))     (* i >= n2-1 *)
         else slowLoop y fuel nextit' u' s')
  end.

(** omap.go:275-306: ranging over the tree while filling the cache. *)
Fixpoint coldLoop (y : body) (fuel : nat) (vers : N) (good : bool) (it : iterator K) (u : U) (s : omap) : res out :=
  match it with
  | None => Ok (Some (u, s, []))
  | Some (k, p) =>
      match fuel with O => Ok None | S f =>
        do it' <- tNext (o_tree s) p ;
        let s1 := if good then mkOmap (o_tree s) (o_heap s) (o_ver s) (o_cache s ++ [(k, p)]) (o_cver s) else s in
        do v <- deref s1 p ;
        do (u', s', cont) <- y u k v s1 ;
        addOut (k, v)
          (if negb cont then Ok (Some (u', s', []))
           else if negb (N.eqb (o_ver s') vers)
           then coldLoop y f vers false it' u' (mkOmap (o_tree s') (o_heap s') (o_ver s') [] 0)
           else coldLoop y f vers good it' u' s')
      end
  end.

(** omap.go:231-308 all. *)
Definition all (y : body) (fuel : nat) (u : U) (s : omap) : res out :=
  let vers := o_ver s in
  if cacheHit s then hotLoop y fuel vers (o_cache s) 0 (tMin (o_tree s)) u s
  else coldLoop y fuel vers true (tMin (o_tree s)) u (mkOmap (o_tree s) (o_heap s) (o_ver s) [] vers).

End Omap.

(** A loop body that only looks, and stops after [n] elements. *)
Definition lookBody {K V : Type} (n : nat) : @body K V nat :=
  fun u _ _ s => Ok (S u, s, Nat.ltb (S u) n).

(** A history of calls by one user (omaps are not for concurrent use). *)
Inductive oop (K V : Type) :=
| OSet (k : K) (v : V)
| ODel (k : K)
| ODelIter (k : K) (p : nat)      (* deleteWithIter of an iterator that is (or was) at key k *)
| ODelAll
| OPoke (k : K) (v : V)           (* getokv(k).val = v *)
| OCached
| OAll (limit : nat).             (* range over all(), leaving after [limit] elements *)
Arguments OSet {K V}. Arguments ODel {K V}. Arguments ODelIter {K V}. Arguments ODelAll {K V}.
Arguments OPoke {K V}. Arguments OCached {K V}. Arguments OAll {K V}.

Definition ostep {K V} (cmp : K -> K -> comparison) (s : @omap K V) (o : oop K V) : res (@omap K V) :=
  match o with
  | OSet k v => Ok (snd (oset cmp s k v))
  | ODel k => do (_, _, s') <- delkey cmp s k ; Ok s'
  | ODelIter k p => do (_, _, s') <- deleteWithIter cmp s (Some (k, p)) ; Ok s'
  | ODelAll => Ok (deleteAll s)
  | OPoke k v => Ok (poke cmp s k v)
  | OCached => Ok (snd (cached s))
  | OAll n => do r <- all (lookBody n) (Len s) O s ;
              match r with Some (_, s', _) => Ok s' | None => Panic end
  end.

Definition orun {K V} (cmp : K -> K -> comparison) (ops : list (oop K V)) : res (@omap K V) :=
  run_res (ostep cmp) newOmap ops.
