(** Model of mutmap.go: the generic map protected by a sync.RWMutex.

    Every method is a sequence of separate accesses to the shared map between a
    lock and an unlock; other goroutines run between any two of them. The Go maps
    live in a heap, so that a map handed out to a caller (GetMapReset,
    GetMapCloneAtomic) can go on being written by that caller. *)
From Coq Require Import List Bool Arith.
Import ListNotations.

Section mmap.
Variables K V : Type.
Variable Keqb : K -> K -> bool.

(** * Go maps: association lists with distinct keys. *)
Definition gomap := list (K * V).
Fixpoint mget (k : K) (m : gomap) : option V :=
  match m with [] => None | (x, v) :: r => if Keqb k x then Some v else mget k r end.
Fixpoint mdel (k : K) (m : gomap) : gomap :=
  match m with [] => [] | (x, v) :: r => if Keqb k x then mdel k r else (x, v) :: mdel k r end.
Definition mset (k : K) (v : V) (m : gomap) : gomap := (k, v) :: mdel k m.

(** * Results. [RLoc] is the map in the local variable mm. *)
Inductive result := RUnit | RVal (v : option V) | RNum (n : nat) | RVals (l : list V) | RKeys (l : list K)
| RValN (v : option V) (n : nat) | RLoc.

(** * Statement sequences, one constructor per access to a map. *)
Inductive prog :=
| PRet (r : result)
| PGet (k : K) (c : option V -> prog)          (* v, ok = m.m[k] *)
| PSet (k : K) (v : V) (c : prog)              (* m.m[k] = v *)
| PDel (k : K) (c : prog)                      (* delete(m.m, k) *)
| PLen (c : nat -> prog)                       (* len(m.m) *)
| PClear (c : prog)                            (* clear(m.m) *)
| PRange (seen : gomap) (c : gomap -> prog)    (* for k, v := range m.m { slc = append(slc, ..) } *)
| PFresh (c : prog)                            (* m.m = make(map[K]V) *)
| PTake (c : prog)                             (* mm = m.m *)
| PNew (c : prog)                              (* mm = make(map[K]V) *)
| PCopy (seen : gomap) (c : prog)              (* for k, v := range m.m { mm[k] = v } *)
| PPanic.                                      (* a function passed in panics *)

(** The calls; a function passed to Update or ReadOnlyView is any sequence of
    accesses to the map it is given. *)
Inductive call :=
| Get (k : K) | Len | GetValSlice | GetKeySlice | Set_ (k : K) (v : V) | Del (k : K) | GetValNDel (k : K)
| GetN | Clear | Update (f : prog) | ReadOnlyView (f : prog) | GetMapReset | GetMapCloneAtomic | Reset.

(** What runs between lock and unlock (mutmap.go: Get 23-28, Len 31-36,
    GetValSlice 39-46, GetKeySlice 49-56, Set 80-84, Del 87-93, GetValNDel 97-106,
    GetN 109-114, Clear 117-121, Update 124-129, ReadOnlyView 134-139, GetMapReset
    145-151, GetMapCloneAtomic 155-163, Reset 166-170). String is not modelled. *)
Definition body (c : call) : prog :=
  match c with
  | Get k => PGet k (fun v => PRet (RVal v))
  | Len => PLen (fun n => PRet (RNum n))
  | GetValSlice => PRange [] (fun l => PRet (RVals (map snd l)))
  | GetKeySlice => PRange [] (fun l => PRet (RKeys (map fst l)))
  | Set_ k v => PSet k v (PRet RUnit)
  | Del k => PDel k (PLen (fun n => PRet (RNum n)))
  | GetValNDel k => PGet k (fun v =>
      match v with
      | Some _ => PDel k (PLen (fun n => PRet (RValN v n)))
      | None => PLen (fun n => PRet (RValN v n))
      end)
  | GetN => PLen (fun n => PRet (RNum n))
  | Clear => PClear (PRet RUnit)
  | Update f => f
  | ReadOnlyView f => f
  | GetMapReset => PTake (PFresh (PRet RLoc))
  | GetMapCloneAtomic => PNew (PCopy [] (PRet RLoc))
  | Reset => PFresh (PRet RUnit)
  end.
(** RLock or Lock. *)
Inductive mode := R | W.
Definition lockMode (c : call) : mode :=
  match c with
  | Get _ | Len | GetValSlice | GetKeySlice | GetN | ReadOnlyView _ => R
  | _ => W
  end.

(** * Memory: the heap of Go maps, the next free reference, and the field m.m. *)
Record memory := mkMem { heap : nat -> gomap; next : nat; cur : nat }.
Definition hset (h : nat -> gomap) (r : nat) (m : gomap) : nat -> gomap := fun x => if Nat.eqb x r then m else h x.
Definition here (s : memory) : gomap := heap s (cur s).
Definition store (s : memory) (r : nat) (m : gomap) : memory := mkMem (hset (heap s) r m) (next s) (cur s).

Definition seenKey (seen : gomap) (k : K) : bool := existsb (fun e => Keqb k (fst e)) seen.

(** One access by the goroutine that executes [p]; [loc] is its variable mm. *)
Inductive pstep : memory -> nat -> prog -> memory -> nat -> prog -> Prop :=
| ps_get : forall s mm k c, pstep s mm (PGet k c) s mm (c (mget k (here s)))
| ps_set : forall s mm k v c, pstep s mm (PSet k v c) (store s (cur s) (mset k v (here s))) mm c
| ps_del : forall s mm k c, pstep s mm (PDel k c) (store s (cur s) (mdel k (here s))) mm c
| ps_len : forall s mm c, pstep s mm (PLen c) s mm (c (length (here s)))
| ps_clear : forall s mm c, pstep s mm (PClear c) (store s (cur s) []) mm c
(** a range loop visits, in any order, entries it has not visited yet *)
| ps_range : forall s mm seen c k v, In (k, v) (here s) -> seenKey seen k = false ->
    pstep s mm (PRange seen c) s mm (PRange (seen ++ [(k, v)]) c)
| ps_range_end : forall s mm seen c, (forall k v, In (k, v) (here s) -> seenKey seen k = true) ->
    pstep s mm (PRange seen c) s mm (c seen)
| ps_fresh : forall s mm c, pstep s mm (PFresh c) (mkMem (hset (heap s) (next s) []) (S (next s)) (next s)) mm c
| ps_take : forall s mm c, pstep s mm (PTake c) s (cur s) c
| ps_new : forall s mm c, pstep s mm (PNew c) (mkMem (hset (heap s) (next s) []) (S (next s)) (cur s)) (next s) c
| ps_copy : forall s mm seen c k v, In (k, v) (here s) -> seenKey seen k = false ->
    pstep s mm (PCopy seen c) (store s mm (mset k v (heap s mm))) mm (PCopy (seen ++ [(k, v)]) c)
| ps_copy_end : forall s mm seen c, (forall k v, In (k, v) (here s) -> seenKey seen k = true) ->
    pstep s mm (PCopy seen c) s mm c.

(** What a function given to ReadOnlyView (no writes) or Update (no escape) may do. *)
Fixpoint readOnly (p : prog) : Prop :=
  match p with
  | PRet r => r = RUnit
  | PGet _ c => forall v, readOnly (c v)
  | PLen c => forall n, readOnly (c n)
  | PRange seen c => seen = [] /\ forall l, readOnly (c l)
  | PPanic => True
  | _ => False
  end.
Fixpoint updater (p : prog) : Prop :=
  match p with
  | PRet r => r = RUnit
  | PGet _ c => forall v, updater (c v)
  | PLen c => forall n, updater (c n)
  | PRange seen c => seen = [] /\ forall l, updater (c l)
  | PSet _ _ c | PDel _ c | PClear c => updater c
  | PPanic => True
  | _ => False
  end.
Definition callOk (c : call) : Prop :=
  match c with Update f => updater f | ReadOnlyView f => readOnly f | _ => True end.

(** * The system. *)
Inductive tstate :=
| TIdle
| TCalled (c : call)                           (* before Lock/RLock *)
| TIn (c : call) (p : prog) (mm : nat)         (* inside the critical section *)
| TRet (c : call) (r : result) (mm : nat).     (* after the unlock, before the return *)

(** What the outside sees of a result: a returned map is seen with its content. *)
Inductive outcome := ORes (r : result) | OMap (m : gomap).
Definition observe (h : nat -> gomap) (r : result) (mm : nat) : outcome :=
  match r with RLoc => OMap (h mm) | _ => ORes r end.

Inductive event := EInv (t : nat) (c : call) | ERes (t : nat) (o : outcome).

Record sys := mkSys {
  mem : memory;
  writer : option nat;           (* who holds Lock *)
  readers : list nat;            (* who holds RLock *)
  thread : nat -> tstate;
  owned : list nat;              (* maps that callers received *)
  hist : list event }.
Definition tset (f : nat -> tstate) (t : nat) (x : tstate) : nat -> tstate := fun u => if Nat.eqb u t then x else f u.
Definition remove1 (t : nat) (l : list nat) : list nat := filter (fun u => negb (Nat.eqb u t)) l.

(** NewMutexmap (16-20). *)
Definition sys0 : sys := mkSys (mkMem (fun _ => []) 1 0) None [] (fun _ => TIdle) [] [].

Inductive step : sys -> sys -> Prop :=
| st_call : forall m w rs th ow h t c, th t = TIdle -> callOk c ->
    step (mkSys m w rs th ow h) (mkSys m w rs (tset th t (TCalled c)) ow (h ++ [EInv t c]))
(** sync.RWMutex: RLock needs that nobody writes (that a waiting writer also
    holds readers back only removes behaviours) ... *)
| st_rlock : forall m rs th ow h t c, th t = TCalled c -> lockMode c = R ->
    step (mkSys m None rs th ow h) (mkSys m None (t :: rs) (tset th t (TIn c (body c) 0)) ow h)
(** ... and Lock needs that nobody reads or writes. *)
| st_lock : forall m th ow h t c, th t = TCalled c -> lockMode c = W ->
    step (mkSys m None [] th ow h) (mkSys m (Some t) [] (tset th t (TIn c (body c) 0)) ow h)
| st_access : forall m w rs th ow h t c p mm m' mm' p', th t = TIn c p mm -> pstep m mm p m' mm' p' ->
    step (mkSys m w rs th ow h) (mkSys m' w rs (tset th t (TIn c p' mm')) ow h)
| st_unlock : forall m w rs th ow h t c r mm, th t = TIn c (PRet r) mm ->
    step (mkSys m w rs th ow h)
         (mkSys m (match lockMode c with W => None | R => w end)
                (match lockMode c with W => rs | R => remove1 t rs end) (tset th t (TRet c r mm)) ow h)
| st_return : forall m w rs th ow h t c r mm, th t = TRet c r mm ->
    step (mkSys m w rs th ow h)
         (mkSys m w rs (tset th t TIdle) (match r with RLoc => mm :: ow | _ => ow end)
                (h ++ [ERes t (observe (heap m) r mm)]))
(** a caller writes to a map it was given *)
| st_client : forall m w rs th ow h r x, In r ow -> NoDup (map fst x) ->
    step (mkSys m w rs th ow h) (mkSys (store m r x) w rs th ow h).

Inductive steps : sys -> sys -> Prop :=
| steps_refl : forall s, steps s s
| steps_step : forall s1 s2 s3, steps s1 s2 -> step s2 s3 -> steps s1 s3.
End mmap.
