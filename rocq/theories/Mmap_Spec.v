(** What "atomic map" means, independent of locks and heap. *)
From Coq Require Import List Bool Arith.
From Verif Require Import Mmap_Model.
Import ListNotations.

Section spec.
Variables K V : Type.
Notation call := (call K V). Notation result := (result K V). Notation prog := (prog K V).
Notation outcome := (outcome K V). Notation event := (event K V).

(** A plain map: a partial function. *)
Definition amap := K -> option V.
Definition emptyMap : amap := fun _ => None.
Definition isSet (k : K) (v : V) (m m' : amap) : Prop := m' k = Some v /\ forall x, x <> k -> m' x = m x.
Definition isDel (k : K) (m m' : amap) : Prop := m' k = None /\ forall x, x <> k -> m' x = m x.
(** [l] lists the entries of [m], each key once, in some order. *)
Definition lists (m : amap) (l : list (K * V)) : Prop :=
  NoDup (map fst l) /\ forall k v, In (k, v) l <-> m k = Some v.
Definition sized (m : amap) (n : nat) : Prop := exists l, lists m l /\ length l = n.
Definition same (m m' : amap) : Prop := forall x, m' x = m x.

(** A passed-in function run on a plain map. *)
Inductive runs : prog -> amap -> amap -> Prop :=
| r_ret : forall m m', same m m' -> runs (PRet K V (RUnit K V)) m m'
| r_get : forall k c m m', runs (c (m k)) m m' -> runs (PGet K V k c) m m'
| r_set : forall k v c m m1 m', isSet k v m m1 -> runs c m1 m' -> runs (PSet K V k v c) m m'
| r_del : forall k c m m1 m', isDel k m m1 -> runs c m1 m' -> runs (PDel K V k c) m m'
| r_len : forall c n m m', sized m n -> runs (c n) m m' -> runs (PLen K V c) m m'
| r_clear : forall c m m', runs c emptyMap m' -> runs (PClear K V c) m m'
| r_range : forall c l m m', lists m l -> runs (c l) m m' -> runs (PRange K V [] c) m m'.

(** One call executed alone on a plain map: the map after, what it returns. *)
Inductive does : call -> amap -> amap -> outcome -> Prop :=
| d_get : forall k m m', same m m' -> does (Get K V k) m m' (ORes K V (RVal K V (m k)))
| d_len : forall m m' n, same m m' -> sized m n -> does (Len K V) m m' (ORes K V (RNum K V n))
| d_getn : forall m m' n, same m m' -> sized m n -> does (GetN K V) m m' (ORes K V (RNum K V n))
| d_vals : forall m m' l, same m m' -> lists m l -> does (GetValSlice K V) m m' (ORes K V (RVals K V (map snd l)))
| d_keys : forall m m' l, same m m' -> lists m l -> does (GetKeySlice K V) m m' (ORes K V (RKeys K V (map fst l)))
| d_set : forall k v m m', isSet k v m m' -> does (Set_ K V k v) m m' (ORes K V (RUnit K V))
| d_del : forall k m m' n, isDel k m m' -> sized m' n -> does (Del K V k) m m' (ORes K V (RNum K V n))
| d_take : forall k m m' n, isDel k m m' -> sized m' n -> does (GetValNDel K V k) m m' (ORes K V (RValN K V (m k) n))
| d_clear : forall m m', same emptyMap m' -> does (Clear K V) m m' (ORes K V (RUnit K V))
| d_reset : forall m m', same emptyMap m' -> does (Reset K V) m m' (ORes K V (RUnit K V))
| d_update : forall f m m', runs f m m' -> does (Update K V f) m m' (ORes K V (RUnit K V))
| d_view : forall f m m', runs f m m' -> same m m' -> does (ReadOnlyView K V f) m m' (ORes K V (RUnit K V))
| d_mapreset : forall m m' l, same emptyMap m' -> lists m l -> does (GetMapReset K V) m m' (OMap K V l)
| d_clone : forall m m' l, same m m' -> lists m l -> does (GetMapCloneAtomic K V) m m' (OMap K V l).

(** Calls executed one at a time. *)
Inductive sequential : list (call * outcome) -> amap -> amap -> Prop :=
| sq_nil : forall m, sequential [] m m
| sq_snoc : forall l c o m m1 m', sequential l m m1 -> does c m1 m' o -> sequential (l ++ [(c, o)]) m m'.

(** A history with the instants at which the calls take effect written in. *)
Inductive xevent := XE (e : event) | XLin (t : nat) (c : call) (o : outcome).
Definition erase (x : list xevent) : list event :=
  flat_map (fun e => match e with XE e => [e] | XLin _ _ _ => [] end) x.
Definition effects (x : list xevent) : list (call * outcome) :=
  flat_map (fun e => match e with XE _ => [] | XLin _ c o => [(c, o)] end) x.
(** Goroutine [t] alternates: invocation of a call, its effect, its response. *)
Inductive phase := PhIdle | PhCalled (c : call) | PhDone (o : outcome).
Inductive phases (t : nat) : list xevent -> phase -> Prop :=
| ph_nil : phases t [] PhIdle
| ph_inv : forall x c, phases t x PhIdle -> phases t (x ++ [XE (EInv K V t c)]) (PhCalled c)
| ph_lin : forall x c o, phases t x (PhCalled c) -> phases t (x ++ [XLin t c o]) (PhDone o)
| ph_res : forall x o, phases t x (PhDone o) -> phases t (x ++ [XE (ERes K V t o)]) PhIdle
| ph_inv' : forall x u c p, u <> t -> phases t x p -> phases t (x ++ [XE (EInv K V u c)]) p
| ph_lin' : forall x u c o p, u <> t -> phases t x p -> phases t (x ++ [XLin u c o]) p
| ph_res' : forall x u o p, u <> t -> phases t x p -> phases t (x ++ [XE (ERes K V u o)]) p.

(** Linearizable: instants can be written in, one inside each completed call, so
    that the calls executed alone in that order give the same results. *)
Definition linearizable (h : list event) : Prop :=
  exists x m, erase x = h /\ (forall t, exists p, phases t x p) /\ sequential (effects x) emptyMap m.

(** The completed calls of a history, each with its response. *)
Fixpoint lastCall (t : nat) (h : list event) : option call :=
  match h with
  | [] => None
  | e :: r => match lastCall t r with
              | Some c => Some c
              | None => match e with EInv _ _ u c => if Nat.eqb u t then Some c else None | _ => None end
              end
  end.
Fixpoint completedFrom (pre h : list event) : list (call * outcome) :=
  match h with
  | [] => []
  | e :: r => (match e with
               | ERes _ _ t o => match lastCall t pre with Some c => [(c, o)] | None => [] end
               | _ => []
               end) ++ completedFrom (pre ++ [e]) r
  end.
Definition completed (h : list event) : list (call * outcome) := completedFrom [] h.
Definition invoked (h : list event) : list call :=
  flat_map (fun e => match e with EInv _ _ _ c => [c] | _ => [] end) h.

Variable Keqb : K -> K -> bool.
Variable Veqb : V -> V -> bool.
(** GetValNDel(k) answered with value v; Set(k, v). *)
Definition takes (k : K) (v : V) (x : call * outcome) : bool :=
  match x with
  | (GetValNDel _ _ k', Mmap_Model.ORes _ _ (RValN _ _ (Some v') _)) => Keqb k k' && Veqb v v'
  | _ => false
  end.
Definition sets (k : K) (v : V) (c : call) : bool :=
  match c with Set_ _ _ k' v' => Keqb k k' && Veqb v v' | _ => false end.
Definition isUpdate (c : call) : bool := match c with Update _ _ _ => true | _ => false end.
End spec.
