(** What a deterministic map is, independently of the implementation: a finite
    map from id() strings to the key object first used since the id was last
    absent, the number of the allocation, and the last value set. *)
From Coq Require Import List NArith Arith Lia Bool Sorted.
From Verif Require Import Base Omap_Model Omap_Spec Dmap_Model.
Import ListNotations.

Section Spec.
Context {Id Obj V : Type} (cmp : Id -> Id -> comparison) (id : Obj -> Id).

(** every key object ever allocated, oldest first; the live entries *)
Record absmap := mkAbs { a_objs : list Obj; a_map : Id -> option (nat * Obj * V) }.

Definition upd {A} (m : Id -> option A) (i : Id) (x : option A) : Id -> option A :=
  fun j => if same cmp i j then x else m j.

Definition absStep (a : absmap) (o : dop Obj V) : absmap :=
  match o with
  | DSet k v => match a_map a (id k) with
                | Some (n, k0, _) => mkAbs (a_objs a) (upd (a_map a) (id k) (Some (n, k0, v)))
                | None => mkAbs (a_objs a ++ [k]) (upd (a_map a) (id k) (Some (List.length (a_objs a), k, v)))
                end
  | DDel k => mkAbs (a_objs a) (upd (a_map a) (id k) None)
  | DDelIter n => match nth_error (a_objs a) n with
                  | Some k => mkAbs (a_objs a) (upd (a_map a) (id k) None)
                  | None => a
                  end
  | DDelAll => mkAbs (a_objs a) (fun _ => None)
  | DPoke k v => match a_map a (id k) with
                 | Some (n, k0, _) => mkAbs (a_objs a) (upd (a_map a) (id k) (Some (n, k0, v)))
                 | None => a
                 end
  | DCached | DAll _ => a
  end.

Definition absOf (ops : list (dop Obj V)) : absmap := fold_left absStep ops (mkAbs [] (fun _ => None)).

(** the live binding of an id: key object and value *)
Definition binding (a : absmap) (i : Id) : option (Obj * V) :=
  match a_map a i with Some (_, k, v) => Some (k, v) | None => None end.

(** An iterator may be passed to deleteWithIter if it is live, or if its id is
    not in the map at all. Not allowed: an iterator of a deleted node whose id
    was added again since. *)
Fixpoint goodIters (a : absmap) (ops : list (dop Obj V)) : Prop :=
  match ops with
  | [] => True
  | o :: r =>
      match o with
      | DDelIter n => match nth_error (a_objs a) n with
                      | Some k => match a_map a (id k) with Some (n', _, _) => n' = n | None => True end
                      | None => True
                      end
      | _ => True
      end /\ goodIters (absStep a o) r
  end.

(** The user's range body: at each element, possibly set the current key again
    and possibly delete it (in any order, any number of times). *)
Inductive act (V : Type) := ASet (v : V) | ADel.

End Spec.
Arguments absmap : clear implicits.
Arguments ASet {V}. Arguments ADel {V}.

Definition actOp {Obj V} (k : Obj) (a : act V) : dop Obj V :=
  match a with ASet v => DSet k v | ADel => DDel k end.

Definition dscript {Id Obj V} (cmp : Id -> Id -> comparison) (id : Obj -> Id) (dec : nat -> Obj -> V -> list (act V) * bool)
  : @dbody Id Obj V nat :=
  fun i k v d => do d' <- run_res (dstep cmp id) d (map (actOp k) (fst (dec i k v))) ; Ok (S i, d', snd (dec i k v)).

(** What such bodies make of the abstract map when they run over [l] in turn. *)
Fixpoint absBodies {Id Obj V} (cmp : Id -> Id -> comparison) (id : Obj -> Id) (dec : nat -> Obj -> V -> list (act V) * bool)
    (i : nat) (l : list (Obj * V)) (a : absmap Id Obj V) : absmap Id Obj V :=
  match l with
  | [] => a
  | (k, v) :: r => absBodies cmp id dec (S i) r (fold_left (absStep cmp id) (map (actOp k) (fst (dec i k v))) a)
  end.
