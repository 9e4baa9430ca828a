(** What a sorted map is, independently of the implementation. *)
From Coq Require Import List NArith Arith Lia Bool Sorted.
From Verif Require Import Base Omap_Model.
Import ListNotations.

(** A total order given by a three-way comparison. *)
Definition ord_ok {K} (cmp : K -> K -> comparison) : Prop :=
  (forall a b, cmp a b = Eq <-> a = b) /\
  (forall a b, cmp b a = CompOpp (cmp a b)) /\
  (forall a b c, cmp a b = Lt -> cmp b c = Lt -> cmp a c = Lt).

Definition same {K} (cmp : K -> K -> comparison) (a b : K) : bool :=
  match cmp a b with Eq => true | _ => false end.

(** The value a key holds after a history (most recent call first). *)
Fixpoint valueRev {K V} (cmp : K -> K -> comparison) (calls : list (oop K V)) (k : K) : option V :=
  match calls with
  | [] => None
  | OSet k' v :: older => if same cmp k' k then Some v else valueRev cmp older k
  | ODel k' :: older | ODelIter k' _ :: older => if same cmp k' k then None else valueRev cmp older k
  | ODelAll :: _ => None
  | OPoke k' v :: older =>
      if same cmp k' k then match valueRev cmp older k with Some _ => Some v | None => None end
      else valueRev cmp older k
  | OCached :: older | OAll _ :: older => valueRev cmp older k
  end.

(** The last value set and not deleted since. *)
Definition valueAfter {K V} (cmp : K -> K -> comparison) (calls : list (oop K V)) (k : K) : option V :=
  valueRev cmp (rev calls) k.

Definition increasing {K} (cmp : K -> K -> comparison) (l : list K) : Prop :=
  StronglySorted (fun a b => cmp a b = Lt) l.

(** [l] lists the live pairs of [m], once each, in strictly increasing key order. *)
Definition enumerates {K V} (cmp : K -> K -> comparison) (m : K -> option V) (l : list (K * V)) : Prop :=
  increasing cmp (map fst l) /\ forall k v, In (k, v) l <-> m k = Some v.

(** What a user reads through a slice of okv pointers. *)
Definition readPtrs {K V} (s : @omap K V) (l : list (node K)) : list (K * option V) :=
  map (fun n => (fst n, nth_error (o_heap s) (snd n))) l.

(** A range body made of ordinary calls: at each element it makes the calls
    [fst (dec i k v)] in order and goes on if [snd (dec i k v)]; [i] counts the
    elements seen so far. *)
Definition script {K V} (cmp : K -> K -> comparison) (dec : nat -> K -> V -> list (oop K V) * bool)
  : @body K V nat :=
  fun i k v s => do s' <- run_res (ostep cmp) s (fst (dec i k v)) ; Ok (S i, s', snd (dec i k v)).

(** The documented licence: in the body of a range the current key may be
    deleted or set (also re-added), values may be updated in place and cached()
    may be called; no other key is added or deleted, and no range is nested in
    the range (see C38 for nested ranges). *)
Definition licensed {K V} (k : K) (o : oop K V) : Prop :=
  match o with
  | OSet k' _ | ODel k' | ODelIter k' _ => k' = k
  | ODelAll | OAll _ => False
  | OPoke _ _ | OCached => True
  end.

(** A range seen as its bodies run one after the other: [l] are the pairs
    handed to the body; each pair is live when it is handed over, and between
    two bodies neither the keys nor the values change (only the order cache
    may). *)
Fixpoint bodiesRun {K V} (cmp : K -> K -> comparison) (dec : nat -> K -> V -> list (oop K V) * bool)
    (i : nat) (l : list (K * V)) (s s' : @omap K V) : Prop :=
  match l with
  | [] => o_tree s' = o_tree s /\ o_heap s' = o_heap s
  | (k, v) :: r => exists s1 s2, o_tree s1 = o_tree s /\ o_heap s1 = o_heap s /\
      get2 cmp s1 k = Ok (Some v) /\
      run_res (ostep cmp) s1 (fst (dec i k v)) = Ok s2 /\ bodiesRun cmp dec (S i) r s2 s'
  end.
