(** What a user expects of the radix tree, in terms of a sorted list of keys
    with their values.  Only the types of the model are used here, and the
    calls of the API in [Hist] and [Drained]. *)
From Coq Require Import List ZArith Lia Bool.
From Verif Require Import Base Art_Model.
Import ListNotations.
Open Scope Z_scope.

(** ** Sorted lists of keys *)

(** Lexicographic order of byte strings. *)
Fixpoint ltb (a b : bytes) : bool :=
  match a, b with
  | _, [] => false
  | [], _ :: _ => true
  | x :: a', y :: b' => (x <? y) || ((x =? y) && ltb a' b')
  end.
Definition sameb (a b : bytes) : bool := if list_eq_dec Z.eq_dec a b then true else false.

Definition entry := (bytes * bytes)%type.

Fixpoint put (k v : bytes) (m : list entry) : list entry :=
  match m with
  | [] => [(k, v)]
  | (k', v') :: r => if ltb k k' then (k, v) :: m else if sameb k k' then (k, v) :: r else (k', v') :: put k v r
  end.
Definition drop (k : bytes) (m : list entry) : list entry := filter (fun e => negb (sameb k (fst e))) m.

(** The first and the last entry whose key satisfies [p], with its position. *)
Fixpoint sfirst (p : bytes -> bool) (m : list entry) : option (entry * nat) :=
  match m with
  | [] => None
  | e :: r => if p (fst e) then Some (e, 0%nat) else match sfirst p r with Some (x, i) => Some (x, S i) | None => None end
  end.
Fixpoint slast (p : bytes -> bool) (m : list entry) : option (entry * nat) :=
  match m with
  | [] => None
  | e :: r => match slast p r with Some (x, i) => Some (x, S i) | None => if p (fst e) then Some (e, 0%nat) else None end
  end.

(** What each kind of search is to find. *)
Definition wanted (s : smod) (q : bytes) (m : list entry) : option (entry * nat) :=
  match s with
  | Exact => sfirst (fun k => sameb k q) m
  | GTE => sfirst (fun k => negb (ltb k q)) m
  | GT => sfirst (fun k => ltb q k) m
  | LTE => slast (fun k => negb (ltb q k)) m
  | LT => slast (fun k => ltb k q) m
  end.

Definition held (k : bytes) (m : list entry) : bool := existsb (fun e => sameb k (fst e)) m.
Definition valueOf (k : bytes) (m : list entry) : option bytes := option_map (fun x => snd (fst x)) (sfirst (fun k' => sameb k' k) m).

(** The part of the list between two keys, with the positions; an empty bound is no bound. *)
Definition place (m : list entry) : list (entry * Z) := combine m (map Z.of_nat (seq 0 (length m))).
Definition upRange (start endx : bytes) (m : list entry) : list (entry * Z) :=
  filter (fun e => negb (ltb (fst (fst e)) start) && (sameb endx [] || ltb (fst (fst e)) endx)) (place m).
Definition downRange (endx start : bytes) (m : list entry) : list (entry * Z) :=
  rev (filter (fun e => (sameb start [] || negb (ltb start (fst (fst e)))) && (sameb endx [] || ltb endx (fst (fst e)))) (place m)).

(** ** Keys the code cannot tell apart

    One key goes on with a zero byte where the other ends. *)
Definition clash (a b : bytes) : Prop := exists r, b = a ++ 0 :: r \/ a = b ++ 0 :: r.

(** All keys share a beginning, and [q] leaves it with a smaller byte. *)
Definition belowAll (q : bytes) (m : list entry) : Prop :=
  (2 <= length m)%nat /\ exists p c c' r, q = p ++ c' :: r /\ c' < c /\ forall e, In e m -> exists s, fst e = p ++ c :: s.

(** ** What the API shows *)
Definition isByte (x : Z) : Prop := 0 <= x < 256.
Definition asEntry (l : leaf) : entry := (lKey l, lVal l).
Definition seen (a : option (leaf * nat)) : option (entry * nat) := option_map (fun x => (asEntry (fst x), snd x)) a.

(** [at_cached] gives [t'] and [l], whatever the fuel, once there is enough. *)
Definition AtGives (i : Z) (t t' : tree) (l : option leaf) : Prop :=
  exists N, forall fuel, (N <= fuel)%nat -> at_cached fuel i t = Ok (Some (t', l)).
Definition NextGives (t : tree) (it it' : iterator) (ok : bool) : Prop :=
  exists N, forall fuel, (N <= fuel)%nat -> nextIter fuel t it = Ok (Some (it', ok)).

(** Calling Next until it says no, and the leaf and the index after each call. *)
Inductive Drained (t : tree) : iterator -> list (entry * Z) -> Prop :=
| Drained_end it it' : NextGives t it it' false -> Drained t it []
| Drained_more it it' l out : NextGives t it it' true -> itLeaf it' = Some l -> Drained t it' out -> Drained t it ((asEntry l, itIdx it') :: out).

(** The trees that calls of the API lead to, what they are to hold, and how many
    leaves were made.  [Insert] makes a new leaf. The keys that clash with one
    held are left out. Reads may fill caches. *)
Inductive Hist : Z -> tree -> list entry -> Prop :=
| H_new : Hist 0 newTree []
| H_insert n t m k v t' u : Hist n t m -> Forall isByte k -> (forall e, In e m -> ~ clash k (fst e)) ->
    insertLeaf (mkLeaf n k v) t = Ok (t', u) -> Hist (n + 1) t' (put k v m)
| H_remove n t m k t' l : Hist n t m -> Forall isByte k -> remove k t = Ok (t', l) -> Hist n t' (drop k m)
| H_read n t m b b' : Hist n t m -> root t = Some b -> refresh b b' -> Hist n (mkTree (Some b') (size t) (version t) (atCache t)) m
| H_at n t m i t' l : Hist n t m -> AtGives i t t' l -> Hist n t' m.
