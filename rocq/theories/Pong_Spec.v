(** What the pong queue stands for: for each peer, the time of the last pong
    added and not taken away since. *)
From Coq Require Import ZArith List.
From Verif Require Import Pong_Model.
Import ListNotations.
Local Open Scope Z_scope.

Definition table := nat -> option Z.
Definition empty : table := fun _ => None.
Definition setT (f : table) (p : nat) (v : option Z) : table := fun q => if Nat.eqb q p then v else f q.
(** The newest pong (smallest PeerID among equal times). *)
Definition newestIs (f : table) (x : pong) : Prop :=
  f (pg_peer x) = Some (pg_tm x) /\
  forall q u, f q = Some u -> u < pg_tm x \/ (u = pg_tm x /\ (pg_peer x <= q)%nat).
Inductive does : call -> table -> option pong -> table -> Prop :=
| do_add : forall f x, does (Add x) f None (setT f (pg_peer x) (Some (pg_tm x)))
| do_del : forall f p, does (Del p) f None (setT f p None)
| do_all : forall f, does DelAll f None empty
| do_pop0 : forall f, (forall p, f p = None) -> does Pop f None f
| do_pop1 : forall f x, newestIs f x -> does Pop f (Some x) (setT f (pg_peer x) None).
Inductive doAll : list call -> table -> list (option pong) -> table -> Prop :=
| da_nil : forall f, doAll [] f [] f
| da_cons : forall c cs f o f' os f'', does c f o f' -> doAll cs f' os f'' -> doAll (c :: cs) f (o :: os) f''.

(** [D] lists the peers present, each once. *)
Definition lists (D : list nat) (f : table) : Prop := NoDup D /\ forall p, In p D <-> f p <> None.
Definition timeAtLeast (f : table) (t : Z) (p : nat) : bool := match f p with Some u => t <=? u | None => false end.
Definition timeAfter (f : table) (t : Z) (p : nat) : bool := match f p with Some u => t <? u | None => false end.
(** [t] is the q-th largest of the present times: at least q peers are that
    recent, and fewer than q are more recent. *)
Definition qthLargest (f : table) (D : list nat) (q : Z) (t : Z) : Prop :=
  q <= Z.of_nat (length (filter (timeAtLeast f t) D)) /\
  Z.of_nat (length (filter (timeAfter f t) D)) < q.
