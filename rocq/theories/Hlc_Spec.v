(** What a hybrid logical clock promises. *)
From Coq Require Import ZArith List.
From Verif Require Import Hlc_Model.
Import ListNotations.
Local Open Scope Z_scope.

(** Happens-before between events of a history (by position): earlier on the
    same node, or the receipt of the other's timestamp, or a chain of these. *)
Inductive happensBefore (h : list event) : nat -> nat -> Prop :=
| hb_node : forall i j a b, nth_error h i = Some a -> nth_error h j = Some b ->
    ev_node a = ev_node b -> (i < j)%nat -> happensBefore h i j
| hb_msg : forall i j b, nth_error h j = Some b -> ev_op b = Recv i -> (i < j)%nat -> happensBefore h i j
| hb_trans : forall i j k, happensBefore h i j -> happensBefore h j k -> happensBefore h i k.

(** Wall clocks read between 2^62 ns before and after 1970 (year 2116). *)
Definition saneClocks (h : list event) : Prop := forall e, In e h -> - 2 ^ 62 <= ev_pt e < 2 ^ 62.
