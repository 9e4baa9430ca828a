(** What a span means: a set of integers. *)
From Coq Require Import ZArith.
From Verif Require Import Span_Model.
Local Open Scope Z_scope.
Definition inSpan (x : Z) (a : span) : Prop := beg a <= x < endx a.
(** Not inverted. *)
Definition wf (a : span) : Prop := beg a <= endx a.
Definition nonempty (a : span) : Prop := beg a < endx a.
