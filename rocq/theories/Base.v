(** Shared conventions of the model.

    A Go function that can [panic] (explicit panic, nil dereference, slice
    bounds) is modelled by a function into [res A]; [Panic] is the crash. *)
From Coq Require Import List ZArith Lia Bool.
Import ListNotations.

Inductive res (A : Type) : Type :=
| Ok (a : A)
| Panic.
Arguments Ok {A} _.
Arguments Panic {A}.

Definition bind {A B} (m : res A) (f : A -> res B) : res B :=
  match m with Ok a => f a | Panic => Panic end.

Notation "'do' x <- m ; k" := (bind m (fun x => k))
  (at level 200, x pattern, m at level 100, k at level 200).

(** A fold over a list of operations that stops at the first panic. *)
Fixpoint run_res {S O : Type} (step : S -> O -> res S) (s : S) (ops : list O) : res S :=
  match ops with
  | [] => Ok s
  | o :: os => match step s o with Ok s' => run_res step s' os | Panic => Panic end
  end.

Lemma run_res_app : forall S O (step : S -> O -> res S) ops1 ops2 s,
  run_res step s (ops1 ++ ops2) =
  match run_res step s ops1 with Ok s' => run_res step s' ops2 | Panic => Panic end.
Proof.
  induction ops1 as [|o os IH]; intros; simpl; auto.
  destruct (step s o); auto.
Qed.

Lemma skipn_skipn : forall A x y (l : list A), skipn x (skipn y l) = skipn (x + y) l.
Proof.
  induction y; intros; simpl.
  - rewrite Nat.add_0_r. auto.
  - rewrite Nat.add_succ_r. destruct l; simpl; auto. apply skipn_nil.
Qed.

Lemma nth_error_skipn : forall A n m (l : list A), nth_error (skipn n l) m = nth_error l (n + m).
Proof. induction n as [|n IH]; intros m l; simpl; auto. destruct l; simpl; auto. destruct m; auto. Qed.

Lemma nth_error_firstn_lt : forall A n m (l : list A), m < n -> nth_error (firstn n l) m = nth_error l m.
Proof. induction n; intros [|m] [|x l] H; simpl; auto; try lia. apply IHn; lia. Qed.
