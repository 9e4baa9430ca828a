(** What a user expects of the saved Raft state. *)
From Coq Require Import List ZArith Lia Bool.
From Verif Require Import Base Wal_Model Wal_Spec Persist_Model.
Import ListNotations.
Open Scope Z_scope.

Record scodec_ok {St} (c : scodec St) : Prop := {
  ok_R : forall s, decR c (encR c s) = Some s;
  ok_H : forall h, decH c (encH c h) = Some h;
  ok_fitH : forall b, fits (encH c (hash c b)) }.

(** The process dies while it does [ops]: after some of them, or inside a write. *)
Inductive died : list fop -> fs -> fs -> Prop :=
| died_now : forall ops F, died ops F F
| died_later : forall o ops F F', died ops (run o F) F' -> died (o :: ops) F F'
| died_write : forall b n ops F, died (TWrite b :: ops) F (run (TWrite (firstn n b)) F).

(** The machine dies: the name of the state file stands for any of the files it stood for
    since the directory was last synced; a file that was not synced holds anything. *)
Definition lost (F : fs) (f : bytes) : Prop :=
  exists b s, In (b, s) ((main F, mainSync F) :: olds F) /\ (s = true -> f = b).
Definition settled (f : bytes) : fs := mkF f true [] [] true.

(** Histories of completed and interrupted saves; the list holds the state of the last
    completed save (none at first) and of those interrupted since. *)
Inductive history {St} (c : scodec St) : list (option St) -> fs -> Prop :=
| h_new : history c [None] (settled [])
| h_save : forall cs F st, history c cs F -> fits (encR c st) -> history c [Some st] (runAll (save c st) F)
| h_kill : forall cs F st F', history c cs F -> fits (encR c st) -> died (save c st) F F' -> history c (Some st :: cs) F'
| h_power : forall cs F st F' f, history c cs F -> fits (encR c st) -> died (save c st) F F' -> lost F' f ->
    history c (Some st :: cs) (settled f)
| h_power_idle : forall cs F f, history c cs F -> lost F f -> history c cs (settled f).
