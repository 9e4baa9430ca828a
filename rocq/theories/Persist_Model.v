(** The file that holds a node's Raft state: tube/persistor.go.

    Simplified: the directory holds the state file and one temporary file (its name is
    random, persistor.go 125, and a leftover of it is never read); a missing state file is
    an empty one (NewRaftStatePersistor creates it, 59); errors of the operating system and
    the NODISK variant are not modelled; LastSaveTimestamp is part of the state given. *)
From Coq Require Import List ZArith Lia Bool.
From Verif Require Import Base Wal_Model.
Import ListNotations.
Open Scope Z_scope.

(** RaftState.MarshalMsg and UnmarshalMsg, Blake3sum.MarshalMsg and UnmarshalMsg of a sum,
    blake3ToString33B. *)
Record scodec (St : Type) := mkSC {
  encR : St -> bytes; decR : bytes -> option St;
  encH : bytes -> bytes; decH : bytes -> option bytes;
  hash : bytes -> bytes }.
Arguments encR {St}. Arguments decR {St}. Arguments encH {St}. Arguments decH {St}. Arguments hash {St}.

(** Operations on the two files: os.Create and Write of the temporary file, Sync of it,
    os.Rename of it over the state file, Sync of the directory. *)
Inductive fop := Create | TWrite (b : bytes) | TSync | Rename | DSync.

(** What the process sees ([main], [tmp]) and what it may find after a power loss:
    [mainSync], [tmpSync]: the content is on disk; [olds]: what the name of the state file
    stood for since the directory was last synced. *)
Record fs := mkF { main : bytes; mainSync : bool; olds : list (bytes * bool); tmp : bytes; tmpSync : bool }.
Definition run (o : fop) (F : fs) : fs :=
  match o with
  | Create => mkF (main F) (mainSync F) (olds F) [] true
  | TWrite b => mkF (main F) (mainSync F) (olds F) (tmp F ++ b) false
  | TSync => mkF (main F) (mainSync F) (olds F) (tmp F) true
  | Rename => mkF (tmp F) (tmpSync F) ((main F, mainSync F) :: olds F) [] true
  | DSync => mkF (main F) (mainSync F) [] (tmp F) (tmpSync F)
  end.
Definition runAll (ops : list fop) (F : fs) : fs := fold_left (fun f o => run o f) ops F.

Section Persist.
Context {St : Type} (c : scodec St).

(** save, persistor.go 115-156, with saveBlake3sumFor (229-249). *)
Definition save (st : St) : list fop :=
  let b := encR c st in
  [Create; TWrite (frame b); TWrite (frame (encH c (hash c b))); TSync; Rename; DSync].

(** load, persistor.go 158-201, with loadBlake3sum (203-226), as called by
    NewRaftStatePersistor (43-91): no state when the file is empty. *)
Definition load (f : bytes) : res (option St) :=
  match f with
  | [] => Ok None
  | _ =>
      match nextframe f 0 with
      | Got b _ pos =>
          match decR c b with
          | None => Panic
          | Some st =>
              match nextframe f pos with
              | Got h _ _ =>
                  match decH c h with
                  | Some sum => if beqb (hash c b) sum then Ok (Some st) else Panic
                  | None => Panic
                  end
              | _ => Panic
              end
          end
      | _ => Panic
      end
  end.
End Persist.
