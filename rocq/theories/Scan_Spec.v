(** What a user of the file scanners relies on, stated without the scanners. *)
From Coq Require Import List ZArith Lia Bool.
From Verif Require Import Base Sync_Model Sync_Spec Scan_Model.
Import ListNotations.
Open Scope nat_scope.

(** The spans follow each other without gap from [off] to [fin], none empty. *)
Fixpoint spans_tile (off : nat) (spans : list sspan) (fin : nat) : Prop :=
  match spans with
  | [] => off = fin
  | s :: ss => sBeg s = off /\ off < sEndx s /\ spans_tile (sEndx s) ss fin
  end.

(** A correct sparse map without pre-allocated parts: it covers the file, and
    its holes read as zeros. *)
Definition sparse_map (file : list Z) (spans : list sspan) : Prop :=
  spans_tile 0 spans (length file) /\
  Forall (fun s => match sKind s with
                   | SData => True
                   | SHole => slice file (sBeg s) (sEndx s) = zeros (sEndx s - sBeg s)
                   | SPrealloc => False
                   end) spans.

(** The chunk [b, e) of a file with its label. *)
Definition labelled (hsh : list Z -> Z) (file : list Z) (b e : nat) : chunk :=
  mkChunk b e (if forallb (Z.eqb 0) (slice file b e) then Rle0 else Hash (hsh (slice file b e))) [].

Fixpoint labelledAll (hsh : list Z -> Z) (file : list Z) (b : nat) (cuts : list nat) : list chunk :=
  match cuts with
  | [] => []
  | e :: cs => labelled hsh file b e :: labelledAll hsh file e cs
  end.

(** Neighbouring zero runs are one run. *)
Fixpoint joinZeros (cs : list chunk) : list chunk :=
  match cs with
  | [] => []
  | c :: cs' =>
      match cCry c, joinZeros cs' with
      | Rle0, d :: ds =>
          match cCry d with
          | Rle0 => mkChunk (cBeg c) (cEndx d) Rle0 [] :: ds
          | _ => c :: d :: ds
          end
      | _, r => c :: r
      end
  end.

(** Data chunks are at most [max] long. *)
Definition bounded (max : nat) (cs : list chunk) : Prop :=
  Forall (fun c => cCry c <> Rle0 -> cLen c <= max) cs.

(** [n] zeros at [i]. *)
Definition zero_run (b : list Z) (i n : nat) : Prop :=
  i + n <= length b /\ slice b i (i + n) = zeros n.
