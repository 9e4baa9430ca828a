(** Specification of the log-term index, written without run-length encoding.

    A log is a base index, the term of the entry at the base (0 when there is
    none) and the plain list of the terms of entries base+1, base+2, ... *)
From Coq Require Import List ZArith Lia Bool.
Import ListNotations.
Open Scope Z_scope.

Record plog := mkPlog { pBase : Z; pBaseTerm : Z; pTerms : list Z }.

Definition pEnd (p : plog) : Z := pBase p + Z.of_nat (length (pTerms p)).

(** last term of the log; the base term when the log has no entries *)
Definition pLastTerm (p : plog) : Z := last (pTerms p) (pBaseTerm p).

(** term of entry [i]; [None] when it is not in (base, end] *)
Definition pTermAt (p : plog) (i : Z) : option Z :=
  if (pBase p <? i) then nth_error (pTerms p) (Z.to_nat (i - pBase p - 1)) else None.

Inductive lop :=
| OpAdd (t : Z)        (* append one entry with term t *)
| OpTrunc (k : Z)      (* keep entries with index <= k *)
| OpCompact (b : Z).   (* keep entries with index >= b *)

(** Which calls are legal: terms never go backwards, indexes are sane. *)
Definition legal (p : plog) (o : lop) : Prop :=
  match o with
  | OpAdd t => pLastTerm p <= t
  | OpTrunc k => 0 <= k
  | OpCompact b => b = 0 \/ pBase p < b <= pEnd p
  end.

Definition pstep (p : plog) (o : lop) : plog :=
  match o with
  | OpAdd t => mkPlog (pBase p) (pBaseTerm p) (pTerms p ++ [t])
  | OpTrunc k =>
      if k <? pBase p then mkPlog k 0 []
      else mkPlog (pBase p) (pBaseTerm p) (firstn (Z.to_nat (k - pBase p)) (pTerms p))
  | OpCompact b =>
      if b =? 0 then mkPlog 0 0 []
      else mkPlog (b - 1)
             (if b - 1 =? pBase p then pBaseTerm p
              else match pTermAt p (b - 1) with Some t => t | None => 0 end)
             (skipn (Z.to_nat (b - 1 - pBase p)) (pTerms p))
  end.

Fixpoint prun (p : plog) (os : list lop) : plog :=
  match os with [] => p | o :: os' => prun (pstep p o) os' end.

Fixpoint legalAll (p : plog) (os : list lop) : Prop :=
  match os with [] => True | o :: os' => legal p o /\ legalAll (pstep p o) os' end.

(** a truncation that keeps at least one entry and names an existing index
    (the case in which the code rewrites its compaction term) *)
Definition interiorTrunc (p : plog) (o : lop) : Prop :=
  match o with OpTrunc k => pBase p < k <= pEnd p | _ => False end.

Fixpoint noInteriorTrunc (p : plog) (os : list lop) : Prop :=
  match os with
  | [] => True
  | o :: os' => ~ interiorTrunc p o /\ noInteriorTrunc (pstep p o) os'
  end.

Definition pEmpty : plog := mkPlog 0 0 [].

(** [n] is the length of the longest common prefix of [a] and [b]. *)
Definition isLcp (a b : list Z) (n : nat) : Prop :=
  firstn n a = firstn n b /\ (n <= length a)%nat /\ (n <= length b)%nat /\
  (forall x y, nth_error a n = Some x -> nth_error b n = Some y -> x <> y).

(** [a] is a prefix of [b] *)
Definition isPrefix (a b : list Z) : Prop := exists c, b = a ++ c.

(** the (term, index) pairs of consecutive entries starting at index [i] *)
Fixpoint pairsFrom (i : Z) (ts : list Z) : list (Z * Z) :=
  match ts with [] => [] | t :: ts' => (t, i) :: pairsFrom (i + 1) ts' end.

(** all terms appended by a history, in order *)
Fixpoint addedTerms (os : list lop) : list Z :=
  match os with
  | [] => []
  | OpAdd t :: os' => t :: addedTerms os'
  | _ :: os' => addedTerms os'
  end.

(** non-decreasing list *)
Fixpoint nondecr (l : list Z) : Prop :=
  match l with
  | x :: ((y :: _) as l') => x <= y /\ nondecr l'
  | _ => True
  end.

(** a history that only appends and compacts (never truncates, never wipes) *)
Definition growOnly (os : list lop) : Prop :=
  Forall (fun o => match o with OpTrunc _ => False | OpCompact b => b <> 0 | OpAdd _ => True end) os.
