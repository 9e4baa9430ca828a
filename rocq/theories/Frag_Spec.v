(** * What is expected of fragments *)

From Coq Require Import ZArith List Bool.
From Verif Require Import Frag_Model.
Import ListNotations.
Local Open Scope Z_scope.

(** a key a user may use: not empty and not starting with '#'. *)
Definition userKey (k : str) : Prop := k <> [] /\ hd 0 k <> hash.

(** what a user wants to carry over: the operation, the subject, the part
    number, the payload and the error text. *)
Definition userData (f : frag) : Z * str * Z * str * str :=
  (fOp f, fSubject f, fPart f, fPayload f, fErr f).

(** the value of the user's argument k in f; None: not set. *)
Definition userArg (k : str) (f : frag) : option str :=
  match fArgs f with None => None | Some l => find k l end.

(** the last value given to k in a list of assignments. *)
Fixpoint lastVal (k : str) (l : list (str * str)) : option str :=
  match l with
  | [] => None
  | (k', v) :: r =>
      match lastVal k r with
      | Some w => Some w
      | None => if eqStr k' k then Some v else None
      end
  end.

(** ** Arguments *)

(** using the four functions: set or get, of a user's or the system's. *)
Inductive argOp : Type := SetU (k v : str) | SetS (k v : str).

Definition doArg (o : argOp) (f : frag) : option frag :=
  match o with SetU k v => setUserArg k v f | SetS k v => setSysArg k v f end.

Fixpoint doArgs (os : list argOp) (f : frag) : option frag :=
  match os with
  | [] => Some f
  | o :: r => match doArg o f with Some f' => doArgs r f' | None => None end
  end.

Definition userSets (os : list argOp) : list (str * str) :=
  flat_map (fun o => match o with SetU k v => [(k, v)] | SetS _ _ => [] end) os.
Definition sysSets (os : list argOp) : list (str * str) :=
  flat_map (fun o => match o with SetS k v => [(k, v)] | SetU _ _ => [] end) os.

(** no argument is set under a key the documentation rules out. *)
Definition argOk (o : argOp) : Prop :=
  match o with SetU k _ => userKey k | SetS k _ => k <> [] end.

(** ** Order *)

(** what Compare compares, most important first. *)
Definition sortKey (f : frag) : list str :=
  [fCkt f; fFromPeer f; fToPeer f; [fSerial f]; fToSvc f; fFromSvc f;
   [fTyp f]; [fOp f]; [fPart f]; fSubject f; fErr f; fPayload f].

(** first difference decides. *)
Fixpoint lexOrder (a b : list str) : comparison :=
  match a, b with
  | x :: a', y :: b' => match cmpStr x y with Eq => lexOrder a' b' | c => c end
  | [], [] => Eq
  | [], _ => Lt
  | _, [] => Gt
  end.

(** ** Recycling *)

(** what users do with a pool, and which fragments (addresses) they hold: those
    they got and did not give back.  A successful send of a fragment that is
    not to be kept gives it back. *)
Inductive poolOp : Type :=
| PNew                                   (* NewFragment *)
| PWrite (a : nat) (f : frag -> frag)    (* the user changes a fragment they hold *)
| PFree (a : nat)                        (* FreeFragment *)
| PSend (a : nat) (keep : Z) (early ok : bool).

Record world : Type := mkWorld { wPool : pool; wHeld : list nat }.

Definition holds (a : nat) (w : world) : bool := existsb (Nat.eqb a) (wHeld w).
Definition giveUp (a : nat) (l : list nat) : list nat := filter (fun b => negb (Nat.eqb a b)) l.

(** giveUpAlways: a user who counts a fragment as gone once it was passed to a
    send that may recycle it, whatever the send returned. *)
Definition poolStep (giveUpAlways : bool) (o : poolOp) (w : world) : world :=
  match o with
  | PNew => let (a, p) := newFragment (wPool w) in mkWorld p (a :: wHeld w)
  | PWrite a f =>
      if holds a w
      then mkWorld (mkPool (updF a f (heap (wPool w))) (rec (wPool w)) (serial (wPool w))) (wHeld w)
      else w
  | PFree a =>
      if holds a w then mkWorld (freeFragment a (wPool w)) (giveUp a (wHeld w)) else w
  | PSend a keep early ok =>
      if holds a w then
        let (r, p) := sendOneWay a keep early ok (wPool w) in
        mkWorld p (if (keep <=? 0) && (r || giveUpAlways) then giveUp a (wHeld w) else wHeld w)
      else w
  end.

Definition poolRun (g : bool) (os : list poolOp) : world :=
  fold_left (fun w o => poolStep g o w) os (mkWorld (mkPool [] [] 0) []).
