(** What the properties of the content-addressed store say, in terms of what
    its users see and of the two files. *)
From Coq Require Import List ZArith Bool Lia Arith.
From Verif Require Import Cas_Model.
Import ListNotations.
Open Scope Z_scope.

(** The blob was in the batch of some Append that was called. *)
Definition given (l : list obs) (d : bytes) : Prop :=
  exists b, In (OApp b) l /\ In d b.

(** The blob was in the batch of some Append that returned. *)
Definition kept (l : list obs) (d : bytes) : Prop :=
  exists b n, In (ODone b n) l /\ In d b.

(** A Get that finds something returns a blob that some Append was given
    before, and whose hash is the one asked for. *)
Definition right (H : bytes -> key) (log : list obs) : Prop :=
  forall l1 g k d l2, log = l1 ++ OGot g k (Some d) :: l2 -> H d = k /\ given l1 d.

(** A Get that finds nothing was not asked for a blob of an Append that had
    returned. *)
Definition found (H : bytes -> key) (log : list obs) : Prop :=
  forall l1 g k l2 d, log = l1 ++ OGot g k None :: l2 -> kept l1 d -> H d <> k.

(** The sum of the record sizes in the first [n] entries of an index file. *)
Fixpoint sumSizes (n : nat) (b : bytes) : Z :=
  match n with
  | O => 0
  | S n' => to32 (skipn 56 b) + sumSizes n' (skipn 64 b)
  end.

(** The two files are in step: the index has whole entries, and their sizes
    add up to the size of the data file. *)
Definition inStep (w : world) : Prop :=
  (length (wIndex w) mod 64 = 0)%nat /\
  sumSizes (length (wIndex w) / 64) (wIndex w) = Z.of_nat (length (wData w)).

Definition isOpen (e : ev) : Prop := match e with EOpen _ _ _ => True | _ => False end.

(** The executions in which the store works: it is opened without VerifyData,
    and the two files are in step when it is opened, except perhaps the last
    time.  [Okb] says which blobs are used. *)
Fixpoint okrun (stp : world -> ev -> world) (Okb : bytes -> Prop) (w : world) (es : list ev)
  : Prop :=
  match es with
  | [] => True
  | e :: r =>
      match e with
      | EApp b => Forall Okb b
      | EOpen _ vf _ => vf = false /\ (wUp w = None -> inStep w \/ Forall (fun e => ~ isOpen e) r)
      | _ => True
      end /\ okrun stp Okb (stp w e) r
  end.

(** The hash, the compressor and the blobs in use: hashes have 55 bytes, what
    was compressed can be decompressed, the blobs in use have different hashes
    and sizes that fit in 31 bits. *)
Record laws (H : bytes -> key) (enc : bytes -> bytes) (dec : bytes -> option bytes)
       (W : nat) (Okb : bytes -> Prop) : Prop := {
  law_len : forall d, length (H d) = 55%nat;
  law_dec : forall d, dec (enc d) = Some d;
  law_inj : forall a b, Okb a -> Okb b -> H a = H b -> a = b;
  law_clen : forall d, Okb d -> 64 + Z.of_nat (length (enc d)) < 2147483648;
  law_ulen : forall d, Okb d -> Z.of_nat (length d) < 2147483648;
  law_W : (64 <= W)%nat
}.

(** The sum of the counts that Appends returned. *)
Fixpoint counts (l : list obs) : nat :=
  match l with
  | ODone _ n :: r => n + counts r
  | _ :: r => counts r
  | [] => 0
  end%nat.

(** All blobs Appends were called with. *)
Fixpoint allGiven (l : list obs) : list bytes :=
  match l with
  | OApp b :: r => b ++ allGiven r
  | _ :: r => allGiven r
  | [] => []
  end.

(** Every Append that was called has returned. *)
Definition allReturned (l : list obs) : Prop :=
  forall l1 b l2, l = l1 ++ OApp b :: l2 -> exists n, In (ODone b n) l2.

(** The Gets that have been called and not returned. *)
Definition pend1 (p : list (nat * key)) (o : obs) : list (nat * key) :=
  match o with
  | OAsk g k => (g, k) :: p
  | OGot g _ _ => filter (fun x => negb (Nat.eqb g (fst x))) p
  | ODead | OKill => []
  | _ => p
  end.
Definition pending (l : list obs) : list (nat * key) := fold_left pend1 l [].

(** A blob the store can handle: not empty, not empty when compressed, and
    small enough that its record fits in the work buffer. *)
Definition fits (enc : bytes -> bytes) (W : nat) (d : bytes) : Prop :=
  d <> [] /\ enc d <> [] /\ (64 + length (enc d) <= W)%nat.

(** The executions in which the store does not panic: every Append is given
    only blobs that no Append was given before, no two Gets of the same hash
    are under way at the same time, and no write of the index was cut short
    inside an entry. *)
Fixpoint calm (stp : world -> ev -> world) (ok : bytes -> Prop) (w : world) (es : list ev)
  : Prop :=
  match es with
  | [] => True
  | e :: r =>
      match e with
      | EApp b => Forall ok b /\ NoDup b /\ forall d, In d b -> ~ given (wLog w) d
      | EGet _ k => ~ In k (map snd (pending (wLog w)))
      | EOpen _ _ _ => (length (wIndex w) mod 64 = 0)%nat
      | _ => True
      end /\ calm stp ok (stp w e) r
  end.

(** One process that is not killed: Appends of blobs from [U], Gets. *)
Definition within (U : list bytes) (e : ev) : Prop :=
  match e with
  | EApp b => incl b U
  | EKill _ _ _ | EOpen _ _ _ => False
  | _ => True
  end.
