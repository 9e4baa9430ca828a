(** What a user expects of the write-ahead log: a plain list of entries behind a base,
    and what a crash may leave on disk. *)
From Coq Require Import List ZArith Lia Bool.
From Verif Require Import Base Rle_Model Wal_Model.
Import ListNotations.
Open Scope Z_scope.

(** ** A plain log: the entries after the last discarded one *)

Record plain := mkS { sBase : Z; sBaseTerm : Z; sLog : list entry }.
Definition sLastIndex (s : plain) : Z := sBase s + Z.of_nat (length (sLog s)).
Definition sLastTerm (s : plain) : Z := last (map eTerm (sLog s)) (sBaseTerm s).

(** an entry is stored with the index and term of its predecessor *)
Definition stamp (s : plain) (e : entry) : entry :=
  mkE (eTerm e) (eIndex e) (sLastIndex s) (sLastTerm s) (eRest e).
Definition sAppend (s : plain) (e : entry) : plain := mkS (sBase s) (sBaseTerm s) (sLog s ++ [stamp s e]).
Definition sAppendAll (s : plain) (es : list entry) : plain := fold_left sAppend es s.
Definition sKeep (s : plain) (i : Z) : plain :=
  mkS (sBase s) (sBaseTerm s) (filter (fun e => eIndex e <=? i) (sLog s)).
(** keep what is at most [i], then the entries after the base; a batch that ends before
    the base changes nothing *)
Definition sOverwrite (s : plain) (i : Z) (es : list entry) : plain :=
  if (i <? sBase s) && (i + Z.of_nat (length es) <=? sBase s) then s
  else sAppendAll (sKeep s i) (filter (fun e => sBase s <? eIndex e) es).
(** discard the entries before [k] *)
Definition sCompact (s : plain) (k : Z) : plain :=
  mkS (k - 1) (last (map eTerm (filter (fun e => eIndex e <? k) (sLog s))) (sBaseTerm s))
      (filter (fun e => k <=? eIndex e) (sLog s)).

Fixpoint consecutive (i : Z) (es : list entry) : Prop :=
  match es with [] => True | e :: r => eIndex e = i /\ consecutive (i + 1) r end.

(** the log a caller sees *)
Definition entries (w : wal) : list entry := map fst (raftLog w).
Definition content (w : wal) : plain :=
  mkS (BaseC (logIndex w))
      (match raftLog w with [] => CompactTerm (logIndex w) | (e, _) :: _ => ePrevTerm e end)
      (entries w).

(** ** What is assumed of the encodings *)

Definition fits (b : bytes) : Prop := 3 <= Z.of_nat (length b) < 4294967296.
(** the encodings of an entry, whatever predecessor it is stored with, have a frame *)
Definition okEntry (c : codec) (e : entry) : Prop :=
  forall i t, fits (encE c (mkE (eTerm e) (eIndex e) i t (eRest e))).
Record codec_ok (c : codec) : Prop := {
  ok_E : forall e, decE c (encE c e) = Some e;
  ok_S : forall s, decS c (encS c s) = Some s;
  ok_P : forall p, decP c (encP c p) = Some p;
  ok_fitS : forall a b, fits (encS c (b3 c a, b3 c b));
  ok_fitP : forall p, 3 <= Z.of_nat (length (encP c p));
  ok_crc : forall b, length (crc c b) = 8%nat }.

(** ** Crashes *)

(** The process dies: some operations were done, a write may be cut short. *)
Inductive killed : list op -> disk -> disk -> Prop :=
| killed_now : forall ops d, killed ops d d
| killed_later : forall o ops d d', killed ops (apply o d) d' -> killed (o :: ops) d d'
| killed_wal : forall pos b n ops d, killed (WWrite pos b :: ops) d (apply (WWrite pos (firstn n b)) d)
| killed_par : forall pos b n ops d, killed (PWrite pos b :: ops) d (apply (PWrite pos (firstn n b)) d).

(** The machine dies.  From the lowest offset of the log written or truncated since its
    last sync, the log holds anything.  A write to the parlog, which is always synced at
    once, may be cut short.  Two renames before the sync of the directory may be lost
    independently. *)
Definition survives (low : option nat) (f f' : bytes) : Prop :=
  match low with None => f' = f | Some m => firstn m f' = firstn m f end.
Definition lower (m : nat) (low : option nat) : option nat :=
  Some (match low with None => m | Some n => Nat.min m n end).
Inductive powerLoss : list op -> option nat -> disk -> disk -> Prop :=
| pl_now : forall ops low d f, survives low (dWal d) f -> powerLoss ops low d (mkD f (dPar d))
| pl_write : forall pos b ops low d d',
    powerLoss ops (lower pos low) (apply (WWrite pos b) d) d' -> powerLoss (WWrite pos b :: ops) low d d'
| pl_trunc : forall n ops low d d',
    powerLoss ops (lower n low) (apply (WTrunc n) d) d' -> powerLoss (WTrunc n :: ops) low d d'
| pl_sync : forall ops low d d', powerLoss ops None d d' -> powerLoss (WSync :: ops) low d d'
| pl_par : forall o ops low d d', (match o with PWrite _ _ | PTrunc _ | PSync | PNew _ | DirSync => True | _ => False end) ->
    powerLoss ops low (apply o d) d' -> powerLoss (o :: ops) low d d'
| pl_torn : forall pos b n ops low d f, survives low (dWal d) f ->
    powerLoss (PWrite pos b :: ops) low d (mkD f (writeAt pos (firstn n b) (dPar d)))
| pl_new : forall f ops low d d', powerLoss ops None (apply (WNew f) d) d' -> powerLoss (WNew f :: ops) low d d'
| pl_new_only : forall p f ops low d, powerLoss (PNew p :: WNew f :: ops) low d (mkD f (dPar d)).

(** Nothing is left to be synced after these operations: log, parlog, directory. *)
Fixpoint synced (wal par dir : bool) (ops : list op) : bool :=
  match ops with
  | [] => wal && par && dir
  | WWrite _ _ :: r | WTrunc _ :: r => synced false par dir r
  | WSync :: r => synced true par dir r
  | PWrite _ _ :: r | PTrunc _ :: r => synced wal false dir r
  | PSync :: r => synced wal true dir r
  | WNew _ :: r | PNew _ :: r => synced wal par false r
  | DirSync :: r => synced wal par true r
  end.

(** [b] is a piece of [f]; no piece of [f] has the hash of another entry of [log] *)
Definition piece (b f : bytes) : Prop := exists x y, f = x ++ b ++ y.
Definition noCollision (c : codec) (f : bytes) (log : list entry) : Prop :=
  forall e b, In e log -> piece b f -> b3 c b = b3 c (encE c e) -> b = encE c e.

(** ** Histories of calls *)

(** [lim]: in this process, an overwrite may keep at most that many entries ([None]: any
    number), see C53_refuted.  A process that opens a log with n entries has limit n; the
    limit is lifted by an overwrite that cuts the log. *)
Definition within (lim : option Z) (k : nat) : Prop := match lim with None => True | Some l => Z.of_nat k <= l end.
Definition kept (w : wal) (i : Z) : nat := length (filter (fun e => eIndex e <=? i) (entries w)).
Definition compacts (ops : list op) : bool := existsb (fun o => match o with WNew _ => true | _ => false end) ops.
Definition limAfter (lim : option Z) (w : wal) (i : Z) (ops : list op) (w' : wal) : option Z :=
  if compacts ops then Some (Z.of_nat (length (raftLog w')))
  else match ops with
  | [] => lim
  | _ => if (kept w i <? length (raftLog w))%nat then None else lim
  end.

Inductive reach (c : codec) (cfg : config) : wal -> disk -> option Z -> Prop :=
| reach_new : reach c cfg (fresh []) (mkD [] []) None
| reach_save : forall w d lim e ops w', reach c cfg w d lim -> okEntry c e ->
    saveRaftLogEntry c e w = (ops, Ok w') -> reach c cfg w' (applyAll ops d) lim
| reach_overwrite : forall w d lim i es isLeader commit applied ops w', reach c cfg w d lim ->
    Forall (okEntry c) es -> consecutive (i + 1) es ->
    ((kept w i < length (raftLog w))%nat -> within lim (kept w i)) ->
    overwriteEntries c cfg i es isLeader commit applied d w = (ops, Ok w') ->
    reach c cfg w' (applyAll ops d) (limAfter lim w i ops w')
| reach_compact : forall w d lim k ops w', reach c cfg w d lim ->
    compact c cfg k w = (ops, Ok w') -> reach c cfg w' (applyAll ops d) (limAfter lim w (sLastIndex (content w)) ops w')
| reach_snapshot : forall w d lim i t ops w', reach c cfg w d lim -> 0 <= i -> 0 <= t ->
    installedSnapshot i t w = (ops, Ok w') -> reach c cfg w' (applyAll ops d) (Some (-1))
| reach_reopen : forall w d lim w', reach c cfg w d lim -> openWal c d = Ok w' ->
    reach c cfg w' d (match raftLog w' with [] => None | l => Some (Z.of_nat (length l)) end).
