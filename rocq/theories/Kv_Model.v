(** The replicated key/value store: what applying a committed ticket does.

    Models /repo/tube/actions.go 510-1145 and 1347-1400, /repo/tube/tube.go
    11887-12085 (doWrite, doCAS, validLease, doReadKey, ...), the dispatch in
    commitWhatWeCan (tube.go 10355-10490) and the lease fields that
    replicateTicket sets (tube.go 6360-6363), /repo/tube/kv.go.

    Simplifications.  A time is the number of nanoseconds since the zero
    [time.Time], so [IsZero] is [= 0]; [Add] and [Sub] do not saturate.  The
    adaptive radix tree of a table and the Go map of tables are maps from byte
    strings, kept as sorted association lists; a scan that removes keys while it
    iterates sees the keys that were there when it began.  The store is never
    nil (tube.go 9317).  Error texts are an enumeration.  Keys are not empty:
    art.Find(Exact, "") in a table of one key finds that key (art/tree.go 349),
    which is not modelled here. *)
From Coq Require Import List ZArith Lia Bool.
From Verif Require Import Base.
Import ListNotations.
Open Scope Z_scope.

(** Byte strings and their order (bytes.Compare). *)
Definition bytes := list Z.

Fixpoint bcmp (a b : bytes) : comparison :=
  match a, b with
  | [], [] => Eq
  | [], _ :: _ => Lt
  | _ :: _, [] => Gt
  | x :: a', y :: b' => match x ?= y with Eq => bcmp a' b' | c => c end
  end.

Definition beqb (a b : bytes) : bool := match bcmp a b with Eq => true | _ => false end.

(** Maps from byte strings. *)
Section Map.
Context {A : Type}.

Fixpoint mget (k : bytes) (m : list (bytes * A)) : option A :=
  match m with
  | [] => None
  | (k', v) :: m' => if beqb k k' then Some v else mget k m'
  end.

Fixpoint mput (k : bytes) (v : A) (m : list (bytes * A)) : list (bytes * A) :=
  match m with
  | [] => [(k, v)]
  | (k', v') :: m' =>
      match bcmp k k' with
      | Eq => (k, v) :: m'
      | Lt => (k, v) :: (k', v') :: m'
      | Gt => (k', v') :: mput k v m'
      end
  end.

Fixpoint mdel (k : bytes) (m : list (bytes * A)) : list (bytes * A) :=
  match m with
  | [] => []
  | (k', v') :: m' => if beqb k k' then mdel k m' else (k', v') :: mdel k m'
  end.
End Map.

(** art/leaf.go [Leaf]: a value with its lease. *)
Record leaf := mkLeaf {
  lVal : bytes; lVtype : bytes; lLeasor : bytes; lPeer : bytes; lT0 : Z; lUntil : Z;
  lIndex : Z; lEpoch : Z; lVersion : Z; lAuto : bool; lRenew : Z }.

(** kv.go 11-21 [ArtTable] and 38-43 [KVStore]. *)
Definition table := list (bytes * leaf).
Definition store := list (bytes * table).

(** Operations of a ticket (tube.go, [TicketOp]); [Noop] stands for those that
    do not touch the store (no-op, membership, shadow, session). *)
Inductive op := Write | Cas | MakeTable | DeleteTable | RenameTable | DeleteKey
  | ShowKeys | Read | ReadRange | ReadPrefix | Noop.

(** The parts of a ticket that nothing writes to once it is in the log. *)
Record req := mkReq {
  qOp : op; qTable : bytes; qKey : bytes; qFrom : bytes; qTm : Z; qDur : Z; qIndex : Z;
  qOldVersion : Z; qOldEpoch : Z; qOldVal : bytes; qNewTable : bytes; qEndx : bytes; qDescend : bool }.

(** The lease fields of a ticket. They hold the request, and a failed write or
    a read puts the current lease there. *)
Record linfo := mkInfo {
  iVtype : bytes; iLeasor : bytes; iPeer : bytes; iT0 : Z; iUntil : Z; iEpoch : Z;
  iIndex : Z; iVersion : Z; iAuto : bool }.

Inductive kerr := KeyNotFound | StaleIndex | ShorterLease | Leased | CasLeased | CasVersion | CasEpoch
  | CasValue | DeleteLeased | NoTableName | NoNewName | TargetExists | NoSuchTable.

Record ticket := mkTkt {
  tReq : req; tVal : bytes; tInfo : linfo; tErr : option kerr; tCur : bytes; tSwapped : bool;
  tCasCur : bytes; tPrev : bytes * bytes; tScan : option (list (bytes * option leaf)) }.

Definition setVal (v : bytes) (t : ticket) : ticket :=
  mkTkt (tReq t) v (tInfo t) (tErr t) (tCur t) (tSwapped t) (tCasCur t) (tPrev t) (tScan t).
Definition setInfo (i : linfo) (t : ticket) : ticket :=
  mkTkt (tReq t) (tVal t) i (tErr t) (tCur t) (tSwapped t) (tCasCur t) (tPrev t) (tScan t).
Definition setErr (e : option kerr) (t : ticket) : ticket :=
  mkTkt (tReq t) (tVal t) (tInfo t) e (tCur t) (tSwapped t) (tCasCur t) (tPrev t) (tScan t).
Definition setCur (c : bytes) (t : ticket) : ticket :=
  mkTkt (tReq t) (tVal t) (tInfo t) (tErr t) c (tSwapped t) (tCasCur t) (tPrev t) (tScan t).
Definition setSwapped (b : bool) (t : ticket) : ticket :=
  mkTkt (tReq t) (tVal t) (tInfo t) (tErr t) (tCur t) b (tCasCur t) (tPrev t) (tScan t).
Definition setCasCur (c : bytes) (t : ticket) : ticket :=
  mkTkt (tReq t) (tVal t) (tInfo t) (tErr t) (tCur t) (tSwapped t) c (tPrev t) (tScan t).
Definition setPrev (p : bytes * bytes) (t : ticket) : ticket :=
  mkTkt (tReq t) (tVal t) (tInfo t) (tErr t) (tCur t) (tSwapped t) (tCasCur t) p (tScan t).
Definition setScan (l : option (list (bytes * option leaf))) (t : ticket) : ticket :=
  mkTkt (tReq t) (tVal t) (tInfo t) (tErr t) (tCur t) (tSwapped t) (tCasCur t) (tPrev t) l.

(** tube.go 6360-6363 [replicateTicket]: the leader stamps the ticket with the
    time of the entry and, for a lease request, with the end of the lease. *)
Definition stamp (tm : Z) (t : ticket) : ticket :=
  let q := tReq t in
  let q' := mkReq (qOp q) (qTable q) (qKey q) (qFrom q) tm (qDur q) (qIndex q) (qOldVersion q) (qOldEpoch q)
                  (qOldVal q) (qNewTable q) (qEndx q) (qDescend q) in
  let i := tInfo t in
  let i' := if 0 <? qDur q
            then mkInfo (iVtype i) (iLeasor i) (iPeer i) (iT0 i) (tm + qDur q) (iEpoch i) (iIndex i) (iVersion i) (iAuto i)
            else i in
  mkTkt q' (tVal t) i' (tErr t) (tCur t) (tSwapped t) (tCasCur t) (tPrev t) (tScan t).

Definition findLeaf (s : store) (tab key : bytes) : option leaf :=
  match mget tab s with Some t => mget key t | None => None end.

(** Put a leaf into a table of the store, which is made if it is missing. *)
Definition putLeaf (s : store) (tab key : bytes) (l : leaf) : store :=
  mput tab (mput key l (match mget tab s with Some t => t | None => [] end)) s.

Definition delLeaf (s : store) (tab key : bytes) : store :=
  match mget tab s with Some t => mput tab (mdel key t) s | None => s end.

(** actions.go 738-761 [writeFailedSetCurrentVal]. *)
Definition writeFailed (drift : Z) (l : leaf) (t : ticket) : ticket :=
  setInfo (mkInfo (lVtype l) (lLeasor l) (lPeer l) (lT0 l) (lUntil l + drift) (lEpoch l) (lIndex l) (lVersion l) (lAuto l))
    (setCur (lVal l) t).

(** The three fields a successful write reports: epoch and log index, and T0
    for a new key only (actions.go 590-592, 632-633, 680-681, 718-719). *)
Definition granted (l : leaf) (t0 : option Z) (t : ticket) : ticket :=
  let i := tInfo t in
  setInfo (mkInfo (iVtype i) (iLeasor i) (iPeer i) (match t0 with Some x => x | None => iT0 i end) (iUntil i)
                  (lEpoch l) (lIndex l) (iVersion i) (iAuto i)) t.

(** The leaf of a write that starts a new lease epoch (actions.go 578-588,
    616-630, 700-716). *)
Definition freshLeaf (t : ticket) (epoch version renew : Z) : leaf :=
  let q := tReq t in let i := tInfo t in
  mkLeaf (tVal t) (iVtype i) (iLeasor i) (qFrom q) (qTm q) (iUntil i) (qIndex q) epoch version (iAuto i) renew.

(** The leaf of a write by the leasor (actions.go 664-679): the epoch and its
    start stay. *)
Definition extendedLeaf (t : ticket) (l : leaf) : leaf :=
  let q := tReq t in let i := tInfo t in
  mkLeaf (tVal t) (iVtype i) (lLeasor l) (qFrom q) (lT0 l) (iUntil i) (qIndex q) (lEpoch l) (lVersion l + 1) (iAuto i)
    (lRenew l).

Definition noLease (l : leaf) : bool := match lLeasor l with [] => true | _ => lUntil l =? 0 end.

(** actions.go 522-736 [kvstoreWrite]. [now] is the local clock, read in a dry
    run only. The [bool] is the result. *)
Definition kvstoreWrite (drift now : Z) (dry immut : bool) (s : store) (t : ticket) : res (store * ticket * bool) :=
  let q := tReq t in let i := tInfo t in
  if negb dry && (qTm q =? 0) then Panic
  else
    let failed e l :=
      Ok (s, (let t1 := setErr (Some e) t in if dry && immut then t1 else writeFailed drift l t1), false) in
    match findLeaf s (qTable q) (qKey q) with
    | None =>
        if dry then Ok (s, t, true)
        else
          let l := freshLeaf t 1 1 0 in
          Ok (putLeaf s (qTable q) (qKey q) l, granted l (Some (lT0 l)) t, true)
    | Some l =>
        if negb dry && (qIndex q <=? lIndex l) then failed StaleIndex l
        else if noLease l then
          if dry then Ok (s, t, true)
          else
            let l' := freshLeaf t (lEpoch l + 1) (lVersion l + 1) (lRenew l) in
            Ok (putLeaf s (qTable q) (qKey q) l', granted l' None t, true)
        else
          let now' := if dry then now else qTm q in
          let until' := if dry then now' + qDur q else iUntil i in
          if negb (qDur q =? 0) && (until' <=? lUntil l) then failed ShorterLease l
          else if negb (qDur q =? 0) && beqb (lLeasor l) (iLeasor i) && beqb (lPeer l) (qFrom q) then
            if dry then Ok (s, t, true)
            else
              let l' := extendedLeaf t l in
              Ok (putLeaf s (qTable q) (qKey q) l', granted l' None t, true)
          else
            let expired := qTm q - (lUntil l + drift) in
            if 0 <? expired then
              if dry then Ok (s, t, true)
              else
                let l' := freshLeaf t (lEpoch l + 1) (lVersion l + 1) expired in
                Ok (putLeaf s (qTable q) (qKey q) l', granted l' None (setPrev (lVal l, lVtype l) t), true)
            else failed Leased l
    end.

(** tube.go 12031-12039 [validLease]. *)
Definition validLease (drift : Z) (t : ticket) (l : leaf) : bool :=
  negb (noLease l) && negb (lUntil l + drift <? qTm (tReq t)).

(** The write inside a CAS (tube.go 11908-11909 and others). *)
Definition casWrite (drift : Z) (s : store) (t : ticket) : res (store * ticket) :=
  do r <- kvstoreWrite drift 0 false false s t ;
  let '(s', t', _) := r in
  Ok (s', setSwapped (match tErr t' with None => true | _ => false end) t').

(** tube.go 11894-12029 [doCAS]. *)
Definition doCAS (drift : Z) (s : store) (t : ticket) : res (store * ticket) :=
  let q := tReq t in
  match findLeaf s (qTable q) (qKey q) with
  | None =>
      if (0 <? qOldVersion q) || (0 <? qOldEpoch q) then Ok (s, setErr (Some KeyNotFound) t)
      else match qOldVal q with
           | [] => casWrite drift s t
           | _ => Ok (s, setErr (Some KeyNotFound) t)
           end
  | Some l =>
      if validLease drift t l && negb (beqb (lLeasor l) (iLeasor (tInfo t)))
      then Ok (s, writeFailed drift l (setErr (Some CasLeased) t))
      else if 0 <? qOldVersion q then
        if negb (qOldVersion q =? lVersion l)
        then Ok (s, writeFailed drift l (setSwapped false (setErr (Some CasVersion) t)))
        else casWrite drift s t
      else if 0 <? qOldEpoch q then
        if negb (qOldEpoch q =? lEpoch l)
        then Ok (s, writeFailed drift l (setSwapped false (setErr (Some CasEpoch) t)))
        else casWrite drift s t
      else match qOldVal q with
           | [] => casWrite drift s t
           | _ =>
               if beqb (lVal l) (qOldVal q) then casWrite drift s t
               else Ok (s, writeFailed drift l (setErr (Some CasValue) (setSwapped false (setCasCur (lVal l) t))))
           end
  end.

(** The name of the table auto-deleted leaves go to: "dead". *)
Definition dead : bytes := [100; 101; 97; 100].

(** actions.go 823-830 [ensureDeadzone]. *)
Definition ensureDead (s : store) : store :=
  match mget dead s with Some _ => s | None => mput dead [] s end.

(** The test for an auto-delete (actions.go 780-782 and others). It reads the
    local clock. *)
Definition autoDeletes (now : Z) (tab : bytes) (l : leaf) : bool :=
  lAuto l && negb (beqb tab dead) && (match lLeasor l with [] => false | _ => true end) && (lUntil l <? now).

(** Move a leaf to the dead table. *)
Definition bury (tab key : bytes) (l : leaf) (s : store) : store :=
  delLeaf (putLeaf (ensureDead s) dead key l) tab key.

(** actions.go 856-877 [KVStoreReadLeaf]. *)
Definition readLeaf (now : Z) (s : store) (tab key : bytes) : store * option leaf :=
  match findLeaf s tab key with
  | None => (s, None)
  | Some l => if autoDeletes now tab l then (bury tab key l s, None) else (s, Some l)
  end.

(** tube.go 12041-12066 [doReadKey]. *)
Definition doReadKey (now : Z) (s : store) (t : ticket) : store * ticket :=
  let q := tReq t in
  match readLeaf now s (qTable q) (qKey q) with
  | (s', None) => (s', setErr (Some KeyNotFound) t)
  | (s', Some l) =>
      (s', setInfo (mkInfo (lVtype l) (lLeasor l) (lPeer l) (lT0 l) (lUntil l) (lEpoch l) (lIndex l) (lVersion l) (lAuto l))
             (setVal (lVal l) (setErr None t)))
  end.

(** actions.go 906-948 [doDeleteKey]. *)
Definition doDeleteKey (drift now : Z) (s : store) (t : ticket) : store * ticket :=
  let q := tReq t in
  match mget (qTable q) s with
  | None => (s, t)
  | Some _ =>
      match readLeaf now s (qTable q) (qKey q) with
      | (s', None) => (s', setErr (Some KeyNotFound) t)
      | (s', Some l) =>
          let t1 := setErr None t in
          if noLease l then (delLeaf s' (qTable q) (qKey q), t1)
          else if beqb (lLeasor l) (iLeasor (tInfo t)) then (delLeaf s' (qTable q) (qKey q), t1)
          else if lUntil l + drift <? qTm q then (delLeaf s' (qTable q) (qKey q), t1)
          else (s', setErr (Some DeleteLeased) t)
      end
  end.

(** actions.go 958-967 [doMakeTable]. *)
Definition doMakeTable (s : store) (t : ticket) : store :=
  match qTable (tReq t) with
  | [] => s
  | tab => match mget tab s with Some _ => s | None => mput tab [] s end
  end.

(** actions.go 969-979 [doDeleteTable]. *)
Definition doDeleteTable (s : store) (t : ticket) : store :=
  match qTable (tReq t) with
  | [] => s
  | tab => mdel tab s
  end.

(** actions.go 981-1011 [doRenameTable]. *)
Definition doRenameTable (s : store) (t : ticket) : store * ticket :=
  let q := tReq t in
  match s with
  | [] => (s, setErr (Some KeyNotFound) t)
  | _ =>
      match qTable q, qNewTable q with
      | [], _ => (s, setErr (Some NoTableName) t)
      | _, [] => (s, setErr (Some NoNewName) t)
      | tab, new =>
          if beqb new tab then (s, t)
          else match mget new s with
               | Some _ => (s, setErr (Some TargetExists) t)
               | None =>
                   match mget tab s with
                   | None => (s, setErr (Some NoSuchTable) t)
                   | Some x => (mdel tab (mput new x s), t)
                   end
               end
      end
  end.

(** The beginning shared by all keys of a table with two or more, and whether
    [q] leaves it with a smaller byte: then a search for the first key at or
    after [q] finds nothing (art/gte.go, see C24_below_all_refuted). *)
Fixpoint lcp (a b : bytes) : bytes :=
  match a, b with
  | x :: a', y :: b' => if x =? y then x :: lcp a' b' else []
  | _, _ => []
  end.
Definition shared (ks : list bytes) : bytes :=
  match ks with
  | k :: (_ :: _) as r => fold_left lcp (tl ks) k
  | _ => []
  end.
Fixpoint leavesBelow (q p : bytes) : bool :=
  match q, p with
  | x :: q', y :: p' => if x =? y then leavesBelow q' p' else x <? y
  | _, _ => false
  end.
Definition lost (q : bytes) (tab : list (bytes * leaf)) : bool := leavesBelow q (shared (map fst tab)).

(** The loop of a scan: over the leaves [ls] seen, in this order; the dead ones
    are buried, the others are results.  After a removal the iterator looks for
    the next key in the changed tree (art/iterator.go 254-285), which upwards may
    find nothing. *)
Fixpoint scanLoop (now : Z) (up : bool) (tab : bytes) (ls : list (bytes * leaf)) (s : store)
  : store * list (bytes * option leaf) :=
  match ls with
  | [] => (s, [])
  | (k, l) :: r =>
      if autoDeletes now tab l then
        let s1 := bury tab k l s in
        if up && lost k (match mget tab s1 with Some m => m | None => [] end) then (s1, [])
        else scanLoop now up tab r s1
      else let '(s', res) := scanLoop now up tab r s in (s', (k, Some l) :: res)
  end.

(** art.Ascend(beg, endx) (art/iterator.go 463-471, 450-457): the keys in
    [beg, endx), no upper bound for an empty [endx]. art.Descend(endx, start)
    visits (endx, start] downwards, without a bound where one is empty. *)
Definition geB (a b : bytes) : bool := match bcmp a b with Lt => false | _ => true end.
Definition inAscend (beg endx k : bytes) : bool :=
  geB k beg && (match endx with [] => true | _ => negb (geB k endx) end).
Definition inDescend (start endx k : bytes) : bool :=
  (match start with [] => true | _ => geB start k end) &&
  (match endx with [] => true | _ => negb (geB endx k) end).

(** actions.go 763-821 [kvstoreRangeScan]; the iterators of art are set up with
    Find(GTE, key), or with Find(GT, endx) downwards. *)
Definition rangeScan (now : Z) (s : store) (t : ticket) : store * ticket :=
  let q := tReq t in
  match mget (qTable q) s with
  | None => (s, setErr (Some KeyNotFound) (setScan None t))
  | Some tab =>
      let seen := if lost (if qDescend q then qEndx q else qKey q) tab then []
                  else if qDescend q
                  then rev (filter (fun kl => inDescend (qKey q) (qEndx q) (fst kl)) tab)
                  else filter (fun kl => inAscend (qKey q) (qEndx q) (fst kl)) tab in
      let '(s', r) := scanLoop now (negb (qDescend q)) (qTable q) seen (ensureDead s) in
      (s', setErr None (setScan (Some (if qDescend q then rev r else r)) t))
  end.

Fixpoint hasPrefix (p k : bytes) : bool :=
  match p, k with
  | [], _ => true
  | x :: p', y :: k' => (x =? y) && hasPrefix p' k'
  | _ :: _, [] => false
  end.

(** The keys up to the first without the prefix. *)
Fixpoint takePrefix (p : bytes) (ls : list (bytes * leaf)) : list (bytes * leaf) :=
  match ls with
  | [] => []
  | (k, l) :: r => if hasPrefix p k then (k, l) :: takePrefix p r else []
  end.

(** actions.go 1347-1400 [kvstorePrefixScan]. Where Ascend finds nothing at or
    after the prefix although there are keys, none has the prefix. *)
Definition prefixScan (now : Z) (s : store) (t : ticket) : store * ticket :=
  let q := tReq t in
  match mget (qTable q) s with
  | None => (s, setErr (Some KeyNotFound) (setScan None t))
  | Some tab =>
      let seen := if qDescend q
                  then takePrefix (qKey q) (rev (filter (fun kl => inDescend (qKey q) [] (fst kl)) tab))
                  else takePrefix (qKey q) (filter (fun kl => inAscend (qKey q) [] (fst kl)) tab) in
      let '(s', r) := scanLoop now (negb (qDescend q)) (qTable q) seen (ensureDead s) in
      (s', setErr None (setScan (Some (if qDescend q then rev r else r)) t))
  end.

(** actions.go 1101-1145 [doShowKeys]: names only. *)
Definition doShowKeys (now : Z) (s : store) (t : ticket) : store * ticket :=
  match s with
  | [] => (s, setErr (Some KeyNotFound) t)
  | _ =>
      match qTable (tReq t) with
      | [] => (s, setScan (Some (map (fun kt => (fst kt, None)) s)) t)
      | tab =>
          match mget tab s with
          | None => (s, setErr (Some KeyNotFound) (setScan (Some []) t))
          | Some ls =>
              let '(s', r) := scanLoop now true tab ls (ensureDead s) in
              (s', setScan (Some (map (fun kl => (fst kl, None)) r)) t)
          end
      end
  end.

(** tube.go 10355-10490, the switch of [commitWhatWeCan]: apply one committed
    ticket on a node whose clock reads [now]. Gives the store and the ticket as
    it is left in the node's log. *)
Definition apply (drift now : Z) (s : store) (t : ticket) : res (store * ticket) :=
  match qOp (tReq t) with
  | Write => do r <- kvstoreWrite drift now false false s t ; Ok (fst r)
  | Cas => doCAS drift s t
  | MakeTable => Ok (doMakeTable s t, t)
  | DeleteTable => Ok (doDeleteTable s t, t)
  | RenameTable => Ok (doRenameTable s t)
  | DeleteKey => Ok (doDeleteKey drift now s t)
  | ShowKeys => Ok (doShowKeys now s t)
  | Read => Ok (doReadKey now s t)
  | ReadRange => Ok (rangeScan now s t)
  | ReadPrefix => Ok (prefixScan now s t)
  | Noop => Ok (s, t)
  end.

(** Apply a log; [clock] is what the node's clock reads at each entry. *)
Fixpoint applyAll (drift : Z) (clock : list Z) (s : store) (log : list ticket) : res (store * list ticket) :=
  match log with
  | [] => Ok (s, [])
  | t :: log' =>
      do r <- apply drift (hd 0 clock) s t ;
      do r' <- applyAll drift (tl clock) (fst r) log' ;
      Ok (fst r', snd r :: snd r')
  end.

(** tube.go 16995-17008 with 11843-11851: what the leader does with a lease
    write before it goes into the log, while it may serve local reads: the
    ticket is answered at once when the dry run says it would lose. [true]:
    answered, not replicated. *)
Definition fastPath (drift now : Z) (s : store) (t : ticket) : res (ticket * bool) :=
  match qOp (tReq t), iLeasor (tInfo t) with
  | Write, _ :: _ =>
      if 0 <? qDur (tReq t) then
        do r <- kvstoreWrite drift now true false s t ;
        let '(_, t', would) := r in Ok (t', negb would)
      else Ok (t, false)
  | _, _ => Ok (t, false)
  end.

(** kv.go 63-81 [Merge]. *)
Fixpoint mergeTable (into from : table) : table :=
  match from with
  | [] => into
  | (k, l) :: r => mergeTable (mput k l into) r
  end.

Fixpoint merge (s r : store) : store :=
  match r with
  | [] => s
  | (name, tab) :: r' =>
      merge (match mget name s with
             | None => mput name (mergeTable [] tab) s
             | Some prior => mput name (mergeTable prior tab) s
             end) r'
  end.

(** kv.go 83-103 [PreSaveHook], [PostLoadHook]: the Go map is ranged over in
    any order; [order] is that order. *)
Definition preSave (order : list (bytes * table)) : list bytes * list table :=
  (map fst order, map snd order).

Fixpoint postLoad (m : store) (keys : list bytes) (vals : list table) : res store :=
  match keys, vals with
  | [], _ => Ok m
  | k :: ks, v :: vs => postLoad (mput k v m) ks vs
  | _ :: _, [] => Panic
  end.
