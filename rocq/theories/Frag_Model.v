(** * Fragments: their arguments, their way through a Message, comparing them,
      recycling them

    Models ckt.go (Fragment 283-314, SetUserArg 322-334, GetUserArg 338-348,
    SetSysArg 354-362, GetSysArg 367-373, SendOneWay 685-776,
    convertMessageToFragment 849-873, ToMessage 875-927,
    ConvertFragmentToMessage 933-982, newCircuit's use of the first fragment
    1157-1199, addUserMeta 1325-1344, newFragment and freeFragment 1475-1496,
    Compare 2358-2455) and hdr.go (Message 202-233, HDR 375-449, copyArgsMap
    269-278, NewMessage 283-288).

    Strings and byte slices are lists of bytes (Z).  Times are left out
    (Created), as are the fields no Fragment has (Seqno, Deadline, ...).  What
    the connection does to a Message is the business of Wire_Model and
    Crypt_Model: here a Message arrives as it was sent. *)

From Coq Require Import ZArith List Bool.
Import ListNotations.
Local Open Scope Z_scope.

Definition str : Type := list Z.

Fixpoint eqStr (a b : str) : bool :=
  match a, b with
  | [], [] => true
  | x :: a', y :: b' => (x =? y) && eqStr a' b'
  | _, _ => false
  end.

(** Go's < on strings and bytes.Compare. *)
Fixpoint cmpStr (a b : str) : comparison :=
  match a, b with
  | [], [] => Eq
  | [], _ => Lt
  | _, [] => Gt
  | x :: a', y :: b' => match x ?= y with Eq => cmpStr a' b' | c => c end
  end.

Definition isEmpty (s : str) : bool := match s with [] => true | _ => false end.

(** '#' *)
Definition hash : Z := 35.

(** key[0] == '#' *)
Definition startsHash (s : str) : bool := match s with x :: _ => x =? hash | [] => false end.

(** ** Go's map[string]string *)

(** None: the nil map. *)
Definition gomap : Type := option (list (str * str)).

Fixpoint find (k : str) (l : list (str * str)) : option str :=
  match l with
  | [] => None
  | (k', v) :: r => if eqStr k' k then Some v else find k r
  end.

(** v, ok := m[k] *)
Definition mapGet (k : str) (m : gomap) : option str :=
  match m with None => None | Some l => find k l end.

(** m[k] = v: an assignment to an entry of the nil map panics (None). *)
Definition mapSet (k v : str) (m : gomap) : option gomap :=
  match m with
  | None => None
  | Some l => Some (Some ((k, v) :: filter (fun p => negb (eqStr (fst p) k)) l))
  end.

(** if m == nil { m = make(map[string]string) } *)
Definition orMake (m : gomap) : gomap := match m with None => Some [] | _ => m end.

(** copyArgsMap (hdr.go 269-278): the copy of an empty map is the nil map. *)
Definition copyArgs (m : gomap) : gomap :=
  match m with
  | None => None
  | Some [] => None
  | Some l => Some l
  end.

(** ** Fragments and messages *)

Record frag : Type := mkFrag {
  fFromPeer : str; fFromName : str; fFromSvc : str; fFromVer : str;
  fToPeer : str; fToName : str; fToSvc : str; fToVer : str;
  fCkt : str; fSerial : Z; fTyp : Z;
  fOp : Z; fSubject : str; fPart : Z;
  fArgs : gomap; fPayload : str; fErr : str }.

(** Fragment{} *)
Definition zeroFrag : frag :=
  mkFrag [] [] [] [] [] [] [] [] [] 0 0 0 [] 0 None [] [].

Definition setArgs (a : gomap) (f : frag) : frag :=
  mkFrag (fFromPeer f) (fFromName f) (fFromSvc f) (fFromVer f)
    (fToPeer f) (fToName f) (fToSvc f) (fToVer f)
    (fCkt f) (fSerial f) (fTyp f) (fOp f) (fSubject f) (fPart f) a (fPayload f) (fErr f).

Definition setSerial (n : Z) (f : frag) : frag :=
  mkFrag (fFromPeer f) (fFromName f) (fFromSvc f) (fFromVer f)
    (fToPeer f) (fToName f) (fToSvc f) (fToVer f)
    (fCkt f) n (fTyp f) (fOp f) (fSubject f) (fPart f) (fArgs f) (fPayload f) (fErr f).

(** Message with its HDR. *)
Record message : Type := mkMessage {
  hFrom : str; hTo : str;
  hToSvc : str; hToVer : str; hFromSvc : str; hFromVer : str;
  hArgs : gomap; hSubject : str; hTyp : Z; hCall : str; hSerial : Z; hPart : Z;
  hToPeer : str; hToName : str; hFromPeer : str; hFromName : str; hOp : Z;
  jobSerz : str; jobErrs : str }.

(** CallPeerTraffic, CallPeerError, CallPeerStartCircuit (hdr.go 71-86). *)
Definition callPeerStartCircuit : Z := 113.
Definition callPeerTraffic : Z := 117.
Definition callPeerError : Z := 118.
Definition callPeerEndCircuit : Z := 120.

(** ** Arguments *)

(** SetUserArg (ckt.go 322-334); None is a panic. *)
Definition setUserArg (k v : str) (f : frag) : option frag :=
  if isEmpty k then None
  else if startsHash k then None
  else match mapSet k v (orMake (fArgs f)) with
       | Some a => Some (setArgs a f)
       | None => None
       end.

(** GetUserArg (338-348): the outer None is a panic. *)
Definition getUserArg (k : str) (f : frag) : option (option str) :=
  if isEmpty k || match fArgs f with None => true | _ => false end then Some None
  else if startsHash k then None
  else Some (mapGet k (fArgs f)).

(** SetSysArg (354-362). *)
Definition setSysArg (k v : str) (f : frag) : option frag :=
  if isEmpty k then None
  else match mapSet (hash :: k) v (orMake (fArgs f)) with
       | Some a => Some (setArgs a f)
       | None => None
       end.

(** GetSysArg (367-373). *)
Definition getSysArg (k : str) (f : frag) : option str :=
  if isEmpty k || match fArgs f with None => true | _ => false end then None
  else mapGet (hash :: k) (fArgs f).

(** ** From a fragment to a message and back *)

(** ToMessage (875-927); newSerial is what issueSerial would return. *)
Definition toMessage (newSerial : Z) (f : frag) : message :=
  mkMessage [] []
    (fToSvc f) (fToVer f) (fFromSvc f) (fFromVer f)
    (match fArgs f with None => Some [] | a => copyArgs a end)
    (fSubject f)
    (if isEmpty (fErr f) then (if fTyp f =? 0 then callPeerTraffic else fTyp f) else callPeerError)
    (fCkt f)
    (if fSerial f =? 0 then newSerial else fSerial f)
    (fPart f)
    (fToPeer f) (fToName f) (fFromPeer f) (fFromName f) (fOp f)
    (fPayload f) (fErr f).

(** convertMessageToFragment (849-873). *)
Definition toFrag (m : message) : frag :=
  mkFrag (hFromPeer m) (hFromName m) (hFromSvc m) (hFromVer m)
    (hToPeer m) (hToName m) (hToSvc m) (hToVer m)
    (hCall m) (hSerial m) (hTyp m) (hOp m) (hSubject m) (hPart m)
    (hArgs m) (jobSerz m) (jobErrs m).

(** what a Circuit knows (31-88), with the fields of LpbFrom and RpbTo used
    here. *)
Record circuit : Type := mkCkt {
  kLocalPeer : str; kLocalName : str; kLocalSvc : str; kLocalVer : str;
  kRemotePeer : str; kRemoteName : str; kRemoteSvc : str; kRemoteVer : str;
  kID : str; kRemoteAddr : str; kLocalAddr : str;
  kBaseName : str; kBaseAddr : str; kHost : str; kPID : str }.

(** the names of the arguments the system sets, without their '#': any fixed
    nonempty names do. *)
Definition nFromServiceName : str := [1].
Definition nFromVersion : str := [2].
Definition nFromBaseName : str := [3].
Definition nFromBaseAddr : str := [4].
Definition nFromHost : str := [5].
Definition nFromPID : str := [6].

Definition dflt (a b : str) : str := if isEmpty a then b else a.

Definition setHArgs (a : gomap) (m : message) : message :=
  mkMessage (hFrom m) (hTo m) (hToSvc m) (hToVer m) (hFromSvc m) (hFromVer m)
    a (hSubject m) (hTyp m) (hCall m) (hSerial m) (hPart m)
    (hToPeer m) (hToName m) (hFromPeer m) (hFromName m) (hOp m) (jobSerz m) (jobErrs m).

(** a run of assignments to entries of m; None is a panic. *)
Fixpoint mapSets (kvs : list (str * str)) (m : gomap) : option gomap :=
  match kvs with
  | [] => Some m
  | (k, v) :: r => match mapSet k v m with Some m' => mapSets r m' | None => None end
  end.

(** ConvertFragmentToMessage (933-982). *)
Definition convert (newSerial : Z) (c : circuit) (f : frag) : option message :=
  let m := toMessage newSerial f in
  match mapSets [(hash :: nFromServiceName, kLocalSvc c); (hash :: nFromVersion, kLocalVer c);
                 (hash :: nFromBaseName, kBaseName c); (hash :: nFromBaseAddr, kBaseAddr c);
                 (hash :: nFromHost, kHost c); (hash :: nFromPID, kPID c)]
          (orMake (hArgs m)) with
  | None => None
  | Some a =>
      Some (mkMessage (dflt (hFrom m) (kLocalAddr c)) (dflt (hTo m) (kRemoteAddr c))
              (dflt (hToSvc m) (kRemoteSvc c)) (dflt (hToVer m) (kRemoteVer c))
              (dflt (hFromSvc m) (kLocalSvc c)) (dflt (hFromVer m) (kLocalVer c))
              a (hSubject m) (hTyp m) (dflt (hCall m) (kID c)) (hSerial m) (hPart m)
              (dflt (hToPeer m) (kRemotePeer c)) (dflt (hToName m) (kRemoteName c))
              (dflt (hFromPeer m) (kLocalPeer c)) (dflt (hFromName m) (kLocalName c))
              (hOp m) (jobSerz m) (jobErrs m))
  end.

(** addUserMeta (1325-1344): it panics at a key that is empty or starts with
    '#'.  meta is the map of the LocalPeer, in the order it is ranged over. *)
Fixpoint addMeta (meta : list (str * str)) (a : gomap) : option gomap :=
  match meta with
  | [] => Some a
  | (k, v) :: r =>
      if isEmpty k || startsHash k then None
      else match mapSet k v (orMake a) with Some a' => addMeta r a' | None => None end
  end.

(** SendOneWay (685-751) up to the handing over of the message: the fields the
    circuit decides are overwritten, the others filled in when empty. *)
Definition sendMsg (newSerial : Z) (meta : list (str * str)) (c : circuit) (f : frag)
  : option message :=
  let f1 := mkFrag (kLocalPeer c) (kLocalName c)
              (dflt (fFromSvc f) (kLocalSvc c)) (dflt (fFromVer f) (kLocalVer c))
              (kRemotePeer c) (kRemoteName c)
              (dflt (fToSvc f) (kRemoteSvc c)) (dflt (fToVer f) (kRemoteVer c))
              (kID c) (fSerial f) (fTyp f) (fOp f) (fSubject f) (fPart f)
              (fArgs f) (fPayload f) (fErr f) in
  match convert newSerial c f1 with
  | None => None
  | Some m =>
      match addMeta meta (hArgs m) with
      | None => None
      | Some a => Some (setHArgs a m)
      end
  end.

(** the names of the arguments of a request for a circuit (1187-1195). *)
Definition nToServiceName : str := [7].
Definition nToVersion : str := [8].
Definition nCircuitName : str := [9].
Definition nUserString : str := [10].

(** newCircuit with tellRemote (1157-1199): the request for a circuit made of
    the first fragment; name is the circuitName. *)
Definition startMsg (newSerial : Z) (meta : list (str * str)) (name user : str)
  (c : circuit) (first : frag) : option message :=
  let m := toMessage newSerial first in
  match mapSets [(hash :: nFromServiceName, kLocalSvc c); (hash :: nToServiceName, kRemoteSvc c);
                 (hash :: nToVersion, kRemoteVer c); (hash :: nCircuitName, name);
                 (hash :: nUserString, user); (hash :: nFromBaseName, kBaseName c);
                 (hash :: nFromBaseAddr, kBaseAddr c); (hash :: nFromHost, kHost c);
                 (hash :: nFromPID, kPID c)]
          (hArgs m) with
  | None => None
  | Some a =>
      match addMeta meta a with
      | None => None
      | Some a =>
          Some (mkMessage (kLocalAddr c) (kRemoteAddr c)
                  (kRemoteSvc c) (kRemoteVer c) (kLocalSvc c) (kLocalVer c)
                  a (hSubject m) callPeerStartCircuit (kID c) newSerial (hPart m)
                  (kRemotePeer c) (kRemoteName c) (kLocalPeer c) (kLocalName c)
                  (hOp m) (jobSerz m) (jobErrs m))
      end
  end.

(** ** Comparing *)

Definition signOf (c : comparison) : option Z :=
  match c with Lt => Some (-1) | Gt => Some 1 | Eq => None end.

Definition orElse (x : option Z) (y : Z) : Z := match x with Some z => z | None => y end.

(** bytes.Compare returns -1, 0 or 1. *)
Definition bytesCompare (a b : str) : Z :=
  match cmpStr a b with Lt => -1 | Eq => 0 | Gt => 1 end.

(** Fragment.Compare (2358-2455) of two fragments that are not the same
    object. *)
Definition compareFrag (a b : frag) : Z :=
  orElse (signOf (cmpStr (fCkt a) (fCkt b)))
 (orElse (signOf (cmpStr (fFromPeer a) (fFromPeer b)))
 (orElse (signOf (cmpStr (fToPeer a) (fToPeer b)))
 (orElse (signOf (fSerial a ?= fSerial b))
 (orElse (signOf (cmpStr (fToSvc a) (fToSvc b)))
 (orElse (signOf (cmpStr (fFromSvc a) (fFromSvc b)))
 (orElse (signOf (fTyp a ?= fTyp b))
 (orElse (signOf (fOp a ?= fOp b))
 (orElse (signOf (fPart a ?= fPart b))
 (orElse (signOf (cmpStr (fSubject a) (fSubject b)))
 (orElse (signOf (cmpStr (fErr a) (fErr b)))
   (let cmp := bytesCompare (fPayload a) (fPayload b) in
    if cmp <? 0 then -1 else if cmp >? 1 then 1 else 0))))))))))).

(** ** Recycling *)

(** Fragments are shared objects: heap holds the contents by address.  rec is
    peerAPI.recycledFrag; serial the last number issueSerial gave. *)
Record pool : Type := mkPool { heap : list frag; rec : list nat; serial : Z }.

Fixpoint updF (i : nat) (f : frag -> frag) (l : list frag) : list frag :=
  match l, i with
  | [], _ => []
  | x :: r, O => f x :: r
  | x :: r, S i' => x :: updF i' f r
  end.

(** newFragment (1475-1489) and, through it, NewFragment (267-272). *)
Definition newFragment (p : pool) : nat * pool :=
  let n := serial p + 1 in
  match rec p with
  | [] => (length (heap p), mkPool (heap p ++ [setSerial n zeroFrag]) [] n)
  | a :: r => (a, mkPool (updF a (setSerial n) (heap p)) r n)
  end.

(** freeFragment (1491-1496). *)
Definition freeFragment (a : nat) (p : pool) : pool :=
  mkPool (updF a (fun _ => zeroFrag) (heap p)) (rec p ++ [a]) (serial p).

(** SendOneWay's use of the fragment (739-751): unless keep > 0 it is freed once
    it is turned into a message, before the sending, whose outcome ok is. early: one of the
    checks at its top (692-709) failed, nothing is touched. *)
Definition sendOneWay (a : nat) (keep : Z) (early : bool) (ok : bool) (p : pool) : bool * pool :=
  if early then (false, p)
  else (ok, if keep <=? 0 then freeFragment a p else p).
