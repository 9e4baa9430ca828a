(** Model of the check of known keys, /repo/hostkey.go, and of its callers in
    srv.go, quic_server.go, cli.go and quic_client.go.

    After the TLS handshake each side looks the certificates of the other up
    in a text file of known keys.  No file: anybody is let in.  A file without
    write permission: only known keys ("lockdown").  A file with write
    permission: unknown keys are let in and written to the file (trust on
    first use).

    The check is written as a program over file operations ([prog]), one
    operation per system call.  The same program is run alone ([run]), cut off
    after any number of operations ([runCut], the process is killed), and
    beside others ([pstep], connections are handled in goroutines and nothing
    is locked).

    Text is ASCII; the Unicode white space outside ASCII is not modelled (host
    names and e-mail addresses in certificates are ASCII). *)
From Coq Require Import List Bool Ascii String Arith Lia.
Import ListNotations.

Definition text := list ascii.
Definition txt (s : string) : text := list_ascii_of_string s.

Fixpoint teq (a b : text) : bool :=
  match a, b with
  | [], [] => true
  | x :: a', y :: b' => Ascii.eqb x y && teq a' b'
  | _, _ => false
  end.

Definition nl : ascii := "010"%char.
Definition colon : ascii := ":"%char.
Definition comma : ascii := ","%char.
Definition hash : ascii := "#"%char.
Definition blank : ascii := " "%char.

(** [isSpace]: unicode.IsSpace for ASCII: tab, newline, VT, FF, CR, blank. *)
Definition isSpace (c : ascii) : bool :=
  let n := nat_of_ascii c in ((9 <=? n) && (n <=? 13)) || (n =? 32).

(** [splitOn]: strings.Split with a separator of one byte (hostkey.go 101, 129). *)
Fixpoint splitOn (c : ascii) (t : text) : list text :=
  match t with
  | [] => [[]]
  | x :: r =>
      if Ascii.eqb x c then [] :: splitOn c r
      else match splitOn c r with
           | w :: ws => (x :: w) :: ws
           | [] => [[x]]
           end
  end.

(** [fields]: strings.Fields (hostkey.go 113).  [cur] is the word being read. *)
Fixpoint fieldsFrom (cur : text) (t : text) : list text :=
  match t with
  | [] => match cur with [] => [] | _ => [cur] end
  | x :: r =>
      if isSpace x
      then match cur with [] => fieldsFrom [] r | _ => cur :: fieldsFrom [] r end
      else fieldsFrom (cur ++ [x]) r
  end.
Definition fields (t : text) : list text := fieldsFrom [] t.

(** [trimLeft] and [trimSpace]: strings.TrimSpace (hostkey.go 104). *)
Fixpoint trimLeft (t : text) : text :=
  match t with
  | x :: r => if isSpace x then trimLeft r else t
  | [] => []
  end.
Definition trimSpace (t : text) : text := rev (trimLeft (rev (trimLeft t))).

(** [cutPrefix]: strings.HasPrefix and the slice after it (hostkey.go 120-127). *)
Fixpoint cutPrefix (p t : text) : option text :=
  match p, t with
  | [], _ => Some t
  | x :: p', y :: t' => if Ascii.eqb x y then cutPrefix p' t' else None
  | _ :: _, [] => None
  end.

(** [knownKey]: hostkey.go 24-30.  Line is never read and left out. *)
Record knownKey := KK { kAddr : text; kType : text; kPub : text; kEmails : text }.

(** [identityString]: knownKey.IdentityString, hostkey.go 37-39. *)
Definition identityString (k : knownKey) : text :=
  txt "pubkey@edwardsRPC-" ++ kType k ++ txt "-b58c-" ++ kPub k ++ [colon] ++ kEmails k.

(** [kkString]: knownKey.String, hostkey.go 32-34. *)
Definition kkString (k : knownKey) : text := kAddr k ++ [blank] ++ identityString k.

(** [known]: hostkey.go 41-47.  Of PubKeyMap only the keys are ever used. *)
Record known := KN { hosts : list knownKey; pubKeys : list text }.

(** [newKnown]: hostkey.go 49-54. *)
Definition newKnown : known := KN [] [].

Definition hasPub (k : text) (kn : known) : bool := existsb (teq k) (pubKeys kn).

(** [addKnown]: known.Add, hostkey.go 75-82. *)
Definition addKnown (k : knownKey) (kn : known) : known :=
  if hasPub (kPub k) kn then kn
  else KN (hosts kn ++ [k]) (kPub k :: pubKeys kn).

Definition ed25519 : text := txt "ed25519".
Definition prefix : text := txt "pubkey@edwardsRPC-ed25519-b58c-".

(** [readLine]: one round of the loop of readknownKeys, hostkey.go 102-141.
    [None] is the error "badly formatted". *)
Definition readLine (kn : known) (line : text) : option known :=
  let l := trimSpace line in
  match l with
  | [] => Some kn
  | c :: _ =>
      if Ascii.eqb c hash then Some kn
      else match fields l with
           | addr :: ident :: _ =>
               match cutPrefix prefix ident with
               | None => None
               | Some rest =>
                   match splitOn colon rest with
                   | pub :: emails :: _ =>
                       let k := KK addr ed25519 pub emails in
                       Some (KN (hosts kn ++ [k]) (pub :: pubKeys kn))
                   | _ => None
                   end
               end
           | _ => Some kn
           end
  end.

Fixpoint readLines (kn : known) (ls : list text) : option known :=
  match ls with
  | [] => Some kn
  | l :: r => match readLine kn l with None => None | Some kn' => readLines kn' r end
  end.

(** [parse]: readknownKeys from the bytes of the file on, hostkey.go 98-142. *)
Definition parse (t : text) : option known := readLines newKnown (splitOn nl t).

(** [header]: the first line WriteOut writes, hostkey.go 68. *)
Definition header : text := txt "# known_pub_keys file: address pubkey-identity-string" ++ [nl].

(** ** The file system *)

(** [inode]: contents, and whether any write bit is set. *)
Record inode := IN { iText : text; iWritable : bool }.

(** [fsys]: the inodes and the two names used: the file and file.old. *)
Record fsys := FS { inodes : list inode; atPath : option nat; atOld : option nat }.

Definition getI (s : fsys) (i : nat) : inode := nth i (inodes s) (IN [] true).

Fixpoint setNth {A} (i : nat) (x : A) (l : list A) : list A :=
  match l, i with
  | [], _ => []
  | _ :: r, O => x :: r
  | y :: r, S j => y :: setNth j x r
  end.

(** [writeAt]: a write at an offset; a hole is filled with zero bytes. *)
Definition writeAt (off : nat) (t c : text) : text :=
  firstn off c ++ repeat zero (off - List.length c) ++ t ++ skipn (off + List.length t) c.

Inductive op :=
| OExists                       (* os.Stat of the file *)
| OStat                         (* os.Stat and the write bits *)
| ORead                         (* os.ReadFile *)
| ORemoveOld                    (* os.Remove of file.old *)
| ORename                       (* os.Rename of the file to file.old *)
| OCreate                       (* os.Create *)
| OWrite (i off : nat) (t : text). (* a write to an open file *)

Inductive answer :=
| ABool (b : bool)
| AText (t : text)
| AFd (i : nat)
| AOk
| AErr.

(** [exec]: one system call.  os.Create empties a file that is there and
    keeps its permissions; a new file is writable.  Files that other users
    own, full disks and short writes are not modelled. *)
Definition exec (o : op) (s : fsys) : fsys * answer :=
  match o with
  | OExists => (s, ABool (match atPath s with Some _ => true | None => false end))
  | OStat => (s, match atPath s with Some i => ABool (iWritable (getI s i)) | None => AErr end)
  | ORead => (s, match atPath s with Some i => AText (iText (getI s i)) | None => AErr end)
  | ORemoveOld => (FS (inodes s) (atPath s) None, AOk)
  | ORename =>
      match atPath s with
      | Some i => (FS (inodes s) None (Some i), AOk)
      | None => (s, AErr)
      end
  | OCreate =>
      match atPath s with
      | Some i =>
          if iWritable (getI s i)
          then (FS (setNth i (IN [] true) (inodes s)) (atPath s) (atOld s), AFd i)
          else (s, AErr)
      | None =>
          let i := List.length (inodes s) in
          (FS (inodes s ++ [IN [] true]) (Some i) (atOld s), AFd i)
      end
  | OWrite i off t =>
      let f := getI s i in
      (FS (setNth i (IN (writeAt off t (iText f)) (iWritable f)) (inodes s)) (atPath s) (atOld s), AOk)
  end.

(** ** The check *)

(** [cert]: a certificate of the peer: the bytes of its ed25519 key, or
    [None] for another kind of key, and its e-mail addresses. *)
Record cert := CE { cKey : option text; cMails : list text }.

(** [conn]: what the check is given: the certificates the peer sent, in order
    (TLS proves possession of the private key of the first only), and the
    host part of the remote address ([None]: net.SplitHostPort fails). *)
Record conn := CO { cCerts : list cert; cHost : option text }.

Inductive perr := EUnknown | EKeyType | EEmptyKey | EFormat | ERead.

(** [result]: the four results of hostKeyVerifies. *)
Record result := RES { rGood : list text; rBad : list text; rNew : bool; rErr : option perr }.

Inductive prog :=
| Ret (r : result)
| Panic
| Do (o : op) (k : answer -> prog).

Section Check.
(** base58.CheckEncode with version 255 and base58.CheckDecode. *)
Variable enc : text -> text.
Variable dec : text -> option text.

(** [writeLines]: the writes of WriteOut after the header, hostkey.go 69-71. *)
Fixpoint writeLines (i off : nat) (hs : list knownKey) (k : prog) : prog :=
  match hs with
  | [] => k
  | h :: r =>
      let t := kkString h ++ [nl] in
      Do (OWrite i off t) (fun _ => writeLines i (off + List.length t) r k)
  end.

(** [writeOut]: known.WriteOut, hostkey.go 56-73. *)
Definition writeOut (kn : known) (k : prog) : prog :=
  let create :=
    Do OCreate (fun a =>
      match a with
      | AFd i => Do (OWrite i 0 header) (fun _ => writeLines i (List.length header) (hosts kn) k)
      | _ => Panic
      end) in
  Do OExists (fun a =>
    match a with
    | ABool true => Do ORemoveOld (fun _ => Do ORename (fun _ => create))
    | _ => create
    end).

(** [mails]: strings.Join of the e-mail addresses, hostkey.go 249-252. *)
Fixpoint mails (l : list text) : text :=
  match l with
  | [] => []
  | [m] => m
  | m :: r => m ++ [comma] ++ mails r
  end.

(** [finish]: the deferred function of hostKeyVerifies, hostkey.go 158-164. *)
Definition finish (r : result) : prog :=
  Ret (match rGood r with
       | [] => r
       | _ => RES (rGood r) (rBad r) (rNew r) None
       end).

(** [certLoop]: the loop over the certificates, hostkey.go 205-299.
    [kn = None] is haveKnown = false. *)
Fixpoint certLoop (record tofu : bool) (host : option text) (kn : option known)
    (r : result) (cs : list cert) : prog :=
  match cs with
  | [] => finish r
  | c :: rest =>
      match cKey c with
      | None => finish (RES [] [] false (Some EKeyType))
      | Some [] => finish (RES [] [] false (Some EEmptyKey))
      | Some raw =>
          if negb record then certLoop record tofu host kn r rest
          else
            let pub := enc raw in
            match dec pub with
            | None => Panic
            | Some raw' =>
                if negb (teq raw' raw) then Panic
                else match host with
                | None => Panic
                | Some h =>
                    let kh := KK h ed25519 pub (mails (cMails c)) in
                    let combo := identityString kh in
                    match kn with
                    | None =>
                        let kn' := addKnown kh newKnown in
                        let r' := RES (rGood r ++ [combo]) (rBad r) true (rErr r) in
                        writeOut kn' (certLoop record tofu host (Some kn') r' rest)
                    | Some kn0 =>
                        if hasPub pub kn0
                        then finish (RES (rGood r ++ [combo]) (rBad r) false None)
                        else if tofu
                        then
                          let kn' := addKnown kh kn0 in
                          let r' := RES (rGood r ++ [combo]) (rBad r) true None in
                          writeOut kn' (certLoop record tofu host (Some kn') r' rest)
                        else
                          certLoop record tofu host kn
                            (RES (rGood r) (rBad r ++ [combo]) (rNew r) (Some EUnknown)) rest
                    end
                end
            end
      end
  end.

Definition r0 : result := RES [] [] false None.

(** [certs]: hostkey.go 196-205: no certificate is a panic. *)
Definition certs (record tofu : bool) (kn : option known) (c : conn) : prog :=
  match cCerts c with
  | [] => Panic
  | cs => certLoop record tofu (cHost c) kn r0 cs
  end.

(** [verify]: hostKeyVerifies, hostkey.go 153-300, with isWritable
    (fileutil.go 48-60) and the file part of readknownKeys (hostkey.go 86-97). *)
Definition verify (c : conn) : prog :=
  Do OExists (fun a =>
    match a with
    | ABool true =>
        let after (tofu : bool) :=
          Do OExists (fun a =>
            match a with
            | ABool true =>
                Do ORead (fun a =>
                  match a with
                  | AText t =>
                      match parse t with
                      | None => finish (RES [] [] false (Some EFormat))
                      | Some kn => certs true tofu (Some kn) c
                      end
                  | _ => finish (RES [] [] false (Some ERead))
                  end)
            | _ => if tofu then certs true tofu None c else Panic
            end) in
        Do OExists (fun a =>
          match a with
          | ABool true =>
              Do OStat (fun a =>
                match a with
                | ABool w => after w
                | _ => Panic
                end)
          | _ => after true
          end)
    | _ => certs false true None c
    end).

(** [accepted]: what all four callers do with the results: no error lets the
    peer in (srv.go 453-463, quic_server.go 181-191, cli.go 258-265,
    quic_client.go 166-173). *)
Definition accepted (r : result) : bool :=
  match rErr r with None => true | Some _ => false end.

(** ** Running it *)

(** [run]: a check that runs alone; [None] is a panic. *)
Fixpoint run (p : prog) (s : fsys) : fsys * option result :=
  match p with
  | Ret r => (s, Some r)
  | Panic => (s, None)
  | Do o k => let (s', a) := exec o s in run (k a) s'
  end.

(** [runCut]: the first [n] system calls of a check. *)
Fixpoint runCut (n : nat) (p : prog) (s : fsys) : fsys :=
  match n, p with
  | S m, Do o k => let (s', a) := exec o s in runCut m (k a) s'
  | _, _ => s
  end.

(** [runs]: one check after the other.  The answer of each. *)
Fixpoint runs (cs : list conn) (s : fsys) : fsys * list (option result) :=
  match cs with
  | [] => (s, [])
  | c :: r =>
      let (s1, a) := run (verify c) s in
      let (s2, l) := runs r s1 in (s2, a :: l)
  end.

(** [chmod]: the administrator sets or clears the write bits. *)
Definition chmod (w : bool) (s : fsys) : fsys :=
  match atPath s with
  | Some i => FS (setNth i (IN (iText (getI s i)) w) (inodes s)) (atPath s) (atOld s)
  | None => s
  end.

(** [world]: the file system and the checks that are running. *)
Definition world : Type := fsys * list prog.

(** [pstep]: goroutine [i] does its next system call. *)
Definition pstep (i : nat) (w : world) : world :=
  match nth_error (snd w) i with
  | Some (Do o k) =>
      let (s', a) := exec o (fst w) in (s', setNth i (k a) (snd w))
  | _ => w
  end.

Inductive event :=
| EArrive (c : conn)            (* a connection is made *)
| EStep (i : nat)               (* goroutine i makes a system call *)
| EChmod (w : bool).            (* the administrator changes the permissions *)

Definition wstep (e : event) (w : world) : world :=
  match e with
  | EArrive c => (fst w, snd w ++ [verify c])
  | EStep i => pstep i w
  | EChmod b => (chmod b (fst w), snd w)
  end.

Definition wrun (es : list event) (w : world) : world :=
  fold_left (fun w e => wstep e w) es w.

(** ** The servers *)

Inductive verdict := Served | Refused | NotAnswered.

(** [tlsServe]: the TLS server, srv.go 250-263 and 445-474: a goroutine for
    each connection (here one after the other); a panic in one of them ends
    the process. *)
Fixpoint tlsServe (cs : list conn) (s : fsys) : list verdict :=
  match cs with
  | [] => []
  | c :: r =>
      match run (verify c) s with
      | (s', Some res) => (if accepted res then Served else Refused) :: tlsServe r s'
      | (_, None) => Refused :: map (fun _ => NotAnswered) r
      end
  end.

(** [quicServe]: the accept loop of the QUIC server, quic_server.go 144-196:
    the check is made in the loop and an error returns from it; the deferred
    listener.Close() follows. *)
Fixpoint quicServe (cs : list conn) (s : fsys) : list verdict :=
  match cs with
  | [] => []
  | c :: r =>
      match run (verify c) s with
      | (s', Some res) =>
          if accepted res then Served :: quicServe r s'
          else Refused :: map (fun _ => NotAnswered) r
      | (_, None) => Refused :: map (fun _ => NotAnswered) r
      end
  end.

End Check.
