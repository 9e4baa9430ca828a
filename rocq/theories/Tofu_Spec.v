(** What the known-keys file says, independently of the code that reads it. *)
From Coq Require Import List Bool Ascii String Arith Lia.
From Verif Require Import Tofu_Model.
Import ListNotations.

Definition allSpace (t : text) : Prop := forall c, In c t -> isSpace c = true.
Definition noSpace (t : text) : Prop := forall c, In c t -> isSpace c = false.

(** [lineOf l t]: [l] is a line of the text [t]. *)
Definition lineOf (l t : text) : Prop :=
  ~ In nl l /\
  exists a b, t = a ++ l ++ b /\
    (a = [] \/ exists a', a = a' ++ [nl]) /\ (b = [] \/ exists b', b = nl :: b').

(** [entryFor k l]: the line [l] has an address, not starting with '#', and
    as its second word the identity of key [k]. *)
Definition entryFor (k l : text) : Prop :=
  exists lead addr gap mail r,
    l = lead ++ addr ++ gap ++ (prefix ++ k ++ colon :: mail) ++ r /\
    allSpace lead /\
    addr <> [] /\ noSpace addr /\ (forall a', addr <> hash :: a') /\
    gap <> [] /\ allSpace gap /\
    noSpace (k ++ mail) /\ ~ In colon k /\
    (r = [] \/ exists c r', r = c :: r' /\ isSpace c = true).

(** [Listed t k]: the file [t] knows the key [k]. *)
Definition Listed (t k : text) : Prop := exists l, lineOf l t /\ entryFor k l.

(** [harmless l]: a line that is blank, a comment, or a single word. *)
Definition harmless (l : text) : Prop :=
  allSpace l \/
  (exists lead r, l = lead ++ hash :: r /\ allSpace lead) \/
  (exists lead w trail, l = lead ++ w ++ trail /\ allSpace lead /\ noSpace w /\ allSpace trail).

(** [WellFormed t]: every line is harmless or an entry. *)
Definition WellFormed (t : text) : Prop :=
  forall l, lineOf l t -> harmless l \/ exists k, entryFor k l.

(** [Base58]: what is assumed of base58.CheckEncode and CheckDecode: decoding
    inverts encoding, and the code has neither white space nor a colon. *)
Record Base58 (enc : text -> text) (dec : text -> option text) : Prop := B58 {
  b_dec : forall x, dec (enc x) = Some x;
  b_chars : forall x c, In c (enc x) -> isSpace c = false /\ c <> colon }.

(** [edKey c raw]: the certificate holds the ed25519 key [raw]. *)
Definition edKey (c : cert) (raw : text) : Prop := cKey c = Some raw /\ raw <> [].

Definition isEd (c : cert) : Prop := exists raw, edKey c raw.

(** [offers enc P cs]: one of the certificates holds a key whose code is in
    [P], and all before it hold ed25519 keys. *)
Definition offers (enc : text -> text) (P : text -> Prop) (cs : list cert) : Prop :=
  exists pre x post raw, cs = pre ++ x :: post /\ edKey x raw /\ P (enc raw) /\
    forall y, In y pre -> isEd y.

(** [proper c]: a connection with at least one certificate from an address
    with a host part. *)
Definition proper (c : conn) : Prop := cCerts c <> [] /\ cHost c <> None.

(** [fileIs s w t]: the known-keys file exists, [w] tells whether it is
    writable, and [t] is its text. *)
Definition fileIs (s : fsys) (w : bool) (t : text) : Prop :=
  exists i, atPath s = Some i /\ nth_error (inodes s) i = Some (IN t w).

(** [oldIs s t]: file.old exists and its text is [t]. *)
Definition oldIs (s : fsys) (t : text) : Prop :=
  exists i w, atOld s = Some i /\ nth_error (inodes s) i = Some (IN t w).

(** [noFile s]: there is no known-keys file. *)
Definition noFile (s : fsys) : Prop := atPath s = None.

(** [plainHost c], [plainMails c]: the host is one word that does not start
    with '#'; no e-mail address contains a newline. *)
Definition plainHost (c : conn) : Prop :=
  forall h, cHost c = Some h -> h <> [] /\ noSpace h /\ (forall h', h <> hash :: h').
Definition plainMails (c : conn) : Prop :=
  forall x m, In x (cCerts c) -> In m (cMails x) -> ~ In nl m.

(** [only enc c raw]: the peer sends one certificate, with key [raw]. *)
Definition only (c : conn) (raw : text) : Prop :=
  exists x, cCerts c = [x] /\ edKey x raw.

(** [leaf c raw]: the first certificate holds key [raw].  TLS has checked
    that the peer holds the private key of this one, and of this one only. *)
Definition leaf (c : conn) (raw : text) : Prop :=
  exists x rest, cCerts c = x :: rest /\ edKey x raw.

(** [arrivals es]: the connections of a run, in order. *)
Definition arrivals (es : list event) : list conn :=
  flat_map (fun e => match e with EArrive c => [c] | _ => [] end) es.

(** [noChmod es]: the administrator leaves the permissions alone. *)
Definition noChmod (es : list event) : Prop := forall b, ~ In (EChmod b) es.
