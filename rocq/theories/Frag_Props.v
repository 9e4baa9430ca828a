(** * Fragments: theorems *)

From Coq Require Import ZArith List Bool Lia.
From Verif Require Import Frag_Model Frag_Spec.
Import ListNotations.
Local Open Scope Z_scope.

(** ** Strings and maps *)

Lemma eqStr_spec : forall a b, eqStr a b = true <-> a = b.
Proof.
  induction a as [|x a IH]; intros [|y b]; cbn [eqStr]; split; try congruence; intro H.
  - apply andb_true_iff in H as [H1 H2]. apply Z.eqb_eq in H1. apply IH in H2. congruence.
  - injection H as -> ->. rewrite Z.eqb_refl. apply IH. reflexivity.
Qed.

Lemma eqStr_refl : forall a, eqStr a a = true.
Proof. intro a. apply eqStr_spec. reflexivity. Qed.

Lemma eqStr_neq : forall a b, a <> b -> eqStr a b = false.
Proof.
  intros a b H. destruct (eqStr a b) eqn:E; [|reflexivity]. apply eqStr_spec in E. contradiction.
Qed.

Lemma find_filter : forall k k' l,
  k <> k' -> find k (filter (fun p => negb (eqStr (fst p) k')) l) = find k l.
Proof.
  intros k k' l H. induction l as [|[a v] r IH]; [reflexivity|].
  cbn [filter fst find]. destruct (eqStr a k') eqn:E; cbn [negb].
  - apply eqStr_spec in E. subst a. rewrite (eqStr_neq k' k) by congruence. exact IH.
  - cbn [find]. rewrite IH. reflexivity.
Qed.

Definition args (m : gomap) : list (str * str) := match m with None => [] | Some l => l end.

Lemma mapGet_args : forall k m, mapGet k m = find k (args m).
Proof. intros k [l|]; reflexivity. Qed.

Lemma mapSet_find : forall k v m m',
  mapSet k v m = Some m' ->
  forall k', find k' (args m') = if eqStr k k' then Some v else find k' (args m).
Proof.
  intros k v [l|] m' H k'; [|discriminate]. injection H as <-. cbn [args find].
  destruct (eqStr k k') eqn:E; [reflexivity|]. apply find_filter.
  intros ->. rewrite eqStr_refl in E. discriminate.
Qed.

Lemma mapSet_some : forall k v l, exists l', mapSet k v (Some l) = Some (Some l').
Proof. intros. eexists. reflexivity. Qed.

Lemma args_orMake : forall m, args (orMake m) = args m.
Proof. intros [l|]; reflexivity. Qed.

Lemma args_copy : forall m, args (copyArgs m) = args m.
Proof. intros [[|x l]|]; reflexivity. Qed.

Lemma mapSets_find : forall kvs m m',
  mapSets kvs m = Some m' ->
  forall k, find k (args m') = match lastVal k kvs with Some v => Some v | None => find k (args m) end.
Proof.
  induction kvs as [|[a v] r IH]; intros m m' H k; cbn [mapSets lastVal] in *.
  - injection H as <-. reflexivity.
  - destruct (mapSet a v m) as [m1|] eqn:E; [|discriminate].
    rewrite (IH _ _ H). destruct (lastVal k r); [reflexivity|].
    rewrite (mapSet_find _ _ _ _ E). destruct (eqStr a k); reflexivity.
Qed.

Lemma mapSets_some : forall kvs l, exists l', mapSets kvs (Some l) = Some (Some l').
Proof.
  induction kvs as [|[a v] r IH]; intro l; [eexists; reflexivity|].
  cbn [mapSets mapSet]. apply IH.
Qed.

Lemma lastVal_hash : forall k kvs,
  userKey k -> Forall (fun p => startsHash (fst p) = true) kvs -> lastVal k kvs = None.
Proof.
  intros k kvs [H1 H2] F. induction F as [|[a v] r Ha F IH]; [reflexivity|].
  cbn [lastVal]. rewrite IH. cbn [fst] in Ha.
  destruct (eqStr a k) eqn:E; [|reflexivity]. apply eqStr_spec in E. subst a.
  destruct k; [congruence|]. cbn [startsHash] in Ha. apply Z.eqb_eq in Ha. cbn [hd] in H2. congruence.
Qed.

Definition metaOk (meta : list (str * str)) : Prop := forall k v, In (k, v) meta -> userKey k.

Lemma userKey_bool : forall k, userKey k <-> isEmpty k || startsHash k = false.
Proof.
  intros [|x k]; unfold userKey; cbn [isEmpty startsHash hd orb]; split; try congruence.
  - intros [H _]. congruence.
  - intros [_ H]. apply Z.eqb_neq. exact H.
  - intro H. apply Z.eqb_neq in H. split; [discriminate|exact H].
Qed.

Lemma addMeta_find : forall meta m m',
  addMeta meta m = Some m' ->
  (forall k, find k (args m') = match lastVal k meta with Some v => Some v | None => find k (args m) end)
  /\ metaOk meta.
Proof.
  induction meta as [|[a v] r IH]; intros m m' H; cbn [addMeta lastVal] in *.
  - injection H as <-. split; [reflexivity|]. intros k w [].
  - destruct (isEmpty a || startsHash a) eqn:B; [discriminate|].
    destruct (mapSet a v (orMake m)) as [m1|] eqn:E; [|discriminate].
    destruct (IH _ _ H) as [G M]. split.
    + intro k. rewrite G. destruct (lastVal k r); [reflexivity|].
      rewrite (mapSet_find _ _ _ _ E), args_orMake. destruct (eqStr a k); reflexivity.
    + intros k w [J|J]; [injection J as <- <-; apply userKey_bool; exact B|exact (M _ _ J)].
Qed.

Lemma addMeta_some : forall meta m, metaOk meta -> exists m', addMeta meta m = Some m'.
Proof.
  induction meta as [|[a v] r IH]; intros m H; [eexists; reflexivity|]. cbn [addMeta].
  rewrite (proj1 (userKey_bool a) (H a v (or_introl eq_refl))).
  destruct m as [l|]; cbn [orMake mapSet]; apply IH; intros k w J; exact (H k w (or_intror J)).
Qed.

Lemma args_toMessage : forall n f, args (hArgs (toMessage n f)) = args (fArgs f).
Proof. intros n f. unfold toMessage. cbn [hArgs]. destruct (fArgs f) as [[|x l]|]; reflexivity. Qed.

Lemma userArg_args : forall k f, userArg k f = find k (args (fArgs f)).
Proof. intros k f. unfold userArg. destruct (fArgs f); reflexivity. Qed.

(** ** C65: a fragment arrives as it was sent *)

(** What is read at the other end of a circuit carries the sender's operation,
    subject, part number, payload and error text, and comes from the peer and
    the circuit it was sent on.  Its type is the sender's, traffic when the
    sender set none.  Its user arguments are the sender's, except where the
    sending peer's UserMeta has the same key. *)
Theorem C65_arrives_partial : forall n meta c f m,
  sendMsg n meta c f = Some m ->
  userData (toFrag m) = userData f /\
  fFromPeer (toFrag m) = kLocalPeer c /\ fToPeer (toFrag m) = kRemotePeer c /\
  fCkt (toFrag m) = kID c /\
  (fErr f = [] -> fTyp (toFrag m) = if fTyp f =? 0 then callPeerTraffic else fTyp f) /\
  (fErr f <> [] -> fTyp (toFrag m) = callPeerError) /\
  (forall k, userKey k ->
     userArg k (toFrag m) = match lastVal k meta with Some v => Some v | None => userArg k f end).
Proof.
  intros n meta c f m. unfold sendMsg, convert.
  match goal with |- context [toMessage n ?f1] => set (g := f1) end.
  destruct (mapSets _ (orMake (hArgs (toMessage n g)))) as [a|] eqn:E; [|discriminate].
  cbn [hArgs]. destruct (addMeta meta a) as [a'|] eqn:E2; [|discriminate]. intro H. injection H as <-.
  split; [reflexivity|].
  split; [subst g; cbn; destruct (kLocalPeer c); reflexivity|].
  split; [subst g; cbn; destruct (kRemotePeer c); reflexivity|].
  split; [subst g; cbn; destruct (kID c); reflexivity|].
  split; [intro H; subst g; cbn; rewrite H; reflexivity|].
  split; [intro H; subst g; cbn; destruct (fErr f); [congruence|reflexivity]|].
  intros k U. rewrite !userArg_args. cbn [toFrag fArgs setHArgs hArgs].
  rewrite (proj1 (addMeta_find _ _ _ E2)). destruct (lastVal k meta); [reflexivity|].
  rewrite (mapSets_find _ _ _ E), (lastVal_hash k _ U), args_orMake, args_toMessage by
    (repeat constructor).
  reflexivity.
Qed.
Print Assumptions C65_arrives_partial.

(** The serial number, names, services and versions that arrive: the sender's
    serial number, or a new one if it has none; the names of the circuit's
    peers; the services and versions the sender set, or else the circuit's. *)
Theorem C65_stamps : forall n meta c f m,
  sendMsg n meta c f = Some m ->
  fSerial (toFrag m) = (if fSerial f =? 0 then n else fSerial f) /\
  fFromName (toFrag m) = kLocalName c /\ fToName (toFrag m) = kRemoteName c /\
  (fFromSvc f <> [] -> fFromSvc (toFrag m) = fFromSvc f) /\ (fFromSvc f = [] -> fFromSvc (toFrag m) = kLocalSvc c) /\
  (fToSvc f <> [] -> fToSvc (toFrag m) = fToSvc f) /\ (fToSvc f = [] -> fToSvc (toFrag m) = kRemoteSvc c) /\
  (fFromVer f <> [] -> fFromVer (toFrag m) = fFromVer f) /\ (fFromVer f = [] -> fFromVer (toFrag m) = kLocalVer c) /\
  (fToVer f <> [] -> fToVer (toFrag m) = fToVer f) /\ (fToVer f = [] -> fToVer (toFrag m) = kRemoteVer c) /\
  hFrom m = kLocalAddr c /\ hTo m = kRemoteAddr c.
Proof.
  intros n meta c f m. unfold sendMsg, convert.
  match goal with |- context [toMessage n ?f1] => set (g := f1) end.
  destruct (mapSets _ (orMake (hArgs (toMessage n g)))) as [a|] eqn:E; [|discriminate].
  cbn [hArgs]. destruct (addMeta meta a) as [a'|] eqn:E2; [|discriminate]. intro H. injection H as <-.
  subst g. unfold toMessage. cbn.
  assert (D : forall x y, dflt (dflt x y) y = dflt x y) by (intros [|] [|]; reflexivity).
  assert (D2 : forall x, dflt x x = x) by (intros [|]; reflexivity).
  assert (D3 : forall x y, x <> [] -> dflt x y = x) by (intros [|]; [congruence|reflexivity]).
  rewrite !D, !D2. repeat apply conj; try reflexivity; intros X; try (apply D3; exact X); rewrite X; reflexivity.
Qed.
Print Assumptions C65_stamps.

(** The send does not panic as long as the keys of UserMeta are a user's. *)
Theorem C65_no_panic : forall n meta c f,
  sendMsg n meta c f <> None <-> (forall k v, In (k, v) meta -> userKey k).
Proof.
  intros n meta c f. unfold sendMsg, convert.
  match goal with |- context [toMessage n ?f1] => set (g := f1) end.
  destruct (orMake (hArgs (toMessage n g))) as [l|] eqn:O; [|destruct (hArgs (toMessage n g)); discriminate].
  match goal with |- context [mapSets ?kvs (Some l)] => destruct (mapSets_some kvs l) as [l' ->] end.
  cbn [hArgs]. destruct (addMeta meta (Some l')) as [a|] eqn:E.
  - split; [intros _; exact (proj2 (addMeta_find _ _ _ E))|discriminate].
  - split; [congruence|]. intro M. destruct (addMeta_some meta (Some l') M) as [x Hx]. congruence.
Qed.
Print Assumptions C65_no_panic.

(** The first fragment, which goes with the request for the circuit, arrives in
    the same way. *)
Theorem C65_first_partial : forall n meta name user c f m,
  startMsg n meta name user c f = Some m ->
  userData (toFrag m) = userData f /\
  fFromPeer (toFrag m) = kLocalPeer c /\ fToPeer (toFrag m) = kRemotePeer c /\
  fCkt (toFrag m) = kID c /\ fTyp (toFrag m) = callPeerStartCircuit /\
  getSysArg nCircuitName (toFrag m) = Some name /\ getSysArg nUserString (toFrag m) = Some user /\
  (forall k, userKey k ->
     userArg k (toFrag m) = match lastVal k meta with Some v => Some v | None => userArg k f end).
Proof.
  intros n meta name user c f m. unfold startMsg.
  destruct (mapSets _ (hArgs (toMessage n f))) as [a|] eqn:E; [|discriminate].
  destruct (addMeta meta a) as [a'|] eqn:E2; [|discriminate]. intro H. injection H as <-.
  destruct (addMeta_find _ _ _ E2) as [G M].
  assert (S : forall k v, lastVal (hash :: k) meta = Some v -> False).
  { intros k v. clear - M. induction meta as [|[b w] r IH]; [discriminate|]. cbn [lastVal].
    destruct (lastVal (hash :: k) r) eqn:L.
    - intro Q. apply IH; [|exact Q]. intros x y J. exact (M x y (or_intror J)).
    - destruct (eqStr b (hash :: k)) eqn:Q; [|discriminate]. intros _. apply eqStr_spec in Q. subst b.
      destruct (M _ _ (or_introl eq_refl)) as [_ U]. apply U. reflexivity. }
  assert (A : exists l, a' = Some l).
  { destruct a' as [l|]; [eexists; reflexivity|]. exfalso.
    pose proof (G (hash :: nCircuitName)) as K. rewrite (mapSets_find _ _ _ E) in K. cbn in K.
    destruct (lastVal _ meta) eqn:L; [exact (S _ _ L)|discriminate]. }
  destruct A as [l ->].
  do 5 (split; [reflexivity|]).
  split; [|split].
  - unfold getSysArg. change (isEmpty nCircuitName) with false. cbn [toFrag fArgs hArgs orb]. rewrite mapGet_args, G.
    destruct (lastVal (hash :: nCircuitName) meta) eqn:L; [destruct (S _ _ L)|].
    rewrite (mapSets_find _ _ _ E). reflexivity.
  - unfold getSysArg. change (isEmpty nUserString) with false. cbn [toFrag fArgs hArgs orb]. rewrite mapGet_args, G.
    destruct (lastVal (hash :: nUserString) meta) eqn:L; [destruct (S _ _ L)|].
    rewrite (mapSets_find _ _ _ E). reflexivity.
  - intros k U. rewrite !userArg_args. cbn [toFrag fArgs hArgs].
    rewrite G. destruct (lastVal k meta); [reflexivity|].
    rewrite (mapSets_find _ _ _ E), (lastVal_hash k _ U), args_toMessage by (repeat constructor).
    reflexivity.
Qed.
Print Assumptions C65_first_partial.

(** Asking for a circuit panics exactly when UserMeta has a key that is not a
    user's, or the first fragment has an argument map without an entry. *)
Theorem C65_first_no_panic_partial : forall n meta name user c f,
  startMsg n meta name user c f <> None <->
  (forall k v, In (k, v) meta -> userKey k) /\ fArgs f <> Some [].
Proof.
  intros n meta name user c f. unfold startMsg.
  destruct (hArgs (toMessage n f)) as [l|] eqn:O.
  - match goal with |- context [mapSets ?kvs (Some l)] => destruct (mapSets_some kvs l) as [l' ->] end.
    assert (N : fArgs f <> Some []).
    { intro Q. unfold toMessage in O. cbn [hArgs] in O. rewrite Q in O. discriminate. }
    destruct (addMeta meta (Some l')) as [a|] eqn:E.
    + split; [|discriminate]. intros _. split; [exact (proj2 (addMeta_find _ _ _ E))|exact N].
    + split; [congruence|]. intros [M _]. destruct (addMeta_some meta (Some l') M) as [x Hx]. congruence.
  - cbn [mapSets mapSet]. split; [congruence|]. intros [_ N]. exfalso. apply N.
    unfold toMessage in O. cbn [hArgs] in O. destruct (fArgs f) as [[|x l]|]; cbn in O; congruence.
Qed.
Print Assumptions C65_first_no_panic_partial.

(** a circuit and a fragment. *)
Definition exCkt : circuit :=
  mkCkt [100] [101] [102] [103] [110] [111] [112] [113] [120] [130] [131] [1] [2] [3] [4].
Definition exFrag : frag :=
  mkFrag [] [] [] [] [] [] [] [] [] 7 0 5 [60] 3 (Some [([70], [71])]) [80; 81] [].

Example C65_arrives_ex : exists m,
  sendMsg 9 [([90], [91])] exCkt exFrag = Some m /\
  userArg [70] (toFrag m) = Some [71] /\ userArg [90] (toFrag m) = Some [91] /\
  userData (toFrag m) = (5, [60], 3, [80; 81], []) /\ fTyp (toFrag m) = callPeerTraffic /\
  (fSerial (toFrag m) = 9 \/ fSerial (toFrag m) = fSerial exFrag).
Proof. eexists. vm_compute. repeat split; auto. Qed.

Example C65_first_ex : exists m,
  startMsg 9 [([90], [91])] [50] [51] exCkt exFrag = Some m /\
  userArg [70] (toFrag m) = Some [71] /\ getSysArg nCircuitName (toFrag m) = Some [50].
Proof. eexists. vm_compute. repeat split. Qed.

(** A peer's UserMeta replaces what the sender put into the fragment. *)
Theorem C65_meta_refuted : exists n meta c f m k,
  userKey k /\ sendMsg n meta c f = Some m /\ userArg k (toFrag m) <> userArg k f.
Proof.
  exists 9, [([70], [91])], exCkt, exFrag. eexists. exists [70].
  split; [split; [discriminate|discriminate]|]. split; [vm_compute; reflexivity|].
  vm_compute. discriminate.
Qed.
Print Assumptions C65_meta_refuted.

(** Asking for a circuit with a first fragment whose arguments are an empty map
    panics, whatever the circuit. *)
Theorem C65_first_panic_refuted : forall n meta name user c f,
  fArgs f = Some [] -> startMsg n meta name user c f = None.
Proof.
  intros n meta name user c f H. unfold startMsg, toMessage. cbn [hArgs]. rewrite H. reflexivity.
Qed.
Print Assumptions C65_first_panic_refuted.

(** Giving a reason when closing turns the notice of the end into an error
    (pump.go 70-92, with frag.Typ = CallPeerEndCircuit). *)
Theorem C65_end_with_reason_refuted : forall n c f m,
  fTyp f = callPeerEndCircuit -> fErr f <> [] -> convert n c f = Some m ->
  hTyp m = callPeerError.
Proof.
  intros n c f m _ H. unfold convert. destruct (mapSets _ _); [|discriminate]. intro K.
  injection K as <-. cbn. destruct (fErr f); [congruence|reflexivity].
Qed.
Print Assumptions C65_end_with_reason_refuted.

(** ** C66: the user's arguments and the system's do not meet *)

Lemma setUserArg_some : forall k v f, userKey k ->
  exists a, setUserArg k v f = Some (setArgs a f) /\ a <> None /\
    forall k', find k' (args a) = if eqStr k k' then Some v else find k' (args (fArgs f)).
Proof.
  intros k v f U. apply userKey_bool in U. apply orb_false_iff in U as [U1 U2].
  unfold setUserArg. rewrite U1, U2.
  destruct (mapSet k v (orMake (fArgs f))) as [a|] eqn:E.
  - exists a. split; [reflexivity|]. split.
    + destruct (fArgs f); cbn in E; injection E as <-; discriminate.
    + intro k'. rewrite (mapSet_find _ _ _ _ E), args_orMake. reflexivity.
  - destruct (fArgs f); discriminate.
Qed.

Lemma setSysArg_some : forall k v f, k <> [] ->
  exists a, setSysArg k v f = Some (setArgs a f) /\ a <> None /\
    forall k', find k' (args a) = if eqStr (hash :: k) k' then Some v else find k' (args (fArgs f)).
Proof.
  intros k v f U. unfold setSysArg. destruct k as [|x k]; [congruence|]. cbn [isEmpty].
  destruct (mapSet (hash :: x :: k) v (orMake (fArgs f))) as [a|] eqn:E.
  - exists a. split; [reflexivity|]. split.
    + destruct (fArgs f); cbn in E; injection E as <-; discriminate.
    + intro k'. rewrite (mapSet_find _ _ _ _ E), args_orMake. reflexivity.
  - destruct (fArgs f); discriminate.
Qed.

Lemma doArgs_find : forall os f,
  Forall argOk os ->
  exists f', doArgs os f = Some f' /\
    (os <> [] -> fArgs f' <> None) /\
    (forall k, userKey k -> find k (args (fArgs f')) =
       match lastVal k (userSets os) with Some v => Some v | None => find k (args (fArgs f)) end) /\
    (forall k, k <> [] -> find (hash :: k) (args (fArgs f')) =
       match lastVal k (sysSets os) with Some v => Some v | None => find (hash :: k) (args (fArgs f)) end) /\
    userData f' = userData f.
Proof.
  induction os as [|o os IH]; intros f F.
  - exists f. cbn. repeat split; congruence.
  - apply Forall_cons_iff in F as [H F]. destruct o as [k v|k v]; cbn [argOk] in H.
    + destruct (setUserArg_some k v f H) as (a & E & N & G).
      destruct (IH (setArgs a f) F) as (f' & R & N' & GU & GS & D).
      exists f'. cbn [doArgs doArg]. rewrite E. split; [exact R|]. split; [|split; [|split]].
      * intros _. destruct os; [|apply N'; discriminate]. cbn in R. injection R as <-. exact N.
      * intros k' U. rewrite (GU _ U). cbn [userSets flat_map app lastVal]. fold (userSets os).
        destruct (lastVal k' (userSets os)); [reflexivity|]. cbn [setArgs fArgs].
        rewrite G. destruct (eqStr k k'); reflexivity.
      * intros k' U. rewrite (GS _ U). cbn [sysSets flat_map app lastVal]. fold (sysSets os).
        destruct (lastVal k' (sysSets os)); [reflexivity|]. cbn [setArgs fArgs].
        rewrite G. rewrite eqStr_neq; [reflexivity|]. intros ->. destruct H as [_ H]. apply H. reflexivity.
      * rewrite D. reflexivity.
    + destruct (setSysArg_some k v f H) as (a & E & N & G).
      destruct (IH (setArgs a f) F) as (f' & R & N' & GU & GS & D).
      exists f'. cbn [doArgs doArg]. rewrite E. split; [exact R|]. split; [|split; [|split]].
      * intros _. destruct os; [|apply N'; discriminate]. cbn in R. injection R as <-. exact N.
      * intros k' U. rewrite (GU _ U). cbn [userSets flat_map app lastVal]. fold (userSets os).
        destruct (lastVal k' (userSets os)); [reflexivity|]. cbn [setArgs fArgs].
        rewrite G. rewrite eqStr_neq; [reflexivity|]. intros <-. destruct U as [_ U]. apply U. reflexivity.
      * intros k' U. rewrite (GS _ U). cbn [sysSets flat_map app lastVal]. fold (sysSets os).
        destruct (lastVal k' (sysSets os)); [reflexivity|]. cbn [setArgs fArgs].
        rewrite G. cbn [eqStr]. rewrite Z.eqb_refl. cbn [andb]. destruct (eqStr k k'); reflexivity.
      * rewrite D. reflexivity.
Qed.

(** Whatever a user and the system set on a new fragment, in whatever order, each
    reads back the last value they set themselves and nothing of the other's;
    the rest of the fragment is untouched. *)
Theorem C66_separate : forall os f,
  fArgs f = None -> Forall argOk os ->
  exists f', doArgs os f = Some f' /\
    (forall k, userKey k -> getUserArg k f' = Some (lastVal k (userSets os))) /\
    (forall k, k <> [] -> getSysArg k f' = lastVal k (sysSets os)) /\
    userData f' = userData f.
Proof.
  intros os f Hf F. destruct (doArgs_find os f F) as (f' & R & N & GU & GS & D).
  exists f'. split; [exact R|]. rewrite Hf in GU, GS. cbn [args find] in GU, GS.
  split; [|split; [|exact D]].
  - intros k U. specialize (GU k U). destruct (proj1 (userKey_bool k) U) as [].
    pose proof (proj1 (userKey_bool k) U) as B. apply orb_false_iff in B as [B1 B2].
    unfold getUserArg. rewrite B1, B2. destruct (fArgs f') as [l|]; cbn [orb mapGet args find] in *.
    + rewrite GU. destruct (lastVal k (userSets os)); reflexivity.
    + destruct (lastVal k (userSets os)); [discriminate|reflexivity].
  - intros k U. specialize (GS k U). unfold getSysArg. destruct k as [|x k]; [congruence|].
    cbn [isEmpty orb]. destruct (fArgs f') as [l|]; cbn [mapGet args find] in *.
    + rewrite GS. destruct (lastVal (x :: k) (sysSets os)); reflexivity.
    + destruct (lastVal (x :: k) (sysSets os)); [discriminate|reflexivity].
Qed.
Print Assumptions C66_separate.

(** A key that is ruled out is refused, by a panic; no other is. *)
Theorem C66_refused : forall o f, doArg o f = None <-> ~ argOk o.
Proof.
  intros [k v|k v] f; cbn [doArg argOk].
  - split.
    + intros H U. destruct (setUserArg_some k v f U) as (a & E & _). congruence.
    + intro U. unfold setUserArg. destruct (isEmpty k) eqn:A; [reflexivity|].
      destruct (startsHash k) eqn:B; [reflexivity|]. exfalso. apply U. apply userKey_bool.
      rewrite A, B. reflexivity.
  - split.
    + intros H U. destruct (setSysArg_some k v f U) as (a & E & _). congruence.
    + intro U. unfold setSysArg. destruct k; [reflexivity|]. exfalso. apply U. discriminate.
Qed.
Print Assumptions C66_refused.

Example C66_separate_ex : exists f,
  doArgs [SetU [70] [1]; SetS [70] [2]; SetU [70] [3]; SetU [71] [4]] zeroFrag = Some f /\
  getUserArg [70] f = Some (Some [3]) /\ getSysArg [70] f = Some [2] /\
  getUserArg [71] f = Some (Some [4]) /\ getUserArg [72] f = Some None /\ getSysArg [71] f = None.
Proof. eexists. vm_compute. repeat split. Qed.

(** ** C67: comparing fragments *)

Lemma cmpStr_refl : forall a, cmpStr a a = Eq.
Proof. induction a as [|x a IH]; [reflexivity|]. cbn [cmpStr]. rewrite Z.compare_refl. exact IH. Qed.

Lemma cmpStr_eq : forall a b, cmpStr a b = Eq <-> a = b.
Proof.
  induction a as [|x a IH]; intros [|y b]; cbn [cmpStr]; split; try congruence; intro H.
  - destruct (x ?= y) eqn:E; try discriminate. apply Z.compare_eq in E. apply IH in H. congruence.
  - injection H as -> ->. rewrite Z.compare_refl. apply IH. reflexivity.
Qed.

Lemma cmpStr_anti : forall a b, cmpStr b a = CompOpp (cmpStr a b).
Proof.
  induction a as [|x a IH]; intros [|y b]; cbn [cmpStr]; try reflexivity.
  rewrite (Z.compare_antisym x y). destruct (x ?= y); cbn [CompOpp]; [apply IH|reflexivity|reflexivity].
Qed.

Lemma lexOrder_eq : forall a b, lexOrder a b = Eq <-> a = b.
Proof.
  induction a as [|x a IH]; intros [|y b]; cbn [lexOrder]; split; try congruence; intro H.
  - destruct (cmpStr x y) eqn:E; try discriminate. apply cmpStr_eq in E. apply IH in H. congruence.
  - injection H as -> ->. rewrite cmpStr_refl. apply IH. reflexivity.
Qed.

Lemma lexOrder_anti : forall a b, lexOrder b a = CompOpp (lexOrder a b).
Proof.
  induction a as [|x a IH]; intros [|y b]; cbn [lexOrder]; try reflexivity.
  rewrite (cmpStr_anti x y). destruct (cmpStr x y); cbn [CompOpp]; [apply IH|reflexivity|reflexivity].
Qed.

(** Compare gives the sign of the order by the fields from CircuitID to
    Payload, except that it takes the fragment with the greater payload for
    equal to one that differs from it in the payload alone. *)
Theorem C67_order_partial : forall a b,
  compareFrag a b =
  match lexOrder (sortKey a) (sortKey b) with
  | Lt => -1
  | Eq => 0
  | Gt => match lexOrder (removelast (sortKey a)) (removelast (sortKey b)) with
          | Eq => 0
          | _ => 1
          end
  end.
Proof.
  intros a b. unfold compareFrag, sortKey. cbn [removelast lexOrder].
  assert (S : forall x y, cmpStr [x] [y] = (x ?= y)).
  { intros x y. cbn [cmpStr]. destruct (x ?= y); reflexivity. }
  rewrite !S.
  repeat match goal with
  | |- context [match ?c with Eq => _ | Lt => Lt | Gt => Gt end] =>
      destruct c eqn:?; cbn [signOf orElse]; try reflexivity
  end; unfold bytesCompare;
  repeat match goal with H : cmpStr (fPayload a) (fPayload b) = _ |- _ => rewrite H end; reflexivity.
Qed.
Print Assumptions C67_order_partial.

(** So it returns 0 for fragments that differ, and comparing the other way round
    does not give the opposite. *)
Theorem C67_order_refuted : exists a b,
  fPayload a <> fPayload b /\ compareFrag a b = 0 /\ compareFrag b a = -1.
Proof.
  exists (mkFrag [] [] [] [] [] [] [] [] [] 7 0 0 [] 0 None [2] []),
         (mkFrag [] [] [] [] [] [] [] [] [] 7 0 0 [] 0 None [1] []).
  vm_compute. repeat split. discriminate.
Qed.
Print Assumptions C67_order_refuted.

(** On fragments with the same payload it is an order: 0 exactly when all it
    looks at agrees, and opposite the other way round. *)
Theorem C67_same_payload_partial : forall a b,
  fPayload a = fPayload b ->
  (compareFrag a b = 0 <-> sortKey a = sortKey b) /\ compareFrag b a = - compareFrag a b.
Proof.
  intros a b P.
  assert (R : forall x y, fPayload x = fPayload y ->
    lexOrder (sortKey x) (sortKey y) = lexOrder (removelast (sortKey x)) (removelast (sortKey y))).
  { intros x y Q. unfold sortKey. cbn [removelast lexOrder]. rewrite Q, cmpStr_refl. reflexivity. }
  rewrite !C67_order_partial, <- (R a b P), <- (R b a (eq_sym P)), (lexOrder_anti (sortKey a) (sortKey b)).
  split.
  - rewrite <- lexOrder_eq. destruct (lexOrder (sortKey a) (sortKey b)); split; congruence.
  - destruct (lexOrder (sortKey a) (sortKey b)); reflexivity.
Qed.
Print Assumptions C67_same_payload_partial.

Example C67_ex : compareFrag exFrag (setSerial 8 exFrag) = -1 /\ compareFrag (setSerial 8 exFrag) exFrag = 1
  /\ compareFrag exFrag exFrag = 0.
Proof. vm_compute. repeat split. Qed.

(** ** C68: recycled fragments *)

Lemma updF_len : forall i f l, length (updF i f l) = length l.
Proof. intros i f l. revert i. induction l as [|x l IH]; intros [|i]; cbn; auto. Qed.

Lemma updF_nth : forall i f l j,
  nth_error (updF i f l) j = if Nat.eqb i j then option_map f (nth_error l j) else nth_error l j.
Proof.
  intros i f l. revert i. induction l as [|x l IH]; intros [|i] [|j]; cbn [updF nth_error Nat.eqb option_map]; auto.
  - destruct (Nat.eqb i j); reflexivity.
Qed.

Lemma giveUp_in : forall a b l, In b (giveUp a l) <-> In b l /\ a <> b.
Proof.
  intros a b l. unfold giveUp. rewrite filter_In. split; intros [H1 H2]; split; auto.
  - apply negb_true_iff in H2. apply Nat.eqb_neq in H2. exact H2.
  - apply negb_true_iff, Nat.eqb_neq. exact H2.
Qed.

Lemma NoDup_snoc : forall (a : nat) l, NoDup l -> ~ In a l -> NoDup (l ++ [a]).
Proof.
  induction l as [|x l IH]; intros N H; cbn.
  - constructor; [intros []|constructor].
  - apply NoDup_cons_iff in N as [N1 N2]. constructor.
    + rewrite in_app_iff. intros [J|[J|[]]]; [contradiction|]. subst. apply H. left. reflexivity.
    + apply IH; [exact N2|]. intro J. apply H. right. exact J.
Qed.

(** held fragments are all different and none is in the store of recycled ones,
    whose content is blank. *)
Record pinv (w : world) : Prop := mkPinv {
  pHeld : NoDup (wHeld w);
  pRec : NoDup (rec (wPool w));
  pApart : forall a, In a (wHeld w) -> In a (rec (wPool w)) -> False;
  pIn : forall a, In a (wHeld w) \/ In a (rec (wPool w)) -> (a < length (heap (wPool w)))%nat;
  pBlank : forall a, In a (rec (wPool w)) -> nth_error (heap (wPool w)) a = Some zeroFrag
}.

Lemma pinv_free : forall a w,
  pinv w -> In a (wHeld w) -> pinv (mkWorld (freeFragment a (wPool w)) (giveUp a (wHeld w))).
Proof.
  intros a w [H1 H2 H3 H4 H5] Ha. constructor; cbn [wHeld wPool freeFragment rec heap].
  - apply NoDup_filter. exact H1.
  - apply NoDup_snoc; [exact H2|]. intro J. exact (H3 _ Ha J).
  - intros b B R. apply giveUp_in in B as [B NE]. rewrite in_app_iff in R.
    destruct R as [R|[R|[]]]; [exact (H3 _ B R)|contradiction].
  - intros b B. rewrite updF_len. apply H4. rewrite in_app_iff in B.
    destruct B as [B|[B|[<-|[]]]]; auto. apply giveUp_in in B as [B _]. auto.
  - intros b B. rewrite updF_nth. rewrite in_app_iff in B.
    assert (L : (b < length (heap (wPool w)))%nat).
    { apply H4. destruct B as [B|[<-|[]]]; auto. }
    destruct (Nat.eqb_spec a b) as [EQ|NE].
    + destruct (nth_error (heap (wPool w)) b) eqn:E; [reflexivity|]. apply nth_error_None in E. lia.
    + destruct B as [B|[B|[]]]; [exact (H5 _ B)|contradiction].
Qed.

Lemma holds_in : forall a w, holds a w = true <-> In a (wHeld w).
Proof.
  intros a w. unfold holds. rewrite existsb_exists. split.
  - intros [x [H E]]. apply Nat.eqb_eq in E. subst. exact H.
  - intro H. exists a. split; [exact H|apply Nat.eqb_refl].
Qed.

Lemma pinv_step : forall o w, pinv w -> pinv (poolStep true o w).
Proof.
  intros o w P. destruct o as [|a f|a|a keep early ok]; cbn [poolStep].
  - destruct P as [H1 H2 H3 H4 H5]. unfold newFragment. destruct (rec (wPool w)) as [|a r] eqn:R.
    + constructor; cbn [wHeld wPool rec heap].
      * constructor; [|exact H1]. intro J. specialize (H4 _ (or_introl J)). lia.
      * constructor.
      * intros b _ [].
      * intros b B. rewrite app_length. cbn [length]. destruct B as [[<-|B]|[]]; [lia|].
        specialize (H4 _ (or_introl B)). lia.
      * intros b B. destruct B.
    + constructor; cbn [wHeld wPool rec heap].
      * constructor; [|exact H1]. intro J. apply (H3 _ J). left. reflexivity.
      * apply NoDup_cons_iff in H2 as [_ H2]. exact H2.
      * apply NoDup_cons_iff in H2 as [N _]. intros b [<-|B] J; [contradiction|].
        apply (H3 _ B). right. exact J.
      * intros b B. rewrite updF_len. apply H4. destruct B as [[<-|B]|B].
        -- right. left. reflexivity.
        -- left. exact B.
        -- right. right. exact B.
      * intros b B. rewrite updF_nth. apply NoDup_cons_iff in H2 as [N _].
        destruct (Nat.eqb_spec a b) as [EQ|NE]; [subst b; contradiction|]. apply H5. right. exact B.
  - destruct (holds a w) eqn:Ha; [|exact P]. apply holds_in in Ha. destruct P as [H1 H2 H3 H4 H5].
    constructor; cbn [wHeld wPool rec heap]; auto.
    + intros b B. rewrite updF_len. auto.
    + intros b B. rewrite updF_nth. destruct (Nat.eqb_spec a b) as [EQ|NE]; [|auto].
      subst b. destruct (H3 _ Ha B).
  - destruct (holds a w) eqn:Ha; [|exact P]. apply holds_in in Ha. apply pinv_free; assumption.
  - destruct (holds a w) eqn:Ha; [|exact P]. apply holds_in in Ha. unfold sendOneWay.
    destruct early.
    + rewrite orb_true_r, andb_true_r. destruct (keep <=? 0); [|destruct w; exact P].
      destruct P as [H1 H2 H3 H4 H5]. constructor; cbn [wHeld wPool]; auto.
      * apply NoDup_filter. exact H1.
      * intros b B. apply giveUp_in in B as [B _]. apply H3. exact B.
      * intros b [B|B]; [apply giveUp_in in B as [B _]|]; auto.
    + rewrite orb_true_r, andb_true_r. destruct (keep <=? 0); [|destruct w; exact P].
      apply pinv_free; assumption.
Qed.

Lemma pinv_run : forall os, pinv (poolRun true os).
Proof.
  intro os. unfold poolRun.
  assert (G : forall os w, pinv w -> pinv (fold_left (fun w o => poolStep true o w) os w)).
  { induction os0 as [|o r IH]; intros w P; [exact P|]. cbn [fold_left]. apply IH. apply pinv_step. exact P. }
  apply G. constructor; cbn; try constructor; intros; tauto.
Qed.

(** As long as users take a fragment for gone once it was passed to a send that
    recycles it, whatever that send returned: NewFragment returns a fragment
    nobody holds, blank but for its serial number; and no two of the fragments
    held are the same. *)
Theorem C68_recycle_partial : forall os,
  let w := poolRun true os in
  let (a, p) := newFragment (wPool w) in
  ~ In a (wHeld w) /\ NoDup (wHeld w) /\
  nth_error (heap p) a = Some (setSerial (serial p) zeroFrag) /\
  (forall b, In b (wHeld w) -> nth_error (heap p) b = nth_error (heap (wPool w)) b).
Proof.
  intro os. cbn zeta. destruct (pinv_run os) as [H1 H2 H3 H4 H5].
  unfold newFragment. destruct (rec (wPool (poolRun true os))) as [|a r] eqn:R.
  - split; [|split; [exact H1|split]].
    + intro J. specialize (H4 _ (or_introl J)). lia.
    + cbn [heap serial]. rewrite nth_error_app2, Nat.sub_diag by lia. reflexivity.
    + intros b B. cbn [heap]. rewrite nth_error_app1; [reflexivity|]. apply H4. left. exact B.
  - split; [|split; [exact H1|split]].
    + intro J. apply (H3 _ J). left. reflexivity.
    + cbn [heap serial]. rewrite updF_nth, Nat.eqb_refl, (H5 a (or_introl eq_refl)). reflexivity.
    + intros b B. cbn [heap]. rewrite updF_nth. destruct (Nat.eqb_spec a b) as [EQ|NE]; [|reflexivity].
      subst b. destruct (H3 _ B). left. reflexivity.
Qed.
Print Assumptions C68_recycle_partial.

(** Serial numbers only go up: two fragments made at different times carry
    different ones. *)
Theorem C68_serial : forall g os1 os2,
  serial (snd (newFragment (wPool (poolRun g os1)))) <
  serial (snd (newFragment (wPool (poolRun g (os1 ++ PNew :: os2))))).
Proof.
  intros g os1 os2. unfold poolRun. rewrite fold_left_app. cbn [fold_left].
  set (w := fold_left _ os1 _).
  assert (S : forall p, serial (snd (newFragment p)) = serial p + 1).
  { intro p. unfold newFragment. destruct (rec p); reflexivity. }
  assert (M : forall o v, serial (wPool v) <= serial (wPool (poolStep g o v))).
  { intros [|a f|a|a k e ok] v; cbn [poolStep].
    - pose proof (S (wPool v)). destruct (newFragment (wPool v)). cbn in *. lia.
    - destruct (holds a v); cbn; lia.
    - destruct (holds a v); cbn; lia.
    - destruct (holds a v); [|cbn; lia]. unfold sendOneWay. destruct e, (k <=? 0); cbn; lia. }
  assert (G : forall l v, serial (wPool v) <= serial (wPool (fold_left (fun w o => poolStep g o w) l v))).
  { induction l as [|o l IH]; intro v; cbn [fold_left]; [lia|]. specialize (IH (poolStep g o v)).
    specialize (M o v). lia. }
  rewrite !S. specialize (G os2 (poolStep g PNew w)).
  assert (N : serial (wPool (poolStep g PNew w)) = serial (wPool w) + 1).
  { cbn [poolStep]. pose proof (S (wPool w)). destruct (newFragment (wPool w)). exact H. }
  unfold poolStep in *. lia.
Qed.
Print Assumptions C68_serial.

Example C68_recycle_ex :
  let w := poolRun true [PNew; PWrite 0 (setArgs (Some [])); PNew; PSend 0 0 false true; PNew] in
  wHeld w = [0; 1]%nat /\ serial (wPool w) = 3.
Proof. vm_compute. split; reflexivity. Qed.

(** A user who sends again after a failure ends up sharing a fragment: it was
    recycled before the failed sending, and is recycled a second time. *)
Theorem C68_retry_refuted : exists os a,
  let w := poolRun false os in
  let (b, p) := newFragment (wPool w) in In a (wHeld w) /\ b = a.
Proof.
  exists [PNew; PSend 0 0 false false; PSend 0 0 false true; PNew], 0%nat.
  vm_compute. split; [left; reflexivity|reflexivity].
Qed.
Print Assumptions C68_retry_refuted.

(** And what it sends again is blank: the content is gone after the failure. *)
Theorem C68_wiped_refuted : forall a p,
  (a < length (heap p))%nat ->
  let (ok, p') := sendOneWay a 0 false false p in
  ok = false /\ nth_error (heap p') a = Some zeroFrag.
Proof.
  intros a p H. cbn. split; [reflexivity|]. rewrite updF_nth, Nat.eqb_refl.
  destruct (nth_error (heap p) a) eqn:E; [reflexivity|]. apply nth_error_None in E. lia.
Qed.
Print Assumptions C68_wiped_refuted.
