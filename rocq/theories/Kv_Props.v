(** C28-C30, C45-C48: leases, fencing, replicas, CAS, deletes, reads, saving. *)
From Coq Require Import List ZArith Lia Bool Sorted Permutation.
From Verif Require Import Base Kv_Model Kv_Spec Kv_Proofs Kv_Hist Kv_Rep Kv_Scan.
Import ListNotations.
Open Scope Z_scope.

(** ** Tickets and leaves for the examples *)
Definition rq o tab key from tm dur ix := mkReq o tab key from tm dur ix 0 0 [] [] [] false.
Definition noInfo := mkInfo [] [] [] 0 0 0 0 0 false.
Definition tk (q : req) (v leasor : bytes) (until : Z) (auto : bool) : ticket :=
  mkTkt q v (mkInfo [] leasor [] 0 until 0 0 0 auto) None [] false [] ([], []) None.
Definition T1 : bytes := [116]. Definition K1 : bytes := [107].
Definition alice : bytes := [97]. Definition bob : bytes := [98].
Definition pA : bytes := [1]. Definition pB : bytes := [2].
(** Alice holds the lease on the key until 200, in epoch 3. *)
Definition exLeaf := mkLeaf [1; 1] [] alice pA 100 200 7 3 5 false 0.
Definition exStore : store := [(T1, [(K1, exLeaf)])].
Definition bobWrites tm := tk (rq Write T1 K1 pB tm 50 8) [2; 2] bob (tm + 50) false.

Lemma ex_wf : WfStore exStore.
Proof.
  split.
  - repeat constructor.
  - intros tab m H. unfold exStore in H. cbn [mget] in H. destruct (beqb tab T1); [|discriminate]. injection H as <-. repeat constructor.
Qed.
Lemma ex_noauto : NoAuto exStore.
Proof.
  intros tab key l H. unfold findLeaf, exStore in H. cbn [mget] in H. destruct (beqb tab T1); [|discriminate]. cbn [mget] in H.
  destruct (beqb key K1); [|discriminate]. injection H as <-. reflexivity.
Qed.

(** * C28 *)

(** While the lease is in force, a write or CAS of anyone but the holder leaves
    the store as it is and reports the current value and lease. *)
Theorem C28_refused_while_leased : forall drift now s t l,
  IsWrite t -> qTm (tReq t) <> 0 -> findLeaf s (qTable (tReq t)) (qKey (tReq t)) = Some l ->
  InForce drift (qTm (tReq t)) l -> ~ Holder t l ->
  exists t', apply drift now s t = Ok (s, t') /\ ReportsCurrent drift l t' /\ (tSwapped t = false -> tSwapped t' = false).
Proof.
  intros drift now s t l W T F I N. destruct (write_ok drift now s t W T) as (s' & t' & A).
  destruct (refused _ _ _ _ _ _ _ W A F I N) as (-> & R & Sw). eauto.
Qed.
Print Assumptions C28_refused_while_leased.

Example C28_refused_while_leased_ex :
  IsWrite (bobWrites 205) /\ InForce 10 205 exLeaf /\ ~ Holder (bobWrites 205) exLeaf /\
  match apply 10 0 exStore (bobWrites 205) with
  | Ok (s', t') => s' = exStore /\ tErr t' = Some Leased /\ tCur t' = [1; 1] /\ iUntil (tInfo t') = 210
  | Panic => False
  end.
Proof.
  split; [now left|]. split; [split; [discriminate|split; [discriminate|]]; unfold exLeaf, lUntil; lia|].
  split; [intros (X & _); discriminate|]. vm_compute. repeat split; reflexivity.
Qed.

(** Once its end plus the drift bound has passed, any write goes through. *)
Theorem C28_succeeds_after_expiry : forall drift now s t l,
  0 <= drift -> qOp (tReq t) = Write -> Stamped t -> tErr t = None ->
  findLeaf s (qTable (tReq t)) (qKey (tReq t)) = Some l -> lUntil l + drift < qTm (tReq t) -> lIndex l < qIndex (tReq t) ->
  exists s' t' l', apply drift now s t = Ok (s', t') /\ tErr t' = None /\
    findLeaf s' (qTable (tReq t)) (qKey (tReq t)) = Some l' /\ OnlyAt (qTable (tReq t)) (qKey (tReq t)) s s' /\
    lVal l' = tVal t /\ lLeasor l' = iLeasor (tInfo t) /\ lPeer l' = qFrom (tReq t) /\ lUntil l' = iUntil (tInfo t) /\
    lVersion l' = lVersion l + 1 /\ (~ Holder t l -> lEpoch l' = lEpoch l + 1).
Proof.
  intros drift now s t l D O (T & Du & St) E F X Ix.
  destruct (write_ok drift now s t (or_introl O) T) as (s' & t' & A).
  destruct (apply_write _ _ _ _ _ _ O A) as (b & W).
  apply wcase_inv in W as [(_ & _ & l0 & e & F0 & _ & R)|(_ & Er & _ & _ & _ & l' & Es & Wr & _)].
  - exfalso. assert (l0 = l) by congruence. subst l0.
    destruct R as [(_ & R)|[(_ & _ & R1 & R2 & _)|(_ & _ & R & _)]]; lia.
  - exists s', t', l'. split; [exact A|]. split; [congruence|]. rewrite Es. split; [apply find_put_same|].
    split; [intros tab' key' N; now apply find_put_other|]. rewrite F in Wr.
    split; [apply Wr|]. split; [apply Wr|]. split; [apply Wr|]. split; [apply Wr|]. split; [exact (w_version _ _ _ Wr)|].
    intros N. pose proof (w_epoch _ _ _ Wr) as (_ & [(Ep & _)|(_ & _ & Hh & _)]); [exact Ep|contradiction].
Qed.
Print Assumptions C28_succeeds_after_expiry.

Example C28_succeeds_after_expiry_ex :
  Stamped (bobWrites 211) /\ lUntil exLeaf + 10 < 211 /\
  match apply 10 0 exStore (bobWrites 211) with
  | Ok (s', t') => tErr t' = None /\ iEpoch (tInfo t') = 4 /\ findLeaf s' T1 K1 = Some (mkLeaf [2; 2] [] bob pB 211 261 8 4 6 false 1)
  | Panic => False
  end.
Proof.
  split; [split; [discriminate|split; [discriminate|reflexivity]]|]. split; [unfold exLeaf, lUntil; lia|].
  vm_compute. repeat split; reflexivity.
Qed.

(** Over any log: as long as the entries are not later than the end of the lease
    plus drift, come from others and leave the table alone, the key stays as
    the holder wrote it.  Leaves marked for auto-deletion are left out. *)
Theorem C28_lease_excludes_others_partial : forall drift tab key l log clock s s' out,
  WfStore s -> tab <> dead -> findLeaf s tab key = Some l -> lLeasor l <> [] -> lUntil l <> 0 -> lAuto l = false ->
  Forall (Harmless drift tab key l) log ->
  applyAll drift clock s log = Ok (s', out) -> findLeaf s' tab key = Some l.
Proof. intros. eapply applyAll_keeps; eauto. Qed.
Print Assumptions C28_lease_excludes_others_partial.

Definition exLog : list ticket :=
  [bobWrites 160; tk (rq DeleteKey T1 K1 pB 160 0 9) [] [] 0 false; tk (rq Read T1 K1 pB 170 0 10) [] [] 0 false;
   tk (rq ReadPrefix T1 [] pB 170 0 11) [] [] 0 false; tk (rq Write T1 [1] pB 180 0 12) [9] [] 0 false;
   tk (rq DeleteTable [120] [] pB 190 0 13) [] [] 0 false].
Example C28_lease_excludes_others_ex :
  Forall (Harmless 10 T1 K1 exLeaf) exLog /\
  match applyAll 10 [] exStore exLog with Ok (s', out) => s' <> exStore /\ findLeaf s' T1 K1 = Some exLeaf | Panic => False end.
Proof.
  split.
  - repeat constructor; cbv -[Z.le Z.add]; try lia; try (intros; discriminate); try (intros _ _ (X & _); discriminate);
      try (intros _ (_ & X); discriminate); try (intros [X|X]; discriminate); try (intros [X|X] ?; discriminate).
  - vm_compute. split; [discriminate|reflexivity].
Qed.

(** The holder too is refused while the lease is in force when it writes
    without asking for a longer lease. *)
Theorem C28_holder_needs_longer_lease : forall drift now s t l,
  qOp (tReq t) = Write -> qTm (tReq t) <> 0 -> findLeaf s (qTable (tReq t)) (qKey (tReq t)) = Some l ->
  InForce drift (qTm (tReq t)) l -> (qDur (tReq t) = 0 \/ iUntil (tInfo t) <= lUntil l) ->
  exists t', apply drift now s t = Ok (s, t') /\ ReportsCurrent drift l t'.
Proof.
  intros drift now s t l O T F I C. destruct (write_ok drift now s t (or_introl O) T) as (s' & t' & A).
  exists t'. destruct (apply_write _ _ _ _ _ _ O A) as (b & W).
  pose proof (inForce_noLease _ _ _ I) as Nl. destruct I as (_ & _ & I).
  destruct W as [F0|l0 e F0 R|l0 F0 Ix Nl0|l0 F0 Ix Nl0 D U Hh|l0 F0 Ix Nl0 U D]; rewrite F in F0; try discriminate; injection F0 as <-.
  - split; [exact A|]. apply writeFailed_reports. discriminate.
  - congruence.
  - lia.
  - lia.
Qed.
Print Assumptions C28_holder_needs_longer_lease.

Example C28_holder_needs_longer_lease_ex :
  let t := tk (rq Write T1 K1 pA 150 0 8) [3] alice 0 false in
  Holder t exLeaf /\ match apply 10 0 exStore t with Ok (s', t') => s' = exStore /\ tErr t' = Some Leased | Panic => False end.
Proof. vm_compute. repeat split; reflexivity. Qed.

(** With a longer lease the holder's write goes through, in the same epoch. *)
Theorem C28_holder_extends : forall drift now s t l,
  qOp (tReq t) = Write -> qTm (tReq t) <> 0 -> tErr t = None ->
  findLeaf s (qTable (tReq t)) (qKey (tReq t)) = Some l -> InForce drift (qTm (tReq t)) l -> Holder t l ->
  0 < qDur (tReq t) -> lUntil l < iUntil (tInfo t) -> lIndex l < qIndex (tReq t) ->
  exists s' t' l', apply drift now s t = Ok (s', t') /\ tErr t' = None /\
    findLeaf s' (qTable (tReq t)) (qKey (tReq t)) = Some l' /\ lVal l' = tVal t /\ lUntil l' = iUntil (tInfo t) /\
    lLeasor l' = lLeasor l /\ lPeer l' = lPeer l /\ lEpoch l' = lEpoch l /\ lVersion l' = lVersion l + 1.
Proof.
  intros drift now s t l O T E F I Hh D U Ix.
  destruct (write_ok drift now s t (or_introl O) T) as (s' & t' & A). destruct (apply_write _ _ _ _ _ _ O A) as (b & W).
  pose proof (inForce_noLease _ _ _ I) as Nl. destruct I as (_ & _ & I).
  destruct W as [F0|l0 e F0 R|l0 F0 Ix0 Nl0|l0 F0 Ix0 Nl0 D0 U0 Hh0|l0 F0 Ix0 Nl0 U0 D0]; rewrite F in F0; try discriminate; injection F0 as <-.
  - exfalso. destruct R as [(_ & R)|[(_ & _ & _ & R & _)|(_ & _ & _ & _ & R)]]; [lia|lia|]. now apply R; [lia|].
  - congruence.
  - eexists _, _, _. split; [exact A|]. split; [exact E|]. split; [apply find_put_same|]. destruct Hh as (H1 & H2).
    repeat split; cbn; congruence.
  - lia.
Qed.

Print Assumptions C28_holder_extends.

Example C28_holder_extends_ex :
  let t := tk (rq Write T1 K1 pA 150 100 8) [3] alice 250 false in
  Holder t exLeaf /\ match apply 10 0 exStore t with
    | Ok (s', t') => findLeaf s' T1 K1 = Some (mkLeaf [3] [] alice pA 100 250 8 3 6 false 0) /\ tErr t' = None
    | Panic => False end.
Proof. vm_compute. repeat split; reflexivity. Qed.

(** The second half of the property fails for lease requests at a leader that
    may read locally: the request has no entry time yet, so the leader answers
    it with a refusal, whatever its clock says, however long the lease is over. *)
Theorem C28_leader_fast_path_refuted : forall drift now s t l,
  0 <= drift -> qOp (tReq t) = Write -> iLeasor (tInfo t) <> [] -> 0 < qDur (tReq t) -> qTm (tReq t) = 0 ->
  findLeaf s (qTable (tReq t)) (qKey (tReq t)) = Some l -> lLeasor l <> [] -> 0 < lUntil l -> ~ Holder t l ->
  exists t', fastPath drift now s t = Ok (t', true) /\ ReportsCurrent drift l t'.
Proof.
  intros drift now s t l D O Ln Du T F L1 L2 N. unfold fastPath. rewrite O. destruct (iLeasor (tInfo t)) as [|x q] eqn:Ei; [contradiction|].
  replace (0 <? qDur (tReq t)) with true by lia. unfold bind, kvstoreWrite. cbn [negb andb]. rewrite F.
  assert (Nl : noLease l = false) by (apply noLease_false; split; [auto|lia]). rewrite Nl.
  destruct (negb (qDur (tReq t) =? 0) && (now + qDur (tReq t) <=? lUntil l)).
  { eexists. split; [reflexivity|]. apply writeFailed_reports. discriminate. }
  replace (negb (qDur (tReq t) =? 0) && beqb (lLeasor l) (iLeasor (tInfo t)) && beqb (lPeer l) (qFrom (tReq t))) with false.
  2: { symmetry. rewrite <- andb_assoc. apply andb_false_iff. right. destruct (_ && _) eqn:E; auto. exfalso. apply N. now apply holder_beqb. }
  replace (0 <? qTm (tReq t) - (lUntil l + drift)) with false by lia.
  eexists. split; [reflexivity|]. apply writeFailed_reports. discriminate.
Qed.
Print Assumptions C28_leader_fast_path_refuted.

Example C28_leader_fast_path_ex :
  let t := tk (rq Write T1 K1 pB 0 50 0) [2; 2] bob 0 false in
  match fastPath 10 1000000 exStore t with Ok (t', done) => done = true /\ tErr t' = Some Leased | Panic => False end.
Proof. vm_compute. repeat split; reflexivity. Qed.

(** * C29 *)

(** Over any history in which the key is not deleted: the version grows by one
    with every write to the key, the log index at least so, the epoch does not
    fall, and it has grown when the identity of the leasor is another one. *)
Theorem C29_fencing : forall drift tab key s s' n l,
  tab <> dead -> history drift tab key s s' n -> findLeaf s tab key = Some l ->
  exists l', findLeaf s' tab key = Some l' /\
    lVersion l' = lVersion l + n /\ lEpoch l <= lEpoch l' /\ lIndex l + n <= lIndex l' /\
    ((lLeasor l', lPeer l') <> (lLeasor l, lPeer l) -> lEpoch l < lEpoch l') /\ (n = 0 -> l' = l).
Proof.
  intros drift tab key s s' n l N H F. destruct (history_mono _ _ _ _ _ _ _ N H F) as (l' & F' & _ & R). exists l'. auto.
Qed.
Print Assumptions C29_fencing.

(** A write that succeeds tells the requester the epoch and index now stored. *)
Theorem C29_reply_carries_epoch : forall drift now s t s' t',
  IsWrite t -> tErr t = None -> apply drift now s t = Ok (s', t') -> tErr t' = None ->
  exists l', findLeaf s' (qTable (tReq t)) (qKey (tReq t)) = Some l' /\
    iEpoch (tInfo t') = lEpoch l' /\ iIndex (tInfo t') = lIndex l' /\ lIndex l' = qIndex (tReq t) /\ lVal l' = tVal t /\
    lLeasor l' = iLeasor (tInfo t) /\ lPeer l' = qFrom (tReq t) /\
    match findLeaf s (qTable (tReq t)) (qKey (tReq t)) with
    | Some l => lIndex l < lIndex l' /\ lVersion l' = lVersion l + 1 /\ (~ Holder t l -> lEpoch l' = lEpoch l + 1)
    | None => lEpoch l' = 1 /\ lVersion l' = 1
    end.
Proof.
  intros drift now s t s' t' W E A E'.
  pose proof (write_inv _ _ _ _ _ _ W A) as [(_ & X & _)|(_ & _ & _ & l' & -> & Wr & E1 & E2)]; [contradiction|].
  exists l'. split; [apply find_put_same|]. split; auto. split; auto. split; [apply Wr|]. split; [apply Wr|]. split; [apply Wr|].
  split; [apply Wr|]. pose proof (w_epoch _ _ _ Wr) as Ep. pose proof (w_version _ _ _ Wr) as V.
  destruct findLeaf as [l|]; [|split; [apply Ep|exact V]]. destruct Ep as (Ix & Ep). split; [exact Ix|]. split; [exact V|].
  intros N. destruct Ep as [(Ep & _)|(_ & _ & Hh & _)]; [exact Ep|contradiction].
Qed.
Print Assumptions C29_reply_carries_epoch.

(** Alice extends her lease, and Bob takes over when it is over. *)
Definition aliceExtends := tk (rq Write T1 K1 pA 150 100 8) [3] alice 250 false.
Definition bobLater := tk (rq Write T1 K1 pB 300 50 9) [2; 2] bob 350 false.
Example C29_fencing_ex : exists s' l', history 10 T1 K1 exStore s' 2 /\ findLeaf s' T1 K1 = Some l' /\
  lVersion l' = lVersion exLeaf + 2 /\ lEpoch l' = lEpoch exLeaf + 1 /\ lLeasor l' = bob.
Proof.
  eexists _, _. split.
  - eapply (H_wrote _ _ _ _ 0 aliceExtends _ _ _ 1).
    + vm_compute. reflexivity.
    + reflexivity.
    + vm_compute. discriminate.
    + vm_compute. repeat split; auto.
    + eapply (H_wrote _ _ _ _ 0 bobLater _ _ _ 0).
      * vm_compute. reflexivity.
      * reflexivity.
      * vm_compute. discriminate.
      * vm_compute. repeat split; auto.
      * apply H_nil.
  - vm_compute. repeat split; reflexivity.
Qed.

(** Without the proviso it is false: a key deleted and written again starts at
    epoch 1 and version 1, so that a later leasor has a smaller epoch. *)
Theorem C29_delete_resets_refuted : exists drift s t1 s1 t1' t2 s2 t2' l l2,
  findLeaf s T1 K1 = Some l /\ qOp (tReq t1) = DeleteKey /\ apply drift 0 s t1 = Ok (s1, t1') /\ tErr t1' = None /\
  qOp (tReq t2) = Write /\ apply drift 0 s1 t2 = Ok (s2, t2') /\ tErr t2' = None /\
  findLeaf s2 T1 K1 = Some l2 /\ lLeasor l2 <> lLeasor l /\ lIndex l < lIndex l2 /\ lEpoch l2 < lEpoch l /\ lVersion l2 < lVersion l.
Proof.
  exists 10, exStore, (tk (rq DeleteKey T1 K1 pA 150 0 8) [] alice 0 false). eexists _, _.
  exists (tk (rq Write T1 K1 pB 160 50 9) [2] bob 210 false). eexists _, _, _, _.
  split; [reflexivity|]. split; [reflexivity|]. split; [reflexivity|]. split; [reflexivity|]. split; [reflexivity|].
  split; [reflexivity|]. split; [reflexivity|]. split; [reflexivity|]. split; [discriminate|]. vm_compute. repeat split; reflexivity.
Qed.
Print Assumptions C29_delete_resets_refuted.

(** * C30 *)

(** The store and the replies do not depend on the clock of the node, if nothing
    is marked for auto-deletion. *)
Theorem C30_clocks_do_not_matter_partial : forall drift log c1 c2 s, WfStore s -> NoAuto s -> Forall NoAutoT log ->
  applyAll drift c1 s log = applyAll drift c2 s log.
Proof. exact applyAll_clock. Qed.
Print Assumptions C30_clocks_do_not_matter_partial.

(** Nor, with auto-deletion, for logs of writes, CAS and table operations. *)
Theorem C30_writes_ignore_clocks : forall drift log c1 c2 s,
  Forall (fun t => IsWrite t \/ In (qOp (tReq t)) [MakeTable; DeleteTable; RenameTable; Noop]) log ->
  applyAll drift c1 s log = applyAll drift c2 s log.
Proof.
  intros drift log. induction log as [|t log IH]; intros c1 c2 s H; [reflexivity|]. inversion H as [|? ? H1 H2]; subst.
  cbn [applyAll]. assert (E : apply drift (hd 0 c1) s t = apply drift (hd 0 c2) s t).
  { unfold apply. destruct H1 as [[->| ->]|H1]; try reflexivity. cbn [In] in H1.
    destruct H1 as [<-|[<-|[<-|[<-|[]]]]]; reflexivity. }
  rewrite E. unfold bind. destruct (apply drift (hd 0 c2) s t) as [(s1, t1)|]; [|reflexivity]. cbn [fst]. now rewrite (IH (tl c1) (tl c2)).
Qed.
Print Assumptions C30_writes_ignore_clocks.

Example C30_clocks_ex : Forall NoAutoT (exLog ++ [aliceExtends; bobLater]) /\
  match applyAll 10 [1; 2; 3] exStore (exLog ++ [aliceExtends; bobLater]) with
  | Ok (s', out) => applyAll 10 [900] exStore (exLog ++ [aliceExtends; bobLater]) = Ok (s', out) /\ s' <> exStore
  | Panic => False
  end.
Proof. split; [repeat constructor|]. vm_compute. split; [reflexivity|discriminate]. Qed.
Example C30_writes_ex :
  let log := [tk (rq Write T1 [5] pA 150 100 8) [3] alice 250 true; tk (rq MakeTable [120] [] pA 0 0 9) [] [] 0 false;
              tk (rq Cas T1 [5] pA 160 100 10) [4] alice 260 true] in
  Forall (fun t => IsWrite t \/ In (qOp (tReq t)) [MakeTable; DeleteTable; RenameTable; Noop]) log /\
  match applyAll 10 [] exStore log with Ok (s', _) => findLeaf s' T1 [5] <> None | Panic => False end.
Proof.
  split; [|vm_compute; discriminate].
  constructor; [left; now left|]. constructor; [right; now left|]. constructor; [left; now right|]. constructor.
Qed.

(** A node that catches up is sent entries whose tickets the sender's own
    application has changed. It reaches the same store when the drift bound is
    zero, or when leasor names belong to peers and no lease request was refused
    as too short. *)
Theorem C30_catch_up_partial : forall drift name log clock clock' s s' out log',
  WfStore s -> NoAuto s -> Forall NoAutoT log -> Forall (fun t => IsWrite t -> qTm (tReq t) <> 0) log ->
  (drift = 0 \/ (NamedS name s /\ Forall (NamedT name) log /\ Forall (fun t' => tErr t' <> Some ShorterLease) out)) ->
  applyAll drift clock s log = Ok (s', out) ->
  Forall2 (fun p u => resent (fst p) (snd p) u) (combine log out) log' ->
  exists out', applyAll drift clock' s log' = Ok (s', out').
Proof. exact applyAll_resent. Qed.
Print Assumptions C30_catch_up_partial.

Definition exName (p : bytes) : bytes := if beqb p pA then alice else bob.
Example C30_catch_up_ex :
  let log := exLog ++ [aliceExtends; bobWrites 220; bobLater] in
  NamedS exName exStore /\ Forall (NamedT exName) log /\
  match applyAll 10 [] exStore log with
  | Ok (s', out) => Forall (fun t' => tErr t' <> Some ShorterLease) out /\ combine log out <> combine log log /\
      match applyAll 10 [] exStore out with Ok (s'', _) => s'' = s' | Panic => False end
  | Panic => False
  end.
Proof.
  split; [|split].
  - intros tab key l H _. unfold findLeaf, exStore in H. cbn [mget] in H. destruct (beqb tab T1); [|discriminate]. cbn [mget] in H.
    destruct (beqb key K1); [|discriminate]. injection H as <-. reflexivity.
  - repeat constructor; (left; reflexivity) || (right; split; reflexivity).
  - vm_compute. split; [repeat (apply Forall_cons; [discriminate|]); apply Forall_nil|]. split; [discriminate|reflexivity].
Qed.

(** Auto-deletion reads the clock of each node: the same log, two stores. *)
Theorem C30_auto_delete_refuted : exists drift s log c1 c2 s1 o1 s2 o2,
  WfStore s /\ applyAll drift c1 s log = Ok (s1, o1) /\ applyAll drift c2 s log = Ok (s2, o2) /\
  findLeaf s1 T1 K1 <> None /\ findLeaf s2 T1 K1 = None.
Proof.
  exists 10, [], [tk (rq Write T1 K1 pA 100 50 1) [1] alice 150 true; tk (rq Read T1 K1 pB 149 0 2) [] [] 0 false], [100; 150], [100; 151].
  eexists _, _, _, _. split; [split; [constructor|discriminate]|]. split; [reflexivity|]. split; [reflexivity|].
  vm_compute. split; [discriminate|reflexivity].
Qed.
Print Assumptions C30_auto_delete_refuted.

(** With a drift bound, the holder's request for a shorter lease is refused by
    the node that applies it first and granted by the node it is sent to
    afterwards: the same log, two stores. *)
Theorem C30_resent_ticket_refuted : exists drift s t s1 t1 s2 t2,
  0 < drift /\ WfStore s /\ NoAuto s /\ NoAutoT t /\ Stamped t /\
  apply drift 0 s t = Ok (s1, t1) /\ tErr t1 = Some ShorterLease /\ s1 = s /\
  apply drift 0 s t1 = Ok (s2, t2) /\ findLeaf s2 T1 K1 <> findLeaf s1 T1 K1.
Proof.
  exists 10, exStore, (tk (rq Write T1 K1 pA 150 20 8) [3] alice 170 false). eexists _, _, _, _.
  split; [reflexivity|]. split; [exact ex_wf|]. split; [exact ex_noauto|]. split; [reflexivity|].
  split; [split; [discriminate|split; [discriminate|reflexivity]]|].
  split; [reflexivity|]. split; [reflexivity|]. split; [reflexivity|]. split; [reflexivity|]. vm_compute. discriminate.
Qed.
Print Assumptions C30_resent_ticket_refuted.

(** * C45: compare and swap *)

(** A CAS that reports success found what it asked for and stored its value; one
    that does not leaves the store as it was and reports an error. *)
Theorem C45_cas_atomic : forall drift now s t s' t',
  qOp (tReq t) = Cas -> tErr t = None -> tSwapped t = false -> apply drift now s t = Ok (s', t') ->
  let tab := qTable (tReq t) in let key := qKey (tReq t) in
  if tSwapped t' then
    CasHolds (tReq t) (findLeaf s tab key) /\ tErr t' = None /\ OnlyAt tab key s s' /\
    exists l', findLeaf s' tab key = Some l' /\ lVal l' = tVal t /\
      lVersion l' = match findLeaf s tab key with Some l => lVersion l + 1 | None => 1 end /\
      (forall l, findLeaf s tab key = Some l -> InForce drift (qTm (tReq t)) l -> Holder t l)
  else s' = s /\ tErr t' <> None.
Proof.
  intros drift now s t s' t' O E Sw A. cbn zeta. pose proof (apply_cas _ _ _ _ _ _ O A) as C.
  destruct C as [F N|l e t1 F R Er V Sw1 _|s' t1 b Hc W].
  - cbn [setErr tSwapped tErr]. rewrite Sw. split; [reflexivity|discriminate].
  - cbn [writeFailed setInfo setCur tSwapped tErr]. rewrite Sw in Sw1. destruct Sw1 as [-> | ->]; (split; [reflexivity|congruence]).
  - pose proof W as W0. apply wcase_inv in W as [(-> & -> & l & e & F & -> & _)|(-> & Er & _ & _ & _ & l' & -> & Wr & _)].
    + cbn [setSwapped tSwapped tErr writeFailed setInfo setCur setErr]. split; [reflexivity|discriminate].
    + cbn [setSwapped tSwapped tErr]. rewrite Er, E. split; [exact Hc|]. split; [reflexivity|].
      split; [intros tab' key' N; now apply find_put_other|]. exists l'. split; [apply find_put_same|]. split; [apply Wr|].
      split; [exact (w_version _ _ _ Wr)|]. intros l F I.
      destruct (beqb_spec (iLeasor (tInfo t)) (lLeasor l)) as [E1|E1]; [destruct (beqb_spec (qFrom (tReq t)) (lPeer l)) as [E2|E2]|].
      * split; auto.
      * destruct (wcase_refused _ _ _ _ _ _ _ W0 F I) as (_ & _ & X); [intros (_ & X); contradiction|congruence].
      * destruct (wcase_refused _ _ _ _ _ _ _ W0 F I) as (_ & _ & X); [intros (X & _); contradiction|congruence].
Qed.
Print Assumptions C45_cas_atomic.

Definition casReq v ep ov from tm dur ix := mkReq Cas T1 K1 from tm dur ix v ep ov [] [] false.
Definition freeStore : store := [(T1, [(K1, mkLeaf [1; 1] [] [] pA 100 0 7 3 5 false 0)])].
Example C45_cas_atomic_ex :
  match apply 10 0 freeStore (tk (casReq 5 0 [] pB 300 0 8) [2] [] 0 false), apply 10 0 freeStore (tk (casReq 4 0 [] pB 300 0 8) [2] [] 0 false),
        apply 10 0 freeStore (tk (casReq 0 0 [1; 1] pB 300 0 8) [2] [] 0 false), apply 10 0 exStore (tk (casReq 5 0 [] pB 200 0 8) [2] bob 0 false) with
  | Ok (s1, t1), Ok (s2, t2), Ok (s3, t3), Ok (s4, t4) =>
      tSwapped t1 = true /\ s1 <> freeStore /\ tSwapped t2 = false /\ tErr t2 = Some CasVersion /\ tSwapped t3 = true /\
      tSwapped t4 = false /\ tErr t4 = Some CasLeased
  | _, _, _, _ => False
  end.
Proof. vm_compute. repeat split; auto; discriminate. Qed.

(** A CAS whose comparison holds succeeds on a key without lease. *)
Theorem C45_cas_succeeds : forall drift now s t,
  qOp (tReq t) = Cas -> tErr t = None -> qTm (tReq t) <> 0 ->
  CasHolds (tReq t) (findLeaf s (qTable (tReq t)) (qKey (tReq t))) ->
  (forall l, findLeaf s (qTable (tReq t)) (qKey (tReq t)) = Some l ->
     lIndex l < qIndex (tReq t) /\ (lLeasor l = [] \/ lUntil l = 0)) ->
  exists s' t', apply drift now s t = Ok (s', t') /\ tSwapped t' = true.
Proof.
  intros drift now s t O E T Hc Fr. destruct (write_ok drift now s t (or_intror O) T) as (s' & t' & A). exists s', t'. split; [exact A|].
  pose proof (apply_cas _ _ _ _ _ _ O A) as C. destruct C as [F N|l e t1 F R Er V Sw1 D|s' t1 b _ W].
  - rewrite F in Hc. contradiction.
  - exfalso. rewrite F in Hc. destruct D as [(_ & Vl & _)|(_ & _ & D)]; [|contradiction].
    unfold validLease in Vl. apply andb_true_iff in Vl as (Vl & _). apply negb_true_iff, noLease_false in Vl as (V1 & V2).
    destruct (Fr l F) as (_ & [X|X]); contradiction.
  - apply wcase_inv in W as [(_ & _ & l & e & F & _ & Wf)|(_ & Er & _)].
    + exfalso. destruct (Fr l F) as (Ix & Nl). destruct Wf as [(_ & X)|[(_ & X & _)|(_ & X & _)]]; [lia| |];
        apply noLease_false in X as (X1 & X2); destruct Nl as [Nl|Nl]; contradiction.
    + cbn [setSwapped tSwapped]. now rewrite Er, E.
Qed.
Print Assumptions C45_cas_succeeds.

Example C45_cas_succeeds_ex : CasHolds (casReq 0 3 [] pB 300 0 8) (findLeaf freeStore T1 K1) /\
  match apply 10 0 freeStore (tk (casReq 0 3 [] pB 300 0 8) [2] [] 0 false) with Ok (_, t') => tSwapped t' = true | Panic => False end.
Proof. split; [|reflexivity]. cbn. split; [lia|]. split; [reflexivity|lia]. Qed.

(** Of all CAS for the same version of a key that is not deleted, one succeeds at
    most. *)
Theorem C45_one_winner : forall drift tab key s t s1 t1 s2 n now now' u s3 u3,
  tab <> dead -> Targets t tab key -> Targets u tab key ->
  qOp (tReq t) = Cas -> qOp (tReq u) = Cas -> tErr t = None -> tErr u = None -> tSwapped t = false -> tSwapped u = false ->
  0 < qOldVersion (tReq t) -> qOldVersion (tReq u) = qOldVersion (tReq t) ->
  findLeaf s tab key <> None ->
  apply drift now s t = Ok (s1, t1) -> tSwapped t1 = true ->
  history drift tab key s1 s2 n ->
  apply drift now' s2 u = Ok (s3, u3) -> tSwapped u3 = false.
Proof.
  intros drift tab key s t s1 t1 s2 n now now' u s3 u3 N (Ta & Ka) (Tb & Kb) Ot Ou Et Eu St Su V0 Ev F0 A1 W1 H A2.
  pose proof (C45_cas_atomic _ _ _ _ _ _ Ot Et St A1) as C1. cbn zeta in C1. rewrite W1, Ta, Ka in C1.
  destruct C1 as (Hc & _ & _ & l1 & F1 & _ & V1 & _).
  destruct (findLeaf s tab key) as [l|] eqn:F; [|contradiction]. destruct Hc as (Hc & _). specialize (Hc V0).
  destruct (history_mono _ _ _ _ _ _ _ N H F1) as (l2 & F2 & Pn & V2 & _).
  pose proof (C45_cas_atomic _ _ _ _ _ _ Ou Eu Su A2) as C2. cbn zeta in C2. rewrite Tb, Kb in C2.
  destruct (tSwapped u3); auto. destruct C2 as (Hc2 & _). rewrite F2 in Hc2. destruct Hc2 as (Hc2 & _). specialize (Hc2 ltac:(lia)). lia.
Qed.
Print Assumptions C45_one_winner.

Example C45_one_winner_ex :
  match apply 10 0 freeStore (tk (casReq 5 0 [] pA 300 0 8) [2] [] 0 false) with
  | Ok (s1, t1) => tSwapped t1 = true /\
      match apply 10 0 s1 (tk (casReq 5 0 [] pB 301 0 9) [4] [] 0 false) with
      | Ok (s2, t2) => tSwapped t2 = false /\ s2 = s1 /\ tCur t2 = [2]
      | Panic => False
      end
  | Panic => False
  end.
Proof. vm_compute. repeat split; reflexivity. Qed.

(** With a deletion in between, two can: the version starts again. *)
Theorem C45_one_winner_refuted : exists drift s log s' out,
  applyAll drift [] s log = Ok (s', out) /\
  map (fun t => (qOp (tReq t), qOldVersion (tReq t))) log = [(Cas, 1); (DeleteKey, 0); (Write, 0); (Cas, 1)] /\
  map tErr out = [None; None; None; None] /\ map tSwapped out = [true; false; false; true].
Proof.
  exists 10, [(T1, [(K1, mkLeaf [1] [] [] pA 100 0 7 1 1 false 0)])],
    [tk (casReq 1 0 [] pA 300 0 8) [2] [] 0 false; tk (rq DeleteKey T1 K1 pA 301 0 9) [] [] 0 false;
     tk (rq Write T1 K1 pA 302 0 10) [3] [] 0 false; tk (casReq 1 0 [] pB 303 0 11) [4] [] 0 false].
  eexists _, _. split; [vm_compute; reflexivity|]. repeat split; reflexivity.
Qed.
Print Assumptions C45_one_winner_refuted.

(** * C46: deletes *)

(** While the lease is in force, a delete under another name is refused. *)
Theorem C46_delete_refused_partial : forall drift now s t l,
  qOp (tReq t) = DeleteKey -> findLeaf s (qTable (tReq t)) (qKey (tReq t)) = Some l -> lAuto l = false ->
  InForce drift (qTm (tReq t)) l -> iLeasor (tInfo t) <> lLeasor l ->
  exists t', apply drift now s t = Ok (s, t') /\ tErr t' <> None.
Proof.
  intros drift now s t l O F Au I N. unfold apply. rewrite O. unfold doDeleteKey, readLeaf. rewrite F, (autoDeletes_auto _ _ _ Au).
  rewrite (inForce_noLease _ _ _ I). destruct (mget (qTable (tReq t)) s) as [m|] eqn:M; [|unfold findLeaf in F; rewrite M in F; discriminate].
  destruct (beqb_spec (lLeasor l) (iLeasor (tInfo t))) as [E|_]; [congruence|]. destruct I as (_ & _ & I).
  replace (lUntil l + drift <? qTm (tReq t)) with false by lia. eexists. split; [reflexivity|]. discriminate.
Qed.
Print Assumptions C46_delete_refused_partial.

Example C46_delete_refused_ex :
  match apply 10 0 exStore (tk (rq DeleteKey T1 K1 pB 210 0 8) [] bob 0 false) with
  | Ok (s', t') => s' = exStore /\ tErr t' = Some DeleteLeased | Panic => False end.
Proof. vm_compute. repeat split; reflexivity. Qed.

(** Otherwise the key goes, and no other key. *)
Theorem C46_delete_succeeds : forall drift now s t l,
  qOp (tReq t) = DeleteKey -> findLeaf s (qTable (tReq t)) (qKey (tReq t)) = Some l -> lAuto l = false ->
  ~ InForce drift (qTm (tReq t)) l \/ iLeasor (tInfo t) = lLeasor l ->
  exists s' t', apply drift now s t = Ok (s', t') /\ tErr t' = None /\
    findLeaf s' (qTable (tReq t)) (qKey (tReq t)) = None /\ OnlyAt (qTable (tReq t)) (qKey (tReq t)) s s'.
Proof.
  intros drift now s t l O F Au C. unfold apply. rewrite O. unfold doDeleteKey, readLeaf. rewrite F, (autoDeletes_auto _ _ _ Au).
  destruct (mget (qTable (tReq t)) s) as [m|] eqn:M; [|unfold findLeaf in F; rewrite M in F; discriminate].
  assert (K : findLeaf (delLeaf s (qTable (tReq t)) (qKey (tReq t))) (qTable (tReq t)) (qKey (tReq t)) = None /\
    OnlyAt (qTable (tReq t)) (qKey (tReq t)) s (delLeaf s (qTable (tReq t)) (qKey (tReq t)))).
  { split; [now rewrite find_del, !beqb_refl|]. intros tab' key' N. rewrite find_del.
    destruct (beqb_spec tab' (qTable (tReq t))) as [E1|]; cbn [andb]; auto. destruct (beqb_spec key' (qKey (tReq t))) as [E2|]; auto.
    congruence. }
  destruct (noLease l) eqn:Nl; [eexists _, _; split; [reflexivity|]; split; [reflexivity|exact K]|].
  destruct (beqb_spec (lLeasor l) (iLeasor (tInfo t))) as [E|E]; [eexists _, _; split; [reflexivity|]; split; [reflexivity|exact K]|].
  destruct (lUntil l + drift <? qTm (tReq t)) eqn:E1; [eexists _, _; split; [reflexivity|]; split; [reflexivity|exact K]|].
  exfalso. destruct C as [C|C]; [|congruence]. apply C. apply noLease_false in Nl as (N1 & N2). split; auto. split; auto. lia.
Qed.
Print Assumptions C46_delete_succeeds.

Example C46_delete_succeeds_ex :
  match apply 10 0 exStore (tk (rq DeleteKey T1 K1 pB 211 0 8) [] bob 0 false) with
  | Ok (s', t') => findLeaf s' T1 K1 = None /\ tErr t' = None | Panic => False end.
Proof. vm_compute. repeat split; reflexivity. Qed.

(** A lease in force protects neither from a peer of the same name, nor from
    deleting or renaming the table, nor, if the holder asked for auto-deletion,
    from a read in the time between its end and the end plus drift. *)
Theorem C46_delete_refused_refuted :
  exists drift l, let s := [(T1, [(K1, l)])] in lLeasor l = alice /\ lPeer l = pA /\
  (exists t s' t', qOp (tReq t) = DeleteKey /\ InForce drift (qTm (tReq t)) l /\ ~ Holder t l /\
     apply drift 0 s t = Ok (s', t') /\ tErr t' = None /\ findLeaf s' T1 K1 = None) /\
  (exists t s' t', qOp (tReq t) = DeleteTable /\ InForce drift (qTm (tReq t)) l /\ iLeasor (tInfo t) <> lLeasor l /\
     apply drift 0 s t = Ok (s', t') /\ tErr t' = None /\ findLeaf s' T1 K1 = None) /\
  (exists t s' t', qOp (tReq t) = RenameTable /\ InForce drift (qTm (tReq t)) l /\ iLeasor (tInfo t) <> lLeasor l /\
     apply drift 0 s t = Ok (s', t') /\ tErr t' = None /\ findLeaf s' T1 K1 = None) /\
  (exists t s' t', qOp (tReq t) = Read /\ InForce drift (qTm (tReq t)) l /\ iLeasor (tInfo t) <> lLeasor l /\
     apply drift (qTm (tReq t)) s t = Ok (s', t') /\ findLeaf s' T1 K1 = None).
Proof.
  exists 10, (mkLeaf [1; 1] [] alice pA 100 200 7 3 5 true 0). cbn zeta. split; [reflexivity|]. split; [reflexivity|].
  split; [|split; [|split]].
  - exists (tk (rq DeleteKey T1 K1 pB 150 0 8) [] alice 0 false). eexists _, _. split; [reflexivity|].
    split; [split; [discriminate|split; [discriminate|]]; cbn; lia|]. split; [intros (_ & X); discriminate|]. split; [reflexivity|]. split; reflexivity.
  - exists (tk (rq DeleteTable T1 [] pB 150 0 8) [] bob 0 false). eexists _, _. split; [reflexivity|].
    split; [split; [discriminate|split; [discriminate|]]; cbn; lia|]. split; [discriminate|]. split; [reflexivity|]. split; reflexivity.
  - exists (tk (mkReq RenameTable T1 [] pB 150 0 8 0 0 [] [120] [] false) [] bob 0 false). eexists _, _. split; [reflexivity|].
    split; [split; [discriminate|split; [discriminate|]]; cbn; lia|]. split; [discriminate|]. split; [reflexivity|]. split; reflexivity.
  - exists (tk (rq Read T1 K1 pB 205 0 8) [] bob 0 false). eexists _, _. split; [reflexivity|].
    split; [split; [discriminate|split; [discriminate|]]; cbn; lia|]. split; [discriminate|]. split; reflexivity.
Qed.
Print Assumptions C46_delete_refused_refuted.

(** * C47: reads and scans *)

Theorem C47_read : forall drift now s t,
  qOp (tReq t) = Read -> NoAuto s ->
  exists t', apply drift now s t = Ok (s, t') /\
    match findLeaf s (qTable (tReq t)) (qKey (tReq t)) with
    | None => tErr t' = Some KeyNotFound
    | Some l => tErr t' = None /\ tVal t' = lVal l /\
        tInfo t' = mkInfo (lVtype l) (lLeasor l) (lPeer l) (lT0 l) (lUntil l) (lEpoch l) (lIndex l) (lVersion l) (lAuto l)
    end.
Proof.
  intros drift now s t O N. unfold apply. rewrite O. unfold doReadKey. rewrite readLeaf_noauto by auto.
  destruct findLeaf; eexists; (split; [reflexivity|]); [split; [reflexivity|split; reflexivity]|reflexivity].
Qed.
Print Assumptions C47_read.

Example C47_read_ex : match apply 10 0 exStore (tk (rq Read T1 K1 pB 0 0 8) [] [] 0 false) with
  | Ok (_, t') => tVal t' = [1; 1] /\ iEpoch (tInfo t') = 3 | Panic => False end.
Proof. vm_compute. repeat split; reflexivity. Qed.

(** A range scan returns the keys of its range with their leaves, in order:
    upwards from the key to before the end, downwards from the key to before
    the end; an empty end is no bound. *)
Definition InRange (q : req) (k : bytes) : Prop :=
  if qDescend q then (qKey q = [] \/ ~ Blt (qKey q) k) /\ (qEndx q = [] \/ Blt (qEndx q) k)
  else ~ Blt k (qKey q) /\ (qEndx q = [] \/ Blt k (qEndx q)).

Lemma bcmp_dec : forall a b, geB a b = false <-> Blt a b.
Proof. intros. unfold geB, Blt. destruct (bcmp a b); split; congruence. Qed.

Lemma inRange_spec : forall q k,
  (if qDescend q then inDescend (qKey q) (qEndx q) k else inAscend (qKey q) (qEndx q) k) = true <-> InRange q k.
Proof.
  intros q k. unfold InRange. destruct (qDescend q).
  - unfold inDescend. rewrite andb_true_iff. destruct (qKey q) as [|x p], (qEndx q) as [|y e];
      rewrite ?negb_true_iff, ?geB_spec, ?bcmp_dec; intuition (try discriminate; auto).
  - unfold inAscend. rewrite andb_true_iff, geB_spec. destruct (qEndx q) as [|y e];
      rewrite ?negb_true_iff, ?bcmp_dec; intuition (try discriminate; auto).
Qed.

Lemma lcp_l : forall a b, exists r, a = lcp a b ++ r.
Proof.
  induction a as [|x a IH]; intros [|y b]; cbn [lcp]; try (eexists; reflexivity).
  destruct (x =? y); [|eexists; reflexivity]. destruct (IH b) as (r & E). exists r. cbn [app]. now rewrite <- E.
Qed.
Lemma lcp_r : forall a b, exists r, b = lcp a b ++ r.
Proof.
  induction a as [|x a IH]; intros [|y b]; cbn [lcp]; try (eexists; reflexivity).
  destruct (Z.eqb_spec x y) as [->|]; [|eexists; reflexivity]. destruct (IH b) as (r & E). exists r. cbn [app]. now rewrite <- E.
Qed.
Lemma lcp_pre : forall p a b, lcp (p ++ a) (p ++ b) = p ++ lcp a b.
Proof. induction p as [|x p IH]; intros; cbn [app lcp]; [reflexivity|]. rewrite Z.eqb_refl. now rewrite IH. Qed.
Lemma lcps_l : forall ks a, exists r, a = fold_left lcp ks a ++ r.
Proof.
  induction ks as [|k ks IH]; intros a; cbn [fold_left]; [exists []; now rewrite app_nil_r|].
  destruct (IH (lcp a k)) as (r & E). destruct (lcp_l a k) as (r' & E'). exists (r ++ r'). now rewrite app_assoc, <- E.
Qed.
Lemma lcps_in : forall ks a k, In k ks -> exists r, k = fold_left lcp ks a ++ r.
Proof.
  induction ks as [|k0 ks IH]; intros a k I; [contradiction|]. cbn [fold_left]. destruct I as [->|I]; [|now apply IH].
  destruct (lcps_l ks (lcp a k)) as (r & E). destruct (lcp_r a k) as (r' & E'). exists (r ++ r'). now rewrite app_assoc, <- E.
Qed.
Lemma lcps_pre : forall p ks a, (exists r, a = p ++ r) -> (forall k, In k ks -> exists r, k = p ++ r) -> exists r, fold_left lcp ks a = p ++ r.
Proof.
  intros p. induction ks as [|k ks IH]; intros a Ha H; [exact Ha|]. cbn [fold_left]. apply IH; [|intros; apply H; now right].
  destruct Ha as (r & ->). destruct (H k (or_introl eq_refl)) as (r' & ->). rewrite lcp_pre. eauto.
Qed.
Lemma leaves_spec : forall q p, leavesBelow q p = true <-> exists u c c' r r', q = u ++ c' :: r /\ p = u ++ c :: r' /\ c' < c.
Proof.
  induction q as [|x q IH]; intros p.
  - split; [discriminate|]. intros ([|] & c & c' & r & r' & E & _); discriminate.
  - destruct p as [|y p]; cbn [leavesBelow]; [split; [discriminate|]; intros ([|] & c & c' & r & r' & _ & E & _); discriminate|].
    destruct (Z.eqb_spec x y) as [->|N].
    + rewrite IH. split.
      * intros (u & c & c' & r & r' & -> & -> & L). now exists (y :: u), c, c', r, r'.
      * intros ([|z u] & c & c' & r & r' & E & E' & L); cbn [app] in E, E'; injection E as ? ?; injection E' as ? ?; [lia|]. subst. now exists u, c, c', r, r'.
    + rewrite Z.ltb_lt. split.
      * intros L. now exists [], y, x, q, p.
      * intros ([|z u] & c & c' & r & r' & E & E' & L); cbn [app] in E, E'; injection E as ? ?; injection E' as ? ?; subst; [exact L|congruence].
Qed.

Lemma lost_spec : forall q m, lost q m = true <-> BelowAll q m.
Proof.
  intros q m. unfold lost, BelowAll. destruct m as [|(k0, l0) [|(k1, l1) m]];
    [split; [destruct q; discriminate|intros (L & _); cbn in L; lia]|split; [destruct q; discriminate|intros (L & _); cbn in L; lia]|].
  cbn [map fst shared tl]. rewrite leaves_spec. split.
  - intros (u & c & c' & r & r' & -> & E & L). split; [cbn [length]; lia|]. exists u, c, c', r. repeat split; auto. intros k l I.
    assert (X : exists t, k = fold_left lcp (k1 :: map fst m) k0 ++ t).
    { destruct I as [[= <- <-]|I]; [apply lcps_l|]. apply lcps_in. destruct I as [[= <- <-]|I]; [now left|right; now apply (in_map fst) in I]. }
    destruct X as (t & ->). exists (r' ++ t). rewrite E, <- app_assoc. reflexivity.
  - intros (_ & p & c & c' & r & -> & L & H).
    destruct (lcps_pre (p ++ [c]) (k1 :: map fst m) k0) as (t & E).
    { destruct (H k0 l0 (or_introl eq_refl)) as (t & ->). exists t. now rewrite <- app_assoc. }
    { intros k [<-|I]; [destruct (H k1 l1) as (t & ->); [right; now left|exists t; now rewrite <- app_assoc]|].
      apply in_map_iff in I as ((k', l') & <- & I). cbn [fst]. destruct (H k' l') as (t & ->); [right; now right|exists t; now rewrite <- app_assoc]. }
    exists p, c, c', r, t. repeat split; auto. rewrite E, <- app_assoc. reflexivity.
Qed.

(** The bound a scan starts its search from must not be below all keys in that way. *)
Theorem C47_range_scan_partial : forall drift now s t m,
  qOp (tReq t) = ReadRange -> WfStore s -> NoAuto s -> mget (qTable (tReq t)) s = Some m ->
  ~ BelowAll (if qDescend (tReq t) then qEndx (tReq t) else qKey (tReq t)) m ->
  exists s' t' r, apply drift now s t = Ok (s', t') /\ tErr t' = None /\ tScan t' = Some r /\ SortedKeys r /\
    (forall k o, In (k, o) r <-> exists l, o = Some l /\ findLeaf s (qTable (tReq t)) k = Some l /\ InRange (tReq t) k) /\
    (forall tab key, findLeaf s' tab key = findLeaf s tab key).
Proof.
  intros drift now s t m O W N M B. unfold apply. rewrite O. unfold rangeScan. rewrite M.
  destruct (lost _ m) eqn:El; [apply lost_spec in El; contradiction|].
  rewrite (scan_of _ s _ _ _ _ W N M) by apply seen_incl.
  remember (filter (fun kl => if qDescend (tReq t) then inDescend (qKey (tReq t)) (qEndx (tReq t)) (fst kl)
                              else inAscend (qKey (tReq t)) (qEndx (tReq t)) (fst kl)) m) as seen eqn:Es.
  exists (ensureDead s). eexists. exists (somes seen). split; [reflexivity|]. split; [reflexivity|].
  split; [|split; [|split]].
  - cbn [setErr setScan tScan]. f_equal. subst seen. destruct (qDescend (tReq t)); [|reflexivity].
    rewrite somes_rev, rev_involutive. reflexivity.
  - unfold SortedKeys. rewrite somes_keys. subst seen. apply sorted_filter. now apply (proj2 W (qTable (tReq t))).
  - intros k o. rewrite somes_in. subst seen. split.
    + intros (l & -> & I). apply filter_In in I as (I & R). exists l. split; auto. split; [now apply (find_in s _ m)|]. now apply inRange_spec.
    + intros (l & -> & F & R). exists l. split; auto. apply filter_In. split; [now apply (find_in s (qTable (tReq t)) m)|]. now apply inRange_spec.
  - intros. apply find_ensureDead.
Qed.
Print Assumptions C47_range_scan_partial.

(** Otherwise nothing is found, whatever the range holds. *)
Theorem C47_range_scan_refuted : forall drift now s t m,
  qOp (tReq t) = ReadRange -> mget (qTable (tReq t)) s = Some m ->
  BelowAll (if qDescend (tReq t) then qEndx (tReq t) else qKey (tReq t)) m ->
  exists s' t', apply drift now s t = Ok (s', t') /\ tErr t' = None /\ tScan t' = Some [].
Proof.
  intros drift now s t m O M B. unfold apply. rewrite O. unfold rangeScan. rewrite M. apply lost_spec in B. rewrite B.
  cbn [scanLoop]. do 2 eexists. split; [reflexivity|]. split; [reflexivity|]. cbn [setErr setScan tScan rev]. now destruct (qDescend (tReq t)).
Qed.
Print Assumptions C47_range_scan_refuted.

Definition lf (v : Z) := mkLeaf [v] [] [] pA 100 0 7 1 1 false 0.
Definition scanStore : store := [(T1, [([97], lf 1); ([97; 98], lf 2); ([97; 99], lf 3); ([98], lf 4)])].
Definition scanReq o k e d := mkReq o T1 k pA 0 0 8 0 0 [] [] e d.
Example C47_range_scan_ex :
  match apply 10 0 scanStore (tk (scanReq ReadRange [97; 98] [98] false) [] [] 0 false),
        apply 10 0 scanStore (tk (scanReq ReadRange [97; 99] [97] true) [] [] 0 false) with
  | Ok (_, t), Ok (_, u) => tScan t = Some [([97; 98], Some (lf 2)); ([97; 99], Some (lf 3))] /\
                            tScan u = Some [([97; 98], Some (lf 2)); ([97; 99], Some (lf 3))]
  | _, _ => False
  end.
Proof. vm_compute. repeat split; reflexivity. Qed.

Definition belowStore : store := [(T1, [([98; 98], lf 1); ([98; 99], lf 2)])].
Example C47_range_scan_refuted_ex :
  BelowAll [97] [([98; 98], lf 1); ([98; 99], lf 2)] /\
  InRange (scanReq ReadRange [97] [] false) [98; 98] /\
  match apply 10 0 belowStore (tk (scanReq ReadRange [97] [] false) [] [] 0 false) with
  | Ok (_, t) => tScan t = Some [] | Panic => False end.
Proof.
  split; [apply lost_spec; vm_compute; reflexivity|]. split; [|vm_compute; reflexivity].
  apply inRange_spec. vm_compute. reflexivity.
Qed.

(** Burying an expired leaf on the way can end a scan before its time: here of
    three keys the first is expired, and the two others are not returned. *)
Definition expiredStore : store :=
  putLeaf (putLeaf (putLeaf [] T1 [97] (mkLeaf [5] [] [9] pA 100 200 7 1 1 true 0)) T1 [98; 98] (lf 1)) T1 [98; 99] (lf 2).
Theorem C47_scan_auto_delete_refuted : exists drift now s t s' t',
  WfStore s /\ qOp (tReq t) = ReadRange /\ qKey (tReq t) = [] /\ qEndx (tReq t) = [] /\
  apply drift now s t = Ok (s', t') /\ tErr t' = None /\ tScan t' = Some [] /\
  findLeaf s' (qTable (tReq t)) [98; 98] = Some (lf 1) /\ findLeaf s' (qTable (tReq t)) [98; 99] = Some (lf 2).
Proof.
  eexists 10, 1000, expiredStore, (tk (scanReq ReadRange [] [] false) [] [] 0 false), _, _.
  split; [do 3 apply wf_put; split; [constructor|discriminate]|].
  do 3 (split; [reflexivity|]). split; [vm_compute; reflexivity|]. vm_compute. auto.
Qed.
Print Assumptions C47_scan_auto_delete_refuted.

(** An ascending prefix scan returns exactly the keys with the prefix. *)
Theorem C47_prefix_scan_partial : forall drift now s t m,
  qOp (tReq t) = ReadPrefix -> qDescend (tReq t) = false -> WfStore s -> NoAuto s -> mget (qTable (tReq t)) s = Some m ->
  exists s' t' r, apply drift now s t = Ok (s', t') /\ tErr t' = None /\ tScan t' = Some r /\ SortedKeys r /\
    (forall k o, In (k, o) r <-> exists l, o = Some l /\ findLeaf s (qTable (tReq t)) k = Some l /\ IsPrefix (qKey (tReq t)) k) /\
    (forall tab key, findLeaf s' tab key = findLeaf s tab key).
Proof.
  intros drift now s t m O D W N M. unfold apply. rewrite O. unfold prefixScan. rewrite M, D.
  assert (Sm : SortedKeys m) by now apply (proj2 W (qTable (tReq t))).
  remember (takePrefix (qKey (tReq t)) (filter (fun kl => inAscend (qKey (tReq t)) [] (fst kl)) m)) as seen eqn:Es.
  assert (Ef : seen = filter (fun kl => hasPrefix (qKey (tReq t)) (fst kl)) (filter (fun kl => inAscend (qKey (tReq t)) [] (fst kl)) m)).
  { rewrite Es. apply takePrefix_filter; [now apply sorted_filter|]. intros k l I. apply filter_In in I as (_ & I). cbn [fst] in I.
    unfold inAscend in I. rewrite andb_true_r in I. now apply geB_spec. }
  assert (Inc : incl seen m). { rewrite Ef. intros x I. apply filter_In in I as (I & _). now apply filter_In in I as (I & _). }
  rewrite (scan_of _ s _ _ _ _ W N M Inc). exists (ensureDead s). eexists. exists (somes seen). split; [reflexivity|]. split; [reflexivity|].
  split; [reflexivity|]. split; [|split].
  - unfold SortedKeys. rewrite somes_keys, Ef. now apply sorted_filter, sorted_filter.
  - intros k o. rewrite somes_in, Ef. split.
    + intros (l & -> & I). apply filter_In in I as (I & R). cbn [fst] in R. apply filter_In in I as (I & _). exists l. split; auto.
      split; [now apply (find_in s _ m)|]. now apply hasPrefix_spec.
    + intros (l & -> & F & R). exists l. split; auto. apply hasPrefix_spec in R. apply filter_In. split; [|exact R].
      apply filter_In. split; [now apply (find_in s (qTable (tReq t)) m)|]. cbn [fst]. unfold inAscend. rewrite andb_true_r. now apply prefix_ge.
  - intros. apply find_ensureDead.
Qed.
Print Assumptions C47_prefix_scan_partial.

Example C47_prefix_scan_ex :
  match apply 10 0 scanStore (tk (scanReq ReadPrefix [97] [] false) [] [] 0 false) with
  | Ok (_, t) => tScan t = Some [([97], Some (lf 1)); ([97; 98], Some (lf 2)); ([97; 99], Some (lf 3))]
  | Panic => False
  end.
Proof. vm_compute. reflexivity. Qed.

(** A descending one starts at the prefix itself and so finds no longer key. *)
Theorem C47_prefix_scan_refuted : forall drift now s t s' t' r k o,
  qOp (tReq t) = ReadPrefix -> qDescend (tReq t) = true -> qKey (tReq t) <> [] -> WfStore s -> NoAuto s ->
  apply drift now s t = Ok (s', t') -> tScan t' = Some r -> In (k, o) r -> k = qKey (tReq t).
Proof.
  intros drift now s t s' t' r k o O D Ne W N A R I. unfold apply in A. rewrite O in A. unfold prefixScan in A. rewrite D in A.
  destruct (mget (qTable (tReq t)) s) as [m|] eqn:M; [|injection A as <- <-; discriminate].
  remember (takePrefix (qKey (tReq t)) (rev (filter (fun kl => inDescend (qKey (tReq t)) [] (fst kl)) m))) as seen eqn:Es.
  assert (Inc : forall k l, In (k, l) seen -> hasPrefix (qKey (tReq t)) k = true /\ In (k, l) (filter (fun kl => inDescend (qKey (tReq t)) [] (fst kl)) m)).
  { subst seen. clear. intros k l I.
    assert (X : forall ls, In (k, l) (takePrefix (qKey (tReq t)) ls) -> hasPrefix (qKey (tReq t)) k = true).
    { induction ls as [|(k0, l0) ls IH]; cbn [takePrefix]; intros J; [contradiction|].
      destruct (hasPrefix (qKey (tReq t)) k0) eqn:E; [|contradiction]. destruct J as [[= -> ->]|J]; auto. }
    split; [eauto|]. apply takePrefix_incl in I. now rewrite <- in_rev in I. }
  assert (Inc2 : incl seen m). { intros (k0, l0) J. apply Inc in J as (_ & J). now apply filter_In in J as (J & _). }
  rewrite (scan_of _ s _ _ _ _ W N M Inc2) in A. injection A as <- <-. cbn [setErr setScan tScan] in R. injection R as <-.
  rewrite <- in_rev in I. apply somes_in in I as (l & _ & I). apply Inc in I as (P & I). apply filter_In in I as (_ & I). cbn [fst] in I.
  unfold inDescend in I. destruct (qKey (tReq t)) as [|x p] eqn:Ek; [contradiction|]. rewrite andb_true_r in I. now apply prefix_le_eq.
Qed.
Print Assumptions C47_prefix_scan_refuted.

Example C47_prefix_scan_refuted_ex :
  match apply 10 0 scanStore (tk (scanReq ReadPrefix [97] [] true) [] [] 0 false) with
  | Ok (_, t) => tScan t = Some [([97], Some (lf 1))]
  | Panic => False
  end.
Proof. vm_compute. reflexivity. Qed.

(** * C48: the store is saved and merged *)

(** Whatever order the Go map is ranged over in, the loaded store is the saved one. *)
Theorem C48_save_load : forall s order, WfStore s -> Permutation s order ->
  postLoad [] (fst (preSave order)) (snd (preSave order)) = Ok s.
Proof.
  intros s order W P. unfold preSave. cbn [fst snd]. pose proof (sorted_nodup _ _ (proj1 W)) as Nd.
  assert (Nd' : NoDup (map fst order)) by (eapply Permutation_NoDup; [apply Permutation_map; exact P|exact Nd]).
  destruct (postLoad_get order [] [] Nd') as (m' & E & _). rewrite E. f_equal. apply sorted_ext.
  - eapply postLoad_sorted; [|exact E]. constructor.
  - apply W.
  - intros k. destruct (postLoad_get order [] k Nd') as (m2 & E2 & G). rewrite E in E2. injection E2 as <-. rewrite G.
    rewrite (mget_perm _ s order k Nd P). now destruct (mget k s).
Qed.
Print Assumptions C48_save_load.

Example C48_save_load_ex :
  let s := [([1], [(K1, exLeaf)]); (T1, [([97], lf 1)])] in
  Permutation s (rev s) /\ postLoad [] (fst (preSave (rev s))) (snd (preSave (rev s))) = Ok s.
Proof. cbn zeta. split; [apply Permutation_rev|]. vm_compute. reflexivity. Qed.

(** A merge takes every key of the other store and keeps the rest. *)
Theorem C48_merge : forall s r tab key, WfStore r ->
  findLeaf (merge s r) tab key = match findLeaf r tab key with Some l => Some l | None => findLeaf s tab key end.
Proof.
  intros s r tab key W. apply merge_get; [apply sorted_nodup, W|]. intros t m I. apply sorted_nodup. apply (proj2 W t).
  apply sorted_get; [apply W|exact I].
Qed.
Print Assumptions C48_merge.

Example C48_merge_ex : findLeaf (merge exStore scanStore) T1 K1 = Some exLeaf /\ findLeaf (merge exStore scanStore) T1 [98] = Some (lf 4) /\
  findLeaf (merge exStore freeStore) T1 K1 <> Some exLeaf.
Proof. vm_compute. repeat split; try reflexivity. discriminate. Qed.
