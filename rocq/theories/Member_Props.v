(** Properties C34, C50 and C51: membership changes. *)
From Coq Require Import List Arith Bool Lia.
From Verif Require Import Base Member_Model Member_Spec Member_Gate Member_Tree Member_Abs Member_Inv Member_Overlap Member_Refine Member_Change.
Import ListNotations.

(** * C34: quorums intersect across a change. *)

(** The size the code asks for is that of a majority. *)
Theorem C34_majority : forall m Q, NoDup Q -> incl Q m -> m <> [] ->
  (majorityOf m Q <-> majority m <= length Q).
Proof.
  intros m Q N I Ne. assert (E : majority m <> 0) by (rewrite majority_0; auto). pose proof (majority_half m E) as H.
  unfold majorityOf. split; [intros (_ & _ & L)|intros L; repeat split; auto]; [|lia].
  unfold majority in *. destruct (length m =? 0) eqn:Z; [congruence|].
  pose proof (Nat.div_mod (length m) 2 ltac:(lia)). pose proof (Nat.mod_upper_bound (length m) 2 ltac:(lia)). lia.
Qed.
Print Assumptions C34_majority.
Example C34_majority_ex : majorityOf [1; 2; 3; 4] [4; 1; 3] /\ ~ majorityOf [1; 2; 3; 4] [1; 2].
Proof.
  split.
  - apply C34_majority; [repeat constructor; simpl; lia|intros x; simpl; tauto|discriminate|simpl; auto].
  - intros (_ & _ & H). simpl in H. lia.
Qed.

(** The overlap test accepts two sets exactly when every majority of one meets every
    majority of the other. *)
Theorem C34_overlap_exact : forall cur new, NoDup cur -> NoDup new ->
  (quorumsOverlap cur new = true <-> meets cur new).
Proof. intros cur new A B. split; [apply overlap_meets; auto|apply meets_overlap; auto]. Qed.
Print Assumptions C34_overlap_exact.
Example C34_overlap_ex :
  quorumsOverlap [1; 2; 3] [2; 3; 4] = false /\ quorumsOverlap [1; 2; 3; 4] [3; 1; 2] = true.
Proof. split; reflexivity. Qed.

(** Adding or removing one member always passes the test, and keeps the members distinct. *)
Theorem C34_single_change : forall m ch new, NoDup m -> changed m ch = Some new ->
  NoDup new /\ meets m new /\ quorumsOverlap m new = true /\
  forall x, In x new <-> match ch with Add y => In x m \/ x = y | Remove y => In x m /\ x <> y end.
Proof.
  intros m ch new N H. pose proof (changed_nodup _ _ _ N H) as N'. pose proof (changed_meets _ _ _ N H) as M.
  split; auto. split; auto. split; [apply meets_overlap; auto|].
  intros x. destruct ch as [y|y]; simpl in H.
  - injection H as <-. destruct (has m y) eqn:E; [apply hasIn in E|].
    + split; auto. intros [|H]; [auto|subst]; auto.
    + rewrite in_app_iff. simpl. split; [intros [|[|[]]]; auto|intros [|]; auto].
  - destruct (has m y); [|discriminate]. injection H as <-. rewrite filter_In, negb_true_iff, Nat.eqb_neq. tauto.
Qed.
Print Assumptions C34_single_change.
Example C34_single_ex : changed [1; 2; 3] (Remove 2) = Some [1; 3] /\ changed [1; 3] (Add 7) = Some [1; 3; 7].
Proof. split; reflexivity. Qed.

(** In every reachable state of every schedule, with any crashes: when a leader changes the
    members, it adds or removes one member, the members stay distinct, and every majority
    of the old members meets every majority of the new. *)
Definition any (g : gstate) (n : nat) (ev : nevent) (cut : option nat) : Prop := True.
Theorem C34_reachable : forall v founders g n ev m effs, NoDup founders ->
  reaches any (ginit v founders) g -> isChange ev ->
  handle (g_net g) n (g_node g n) ev = Some (m, effs) ->
  let old := c_mem (cfgOf g n) in let new := c_mem (p_cfg (m_p m)) in
  NoDup old /\ NoDup new /\ meets old new /\
  exists ch, forall x, In x new <-> match ch with Add y => In x old \/ x = y | Remove y => In x old /\ x <> y end.
Proof.
  intros v founders g n ev m effs N R C H old new. destruct (reach_nd _ _ _ _ N R) as (A & _). destruct (A n) as (A1 & _).
  destruct (handle_change _ _ _ _ _ _ C H) as (m1 & live & ch & Ep & Hc).
  destruct (change_shape _ _ _ _ _ _ Hc) as (nw & C1 & C2 & _). rewrite Ep in C1. fold (cfgOf g n) in C1. fold old in C1. fold new in C2.
  destruct (C34_single_change old ch nw A1 C1) as (X1 & X2 & _ & X3). rewrite C2. split; auto. split; auto. split; auto. exists ch. auto.
Qed.
Print Assumptions C34_reachable.

(** What a leader has checked when it changes the members, in any schedule at all: it has
    committed an entry of its own term, a majority of the old members last reported its
    configuration (or are the leader itself), and a majority last reported its term.
    (These are two majorities: see G5.) *)
Theorem C50_change_gate : forall v founders g n ev m effs, NoDup founders ->
  reaches any (ginit v founders) g -> isChange ev ->
  handle (g_net g) n (g_node g n) ev = Some (m, effs) ->
  let old := cfgOf g n in
  m_role (n_mem (g_node g n)) = Leader /\ m_noopOk (n_mem (g_node g n)) = true /\
  (c_mem old <> [] ->
   (exists Q, majorityOf (c_mem old) Q /\ forall x, In x Q ->
      x = n \/ exists c' t', lookup x (m_seen m) = Some (c', t') /\ versionEqual c' old = true) /\
   (exists Q, majorityOf (c_mem old) Q /\ forall x, In x Q ->
      x = n \/ exists c', lookup x (m_seen m) = Some (c', termOf g n))).
Proof.
  intros v founders g n ev m effs N R C H old. destruct (reach_nd _ _ _ _ N R) as (A & _). destruct (A n) as (A1 & _).
  assert (forall m1 live ch, m_p m1 = m_p (n_mem (g_node g n)) -> m_role m1 = m_role (n_mem (g_node g n)) ->
    m_noopOk m1 = m_noopOk (n_mem (g_node g n)) -> changeMembership n m1 live ch = Some (m, effs) ->
    m_role (n_mem (g_node g n)) = Leader /\ m_noopOk (n_mem (g_node g n)) = true /\
    (c_mem old <> [] ->
     (exists Q, majorityOf (c_mem old) Q /\ forall x, In x Q ->
        x = n \/ exists c' t', lookup x (m_seen m) = Some (c', t') /\ versionEqual c' old = true) /\
     (exists Q, majorityOf (c_mem old) Q /\ forall x, In x Q ->
        x = n \/ exists c', lookup x (m_seen m) = Some (c', termOf g n)))) as G.
  { intros m1 live ch E1 E2 E3 X. destruct (gate n m1 live ch m effs) as (B1 & B2 & B3 & B4); [rewrite E1; exact A1|exact X|].
    rewrite E2 in B1. rewrite E3 in B2. rewrite <- B3, E1 in B4. auto. }
  destruct ev; try contradiction; cbn in H.
  - destruct (nth_error (g_net g) k) as [x|]; [|discriminate]. destruct (msg_to x =? n); [|discriminate].
    eapply G; [| | |exact H]; unfold seenMsg; destruct (report x) as [[[q c] t]|]; reflexivity.
  - eapply G; [| | |exact H]; reflexivity.
Qed.
Print Assumptions C50_change_gate.

(** And when it takes the first entry of its term (noop0) for committed, it is a member, and
    a majority of the members hold that entry, by acks to it in its term. *)
Theorem C50_noop_stored : forall v founders g n ev g1 T, NoDup founders ->
  reaches any (ginit v founders) g -> isLeaderAt g n T -> step g n ev None = Some g1 -> isLeaderAt g1 n T ->
  let m := n_mem (g_node g n) in
  m_noopOk m = false -> m_noopOk (n_mem (g_node g1 n)) = true ->
  exists Q, majorityOf (c_mem (cfgOf g n)) Q /\ forall x, In x Q ->
    x = n \/ exists i k mc, m_noop m <= k /\ In (Ack (x, i) n (n, m_inc m) T k mc) (g_net g).
Proof.
  intros v founders g n ev g1 T N R [L LT] S [L1 LT1] m O O1. destruct (reach_nd _ _ _ _ N R) as (A & _). destruct (A n) as (A1 & _).
  pose proof (reach_good _ _ _ _ R n) as G. pose proof (reach_outward _ _ _ _ R) as W.
  unfold step in S. destruct (handle (g_net g) n (g_node g n) ev) as [[m1 effs]|] eqn:EH; [|discriminate]. injection S as <-.
  cbn in O1, L1. unfold upd in O1, L1. rewrite Nat.eqb_refl in O1, L1. cbn in O1, L1.
  pose proof (handle_good _ _ _ _ _ _ G EH) as G1.
  destruct (noop_turn _ _ _ _ _ _ EH L L1 O O1) as (k & o & -> & nf & m2 & B1 & B2 & B3 & B4 & B5 & B6 & B7 & B8 & B9 & BA).
  assert (good (g_net g) n m2) as G2.
  { destruct G1 as (X1 & X2 & X3). destruct G as (_ & (_ & Y1 & Y2) & _). unfold good, matchOk, memOk, distinct.
    split; [|split].
    - intros _. rewrite B7, B5, B4. intros x j J K. unfold matchOk in X1. rewrite B8, B9, B4, B5 in X1. exact (X1 L1 x j J K).
    - rewrite B3, B4, B6. split; [discriminate|]. split; [intros _ _; apply Y1; assumption|intros _; apply Y2; exact L].
    - rewrite B7. exact X3. }
  destruct (noop_majority (g_net g) n m2 nf G2 B3 B1) as (Q & Q1 & Q2); [rewrite B4; exact A1| | |exact B2|].
  - destruct G2 as (_ & (_ & Y & _) & _). apply Y; assumption.
  - intros j NJ J. destruct G2 as (Z & _). destruct (Z B3 n j J NJ) as (i & j' & mc & _ & K). apply W in K. cbn in K. congruence.
  - exists Q. rewrite B4, B5, B6 in *. split; [exact Q1|]. unfold termOf in LT. rewrite LT in Q2. exact Q2.
Qed.
Print Assumptions C50_noop_stored.


(** * C50: one leader per term, under membership changes. *)

(** Schedules written as lists, for the examples. *)
Definition o : opts := mkO true false false true.
Definition e (n : nat) (ev : nevent) : gevent := (n, ev, None).
Definition r (n k : nat) : gevent := (n, NRecv k o, None).
Definition crash (n k : nat) (cut : nat) : gevent := (n, NRecv k o, Some cut).

Lemma run_reaches : forall ok evs g0 g g', reaches ok g0 g ->
  (forall h n ev cut, In (n, ev, cut) evs -> ok h n ev cut) -> run g evs = Some g' -> reaches ok g0 g'.
Proof.
  intros ok evs. induction evs as [|((n & ev) & cut) evs IH]; intros g0 g g' R H E; simpl in E; [injection E as <-; auto|].
  destruct (step g n ev cut) as [g1|] eqn:S; [|discriminate].
  eapply IH; [|intros; apply H; right; auto|exact E]. eapply reaches_step; eauto. apply H. left. auto.
Qed.
Definition final (g : gstate) (evs : list gevent) : gstate := match run g evs with Some g' => g' | None => g end.
Definition runs (g : gstate) (evs : list gevent) : bool := match run g evs with Some _ => true | None => false end.
Definition leaderb (g : gstate) (n T : nat) : bool :=
  is_leader (m_role (n_mem (g_node g n))) && (termOf g n =? T).
Lemma leaderb_ok : forall g n T, leaderb g n T = true -> isLeaderAt g n T.
Proof.
  intros g n T H. apply andb_true_iff in H. destruct H as (A & B). apply Nat.eqb_eq in B. split; auto.
  destruct (m_role (n_mem (g_node g n))); try discriminate; auto.
Qed.
(** The guards, checked along a run without crashes. *)
Definition vouchb (m : mem) (n : nat) (c : conf) (T x : nat) : bool :=
  (x =? n) || match lookup x (m_seen m) with Some (c', t) => (t =? T) && versionEqual c' c | None => false end.
Definition isChangeb (ev : nevent) : bool := match ev with NSeen _ _ _ => true | NChange _ _ => true | _ => false end.
Fixpoint nodupb (l : list nat) : bool := match l with [] => true | x :: k => negb (has k x) && nodupb k end.
Definition vouchedb (g : gstate) (n : nat) (ev : nevent) : bool :=
  if isChangeb ev then
    match handle (g_net g) n (g_node g n) ev with
    | Some (m, _) =>
        let c := cfgOf g n in
        let Q := filter (vouchb m n c (termOf g n)) (c_mem c) in
        nodupb Q && (length (c_mem c) <? 2 * length Q)
    | None => true
    end
  else true.
Lemma nodupb_ok : forall l, nodupb l = true -> NoDup l.
Proof.
  induction l as [|x l IH]; simpl; intros H; constructor; apply andb_true_iff in H; destruct H as (A & B); auto.
  apply negb_true_iff in A. intros X. apply hasIn in X. congruence.
Qed.
Lemma vouchedb_ok : forall g n ev, vouchedb g n ev = true -> vouched g n ev.
Proof.
  intros g n ev H m effs C E. unfold vouchedb in H. replace (isChangeb ev) with true in H by (destruct ev; auto; contradiction).
  rewrite E in H. cbv zeta in H. apply andb_true_iff in H. destruct H as (A & B). apply nodupb_ok in A. apply Nat.ltb_lt in B.
  eexists. split; [split; [exact A|split; [|exact B]]|].
  - intros x Hx. apply filter_In in Hx. tauto.
  - intros x Hx. apply filter_In in Hx. destruct Hx as (_ & V). unfold vouchb in V. apply orb_true_iff in V. destruct V as [V|V].
    + left. apply Nat.eqb_eq; auto.
    + right. destruct (lookup x (m_seen m)) as [(c' & t)|]; [|discriminate]. apply andb_true_iff in V. destruct V as (V1 & V2).
      apply Nat.eqb_eq in V1. subst t. eauto.
Qed.
Fixpoint grun (g : gstate) (evs : list gevent) : option gstate :=
  match evs with
  | [] => Some g
  | (n, ev, None) :: k => if vouchedb g n ev then match step g n ev None with Some g' => grun g' k | None => None end else None
  | _ => None
  end.
Lemma grun_reaches : forall evs g0 g g', reaches guarded g0 g -> grun g evs = Some g' -> reaches guarded g0 g'.
Proof.
  induction evs as [|((n & ev) & [cut|]) evs IH]; intros g0 g g' R E; simpl in E; [injection E as <-; auto|discriminate|].
  destruct (vouchedb g n ev) eqn:V; [|discriminate]. destruct (step g n ev None) as [g1|] eqn:S; [|discriminate].
  eapply IH; [|exact E]. eapply reaches_step; eauto. split; [exact Logic.I|]. apply vouchedb_ok; auto.
Qed.

(** Under the guards G4 (no crash between a handler's outside effects and the save of its
    new term) and G5 (a change is vouched for by a majority, configuration and term in one
    report), no term has two leaders: not two nodes, nor two lives of one node. *)
Theorem C50_one_leader_partial : forall v founders g p q T, NoDup founders ->
  reaches guarded (ginit v founders) g -> hasLed g p T -> hasLed g q T -> p = q.
Proof. intros v founders g p q T. apply one_leader. Qed.
Print Assumptions C50_one_leader_partial.

(** Three members elect node 0, it adds node 3 and then removes itself; node 3 is elected
    by the new members. *)
Definition growth : list gevent :=
  [e 0 NPreVote; r 1 0; r 0 2; e 0 NElect; r 1 3; r 0 5; r 1 6; r 2 7; r 0 8; r 0 9;
   e 0 (NChange [1; 2] (Add 3)); e 0 (NHeartbeat 1); e 0 (NHeartbeat 2); e 0 (NHeartbeat 3);
   r 1 10; r 2 11; r 3 12; r 0 13; r 0 14; r 0 15;
   e 0 (NChange [1; 2; 3] (Remove 0)); e 0 (NHeartbeat 3); r 3 16; r 0 17; e 0 NStepDown;
   e 3 NPreVote; r 1 18; r 3 20; e 3 NElect; r 1 21; r 3 23].
Definition gstart : gstate := ginit 1 [0; 1; 2].
Definition gend (evs : list gevent) : gstate := match grun gstart evs with Some g => g | None => gstart end.
Example C50_one_leader_ex : exists g, reaches guarded (ginit 1 [0; 1; 2]) g /\
  hasLed g (0, 0) 1 /\ hasLed g (3, 0) 2 /\ c_mem (cfgOf g 3) = [1; 2; 3].
Proof.
  exists (gend growth). split; [|split; [|split]].
  - eapply (grun_reaches growth gstart gstart); [constructor|]. unfold gend. 
    assert (X : match grun gstart growth with Some _ => true | None => false end = true) by (vm_compute; reflexivity).
    destruct (grun gstart growth); [reflexivity|discriminate].
  - right. exists 1, [1], (stamp 1 (0, 0) (foundC 1 [0; 1; 2])). vm_compute. tauto.
  - left. split; [apply leaderb_ok; vm_compute; reflexivity|vm_compute; reflexivity].
  - vm_compute. reflexivity.
Qed.

(** In this run node 0 takes its noop0 for committed at the second ack, and its first
    change passes the gate. *)
Definition noopAfter (k : nat) : option bool := option_map (fun g => m_noopOk (n_mem (g_node g 0))) (run gstart (firstn k growth)).
Example C50_gate_ex :
  map noopAfter [6; 7; 8; 9] = [Some false; Some false; Some false; Some true] /\
  match run gstart (firstn 10 growth) with
  | Some g => match handle (g_net g) 0 (g_node g 0) (NChange [1; 2] (Add 3)) with Some _ => true | None => false end
  | None => false
  end = true.
Proof. vm_compute. auto. Qed.

(** Without G5: the code counts the members that report its configuration (Q1) and those
    that report its term (Q2) separately.  Six nodes, no crash: node 0's change counts
    node 2 for the first although node 2 has gone on to term 3, and two stale reports for
    the second.  Nodes 0 and 1 then both lead term 4. *)
Definition splitCounts : list gevent :=
  [e 0 NPreVote; r 1 0; r 0 4; r 2 1; r 0 5; e 0 NElect; r 1 6; r 0 10; r 2 7; r 0 11;
   r 1 12; r 0 16; r 2 13; r 0 17; r 4 14; r 0 18; r 5 15; r 0 19;
   e 0 (NChange [1; 2; 4; 5] (Add 3)); e 0 (NHeartbeat 3); r 3 20; r 0 21; e 0 (NHeartbeat 5); r 5 22; r 0 23;
   e 3 NPreVote; r 2 26; r 3 29; r 4 27; r 3 30; r 5 28; r 3 31;
   e 1 NPreVote; r 2 33; r 1 36; r 4 34; r 1 37; e 1 NElect; r 2 39; r 1 42; r 4 40; r 1 43;
   e 3 NElect; r 5 52; r 3 53; e 3 NPreVote; r 2 56; r 3 59; r 4 57; r 3 60; r 5 58; r 3 61; e 3 NElect; r 2 64;
   e 0 (NHeartbeat 2); r 2 68; e 0 (NSeen 69 [1; 2; 3; 4; 5] (Remove 4)); r 0 69;
   e 1 NStepDown; e 1 NPreVote; r 4 72; r 1 74; r 5 73; r 1 75; e 1 NElect;
   e 1 NPreVote; r 4 82; r 1 84; r 5 83; r 1 85; e 1 NElect; r 2 87; r 1 90; r 4 88; r 1 91;
   e 0 NPreVote; r 3 99; r 0 100; r 5 98; r 0 101; e 0 NElect; r 3 105; r 0 106; r 5 104; r 0 107].
Lemma two_lead : forall v founders evs p q T, p <> q ->
  (forall n ev cut, In (n, ev, cut) evs -> cut = None) ->
  runs (ginit v founders) evs = true ->
  leaderb (final (ginit v founders) evs) p T = true -> leaderb (final (ginit v founders) evs) q T = true ->
  exists g, reaches crashOk (ginit v founders) g /\ isLeaderAt g p T /\ isLeaderAt g q T /\ p <> q.
Proof.
  intros v founders evs p q T N C R A B. exists (final (ginit v founders) evs). split; [|split; [|split]]; auto using leaderb_ok.
  unfold runs, final in *. destruct (run (ginit v founders) evs) as [g|] eqn:E; [|discriminate].
  eapply run_reaches; [constructor| |exact E]. intros h n ev cut H. apply C in H. subst cut. exact Logic.I.
Qed.
Ltac noCut := let H := fresh in intros n ev cut H; simpl in H;
  repeat (destruct H as [H|H]; [injection H as _ _ <-; reflexivity|]); contradiction.
Theorem C50_split_counts_refuted : exists g, reaches crashOk (ginit 1 [0; 1; 2; 4; 5]) g /\
  isLeaderAt g 0 4 /\ isLeaderAt g 1 4 /\ 0 <> 1.
Proof. apply (two_lead 1 [0; 1; 2; 4; 5] splitCounts); [lia|noCut|vm_compute; reflexivity|vm_compute; reflexivity|vm_compute; reflexivity]. Qed.
Print Assumptions C50_split_counts_refuted.

(** Without G5, through the empty set: a leader may remove every member, which leaves a set
    whose majority is 0, and then add a newcomer nobody else knows of. Nodes 1 and 2 both
    lead term 2. *)
Definition viaEmpty : list gevent :=
  [e 0 NPreVote; r 1 0; r 0 1; e 0 NElect; r 1 2; r 0 3; r 1 4; r 0 5;
   e 0 (NChange [1] (Remove 0)); e 0 (NHeartbeat 1); r 1 6; e 0 (NSeen 7 [1] (Remove 1)); r 0 7;
   e 0 (NChange [] (Add 2)); e 0 (NHeartbeat 2); r 2 8; e 1 NPreVote; e 1 NElect; e 2 NPreVote; e 2 NElect].
Theorem C50_empty_refuted : exists g, reaches crashOk (ginit 1 [0; 1]) g /\
  isLeaderAt g 1 2 /\ isLeaderAt g 2 2 /\ 1 <> 2.
Proof. apply (two_lead 1 [0; 1] viaEmpty); [lia|noCut|vm_compute; reflexivity|vm_compute; reflexivity|vm_compute; reflexivity]. Qed.
Print Assumptions C50_empty_refuted.

(** Without G4: becomeLeader saves its state after the first AppendEntries are out. A node
    that crashes in between is back in its old term and can be elected to the same term
    again, by the other half. *)
Definition onlyVouched (g : gstate) (n : nat) (ev : nevent) (cut : option nat) : Prop := vouched g n ev.
Definition twice : list gevent :=
  [e 0 NPreVote; r 1 0; r 0 4; r 2 1; r 0 5; e 0 NElect; r 1 6; r 0 10; r 2 7; crash 0 11 2;
   e 0 NPreVote; r 3 15; r 0 17; r 4 16; r 0 18; e 0 NElect; r 3 21; r 0 23; r 4 22; r 0 24].
Theorem C50_crash_refuted : exists g, reaches onlyVouched (ginit 1 [0; 1; 2; 3; 4]) g /\
  hasLed g (0, 0) 1 /\ hasLed g (0, 1) 1 /\ (0, 0) <> (0, 1).
Proof.
  exists (final (ginit 1 [0; 1; 2; 3; 4]) twice). split; [|split; [|split]].
  - assert (X : runs (ginit 1 [0; 1; 2; 3; 4]) twice = true) by (vm_compute; reflexivity).
    unfold runs, final in *. destruct (run (ginit 1 [0; 1; 2; 3; 4]) twice) as [g|] eqn:E; [|discriminate].
    eapply run_reaches; [constructor| |exact E]. intros h n ev cut H m effs C. exfalso. simpl in H.
    repeat (destruct H as [H|H]; [injection H as <- <- <-; exact C|]); contradiction.
  - right. exists 1, [1], (stamp 1 (0, 0) (foundC 1 [0; 1; 2; 3; 4])). vm_compute. tauto.
  - left. split; [apply leaderb_ok; vm_compute; reflexivity|vm_compute; reflexivity].
  - congruence.
Qed.
Print Assumptions C50_crash_refuted.

(** * C51: changes that were built on are kept. *)

(** Under the same guards: a configuration from which a change was made is part of the
    provenance of the configuration of every leader of a later term. *)
Theorem C51_change_kept_partial : forall v founders g n ev g1 g2 p T, NoDup founders ->
  reaches guarded (ginit v founders) g ->
  guarded g n ev None -> isChange ev -> step g n ev None = Some g1 -> reaches guarded g1 g2 ->
  isLeaderAt g2 p T -> c_term (cfgOf g n) < T ->
  exists rest, c_hist (cfgOf g2 p) = c_hist (cfgOf g n) ++ rest.
Proof. intros v founders g n ev g1 g2 p T. apply kept. Qed.
Print Assumptions C51_change_kept_partial.

(** The provenance determines the members. *)
Theorem C51_provenance_partial : forall v founders g n, NoDup founders ->
  reaches guarded (ginit v founders) g ->
  cfgOf g n = emptyC \/
  (c_mem (cfgOf g n) = fold_left (fun m x => match x with Rc m' => m' | El _ _ => m end) (c_hist (cfgOf g n)) founders /\
   c_ver (cfgOf g n) = v + length (filter (fun x => match x with Rc _ => true | El _ _ => false end) (c_hist (cfgOf g n)))).
Proof.
  intros v founders g n Nd H. destruct (refine v founders g Nd H) as (s & I & (Rn & _)). destruct (Rn n) as (E & _).
  pose proof (i_cfg _ _ _ I n) as O. rewrite E in O. simpl in O. fold (cfgOf g n) in O.
  destruct O as [(_ & _ & V & M)|O]; [right|left; auto]. split; [exact M|]. rewrite V. clear. unfold vr.
  generalize (c_hist (cfgOf g n)) as h. intros h. revert v. induction h as [|x h IH]; intros v; simpl; [lia|]. rewrite IH. destruct x; simpl; lia.
Qed.
Print Assumptions C51_provenance_partial.

(** The run above: the change that added node 3 is in the provenance of node 3's
    configuration when it leads term 2. *)
Definition through (g0 : gstate) (evs1 : list gevent) (n : nat) (ev : nevent) (evs2 : list gevent)
    (test : gstate -> gstate -> bool) : bool :=
  match grun g0 evs1 with
  | Some g =>
      vouchedb g n ev &&
      match step g n ev None with
      | Some g1 => match grun g1 evs2 with Some g2 => test g g2 | None => false end
      | None => false
      end
  | None => false
  end.
Lemma through_ok : forall g0 evs1 n ev evs2 test, through g0 evs1 n ev evs2 test = true ->
  exists g g1 g2, reaches guarded g0 g /\ guarded g n ev None /\ step g n ev None = Some g1 /\
    reaches guarded g1 g2 /\ test g g2 = true.
Proof.
  intros g0 evs1 n ev evs2 test H. unfold through in H. destruct (grun g0 evs1) as [g|] eqn:A; [|discriminate].
  apply andb_true_iff in H. destruct H as (V & H). destruct (step g n ev None) as [g1|] eqn:S; [|discriminate].
  destruct (grun g1 evs2) as [g2|] eqn:G; [|discriminate].
  exists g, g1, g2. split; [apply (grun_reaches evs1 g0 g0); [constructor|exact A]|].
  split; [split; [exact Logic.I|apply vouchedb_ok; exact V]|]. split; [exact S|].
  split; [apply (grun_reaches evs2 g1 g1); [constructor|exact G]|exact H].
Qed.
Definition isHist (h : path) : bool :=
  match h with [El 1 (0, 0); Rc [0; 1; 2; 3]] => true | _ => false end.
Lemma isHist_ok : forall h, isHist h = true -> h = [El 1 (0, 0); Rc [0; 1; 2; 3]].
Proof.
  intros h H. unfold isHist in H. repeat (match type of H with context [match ?x with _ => _ end] => destruct x; try discriminate end).
  reflexivity.
Qed.
Example C51_change_kept_ex : exists g g1 g2, reaches guarded (ginit 1 [0; 1; 2]) g /\
  guarded g 0 (NChange [1; 2; 3] (Remove 0)) None /\ step g 0 (NChange [1; 2; 3] (Remove 0)) None = Some g1 /\
  reaches guarded g1 g2 /\ isLeaderAt g2 3 2 /\ c_term (cfgOf g 0) < 2 /\
  c_hist (cfgOf g 0) = [El 1 (0, 0); Rc [0; 1; 2; 3]].
Proof.
  destruct (through_ok gstart (firstn 20 growth) 0 (NChange [1; 2; 3] (Remove 0)) (skipn 21 growth)
              (fun g g2 => leaderb g2 3 2 && (c_term (cfgOf g 0) <? 2) && isHist (c_hist (cfgOf g 0)))) as (g & g1 & g2 & A & B & C & D & E).
  { vm_compute. reflexivity. }
  apply andb_true_iff in E. destruct E as (E & E3). apply andb_true_iff in E. destruct E as (E1 & E2).
  exists g, g1, g2. repeat (split; [assumption|]). split; [apply leaderb_ok; exact E1|]. split; [apply Nat.ltb_lt; exact E2|].
  apply isHist_ok. exact E3.
Qed.
