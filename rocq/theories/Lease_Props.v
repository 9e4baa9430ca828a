(** C72: a read that the leader answers from its own store, without asking
    anyone, is not stale. *)
From Coq Require Import List Arith Bool ZArith Lia.
From Verif Require Import Base Raft_Model Raft_Spec Raft_Abs Raft_InvL Raft_InvL2 Raft_InvC Raft_InvC2 Raft_Inv
  Raft_Refine Raft_Refine2 Raft_Check Raft_Props Lease_Model Lease_Spec Lease_Raft Lease_Handlers Lease_Proofs.
Import ListNotations.
Local Open Scope nat_scope.

(** * Deciding the conditions on a concrete run *)
Definition lateOkb (d : Z) (late : list (nat * Z)) : bool := (0 <=? d)%Z && forallb (fun x => (snd x <=? d)%Z) late.
Definition slowRestartb (c : conf) (ts : tstate) (t : Z) (n : nat) : bool :=
  match l_down (t_l ts n) with Some a => (a + c_minElec c n <=? c_clk c n t)%Z | None => true end.
Definition noHigherb (c : conf) (ts : tstate) (t : Z) (n : nat) (ev : nevent) : bool :=
  match ev with
  | NRecv k _ _ =>
      match nth_error (g_net (t_g ts)) k with
      | Some (Vote _ _ _ _ _ T _) | Some (Ack _ _ _ _ T _ _ _ _ _) =>
          (T <=? p_term (m_p (n_mem (g_node (t_g ts) n)))) ||
          match l_ae (t_l ts n) with Some a => (a + c_minElec c n <=? c_clk c n t)%Z | None => true end
      | _ => true
      end
  | _ => true
  end.
Lemma lateOkb_ok : forall d late, lateOkb d late = true -> lateOk d late.
Proof.
  unfold lateOkb, lateOk. intros d late H. apply andb_true_iff in H. destruct H as (A & B). split; [lia|].
  intros x Hx. rewrite forallb_forall in B. specialize (B x Hx). lia.
Qed.
Lemma slowRestartb_ok : forall c ts t n, slowRestartb c ts t n = true -> slowRestart c ts t n.
Proof. unfold slowRestartb, slowRestart. intros c ts t n H a E. rewrite E in H. lia. Qed.
Lemma noHigherb_ok : forall c ts t n ev, noHigherb c ts t n ev = true -> noHigherReply c ts t n ev.
Proof.
  unfold noHigherb, noHigherReply. intros c ts t n ev H (a & Ea & La) (k & b1 & b2 & -> & X). rewrite Ea in H.
  destruct X as [(x1 & x2 & x3 & x4 & x5 & T & x6 & En & L)|(x1 & x2 & x3 & x4 & T & x5 & x6 & x7 & x8 & x9 & En & L)];
    rewrite En in H; apply orb_true_iff in H; destruct H as [H|H];
    [apply Nat.leb_le in H; lia|apply Z.leb_le in H; lia|apply Nat.leb_le in H; lia|apply Z.leb_le in H; lia].
Qed.
Definition tevent := (Z * list (nat * Z) * nat * nevent * option nat)%type.
Fixpoint trunIf (c : conf) (okb : tstate -> Z -> list (nat * Z) -> nat -> nevent -> option nat -> bool)
    (ts : tstate) (evs : list tevent) : option tstate :=
  match evs with
  | [] => Some ts
  | (t, late, n, ev, cut) :: r =>
      if okb ts t late n ev cut && guardedb (c_cfg c) (t_g ts) n (fill c ts t n ev) cut
      then match tstep c ts t late n ev cut with Some ts' => trunIf c okb ts' r | None => None end
      else None
  end.
Lemma treaches_trans : forall c ok ta tb tc, treaches c ok ta tb -> treaches c ok tb tc -> treaches c ok ta tc.
Proof.
  intros c ok ta tb tc H1 H2. revert H1. induction H2 as [ts|t1 t2 t3 t late n ev cut H IH Ho Hg Hs]; intros HX; auto.
  eapply treaches_step; [apply IH; exact HX|exact Ho|exact Hg|exact Hs].
Qed.
Lemma trunIf_reaches : forall c okb (ok : tstate -> Z -> list (nat * Z) -> nat -> nevent -> option nat -> Prop),
  (forall ts t late n ev cut, okb ts t late n ev cut = true -> ok ts t late n ev cut) ->
  forall evs ts ts', trunIf c okb ts evs = Some ts' -> treaches c ok ts ts'.
Proof.
  intros c okb ok Hok. induction evs as [|[[[[t late] n] ev] cut] r IH]; simpl; intros ts ts' H.
  - injection H as <-. apply treaches_refl.
  - destruct (okb ts t late n ev cut && _) eqn:O; [|discriminate]. apply andb_true_iff in O. destruct O as (O1 & O2).
    destruct (tstep c ts t late n ev cut) eqn:S; [|discriminate].
    eapply treaches_trans; [|eapply IH; eauto]. eapply treaches_step; [apply treaches_refl|eauto|apply guardedb_ok; auto|eauto].
Qed.
Definition keepsb c d ts t late n ev (_ : option nat) := lateOkb d late && slowRestartb c ts t n && noHigherb c ts t n ev.
Definition anyLateb c ts t (_ : list (nat * Z)) n ev (_ : option nat) := slowRestartb c ts t n && noHigherb c ts t n ev.
Definition anyRestartb c d ts t late n ev (_ : option nat) := lateOkb d late && noHigherb c ts t n ev.
Definition anyReplyb c d ts t late n (_ : nevent) (_ : option nat) := lateOkb d late && slowRestartb c ts t n.
Ltac tokb := unfold keeps, keepsb, anyLate, anyLateb, anyRestart, anyRestartb, anyReply, anyReplyb; intros;
  repeat match goal with H : _ && _ = true |- _ => apply andb_true_iff in H; destruct H end;
  intuition auto using lateOkb_ok, slowRestartb_ok, noHigherb_ok.
Lemma keepsb_ok : forall c d ts t late n ev cut, keepsb c d ts t late n ev cut = true -> keeps c d ts t late n ev cut.
Proof. tokb. Qed.
Lemma anyLateb_ok : forall c ts t late n ev cut, anyLateb c ts t late n ev cut = true -> anyLate c ts t late n ev cut.
Proof. tokb. Qed.
Lemma anyRestartb_ok : forall c d ts t late n ev cut, anyRestartb c d ts t late n ev cut = true -> anyRestart c d ts t late n ev cut.
Proof. tokb. Qed.
Lemma anyReplyb_ok : forall c d ts t late n ev cut, anyReplyb c d ts t late n ev cut = true -> anyReply c d ts t late n ev cut.
Proof. tokb. Qed.
Definition orInit (o : option tstate) : tstate := match o with Some ts => ts | None => tinit end.

(** * The theorems *)

(** The settings of [c] suit its clocks: over a stretch of at most [W], which no
    election timeout exceeds, two clocks differ by at most [eps]; and two
    heartbeats of [n] cover that and the lateness [d] of a timestamp. *)
Definition suits (c : conf) (d W eps : Z) (n : nat) : Prop :=
  1 < length (c_cfg c) /\ clocksOk c W eps /\ (0 <= eps)%Z /\ (forall k, 0 <= c_drift c k)%Z /\
  (forall k, c_minElec c k <= W)%Z /\ (d + eps <= 2 * c_heartbeat c n)%Z.

(** While a leader may serve reads by itself, nobody has led a later term. *)
Theorem C72_no_newer_leader_partial : forall c d W eps ts n nf p T,
  suits c d W eps n -> treaches c (keeps c d) tinit ts ->
  canServe c ts n nf = true -> countsMembers c ts n ->
  hasLed (t_g ts) p T -> T <= p_term (m_p (n_mem (g_node (t_g ts) n))).
Proof.
  intros c d W eps ts n nf p T (S1 & S2 & S3 & S4 & S5 & S6) R HS HM HL.
  destruct (treach_inv c d W eps S1 S2 S4 _ _ R gh0 (RInv_init _) (TI_init c d)) as (gh & _ & RI & I & _).
  eapply (no_newer c d W eps S1 S2 S5); eauto. eapply led_ld; [apply RI|exact HL].
Qed.
Print Assumptions C72_no_newer_leader_partial.

(** Whatever any node had applied at any earlier moment, or has applied now, is
    in what the leader reads from. *)
Theorem C72_local_read_partial : forall c d W eps ta tb n nf a,
  suits c d W eps n -> treaches c (keeps c d) tinit ta -> treaches c (keeps c d) ta tb ->
  canServe c tb n nf = true -> countsMembers c tb n ->
  isPrefixOf (appliedOf (t_g ta) a) (appliedOf (t_g tb) n).
Proof.
  intros c d W eps ta tb n nf a (S1 & S2 & S3 & S4 & S5 & S6) R1 R2 HS HM.
  destruct (treach_inv c d W eps S1 S2 S4 _ _ R1 gh0 (RInv_init _) (TI_init c d)) as (gh & _ & RI1 & I1 & _).
  destruct (treach_inv c d W eps S1 S2 S4 _ _ R2 gh RI1 I1) as (gh' & M & RI2 & I2 & J).
  assert (L : length (appliedOf (t_g ta) a) <= length (appliedOf (t_g tb) n)).
  { unfold appliedOf. eapply (serves_all c d W eps S1 S2 S5); eauto. apply J.
    destruct RI1 as (_ & RC & _ & RJ & _). apply (just_le _ S1 _ _ _ _ (proj1 (RJ a))). apply (nc_am _ _ _ _ _ _ (proj1 RC a)). }
  destruct RI1 as (_ & C1 & _). destruct RI2 as (L2 & C2 & _).
  destruct (applied_cpre _ _ _ _ a C1) as (l1 & P1 & E1). apply (cpre_mono _ _ _ _ _ _ M) in P1.
  destruct (applied_cpre _ _ _ _ n C2) as (l2 & P2 & E2).
  destruct L2 as (_ & HG & _), C2 as (_ & HC & _). unfold appliedOf in *. eapply cpre_prefix; eauto.
Qed.
Print Assumptions C72_local_read_partial.
Corollary C72_never_stale_partial : forall c d W eps ts n nf,
  suits c d W eps n -> treaches c (keeps c d) tinit ts -> canServe c ts n nf = true -> countsMembers c ts n ->
  ~ staleRead ts n.
Proof. intros c d W eps ts n nf S R HS HM (a & N). apply N. eapply C72_local_read_partial; eauto. apply treaches_refl. Qed.
Print Assumptions C72_never_stale_partial.

(** The "good until" time handed to the client: until then on the leader's
    clock, and as long as it keeps its term, nobody leads a later one.  [sel] are
    the peers it was computed from. *)
Theorem C72_until_partial : forall c d W eps ta tb n nf hour sel p T,
  suits c d W eps n -> treaches c (keeps c d) tinit ta -> treaches c (keeps c d) ta tb ->
  canServe c ta n nf = true -> incl sel (counted c ta n) -> length sel = need c nf ->
  NoDup (n :: map (fun x => fst (fst x)) sel) -> incl (map (fun x => fst (fst x)) sel) (c_cfg c) ->
  p_term (m_p (n_mem (g_node (t_g tb) n))) = p_term (m_p (n_mem (g_node (t_g ta) n))) ->
  (c_clk c n (t_now tb) < untilTm c ta n hour sel)%Z ->
  hasLed (t_g tb) p T -> T <= p_term (m_p (n_mem (g_node (t_g ta) n))).
Proof.
  intros c d W eps ta tb n nf hour sel p T (S1 & S2 & S3 & S4 & S5 & S6) R1 R2 HS Hi Hl ND IN HT HU HL.
  destruct (treach_inv c d W eps S1 S2 S4 _ _ R1 gh0 (RInv_init _) (TI_init c d)) as (gh & _ & RI1 & I1 & _).
  eapply (no_newer_until c d W eps S1 S2 S4 S5 S3); eauto.
Qed.
Print Assumptions C72_until_partial.

(** * A run that meets the hypotheses *)
(** Three members, perfect clocks in milliseconds, election timeout 100 and up,
    heartbeat 10, drift bound 5. *)
Definition c3 : conf := mkConf [1;2;3] (fun _ t => t) (fun _ => 100%Z) (fun _ => 5%Z) (fun _ => 10%Z).
Definition at_ (t : Z) (n : nat) (ev : nevent) : tevent := (t, [], n, ev, None).
Definition rcv (t : Z) (n k : nat) : tevent := at_ t n (NRecv k false false).
(** ... of a vote from a peer there is a circuit to. *)
Definition rcvV (t : Z) (n k : nat) : tevent := at_ t n (NRecv k true false).
(** Node 1 leads term 1, commits command 7 with the others, then exchanges a
    heartbeat with node 2 only. *)
Definition runServe : list tevent :=
  [at_ 0 1 NElect; rcv 1 2 0; rcvV 2 1 2; rcv 3 2 3; rcv 3 3 4; rcv 4 1 5; at_ 5 1 (NPropose [7] 100);
   rcv 6 2 7; rcv 6 3 8; rcv 7 1 9; at_ 100 1 (NHeartbeat 2); rcv 101 2 11; rcv 102 1 12].
Definition tsServe : tstate := orInit (trunIf c3 (keepsb c3 20) tinit runServe).
Lemma suits_c3 : suits c3 20 1000 0 1.
Proof. unfold suits, clocksOk, c3. cbn. repeat split; try lia; intros; lia. Qed.
Lemma reach_by : forall c okb (ok : tstate -> Z -> list (nat * Z) -> nat -> nevent -> option nat -> Prop) ts evs, (forall ts t late n ev cut, okb ts t late n ev cut = true -> ok ts t late n ev cut) ->
  match trunIf c okb ts evs with Some _ => true | None => false end = true -> treaches c ok ts (orInit (trunIf c okb ts evs)).
Proof.
  intros c okb ok ts evs Hok H. apply (trunIf_reaches c okb ok Hok evs).
  destruct (trunIf c okb ts evs); [reflexivity|discriminate].
Qed.
Lemma tsServe_reached : treaches c3 (keeps c3 20) tinit tsServe.
Proof. apply reach_by; [apply keepsb_ok|vm_compute; reflexivity]. Qed.
Example C72_nonvacuous : suits c3 20 1000 0 1 /\ treaches c3 (keeps c3 20) tinit tsServe /\
  canServe c3 tsServe 1 false = true /\ countsMembers c3 tsServe 1 /\
  map e_cmd (appliedOf (t_g tsServe) 1) = [noopCmd; 7] /\ l_full (t_l tsServe 1) = [((2, 0), 100%Z)].
Proof.
  split; [apply suits_c3|]. split; [apply tsServe_reached|]. split; [vm_compute; reflexivity|].
  split; [|split; vm_compute; reflexivity]. split.
  - apply nodupb_ok. vm_compute. reflexivity.
  - intros v Hv. vm_compute in Hv |- *. tauto.
Qed.
(** At 170 node 1 still has its term, and the time it gave out is 180. *)
Definition tsLater : tstate := orInit (trunIf c3 (keepsb c3 20) tsServe [at_ 170 3 NElect; rcv 171 2 14]).
Example C72_until_ex : treaches c3 (keeps c3 20) tsServe tsLater /\ t_now tsLater = 171%Z /\
  untilTm c3 tsServe 1 3600000 (counted c3 tsServe 1) = 180%Z /\
  p_term (m_p (n_mem (g_node (t_g tsLater) 1))) = 1 /\ p_term (m_p (n_mem (g_node (t_g tsLater) 3))) = 2 /\
  p_term (m_p (n_mem (g_node (t_g tsLater) 2))) = 1.
Proof. split; [apply reach_by; [apply keepsb_ok|vm_compute; reflexivity]|]. vm_compute. auto. Qed.

(** * What each condition is needed for *)
Definition serving (ts : tstate) : Prop := canServe c3 ts 1 false = true /\ staleRead ts 1.
Lemma stale_by : forall ts a n, length (appliedOf (t_g ts) n) < length (appliedOf (t_g ts) a) -> staleRead ts n.
Proof. intros ts a n H. exists a. intros (r & E). rewrite E, app_length in H. lia. Qed.
Lemma counts3 : forall ts, nodupb (1 :: map (fun x => fst (fst x)) (counted c3 ts 1)) = true ->
  forallb (fun v => existsb (Nat.eqb v) [1;2;3]) (map (fun x => fst (fst x)) (counted c3 ts 1)) = true -> countsMembers c3 ts 1.
Proof.
  intros ts A B. split; [apply nodupb_ok; auto|]. intros v Hv. rewrite forallb_forall in B. specialize (B v Hv).
  apply existsb_exists in B. destruct B as (x & Hx & E). apply Nat.eqb_eq in E. subst. exact Hx.
Qed.

(** L2. leaderID and lastLegitAppendEntries live in memory only, so a follower
    that crashes forgets what it promised by its last ack: node 2 restarts at
    107, votes for node 3 at 109, and node 3 commits command 9 while node 1
    still counts the heartbeat of 100. *)
Definition runRestart : list tevent := runServe ++
  [(107%Z, [], 2, NIdle, Some 0); at_ 108 3 NElect; rcv 109 2 14; rcvV 110 3 15; rcv 111 2 17; rcv 112 3 18;
   at_ 113 3 (NPropose [9] 100); rcv 114 2 20; rcv 115 3 21].
Theorem C72_restart_refuted : exists ts, suits c3 20 1000 0 1 /\ treaches c3 (anyRestart c3 20) tinit ts /\
  countsMembers c3 ts 1 /\ serving ts /\ map e_cmd (appliedOf (t_g ts) 3) = [noopCmd; 7; noopCmd; 9] /\
  map e_cmd (appliedOf (t_g ts) 1) = [noopCmd; 7].
Proof.
  exists (orInit (trunIf c3 (anyRestartb c3 20) tinit runRestart)). split; [apply suits_c3|].
  split; [apply reach_by; [apply anyRestartb_ok|vm_compute; reflexivity]|].
  split; [apply counts3; vm_compute; reflexivity|].
  split; [split; [vm_compute; reflexivity|apply (stale_by _ 3); vm_compute; lia]|]. vm_compute. auto.
Qed.
Print Assumptions C72_restart_refuted.

(** L1. bcastAppendEntries takes its timestamp after SendOneWay has returned.
    Here that takes 60 at the broadcast of command 7, so node 2's promise of
    time 6 counts as one of time 65: it is over at 106, and node 1 counts it
    until 145. *)
Definition runLate : list tevent :=
  [at_ 0 1 NElect; rcv 1 2 0; rcvV 2 1 2; rcv 3 2 3; rcv 3 3 4; rcv 4 1 5; (5%Z, [(2, 60%Z); (3, 60%Z)], 1, NPropose [7] 100, None);
   rcv 6 2 7; rcv 6 3 8; rcv 70 1 9; at_ 112 2 NElect; rcv 113 3 12; rcvV 114 2 13; rcv 115 3 15; rcv 116 2 16].
Theorem C72_late_stamp_refuted : exists ts, suits c3 20 1000 0 1 /\ treaches c3 (anyLate c3) tinit ts /\
  countsMembers c3 ts 1 /\ serving ts /\ hasLed (t_g ts) (2, 0) 2.
Proof.
  exists (orInit (trunIf c3 (anyLateb c3) tinit runLate)). split; [apply suits_c3|].
  split; [apply reach_by; [apply anyLateb_ok|vm_compute; reflexivity]|].
  split; [apply counts3; vm_compute; reflexivity|].
  split; [split; [vm_compute; reflexivity|apply (stale_by _ 2); vm_compute; lia]|]. left. unfold isLeaderAt. vm_compute. auto.
Qed.
Print Assumptions C72_late_stamp_refuted.

(** L3. A vote (or an ack) of a higher term makes a follower forget its leader,
    although haveStickyLeader was to keep it.  Node 2 had asked for votes in term
    1 as well; node 3 answers that old request from its term 2, and when the
    answer arrives at 205 node 2 adopts the term and forgets node 1, with which it
    exchanged a heartbeat at 200.  It votes for node 3 in term 3 at 213, and node
    3 commits.  (The pre-vote before node 3's first election is not modelled.) *)
Definition runReply : list tevent :=
  [at_ 0 2 NElect; at_ 0 1 NElect; rcv 1 3 3; rcvV 2 1 4; rcv 3 2 5; rcv 3 3 6; rcv 4 1 7;
   at_ 110 3 NElect; rcv 111 3 1; at_ 200 1 (NHeartbeat 2); rcv 201 2 12; rcv 202 1 13; rcv 205 2 11;
   at_ 211 3 NPreVote; at_ 212 3 NElect; rcv 213 2 15; rcvV 214 3 16; rcv 215 2 18; rcv 216 3 19].
Theorem C72_higher_reply_refuted : exists ts, suits c3 20 1000 0 1 /\ treaches c3 (anyReply c3 20) tinit ts /\
  countsMembers c3 ts 1 /\ serving ts /\ hasLed (t_g ts) (3, 0) 3.
Proof.
  exists (orInit (trunIf c3 (anyReplyb c3 20) tinit runReply)). split; [apply suits_c3|].
  split; [apply reach_by; [apply anyReplyb_ok|vm_compute; reflexivity]|].
  split; [apply counts3; vm_compute; reflexivity|].
  split; [split; [vm_compute; reflexivity|apply (stale_by _ 3); vm_compute; lia]|]. left. unfold isLeaderAt. vm_compute. auto.
Qed.
Print Assumptions C72_higher_reply_refuted.

(** L4. The loop over s.peers skips peers that are not replicas, but a shadow
    replica is one: it gets heartbeats (8693), acks them, and has no vote.  Node 9
    is such a one, and node 1 serves by its ack alone while nodes 2 and 3 have
    elected node 2 and committed. *)
Definition runShadow : list tevent :=
  [at_ 0 1 NElect; rcv 1 2 0; rcvV 2 1 2; rcv 3 2 3; rcv 3 3 4; rcv 4 1 5; at_ 5 1 (NPropose [7] 100);
   rcv 6 2 7; rcv 6 3 8; rcv 7 1 9; at_ 100 1 (NHeartbeat 9); rcv 101 9 11; rcv 102 1 12;
   at_ 112 2 NElect; rcv 113 3 14; rcvV 114 2 15; rcv 115 3 17; rcv 116 2 18].
Theorem C72_shadow_refuted : exists ts, suits c3 20 1000 0 1 /\ treaches c3 (keeps c3 20) tinit ts /\
  counted c3 ts 1 = [((9, 0), 100%Z)] /\ serving ts /\ hasLed (t_g ts) (2, 0) 2.
Proof.
  exists (orInit (trunIf c3 (keepsb c3 20) tinit runShadow)). split; [apply suits_c3|].
  split; [apply reach_by; [apply keepsb_ok|vm_compute; reflexivity]|].
  split; [vm_compute; reflexivity|].
  split; [split; [vm_compute; reflexivity|apply (stale_by _ 2); vm_compute; lia]|]. left. unfold isLeaderAt. vm_compute. auto.
Qed.
Print Assumptions C72_shadow_refuted.
