(** C31, C32, C33: leader uniqueness, log matching, and that what is applied is
    applied the same everywhere, for the consensus code of tube/tube.go as
    modelled in Raft_Model. *)
From Coq Require Import List Arith Bool Lia.
From Verif Require Import Base Raft_Model Raft_Spec Raft_Abs Raft_InvL Raft_InvL2 Raft_InvC Raft_InvC2 Raft_Inv
  Raft_Refine Raft_Refine2 Raft_Check.
Import ListNotations.

(** * A run to speak of *)
Definition elect (n : nat) : gevent := (n, NElect, None).
Definition recv (n k : nat) : gevent := (n, NRecv k false false, None).
(** A candidate receiving a vote and hearing from its peers. *)
Definition recvVote (n k : nat) : gevent := (n, NRecv k true false, None).
Definition propose (n : nat) (cmds : list nat) : gevent := (n, NPropose cmds 100, None).
Definition send (n to prev : nat) : gevent := (n, NSend to prev 100, None).

(** Node 1 leads term 1 and commits commands 7 and 8 with node 2; node 1 stops;
    node 2, which has both, leads term 2 with node 3 and commits all. *)
Definition run1a : list gevent :=
  [elect 1; recv 2 0; recvVote 1 2; recv 2 3; recv 1 5; propose 1 [7; 8]; recv 2 6; recv 1 8].
Definition run1b : list gevent :=
  [elect 2; recv 3 10; recvVote 2 11; send 2 3 0; recv 3 14; recv 2 15; (2, NHeartbeat 3, None); recv 3 16;
   (3, NIdle, Some 0)].
Definition g1 : gstate := match runIf [1;2;3] (guardedb [1;2;3]) ginit run1a with Some g => g | None => ginit end.
Definition g2 : gstate := match runIf [1;2;3] (guardedb [1;2;3]) g1 run1b with Some g => g | None => g1 end.
Lemma runIf_some : forall cfg okb g evs d,
  (match runIf cfg okb g evs with Some _ => true | None => false end) = true ->
  runIf cfg okb g evs = Some (match runIf cfg okb g evs with Some x => x | None => d end).
Proof. intros. destruct (runIf cfg okb g evs); [auto|discriminate]. Qed.
Lemma g1_reached : reaches [1;2;3] (guarded [1;2;3]) ginit g1.
Proof.
  apply (runIf_reaches _ _ _ (guardedb_ok [1;2;3]) run1a). apply runIf_some. vm_compute. reflexivity.
Qed.
Lemma g2_reached : reaches [1;2;3] (guarded [1;2;3]) g1 g2.
Proof.
  apply (runIf_reaches _ _ _ (guardedb_ok [1;2;3]) run1b). apply runIf_some. vm_compute. reflexivity.
Qed.
Lemma reaches_weaken : forall cfg (ok ok' : gstate -> nat -> nevent -> option nat -> Prop) a b,
  (forall g n ev cut, ok g n ev cut -> ok' g n ev cut) -> reaches cfg ok a b -> reaches cfg ok' a b.
Proof. intros cfg ok ok' a b H R. induction R; [apply reaches_refl|eapply reaches_step; eauto]. Qed.
Lemma guarded_crashOk : forall cfg g n ev cut, guarded cfg g n ev cut -> crashOk cfg g n ev cut.
Proof. intros cfg g n ev cut H; apply H. Qed.

Definition e1 := mkE 1 0. Definition e7 := mkE 1 7. Definition e8 := mkE 1 8. Definition e2 := mkE 2 0.
Example g1_shows : isLeaderAt g1 1 1 /\ appliedOf g1 1 = [e1; e7; e8] /\ logOf g1 2 = [e1; e7; e8].
Proof. unfold isLeaderAt; vm_compute; auto. Qed.
Example g2_shows : isLeaderAt g2 2 2 /\ isLeaderAt g2 1 1 /\ appliedOf g2 2 = [e1; e7; e8; e2] /\
  appliedOf g2 3 = [e1; e7; e8; e2] /\ appliedOnDisk g2 3 = [e1; e7; e8; e2] /\ appliedOf g2 1 = [e1; e7; e8] /\
  m_inc (n_mem (g_node g2 3)) = 1.
Proof. unfold isLeaderAt; vm_compute; repeat split; auto. Qed.

(** * C31 *)
Lemma led_ld : forall cfg g gh p T, InvL cfg (g_node g) (g_net g) gh -> hasLed g p T -> ld gh T = Some p.
Proof.
  intros cfg g gh [n i] T (HN & HG & HM) [((Hr & Ht) & Hi)|(to & lt & prev & pt & es & lci & mc & H)]; simpl in *.
  - destruct (nl_lead _ _ _ _ (HN n) Hr) as (A & _). rewrite Hi in A. rewrite <- Ht. exact A.
  - apply (HM _ H).
Qed.

(** Whoever has led in term [T], at whatever two points of one execution, was
    the same incarnation of the same node. *)
Theorem C31_one_leader_per_term_partial : forall cfg ga gb p q T,
  reaches cfg (crashOk cfg) ginit ga -> reaches cfg (crashOk cfg) ga gb ->
  hasLed ga p T -> hasLed gb q T -> p = q.
Proof.
  intros cfg ga gb p q T R1 R2 H1 H2.
  destruct (reach_inv cfg _ _ (fun _ _ _ _ H => H) R1) as (gh & I1).
  destruct (reach_ext cfg _ _ _ gh (fun _ _ _ _ H => H) R2 I1) as (gh' & M & I2).
  apply (led_ld _ _ _ _ _ I1) in H1. apply (led_ld _ _ _ _ _ I2) in H2.
  apply (gm_ld _ _ M) in H1. congruence.
Qed.
Print Assumptions C31_one_leader_per_term_partial.

(** The form people quote: two nodes in the leader role at the same time. *)
Corollary C31_no_two_leaders_partial : forall cfg g a b T,
  reaches cfg (crashOk cfg) ginit g -> isLeaderAt g a T -> isLeaderAt g b T -> a = b.
Proof.
  intros cfg g a b T R Ha Hb.
  assert (E : (a, m_inc (n_mem (g_node g a))) = (b, m_inc (n_mem (g_node g b)))).
  { eapply C31_one_leader_per_term_partial; [exact R|apply reaches_refl| |]; left; split; simpl; eauto. }
  congruence.
Qed.
Print Assumptions C31_no_two_leaders_partial.
Example C31_nonvacuous : reaches [1;2;3] (crashOk [1;2;3]) ginit g1 /\ reaches [1;2;3] (crashOk [1;2;3]) g1 g2 /\
  hasLed g1 (1, 0) 1 /\ hasLed g2 (2, 0) 2 /\ hasLed g2 (1, 0) 1.
Proof.
  split; [eapply reaches_weaken; [apply guarded_crashOk|apply g1_reached]|].
  split; [eapply reaches_weaken; [apply guarded_crashOk|apply g2_reached]|].
  split; [left; unfold isLeaderAt; vm_compute; auto|].
  split; left; unfold isLeaderAt; vm_compute; auto.
Qed.

(** Without the crash condition it is false: node 1 wins term 2, sends its first
    AppendEntries, and crashes before saving the term; it comes back in term 1,
    node 3 overwrites its log, and it then votes node 3 into the same term 2. *)
Definition runTwoLeaders : list gevent :=
  [elect 3; recv 1 0; recvVote 3 2; recv 1 3; recv 3 5; recv 2 4; elect 1; recv 2 7;
   (1, NRecv 9 true false, Some 3); propose 3 [7]; (3, NPeerGone (1, 0), None); send 3 1 0; recv 1 14;
   (3, NStepDown, None); elect 3; recv 1 16; recvVote 3 18].
Theorem C31_refuted_crash_before_save : exists g,
  reaches [1;2;3] (allButCrashOk [1;2;3]) ginit g /\ hasLed g (1, 0) 2 /\ hasLed g (3, 0) 2.
Proof.
  exists (match runIf [1;2;3] (noCrashCheckb [1;2;3]) ginit runTwoLeaders with Some g => g | None => ginit end).
  split; [|split].
  - apply (runIf_reaches _ _ _ (noCrashCheckb_ok [1;2;3]) runTwoLeaders). apply runIf_some. vm_compute. reflexivity.
  - right. exists 2, [1; 2], 1, 1, [e2], 0, 2. vm_compute. tauto.
  - left. unfold isLeaderAt. vm_compute. auto.
Qed.
Print Assumptions C31_refuted_crash_before_save.

(** * C32 *)
(** If two logs, of any two nodes at any two points of one execution, hold an
    entry of the same term at the same index, they are equal up to that index. *)
Theorem C32_log_matching_partial : forall cfg ga gb a b i x y,
  reaches cfg (crashOk cfg) ginit ga -> reaches cfg (crashOk cfg) ga gb ->
  nth_error (logOf ga a) i = Some x -> nth_error (logOf gb b) i = Some y -> e_term x = e_term y ->
  firstn (S i) (logOf ga a) = firstn (S i) (logOf gb b).
Proof.
  intros cfg ga gb a b i x y R1 R2 Hx Hy E.
  destruct (reach_inv cfg _ _ (fun _ _ _ _ H => H) R1) as (gh & HN1 & _).
  destruct (reach_inv cfg _ _ (fun _ _ _ _ H => H) R1) as (gh0' & I1).
  destruct (reach_ext cfg _ _ _ gh0' (fun _ _ _ _ H => H) R2 I1) as (gh' & M & HN2 & _).
  destruct I1 as (HN1' & _).
  pose proof (nodeL_logs _ _ _ _ (HN1' a) i x Hx) as P1.
  pose proof (nodeL_logs _ _ _ _ (HN2 b) i y Hy) as P2.
  destruct (gm_tl _ _ M (e_term x)) as (c & Hc).
  assert (P3 : pre (S i) (nlog (g_node ga a)) (tl gh' (e_term x))) by (rewrite Hc; apply pre_app_r; auto).
  rewrite E in P3. apply (pre_trans _ _ _ _ P3 (pre_sym _ _ _ P2)).
Qed.
Print Assumptions C32_log_matching_partial.

(** A leader only ever appends to its own log. *)
Theorem C32_leader_append_only_partial : forall cfg ga gb a b T,
  reaches cfg (crashOk cfg) ginit ga -> reaches cfg (crashOk cfg) ga gb ->
  isLeaderAt ga a T -> isLeaderAt gb b T -> a = b /\ isPrefixOf (logOf ga a) (logOf gb b).
Proof.
  intros cfg ga gb a b T R1 R2 (Hr1 & Ht1) (Hr2 & Ht2).
  destruct (reach_inv cfg _ _ (fun _ _ _ _ H => H) R1) as (gh & I1).
  destruct (reach_ext cfg _ _ _ gh (fun _ _ _ _ H => H) R2 I1) as (gh' & M & I2).
  destruct (nl_lead _ _ _ _ (proj1 I1 a) Hr1) as (A1 & _ & A2 & _).
  destruct (nl_lead _ _ _ _ (proj1 I2 b) Hr2) as (B1 & _ & B2 & _).
  rewrite Ht1 in *. rewrite Ht2 in *.
  apply (gm_ld _ _ M) in A1. split; [congruence|].
  destruct (gm_tl _ _ M T) as (c & Hc). exists c. unfold logOf. congruence.
Qed.
Print Assumptions C32_leader_append_only_partial.
Example C32_nonvacuous : reaches [1;2;3] (crashOk [1;2;3]) ginit g1 /\ reaches [1;2;3] (crashOk [1;2;3]) g1 g2 /\
  nth_error (logOf g1 1) 2 = Some e8 /\ nth_error (logOf g2 3) 2 = Some e8 /\
  isLeaderAt g1 1 1 /\ isLeaderAt g2 1 1.
Proof.
  split; [apply C31_nonvacuous|]. split; [apply C31_nonvacuous|]. unfold isLeaderAt. vm_compute. repeat split; auto.
Qed.

(** * C33 *)
Lemma chosen_mono : forall cfg gh gh' T i, gmono gh gh' -> chosen cfg gh T i -> chosen cfg gh' T i.
Proof.
  intros cfg gh gh' T i M (A & B & Q & HQ & H). destruct (gm_tl _ _ M T) as (c & Hc).
  split; [rewrite Hc, app_length; lia|]. split.
  - transitivity (termAt (tl gh T) i); [|exact B]. rewrite Hc. apply termAt_pre with (i := i); auto. apply pre_app_l, pre_refl; lia.
  - exists Q; split; auto. intros v Hv. specialize (H v Hv). pose proof (gm_acc _ _ M v T). lia.
Qed.
Lemma cpre_mono : forall cfg gh gh' l c T, gmono gh gh' -> cpre cfg gh l c T -> cpre cfg gh' l c T.
Proof.
  intros cfg gh gh' l c T M [->|(T0 & i0 & A & B & C & D)]; [left; auto|right].
  exists T0, i0. split; auto. split; auto. split; [eapply chosen_mono; eauto|].
  destruct (gm_tl _ _ M T0) as (x & ->). apply pre_app_r; auto.
Qed.

(** The applied sequences of a node, in memory and on disk, are committed
    prefixes. *)
Lemma applied_cpre : forall cfg f net gh k, InvC cfg f net gh ->
  exists l, cpre cfg gh l (length (p_applied (m_p (n_mem (f k))))) (mt (f k)) /\
            p_applied (m_p (n_mem (f k))) = firstn (length (p_applied (m_p (n_mem (f k))))) l.
Proof.
  intros cfg f net gh k (H & _). destruct (nc_am _ _ _ _ _ _ (H k)) as (A & B). exists (nlog (f k)).
  split; auto. eapply cpre_le; eauto. apply (nc_cm _ _ _ _ _ _ (H k)).
Qed.
Lemma appliedDisk_cpre : forall cfg f net gh k, InvC cfg f net gh ->
  exists l, cpre cfg gh l (length (p_applied (d_p (n_disk (f k))))) (dt (f k)) /\
            p_applied (d_p (n_disk (f k))) = firstn (length (p_applied (d_p (n_disk (f k))))) l.
Proof.
  intros cfg f net gh k (H & _). destruct (nc_ad _ _ _ _ _ _ (H k)) as (A & B). exists (nlog (f k)).
  split; auto. eapply cpre_le; eauto. apply (nc_cd _ _ _ _ _ _ (H k)).
Qed.
Lemma cpre_prefix : forall cfg f gh (s1 s2 l1 l2 : list entry) T1 T2,
  ghostL cfg gh -> ghostC cfg f gh -> cpre cfg gh l1 (length s1) T1 -> cpre cfg gh l2 (length s2) T2 ->
  s1 = firstn (length s1) l1 -> s2 = firstn (length s2) l2 -> length s1 <= length s2 -> isPrefixOf s1 s2.
Proof.
  intros cfg f gh s1 s2 l1 l2 T1 T2 HG HC C1 C2 E1 E2 L.
  pose proof (cpre_agree cfg f gh l1 _ T1 l2 _ T2 HG HC C1 C2 L) as (P1 & P2 & P3).
  exists (skipn (length s1) s2). rewrite <- (firstn_skipn (length s1) s2) at 1. f_equal.
  rewrite E2. rewrite firstn_firstn. rewrite Nat.min_l by lia. rewrite <- P3. auto.
Qed.
Lemma guarded_inv : forall cfg g, reaches cfg (guarded cfg) ginit g ->
  exists gh, InvL cfg (g_node g) (g_net g) gh /\ InvC cfg (g_node g) (g_net g) gh.
Proof.
  intros cfg g R. destruct (reach_ext_strong cfg ginit g gh0 R (InvL_init cfg) (InvC_init cfg)) as (gh & _ & A & B). eauto.
Qed.

(** What any two nodes have applied, at any two points of one execution, never
    conflicts: one sequence extends the other. *)
Theorem C33_same_applied_sequence_partial : forall cfg ga gb a b,
  reaches cfg (guarded cfg) ginit ga -> reaches cfg (guarded cfg) ga gb ->
  isPrefixOf (appliedOf ga a) (appliedOf gb b) \/ isPrefixOf (appliedOf gb b) (appliedOf ga a).
Proof.
  intros cfg ga gb a b R1 R2. destruct (guarded_inv _ _ R1) as (gh & I1 & C1).
  destruct (reach_ext_strong cfg _ _ gh R2 I1 C1) as (gh' & M & I2 & C2).
  destruct (applied_cpre _ _ _ _ a C1) as (l1 & P1 & E1). apply (cpre_mono _ _ _ _ _ _ M) in P1.
  destruct (applied_cpre _ _ _ _ b C2) as (l2 & P2 & E2).
  destruct I2 as (_ & HG & _), C2 as (_ & HC & _). unfold appliedOf.
  destruct (Nat.le_ge_cases (length (p_applied (m_p (n_mem (g_node ga a))))) (length (p_applied (m_p (n_mem (g_node gb b))))));
    [left|right]; eapply cpre_prefix; eauto.
Qed.
Print Assumptions C33_same_applied_sequence_partial.

(** The same for what is on disk against what is in memory (so a restarted node
    replays the same history). *)
Theorem C33_disk_agrees_partial : forall cfg ga gb a b,
  reaches cfg (guarded cfg) ginit ga -> reaches cfg (guarded cfg) ga gb ->
  (isPrefixOf (appliedOnDisk ga a) (appliedOf gb b) \/ isPrefixOf (appliedOf gb b) (appliedOnDisk ga a)) /\
  (isPrefixOf (appliedOf ga a) (appliedOnDisk gb b) \/ isPrefixOf (appliedOnDisk gb b) (appliedOf ga a)).
Proof.
  intros cfg ga gb a b R1 R2. destruct (guarded_inv _ _ R1) as (gh & I1 & C1).
  destruct (reach_ext_strong cfg _ _ gh R2 I1 C1) as (gh' & M & I2 & C2). unfold appliedOf, appliedOnDisk. split.
  - destruct (appliedDisk_cpre _ _ _ _ a C1) as (l1 & P1 & E1). apply (cpre_mono _ _ _ _ _ _ M) in P1.
    destruct (applied_cpre _ _ _ _ b C2) as (l2 & P2 & E2). destruct I2 as (_ & HG & _), C2 as (_ & HC & _).
    destruct (Nat.le_ge_cases (length (p_applied (d_p (n_disk (g_node ga a))))) (length (p_applied (m_p (n_mem (g_node gb b))))));
      [left|right]; eapply cpre_prefix; eauto.
  - destruct (applied_cpre _ _ _ _ a C1) as (l1 & P1 & E1). apply (cpre_mono _ _ _ _ _ _ M) in P1.
    destruct (appliedDisk_cpre _ _ _ _ b C2) as (l2 & P2 & E2). destruct I2 as (_ & HG & _), C2 as (_ & HC & _).
    destruct (Nat.le_ge_cases (length (p_applied (m_p (n_mem (g_node ga a))))) (length (p_applied (d_p (n_disk (g_node gb b))))));
      [left|right]; eapply cpre_prefix; eauto.
Qed.
Print Assumptions C33_disk_agrees_partial.

(** Every leader of a term at least as new holds, in its log, everything any
    node had applied. *)
Theorem C33_leader_has_applied_partial : forall cfg ga gb a b T,
  reaches cfg (guarded cfg) ginit ga -> reaches cfg (guarded cfg) ga gb ->
  isLeaderAt gb b T -> p_term (m_p (n_mem (g_node ga a))) <= T ->
  isPrefixOf (appliedOf ga a) (logOf gb b).
Proof.
  intros cfg ga gb a b T R1 R2 (Hr & Ht) HT. destruct (guarded_inv _ _ R1) as (gh & I1 & C1).
  destruct (reach_ext_strong cfg _ _ gh R2 I1 C1) as (gh' & M & I2 & C2).
  destruct (applied_cpre _ _ _ _ a C1) as (l1 & P1 & E1). apply (cpre_mono _ _ _ _ _ _ M) in P1.
  destruct I2 as (HN & HG & _), C2 as (_ & HC & _). unfold appliedOf, logOf.
  destruct (nl_lead _ _ _ _ (HN b) Hr) as (B1 & _ & B2 & _). rewrite Ht in B1, B2.
  rewrite <- B2. set (s := p_applied (m_p (n_mem (g_node ga a)))) in *.
  destruct P1 as [Z|(T0 & i0 & L0 & Li & Ch & Pr)].
  - destruct s; [|discriminate]. exists (tl gh' T). auto.
  - assert (P : pre i0 (tl gh' T) (tl gh' T0)).
    { eapply chosen_later; eauto; [lia|congruence]. }
    apply pre_le with (j := length s) in P; auto.
    pose proof (pre_trans _ _ _ _ Pr (pre_sym _ _ _ P)) as (Q1 & Q2 & Q3).
    exists (skipn (length s) (tl gh' T)). rewrite E1 at 1. rewrite Q3. symmetry. apply firstn_skipn.
Qed.
Print Assumptions C33_leader_has_applied_partial.

(** A node's own applied sequence only grows, across crashes too: what was on
    its disk is a prefix of what it later has in memory and on disk. *)
Lemma nstep_applied : forall cfg strong n nd net nd' net', nstep cfg strong n nd net nd' net' ->
  length (p_applied (d_p (n_disk nd))) <= length (p_applied (m_p (n_mem nd))) ->
  length (p_applied (d_p (n_disk nd'))) <= length (p_applied (m_p (n_mem nd'))) /\
  length (p_applied (d_p (n_disk nd))) <= length (p_applied (d_p (n_disk nd'))).
Proof.
  intros cfg strong n nd net nd' net' H. destruct H;
    repeat match goal with x := _ |- _ => subst x end; cbn; intros L; try (split; lia).
  rewrite app_length. split; lia.
Qed.
Lemma nstar_applied : forall cfg strong n nd net nd' net', nstar cfg strong n nd net nd' net' ->
  length (p_applied (d_p (n_disk nd))) <= length (p_applied (m_p (n_mem nd))) ->
  length (p_applied (d_p (n_disk nd'))) <= length (p_applied (m_p (n_mem nd'))) /\
  length (p_applied (d_p (n_disk nd))) <= length (p_applied (d_p (n_disk nd'))).
Proof.
  intros cfg strong n nd net nd' net' H. induction H; intros L; [split; lia|].
  destruct (nstep_applied _ _ _ _ _ _ _ H L). destruct IHnstar; auto. split; lia.
Qed.
Definition diskBehind (g : gstate) : Prop := forall k, length (appliedOnDisk g k) <= length (appliedOf g k).
Lemma reaches_applied : forall cfg g1 g2 gh, reaches cfg (guarded cfg) g1 g2 ->
  InvL cfg (g_node g1) (g_net g1) gh -> InvC cfg (g_node g1) (g_net g1) gh -> diskBehind g1 ->
  diskBehind g2 /\ forall k, length (appliedOnDisk g1 k) <= length (appliedOnDisk g2 k).
Proof.
  intros cfg a b gh R I C D. induction R as [g|ga gb gc n ev cut R IH Ho Hs]; [auto|].
  destruct (IH I C D) as (D2 & G2). destruct (reach_ext_strong cfg _ _ gh R I C) as (gh' & _ & I2 & C2).
  destruct Ho as (O1 & O2 & O3 & O4).
  destruct (step_refines cfg true gb n ev cut gc gh' I2) as (R1 & R2); auto.
  assert (S : forall k, length (appliedOnDisk gc k) <= length (appliedOf gc k) /\
                        length (appliedOnDisk gb k) <= length (appliedOnDisk gc k)).
  { intros k. specialize (D2 k). unfold appliedOnDisk, appliedOf in *. destruct (Nat.eq_dec k n) as [->|Hk].
    - apply (nstar_applied _ _ _ _ _ _ _ R1); auto.
    - rewrite (R2 k Hk). split; lia. }
  split; intros k; [apply S|]. specialize (G2 k). destruct (S k). lia.
Qed.
Theorem C33_applied_never_lost_partial : forall cfg ga gb a,
  reaches cfg (guarded cfg) ginit ga -> reaches cfg (guarded cfg) ga gb ->
  isPrefixOf (appliedOnDisk ga a) (appliedOnDisk gb a) /\ isPrefixOf (appliedOnDisk gb a) (appliedOf gb a).
Proof.
  intros cfg ga gb a R1 R2. destruct (guarded_inv _ _ R1) as (gh & I1 & C1).
  destruct (reaches_applied cfg ginit ga gh0 R1 (InvL_init cfg) (InvC_init cfg)) as (Da & _);
    [intros k; simpl; lia|].
  destruct (reaches_applied cfg ga gb gh R2 I1 C1 Da) as (Db & Gr).
  destruct (reach_ext_strong cfg _ _ gh R2 I1 C1) as (gh' & M & I2 & C2).
  destruct (appliedDisk_cpre _ _ _ _ a C1) as (l1 & P1 & E1). apply (cpre_mono _ _ _ _ _ _ M) in P1.
  destruct (appliedDisk_cpre _ _ _ _ a C2) as (l2 & P2 & E2).
  destruct (applied_cpre _ _ _ _ a C2) as (l3 & P3 & E3).
  destruct I2 as (_ & HG & _), C2 as (_ & HC & _).
  specialize (Db a). specialize (Gr a). unfold appliedOf, appliedOnDisk in *.
  split; eapply cpre_prefix; eauto.
Qed.
Print Assumptions C33_applied_never_lost_partial.
Example C33_nonvacuous : reaches [1;2;3] (guarded [1;2;3]) ginit g1 /\ reaches [1;2;3] (guarded [1;2;3]) g1 g2 /\
  appliedOf g1 1 = [e1; e7; e8] /\ appliedOf g2 3 = [e1; e7; e8; e2] /\ appliedOnDisk g2 3 = [e1; e7; e8; e2] /\
  isLeaderAt g2 2 2 /\ p_term (m_p (n_mem (g_node g1 1))) = 1.
Proof.
  split; [apply g1_reached|]. split; [apply g2_reached|]. unfold isLeaderAt. vm_compute. repeat split; auto.
Qed.

(** ** Each guard of C33 is needed: drop one and the code applies conflicting
    entries. *)
Ltac refute cfg chk ok evs :=
  exists (match runIf cfg chk ginit evs with Some g => g | None => ginit end);
  split; [apply (runIf_reaches _ _ _ ok evs); apply runIf_some; vm_compute; reflexivity|].

(** G1 dropped. A size-clipped AppendEntries that ends inside the common prefix
    is accepted by a follower whose log diverges after it; the ack reports the
    follower's own last index, and the leader counts it as a match. *)
Definition runClipped : list gevent :=
  [elect 3; recv 2 1; recvVote 3 2; recv 2 4; recv 1 3; recv 3 5; propose 3 [7;8]; elect 1; recv 2 9; recvVote 1 11;
   (1, NSend 3 0 1, None); recv 3 14; recv 1 15; elect 3; recv 2 17; recvVote 3 18; send 3 2 1; recv 2 21; recv 3 22].
Theorem C33_refuted_clipped_append : exists g,
  reaches [1;2;3] (allButUnclipped [1;2;3]) ginit g /\ conflict (appliedOf g 1) (appliedOf g 3).
Proof.
  refute [1;2;3] (noClipCheckb [1;2;3]) (noClipCheckb_ok [1;2;3]) runClipped.
  eapply (conflict_at _ _ _ 1 e2 e7); [vm_compute; reflexivity|vm_compute; reflexivity|discriminate].
Qed.
Print Assumptions C33_refuted_clipped_append.

(** G2 dropped. An AppendEntries of an earlier leadership of the same process is
    refused with an ack stamped with the new term, whose common index is
    computed against the old log. *)
Definition runStale : list gevent :=
  [elect 1; recv 2 0; recv 3 1; recvVote 1 4; recvVote 1 5; recv 2 6; recv 3 7; recv 4 8; recv 5 9; recv 1 10; recv 1 11;
   propose 1 [7;8]; (1, NHeartbeat 3, None); recv 3 15; elect 2; recv 4 22; recv 5 23; recvVote 2 24; recvVote 2 25;
   send 2 1 0; recv 1 30; elect 1; recv 4 34; recv 5 35; recvVote 1 36; recvVote 1 37; recv 3 33; recv 3 18; recv 1 43;
   send 1 4 1; recv 4 44; recv 1 45; (2, NStepDown, None); recv 2 32; elect 2; recv 3 48; recv 5 50; recvVote 2 51;
   recvVote 2 52; send 2 3 0; recv 3 57; send 2 5 0; recv 5 59; recv 2 58; recv 2 60].
Theorem C33_refuted_stale_ack : exists g,
  reaches [1;2;3;4;5] (allButFreshAck [1;2;3;4;5]) ginit g /\ conflict (appliedOf g 1) (appliedOf g 2).
Proof.
  refute [1;2;3;4;5] (noAckCheckb [1;2;3;4;5]) (noAckCheckb_ok [1;2;3;4;5]) runStale.
  eapply (conflict_at _ _ _ 2 (mkE 3 0) (mkE 4 0)); [vm_compute; reflexivity|vm_compute; reflexivity|discriminate].
Qed.
Print Assumptions C33_refuted_stale_ack.

(** G3 dropped. A restarted follower acks under a new PeerID while its old entry
    is still in the leader's table; both count towards the quorum. *)
Definition runTwoPeers : list gevent :=
  [elect 1; recv 2 0; recv 3 1; recvVote 1 4; recvVote 1 5; recv 2 6; recv 1 10; (2, NIdle, Some 0);
   (1, NHeartbeat 2, None); recv 2 11; recv 1 12; elect 3; recv 4 15; recv 5 16; recvVote 3 17; recvVote 3 18;
   recv 4 21; recv 5 22; recv 3 23; recv 3 24].
Theorem C33_refuted_restarted_follower : exists g,
  reaches [1;2;3;4;5] (allButOnePeer [1;2;3;4;5]) ginit g /\ conflict (appliedOf g 1) (appliedOf g 3).
Proof.
  refute [1;2;3;4;5] (noPeerCheckb [1;2;3;4;5]) (noPeerCheckb_ok [1;2;3;4;5]) runTwoPeers.
  eapply (conflict_at _ _ _ 0 e1 e2); [vm_compute; reflexivity|vm_compute; reflexivity|discriminate].
Qed.
Print Assumptions C33_refuted_restarted_follower.

(** G4 dropped. A new leader crashes after sending its first AppendEntries and
    before saving its term; back in the old term it helps the old leader commit
    an entry that the new term's entry later replaces. *)
Definition runCrash : list gevent :=
  [elect 3; recv 1 0; recvVote 3 2; recv 1 3; recv 3 5; recv 2 4; elect 1; recv 2 7; (1, NRecv 9 true false, Some 3);
   propose 3 [7]; (3, NPeerGone (1, 0), None); send 3 1 0; recv 1 14; recv 3 15; recv 2 10; elect 2; recv 1 17;
   recvVote 2 19; send 2 1 0; recv 1 22; recv 2 23].
Theorem C33_refuted_crash_before_save : exists g,
  reaches [1;2;3] (allButCrashOk [1;2;3]) ginit g /\ conflict (appliedOf g 2) (appliedOf g 3).
Proof.
  refute [1;2;3] (noCrashCheckb [1;2;3]) (noCrashCheckb_ok [1;2;3]) runCrash.
  eapply (conflict_at _ _ _ 1 e2 e7); [vm_compute; reflexivity|vm_compute; reflexivity|discriminate].
Qed.
Print Assumptions C33_refuted_crash_before_save.
