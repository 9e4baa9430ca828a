(** What one run of a handler of Raft_Model sends and leaves, as far as the
    lease argument needs it. *)
From Coq Require Import List Arith Bool Lia.
From Verif Require Import Base Raft_Model Raft_Spec Raft_Abs Raft_InvL Raft_InvL2 Raft_InvC.
Import ListNotations.

Definition mfrom (x : msg) : nat :=
  match x with
  | RequestVote p _ _ _ _ _ => fst p | Vote p _ _ _ _ _ _ => fst p
  | AppendEntries p _ _ _ _ _ _ _ _ => fst p | Ack p _ _ _ _ _ _ _ _ _ => fst p
  end.
Definition isAE (x : msg) : bool := match x with AppendEntries _ _ _ _ _ _ _ _ _ => true | _ => false end.
Definition isGrant (x : msg) : bool := match x with Vote _ _ _ g _ _ _ => g | _ => false end.

Lemma eff_msgs_app : forall a b, eff_msgs (a ++ b) = eff_msgs a ++ eff_msgs b.
Proof. intros. apply flat_map_app. Qed.
Lemma eff_msgs_sends : forall A (h : A -> msg) l, eff_msgs (map (fun x => Send (h x)) l) = map h l.
Proof. intros A h. induction l as [|x l IH]; simpl; auto. rewrite IH. auto. Qed.
Lemma eff_msgs_wals : forall b es, eff_msgs (walWrites b es) = [].
Proof. intros. unfold walWrites. generalize (seq 0 (S (length es))). induction l as [|x l IH]; simpl; auto. Qed.
Lemma eff_msgs_firstn : forall k es x, In x (eff_msgs (firstn k es)) -> In x (eff_msgs es).
Proof.
  intros k es x H. rewrite <- (firstn_skipn k es). rewrite eff_msgs_app. apply in_app_iff. auto.
Qed.
Lemma eff_msgs_cwwc : forall p l, eff_msgs (snd (commitWhatWeCan p l)) = [].
Proof. intros. unfold commitWhatWeCan. destruct (length (p_applied p) <? p_commit p); reflexivity. Qed.

Section h.
Variable cfg : list nat.

Lemma bf_quiet : forall m t mc, eff_msgs (snd (becomeFollower m t mc)) = [] /\ m_role (fst (becomeFollower m t mc)) = Follower.
Proof.
  intros m t mc. unfold becomeFollower. destruct mc as [c|]; [destruct (p_mc (m_p m) <? c)|]; split; reflexivity.
Qed.

(** handleAppendEntries sends acks only. *)
Lemma hAE_msgs : forall n nd from t lt prev pt es lci mc m' effs x,
  handleAppendEntries n nd from t lt prev pt es lci mc = (m', effs) -> In x (eff_msgs effs) ->
  1 <= t /\ exists term rej gap lcri last mc',
    x = Ack (n, m_inc (n_mem nd)) (fst from) from t term rej gap lcri last mc' /\ (term = t -> mt nd <= t).
Proof.
  intros n nd from t lt prev pt es lci mc m' effs x H Hx. unfold handleAppendEntries in H.
  destruct (Nat.ltb_spec t 1) as [L|L]; [injection H as <- <-; destruct Hx|]. split; [lia|].
  set (early := p_commit (m_p (n_mem nd)) <? Nat.min (lcp lt (terms (d_log (n_disk nd)))) lci) in *.
  assert (FIN : forall (m0 : mem) (e0 : list effect) (r : mem * list effect),
    r = (if early then let '(q, e) := commitWhatWeCan (m_p m0) (d_log (n_disk nd)) in (set_p q m0, e0 ++ e) else (m0, e0)) ->
    eff_msgs (snd r) = eff_msgs e0).
  { intros m0 e0 r ->. destruct early; [|reflexivity].
    pose proof (eff_msgs_cwwc (m_p m0) (d_log (n_disk nd))) as Z.
    destruct (commitWhatWeCan (m_p m0) (d_log (n_disk nd))) as [q e]. cbn [snd] in *. rewrite eff_msgs_app, Z, app_nil_r. auto. }
  set (p1 := if early then set_commit _ _ else _) in H.
  set (e2 := if p_mc p1 <? mc then [SaveMC _] else []) in H.
  set (e3 := if mt nd <? t then [SaveTerm _] else []) in H.
  assert (E2 : eff_msgs e2 = []) by (subst e2; destruct (p_mc p1 <? mc); reflexivity).
  assert (E3 : eff_msgs e3 = []) by (subst e3; destruct (mt nd <? t); reflexivity).
  clearbody e2 e3 p1.
  destruct (Nat.ltb_spec t (mt nd)) as [Lt|Ge].
  - symmetry in H. apply FIN in H. cbn [snd] in H. rewrite H in Hx. cbn in Hx. destruct Hx as [<-|[]].
    do 6 eexists. split; [reflexivity|]. intros; lia.
  - destruct (aeDecide (d_log (n_disk nd)) lt prev pt es) as [gap| |base new].
    + symmetry in H. apply FIN in H. cbn [snd] in H. rewrite H in Hx. rewrite !eff_msgs_app, E2, E3 in Hx.
      destruct Hx as [<-|[]]. do 6 eexists. split; [reflexivity|]. auto.
    + symmetry in H. apply FIN in H. cbn [snd] in H. rewrite H in Hx. rewrite !eff_msgs_app, E2, E3 in Hx.
      destruct Hx as [<-|[]]. do 6 eexists. split; [reflexivity|]. auto.
    + set (p4 := if _ <? lci then _ else _) in H. clearbody p4.
      pose proof (eff_msgs_cwwc p4 (base ++ new)) as Z. destruct (commitWhatWeCan p4 (base ++ new)) as [p5 e5]. cbn [snd] in Z.
      injection H as <- <-. rewrite !eff_msgs_app, E2, E3, Z in Hx.
      destruct (length new =? 0); cbn [eff_msgs flat_map app] in Hx; try rewrite eff_msgs_wals in Hx;
        destruct Hx as [<-|[]]; do 6 eexists; (split; [reflexivity|]); auto.
Qed.

(** ... and makes a follower of a node it does not refuse. *)
Lemma hAE_role : forall n nd from t lt prev pt es lci mc m' effs,
  handleAppendEntries n nd from t lt prev pt es lci mc = (m', effs) ->
  m_role m' = Follower \/ (m_role m' = m_role (n_mem nd) /\ p_term (m_p m') = mt nd /\ (1 <= t -> t < mt nd)).
Proof.
  intros n nd from t lt prev pt es lci mc m' effs H. unfold handleAppendEntries in H.
  destruct (Nat.ltb_spec t 1) as [L|L]; [injection H as <- <-; right; split; [auto|split; [auto|lia]]|].
  set (early := p_commit (m_p (n_mem nd)) <? Nat.min (lcp lt (terms (d_log (n_disk nd)))) lci) in *.
  set (p1 := if early then set_commit _ _ else _) in H.
  assert (T1 : p_term p1 = mt nd) by (subst p1; destruct early; reflexivity).
  clearbody p1.
  assert (FIN : forall (m0 : mem) (e0 : list effect) (r : mem * list effect),
    r = (if early then let '(q, e) := commitWhatWeCan (m_p m0) (d_log (n_disk nd)) in (set_p q m0, e0 ++ e) else (m0, e0)) ->
    m_role (fst r) = m_role m0 /\ p_term (m_p (fst r)) = p_term (m_p m0)).
  { intros m0 e0 r ->. destruct early; [|auto]. unfold commitWhatWeCan.
    destruct (length (p_applied (m_p m0)) <? p_commit (m_p m0)); auto. }
  destruct (Nat.ltb_spec t (mt nd)) as [Lt|Ge].
  - right. symmetry in H. apply FIN in H. cbn in H. destruct H as (-> & ->). split; auto.
  - left. destruct (aeDecide (d_log (n_disk nd)) lt prev pt es) as [gap| |base new].
    + symmetry in H. apply FIN in H. apply H.
    + symmetry in H. apply FIN in H. apply H.
    + destruct (commitWhatWeCan _ (base ++ new)) as [p5 e5]. injection H as <- <-. reflexivity.
Qed.

(** tallyVote, result by result. *)
Lemma tally_shape : forall n nd from cand g ft t mc al nf m' effs,
  tallyVote cfg n nd from cand g ft t mc al nf = Some (m', effs) ->
  (m' = n_mem nd /\ effs = []) \/ (m_role m' = Follower /\ eff_msgs effs = []) \/
  (m_role (n_mem nd) = Candidate /\ t = mt nd /\
     ((m_role m' = Candidate /\ effs = [] /\ p_term (m_p m') = mt nd) \/
      exists m1, p_term (m_p m1) = mt nd /\ p_commit (m_p m1) = p_commit (m_p (n_mem nd)) /\ m_inc m1 = m_inc (n_mem nd) /\
        becomeLeader cfg n m1 (d_log (n_disk nd)) = Some (m', effs))).
Proof.
  intros n nd from cand g ft t mc al nf m' effs H. unfold tallyVote in H.
  destruct (Nat.ltb_spec t (mt nd)); [injection H as <- <-; auto|].
  destruct (Nat.ltb_spec (mt nd) t).
  { pose proof (bf_quiet (n_mem nd) t (Some mc)) as (Z1 & Z2). destruct (becomeFollower (n_mem nd) t (Some mc)) as [m1 e1].
    injection H as <- <-. right. left. split; auto. rewrite eff_msgs_app. cbn [snd] in Z1. rewrite Z1. reflexivity. }
  destruct (m_role (n_mem nd)) eqn:Er; cbn [is_cand negb] in H; try (injection H as <- <-; auto; fail).
  destruct (negb (inCfg cfg (fst from))); [injection H as <- <-; auto|].
  destruct (g && _); [injection H as <- <-; auto|].
  set (votes := if pid_eqb _ _ && _ && _ then _ else _) in H. set (peers := if pid_eqb _ _ && _ && _ then _ else _) in H.
  destruct (quorum cfg nf <=? 1 + countVotes true votes).
  { right. right. split; auto. split; [lia|]. right. eexists. split; [|split; [|split; [|exact H]]]; reflexivity. }
  destruct (quorum cfg nf <=? countVotes false votes).
  { injection H as <- <-. right. left. split; auto. }
  injection H as <- <-. right. right. split; auto. split; [lia|]. left. auto.
Qed.
Lemma bl_shape : forall n m l m' effs, becomeLeader cfg n m l = Some (m', effs) ->
  m_role m' = Leader /\ p_term (m_p m') = p_term (m_p m) /\ p_commit (m_p m') = p_commit (m_p m) /\
  m_noop m' = S (length l) /\ m_inc m' = m_inc m /\
  eff_msgs effs = map (newAE n m' (l ++ [mkE (p_term (m_p m)) noopCmd]) (length l) 1) (others cfg n) /\
  forall d, d_log (eff_disks d effs) = l ++ [mkE (p_term (m_p m)) noopCmd].
Proof.
  intros n m l m' effs H. unfold becomeLeader in H. destruct (p_term (m_p m) <=? p_mc (m_p m)); [discriminate|].
  injection H as <- <-. split; auto. split; auto. split; auto.
  split; [cbn; rewrite app_length; simpl; lia|]. split; [auto|]. split.
  - cbn [eff_msgs flat_map app]. rewrite flat_map_app. cbn [flat_map]. rewrite app_nil_r.
    apply (eff_msgs_sends nat (newAE n _ _ (length l) 1)).
  - intros d. unfold eff_disks. cbn [fold_left app]. rewrite fold_left_app. cbn [fold_left eff_disk].
    generalize (others cfg n). intros o. cbn [d_log].
    match goal with |- d_log (fold_left eff_disk (map ?h o) ?d0) = _ => 
      assert (Z : forall o, fold_left eff_disk (map h o) d0 = d0) by (clear; induction o as [|x r IH]; simpl; auto) end.
    rewrite Z. reflexivity.
Qed.

(** Everything a node sends carries its own name. *)
Lemma handle_from : forall net n nd ev m' effs x,
  handle cfg net n nd ev = Some (m', effs) -> In x (eff_msgs effs) -> mfrom x = n.
Proof.
  intros net n nd ev m' effs x H Hx. destruct ev; cbn [handle] in H.
  - injection H as <- <-. destruct Hx.
  - unfold beginElection in H. destruct (_ || _); [discriminate|]. injection H as <- <-.
    match type of Hx with In _ (eff_msgs (map (fun to => Send (@?h to)) ?l)) => rewrite (eff_msgs_sends nat h l) in Hx end.
    apply in_map_iff in Hx. destruct Hx as (v & <- & _). reflexivity.
  - unfold beginPreVote in H. destruct (is_leader _); [discriminate|]. injection H as <- <-. destruct Hx.
  - destruct (nth_error net k) as [y|]; [|discriminate]. destruct (msg_to y =? n); [|discriminate].
    destruct y as [c to t li lt mc|from to c g ft t mc|from to T lt prev pt es lci mc|from to l st t rej gap lcri li mc]; cbn [receive] in H.
    + injection H as H. unfold handleRequestVote in H.
      destruct (t <? mt nd); [injection H as <- <-; destruct Hx as [<-|[]]; reflexivity|].
      destruct (is_leader _ || b1); [injection H as <- <-; destruct Hx as [<-|[]]; reflexivity|].
      assert (Z : eff_msgs (snd (if mt nd <? t then becomeFollower (n_mem nd) t (Some mc) else (n_mem nd, []))) = [])
        by (destruct (mt nd <? t); [apply bf_quiet|reflexivity]).
      destruct (if mt nd <? t then becomeFollower (n_mem nd) t (Some mc) else (n_mem nd, [])) as [m1 e1] eqn:E1. cbn [snd] in Z.
      destruct (negb (mt nd <? t) && _); [injection H as <- <-; destruct Hx as [<-|[]]; reflexivity|].
      destruct (logUpToDateAsOurs _ _ _ _ _ _); injection H as <- <-; rewrite eff_msgs_app, Z in Hx; destruct Hx as [<-|[]]; reflexivity.
    + destruct (tally_shape _ _ _ _ _ _ _ _ _ _ _ _ H) as [(-> & ->)|[(_ & E)|(_ & _ & [(_ & -> & _)|(m1 & _ & _ & _ & E)])]].
      * destruct Hx. * rewrite E in Hx. destruct Hx. * destruct Hx.
      * destruct (bl_shape _ _ _ _ _ E) as (_ & _ & _ & _ & _ & Z & _). rewrite Z in Hx. apply in_map_iff in Hx.
        destruct Hx as (v & <- & _). reflexivity.
    + injection H as H. destruct (hAE_msgs _ _ _ _ _ _ _ _ _ _ _ _ _ H Hx) as (_ & a & b & c & d & e & f & -> & _). reflexivity.
    + injection H as H. unfold handleAck in H. destruct (mt nd <? t).
      { pose proof (bf_quiet (n_mem nd) t (Some mc)) as (Z1 & Z2). destruct (becomeFollower (n_mem nd) t (Some mc)) as [m1 e1].
        injection H as <- <-. rewrite eff_msgs_app in Hx. cbn [snd] in Z1. rewrite Z1 in Hx. destruct Hx. }
      assert (LA : forall m l nf r, leaderAdvanceCommitIndex cfg m l nf = r -> eff_msgs (snd r) = []).
      { clear H Hx. intros m l0 nf r <-. unfold leaderAdvanceCommitIndex. destruct (nth_error _ _); [|reflexivity].
        destruct (_ || _); [reflexivity|]. pose proof (eff_msgs_cwwc (set_commit n0 (m_p m)) l0) as Z.
        destruct (commitWhatWeCan _ _); exact Z. }
      destruct (_ || _); [injection H as <- <-; destruct Hx|].
      destruct rej; [destruct gap; [injection H as <- <-; destruct Hx|]|];
        repeat match type of H with context [if ?b then _ else _] => destruct b end;
        try (injection H as <- <-; destruct Hx; fail); apply LA in H; cbn [snd] in H; rewrite H in Hx; destruct Hx.
  - unfold replicateBatch in H. destruct (_ || _); [discriminate|].
    match type of H with Some (_, ?e) = Some _ => assert (E : effs = e) by congruence end. rewrite E in Hx. clear H E.
    rewrite eff_msgs_app, eff_msgs_wals in Hx. cbn [app] in Hx.
    match type of Hx with In _ (eff_msgs (map (fun to => Send (@?h to)) ?l)) => rewrite (eff_msgs_sends nat h l) in Hx end.
    apply in_map_iff in Hx. destruct Hx as (v & <- & _). reflexivity.
  - unfold leaderSend in H. destruct (_ || _); [discriminate|]. injection H as <- <-. destruct Hx as [<-|[]]. reflexivity.
  - unfold leaderHeartbeat in H. destruct (_ || _); [discriminate|]. injection H as <- <-. destruct Hx as [<-|[]]. reflexivity.
  - unfold leaderStepDown in H. destruct (is_leader _); [|discriminate].
    pose proof (bf_quiet (n_mem nd) (mt nd) None) as (Z1 & Z2). destruct (becomeFollower (n_mem nd) (mt nd) None) as [m1 e1].
    injection H as <- <-. rewrite eff_msgs_app in Hx. cbn [snd] in Z1. rewrite Z1 in Hx. destruct Hx.
  - unfold peerGone in H. injection H as <- <-. destruct Hx.
Qed.

Definition isRV (net : list msg) (k : nat) : Prop := exists c to t li lt mc, nth_error net k = Some (RequestVote c to t li lt mc).

(** handleAck keeps role, or makes a follower. *)
Lemma hAck_shape : forall n nd from leader t rej gap lcri li mc nf force m' effs,
  handleAck cfg n nd from leader t rej gap lcri li mc nf force = (m', effs) ->
  (m_role m' = Follower /\ mt nd < t) \/
  (m_role m' = m_role (n_mem nd) /\ p_term (m_p m') = mt nd /\ m_noop m' = m_noop (n_mem nd) /\
   (forall d, d_log (eff_disks d effs) = d_log d) /\
   (m_p m' = m_p (n_mem nd) \/ exists ci, p_commit (m_p (n_mem nd)) < ci /\ ci <= length (d_log (n_disk nd)) /\
      m_p m' = fst (commitWhatWeCan (set_commit ci (m_p (n_mem nd))) (d_log (n_disk nd))))).
Proof.
  intros n nd from leader t rej gap lcri li mc nf force m' effs H. unfold handleAck in H.
  destruct (Nat.ltb_spec (mt nd) t).
  { pose proof (bf_quiet (n_mem nd) t (Some mc)) as (_ & Z2). destruct (becomeFollower (n_mem nd) t (Some mc)) as [m1 e1].
    injection H as <- <-. auto. }
  right.
  assert (LA : forall m, m_p m = m_p (n_mem nd) -> m_role m = m_role (n_mem nd) -> m_noop m = m_noop (n_mem nd) ->
     forall r, leaderAdvanceCommitIndex cfg m (d_log (n_disk nd)) nf = r ->
     m_role (fst r) = m_role (n_mem nd) /\ p_term (m_p (fst r)) = mt nd /\ m_noop (fst r) = m_noop (n_mem nd) /\
     (forall d, d_log (eff_disks d (snd r)) = d_log d) /\
     (m_p (fst r) = m_p (n_mem nd) \/ exists ci, p_commit (m_p (n_mem nd)) < ci /\ ci <= length (d_log (n_disk nd)) /\
        m_p (fst r) = fst (commitWhatWeCan (set_commit ci (m_p (n_mem nd))) (d_log (n_disk nd))))).
  { clear H. intros m E1 E2 E3 r <-. unfold leaderAdvanceCommitIndex. rewrite E1.
    assert (B : m_role m = m_role (n_mem nd) /\ p_term (m_p m) = mt nd /\ m_noop m = m_noop (n_mem nd) /\
       (forall d : disk, d_log d = d_log d) /\ (m_p m = m_p (n_mem nd) \/ exists ci, p_commit (m_p (n_mem nd)) < ci /\ ci <= length (d_log (n_disk nd)) /\
        m_p m = fst (commitWhatWeCan (set_commit ci (m_p (n_mem nd))) (d_log (n_disk nd))))).
    { rewrite E1. auto 8. }
    destruct (nth_error _ _) as [ci|]; [|exact B].
    destruct ((ci =? 0) || (ci <=? p_commit (m_p (n_mem nd))) || (length (nlog nd) <? ci) || negb (termAt (nlog nd) ci =? mt nd)) eqn:Eb; [exact B|].
    clear B. apply orb_false_iff in Eb. destruct Eb as (Eb & _). apply orb_false_iff in Eb. destruct Eb as (Eb & E5).
    apply orb_false_iff in Eb. destruct Eb as (_ & E4). apply Nat.leb_gt in E4. apply Nat.ltb_ge in E5.
    assert (W : forall q e, commitWhatWeCan (set_commit ci (m_p (n_mem nd))) (nlog nd) = (q, e) ->
       p_term q = mt nd /\ forall d, d_log (eff_disks d e) = d_log d).
    { intros q e. unfold commitWhatWeCan. destruct (_ <? _); intros X; injection X as <- <-; split; reflexivity. }
    destruct (commitWhatWeCan (set_commit ci (m_p (n_mem nd))) (nlog nd)) as [q e] eqn:Eq. cbn.
    destruct (W q e eq_refl) as (W1 & W2). split; auto. split; auto. split; auto. split; auto.
    right. exists ci. rewrite Eq. auto. }
  assert (K : forall m (r : mem * list effect), m_p m = m_p (n_mem nd) -> m_role m = m_role (n_mem nd) -> m_noop m = m_noop (n_mem nd) ->
     (m, []) = (m', effs) -> m_role m' = m_role (n_mem nd) /\ p_term (m_p m') = mt nd /\ m_noop m' = m_noop (n_mem nd) /\
   (forall d, d_log (eff_disks d effs) = d_log d) /\
   (m_p m' = m_p (n_mem nd) \/ exists ci, p_commit (m_p (n_mem nd)) < ci /\ ci <= length (d_log (n_disk nd)) /\
      m_p m' = fst (commitWhatWeCan (set_commit ci (m_p (n_mem nd))) (d_log (n_disk nd))))).
  { intros m r E1 E2 E3 X. injection X as <- <-. rewrite E1. split; auto. }
  destruct (_ || _); [eapply K; [exact (m', effs)| | | |exact H]; reflexivity|].
  destruct rej; [destruct gap; [eapply K; [exact (m', effs)| | | |exact H]; reflexivity|]|];
    repeat match type of H with context [if ?b then _ else _] => destruct b end;
    first [eapply K; [exact (m', effs)| | | |exact H]; reflexivity
          |match type of H with leaderAdvanceCommitIndex _ ?m _ _ = _ => apply (LA m eq_refl eq_refl eq_refl _ H) end].
Qed.

Lemma hRV_shape : forall n nd from t li lt mc st m' effs,
  handleRequestVote n nd from t li lt mc st = (m', effs) ->
  (forall x, In x (eff_msgs effs) -> isAE x = false) /\ (forall d, d_log (eff_disks d effs) = d_log d) /\
  (st = true \/ m_role (n_mem nd) = Leader -> m' = n_mem nd /\ forall x, In x (eff_msgs effs) -> isGrant x = false) /\
  (m_role m' = Follower \/ (m_role m' = m_role (n_mem nd) /\ m_p m' = m_p (n_mem nd)) \/ (m_role m' = m_role (n_mem nd) /\ m_role m' <> Leader)).
Proof.
  intros n nd from t li lt mc st m' effs H. unfold handleRequestVote in H.
  destruct (t <? mt nd). { injection H as <- <-. cbn. intuition (subst; auto). }
  destruct (is_leader (m_role (n_mem nd)) || st) eqn:El. { injection H as <- <-. cbn. intuition (subst; auto). }
  apply orb_false_iff in El. destruct El as (El & ->).
  assert (NL : m_role (n_mem nd) <> Leader) by (destruct (m_role (n_mem nd)); discriminate || auto).
  assert (Z : eff_msgs (snd (if mt nd <? t then becomeFollower (n_mem nd) t (Some mc) else (n_mem nd, []))) = [] /\
     (forall d, d_log (eff_disks d (snd (if mt nd <? t then becomeFollower (n_mem nd) t (Some mc) else (n_mem nd, [])))) = d_log d) /\
     (m_role (fst (if mt nd <? t then becomeFollower (n_mem nd) t (Some mc) else (n_mem nd, []))) = Follower \/
      m_role (fst (if mt nd <? t then becomeFollower (n_mem nd) t (Some mc) else (n_mem nd, []))) = m_role (n_mem nd))).
  { destruct (mt nd <? t); [|cbn; auto]. destruct (bf_quiet (n_mem nd) t (Some mc)) as (Z1 & Z2). split; auto. split; auto.
    intros d. unfold becomeFollower. destruct (p_mc (m_p (n_mem nd)) <? mc); reflexivity. }
  destruct (if mt nd <? t then becomeFollower (n_mem nd) t (Some mc) else (n_mem nd, [])) as [m1 e1] eqn:E1. cbn [fst snd] in Z.
  destruct Z as (Z1 & Z2 & Z3).
  destruct (negb (mt nd <? t) && _). { injection H as <- <-. cbn. intuition (subst; auto; congruence). }
  assert (D : forall p x d, d_log (eff_disks d (e1 ++ [SaveTerm p; Send x])) = d_log d).
  { intros p x d. unfold eff_disks. rewrite fold_left_app. cbn. apply Z2. }
  destruct (logUpToDateAsOurs _ _ _ _ _ _); injection H as <- <-.
  - split; [|split; [apply D|split]].
    + intros x Hx. rewrite eff_msgs_app, Z1 in Hx. destruct Hx as [<-|[]]. reflexivity.
    + intros [|]; [discriminate|contradiction].
    + cbn [m_role set_p]. destruct Z3 as [Z3|Z3]; [auto|]. rewrite Z3. auto.
  - split; [|split; [apply D|split]].
    + intros x Hx. rewrite eff_msgs_app, Z1 in Hx. destruct Hx as [<-|[]]. reflexivity.
    + intros [|]; [discriminate|contradiction].
    + destruct Z3 as [Z3|Z3]; [auto|]. rewrite Z3. auto.
Qed.

(** A follower that does not start an election and is sticky towards the
    candidates it hears grants no vote, sends no AppendEntries and stays a
    follower. *)
Lemma handle_quiet : forall net n nd ev m' effs,
  handle cfg net n nd ev = Some (m', effs) -> m_role (n_mem nd) = Follower -> ev <> NElect ->
  (forall k b1 b2, ev = NRecv k b1 b2 -> isRV net k -> b1 = true) ->
  m_role m' = Follower /\ forall x, In x (eff_msgs effs) -> isAE x = false /\ isGrant x = false.
Proof.
  intros net n nd ev m' effs H Hf Hne Hrv. destruct ev; cbn [handle] in H.
  - injection H as <- <-. split; auto. intros x [].
  - congruence.
  - unfold beginPreVote in H. rewrite Hf in H. injection H as <- <-. split; auto. intros x [].
  - destruct (nth_error net k) as [y|] eqn:En; [|discriminate]. destruct (msg_to y =? n); [|discriminate].
    destruct y as [c to t li lt mc|from to c g ft t mc|from to T lt prev pt es lci mc|from to l st t rej gap lcri li mc]; cbn [receive] in H.
    + injection H as H. assert (B : b1 = true) by (eapply Hrv; eauto; do 6 eexists; eauto). subst b1.
      destruct (hRV_shape _ _ _ _ _ _ _ _ _ _ H) as (A1 & _ & A2 & _). destruct (A2 (or_introl eq_refl)) as (-> & A3). auto.
    + destruct (tally_shape _ _ _ _ _ _ _ _ _ _ _ _ H) as [(-> & ->)|[(A & E)|(A & _)]]; [| |congruence].
      * split; auto. intros x []. * split; auto. rewrite E. intros x [].
    + injection H as H. split.
      * destruct (hAE_role _ _ _ _ _ _ _ _ _ _ _ _ H) as [?|(? & _)]; congruence.
      * intros x Hx. destruct (hAE_msgs _ _ _ _ _ _ _ _ _ _ _ _ _ H Hx) as (_ & a & b & c & d & e & f & -> & _). auto.
    + injection H as H. split.
      * destruct (hAck_shape _ _ _ _ _ _ _ _ _ _ _ _ _ _ H) as [(? & _)|(? & _)]; congruence.
      * unfold handleAck in H. destruct (mt nd <? t).
        { pose proof (bf_quiet (n_mem nd) t (Some mc)) as (Z1 & Z2). destruct (becomeFollower (n_mem nd) t (Some mc)) as [m1 e1].
          injection H as <- <-. rewrite eff_msgs_app. cbn [snd] in Z1. rewrite Z1. intros x []. }
        rewrite Hf in H. cbn [is_leader negb] in H. rewrite orb_true_r in H. cbn [orb] in H. injection H as <- <-. intros x [].
  - unfold replicateBatch in H. rewrite Hf in H. discriminate.
  - unfold leaderSend in H. rewrite Hf in H. discriminate.
  - unfold leaderHeartbeat in H. rewrite Hf in H. discriminate.
  - unfold leaderStepDown in H. rewrite Hf in H. discriminate.
  - unfold peerGone in H. injection H as <- <-. split; auto. intros x [].
Qed.

(** Where leaders and candidates come from. *)
Lemma handle_role : forall net n nd ev m' effs,
  handle cfg net n nd ev = Some (m', effs) ->
  (m_role m' = Leader ->
     (m_role (n_mem nd) = Leader /\ p_term (m_p m') = mt nd) \/
     (m_role (n_mem nd) = Candidate /\ exists k b1 b2 from to c g ft t mc, ev = NRecv k b1 b2 /\
        nth_error net k = Some (Vote from to c g ft t mc))) /\
  (m_role m' = Candidate -> ev = NElect \/ m_role (n_mem nd) = Candidate).
Proof.
  intros net n nd ev m' effs H. destruct ev; cbn [handle] in H.
  - injection H as <- <-. auto.
  - unfold beginElection in H. destruct (_ || _); [discriminate|]. injection H as <- <-. split; [discriminate|auto].
  - unfold beginPreVote in H. destruct (is_leader _); [discriminate|]. injection H as <- <-. split; discriminate.
  - destruct (nth_error net k) as [y|] eqn:En; [|discriminate]. destruct (msg_to y =? n); [|discriminate].
    destruct y as [c to t li lt mc|from to c g ft t mc|from to T lt prev pt es lci mc|from to l st t rej gap lcri li mc]; cbn [receive] in H.
    + injection H as H. destruct (hRV_shape _ _ _ _ _ _ _ _ _ _ H) as (_ & _ & _ & [A|[(A & B)|(A & B)]]).
      * rewrite A. split; discriminate. * rewrite A, B. auto. * split; [contradiction|rewrite A; auto].
    + destruct (tally_shape _ _ _ _ _ _ _ _ _ _ _ _ H) as [(-> & ->)|[(A & E)|(A & _)]].
      * auto. * rewrite A. split; discriminate.
      * split; [|auto]. intros _. right. split; auto. do 10 eexists. split; [reflexivity|eauto].
    + injection H as H. destruct (hAE_role _ _ _ _ _ _ _ _ _ _ _ _ H) as [A|(A & B & _)]; rewrite A; [split; discriminate|auto].
    + injection H as H. destruct (hAck_shape _ _ _ _ _ _ _ _ _ _ _ _ _ _ H) as [(A & _)|(A & B & _)]; rewrite A; [split; discriminate|auto].
  - unfold replicateBatch in H. destruct (_ || _); [discriminate|].
    assert (E : m' = n_mem nd) by congruence. subst m'. auto.
  - unfold leaderSend in H. destruct (_ || _); [discriminate|]. injection H as <- <-. auto.
  - unfold leaderHeartbeat in H. destruct (_ || _); [discriminate|]. injection H as <- <-. auto.
  - unfold leaderStepDown in H. destruct (is_leader _); [|discriminate].
    pose proof (bf_quiet (n_mem nd) (mt nd) None) as (_ & Z2). destruct (becomeFollower (n_mem nd) (mt nd) None) as [m1 e1].
    injection H as <- <-. cbn [fst] in Z2. rewrite Z2. split; discriminate.
  - unfold peerGone in H. injection H as <- <-. auto.
Qed.

(** What a leader knows of its own log: its entries start at noop0, and once
    noop0 is committed all that is committed is applied. *)
Definition LI (nd : node) : Prop := m_role (n_mem nd) = Leader ->
  1 <= m_noop (n_mem nd) <= length (nlog nd) /\
  (forall i e, m_noop (n_mem nd) <= S i -> nth_error (nlog nd) i = Some e -> e_term e = mt nd) /\
  (m_noop (n_mem nd) <= p_commit (m_p (n_mem nd)) -> length (p_applied (m_p (n_mem nd))) = p_commit (m_p (n_mem nd))).

Lemma cwwc_applied : forall p l, length (p_applied p) <= p_commit p -> p_commit p <= length l ->
  length (p_applied (fst (commitWhatWeCan p l))) = p_commit (fst (commitWhatWeCan p l)).
Proof.
  intros p l A B. unfold commitWhatWeCan. destruct (Nat.ltb_spec (length (p_applied p)) (p_commit p)); cbn; [|lia].
  rewrite app_length, firstn_length, skipn_length. lia.
Qed.

Lemma handle_LI : forall net n nd ev m' effs,
  handle cfg net n nd ev = Some (m', effs) ->
  p_commit (m_p (n_mem nd)) <= length (nlog nd) -> length (p_applied (m_p (n_mem nd))) <= p_commit (m_p (n_mem nd)) ->
  LI nd -> LI (mkN m' (eff_disks (n_disk nd) effs)).
Proof.
  intros net n nd ev m' effs H Hc Ha HL Hr. cbn [n_mem n_disk] in *.
  assert (SAME : m_role (n_mem nd) = Leader -> m_noop m' = m_noop (n_mem nd) -> m_p m' = m_p (n_mem nd) ->
     d_log (eff_disks (n_disk nd) effs) = nlog nd ->
     1 <= m_noop m' <= length (d_log (eff_disks (n_disk nd) effs)) /\
     (forall i e, m_noop m' <= S i -> nth_error (d_log (eff_disks (n_disk nd) effs)) i = Some e -> e_term e = p_term (m_p m')) /\
     (m_noop m' <= p_commit (m_p m') -> length (p_applied (m_p m')) = p_commit (m_p m'))).
  { intros A B C D. rewrite B, C, D. apply HL; auto. }
  destruct ev; cbn [handle] in H.
  - injection H as <- <-. auto.
  - unfold beginElection in H. destruct (_ || _); [discriminate|]. injection H as <- <-. discriminate.
  - unfold beginPreVote in H. destruct (is_leader _); [discriminate|]. injection H as <- <-. discriminate.
  - destruct (nth_error net k) as [y|] eqn:En; [|discriminate]. destruct (msg_to y =? n); [|discriminate].
    destruct y as [c to t li lt mc|from to c g ft t mc|from to T lt prev pt es lci mc|from to l st t rej gap lcri li mc]; cbn [receive] in H.
    + injection H as H. destruct (hRV_shape _ _ _ _ _ _ _ _ _ _ H) as (_ & A1 & A2 & [A|[(A & B)|(A & B)]]); [congruence| |contradiction].
      rewrite Hr in A. symmetry in A. destruct (A2 (or_intror A)) as (-> & _). apply SAME; auto.
    + destruct (tally_shape _ _ _ _ _ _ _ _ _ _ _ _ H) as [(-> & ->)|[(A & E)|(A & _ & [(B & _)|(m1 & B1 & B2 & B3 & B)])]].
      * apply SAME; auto. * congruence. * congruence.
      * destruct (bl_shape _ _ _ _ _ B) as (C1 & C2 & C3 & C4 & C5 & C6 & C7). rewrite C7, C4, app_length. cbn [length].
        split; [lia|]. split; [|rewrite C3, B2; lia].
        intros i e Hi He. rewrite nth_error_app2 in He by lia. destruct (i - length (nlog nd)) as [|j] eqn:Ej; [|destruct j; discriminate].
        injection He as <-. cbn. congruence.
    + injection H as H.
      destruct (hAE_role _ _ _ _ _ _ _ _ _ _ _ _ H) as [A|(A & B & C)]; [congruence|].
      unfold handleAppendEntries in H. destruct (Nat.ltb_spec T 1) as [L|L]; [injection H as <- <-; apply SAME; auto|].
      specialize (C L). destruct (T <? mt nd) eqn:Et; [|apply Nat.ltb_ge in Et; lia].
      rewrite Hr in A. symmetry in A. destruct (HL A) as (L1 & L2 & L3).
      set (c := lcp lt (terms (d_log (n_disk nd)))) in H.
      assert (Hcl : c <= length (nlog nd)).
      { unfold c. etransitivity; [apply lcp_le_r|]. unfold terms. rewrite map_length. lia. }
      destruct (Nat.ltb_spec (p_commit (m_p (n_mem nd))) (Nat.min c lci)) as [Le|Le].
      * cbn [m_p set_p] in H.
        pose proof (cwwc_applied (set_commit (Nat.min c lci) (m_p (n_mem nd))) (d_log (n_disk nd))) as Z.
        cbn [p_applied p_commit set_commit] in Z.
        assert (W : p_term (fst (commitWhatWeCan (set_commit (Nat.min c lci) (m_p (n_mem nd))) (d_log (n_disk nd)))) = mt nd /\
           forall d, d_log (eff_disks d (snd (commitWhatWeCan (set_commit (Nat.min c lci) (m_p (n_mem nd))) (d_log (n_disk nd))))) = d_log d).
        { clear. unfold commitWhatWeCan. destruct (length (p_applied (set_commit (Nat.min c lci) (m_p (n_mem nd)))) <? _); split; reflexivity. }
        destruct (commitWhatWeCan (set_commit (Nat.min c lci) (m_p (n_mem nd))) (d_log (n_disk nd))) as [q e]. cbn [fst snd] in *.
        injection H as <- <-. cbn [m_p set_p m_noop]. destruct W as (W1 & W2).
        assert (D : d_log (eff_disks (n_disk nd) (Send (Ack (n, m_inc (n_mem nd)) (fst from) from T (mt nd) true false c (length (d_log (n_disk nd)))
                    (p_mc (m_p (n_mem nd)))) :: e)) = nlog nd) by (cbn; apply W2).
        cbn [app] in *. rewrite D, W1. split; auto. split; auto. intros _. apply Z; [lia|]. lia.
      * injection H as <- <-. cbn [m_p set_p m_noop]. apply SAME; auto.
    + injection H as H. destruct (hAck_shape _ _ _ _ _ _ _ _ _ _ _ _ _ _ H) as [(A & _)|(A & B & C & D & [E|(ci & E1 & E2 & E)])]; [congruence| |].
      * apply SAME; auto. congruence.
      * rewrite Hr in A. symmetry in A. destruct (HL A) as (L1 & L2 & L3). rewrite C, D, B. split; auto. split; auto.
        intros _. rewrite E. apply cwwc_applied; cbn; lia.
  - unfold replicateBatch in H. destruct (is_leader (m_role (n_mem nd))) eqn:El; cbn [negb orb] in H; [|discriminate].
    destruct (_ || _); [discriminate|]. assert (A : m_role (n_mem nd) = Leader) by (destruct (m_role (n_mem nd)); discriminate || auto).
    match type of H with Some (_, ?e) = Some _ => assert (E : effs = e) by congruence; assert (E' : m' = n_mem nd) by congruence end.
    destruct (HL A) as (L1 & L2 & L3). subst m'.
    assert (D : d_log (eff_disks (n_disk nd) effs) = nlog nd ++ map (mkE (mt nd)) cmds).
    { rewrite E. unfold eff_disks. rewrite fold_left_app.
      match goal with |- d_log (fold_left eff_disk (map ?h _) ?d0) = _ =>
        assert (Z : forall o, fold_left eff_disk (map h o) d0 = d0) by (clear; induction o as [|x r IH]; simpl; auto) end.
      rewrite Z. unfold walWrites. rewrite seq_S, map_app, fold_left_app. cbn [map fold_left eff_disk d_log].
      rewrite Nat.add_0_l, firstn_all. reflexivity. }
    rewrite D, app_length. split; [lia|]. split; auto. intros i e Hi He.
    destruct (Nat.lt_ge_cases i (length (nlog nd))) as [Li|Li].
    + rewrite nth_error_app1 in He by auto. eauto.
    + rewrite nth_error_app2 in He by auto. apply nth_error_In in He. apply in_map_iff in He. destruct He as (x & <- & _). reflexivity.
  - unfold leaderSend in H. destruct (is_leader (m_role (n_mem nd))) eqn:El; cbn [negb orb] in H; [|discriminate].
    destruct (_ || _); [discriminate|]. injection H as <- <-. apply SAME; auto.
  - unfold leaderHeartbeat in H. destruct (is_leader (m_role (n_mem nd))) eqn:El; cbn [negb orb] in H; [|discriminate].
    destruct (to =? n); [discriminate|]. injection H as <- <-. apply SAME; auto.
  - unfold leaderStepDown in H. destruct (is_leader _); [|discriminate].
    pose proof (bf_quiet (n_mem nd) (mt nd) None) as (_ & Z2). destruct (becomeFollower (n_mem nd) (mt nd) None) as [m1 e1].
    injection H as <- <-. cbn [fst] in Z2. congruence.
  - unfold peerGone in H. injection H as <- <-. apply SAME; auto.
Qed.
End h.
