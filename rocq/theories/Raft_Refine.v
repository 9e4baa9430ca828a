(** Every handler of Raft_Model, run to its end or cut by a crash, is a
    sequence of the small steps of Raft_Abs. *)
From Coq Require Import List Arith Bool Lia.
From Verif Require Import Base Raft_Model Raft_Spec Raft_Abs Raft_InvL Raft_InvL2 Raft_InvC Raft_InvC2 Raft_Inv.
Import ListNotations.

Ltac red_n := cbn [n_mem n_disk d_p d_log m_p m_role m_inc m_votes m_noop m_peers set_p set_mc set_commit
  set_term_vote set_applied p_term p_vote p_mc p_commit p_applied fst snd] in *.

Lemma eff_disks_app : forall a b d, eff_disks d (a ++ b) = eff_disks (eff_disks d a) b.
Proof. intros; unfold eff_disks; apply fold_left_app. Qed.
Lemma eff_msgs_app : forall a b, eff_msgs (a ++ b) = eff_msgs a ++ eff_msgs b.
Proof. intros; unfold eff_msgs; apply flat_map_app. Qed.

Lemma Some_pair_inj : forall A B (a c : A) (b d : B), Some (a, b) = Some (c, d) -> c = a /\ d = b.
Proof. intros A B a c b d H. injection H; auto. Qed.
Lemma pair_inj : forall A B (a c : A) (b d : B), (a, b) = (c, d) -> c = a /\ d = b.
Proof. intros A B a c b d H. injection H; auto. Qed.

Section refine.
Variable cfg : list nat.
Variable strong : bool.
Variable n : nat.
Notation nstep := (nstep cfg strong n).
Notation nstar := (nstar cfg strong n).

(** Node [nd] can carry out [effs] and end with memory [m'], stopping at any
    allowed point on the way. *)
Definition covers (nd : node) (net : list msg) (effs : list effect) (m' : mem) : Prop :=
  (forall e1 e2, effs = e1 ++ e2 -> existsb isSaveTerm e2 = false ->
     exists m'', m_inc m'' = m_inc (n_mem nd) /\
       nstar nd net (mkN m'' (eff_disks (n_disk nd) e1)) (net ++ eff_msgs e1)) /\
  m_inc m' = m_inc (n_mem nd) /\
  nstar nd net (mkN m' (eff_disks (n_disk nd) effs)) (net ++ eff_msgs effs).

Lemma covers_nil : forall m d net m', m_inc m' = m_inc m ->
  nstar (mkN m d) net (mkN m' d) net -> covers (mkN m d) net [] m'.
Proof.
  intros m d net m' Hi H. split; [|split; auto].
  - intros e1 e2 E _. destruct e1; [|discriminate]. exists m. simpl. rewrite app_nil_r. split; auto. apply nstar_refl.
  - simpl. rewrite app_nil_r. auto.
Qed.
Lemma covers_refl : forall m d net, covers (mkN m d) net [] m.
Proof. intros. apply covers_nil; auto. apply nstar_refl. Qed.

Lemma covers_one : forall m d net e m', m_inc m' = m_inc m ->
  nstar (mkN m d) net (mkN m' (eff_disk d e)) (net ++ eff_msgs [e]) -> covers (mkN m d) net [e] m'.
Proof.
  intros m d net e m' Hi H. split; [|split; auto].
  intros e1 e2 E _. destruct e1 as [|x e1].
  - exists m. simpl. rewrite app_nil_r. split; auto. apply nstar_refl.
  - injection E as <- E. destruct e1; [|discriminate]. exists m'. auto.
Qed.

Lemma covers_app : forall nd net a b m1 m2,
  covers nd net a m1 ->
  covers (mkN m1 (eff_disks (n_disk nd) a)) (net ++ eff_msgs a) b m2 ->
  covers nd net (a ++ b) m2.
Proof.
  intros nd net a b m1 m2 (A1 & A2 & A3) (B1 & B2 & B3). red_n. split; [|split; [congruence|]].
  - intros e1 e2 E He. apply app_eq_app in E.
    destruct E as (l & [(-> & ->)|(-> & ->)]).
    + (* cut inside a *)
      destruct (A1 e1 l eq_refl) as (m'' & Hm & Hs); eauto.
      rewrite existsb_app in He. apply orb_false_elim in He. tauto.
    + destruct (B1 l e2 eq_refl He) as (m'' & Hm & Hs). exists m''. split; [congruence|].
      rewrite eff_disks_app, eff_msgs_app, app_assoc. eapply nstar_trans; eauto.
  - rewrite eff_disks_app, eff_msgs_app, app_assoc. eapply nstar_trans; eauto.
Qed.

Lemma covers_mem : forall m d net m1 effs m2, m_inc m1 = m_inc m ->
  nstar (mkN m d) net (mkN m1 d) net -> covers (mkN m1 d) net effs m2 -> covers (mkN m d) net effs m2.
Proof.
  intros m d net m1 effs m2 Hi H C. change effs with ([] ++ effs). eapply covers_app.
  - apply covers_nil; eauto.
  - simpl. rewrite app_nil_r. auto.
Qed.

(** A run ending with its term save cannot be cut before it. *)
Lemma covers_saveterm : forall nd net a p m',
  m_inc m' = m_inc (n_mem nd) ->
  nstar nd net (mkN m' (eff_disks (n_disk nd) (a ++ [SaveTerm p]))) (net ++ eff_msgs (a ++ [SaveTerm p])) ->
  covers nd net (a ++ [SaveTerm p]) m'.
Proof.
  intros nd net a p m' Hi H. split; [|split; auto].
  intros e1 e2 E He. destruct (destruct_list e2) as [(x & r & Er)|Er].
  - exfalso. destruct (exists_last (l := e2)) as (r' & y & Ey); [subst; discriminate|].
    rewrite Ey, app_assoc in E. apply app_inj_tail in E. destruct E as (_ & <-).
    rewrite Ey, existsb_app in He. simpl in He. rewrite orb_true_r in He. discriminate.
  - subst e2. rewrite app_nil_r in E. subst e1. exists m'. auto.
Qed.

Lemma covers_sends : forall xs m d net,
  (forall x net', In x xs -> incl net net' -> nstep (mkN m d) net' (mkN m d) (net' ++ [x])) ->
  covers (mkN m d) net (map Send xs) m.
Proof.
  induction xs as [|x xs IH]; intros m d net H.
  - apply covers_refl.
  - change (map Send (x :: xs)) with ([Send x] ++ map Send xs). eapply covers_app.
    + apply covers_one; eauto. apply nstar_one. apply H; [left; auto|apply incl_refl].
    + simpl. apply IH. intros y net' Hy Hi. apply H; [right; auto|].
      intros z Hz. apply Hi. apply in_app_iff; auto.
Qed.

Lemma in_others : forall to, In to (others cfg n) -> to <> n.
Proof.
  intros to H. unfold others in H. apply filter_In in H. destruct H as (_ & H). intros ->.
  rewrite Nat.eqb_refl in H. discriminate.
Qed.
Lemma inCfg_In : forall k, inCfg cfg k = true -> In k cfg.
Proof.
  intros k H. unfold inCfg in H. apply existsb_exists in H. destruct H as (y & Hy & E). apply Nat.eqb_eq in E. congruence.
Qed.
Lemma pid_eqb_eq : forall p q, pid_eqb p q = true -> p = q.
Proof. intros [a b] [c d]. unfold pid_eqb. simpl. intros H. apply andb_prop in H. destruct H as (A & B). apply Nat.eqb_eq in A, B. congruence. Qed.
Lemma pid_eqb_refl : forall p, pid_eqb p p = true.
Proof. intros [a b]. unfold pid_eqb. simpl. rewrite !Nat.eqb_refl. auto. Qed.
Lemma pid_eqb_neq : forall p q, pid_eqb p q = false -> p <> q.
Proof. intros p q H ->. rewrite pid_eqb_refl in H. discriminate. Qed.

Lemma lookupPeer_In : forall q ps k, lookupPeer q ps = Some k -> In (q, k) ps.
Proof.
  induction ps as [|(x, j) ps IH]; simpl; [discriminate|]. intros k.
  destruct (pid_eqb x q) eqn:E; auto. intros [= ->]. apply pid_eqb_eq in E. subst; auto.
Qed.
Lemma setPeer_In : forall q k ps a j, In (a, j) (setPeer q k ps) -> In (a, j) ps \/ (a = q /\ j = k).
Proof.
  induction ps as [|(x, i) ps IH]; simpl; intros a j H.
  - destruct H as [[= <- <-]|[]]; auto.
  - destruct (pid_eqb x q) eqn:E.
    + destruct H as [[= <- <-]|H]; auto. apply pid_eqb_eq in E. auto.
    + destruct H as [H|H]; auto. destruct (IH a j H); auto.
Qed.
Lemma addPeer_In : forall q ps a j, In (a, j) (addPeer q ps) -> j = 0 \/ In (a, j) ps.
Proof.
  intros q ps a j H. unfold addPeer in H. destruct (lookupPeer q ps); auto.
  apply setPeer_In in H. destruct H as [|(_ & ->)]; auto.
Qed.

Section with_inv.
Variable f : nat -> node.
Variable net : list msg.
Variable gh : ghost.
Variable m : mem.
Variable d : disk.
Hypothesis I : InvL cfg f net gh.
Hypothesis En : f n = mkN m d.
Hypothesis IC : strong = true -> InvC cfg f net gh.

Let HN : nodeL cfg gh n (mkN m d).
Proof. rewrite <- En. apply I. Qed.
Lemma mc_le : p_mc (m_p m) <= p_term (m_p m).
Proof. pose proof (nl_mc _ _ _ _ HN). pose proof (nl_le _ _ _ _ HN). red_n. lia. Qed.

(** Stepping up to a higher term: memory and disk. *)
Lemma follow_higher : forall t mc m1 e1,
  p_term (m_p m) < t -> mc <= t -> becomeFollower m t (Some mc) = (m1, e1) ->
  m_role m1 = Follower /\ m_inc m1 = m_inc m /\ p_term (m_p m1) = t /\ p_vote (m_p m1) = None /\
  p_mc (m_p m1) <= t /\ d_log (eff_disks d e1) = d_log d /\ existsb isSaveTerm e1 = false /\ eff_msgs e1 = [] /\
  nstar (mkN m d) net (mkN m1 (mkD (m_p m1) (d_log d))) net.
Proof.
  intros t mc m1 e1 Ht Hmc. pose proof mc_le as Hmle. unfold becomeFollower.
  destruct m as [p r i vs np ps] eqn:Em. cbv zeta. cbn [m_p m_inc m_votes m_peers] in *.
  destruct (Nat.ltb_spec (p_term p) t); [|lia]. cbn [orb].
  destruct p as [pt pv pm pc pa]. red_n.
  destruct (Nat.ltb_spec pm mc); intros [= <- <-]; red_n; repeat (split; [auto; lia|]).
  - (* newer MC *)
    eapply nstar_step; [apply (ns_term _ _ _ _ _ _ _ _ 0 _ _ _ t); red_n; auto|]. red_n.
    eapply nstar_step; [apply ns_save|]. red_n.
    eapply nstar_step; [apply (ns_mc _ _ _ _ _ _ mc); red_n; auto; discriminate|]. red_n.
    eapply nstar_step; [apply ns_save|]. red_n. apply nstar_refl.
  - eapply nstar_step; [apply (ns_term _ _ _ _ _ _ _ _ 0 _ _ _ t); red_n; auto|]. red_n.
    eapply nstar_step; [apply ns_save|]. red_n. apply nstar_refl.
Qed.

Lemma covers_elect : forall m' effs, beginElection cfg n (mkN m d) = Some (m', effs) ->
  covers (mkN m d) net effs m'.
Proof.
  intros m' effs. unfold beginElection. red_n.
  destruct (negb (inCfg cfg n) || (length cfg <=? 1) || is_leader (m_role m)) eqn:E; [discriminate|].
  apply orb_false_elim in E. destruct E as (E & E3). apply orb_false_elim in E. destruct E as (E1 & E2).
  apply negb_false_iff, inCfg_In in E1. apply Nat.leb_gt in E2.
  intros [= <- <-]. destruct m as [p r i vs np ps]. red_n.
  eapply covers_mem; [| |].
  2:{ apply nstar_one. eapply (ns_elect cfg strong n p r i vs np ps (map (fun x => (fst x, 0)) ps)); eauto.
      - destruct r; simpl in E3; congruence.
      - intros q k Hq. apply in_map_iff in Hq. destruct Hq as (? & [= _ <-] & _); auto. }
  - reflexivity.
  - rewrite <- map_map with (f := fun to => RequestVote (n, i) to (if is_foll r then S (p_term p) else p_term p) (lastIdx (d_log d)) (lastTerm (d_log d)) (p_mc p)) (g := Send).
    apply covers_sends. intros x net' Hx _. apply in_map_iff in Hx. destruct Hx as (to & <- & Hto).
    apply (ns_sendRV cfg strong n (mkM (set_term_vote (if is_foll r then S (p_term p) else p_term p) (Some (n, i)) p) Candidate i [] 0 (map (fun x => (fst x, 0)) ps))); auto.
    apply in_others; auto.
Qed.

Lemma upToDate_of : forall p l t li lt mc, logUpToDateAsOurs p l t li lt mc = true -> upToDate l li lt.
Proof.
  intros p l t li lt mc. unfold logUpToDateAsOurs, upToDate, lastIdx.
  destruct (mc <? p_mc p); [discriminate|]. destruct (t <? p_term p); [discriminate|].
  destruct (Nat.eqb_spec (length l) 0) as [E|_]; [left; destruct l; auto; discriminate|].
  destruct (Nat.ltb_spec (lastTerm l) lt); [auto|].
  destruct (Nat.ltb_spec lt (lastTerm l)); [discriminate|].
  intros Hle. apply Nat.leb_le in Hle. right; right; split; lia.
Qed.

Lemma covers_rv : forall from to t li lt mc sticky m' effs,
  In (RequestVote from to t li lt mc) net -> to = n ->
  handleRequestVote n (mkN m d) from t li lt mc sticky = (m', effs) ->
  covers (mkN m d) net effs m'.
Proof.
  intros from to t li lt mc sticky m' effs Hin Hto. subst to.
  destruct (proj2 (proj2 I) _ Hin) as (M1 & M2 & _). pose proof mc_le as Hmle.
  unfold handleRequestVote. red_n. 
  destruct (Nat.ltb_spec t (p_term (m_p m))) as [Ht|Ht].
  { intros [= <- <-]. apply covers_one; auto. apply nstar_one. simpl. apply ns_sendNo. auto. }
  destruct (is_leader (m_role m) || sticky) eqn:El.
  { intros [= <- <-]. change ([SaveTerm (m_p m); Send (Vote (n, m_inc m) (fst from) from false (p_term (m_p m)) (p_term (m_p m)) (p_mc (m_p m)))])
      with ([SaveTerm (m_p m)] ++ [Send (Vote (n, m_inc m) (fst from) from false (p_term (m_p m)) (p_term (m_p m)) (p_mc (m_p m)))]).
    eapply covers_app.
    - apply covers_one; eauto. simpl. rewrite app_nil_r. apply nstar_one, ns_save.
    - simpl. rewrite app_nil_r. apply covers_one; auto. simpl. apply nstar_one, ns_sendNo. auto. }
  apply orb_false_elim in El. destruct El as (El & _).
  destruct (Nat.ltb_spec (p_term (m_p m)) t) as [Hlt|Hge].
  - (* higher term *)
    destruct (becomeFollower m t (Some mc)) as (m1, e1) eqn:Eb.
    destruct (follow_higher t mc m1 e1 Hlt M2 Eb) as (F1 & F2 & F3 & F4 & F5 & F6 & F7 & F8 & F9).
    cbn [negb andb]. destruct (logUpToDateAsOurs (m_p m1) (d_log d) t li lt mc) eqn:Eu; intros [= <- <-].
    + change [SaveTerm (set_term_vote (p_term (m_p m1)) (Some from) (m_p m1)); Send (Vote (n, m_inc m) (fst from) from true (p_term (m_p m)) (p_term (m_p m1)) (p_mc (m_p m)))]
        with ([SaveTerm (set_term_vote (p_term (m_p m1)) (Some from) (m_p m1))] ++ [Send (Vote (n, m_inc m) (fst from) from true (p_term (m_p m)) (p_term (m_p m1)) (p_mc (m_p m)))]).
      rewrite app_assoc. eapply covers_app.
      * apply (covers_saveterm (mkN m d) net e1 _ (set_p (set_term_vote (p_term (m_p m1)) (Some from) (m_p m1)) m1)); auto.
        rewrite eff_disks_app, eff_msgs_app, F8. simpl. red_n. rewrite F6, app_nil_r.
        eapply nstar_trans; [exact F9|]. apply nstar_one. apply (ns_vote cfg strong n m1 (mkD (m_p m1) (d_log d)) net from); auto.
      * rewrite eff_disks_app, eff_msgs_app, F8. simpl. red_n. rewrite F6, app_nil_r.
        apply covers_one; auto. simpl. apply nstar_one. rewrite F3, <- F2.
        pose proof (ns_sendVote cfg strong n (set_p (set_term_vote t (Some from) (m_p m1)) m1)
          (mkD (set_term_vote t (Some from) (m_p m1)) (d_log d)) net from li lt mc (p_term (m_p m)) (p_mc (m_p m))) as X.
        red_n. apply X; auto; [eapply upToDate_of; eauto|lia].
    + change [SaveTerm (m_p m1); Send (Vote (n, m_inc m) (fst from) from false (p_term (m_p m)) (p_term (m_p m1)) (p_mc (m_p m)))]
        with ([SaveTerm (m_p m1)] ++ [Send (Vote (n, m_inc m) (fst from) from false (p_term (m_p m)) (p_term (m_p m1)) (p_mc (m_p m)))]).
      rewrite app_assoc. eapply covers_app.
      * apply (covers_saveterm (mkN m d) net e1 _ m1); auto.
        rewrite eff_disks_app, eff_msgs_app, F8. simpl. red_n. rewrite F6, app_nil_r. exact F9.
      * rewrite eff_disks_app, eff_msgs_app, F8. simpl. red_n. rewrite F6, app_nil_r.
        apply covers_one; auto. simpl. apply nstar_one. rewrite <- F2. apply ns_sendNo. lia.
  - (* same term *)
    assert (t = p_term (m_p m)) by lia. subst t. cbn [negb andb].
    destruct (match p_vote (m_p m) with Some v => negb (pid_eqb v from) | None => false end) eqn:Eo.
    { intros [= <- <-]. apply covers_one; auto. apply nstar_one. simpl. apply ns_sendNo. auto. }
    assert (Hv : p_vote (m_p m) = None \/ p_vote (m_p m) = Some from).
    { destruct (p_vote (m_p m)) as [v|]; auto. apply negb_false_iff, pid_eqb_eq in Eo. subst; auto. }
    assert (Hr : m_role m = Follower).
    { destruct (m_role m) eqn:Er; auto; [|discriminate]. exfalso.
      destruct (nl_cand _ _ _ _ HN Er) as (C1 & _). red_n. rewrite C1 in Hv. destruct Hv as [Hv|Hv]; [discriminate|].
      injection Hv as <-. apply M1. auto. }
    destruct (logUpToDateAsOurs (m_p m) (d_log d) (p_term (m_p m)) li lt mc) eqn:Eu; intros [= <- <-]; cbn [app].
    + change [SaveTerm (set_term_vote (p_term (m_p m)) (Some from) (m_p m)); Send (Vote (n, m_inc m) (fst from) from true (p_term (m_p m)) (p_term (m_p m)) (p_mc (m_p m)))]
        with ([SaveTerm (set_term_vote (p_term (m_p m)) (Some from) (m_p m))] ++ [Send (Vote (n, m_inc m) (fst from) from true (p_term (m_p m)) (p_term (m_p m)) (p_mc (m_p m)))]).
      eapply covers_app.
      * apply covers_one; [|apply nstar_one; simpl; rewrite app_nil_r; apply (ns_vote cfg strong n m d net from); auto]. reflexivity.
      * simpl. rewrite app_nil_r. apply covers_one; auto. simpl. apply nstar_one.
        pose proof (ns_sendVote cfg strong n (set_p (set_term_vote (p_term (m_p m)) (Some from) (m_p m)) m)
          (mkD (set_term_vote (p_term (m_p m)) (Some from) (m_p m)) (d_log d)) net from li lt mc (p_term (m_p m)) (p_mc (m_p m))) as X.
        red_n. apply X; auto. eapply upToDate_of; eauto.
    + change [SaveTerm (m_p m); Send (Vote (n, m_inc m) (fst from) from false (p_term (m_p m)) (p_term (m_p m)) (p_mc (m_p m)))]
        with ([SaveTerm (m_p m)] ++ [Send (Vote (n, m_inc m) (fst from) from false (p_term (m_p m)) (p_term (m_p m)) (p_mc (m_p m)))]).
      eapply covers_app.
      * apply covers_one; eauto. simpl. rewrite app_nil_r. apply nstar_one, ns_save.
      * simpl. rewrite app_nil_r. apply covers_one; auto. simpl. apply nstar_one, ns_sendNo. auto.
Qed.

Lemma covers_follow_save : forall t mc m1 e1,
  p_term (m_p m) < t -> mc <= t -> becomeFollower m t (Some mc) = (m1, e1) ->
  covers (mkN m d) net (e1 ++ [SaveTerm (m_p m1)]) m1.
Proof.
  intros t mc m1 e1 Ht Hmc Eb.
  destruct (follow_higher t mc m1 e1 Ht Hmc Eb) as (F1 & F2 & F3 & F4 & F5 & F6 & F7 & F8 & F9).
  apply covers_saveterm; auto. rewrite eff_disks_app, eff_msgs_app, F8. simpl. red_n. rewrite F6, app_nil_r. exact F9.
Qed.

Lemma covers_lead : forall p i vs np ps d1 m' effs nf,
  becomeLeader cfg n (mkM p Candidate i vs np ps) (d_log d1) = Some (m', effs) ->
  quorum cfg nf <= 1 + countVotes true vs -> 0 < length cfg ->
  covers (mkN (mkM p Candidate i vs np ps) d1) net effs m'.
Proof.
  intros p i vs np ps d1 m' effs nf. unfold becomeLeader. red_n.
  destruct (p_term p <=? p_mc p); [discriminate|]. intros [= <- <-] Hq Hc.
  set (l' := d_log d1 ++ [mkE (p_term p) noopCmd]). set (p' := set_mc (p_term p) p).
  set (m' := mkM p' Leader i vs (length l') ps).
  change (Wal l' :: ?a) with ([Wal l'] ++ a). rewrite app_assoc.
  apply covers_saveterm; auto.
  assert (Hs : forall xs dd, eff_disks dd (map (fun to => Send (newAE n m' l' (length (d_log d1)) 1 to)) xs) = dd).
  { induction xs; simpl; auto. }
  assert (Hm : forall xs, eff_msgs (map (fun to => Send (newAE n m' l' (length (d_log d1)) 1 to)) xs) = map (newAE n m' l' (length (d_log d1)) 1) xs).
  { induction xs; simpl; auto. rewrite IHxs; auto. }
  rewrite !eff_disks_app, !eff_msgs_app, Hs, Hm. simpl. rewrite app_nil_r.
  apply nstar_one. apply (ns_lead cfg strong n p i vs np (length l') ps d1 net).
  unfold quorum in Hq. pose proof (Nat.div_mod_eq (length cfg) 2). pose proof (Nat.mod_upper_bound (length cfg) 2 ltac:(lia)).
  destruct nf; lia.
Qed.

Lemma covers_vote : forall from to cand g ft t mc alive nf m' effs,
  In (Vote from to cand g ft t mc) net ->
  tallyVote cfg n (mkN m d) from cand g ft t mc alive nf = Some (m', effs) ->
  covers (mkN m d) net effs m'.
Proof.
  intros from to cand g ft t mc alive nf m' effs Hin.
  destruct (proj2 (proj2 I) _ Hin) as (M1 & M2).
  unfold tallyVote. red_n.
  destruct (Nat.ltb_spec t (p_term (m_p m))); [intros [= <- <-]; apply covers_refl|].
  destruct (Nat.ltb_spec (p_term (m_p m)) t) as [Hlt|].
  { destruct (becomeFollower m t (Some mc)) as (m1, e1) eqn:Eb. intros [= <- <-]. apply (covers_follow_save t mc); auto. }
  destruct (is_cand (m_role m)) eqn:Er; cbn [negb]; [|intros [= <- <-]; apply covers_refl].
  destruct (inCfg cfg (fst from)) eqn:Ei; cbn [negb]; [|intros [= <- <-]; apply covers_refl].
  destruct (g && ((p_mc (m_p m) <? mc) || (p_term (m_p m) <=? ft))); [intros [= <- <-]; apply covers_refl|].
  assert (t = p_term (m_p m)) by lia. subst t.
  assert (Hr : m_role m = Candidate) by (destruct (m_role m); simpl in Er; congruence).
  destruct (nl_cand _ _ _ _ HN Hr) as (C1 & C2 & _). red_n.
  assert (Hc : 0 < length cfg) by (destruct cfg; simpl in *; [tauto|lia]).
  set (fresh := pid_eqb cand (n, m_inc m) && alive && negb (existsb (fun x => fst x =? fst from) (m_votes m))).
  set (votes := if fresh then (fst from, g) :: m_votes m else m_votes m).
  set (peers := if fresh then addPeer from (m_peers m) else m_peers m).
  assert (Hm1 : nstar (mkN m d) net (mkN (mkM (m_p m) (m_role m) (m_inc m) votes (m_noop m) peers) d) net).
  { destruct fresh eqn:Ef; subst votes peers; [|destruct m; apply nstar_refl].
    unfold fresh in Ef. apply andb_prop in Ef. destruct Ef as (Ef & Ef3). apply andb_prop in Ef. destruct Ef as (Ef1 & _).
    apply pid_eqb_eq in Ef1. apply negb_true_iff in Ef3.
    assert (Hn : ~ In (fst from) (map fst (m_votes m))).
    { intros X. apply in_map_iff in X. destruct X as (y & Hy & Hiny).
      assert (existsb (fun x => fst x =? fst from) (m_votes m) = true).
      { apply existsb_exists. exists y. split; auto. apply Nat.eqb_eq; auto. } congruence. }
    rewrite Hr. subst cand. destruct m as [p r i vs np ps]. red_n. subst r. apply nstar_one. destruct g.
    - eapply ns_count; eauto; [apply inCfg_In; auto|]. apply addPeer_In.
    - apply ns_local; auto.
      + intros v [Hv|Hv]; [discriminate|auto].
      + intros Hd. simpl. constructor; auto.
      + apply addPeer_In. }
  rewrite Hr in *.
  destruct (quorum cfg nf <=? 1 + countVotes true votes) eqn:Eq.
  { intros Hb. apply Nat.leb_le in Eq. eapply covers_mem; [|exact Hm1|]; [reflexivity|]. eapply covers_lead; eauto. }
  destruct (quorum cfg nf <=? countVotes false votes).
  { unfold becomeFollower. red_n. rewrite Nat.ltb_irrefl. cbn [orb]. intros [= <- <-].
    eapply covers_mem; [|exact Hm1|]; [reflexivity|]. apply covers_nil; auto. apply nstar_one. apply ns_local; auto. }
  intros [= <- <-]. apply covers_nil; auto.
Qed.

Lemma commit_covers : forall m1 d1 net1 q e,
  commitWhatWeCan (m_p m1) (d_log d1) = (q, e) -> covers (mkN m1 d1) net1 e (set_p q m1).
Proof.
  intros m1 d1 net1 q e. unfold commitWhatWeCan.
  destruct (Nat.ltb_spec (length (p_applied (m_p m1))) (p_commit (m_p m1))).
  - intros [= <- <-]. apply covers_one; auto. simpl. rewrite app_nil_r.
    eapply nstar_step; [apply ns_apply; lia|]. apply nstar_one. apply ns_save.
  - intros [= <- <-]. destruct m1. apply covers_refl.
Qed.

Lemma advance_covers : forall m1 m' effs nf,
  m_role m1 = Leader -> leaderAdvanceCommitIndex cfg m1 (d_log d) nf = (m', effs) ->
  (strong = true -> NoDup (n :: map (fun x => fst (fst x)) (m_peers m'))) ->
  covers (mkN m1 d) net effs m'.
Proof.
  intros m1 m' effs nf Hr. unfold leaderAdvanceCommitIndex.
  destruct (nth_error (sortDesc (matchIndexes cfg m1 (d_log d))) (quorum cfg nf - 1)) as [ci|] eqn:Es.
  2:{ intros [= <- <-] _. apply covers_refl. }
  destruct ((ci =? 0) || (ci <=? p_commit (m_p m1)) || (length (d_log d) <? ci) || negb (termAt (d_log d) ci =? p_term (m_p m1))) eqn:E.
  { intros [= <- <-] _. apply covers_refl. }
  apply orb_false_elim in E. destruct E as (E & E4). apply orb_false_elim in E. destruct E as (E & E3).
  apply orb_false_elim in E. destruct E as (E1 & E2).
  apply Nat.eqb_neq in E1. apply Nat.leb_gt in E2. apply Nat.ltb_ge in E3. apply negb_false_iff, Nat.eqb_eq in E4.
  destruct (commitWhatWeCan (set_commit ci (m_p m1)) (d_log d)) as (q, e) eqn:Ec. intros [= <- <-] Hnd.
  eapply covers_mem; [| |].
  2:{ apply nstar_one. eapply ns_commitLead; eauto. lia. }
  - reflexivity.
  - pose proof (commit_covers (set_p (set_commit ci (m_p m1)) m1) d net q e Ec) as X. exact X.
Qed.

Lemma covers_ack : forall from to ldr st t rej gap lcri li mc nf force m' effs,
  In (Ack from to ldr st t rej gap lcri li mc) net ->
  handleAck cfg n (mkN m d) from ldr t rej gap lcri li mc nf force = (m', effs) ->
  (strong = true -> ldr = (n, m_inc m) -> t = p_term (m_p m) -> m_role m = Leader -> st = t) ->
  (strong = true -> m_role m' = Leader -> NoDup (n :: map (fun x => fst (fst x)) (m_peers m'))) ->
  covers (mkN m d) net effs m'.
Proof.
  intros from to ldr st t rej gap lcri li mc nf force m' effs Hin. unfold handleAck. red_n.
  pose proof (proj2 (proj2 I) _ Hin) as M. cbn [msgL] in M.
  destruct (Nat.ltb_spec (p_term (m_p m)) t) as [Hlt|].
  { destruct (becomeFollower m t (Some mc)) as (m1, e1) eqn:Eb. intros [= <- <-] _ _. apply (covers_follow_save t mc); auto. }
  destruct ((t <? p_term (m_p m)) || negb (is_leader (m_role m)) || negb (pid_eqb ldr (n, m_inc m))) eqn:E.
  { intros [= <- <-] _ _. apply covers_refl. }
  apply orb_false_elim in E. destruct E as (E & E3). apply orb_false_elim in E. destruct E as (E1 & E2).
  apply Nat.ltb_ge in E1. apply negb_false_iff in E2, E3. apply pid_eqb_eq in E3.
  assert (t = p_term (m_p m)) by lia. subst t.
  assert (Hr : m_role m = Leader) by (destruct (m_role m); simpl in E2; congruence). rewrite Hr.
  intros Hh G2 G3.
  destruct m as [p r i vs np ps]. red_n. subst r ldr.
  set (peers := addPeer from ps) in *.
  assert (H0 : nstar (mkN (mkM p Leader i vs np ps) d) net (mkN (mkM p Leader i vs np peers) d) net).
  { apply nstar_one. apply ns_local; auto. apply addPeer_In. }
  assert (Hk : forall k, k = (if rej then lcri else li) ->
     nstar (mkN (mkM p Leader i vs np ps) d) net (mkN (mkM p Leader i vs np (setPeer from k peers)) d) net).
  { intros k Ek. apply nstar_one. eapply ns_match; eauto.
    intros q j Hq. apply setPeer_In in Hq. destruct Hq as [Hq|Hq]; auto.
    apply addPeer_In in Hq. destruct Hq; auto. }
  assert (Hadv : forall m1, m_role m1 = Leader -> m_role (fst (leaderAdvanceCommitIndex cfg m1 (d_log d) nf)) = Leader).
  { intros m1 H1. unfold leaderAdvanceCommitIndex. destruct (nth_error _ _); auto.
    destruct (_ || _); auto. destruct (commitWhatWeCan _ _); auto. }
  assert (Hgo : forall k, k = (if rej then lcri else li) ->
     leaderAdvanceCommitIndex cfg (mkM p Leader i vs np (setPeer from k peers)) (d_log d) nf = (m', effs) ->
     covers (mkN (mkM p Leader i vs np ps) d) net effs m').
  { intros k Ek Ha. eapply covers_mem; [|apply Hk; exact Ek|]; [reflexivity|].
    eapply advance_covers; eauto. intros Hs. apply G3; auto.
    change m' with (fst (m', effs)). rewrite <- Ha. apply Hadv. auto. }
  destruct rej.
  - destruct gap; [injection Hh as <- <-; apply covers_nil; auto|].
    destruct (_ <? lcri); [|injection Hh as <- <-; apply covers_nil; auto]. eapply Hgo; eauto.
  - destruct (_ <? li); [eapply Hgo; eauto|].
    destruct force; [|injection Hh as <- <-; apply covers_nil; auto].
    eapply covers_mem; [|exact H0|]; [reflexivity|]. eapply advance_covers; eauto. intros Hs. apply G3; auto.
    change m' with (fst (m', effs)). rewrite <- Hh. apply Hadv. auto.
Qed.

Lemma covers_wal : forall es net1 d1 l,
  m_role m = Leader -> d_log d1 = l -> (forall e, In e es -> e_term e = p_term (m_p m)) ->
  covers (mkN m d1) net1 (walWrites l es) m /\ eff_disks d1 (walWrites l es) = mkD (d_p d1) (l ++ es).
Proof.
  intros es net1 d1 l Hr Hl He. unfold walWrites. cbn [seq map].
  assert (X : forall k a, a <= k -> k <= length es -> forall dp, 
     covers (mkN m (mkD dp (l ++ firstn a es))) net1 (map (fun k => Wal (l ++ firstn k es)) (seq (S a) (k - a))) m /\
     eff_disks (mkD dp (l ++ firstn a es)) (map (fun k => Wal (l ++ firstn k es)) (seq (S a) (k - a))) = mkD dp (l ++ firstn k es)).
  { intros k a Ha Hk dp. remember (k - a) as j eqn:Ej. revert a Ha Ej. induction j as [|j IH]; intros a Ha Ej.
    - replace k with a by lia. simpl. split; [apply covers_refl|auto].
    - cbn [seq map]. destruct (IH (S a) ltac:(lia) ltac:(lia)) as (IH1 & IH2).
      destruct (nth_some _ es a) as [e Hea]; [lia|].
      assert (Ee : firstn (S a) es = firstn a es ++ [e]).
      { clear -Hea. revert a Hea. induction es as [|x es IH]; intros [|a] H; simpl in *; try discriminate.
        - injection H as ->. auto.
        - rewrite (IH a H). auto. }
      split; [|exact IH2].
      change (Wal (l ++ firstn (S a) es) :: ?r) with ([Wal (l ++ firstn (S a) es)] ++ r).
      eapply covers_app.
      + apply covers_one; eauto. apply nstar_one. simpl eff_msgs. rewrite app_nil_r.
        pose proof (ns_append cfg strong n m (mkD dp (l ++ firstn a es)) net1 (e_cmd e) Hr) as Y. red_n.
        cbn [eff_disk d_p]. rewrite Ee, app_assoc.
        replace (mkE (p_term (m_p m)) (e_cmd e)) with e in Y; auto.
        rewrite <- (He e); [destruct e; auto|eapply nth_error_In; eauto].
      + simpl eff_msgs. rewrite app_nil_r. exact IH1. }
  destruct d1 as [dp dl]. red_n. subst dl.
  destruct (X (length es) 0 ltac:(lia) ltac:(lia) dp) as (X1 & X2).
  simpl firstn in *. rewrite app_nil_r in *. rewrite Nat.sub_0_r in *. rewrite firstn_all in X2.
  change (Wal l :: ?r) with ([Wal l] ++ r). split.
  - eapply covers_app; [|simpl; rewrite app_nil_r; exact X1].
    apply covers_one; auto. simpl. rewrite app_nil_r. apply nstar_refl.
  - exact X2.
Qed.

Lemma sendAE_step : forall l0 net' prev cnt to d1, m_role m = Leader -> to <> n -> d_log d1 = l0 -> prev <= length l0 ->
  (strong = true -> length l0 <= prev + cnt) ->
  nstep (mkN m d1) net' (mkN m d1) (net' ++ [newAE n m l0 prev cnt to]).
Proof.
  intros l0 net' prev cnt to d1 Hr Hto <- Hp Hs. apply ns_sendAE; auto.
Qed.

Lemma covers_propose : forall cmds cnt m' effs,
  replicateBatch cfg n (mkN m d) cmds cnt = Some (m', effs) ->
  (strong = true -> length cmds <= cnt) -> covers (mkN m d) net effs m'.
Proof.
  intros cmds cnt m' effs. unfold replicateBatch. red_n.
  destruct (is_leader (m_role m)) eqn:Er; cbn [negb orb]; [|discriminate].
  destruct ((p_commit (m_p m) <? m_noop m) || (length cmds =? 0)); [discriminate|].
  intros Hh Hs. apply Some_pair_inj in Hh. destruct Hh as (-> & ->).
  assert (Hr : m_role m = Leader) by (destruct (m_role m); simpl in Er; congruence).
  set (es := map (mkE (p_term (m_p m))) cmds).
  destruct (covers_wal es net d (d_log d) Hr eq_refl) as (A & B).
  { intros e He. subst es. apply in_map_iff in He. destruct He as (? & <- & _); auto. }
  assert (Hem : eff_msgs (walWrites (d_log d) es) = []).
  { unfold walWrites. generalize (seq 0 (S (length es))). induction l; simpl; auto. }
  eapply covers_app; [exact A|]. red_n. rewrite B, Hem, app_nil_r.
  rewrite <- map_map with (f := fun to => newAE n m (d_log d ++ es) (length (d_log d)) cnt to) (g := Send).
  apply covers_sends. intros x net' Hx _. apply in_map_iff in Hx. destruct Hx as (to & <- & Hto).
  apply sendAE_step; auto; [apply in_others; auto|rewrite app_length; lia|].
  intros Hss. rewrite app_length. subst es. rewrite map_length. specialize (Hs Hss). lia.
Qed.
End with_inv.
End refine.
